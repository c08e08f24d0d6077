(** Proofs about saving and loading. *)
From Coq Require Import List Arith Lia Bool String Ascii.
From Verif Require Import Res ModelStore SpecStore.
Import ListNotations.
Local Open Scope nat_scope.

Lemma rfind_0 c p : rfind c p = 0 <-> ~ In c p.
Proof.
  induction p as [|x p IH]; cbn; [intuition|]. destruct (rfind c p) eqn:E.
  - destruct (Ascii.eqb_spec x c); [subst; intuition discriminate|]. intuition.
  - split; [discriminate|]. intros H. exfalso. assert (S n <> 0) by lia. apply H0, IH. intros I. apply H. right. exact I.
Qed.
Lemma rfind_app c p q : rfind c (p ++ q) = match rfind c q with O => rfind c p | S k => List.length p + S k end.
Proof.
  induction p as [|x p IH]; cbn; [destruct (rfind c q); reflexivity|]. rewrite IH. destruct (rfind c q); [reflexivity|].
  destruct (List.length p + S n) eqn:E; lia.
Qed.
Lemma rfind_le c p : rfind c p <= List.length p.
Proof. induction p as [|x p IH]; cbn; [lia|]. destruct (rfind c p); [destruct Ascii.eqb; lia|lia]. Qed.
Lemma rfind_split c p : In c p -> exists a b, p = a ++ c :: b /\ ~ In c b /\ rfind c p = S (List.length a).
Proof.
  induction p as [|x p IH]; [intros []|]. intros H. destruct (in_dec ascii_dec c p) as [I|N].
  - destruct (IH I) as (a & b & -> & Hb & E). exists (x :: a), b. split; [reflexivity|]. split; [exact Hb|]. cbn [rfind]. rewrite E. reflexivity.
  - destruct H as [-> |]; [|contradiction]. exists [], p. split; [reflexivity|]. split; [exact N|]. cbn. apply rfind_0 in N. rewrite N, Ascii.eqb_refl. reflexivity.
Qed.

(** ** The extension of a path *)
Lemma extension_of dir stem t : (dir = [] \/ exists d, dir = d ++ [slash]) -> ~ In slash stem -> (exists c, In c stem /\ c <> dot) ->
  (forall c, In c t -> c <> dot /\ c <> slash) -> extension (dir ++ stem ++ dot :: t) = dot :: t.
Proof.
  intros HD HS (c & Hc & Nc) HT. unfold extension.
  assert (T0 : rfind dot t = 0) by (apply rfind_0; intros I; apply HT in I; tauto).
  assert (T1 : rfind slash t = 0) by (apply rfind_0; intros I; apply HT in I; tauto).
  assert (S0 : rfind slash stem = 0) by (apply rfind_0; exact HS).
  assert (ES : rfind slash (dir ++ stem ++ dot :: t) = List.length dir).
  { rewrite rfind_app, rfind_app. cbn [rfind]. rewrite T1. cbn. rewrite S0. destruct HD as [-> |(d & ->)]; [reflexivity|]. rewrite rfind_app. cbn. rewrite app_length. cbn. reflexivity. }
  assert (ED : rfind dot (dir ++ stem ++ dot :: t) = List.length dir + (List.length stem + 1)).
  { rewrite rfind_app, rfind_app. cbn [rfind]. rewrite T0. cbn. rewrite Nat.add_1_r. reflexivity. }
  rewrite ES, ED. destruct (Nat.ltb_spec (List.length dir) (List.length dir + (List.length stem + 1))); [|lia].
  replace (List.length dir + (List.length stem + 1) - 1 - List.length dir) with (List.length stem) by lia.
  replace (List.length dir + (List.length stem + 1) - 1) with (List.length dir + List.length stem) by lia.
  rewrite skipn_app, skipn_all, Nat.sub_diag. cbn [app skipn]. rewrite firstn_app, firstn_all, Nat.sub_diag. cbn [firstn]. rewrite app_nil_r.
  assert (X : existsb (fun c => negb (Ascii.eqb c dot)) stem = true).
  { apply existsb_exists. exists c. split; [exact Hc|]. destruct (Ascii.eqb_spec c dot); [contradiction|reflexivity]. }
  rewrite X. rewrite app_assoc. rewrite skipn_app, skipn_all2 by (rewrite app_length; lia). rewrite app_length, Nat.sub_diag. reflexivity.
Qed.
Lemma extension_cases p : extension p = [] \/ exists dir stem t, p = dir ++ stem ++ dot :: t /\ (dir = [] \/ exists d, dir = d ++ [slash]) /\
  ~ In slash stem /\ (exists c, In c stem /\ c <> dot) /\ (forall c, In c t -> c <> dot /\ c <> slash) /\ extension p = dot :: t.
Proof.
  unfold extension at 1. destruct (Nat.ltb_spec (rfind slash p) (rfind dot p)) as [LT|]; [|left; reflexivity].
  destruct (existsb _ _) eqn:X; [|left; reflexivity]. right.
  destruct (in_dec ascii_dec dot p) as [ID|ND]; [|apply rfind_0 in ND; lia].
  destruct (rfind_split dot p ID) as (a & t & -> & Ht & ED). rewrite ED in LT, X.
  assert (NT : ~ In slash t).
  { intros I. destruct (rfind_split slash t I) as (u & v & -> & _ & E). rewrite rfind_app in LT. cbn [rfind] in LT. rewrite E in LT. lia. }
  assert (ES : rfind slash (a ++ dot :: t) = rfind slash a).
  { rewrite rfind_app. cbn [rfind]. apply rfind_0 in NT. rewrite NT. reflexivity. }
  rewrite ES in *. replace (S (List.length a) - 1 - rfind slash a) with (List.length a - rfind slash a) in X by lia.
  exists (firstn (rfind slash a) a), (skipn (rfind slash a) a), t. pose proof (rfind_le slash a) as LE.
  rewrite skipn_app in X. replace (rfind slash a - List.length a) with 0 in X by lia. cbn [skipn] in X.
  rewrite firstn_app in X. rewrite skipn_length in X. replace (List.length a - rfind slash a - (List.length a - rfind slash a)) with 0 in X by lia.
  cbn [firstn] in X. rewrite app_nil_r, firstn_all2 in X by (rewrite skipn_length; lia).
  assert (P1 : firstn (rfind slash a) a = [] \/ exists d, firstn (rfind slash a) a = d ++ [slash]).
  { destruct (in_dec ascii_dec slash a) as [I|N]; [|left; apply rfind_0 in N; rewrite N; reflexivity]. right.
    destruct (rfind_split slash a I) as (u & v & -> & _ & ->). exists u. change (u ++ slash :: v) with (u ++ [slash] ++ v). rewrite app_assoc.
    rewrite firstn_app. rewrite app_length. cbn [List.length]. replace (S (List.length u) - (List.length u + 1)) with 0 by lia. rewrite firstn_O, app_nil_r.
    apply firstn_all2. rewrite app_length. cbn. lia. }
  assert (P2 : ~ In slash (skipn (rfind slash a) a)).
  { destruct (in_dec ascii_dec slash a) as [I|N]; [|intros H; apply N; rewrite <- (firstn_skipn (rfind slash a) a); apply in_or_app; right; exact H].
    destruct (rfind_split slash a I) as (u & v & -> & NV & ->). change (u ++ slash :: v) with (u ++ [slash] ++ v). rewrite app_assoc, skipn_app, app_length.
    cbn [List.length]. replace (S (List.length u) - (List.length u + 1)) with 0 by lia. rewrite skipn_all2 by (rewrite app_length; cbn; lia). exact NV. }
  assert (P3 : exists c, In c (skipn (rfind slash a) a) /\ c <> dot).
  { apply existsb_exists in X as (c & Hc & E). exists c. split; [exact Hc|]. intros ->. rewrite Ascii.eqb_refl in E. discriminate. }
  assert (P4 : forall c, In c t -> c <> dot /\ c <> slash) by (intros c Hc; split; intros ->; contradiction).
  split; [rewrite app_assoc, firstn_skipn; reflexivity|]. repeat (split; [assumption|]).
  rewrite <- (firstn_skipn (rfind slash a) a) at 1. rewrite <- app_assoc. apply extension_of; assumption.
Qed.

Lemma chars_app a b : list_ascii_of_string (a ++ b) = (list_ascii_of_string a ++ list_ascii_of_string b)%list.
Proof. induction a as [|x a IH]; [reflexivity|]. cbn. f_equal. exact IH. Qed.
Lemma chars_inj a b : list_ascii_of_string a = list_ascii_of_string b -> a = b.
Proof. intros E. rewrite <- (string_of_list_ascii_of_string a), E. apply string_of_list_ascii_of_string. Qed.
Lemma string_app a b : string_of_list_ascii (a ++ b) = (string_of_list_ascii a ++ string_of_list_ascii b)%string.
Proof. induction a as [|x a IH]; [reflexivity|]. cbn. f_equal. exact IH. Qed.

Lemma ext_iff e name : plain_extension e -> (ext_of name = e <-> has_extension e name).
Proof.
  intros (t & -> & Ht). unfold ext_of. split.
  - intros E. destruct (extension_cases (list_ascii_of_string name)) as [N|(dir & stem & t' & P & HD & HS & HC & _ & X)]; [rewrite N in E; discriminate|].
    rewrite X in E. cbn in E. injection E as E.
    exists (string_of_list_ascii dir), (string_of_list_ascii stem). repeat split.
    + apply chars_inj. rewrite P, !chars_app, !list_ascii_of_string_of_list_ascii. cbn. rewrite <- E, list_ascii_of_string_of_list_ascii. reflexivity.
    + destruct HD as [-> |(d & ->)]; [left; reflexivity|right]. exists (string_of_list_ascii d). rewrite string_app. reflexivity.
    + rewrite list_ascii_of_string_of_list_ascii. exact HS.
    + rewrite list_ascii_of_string_of_list_ascii. exact HC.
  - intros (dir & stem & -> & HD & HS & HC). rewrite !chars_app.
    change (list_ascii_of_string "." ++ list_ascii_of_string t)%list with (dot :: list_ascii_of_string t). rewrite extension_of; [cbn; rewrite string_of_list_ascii_of_string; reflexivity| |exact HS|exact HC|exact Ht].
    destruct HD as [-> |(d & ->)]; [left; reflexivity|right]. exists (list_ascii_of_string d). rewrite chars_app. reflexivity.
Qed.
Lemma plain_pkl : plain_extension ".pkl".
Proof. exists "pkl"%string. split; [reflexivity|]. cbn. intros c [<-|[<-|[<-|[]]]]; split; discriminate. Qed.
Lemma plain_mat : plain_extension ".mat".
Proof. exists "mat"%string. split; [reflexivity|]. cbn. intros c [<-|[<-|[<-|[]]]]; split; discriminate. Qed.

Section Store.
  Context {V : Type} (picklable : V -> bool) (mat : V -> option V) (meta : V) (today : string).
  Notation world := (world V). Notation save := (save picklable mat today). Notation load := (load meta).
  Notation step := (step picklable mat meta today). Notation session := (session picklable mat meta today).

  Lemma set_attr_files (w : world) o k v : files (fst (set_attr w o k v)) = files w.
  Proof. unfold set_attr. destruct (nth_error (objs w) o) as [l|]; [|reflexivity]. destruct (nth_error (dicts w) l); reflexivity. Qed.
  Lemma load_files (w : world) o n : files (fst (load w o n)) = files w.
  Proof.
    unfold ModelStore.load. destruct (o <? _); cbn [negb]; [|reflexivity]. destruct String.eqb; [destruct (files w n) as [[| |]|]; reflexivity|].
    destruct String.eqb; [destruct (files w n) as [[| |]|]; reflexivity|reflexivity].
  Qed.
  Lemma save_files (w : world) o n x : (match n with Some n => n | None => today ++ "_ed.pkl" end)%string <> x -> files (fst (save w o n)) x = files w x.
  Proof.
    intros N. unfold ModelStore.save. destruct (attrs w o) as [d|]; [|reflexivity]. set (nm := match n with Some n => n | None => _ end) in *.
    assert (W : forall f, files (write w nm f) x = files w x) by (intros f; cbn; destruct (String.eqb_spec x nm); [congruence|reflexivity]).
    destruct String.eqb; [destruct (mat_vars mat d); apply W|]. destruct String.eqb; [destruct forallb; apply W|reflexivity].
  Qed.
  Lemma session_files (w : world) xs n : (forall x, In x xs -> saved_to today x <> Some n) -> files (session w xs) n = files w n.
  Proof.
    revert w. induction xs as [|x xs IH]; intros w H; [reflexivity|]. change (session w (x :: xs)) with (session (step w x) xs).
    rewrite IH by (intros y Hy; apply H; right; exact Hy). specialize (H x (or_introl eq_refl)).
    destruct x as [o k v|o m|o m]; cbn.
    - rewrite set_attr_files. reflexivity.
    - apply save_files. cbn in H. destruct m; congruence.
    - rewrite load_files. reflexivity.
  Qed.

  Lemma nth_set_nth {A} k (x : A) l j : nth_error (set_nth k x l) j = if (j =? k) && (k <? List.length l) then Some x else nth_error l j.
  Proof.
    revert k j. induction l as [|y l IH]; intros k j; [cbn; rewrite andb_false_r; destruct k; reflexivity|].
    destruct k, j; cbn; try reflexivity. rewrite IH. reflexivity.
  Qed.
  Lemma set_nth_length {A} k (x : A) l : List.length (set_nth k x l) = List.length l.
  Proof. revert k. induction l as [|y l IH]; intros [|k]; cbn; auto. Qed.

  (** A successful save followed by any session that does not save to this file, and a
      load into any model. *)
  Lemma load_pickle (w : world) o n d : files w n = Some (PickleFile d) -> has_extension ".pkl" n -> o < List.length (objs w) ->
    exists w' r, load w o n = (w', Ok r) /\ attrs w' o = Some d /\ attrs w' (List.length (objs w)) = Some d /\ r = LoadedObject (List.length (objs w)).
  Proof.
    intros F H Ho. unfold ModelStore.load. apply Nat.ltb_lt in Ho as Ho'. rewrite Ho'. cbn [negb].
    apply (ext_iff _ _ plain_pkl) in H. rewrite H. cbn [String.eqb]. change (String.eqb ".pkl" ".mat") with false. change (String.eqb ".pkl" ".pkl") with true. cbn iota.
    rewrite F. eexists. eexists. split; [reflexivity|]. unfold attrs. cbn [objs dicts].
    assert (D : nth_error (dicts w ++ [d]) (List.length (dicts w)) = Some d) by (rewrite nth_error_app2 by lia; rewrite Nat.sub_diag; reflexivity).
    split; [|split; [|reflexivity]].
    - rewrite nth_error_app1 by (rewrite set_nth_length; exact Ho). rewrite nth_set_nth, Nat.eqb_refl, Ho'. cbn [andb]. exact D.
    - rewrite nth_error_app2 by (rewrite set_nth_length; lia). rewrite set_nth_length, Nat.sub_diag. cbn. exact D.
  Qed.
  Lemma round_trip (w : world) o n d : has_extension ".pkl" n -> attrs w o = Some d -> (forall k v, In (k, v) d -> picklable v = true) ->
    exists w', save w o (Some n) = (w', Ok n) /\
      (forall i, attrs w' i = attrs w i) /\
      forall xs o', (forall x, In x xs -> saved_to today x <> Some n) -> o' < List.length (objs (session w' xs)) ->
        exists w'' r, load (session w' xs) o' n = (w'', Ok r) /\ attrs w'' o' = Some d.
  Proof.
    intros H A P. exists (write w n (PickleFile d)). split; [|split; [reflexivity|]].
    - unfold ModelStore.save. rewrite A. apply (ext_iff _ _ plain_pkl) in H. rewrite H. change (String.eqb ".pkl" ".mat") with false. change (String.eqb ".pkl" ".pkl") with true. cbn iota.
      assert (X : forallb (fun kv => picklable (snd kv)) d = true) by (apply forallb_forall; intros [k v] I; apply (P k v I)). rewrite X. reflexivity.
    - intros xs o' N Ho. destruct (load_pickle (session (write w n (PickleFile d)) xs) o' n d) as (w'' & r & E & A' & _); [|exact H|exact Ho|eauto].
      rewrite session_files by exact N. cbn. rewrite String.eqb_refl. reflexivity.
  Qed.
  Lemma default_name (w : world) o d : (~ In slash (list_ascii_of_string today)) -> attrs w o = Some d -> (forall k v, In (k, v) d -> picklable v = true) ->
    save w o None = save w o (Some (today ++ "_ed.pkl")%string) /\ has_extension ".pkl" (today ++ "_ed.pkl").
  Proof. clear meta.
    intros T A P. split; [reflexivity|]. exists ""%string, (today ++ "_ed")%string. split; [cbn; apply chars_inj; rewrite !chars_app; cbn; rewrite <- app_assoc; reflexivity|].
    split; [left; reflexivity|]. rewrite chars_app. split; [intros I; apply in_app_or in I as [I|I]; [contradiction|cbn in I; intuition discriminate]|].
    exists "_"%char. split; [apply in_or_app; right; left; reflexivity|discriminate].
  Qed.
  Lemma rejected (w : world) o n : attrs w o <> None -> o < List.length (objs w) -> ~ has_extension ".pkl" n -> ~ has_extension ".mat" n ->
    save w o (Some n) = (w, Raise ValueError) /\ load w o n = (w, Raise ValueError).
  Proof.
    intros A Ho H1 H2. assert (E1 : String.eqb (ext_of n) ".pkl" = false).
    { destruct (String.eqb_spec (ext_of n) ".pkl") as [E|]; [|reflexivity]. apply (ext_iff _ _ plain_pkl) in E. contradiction. }
    assert (E2 : String.eqb (ext_of n) ".mat" = false).
    { destruct (String.eqb_spec (ext_of n) ".mat") as [E|]; [|reflexivity]. apply (ext_iff _ _ plain_mat) in E. contradiction. }
    unfold ModelStore.save, ModelStore.load. destruct (attrs w o); [|contradiction]. apply Nat.ltb_lt in Ho. rewrite Ho, E1, E2. split; reflexivity.
  Qed.
  (** A load which raises leaves everything as it was. *)
  Lemma failed_load (w : world) o n e : snd (load w o n) = Raise e -> fst (load w o n) = w.
  Proof.
    unfold ModelStore.load. destruct (o <? _); cbn [negb]; [|reflexivity]. destruct String.eqb; [destruct (files w n) as [[| |]|]; try reflexivity; discriminate|].
    destruct String.eqb; [destruct (files w n) as [[| |]|]; try reflexivity; discriminate|reflexivity].
  Qed.

  (** ** MATLAB files *)
  Lemma lookup_put k v (d : dict V) k' : lookup k' (put k v d) = if String.eqb k k' then Some v else lookup k' d.
  Proof.
    unfold lookup. induction d as [|[x y] d IH]; [cbn; destruct (String.eqb k k'); reflexivity|]. cbn [put].
    destruct (String.eqb_spec x k) as [-> |N]; cbn [find fst].
    - destruct (String.eqb k k'); reflexivity.
    - destruct (String.eqb_spec x k') as [<-|]; [|exact IH]. destruct (String.eqb_spec k x); [congruence|reflexivity].
  Qed.
  Definition no_underscore (k : string) : bool := negb (starts "_"%char k).
  Lemma no_underscore_meta k : no_underscore k = true -> String.eqb (substring 0 2 k) "__" = false.
  Proof.
    destruct k as [|c k]; [reflexivity|]. unfold no_underscore, starts. intros H. destruct (Ascii.eqb_spec c "_"%char) as [|N]; [discriminate|].
    cbn. destruct (Ascii.eqb_spec c "_"%char); [contradiction|reflexivity].
  Qed.
  Lemma fold_put (vars d0 : dict V) k : NoDup (map fst vars) -> (forall k v, In (k, v) vars -> no_underscore k = true) ->
    lookup k (fold_left (fun d kv => if String.eqb (substring 0 2 (fst kv)) "__" then d else put (fst kv) (snd kv) d) vars d0) =
    match lookup k vars with Some v => Some v | None => lookup k d0 end.
  Proof.
    revert d0. induction vars as [|[x y] vars IH]; intros d0 ND H; [reflexivity|]. inversion ND as [|? ? NI ND']; subst. cbn [fold_left fst snd].
    rewrite no_underscore_meta by (apply (H x y); left; reflexivity). rewrite IH by (try exact ND'; intros; apply (H k0 v); right; assumption).
    rewrite lookup_put. unfold lookup. cbn [find fst]. destruct (String.eqb_spec x k) as [<-|N]; [|reflexivity]. cbn.
    destruct (find (fun kv => String.eqb (fst kv) x) vars) as [[x' y']|] eqn:E; [|reflexivity]. exfalso. apply find_some in E as [I E]. apply String.eqb_eq in E. cbn in E. subst x'.
    apply NI. apply in_map_iff. exists (x, y'). auto.
  Qed.
  Lemma rmap_vars (d vars : dict V) : rmap (fun kv => match mat (snd kv) with Some v => Ok (fst kv, v) | None => Raise TypeError end) d = Ok vars ->
    map fst vars = map fst d /\ forall k, lookup k vars = match lookup k d with Some v => mat v | None => None end.
  Proof.
    revert vars. induction d as [|[x y] d IH]; intros vars E; [injection E as <-; split; reflexivity|]. cbn [rmap fst snd] in E.
    destruct (mat y) as [y'|] eqn:M; cbn [bind] in E; [|discriminate]. destruct (rmap _ d) as [vs|] eqn:R; cbn [bind] in E; [|discriminate]. injection E as <-.
    destruct (IH vs eq_refl) as [F L]. split; [cbn; f_equal; exact F|]. intros k. unfold lookup in *. cbn [find fst]. destruct (String.eqb x k); [cbn; symmetry; exact M|apply L].
  Qed.
  Lemma lookup_filter (d : dict V) k (p : string -> bool) : lookup k (filter (fun kv => p (fst kv)) d) = if p k then lookup k d else None.
  Proof.
    unfold lookup. induction d as [|[x y] d IH]; [destruct (p k); reflexivity|]. cbn [filter fst]. destruct (p x) eqn:P; cbn [find fst].
    - destruct (String.eqb_spec x k) as [<-|]; [rewrite P; reflexivity|exact IH].
    - rewrite IH. destruct (String.eqb_spec x k) as [<-|]; [rewrite P; reflexivity|reflexivity].
  Qed.
  Lemma mat_round_trip (w : world) o n d w' : has_extension ".mat" n -> attrs w o = Some d -> NoDup (map fst d) -> save w o (Some n) = (w', Ok n) ->
    exists w'' r d', load w' o n = (w'', Ok r) /\ attrs w'' o = Some d' /\
      forall k, lookup k d' = if starts "_"%char k then None else match lookup k d with Some v => mat v | None => None end.
  Proof.
    intros H A ND E. apply (ext_iff _ _ plain_mat) in H. unfold ModelStore.save in E. rewrite A, H in E. change (String.eqb ".mat" ".mat") with true in E. cbn iota in E.
    destruct (mat_vars mat d) as [vars|] eqn:M; [|discriminate]. injection E as <-. unfold mat_vars in M. apply rmap_vars in M as [F L].
    assert (Ho : o < List.length (objs w)) by (unfold attrs in A; destruct (nth_error (objs w) o) eqn:X; [|discriminate]; apply nth_error_Some; congruence).
    unfold ModelStore.load. cbn [objs write]. apply Nat.ltb_lt in Ho as Ho'. rewrite Ho'. cbn [negb]. rewrite H. change (String.eqb ".mat" ".mat") with true. cbn iota.
    cbn [files write]. rewrite String.eqb_refl. eexists. eexists. eexists. split; [reflexivity|]. unfold attrs. cbn [objs dicts write].
    rewrite nth_set_nth, Nat.eqb_refl, Ho'. cbn [andb]. split; [rewrite nth_error_app2 by lia; rewrite Nat.sub_diag; reflexivity|].
    intros k. rewrite fold_left_app. change (fold_left _ (mat_header meta) []) with (@nil (string * V)). rewrite fold_put.
    - rewrite L. rewrite (lookup_filter d k (fun k => negb (starts "_"%char k))). destruct (starts "_"%char k); cbn [negb]; [reflexivity|]. destruct (lookup k d) as [v|]; [destruct (mat v); reflexivity|reflexivity].
    - rewrite F. clear - ND. induction d as [|[x y] d IH]; [constructor|]. inversion ND; subst. cbn [filter fst]. destruct (negb _); [|apply IH; assumption]. cbn [map fst]. constructor; [|apply IH; assumption].
      intros I. apply H1. apply in_map_iff in I as ([x' y'] & E & I). cbn in E. subst. apply filter_In in I as [I _]. apply in_map_iff. exists (x, y'). auto.
    - intros x y I. assert (I' : In x (map fst vars)) by (apply in_map_iff; exists (x, y); auto). rewrite F in I'. apply in_map_iff in I' as ([x' y'] & E & I'). cbn in E. subst x'.
      apply filter_In in I' as [_ I']. exact I'.
  Qed.

  (** ** Models are independent of each other *)
  Lemma step_separate m w x : separate m w -> object_of x < m -> separate m (step w x) /\ forall o, o < m -> o <> object_of x -> attrs (step w x) o = attrs w o.
  Proof.
    intros (L & B & S) Hx. destruct x as [i k v|i n|i n]; cbn [object_of ModelStore.step] in *.
    - unfold set_attr. destruct (nth_error (objs w) i) as [l|] eqn:E; [|split; [repeat split; assumption|reflexivity]].
      destruct (nth_error (dicts w) l) as [d|] eqn:D; [|split; [repeat split; assumption|reflexivity]]. cbn [fst]. split.
      + repeat split; cbn [objs dicts]; [exact L|intros o l' Ho; rewrite set_nth_length; apply (B o l' Ho)|exact S].
      + intros o Ho N. unfold attrs. cbn [objs dicts]. destruct (nth_error (objs w) o) as [l'|] eqn:E'; [|reflexivity]. rewrite nth_set_nth.
        destruct (Nat.eqb_spec l' l) as [-> |]; [|reflexivity]. exfalso. apply N. apply (S o i l); assumption.
    - assert (X : forall f nm, separate m (write w nm f) /\ forall o, o < m -> o <> i -> attrs (write w nm f) o = attrs w o).
      { intros f nm. split; [repeat split; assumption|reflexivity]. }
      assert (Y : separate m w /\ forall o, o < m -> o <> i -> attrs w o = attrs w o) by (split; [repeat split; assumption|reflexivity]).
      unfold ModelStore.save. destruct (attrs w i) as [d|]; [|exact Y]. destruct String.eqb; [destruct (mat_vars mat d); apply X|]. destruct String.eqb; [destruct forallb; apply X|exact Y].
    - assert (Y : separate m w /\ forall o, o < m -> o <> i -> attrs w o = attrs w o) by (split; [repeat split; assumption|reflexivity]).
      unfold ModelStore.load. destruct (Nat.ltb_spec i (List.length (objs w))) as [Hi|]; cbn [negb]; [|exact Y].
      assert (Z : forall d tl, (forall l, In l tl -> l = List.length (dicts w)) ->
        separate m (World (files w) (dicts w ++ [d]) (set_nth i (List.length (dicts w)) (objs w) ++ tl)) /\
        forall o, o < m -> o <> i -> attrs (World (files w) (dicts w ++ [d]) (set_nth i (List.length (dicts w)) (objs w) ++ tl)) o = attrs w o).
      { intros d tl T. assert (N : forall o, o < m -> nth_error (set_nth i (List.length (dicts w)) (objs w) ++ tl) o = if o =? i then Some (List.length (dicts w)) else nth_error (objs w) o).
        { intros o Ho. rewrite nth_error_app1 by (rewrite set_nth_length; lia). rewrite nth_set_nth. apply Nat.ltb_lt in Hi. rewrite Hi, andb_true_r. reflexivity. }
        split.
        - repeat split; cbn [objs dicts].
          + rewrite app_length, set_nth_length. lia.
          + intros o l E. rewrite app_length. cbn. destruct (Nat.lt_ge_cases o (List.length (objs w))) as [Ho|Ho].
            * rewrite nth_error_app1 in E by (rewrite set_nth_length; exact Ho). rewrite nth_set_nth in E. destruct (_ && _); [injection E as <-; lia|]. apply B in E. lia.
            * rewrite nth_error_app2 in E by (rewrite set_nth_length; exact Ho). apply nth_error_In, T in E. lia.
          + intros o o' l Ho Ho' E E'. rewrite N in E, E' by assumption. destruct (Nat.eqb_spec o i), (Nat.eqb_spec o' i).
            * congruence.
            * injection E as <-. apply B in E'. lia.
            * injection E' as <-. apply B in E. lia.
            * apply (S o o' l); assumption.
        - intros o Ho No. unfold attrs. cbn [objs dicts]. rewrite N by exact Ho. destruct (Nat.eqb_spec o i); [contradiction|].
          destruct (nth_error (objs w) o) as [l|] eqn:E; [|reflexivity]. apply nth_error_app1. apply (B o l E). }
      destruct String.eqb; [destruct (files w n) as [[|vars|]|]; try exact Y|destruct String.eqb; [destruct (files w n) as [[d| |]|]; try exact Y|exact Y]].
      + cbn [fst]. match goal with |- context [World (files w) (dicts w ++ [?d]) _] => specialize (Z d [] ltac:(intros l [])) end. rewrite app_nil_r in Z. exact Z.
      + cbn [fst]. apply Z. intros l [<-|[]]. reflexivity.
  Qed.
  (** Sessions which never use the objects returned by [load]. *)
  Lemma independent m w xs x o : separate m w -> (forall y, In y (xs ++ [x]) -> object_of y < m) -> o < m -> o <> object_of x ->
    attrs (session w (xs ++ [x])) o = attrs (session w xs) o.
  Proof.
    intros S H Ho N. unfold ModelStore.session. rewrite fold_left_app. cbn [fold_left].
    assert (S' : separate m (fold_left step xs w)).
    { assert (H' : forall y, In y xs -> object_of y < m) by (intros y Hy; apply H, in_or_app; left; exact Hy). clear - S H'. revert w S. induction xs as [|y xs IH]; intros w S; [exact S|]. cbn.
      apply IH; [intros; apply H'; right; assumption|]. apply step_separate; [exact S|apply H'; left; reflexivity]. }
    apply step_separate with (m := m); [exact S'|apply H, in_or_app; right; left; reflexivity|exact Ho|exact N].
  Qed.
End Store.

(** ** Refutations *)
(** A name which ends in .pkl and is refused. *)
Lemma hidden_file : ends_in ".pkl" ".pkl" /\ forall V (picklable : V -> bool) mat today w o, attrs w o <> None ->
  save picklable mat today w o (Some ".pkl"%string) = (w, Raise ValueError).
Proof.
  split; [exists ""%string; reflexivity|]. intros V picklable mat today w o A. unfold save. destruct (attrs w o); [|contradiction]. reflexivity.
Qed.
(** Setting an attribute of the returned object changes the model. *)
Lemma shared : exists (w w' : world bool) r d, has_extension ".pkl" "a.pkl" /\ load true w 0 "a.pkl" = (w', Ok (LoadedObject r)) /\ r <> 0 /\ attrs w' 0 = Some d /\
  attrs (fst (set_attr w' r "x" true)) 0 <> Some d.
Proof.
  exists (World (fun _ => Some (PickleFile [])) [[]] [0]). eexists. exists 1, []. split.
  - exists ""%string, "a"%string. split; [reflexivity|]. split; [left; reflexivity|]. split; [cbn; intuition discriminate|]. exists "a"%char. split; [left; reflexivity|discriminate].
  - split; [reflexivity|]. split; [discriminate|]. split; [reflexivity|]. cbn. discriminate.
Qed.
(** A save which raises destroys the file it was to replace. *)
Lemma destroyed : exists (picklable : bool -> bool) (w w' : world bool) d e, has_extension ".pkl" "a.pkl" /\ files w "a.pkl" = Some (PickleFile d) /\
  save picklable Some "" w 0 (Some "a.pkl"%string) = (w', Raise e) /\ forall d', files w' "a.pkl" <> Some (PickleFile d').
Proof.
  exists (fun v => v), (World (fun _ => Some (PickleFile [])) [[("x"%string, false)]] [0]). eexists. exists [], GenericException. split.
  - exists ""%string, "a"%string. split; [reflexivity|]. split; [left; reflexivity|]. split; [cbn; intuition discriminate|]. exists "a"%char. split; [left; reflexivity|discriminate].
  - split; [reflexivity|]. split; [reflexivity|]. intros d'. cbn. discriminate.
Qed.

(** The names which are accepted. *)
Lemma names_accepted V (picklable : V -> bool) mat today (w : world V) o n : attrs w o <> None ->
  (save picklable mat today w o (Some n) = (w, Raise ValueError) <-> ~ has_extension ".pkl" n /\ ~ has_extension ".mat" n).
Proof.
  intros A. split.
  - intros E. assert (X : forall e, e = ".pkl"%string \/ e = ".mat"%string -> ext_of n <> e).
    { intros e He E'. unfold save in E. destruct (attrs w o) as [d|]; [|contradiction]. rewrite E' in E. destruct He as [-> | ->]; cbn in E.
      - destruct forallb; discriminate.
      - destruct (mat_vars mat d) as [|x] eqn:M; [discriminate|]. injection E as _ E. unfold mat_vars in M. revert M E. generalize (filter (fun kv => negb (starts "_" (fst kv))) d). intros l M ->. revert M.
        induction l as [|[k v] l IH]; cbn [rmap]; [discriminate|]. cbn [snd fst]. destruct (mat v); cbn [bind]; [|discriminate].
        destruct (rmap _ l) as [|y]; cbn [bind]; [discriminate|]. intros M. apply IH. congruence. }
    split; intros H.
    + apply (X ".pkl"%string); [auto|]. apply (ext_iff _ _ plain_pkl), H.
    + apply (X ".mat"%string); [auto|]. apply (ext_iff _ _ plain_mat), H.
  - intros [H1 H2]. unfold save. destruct (attrs w o); [|contradiction].
    destruct (String.eqb_spec (ext_of n) ".mat") as [E|]; [apply (ext_iff _ _ plain_mat) in E; contradiction|].
    destruct (String.eqb_spec (ext_of n) ".pkl") as [E|]; [apply (ext_iff _ _ plain_pkl) in E; contradiction|]. reflexivity.
Qed.

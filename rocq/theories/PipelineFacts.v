(** The scripts which enumerate clusters in several processes. *)
From Coq Require Import List Arith Lia ZArith NArith QArith Permutation Sorting Bool String Ascii.
From Verif Require Import Res Matrix ModelGeometry ModelNlce ModelPipeline SpecStore SpecCluster GeoArith ClusterSets ClusterRep ClusterSym ClusterAll ClusterSub ClusterCount ClusterTable.
Import ListNotations.
Local Open Scope nat_scope.
Notation nn := (linked (1, 0)%Z (0, 1)%Z).

(** ** Reading and sorting the files *)
Lemma insert_perm x l : Permutation (insert_file x l) (x :: l).
Proof. induction l as [|y l IH]; cbn; [reflexivity|]. destruct (_ <=? _)%N; [reflexivity|]. rewrite IH. apply perm_swap. Qed.
Lemma sort_perm l : Permutation (sort_files l) l.
Proof. induction l as [|x l IH]; cbn; [reflexivity|]. rewrite insert_perm. apply perm_skip, IH. Qed.
Lemma digit_some c : (48 <= N_of_ascii c <= 57)%N -> digit c <> None.
Proof. unfold digit. intros [A B]. apply N.leb_le in A, B. rewrite A, B. discriminate. Qed.
Lemma file_number_ok s : has_digit s -> exists v, file_number s = Ok v.
Proof.
  intros (c & Hc & Hd). apply digit_some in Hd. induction s as [|x s IH]; [destruct Hc|]. cbn. destruct (digit x) eqn:E; [eauto|]. destruct Hc as [<-|Hc]; [contradiction|]. apply IH, Hc.
Qed.
Lemma numbers_ok l : (forall s, In s l -> has_digit s) -> exists nums, rmap file_number l = Ok nums /\ List.length nums = List.length l.
Proof.
  induction l as [|s l IH]; intros H; [exists []; split; reflexivity|]. destruct (file_number_ok s) as (v & E); [apply H; left; reflexivity|].
  destruct IH as (nums & E' & L); [intros; apply H; right; assumption|]. exists (v :: nums). cbn. rewrite E. cbn. rewrite E'. cbn. split; [reflexivity|]. f_equal. exact L.
Qed.
Lemma combine_snd {A B} (l : list A) (l' : list B) : List.length l = List.length l' -> map snd (combine l l') = l'.
Proof. revert l'. induction l as [|x l IH]; intros [|y l']; cbn; intros H; try discriminate; [reflexivity|]. f_equal. apply IH. lia. Qed.

(** ** All clusters *)
Record listing (n : nat) (cl : list cluster_geom) (inds : list nat) (L : list (list pt)) : Prop := {
  ls_cluster : Forall2 cluster cl L;
  ls_index : indexed inds L n;
  ls_conn : forall a, a < List.length L -> connected nn (nth a L []) }.
Lemma listing_ok n : 1 <= n -> exists cl ms inds L, all_clusters n e1 e2 true = Ok (cl, ms, inds) /\ listing n cl inds L.
Proof.
  intros Hn. destruct (all_clusters_ok true (1, 0)%Z (0, 1)%Z n) as (cl & ms & inds & L & E & F & _ & LI & I0 & In_ & HI & AP & ALL); [right; auto|exact Hn|].
  exists cl, ms, inds, L. split; [exact E|].
  assert (MONO : forall k, k <= n -> nth k inds 0 <= nth n inds 0) by (apply (mono_below (fun k => nth k inds 0)); intros k Hk; apply HI; exact Hk).
  assert (XL : indexed inds L n).
  { constructor; [exact LI| |].
    - intros k a Hk Ha. split; [|apply (HI k Hk); exact Ha]. pose proof (MONO (S k) ltac:(lia)). lia.
    - intros a Ha. apply (interval_find (fun k => nth k inds 0)); [exact I0|]. rewrite In_. exact Ha. }
  constructor; [exact F|exact XL|]. intros a Ha. destruct (ix_all _ _ _ XL a Ha) as (k & Hk & Ea). apply (HI k Hk). exact Ea.
Qed.

Section Pipeline.
  Context (n : nat) (cl : list cluster_geom) (inds : list nat) (L : list (list pt)).
  Hypothesis H : listing n cl inds L.
  Notation N := (List.length cl).
  Lemma len_L : N = List.length L.
  Proof. apply (Forall2_length' _ _ _ (ls_cluster _ _ _ _ H)). Qed.

  Definition good_table (c : nat) (T : table) : Prop :=
    forall a, a < N -> row_done cl L T a \/ (forall b, b < N -> (entry T a b == 0)%Q) /\ ~ fits L a c.
  Lemma parts_ok c g : nth_error cl c = Some g -> exists T, parts_table cl inds g = Ok T /\ good_table c T.
  Proof.
    intros Eg. assert (Hc : c < List.length L) by (rewrite <- len_L; apply nth_error_Some; congruence).
    destruct (contribution cl L inds n (ls_cluster _ _ _ _ H) (ls_index _ _ _ _ H) (ls_conn _ _ _ _ H) c g Hc Eg) as (subs & SM & sinds & ps & E1 & E2 & HF).
    unfold parts_table. rewrite E1. cbn [bind]. rewrite E2. cbn [bind]. eexists. split; [reflexivity|]. exact HF.
  Qed.

  Variables (name : nat -> string) (in_name : string).
  Hypothesis name_in : forall c, c < N -> name c <> in_name.
  Hypothesis name_inj : forall c c', c < N -> c' < N -> name c = name c' -> c = c'.
  Let data : pickled := PList [INum n; IClusters cl; IInds inds; ITime].
  Definition task (st : disk * res unit) (c : nat) : disk * res unit :=
    match snd st with Ok _ => find_subclusters (fst st) c (name c) in_name | Raise _ => st end.

  Lemma find_ok d c : d in_name = Some data -> c < N -> exists p T, find_subclusters d c (name c) in_name = (put_file d (name c) p, Ok tt) /\
    get p 1 = Ok (ITable T) /\ good_table c T.
  Proof.
    intros D Hc. destruct (nth_error cl c) as [g|] eqn:Eg; [|apply nth_error_None in Eg; lia]. destruct (parts_ok c g Eg) as (T & E & G).
    unfold find_subclusters, read_file. rewrite D. cbn [bind get nth_error data as_clusters as_inds]. rewrite Eg, E. cbn [bind].
    eexists. exists T. split; [reflexivity|]. split; [reflexivity|exact G].
  Qed.
  Definition written (d : disk) (done : list nat) : Prop :=
    d in_name = Some data /\ forall c, In c done -> exists p T, d (name c) = Some p /\ get p 1 = Ok (ITable T) /\ good_table c T.
  Lemma tasks_ok d cs : d in_name = Some data -> (forall c, In c cs -> c < N) -> exists d', fold_left task cs (d, Ok tt) = (d', Ok tt) /\ written d' cs.
  Proof.
    intros D. induction cs as [|c cs IH] using rev_ind; intros B; [exists d; split; [reflexivity|]; split; [exact D|intros c []]|].
    destruct IH as (d' & E & D' & W); [intros x Hx; apply B, in_or_app; left; exact Hx|]. rewrite fold_left_app, E. cbn [fold_left]. unfold task. cbn [snd fst].
    assert (Hc : c < N) by (apply B, in_or_app; right; left; reflexivity). destruct (find_ok d' c D' Hc) as (p & T & -> & G & GT).
    eexists. split; [reflexivity|]. split.
    - unfold put_file. destruct (String.eqb_spec in_name (name c)) as [E'|]; [|exact D']. exfalso. apply (name_in c Hc). congruence.
    - intros x Hx. unfold put_file. destruct (String.eqb_spec (name x) (name c)) as [E'|NE].
      + assert (x = c) by (apply name_inj; [apply B, Hx|exact Hc|exact E']). subst x. eauto.
      + apply in_app_or in Hx as [Hx|[<-|[]]]; [apply W, Hx|contradiction].
  Qed.

  Lemma aggregate_ok d found out_name : written d (seq 0 N) -> Permutation found (map name (seq 0 N)) -> (forall c, c < N -> has_digit (name c)) ->
    exists M, aggregate_subclusters d found out_name in_name = (put_file d out_name (PList [INum n; IClusters cl; IInds inds; ITime; ITable M]), Ok tt) /\
      forall a b, a < N -> b < N -> exists m, (entry M a b == inject_Z (Z.of_nat m))%Q /\ contains true nn (nth a L []) (nth b L []) m.
  Proof.
    intros [D W] P HD. unfold aggregate_subclusters, read_file at 1. rewrite D. cbn [bind get nth_error data len].
    assert (LF : List.length found = N) by (rewrite (Permutation_length P), map_length, seq_length; reflexivity). rewrite LF, Nat.eqb_refl. cbn [negb].
    destruct (numbers_ok found) as (nums & En & Ln).
    { intros s Hs. apply (Permutation_in _ P) in Hs. apply in_map_iff in Hs as (c & <- & Hc). apply in_seq in Hc. apply HD. lia. }
    rewrite En. cbn [bind]. set (fs := sort_files (combine nums found)).
    assert (PF : Permutation (map snd fs) (map name (seq 0 N))).
    { unfold fs. rewrite (Permutation_map snd (sort_perm _)). rewrite combine_snd by exact Ln. exact P. }
    set (step := fun M nf => _). set (M0 := tab N N _).
    assert (K : exists M, rfold step fs M0 = Ok M /\ forall a, a < N -> row_done cl L M a \/
      (forall b, b < N -> (entry M a b == 0)%Q) /\ forall c, c < N -> In (name c) (map snd fs) -> ~ fits L a c).
    { apply (rfold_pre step (fun pre M => forall a, a < N -> row_done cl L M a \/ (forall b, b < N -> (entry M a b == 0)%Q) /\ forall c, c < N -> In (name c) (map snd pre) -> ~ fits L a c)).
      - intros pre [k s] M Hf HM. assert (Hs : In s (map name (seq 0 N))) by (apply (Permutation_in _ PF), in_map_iff; exists (k, s); auto).
        apply in_map_iff in Hs as (c & <- & Hc). destruct (W c Hc) as (p & T & Dp & Gp & GT). apply in_seq in Hc. destruct Hc as [_ Hc]. cbn in Hc.
        unfold step, read_file. cbn [snd]. rewrite Dp. cbn [bind]. rewrite Gp. cbn [bind as_table]. eexists. split; [reflexivity|].
        assert (HM' : table_inv cl L (filter (fun c => if in_dec string_dec (name c) (map snd pre) then true else false) (seq 0 N)) M).
        { intros a Ha. destruct (HM a Ha) as [R|[Z F]]; [left; exact R|right]. split; [exact Z|]. intros x Hx. apply filter_In in Hx as [Hx I]. apply in_seq in Hx.
          destruct in_dec as [I'|]; [|discriminate]. apply F; [lia|exact I']. }
        pose proof (update_ok cl L _ M c T HM' GT) as U. intros a Ha. destruct (U a Ha) as [R|[Z F]]; [left; exact R|right]. split; [exact Z|].
        intros x Hx I. rewrite map_app in I. apply F. apply in_or_app. apply in_app_or in I as [I|[E|[]]].
        + left. apply filter_In. split; [apply in_seq; lia|]. destruct in_dec; [reflexivity|contradiction].
        + right. left. apply name_inj; [exact Hc|exact Hx|exact E].
      - intros a Ha. right. split; [|intros c _ []]. intros b Hb. unfold M0. rewrite tab_entry by assumption. reflexivity. }
    destruct K as (M & -> & HM). cbn [bind]. exists M. split; [reflexivity|]. intros a b Ha Hb. destruct (HM a Ha) as [R|[_ F]]; [apply R, Hb|]. exfalso.
    apply (F a Ha).
    - apply (Permutation_in _ (Permutation_sym PF)), in_map, in_seq. lia.
    - exists (nth a L []). split; [apply (ls_conn _ _ _ _ H); rewrite <- len_L; exact Ha|]. split; [apply incl_refl|apply congruent_refl].
  Qed.
End Pipeline.

(** The processes run in any order, and the files are found in any order. *)
Lemma pipeline n d name in_name out_name : 1 <= n -> d in_name = None ->
  exists cl ms M inds, clusters_with_subclusters n e1 e2 true = Ok (cl, ms, M, inds) /\
  let N := List.length cl in
  exists d1, generate_no_subs d in_name n = (d1, Ok N) /\
  ((forall c, c < N -> name c <> in_name) -> (forall c c', c < N -> c' < N -> name c = name c' -> c = c') -> (forall c, c < N -> has_digit (name c)) ->
   forall tasks found, Permutation tasks (seq 0 N) -> Permutation found (map name (seq 0 N)) ->
   exists d2 M', fold_left (fun st c => match snd st with Ok _ => find_subclusters (fst st) c (name c) in_name | Raise _ => st end) tasks (d1, Ok tt) = (d2, Ok tt) /\
     aggregate_subclusters d2 found out_name in_name = (put_file d2 out_name (PList [INum n; IClusters cl; IInds inds; ITime; ITable M']), Ok tt) /\
     forall a b, a < N -> b < N -> (entry M' a b == entry M a b)%Q).
Proof.
  intros Hn D. destruct (clusters_with_subclusters_ok n Hn) as (cl & ms & M & inds & L & E & EA & F & C & _).
  exists cl, ms, M, inds. split; [exact E|]. cbv zeta. unfold generate_no_subs. rewrite D.
  change (all_clusters n e1 e2 true) with (all_clusters n (inj (1, 0)%Z) (inj (0, 1)%Z) true). rewrite EA.
  eexists. split; [reflexivity|]. intros N1 N2 N3 tasks found PT PF.
  destruct (listing_ok n Hn) as (cl' & ms' & inds' & L' & EA' & HL). change (all_clusters n (inj (1, 0)%Z) (inj (0, 1)%Z) true = Ok (cl', ms', inds')) in EA'.
  assert (X : cl' = cl /\ inds' = inds) by (split; congruence). destruct X as [-> ->].
  match goal with |- context [fold_left _ tasks (?d1, Ok tt)] => set (d1' := d1) end.
  destruct (tasks_ok n cl inds L' HL name in_name N1 N2 d1' tasks) as (d2 & E2 & W).
  { unfold d1', put_file. rewrite String.eqb_refl. reflexivity. }
  { intros c Hc. apply (Permutation_in _ PT), in_seq in Hc. lia. }
  destruct (aggregate_ok n cl inds L' HL name in_name N2 d2 found out_name) as (M' & EM & CM).
  { destruct W as [W1 W2]. split; [exact W1|]. intros c Hc. apply W2, (Permutation_in _ (Permutation_sym PT)), Hc. }
  { exact PF. } { exact N3. }
  exists d2, M'. split; [exact E2|]. split; [exact EM|]. intros a b Ha Hb.
  pose proof (Forall2_length' _ _ _ F) as LL. destruct (C a b) as (m & Em & Cm); [lia|lia|]. destruct (CM a b Ha Hb) as (m' & Em' & Cm').
  assert (EL : L' = L). { pose proof (ls_cluster _ _ _ _ HL) as F'. clear - F F'. revert L F. induction F' as [|g s cl L' Hg _ IH]; intros L F; inversion F; subst; [reflexivity|].
    f_equal; [|apply IH; assumption]. destruct Hg as [R _ _ _], H1 as [R' _ _ _]. destruct (rep_sites _ _ R) as [X Y], (rep_sites _ _ R') as [X' Y'].
    rewrite X in X'. rewrite Y in Y'. clear - X' Y'. revert y X' Y'. induction s as [|p s IH]; intros [|q y] X Y; try discriminate; [reflexivity|]. cbn in X, Y. injection X as X1 X2. injection Y as Y1 Y2.
    f_equal; [|apply IH; assumption]. destruct p, q. cbn in *. congruence. }
  subst L'. rewrite Em, Em', (contains_unique _ _ _ _ _ _ Cm' Cm). reflexivity.
Qed.

(** ** Running a script again *)
Lemma rerun n d name : 1 <= n -> d name = None ->
  exists cl ms M inds d', clusters_with_subclusters n e1 e2 true = Ok (cl, ms, M, inds) /\
    generate_clusters d name n = (d', Ok (List.length cl)) /\ forall m, generate_clusters d' name m = (d', Raise KeyError).
Proof.
  intros Hn D. destruct (clusters_with_subclusters_ok n Hn) as (cl & ms & M & inds & L & E & _). change (clusters_with_subclusters n e1 e2 true = Ok (cl, ms, M, inds)) in E.
  unfold generate_clusters. rewrite D, E. exists cl, ms, M, inds. eexists. split; [reflexivity|]. split; [reflexivity|]. intros m. unfold put_file at 1. rewrite String.eqb_refl. reflexivity.
Qed.
Lemma rerun_no_subs n d name : 1 <= n -> d name = None ->
  exists cl ms inds d', all_clusters n e1 e2 true = Ok (cl, ms, inds) /\
    generate_no_subs d name n = (d', Ok (List.length cl)) /\ forall m, generate_no_subs d' name m = (d', Ok (List.length cl)).
Proof.
  intros Hn D. destruct (listing_ok n Hn) as (cl & ms & inds & L & E & _).
  unfold generate_no_subs. rewrite D, E. exists cl, ms, inds. eexists. split; [reflexivity|]. split; [reflexivity|]. intros m. unfold put_file at 1. rewrite String.eqb_refl. reflexivity.
Qed.

(** ** The expansion cannot read what the other scripts write *)
Lemma unread_dict n d name : 1 <= n -> d name = None -> exists d' k, generate_clusters d name n = (d', Ok k) /\ expansion_data d' name = Raise KeyError.
Proof.
  intros Hn D. destruct (rerun n d name Hn D) as (cl & ms & M & inds & d' & E & G & _). exists d', (List.length cl). split; [exact G|].
  unfold generate_clusters in G. rewrite D, E in G. injection G as <-. unfold expansion_data, read_file, put_file. rewrite String.eqb_refl. reflexivity.
Qed.
Lemma unread_list n d out cl inds M : exists e, expansion_data (put_file d out (PList [INum n; IClusters cl; IInds inds; ITime; ITable M])) out = Raise e.
Proof. unfold expansion_data, read_file, put_file. rewrite String.eqb_refl. cbn [bind get nth_error]. destruct (n <? List.length M); cbn [bind]; eauto. Qed.

(** Translations and symmetries of clusters, and the clusters related to one. *)
From Coq Require Import List Arith Lia ZArith QArith Permutation Bool.
From Verif Require Import Res Matrix ModelGeometry ModelNlce SpecCluster GeoArith ClusterSets ClusterRep.
Import ListNotations.
Local Open Scope nat_scope.

(** ** Sets *)
Lemma same_refl {A} (S : list A) : same_set S S. Proof. intros p; reflexivity. Qed.
Lemma same_sym {A} (S T : list A) : same_set S T -> same_set T S. Proof. intros H p; symmetry; apply H. Qed.
Lemma same_trans {A} (S T U : list A) : same_set S T -> same_set T U -> same_set S U.
Proof. intros H K p. rewrite (H p). apply K. Qed.
Lemma same_map {A B} (f : A -> B) S T : same_set S T -> same_set (map f S) (map f T).
Proof. intros H p. rewrite !in_map_iff. split; intros (x & E & Hx); exists x; (split; [exact E|apply H; exact Hx]). Qed.
Lemma same_map_ext {A B} (f g : A -> B) S : (forall x, f x = g x) -> same_set (map f S) (map g S).
Proof. intros H. rewrite (map_ext f g H). apply same_refl. Qed.
Lemma same_app {A} (S T U V : list A) : same_set S T -> same_set U V -> same_set (S ++ U) (T ++ V).
Proof. intros H K p. rewrite !in_app_iff, (H p), (K p). reflexivity. Qed.
Lemma same_length {A} (S T : list A) : NoDup S -> NoDup T -> same_set S T -> length S = length T.
Proof.
  intros HS HT H. apply Nat.le_antisymm; apply NoDup_incl_length; auto; intros x; apply H.
Qed.

(** ** Translations *)
Lemma shift_shift t u p : shift t (shift u p) = shift (shift u t) p.
Proof. unfold shift. cbn [fst snd]. f_equal; lia. Qed.
Lemma shift_zero p : shift (0, 0)%Z p = p.
Proof. destruct p. unfold shift. cbn. f_equal; lia. Qed.
Lemma shift_back t p : shift (- fst t, - snd t)%Z (shift t p) = p.
Proof. destruct p. unfold shift. cbn. f_equal; lia. Qed.
Lemma translate_of_same S T : same_set S T -> translate S T.
Proof.
  intros H. exists (0, 0)%Z. apply (same_trans _ S); [|exact H].
  rewrite (map_ext _ _ shift_zero), map_id. apply same_refl.
Qed.
Lemma translate_refl S : translate S S. Proof. apply translate_of_same, same_refl. Qed.
Lemma translate_sym S T : translate S T -> translate T S.
Proof.
  intros (t & H). exists (- fst t, - snd t)%Z.
  apply (same_trans _ (map (shift (- fst t, - snd t)%Z) (map (shift t) S))); [apply same_map, same_sym; exact H|].
  rewrite map_map, (map_ext _ _ (shift_back t)), map_id. apply same_refl.
Qed.
Lemma translate_trans S T U : translate S T -> translate T U -> translate S U.
Proof.
  intros (t & H) (u & K). exists (shift t u). apply (same_trans _ (map (shift u) T)); [|exact K].
  apply (same_trans _ (map (shift u) (map (shift t) S))); [|apply same_map; exact H].
  rewrite map_map. apply same_map_ext. intros x. symmetry. apply shift_shift.
Qed.

(** ** Symmetries *)
Definition linear (s : pt -> pt) : Prop := forall t p, s (shift t p) = shift (s t) (s p).
Ltac each_sym H := cbn [symmetries square_symmetries In] in H; repeat destruct H as [<-|H]; [..|destruct H].
Lemma sym_id sym : In (fun p => p) (symmetries sym).
Proof. destruct sym; left; reflexivity. Qed.
Lemma sym_linear sym s : In s (symmetries sym) -> linear s.
Proof. destruct sym; intros H; each_sym H; intros t p; unfold shift; cbn [fst snd]; f_equal; lia. Qed.
Ltac pick_sym k := lazymatch k with
  | O => left; reflexivity | S ?k => right; pick_sym k end.
Ltac try_sym := first
  [ exists (fun p : pt => p); split; [pick_sym 0|intros [? ?]; cbn; f_equal; lia]
  | exists (fun p => (- snd p, fst p))%Z; split; [pick_sym 1|intros [? ?]; cbn; f_equal; lia]
  | exists (fun p => (- fst p, - snd p))%Z; split; [pick_sym 2|intros [? ?]; cbn; f_equal; lia]
  | exists (fun p => (snd p, - fst p))%Z; split; [pick_sym 3|intros [? ?]; cbn; f_equal; lia]
  | exists (fun p => (- fst p, snd p))%Z; split; [pick_sym 4|intros [? ?]; cbn; f_equal; lia]
  | exists (fun p => (snd p, fst p))%Z; split; [pick_sym 5|intros [? ?]; cbn; f_equal; lia]
  | exists (fun p => (fst p, - snd p))%Z; split; [pick_sym 6|intros [? ?]; cbn; f_equal; lia]
  | exists (fun p => (- snd p, - fst p))%Z; split; [pick_sym 7|intros [? ?]; cbn; f_equal; lia] ].
Lemma sym_inv sym s : In s (symmetries sym) -> exists s', In s' (symmetries sym) /\ forall p, s' (s p) = p.
Proof.
  destruct sym; intros H; each_sym H; try try_sym.
Qed.
Lemma sym_comp sym s s' : In s (symmetries sym) -> In s' (symmetries sym) ->
  exists s'', In s'' (symmetries sym) /\ forall p, s'' p = s' (s p).
Proof.
  destruct sym; intros H K; each_sym H; each_sym K; try try_sym.
Qed.
Lemma sym_inj sym s p q : In s (symmetries sym) -> s p = s q -> p = q.
Proof. intros H E. destruct (sym_inv sym s H) as (s' & _ & K). rewrite <- (K p), <- (K q), E. reflexivity. Qed.

Lemma translate_map s S T : linear s -> translate S T -> translate (map s S) (map s T).
Proof.
  intros L (t & H). exists (s t). apply (same_trans _ (map s (map (shift t) S))); [|apply same_map; exact H].
  rewrite !map_map. apply same_map_ext. intros x. symmetry. apply L.
Qed.

Lemma congruent_of_translate sym S T : translate S T -> congruent sym S T.
Proof. intros H. exists (fun p => p). split; [apply sym_id|]. rewrite map_id. exact H. Qed.
Lemma congruent_of_same sym S T : same_set S T -> congruent sym S T.
Proof. intros H. apply congruent_of_translate, translate_of_same, H. Qed.
Lemma congruent_refl sym S : congruent sym S S. Proof. apply congruent_of_same, same_refl. Qed.
Lemma congruent_sym sym S T : congruent sym S T -> congruent sym T S.
Proof.
  intros (s & Hs & H). destruct (sym_inv sym s Hs) as (s' & Hs' & E). exists s'. split; [exact Hs'|].
  apply (translate_trans _ (map s' (map s S))).
  - apply translate_map; [apply (sym_linear sym); exact Hs'|]. apply translate_sym. exact H.
  - rewrite map_map, (map_ext _ (fun x => x) E), map_id. apply translate_refl.
Qed.
Lemma congruent_trans sym S T U : congruent sym S T -> congruent sym T U -> congruent sym S U.
Proof.
  intros (s & Hs & H) (s' & Hs' & H'). destruct (sym_comp sym s s' Hs Hs') as (s'' & Hs'' & E). exists s''. split; [exact Hs''|].
  apply (translate_trans _ (map s' T)); [|exact H'].
  apply (translate_trans _ (map s' (map s S))).
  - apply translate_of_same. rewrite map_map. apply same_map_ext. exact E.
  - apply translate_map; [apply (sym_linear sym); exact Hs'|exact H].
Qed.
Lemma congruent_map sym S T : congruent sym S T ->
  exists f, (forall p q, f p = f q -> p = q) /\ same_set (map f S) T /\
    exists s t, In s (symmetries sym) /\ forall p, f p = shift t (s p).
Proof.
  intros (s & Hs & t & H). exists (fun p => shift t (s p)). split; [|split].
  - intros p q E. apply shift_inj in E. apply (sym_inj sym s); assumption.
  - rewrite <- (map_map s (shift t)). exact H.
  - exists s, t. split; [exact Hs|reflexivity].
Qed.
Lemma map_congruent sym f s t S T : In s (symmetries sym) -> (forall p, f p = shift t (s p)) -> same_set (map f S) T -> congruent sym S T.
Proof.
  intros Hs E H. exists s. split; [exact Hs|]. exists t. rewrite map_map. apply (same_trans _ (map f S)); [|exact H].
  apply same_map_ext. intros x. symmetry. apply E.
Qed.
Lemma congruent_length sym S T : NoDup S -> NoDup T -> congruent sym S T -> length S = length T.
Proof.
  intros HS HT H. destruct (congruent_map sym S T H) as (f & Hf & Hm & _).
  rewrite <- (map_length f S). apply same_length; auto. apply NoDup_map_inj; auto.
Qed.

(** ** Lattice steps *)
Lemma linked_sym lv1 lv2 p q : linked lv1 lv2 p q -> linked lv1 lv2 q p.
Proof. unfold linked. tauto. Qed.
Lemma linked_shift lv1 lv2 t p q : linked lv1 lv2 p q -> linked lv1 lv2 (shift t p) (shift t q).
Proof.
  assert (K : forall v x y, y = shift v x -> shift t y = shift v (shift t x)).
  { intros v x y ->. rewrite !shift_shift. f_equal. unfold shift. cbn [fst snd]. f_equal; lia. }
  unfold linked. intros [H|[H|[H|H]]]; apply K in H; auto.
Qed.
Lemma linked_map sym lv1 lv2 s p q : step_symmetric sym lv1 lv2 -> In s (symmetries sym) -> linked lv1 lv2 p q -> linked lv1 lv2 (s p) (s q).
Proof.
  intros [->|[-> ->]] Hs H.
  - each_sym Hs. exact H.
  - assert (E : forall a b, linked (1, 0)%Z (0, 1)%Z a b <-> (Z.abs (fst a - fst b) + Z.abs (snd a - snd b) = 1)%Z).
    { intros [a a'] [b b']. unfold linked, shift. cbn [fst snd]. split.
      - intros [E|[E|[E|E]]]; injection E; intros; lia.
      - intros E.
        assert (C : (b = a + 1 /\ b' = a' \/ a = b + 1 /\ a' = b' \/ b = a /\ b' = a' + 1 \/ a = b /\ a' = b' + 1)%Z) by lia.
        destruct C as [[C D]|[[C D]|[[C D]|[C D]]]]; [left|right; left|right; right; left|right; right; right]; f_equal; lia. }
    apply E. apply E in H. destruct p as [a b], q as [c d]. cbn [fst snd] in H.
    destruct sym; each_sym Hs; cbn [fst snd]; lia.
Qed.
Lemma walk_map {A} (adj : A -> A -> Prop) f S T p q : (forall a b, adj a b -> adj (f a) (f b)) -> incl (map f S) T ->
  walk adj S p q -> walk adj T (f p) (f q).
Proof.
  intros Ha Hi. induction 1 as [p Hp|p q r Hp Hpq Hw IH]; [apply walk_stay|eapply walk_step; [| |exact IH]].
  - apply Hi, in_map, Hp.
  - apply Hi, in_map, Hp.
  - apply Ha, Hpq.
Qed.
Lemma connected_map {A} (adj : A -> A -> Prop) f S T : (forall a b, adj a b -> adj (f a) (f b)) -> same_set (map f S) T -> NoDup T ->
  connected adj S -> connected adj T.
Proof.
  intros Ha Hm HT (H0 & H1 & H2). split; [|split; [exact HT|]].
  - intros ->. destruct S as [|a S]; [congruence|]. apply (proj1 (Hm (f a))). left. reflexivity.
  - intros p q Hp Hq. apply Hm in Hp. apply Hm in Hq. apply in_map_iff in Hp as (a & <- & Ha'). apply in_map_iff in Hq as (b & <- & Hb).
    apply (walk_map adj f S); auto. intros x Hx. apply Hm. exact Hx.
Qed.
Lemma congruent_connected sym lv1 lv2 S T : step_symmetric sym lv1 lv2 -> congruent sym S T -> NoDup T ->
  connected (linked lv1 lv2) S -> connected (linked lv1 lv2) T.
Proof.
  intros HL H HT HS. destruct (congruent_map sym S T H) as (f & Hf & Hm & s & t & Hs & E).
  apply (connected_map _ f S); auto. intros a b Hab. rewrite !E. apply linked_shift. apply (linked_map sym); assumption.
Qed.

(** ** Lists without related members *)
Lemma apart_snoc {A} (R : list A -> list A -> Prop) L x : (forall a b, R a b -> R b a) ->
  apart R L -> (forall l, In l L -> ~ R l x) -> apart R (L ++ [x]).
Proof.
  intros Rs H Hx a b Ha Hb HR. rewrite app_length in Ha, Hb. cbn [length] in Ha, Hb.
  assert (C : forall k, k < length L + 1 -> k < length L /\ nth k (L ++ [x]) [] = nth k L [] \/ k = length L /\ nth k (L ++ [x]) [] = x).
  { intros k Hk. destruct (Nat.lt_ge_cases k (length L)); [left; split; [|apply app_nth1]; assumption|].
    right. assert (k = length L) by lia. subst. split; [reflexivity|]. rewrite nth_middle. reflexivity. }
  destruct (C a Ha) as [[A1 A2]|[A1 A2]], (C b Hb) as [[B1 B2]|[B1 B2]]; rewrite A2, B2 in HR.
  - apply H; assumption.
  - destruct (Hx _ (nth_In _ [] A1) HR).
  - destruct (Hx _ (nth_In _ [] B1)). apply Rs. exact HR.
  - lia.
Qed.
Lemma apart_nil {A} (R : list A -> list A -> Prop) : apart R []. Proof. intros a b H. inversion H. Qed.
Lemma apart_one {A} (R : list A -> list A -> Prop) x : apart R [x].
Proof. intros a b Ha Hb _. cbn in *. lia. Qed.

(** ** Folds with an invariant on the elements already visited *)
Lemma rfold_pre {A B} (f : A -> B -> res A) (I : list B -> A -> Prop) (l : list B) : forall s,
  (forall pre a s, In a l -> I pre s -> exists s', f s a = Ok s' /\ I (pre ++ [a]) s') -> 
  I [] s -> exists s', rfold f l s = Ok s' /\ I l s'.
Proof.
  intros s H H0. assert (K : forall l pre s, incl l l -> (forall pre a s, In a l -> I pre s -> exists s', f s a = Ok s' /\ I (pre ++ [a]) s') ->
    I pre s -> exists s', rfold f l s = Ok s' /\ I (pre ++ l) s').
  { clear. induction l as [|a l IH]; intros pre s Hi H H0; cbn [rfold].
    - exists s. split; [reflexivity|]. rewrite app_nil_r. exact H0.
    - destruct (H pre a s (or_introl eq_refl) H0) as (s' & -> & H1). cbn [bind].
      destruct (IH (pre ++ [a]) s' (incl_refl _)) as (s'' & E & H2); [intros; apply H; [right|]; assumption|exact H1|].
      exists s''. split; [exact E|]. rewrite <- app_assoc in H2. exact H2. }
  exact (K l [] s (incl_refl _) H H0).
Qed.

Lemma existsb_id_true l : existsb (fun b : bool => b) l = true <-> In true l.
Proof. rewrite existsb_exists. split; [intros (x & H & ->); exact H|intros H; exists true; auto]. Qed.
Lemma Forall2_length' {A B} (R : A -> B -> Prop) l m : Forall2 R l m -> length l = length m.
Proof. induction 1; cbn; congruence. Qed.
Lemma Forall2_snoc {A B} (R : A -> B -> Prop) l m a b : Forall2 R l m -> R a b -> Forall2 R (l ++ [a]) (m ++ [b]).
Proof. intros H Hab. apply Forall2_app; [exact H|constructor; [exact Hab|constructor]]. Qed.
Lemma Forall2_nth {A B} (R : A -> B -> Prop) l m d e k : Forall2 R l m -> k < length l -> R (nth k l d) (nth k m e).
Proof. intros H. revert k. induction H; intros [|k] Hk; cbn in *; try lia; auto. apply IHForall2. lia. Qed.

(** A test of every member of a list, decided by a relation. *)
Lemma rmap_decides {A B} (f : A -> res bool) (R : A -> B -> Prop) (P : B -> Prop) l m : Forall2 R l m ->
  (forall a b, R a b -> exists t, f a = Ok t /\ (t = true <-> P b)) ->
  exists ts, rmap f l = Ok ts /\ length ts = length m /\ forall k d, k < length m -> (nth k ts false = true <-> P (nth k m d)).
Proof.
  intros H Hf. induction H as [|a b l m Hab H IH]; cbn [rmap].
  - exists []. split; [reflexivity|]. split; [reflexivity|]. intros k d Hk. inversion Hk.
  - destruct (Hf a b Hab) as (t & -> & Ht). destruct IH as (ts & -> & L & Hts). cbn [bind]. exists (t :: ts). split; [reflexivity|].
    split; [cbn; congruence|]. intros [|k] d Hk; cbn in *; [exact Ht|]. apply Hts. lia.
Qed.
Lemma decides_exists {B} (P : B -> Prop) m ts : length ts = length m ->
  (forall k d, k < length m -> (nth k ts false = true <-> P (nth k m d))) ->
  (existsb (fun b => b) ts = true <-> exists x, In x m /\ P x).
Proof.
  intros L H. rewrite existsb_id_true. split.
  - intros Hi. apply (In_nth _ _ false) in Hi as (k & Hk & E). destruct m as [|d m]; [cbn in L; lia|]. exists (nth k (d :: m) d).
    split; [apply nth_In; lia|]. apply H; [lia|exact E].
  - intros (x & Hx & Px). apply (In_nth _ _ x) in Hx as (k & Hk & E). specialize (H k x Hk). rewrite E in H. apply H in Px.
    rewrite <- Px. apply nth_In. lia.
Qed.

Lemma any_equal_ok hs ls c m : Forall2 cluster hs ls -> cluster c m ->
  exists b, any_equal hs c = Ok b /\ (b = true <-> exists l, In l ls /\ translate l m).
Proof.
  intros H Hc. unfold any_equal.
  destruct (rmap_decides (fun h => equal_adjacency h c) cluster (fun l => translate l m) hs ls H) as (ts & -> & L & D).
  { intros a b Hab. apply equal_adjacency_ok; assumption. }
  cbn [bind]. eexists. split; [reflexivity|]. apply decides_exists; assumption.
Qed.

(** ** The clusters related to one by symmetry *)
Lemma quarter_turn_inj l : quarter_turn (map inj l) = map inj (map (fun p => (- snd p, fst p)%Z) l).
Proof.
  unfold quarter_turn. rewrite !map_map. apply map_ext. intros p. unfold rounded, inj. cbn [fst snd].
  rewrite (round14_to_int _ (- snd p)), (round14_to_int _ (fst p)); [reflexivity|reflexivity|]. rewrite inject_Z_opp. reflexivity.
Qed.
Lemma reflect_x_inj l : reflect_x (map inj l) = map inj (map (fun p => (- fst p, snd p)%Z) l).
Proof.
  unfold reflect_x. rewrite !map_map. apply map_ext. intros p. unfold rounded, inj. cbn [fst snd].
  rewrite (round14_to_int _ (- fst p)), (round14_to_int _ (snd p)); [reflexivity|reflexivity|]. rewrite inject_Z_opp. reflexivity.
Qed.
Lemma symmetric_coords_inj l : symmetric_coords (map inj l) = map (fun s => map inj (map s l)) (tl square_symmetries).
Proof.
  unfold symmetric_coords. rewrite !quarter_turn_inj, !reflect_x_inj. cbn [tl square_symmetries map]. rewrite !map_map. cbn [fst snd].
  repeat (apply f_equal2; [apply map_ext; intros [? ?]; cbn [fst snd]; unfold inj; cbn [fst snd]; f_equal; f_equal; lia|]). reflexivity.
Qed.

Definition related (l : list pt) (ss : list (pt -> pt)) (os : list (list pt)) : Prop :=
  apart translate os /\ (forall o, In o os -> exists s, In s ss /\ translate (map s l) o) /\
  (forall s, In s ss -> exists o, In o os /\ translate (map s l) o).

Lemma related_clusters_ok g l : cluster g l ->
  exists ps os, related_clusters g = Ok ps /\ Forall2 cluster ps os /\ related l square_symmetries os.
Proof.
  intros C. unfold related_clusters. rewrite (rep_coords _ _ (cl_rep _ _ C)), symmetric_coords_inj.
  set (I := fun (pre : list (list vec)) (ps : list cluster_geom) => exists ss os, pre = map (fun s => map inj (map s l)) ss /\
     Forall2 cluster ps os /\ related l ((fun p => p) :: ss) os).
  assert (INJ : forall s, In s (tl square_symmetries) -> forall p q, s p = s q -> p = q).
  { intros s Hs p q. apply (sym_inj true s). right. exact Hs. }
  assert (K : forall ss, incl ss (tl square_symmetries) -> 
    exists ps os, rfold (fun ps cs => c <- sorted_cluster cs ;; e <- any_equal ps c ;; Ok (if e then ps else ps ++ [c]))
      (map (fun s => map inj (map s l)) ss) [g] = Ok ps /\ Forall2 cluster ps os /\ related l ((fun p => p) :: ss) os).
  { intros ss. induction ss as [|s ss IH] using rev_ind; intros Hi.
    - exists [g], [l]. split; [reflexivity|]. split; [constructor; [exact C|constructor]|]. split; [apply apart_one|]. split.
      + intros o [<-|[]]. exists (fun p => p). split; [left; reflexivity|]. rewrite map_id. apply translate_refl.
      + intros s [<-|[]]. exists l. split; [left; reflexivity|]. rewrite map_id. apply translate_refl.
    - destruct IH as (ps & os & E & F & A & H1 & H2). { intros x Hx. apply Hi, in_or_app. left. exact Hx. }
      rewrite map_app, rfold_app, E. cbn [bind map rfold].
      assert (Hs : In s (tl square_symmetries)) by (apply Hi, in_or_app; right; left; reflexivity).
      destruct (sorted_cluster_ok (map s l)) as (c & m & -> & Cm & Pm).
      { destruct l; [destruct (cl_ne _ _ C eq_refl)|discriminate]. }
      { apply NoDup_map_inj; [exact (INJ s Hs)|exact (cl_nd _ _ C)]. }
      cbn [bind]. destruct (any_equal_ok ps os c m F Cm) as (b & -> & Hb). cbn [bind].
      assert (T : translate (map s l) m) by (apply translate_of_same, perm_same_set; exact Pm).
      destruct b.
      + exists ps, os. split; [reflexivity|]. split; [exact F|]. split; [exact A|]. split.
        * intros o Ho. destruct (H1 o Ho) as (s' & Hs' & T'). exists s'. split; [|exact T']. rewrite app_comm_cons. apply in_or_app. left. exact Hs'.
        * intros s' Hs'. rewrite app_comm_cons in Hs'. apply in_app_or in Hs' as [Hs'|[<-|[]]]; [apply H2; exact Hs'|].
          destruct (proj1 Hb eq_refl) as (o & Ho & T'). exists o. split; [exact Ho|]. apply (translate_trans _ m); [exact T|apply translate_sym; exact T'].
      + exists (ps ++ [c]), (os ++ [m]). split; [reflexivity|]. split; [apply Forall2_snoc; assumption|]. split; [|split].
        * apply apart_snoc; [exact translate_sym|exact A|]. intros o Ho T'. assert (false = true) by (apply Hb; exists o; auto). discriminate.
        * intros o Ho. apply in_app_or in Ho as [Ho|[<-|[]]].
          -- destruct (H1 o Ho) as (s' & Hs' & T'). exists s'. split; [|exact T']. rewrite app_comm_cons. apply in_or_app. left. exact Hs'.
          -- exists s. split; [|exact T]. right. apply in_or_app. right. left. reflexivity.
        * intros s' Hs'. rewrite app_comm_cons in Hs'. apply in_app_or in Hs' as [Hs'|[<-|[]]].
          -- destruct (H2 s' Hs') as (o & Ho & T'). exists o. split; [apply in_or_app; left; exact Ho|exact T'].
          -- exists m. split; [apply in_or_app; right; left; reflexivity|exact T]. }
  exact (K (tl square_symmetries) (incl_refl _)).
Qed.

Lemma partners_ok sym g l : cluster g l ->
  exists ps os, partners sym g = Ok ps /\ Forall2 cluster ps os /\ related l (symmetries sym) os.
Proof.
  intros C. destruct sym; [apply related_clusters_ok; exact C|].
  exists [g], [l]. split; [reflexivity|]. split; [constructor; [exact C|constructor]|]. split; [apply apart_one|]. split.
  - intros o [<-|[]]. exists (fun p => p). split; [left; reflexivity|]. rewrite map_id. apply translate_refl.
  - intros s [<-|[]]. exists l. split; [left; reflexivity|]. rewrite map_id. apply translate_refl.
Qed.
Lemma related_orientations sym l os : related l (symmetries sym) os -> orientations sym l (length os).
Proof. intros (A & H1 & H2). exists os. split; [reflexivity|]. split; [exact A|]. split; assumption. Qed.
Lemma related_congruent sym l os m : related l (symmetries sym) os -> ((exists o, In o os /\ translate o m) <-> congruent sym l m).
Proof.
  intros (A & H1 & H2). split.
  - intros (o & Ho & T). destruct (H1 o Ho) as (s & Hs & T'). exists s. split; [exact Hs|]. apply (translate_trans _ o); assumption.
  - intros (s & Hs & T). destruct (H2 s Hs) as (o & Ho & T'). exists o. split; [exact Ho|]. apply (translate_trans _ (map s l)); [apply translate_sym|]; assumption.
Qed.

(** Whether some partner of [g] is one of the listed clusters. *)
Lemma partners_test sym g l cls ls : cluster g l -> Forall2 cluster cls ls ->
  exists ps es, partners sym g = Ok ps /\ orientations sym l (length ps) /\ rmap (any_equal ps) cls = Ok es /\
    length es = length ls /\ forall k d, k < length ls -> (nth k es false = true <-> congruent sym l (nth k ls d)).
Proof.
  intros C F. destruct (partners_ok sym g l C) as (ps & os & Ep & Fp & R).
  destruct (rmap_decides (any_equal ps) cluster (congruent sym l) cls ls F) as (es & Ees & L & D).
  { intros c m Cm. destruct (any_equal_ok ps os c m Fp Cm) as (b & Eb & Hb). exists b. split; [exact Eb|]. rewrite Hb.
    apply related_congruent. exact R. }
  exists ps, es. split; [exact Ep|]. split; [|auto]. rewrite (Forall2_length' _ _ _ Fp). apply related_orientations. exact R.
Qed.

(** The current operator is a commutator; displacements of the particles. *)
From Coq Require Import List Arith Lia Reals Lra ZArith QArith Qabs Qreals Bool.
From Verif Require Import Scalars Res Matrix Sums SqMat SpecMat SpecFock OpsProofs FockProofs FermiOps ModelBase ModelFermions ModelSpins SpecSpins Digits SpinOps SpinAlg SpinSwap SpinJordan HamProofs FermiApi SpecPerm
  ModelGeometry GeoArith ClusterRep ModelPhase ModelSymmetry SymBase ModelThermal SpecThermal ThermalBase ThermalBasis HalfHam SpecSigns Sectors HopSigns SpecShells Shells ModelCurrent SpecCurrent.
Import ListNotations.
Local Open Scope R_scope.

Lemma total_single (F : nat -> R) n k : (k < n)%nat -> (forall i, (i < n)%nat -> i <> k -> F i = 0) -> total F (seq 0 n) = F k.
Proof.
  intros Hk Z. replace n with (k + (1 + (n - k - 1)))%nat by lia. rewrite !seq_app, !total_app. cbn [seq Nat.add]. rewrite (total_zero F (seq 0 k)), (total_zero F (seq (k + 1) _)).
  - unfold total. cbn. ring.
  - intros i Hi. apply in_seq in Hi. apply Z; lia.
  - intros i Hi. apply in_seq in Hi. apply Z; lia.
Qed.
Lemma total_both (F : nat -> R) n k j : (k < n)%nat -> (j < n)%nat -> k <> j -> (forall i, (i < n)%nat -> i <> k -> i <> j -> F i = 0) -> total F (seq 0 n) = F k + F j.
Proof.
  intros Hk Hj NE Z. rewrite (total_ext F (fun i => (if (i =? k)%nat then F i else 0) + (if (i =? j)%nat then F i else 0))).
  - rewrite total_add. rewrite (total_single _ n k Hk), (total_single _ n j Hj), !Nat.eqb_refl; [reflexivity | |]; intros i _ N; rewrite (proj2 (Nat.eqb_neq i _) N); reflexivity.
  - intros i Hi. apply in_seq in Hi. destruct (Nat.eqb_spec i k) as [->|A]; [rewrite (proj2 (Nat.eqb_neq k j) NE); ring|]. destruct (Nat.eqb_spec i j) as [->|B]; [ring|]. rewrite (Z i) by lia. ring.
Qed.
Lemma kq_real q : kQ q = ((Q2R q, 0) : CR).
Proof. reflexivity. Qed.

Section Cur.
  Variables (f : fermions CR).
  Notation ns := (fg_nsites (f_geom f)).
  Notation m := (f_nspecies f).
  Notation nl := (ns * m)%nat.
  Notation D := (2 ^ (ns * m))%nat.
  Notation dg p a := (digit 2 nl p a).
  Notation orb s i := (ns * s + i)%nat.
  Notation one p r := (smul (N:=D) (Cd (K:=CR) nl p) (Ca nl r)).

  (** Sum of the coordinates of the particles. *)
  Definition place (w : nat -> R) (a : nat) : R := total (fun s => total (fun i => w i * INR (dg (orb s i) a)) (seq 0 ns)) (seq 0 m).
  Lemma orb_inj s i s' i' : (i < ns)%nat -> (i' < ns)%nat -> orb s i = orb s' i' -> s = s' /\ i = i'.
  Proof using.
    intros Hi Hi' X. assert (Hn : ns <> 0%nat) by lia. split.
    - exact (eq_trans (Nat.div_unique (orb s i) ns s i Hi eq_refl) (eq_sym (Nat.div_unique (orb s i) ns s' i' Hi' X))).
    - exact (eq_trans (Nat.mod_unique (orb s i) ns s i Hi eq_refl) (eq_sym (Nat.mod_unique (orb s i) ns s' i' Hi' X))).
  Qed.
  Lemma place_moves w a b i j s : (i < ns)%nat -> (j < ns)%nat -> i <> j -> (s < m)%nat -> (a < D)%nat -> (b < D)%nat -> one (orb s i) (orb s j) a b <> c0 -> place w a - place w b = w i - w j.
  Proof using.
    intros Hi Hj NE Hs Ha Hb NZ. rewrite (one_way f (orb s i) (orb s j)) in NZ; [|lia | nia | nia | exact Ha | exact Hb].
    destruct (agree_off 2 nl [orb s i; orb s j] a b) eqn:AG; [|elim NZ; reflexivity]. rewrite agree_off_spec in AG. cbn [andb] in NZ.
    destruct (Nat.eqb_spec (dg (orb s i) a) 1) as [E1|]; [|elim NZ; reflexivity]. destruct (Nat.eqb_spec (dg (orb s j) a) 0) as [E2|]; [|elim NZ; reflexivity].
    destruct (Nat.eqb_spec (dg (orb s i) b) 0) as [E3|]; [|elim NZ; reflexivity]. destruct (Nat.eqb_spec (dg (orb s j) b) 1) as [E4|]; [|elim NZ; reflexivity].
    unfold place. transitivity (total (fun s => total (fun i => w i * (INR (dg (orb s i) a) - INR (dg (orb s i) b))) (seq 0 ns)) (seq 0 m)).
    { symmetry. erewrite (total_ext _ (fun s => total (fun i => w i * INR (dg (orb s i) a)) (seq 0 ns) + (-1) * total (fun i => w i * INR (dg (orb s i) b)) (seq 0 ns))); [rewrite total_add, total_scale; ring|].
      intros s' _. rewrite <- total_scale, <- total_add. apply total_ext. intros i' _. ring. }
    assert (Z : forall s' i', (s' < m)%nat -> (i' < ns)%nat -> (s' <> s \/ (i' <> i /\ i' <> j)) -> w i' * (INR (dg (orb s' i') a) - INR (dg (orb s' i') b)) = 0).
    { intros s' i' Hs' Hi' C. rewrite (AG (orb s' i')); [ring | nia|]. cbn. intros [X|[X|[]]]; apply orb_inj in X; try assumption; destruct C as [C|(C & C2)]; destruct X; congruence. }
    rewrite (total_single _ m s Hs).
    - rewrite (total_both _ ns i j Hi Hj NE); [rewrite E1, E2, E3, E4; cbn; ring|]. intros i' Hi' A B. apply Z; auto.
    - intros s' Hs' N. apply total_zero. intros i' Hi'. apply in_seq in Hi'. apply Z; [exact Hs' | lia | left; exact N].
  Qed.

  Variables (x y : nat -> Q) (tx ty : CR).
  Hypothesis op : open_bonds (f_geom f) x y.
  Hypothesis hp : hops_along f tx ty.

  (** ** The loop *)
  Variables (d1 d2 : R).
  Definition link (i j : nat) : CR :=
    (if fg_adj (f_geom f) i j && unit_apart (fg_xdist (f_geom f) i j) then tx *c (kQ (fg_xdist (f_geom f) i j) *c real d1) else c0) +c
    (if fg_adj (f_geom f) i j && unit_apart (fg_ydist (f_geom f) i j) then ty *c (kQ (fg_ydist (f_geom f) i j) *c real d2) else c0).
  Definition entry (r : op_or_zero CR) : nat -> nat -> CR := ent (as_matrix D r).
  Definition sized (r : op_or_zero CR) : Prop := square D (as_matrix D r).
  Lemma add_ok acc c A : sized acc -> square D A -> exists acc', add_link acc c A = Ok acc' /\ sized acc' /\ forall a b, entry acc' a b = entry acc a b +c c *c ent A a b.
  Proof using.
    intros SA SQ. destruct acc as [|M]; cbn [add_link].
    - eexists. split; [reflexivity|]. split; [apply square_scale, SQ|]. intros a b. unfold entry. cbn. apply injective_projections; cbn; ring.
    - rewrite (cadd_ok D) by (exact SA || (apply square_scale, SQ)). eexists. split; [reflexivity|]. split; [destruct SA as (SA1 & SA2); split; cbn; [exact SA1 | exact SA2]|]. intros a b. reflexivity.
  Qed.
  Lemma step_ok acc i j s : sized acc -> (i < ns)%nat -> (j < ns)%nat -> (s < m)%nat -> exists acc', link_step tx ty f (real d1) (real d2) acc (i, j, s) = Ok acc' /\ sized acc' /\
    forall a b, (a < D)%nat -> (b < D)%nat -> entry acc' a b = entry acc a b +c link i j *c one (orb s i) (orb s j) a b.
  Proof using.
    intros SA Hi Hj Hs. destruct (two_ok (K:=CR) (f_sys f) i s j s cdag_op c_op Fermion) as (A & EA & SQ & FA); auto using sq_cdag, sq_c; try discriminate; try reflexivity.
    assert (VA : forall a b, (a < D)%nat -> (b < D)%nat -> ent A a b = one (orb s i) (orb s j) a b) by (intros a b Ha Hb; exact (FA a b Ha Hb)).
    unfold link_step, link. cbv zeta. rewrite EA. cbn [bind]. set (bx := fg_adj (f_geom f) i j && unit_apart (fg_xdist (f_geom f) i j)). set (b_y := fg_adj (f_geom f) i j && unit_apart (fg_ydist (f_geom f) i j)).
    assert (X : exists acc1, (if bx then add_link acc (tx *c (kQ (fg_xdist (f_geom f) i j) *c real d1)) A else Ok acc) = Ok acc1 /\ sized acc1 /\ forall a b, (a < D)%nat -> (b < D)%nat -> entry acc1 a b = entry acc a b +c (if bx then tx *c (kQ (fg_xdist (f_geom f) i j) *c real d1) else c0) *c one (orb s i) (orb s j) a b).
    { destruct bx; [destruct (add_ok acc (tx *c (kQ (fg_xdist (f_geom f) i j) *c real d1)) A SA SQ) as (a1 & E1 & S1 & W1); exists a1; split; [exact E1|]; split; [exact S1|]; intros a b Ha Hb; rewrite W1, (VA a b Ha Hb); reflexivity|].
      exists acc. split; [reflexivity|]. split; [exact SA|]. intros a b _ _. ring. }
    destruct X as (acc1 & E1 & S1 & W1). rewrite E1. cbn [bind].
    destruct b_y.
    - destruct (add_ok acc1 (ty *c (kQ (fg_ydist (f_geom f) i j) *c real d2)) A S1 SQ) as (a2 & E2 & S2 & W2). exists a2. split; [exact E2|]. split; [exact S2|]. intros a b Ha Hb. rewrite W2, (W1 a b Ha Hb), (VA a b Ha Hb). ring.
    - exists acc1. split; [reflexivity|]. split; [exact S1|]. intros a b Ha Hb. rewrite (W1 a b Ha Hb). ring.
  Qed.
  Lemma loop l acc : sized acc -> (forall t, In t l -> let '(i, j, s) := t in (i < ns)%nat /\ (j < ns)%nat /\ (s < m)%nat) -> exists acc', rfold (link_step tx ty f (real d1) (real d2)) l acc = Ok acc' /\ sized acc' /\
    forall a b, (a < D)%nat -> (b < D)%nat -> entry acc' a b = entry acc a b +c klsum l (fun t => let '(i, j, s) := t in link i j *c one (orb s i) (orb s j) a b).
  Proof using.
    revert acc. induction l as [|((i, j), s) l IH]; intros acc SA B.
    - exists acc. split; [reflexivity|]. split; [exact SA|]. intros a b _ _. cbn. apply injective_projections; cbn; ring.
    - destruct (B _ (or_introl eq_refl)) as (Hi & Hj & Hs). destruct (step_ok acc i j s SA Hi Hj Hs) as (a1 & E1 & S1 & W1). cbn [rfold]. rewrite E1. cbn [bind].
      destruct (IH a1 S1 ltac:(intros t Ht; apply B; right; exact Ht)) as (a2 & E2 & S2 & W2). exists a2. split; [exact E2|]. split; [exact S2|]. intros a b Ha Hb. rewrite (W2 a b Ha Hb), (W1 a b Ha Hb). cbn [klsum]. ring.
  Qed.
  Lemma current_val : exists r, current_op (Some tx) (Some ty) f (real d1) (real d2) = Ok r /\ sized r /\
    forall a b, (a < D)%nat -> (b < D)%nat -> entry r a b = (0, 1) *c ksum ns (fun i => ksum ns (fun j => ksum m (fun s => link i j *c one (orb s i) (orb s j) a b))).
  Proof using.
    destruct (loop (triples (fun _ _ => true) ns m) ZeroNumber) as (acc & E & S & W).
    - split; reflexivity.
    - intros ((i, j), s) Ht. apply in_triples in Ht. tauto.
    - unfold current_op. rewrite E. cbn [bind]. eexists. split; [reflexivity|].
      assert (T : forall a b, (a < D)%nat -> (b < D)%nat -> entry acc a b = ksum ns (fun i => ksum ns (fun j => ksum m (fun s => link i j *c one (orb s i) (orb s j) a b)))).
      { intros a b Ha Hb. rewrite (W a b Ha Hb). unfold entry at 1. cbn [as_matrix mzero ent]. unfold triples. rewrite klsum_prod, klsum_filter, klsum_prod, klsum_seq.
        transitivity (ksum ns (fun i => klsum (seq 0 ns) (fun j => klsum (seq 0 m) (fun s => link i j *c one (orb s i) (orb s j) a b)))); [cbn; apply injective_projections; cbn; ring|].
        apply ksum_ext. intros i _. rewrite klsum_seq. apply ksum_ext. intros j _. apply klsum_seq. }
      destruct acc as [|M].
      + split; [exact S|]. intros a b Ha Hb. rewrite <- (T a b Ha Hb). unfold entry. cbn. apply injective_projections; cbn; ring.
      + split; [apply square_scale, S|]. intros a b Ha Hb. rewrite <- (T a b Ha Hb). reflexivity.
  Qed.

  (** ** Comparison with the hopping *)
  Definition wt (i : nat) : R := d1 * Q2R (x i) + d2 * Q2R (y i).
  Definition tt (i j : nat) : CR := if fg_adj (f_geom f) i j then (if Qeq_bool (fg_ydist (f_geom f) i j) 0 then tx else ty) else c0.
  Lemma adj_sym i j : (i < ns)%nat -> (j < ns)%nat -> fg_adj (f_geom f) i j = fg_adj (f_geom f) j i.
  Proof using op. intros Hi Hj. destruct (fg_adj (f_geom f) i j) eqn:A; [symmetry; apply (op i j Hi Hj A)|]. destruct (fg_adj (f_geom f) j i) eqn:B; [|reflexivity]. rewrite <- A. apply (op j i Hj Hi B). Qed.
  Lemma unit_yes q : (Qabs q == 1)%Q -> unit_apart q = true.
  Proof using. intros E. unfold unit_apart. rewrite (round14_to_int (Qabs q) 1 E). reflexivity. Qed.
  Lemma unit_no q : (q == 0)%Q -> unit_apart q = false.
  Proof using. intros E. unfold unit_apart. rewrite (round14_to_int (Qabs q) 0); [reflexivity|]. rewrite E. reflexivity. Qed.
  Lemma tt_sym i j : (i < ns)%nat -> (j < ns)%nat -> tt i j = tt j i.
  Proof using op.
    intros Hi Hj. unfold tt. rewrite (adj_sym i j Hi Hj). destruct (fg_adj (f_geom f) j i) eqn:A; [|reflexivity]. destruct (op j i Hj Hi A) as (B & _ & Y1 & _). destruct (op i j Hi Hj B) as (_ & _ & Y2 & _).
    assert (Q : Qeq_bool (fg_ydist (f_geom f) i j) 0 = Qeq_bool (fg_ydist (f_geom f) j i) 0).
    { apply bool_eq_iff. rewrite !Qeq_bool_iff, Y1, Y2. split; intros Z; [transitivity (- (y i - y j))%Q | transitivity (- (y j - y i))%Q]; try ring; rewrite Z; reflexivity. }
    rewrite Q. reflexivity.
  Qed.
  Lemma axis_x i j : (i < ns)%nat -> (j < ns)%nat -> fg_adj (f_geom f) i j = true -> (Qabs (x i - x j) == 1)%Q -> (y i - y j == 0)%Q -> unit_apart (fg_xdist (f_geom f) i j) = true /\ unit_apart (fg_ydist (f_geom f) i j) = false /\ Qeq_bool (fg_ydist (f_geom f) i j) 0 = true.
  Proof using op.
    intros Hi Hj A X Y. destruct (op i j Hi Hj A) as (_ & X1 & Y1 & _). repeat split; [apply unit_yes; rewrite X1; exact X | apply unit_no; rewrite Y1; exact Y | apply Qeq_bool_iff; rewrite Y1; exact Y].
  Qed.
  Lemma axis_y i j : (i < ns)%nat -> (j < ns)%nat -> fg_adj (f_geom f) i j = true -> (Qabs (y i - y j) == 1)%Q -> (x i - x j == 0)%Q -> unit_apart (fg_xdist (f_geom f) i j) = false /\ unit_apart (fg_ydist (f_geom f) i j) = true /\ Qeq_bool (fg_ydist (f_geom f) i j) 0 = false.
  Proof using op.
    intros Hi Hj A Y X. destruct (op i j Hi Hj A) as (_ & X1 & Y1 & _). repeat split; [apply unit_no; rewrite X1; exact X | apply unit_yes; rewrite Y1; exact Y |].
    apply not_true_iff_false. rewrite Qeq_bool_iff, Y1. intros Z. rewrite Z in Y. discriminate Y.
  Qed.
  Lemma q2r_sub p q : Q2R (p - q) = Q2R p - Q2R q. Proof using. unfold Qminus. rewrite Q2R_plus, Q2R_opp. ring. Qed.
  Lemma q2r_zero p q : (p - q == 0)%Q -> Q2R p - Q2R q = 0. Proof using. intros E. apply Qeq_eqR in E. rewrite q2r_sub, RMicromega.Q2R_0 in E. exact E. Qed.
  Lemma link_val i j : (i < ns)%nat -> (j < ns)%nat -> link i j = tt i j *c real (wt i - wt j).
  Proof using op.
    intros Hi Hj. unfold link, tt. destruct (fg_adj (f_geom f) i j) eqn:A; cbn [andb]; [|ring]. destruct (op i j Hi Hj A) as (_ & X1 & Y1 & [(U & Z)|(U & Z)]).
    - destruct (axis_x i j Hi Hj A U Z) as (-> & -> & ->). rewrite (kq_real (fg_xdist (f_geom f) i j)), (Qeq_eqR _ _ X1), q2r_sub. unfold wt. apply q2r_zero in Z. replace (d1 * Q2R (x i) + d2 * Q2R (y i) - (d1 * Q2R (x j) + d2 * Q2R (y j))) with ((Q2R (x i) - Q2R (x j)) * d1 + d2 * (Q2R (y i) - Q2R (y j))) by ring. rewrite Z. apply injective_projections; cbn; ring.
    - destruct (axis_y i j Hi Hj A U Z) as (-> & -> & ->). rewrite (kq_real (fg_ydist (f_geom f) i j)), (Qeq_eqR _ _ Y1), q2r_sub. unfold wt. apply q2r_zero in Z. replace (d1 * Q2R (x i) + d2 * Q2R (y i) - (d1 * Q2R (x j) + d2 * Q2R (y j))) with (d1 * (Q2R (x i) - Q2R (x j)) + (Q2R (y i) - Q2R (y j)) * d2) by ring. rewrite Z. apply injective_projections; cbn; ring.
  Qed.
  Lemma amp_val i j s : (j < i < ns)%nat -> (s < m)%nat -> amplitude f i j s = tt i j.
  Proof using op hp.
    intros Hij Hs. unfold amplitude. rewrite (hp i j s Hij Hs). unfold tt. destruct (fg_adj (f_geom f) i j) eqn:A; [|apply injective_projections; cbn; ring].
    assert (Q : (Qabs (fg_xdist (f_geom f) i j) + Qabs (fg_ydist (f_geom f) i j) == 1)%Q) by (destruct (op i j ltac:(lia) ltac:(lia) A) as (_ & X1 & Y1 & [(U & Z)|(U & Z)]); rewrite X1, Y1, U, Z; reflexivity).
    rewrite kq_real, (Qeq_eqR _ _ Q), RMicromega.Q2R_1. destruct (Qeq_bool _ _); apply injective_projections; cbn; ring.
  Qed.
  Lemma ceq_dec (z : CR) : z = c0 \/ z <> c0.
  Proof using. destruct z as (u, v). destruct (Req_dec u 0) as [->|N]; [destruct (Req_dec v 0) as [->|N]; [left; reflexivity|]|]; right; intros E; injection E; lra. Qed.
  Notation H2 := (HS2 f (amplitude f)).
  Hypothesis us : us_ok f.
  Lemma hop_sum a b : (a < D)%nat -> (b < D)%nat -> ksum ns (fun i => ksum i (fun j => ksum m (fun s => kopp (amplitude f i j s *c hop f (orb s i) (orb s j) a b)))) =
    ksum ns (fun i => ksum ns (fun j => if (j =? i)%nat then c0 else ksum m (fun s => kopp (tt i j *c one (orb s i) (orb s j) a b)))).
  Proof using op hp.
    intros Ha Hb. rewrite <- (ksum_pairs ns (fun i j => ksum m (fun s => kopp (tt i j *c one (orb s i) (orb s j) a b)))). apply ksum_ext. intros i Hi. apply ksum_ext. intros j Hj.
    rewrite <- ksum_add. apply ksum_ext. intros s Hs. rewrite (amp_val i j s) by lia. unfold hop, sadd. change (nlog (f_sys f)) with nl. rewrite (tt_sym j i) by lia. apply injective_projections; cbn; ring.
  Qed.
  Lemma current_ham r a b : current_op (Some tx) (Some ty) f (real d1) (real d2) = Ok r -> (a < D)%nat -> (b < D)%nat -> entry r a b = (0, place wt b - place wt a) *c H2 a b.
  Proof using op hp us.
    intros E Ha Hb. destruct current_val as (r' & E' & _ & W). rewrite E in E'. injection E' as <-. rewrite (W a b Ha Hb).
    transitivity ((0, place wt b - place wt a) *c ksum ns (fun i => ksum i (fun j => ksum m (fun s => kopp (amplitude f i j s *c hop f (orb s i) (orb s j) a b))))).
    - rewrite (hop_sum a b Ha Hb). rewrite <- !ksum_mul_l. apply ksum_ext. intros i Hi. rewrite <- !ksum_mul_l. apply ksum_ext. intros j Hj.
      destruct (Nat.eqb_spec j i) as [->|NE].
      + rewrite ksum_zero; [ring|]. intros s Hs. rewrite (link_val i i Hi Hi). apply injective_projections; cbn; ring.
      + rewrite <- !ksum_mul_l. apply ksum_ext. intros s Hs. rewrite (link_val i j Hi Hj). destruct (ceq_dec (one (orb s i) (orb s j) a b)) as [->|NZ]; [apply injective_projections; cbn; ring|].
        rewrite <- (place_moves wt a b i j s Hi Hj ltac:(auto) Hs Ha Hb NZ). apply injective_projections; cbn; ring.
    - destruct (Nat.eq_dec a b) as [<-|NE]; [replace (place wt a - place wt a) with 0 by ring; apply injective_projections; cbn; ring|].
      rewrite (off_diagonal f us a b Ha Hb NE). reflexivity.
  Qed.
  (** Kinetic energy along an axis. *)
  Lemma kin_ham P idx d R a b : rows_are D P idx -> (forall k, In k idx -> (k < D)%nat) -> kinetic_op f P d = Ok R -> (a < length idx)%nat -> (b < length idx)%nat ->
    nrow R = length idx /\ ncol R = length idx /\ ent R a b = real ((place (along d x y) (nth a idx 0%nat) - place (along d x y) (nth b idx 0%nat)) ^ 2) *c H2 (nth a idx 0%nat) (nth b idx 0%nat).
  Proof using op hp us.
    intros (R1 & R2 & R3) I E La Lb. destruct (kin_ok f P d R2) as (R' & E' & (S1 & S2) & W). rewrite E in E'. injection E' as <-. split; [congruence|]. split; [congruence|]. rewrite W.
    rewrite (sand_rows D P idx _ a b) by ((split; [exact R1 | split; [exact R2 | exact R3]]) || assumption). set (p := nth a idx 0%nat). set (q := nth b idx 0%nat).
    assert (Hp : (p < D)%nat) by (apply I, nth_In, La). assert (Hq : (q < D)%nat) by (apply I, nth_In, Lb). set (w := along d x y).
    transitivity (real ((place w p - place w q) ^ 2) *c ksum ns (fun i => ksum i (fun j => ksum m (fun s => kopp (amplitude f i j s *c hop f (orb s i) (orb s j) p q))))).
    - unfold HamProofs.lsum. rewrite (klsum_ext _ _ (fun t => let '(i, j, s) := t in kin_term f d (i, j, s) p q)) by (intros ((i, j), s) _; reflexivity).
      rewrite (klsum_triples_lt f (fun i j s => kin_term f d (i, j, s) p q)). rewrite <- !ksum_mul_l. apply ksum_ext. intros i Hi. rewrite <- !ksum_mul_l. apply ksum_ext. intros j Hj. rewrite <- !ksum_mul_l. apply ksum_ext. intros s Hs.
      rewrite (amp_val i j s) by lia. unfold kin_term, sscale, hop, sadd. rewrite (hp i j s) by lia. fold (tt i j). change (nlog (f_sys f)) with nl. unfold lsite. change (s_nsites (f_sys f)) with ns.
      assert (T : forall u v, (u = i /\ v = j) \/ (u = j /\ v = i) -> (tt i j *c kQ (sep_along (f_geom f) d i j)) *c one (orb s u) (orb s v) p q = real ((place w p - place w q) ^ 2) *c (tt i j *c one (orb s u) (orb s v) p q)).
      { intros u v C. destruct (ceq_dec (one (orb s u) (orb s v) p q)) as [->|NZ]; [ring|].
        rewrite (place_moves w p q u v s) by (exact NZ || assumption || lia). unfold tt. destruct (fg_adj (f_geom f) i j) eqn:A; [|ring].
        assert (SQ : Q2R (sep_along (f_geom f) d i j) = (w u - w v) ^ 2).
        { transitivity ((w i - w j) ^ 2); [|destruct C as [(-> & ->)|(-> & ->)]; ring]. destruct (op i j ltac:(lia) ltac:(lia) A) as (_ & X1 & Y1 & B). unfold w. 
          assert (ONE : forall u, (Qabs u == 1)%Q -> Q2R u ^ 2 = 1).
          { intros u1 U. assert (C1 : (u1 == 1 \/ u1 == - (1))%Q) by (destruct (Qlt_le_dec u1 0) as [N|N]; [right; rewrite Qabs_neg in U by (apply Qlt_le_weak, N); rewrite <- U; ring | left; rewrite Qabs_pos in U by exact N; exact U]).
            destruct C1 as [C1|C1]; rewrite (Qeq_eqR _ _ C1); unfold Q2R; cbn; field. }
          destruct d; cbn [sep_along along]; [rewrite (Qeq_eqR (Qabs (fg_xdist (f_geom f) i j)) (Qabs (x i - x j))) by (rewrite X1; reflexivity); rewrite <- q2r_sub | rewrite (Qeq_eqR (Qabs (fg_ydist (f_geom f) i j)) (Qabs (y i - y j))) by (rewrite Y1; reflexivity); rewrite <- q2r_sub]; destruct B as [(U & Z)|(U & Z)];
          (rewrite ONE by exact U; rewrite (Qeq_eqR _ _ U); apply RMicromega.Q2R_1) || (match goal with |- Q2R (Qabs ?q) = _ => assert (Z1 : (Qabs q == 0)%Q) by (rewrite Z; reflexivity) end; rewrite (Qeq_eqR _ 0%Q Z), (Qeq_eqR _ 0%Q Z1), RMicromega.Q2R_0; ring). }
        rewrite kq_real, SQ. change ((w u - w v) ^ 2, 0) with (real ((w u - w v) ^ 2)). destruct (Qeq_bool _ _); ring. }
      pose proof (T i j ltac:(left; split; reflexivity)) as T1. pose proof (T j i ltac:(right; split; reflexivity)) as T2.
      transitivity (kopp ((tt i j *c kQ (sep_along (f_geom f) d i j)) *c one (orb s i) (orb s j) p q +c (tt i j *c kQ (sep_along (f_geom f) d i j)) *c one (orb s j) (orb s i) p q)); [apply injective_projections; cbn; ring|].
      rewrite T1, T2. apply injective_projections; cbn; ring.
    - destruct (Nat.eq_dec p q) as [<-|NE]; [replace (place w p - place w p) with 0 by ring; apply injective_projections; cbn; ring|].
      rewrite (off_diagonal f us p q Hp Hq NE). reflexivity.
  Qed.
End Cur.

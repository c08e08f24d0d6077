(** Spins 1/2 with a fixed number of flipped spins. *)
From Coq Require Import List Arith Lia Reals Lra ZArith QArith Bool Permutation.
From Verif Require Import Scalars Res Matrix Sums SqMat SpecMat ModelBase ModelSpins SpecSpins Digits SpinOps SpinAlg SpinHam SpinApi SpinSwap HamProofs SpecPerm
  ModelGeometry ModelPhase ModelSymmetry SymBase ModelThermal SpecThermal ThermalBase ThermalFacts ThermalBasis Spectral Thermo SpecHeat SpecConvex Convex SpecSigns Signs SignsHeat SignsSpins SpecSectors Perron.
Import ListNotations.
Local Open Scope R_scope.

Lemma sand_rows N (P : mat CR) idx X a b : rows_are N P idx -> (forall k, In k idx -> (k < N)%nat) -> (a < length idx)%nat -> (b < length idx)%nat -> sand N P X a b = X (nth a idx 0%nat) (nth b idx 0%nat).
Proof.
  intros (_ & _ & R) B Ha Hb. unfold sand. assert (Na : (nth a idx 0 < N)%nat) by (apply B, nth_In, Ha). assert (Nb : (nth b idx 0 < N)%nat) by (apply B, nth_In, Hb).
  rewrite (ksum_single N (nth b idx 0%nat)); [|exact Nb|].
  - rewrite (ksum_single N (nth a idx 0%nat)); [|exact Na|].
    + rewrite (R a _ Ha Na), (R b _ Hb Nb), !Nat.eqb_refl. apply injective_projections; cbn; ring.
    + intros k Hk Nk. rewrite (R a k Ha Hk), (proj2 (Nat.eqb_neq _ _)) by congruence. apply injective_projections; cbn; ring.
  - intros k Hk Nk. rewrite (R b k Hb Hk), (proj2 (Nat.eqb_neq _ _)) by congruence. apply injective_projections; cbn; ring.
Qed.

Lemma sum_perm l l' : Permutation l l' -> list_sum l = list_sum l'.
Proof. unfold list_sum. induction 1; cbn [fold_right] in *; lia. Qed.
Section Moves.
  Variable n : nat.
  Notation dg p a := (digit 2 n p a).
  Notation D := (2 ^ n)%nat.
  Notation swp i j a := (pull 2 n (exchange i j) a).
  (** Sums of digits from a site on. *)
  Definition tail_sum (m a : nat) : nat := list_sum (map (fun p => dg p a) (seq m (n - m))).
  Lemma bit p a : (dg p a < 2)%nat. Proof using. apply Nat.mod_upper_bound. discriminate. Qed.
  Lemma tail_step m a : (m < n)%nat -> tail_sum m a = (dg m a + tail_sum (S m) a)%nat.
  Proof using. intros Hm. unfold tail_sum. replace (n - m)%nat with (S (n - S m)) by lia. reflexivity. Qed.
  Lemma tail_ext m a b : (forall p, (m <= p < n)%nat -> dg p a = dg p b) -> tail_sum m a = tail_sum m b.
  Proof using. intros Q. unfold tail_sum. f_equal. apply map_ext_in. intros p Hp. apply in_seq in Hp. apply Q. lia. Qed.
  Lemma heads m a b : (m <= n)%nat -> (forall p, (p < m)%nat -> dg p a = dg p b) -> digit_sum 2 n a = digit_sum 2 n b -> tail_sum m a = tail_sum m b.
  Proof using.
    induction m as [|m IH]; intros Hm Q S; [unfold tail_sum; rewrite Nat.sub_0_r; exact S|].
    pose proof (IH ltac:(lia) ltac:(intros; apply Q; lia) S) as T. rewrite (tail_step m a), (tail_step m b), (Q m) in T by lia. lia.
  Qed.
  (** Some later site has the digit that is missing. *)
  Lemma tail_find m a v : (m <= n)%nat -> (v < 2)%nat -> (exists p, (m <= p < n)%nat /\ dg p a = v) \/ tail_sum m a = ((1 - v) * (n - m))%nat.
  Proof using.
    intros Hm Hv. remember (n - m)%nat as k eqn:K. revert m Hm K. induction k as [|k IH]; intros m Hm K.
    - right. replace m with n by lia. unfold tail_sum. rewrite Nat.sub_diag. cbn. lia.
    - destruct (Nat.eq_dec (dg m a) v) as [Q|Q]; [left; exists m; split; [lia | exact Q]|].
      destruct (IH (S m) ltac:(lia) ltac:(lia)) as [(p & Hp & Ep)|T]; [left; exists p; split; [lia | exact Ep] | right]. rewrite (tail_step m), T by lia. pose proof (bit m a). replace (dg m a) with (1 - v)%nat by lia. lia.
  Qed.
  Lemma exchange_lt i j p : (i < n)%nat -> (j < n)%nat -> (p < n)%nat -> (exchange i j p < n)%nat.
  Proof using. intros Hi Hj Hp. unfold exchange. destruct (p =? i)%nat; [exact Hj|]. destruct (p =? j)%nat; [exact Hi | exact Hp]. Qed.
  Lemma swp_same i a : (a < D)%nat -> swp i i a = a.
  Proof using.
    intros Ha. apply (digits_ext 2 ltac:(discriminate) n); [apply pull_lt; discriminate | exact Ha|]. intros p Hp. rewrite digit_pull by (discriminate || exact Hp). f_equal. unfold exchange. destruct (Nat.eqb_spec p i); congruence.
  Qed.
  Lemma swp_equal i j a : (a < D)%nat -> (i < n)%nat -> (j < n)%nat -> dg i a = dg j a -> swp i j a = a.
  Proof using.
    intros Ha Hi Hj Q. apply (digits_ext 2 ltac:(discriminate) n); [apply pull_lt; discriminate | exact Ha|]. intros p Hp. rewrite digit_pull by (discriminate || exact Hp). unfold exchange. destruct (Nat.eqb_spec p i) as [->|]; [auto|]. destruct (Nat.eqb_spec p j) as [->|]; auto.
  Qed.
  (** An exchange over two bonds. *)
  Lemma swp_over i k j a : (a < D)%nat -> (i < n)%nat -> (k < n)%nat -> (j < n)%nat -> i <> k -> k <> j -> i <> j -> swp k j (swp i k (swp k j a)) = swp i j a.
  Proof using.
    intros Ha Hi Hk Hj N1 N2 N3. apply (digits_ext 2 ltac:(discriminate) n); try (apply pull_lt; discriminate). intros p Hp. rewrite !digit_pull by (discriminate || auto using exchange_lt). f_equal.
    unfold exchange. destruct (Nat.eqb_spec p k) as [->|P1].
    - rewrite (proj2 (Nat.eqb_neq j i)), (proj2 (Nat.eqb_neq j k)), (proj2 (Nat.eqb_neq j k)), Nat.eqb_refl by congruence. rewrite (proj2 (Nat.eqb_neq k i)), (proj2 (Nat.eqb_neq k j)) by congruence. reflexivity.
    - destruct (Nat.eqb_spec p j) as [->|P2].
      + rewrite (proj2 (Nat.eqb_neq k i)), Nat.eqb_refl by congruence. rewrite (proj2 (Nat.eqb_neq i k)), (proj2 (Nat.eqb_neq i j)) by congruence. rewrite (proj2 (Nat.eqb_neq j i)) by congruence. reflexivity.
      + destruct (Nat.eqb_spec p i) as [->|P3]; [rewrite Nat.eqb_refl; reflexivity|]. rewrite !(proj2 (Nat.eqb_neq p _)) by assumption. reflexivity.
  Qed.
  Lemma swp_sum i j a : (a < D)%nat -> (i < n)%nat -> (j < n)%nat -> digit_sum 2 n (swp i j a) = digit_sum 2 n a.
  Proof using.
    intros Ha Hi Hj. unfold digit_sum. rewrite (map_ext_in _ (fun p => dg (exchange i j p) a)) by (intros p Hp; apply in_seq in Hp; apply digit_pull; [discriminate | lia]).
    rewrite <- (map_map (exchange i j) (fun p => dg p a)). apply sum_perm, Permutation_map. apply NoDup_Permutation.
    - apply FinFun.Injective_map_NoDup; [|apply seq_NoDup]. intros p q Q. rewrite <- (exchange_inv i j p), Q. apply exchange_inv.
    - apply seq_NoDup.
    - intros p. rewrite in_map_iff. split.
      + intros (q & <- & Hq). apply in_seq in Hq. apply in_seq. pose proof (exchange_lt i j q Hi Hj ltac:(lia)). lia.
      + intros Hp. apply in_seq in Hp. exists (exchange i j p). split; [apply exchange_inv|]. apply in_seq. pose proof (exchange_lt i j p Hi Hj ltac:(lia)). lia.
  Qed.
End Moves.
Lemma joined_trans n H a b c : joined n H a b -> joined n H b c -> joined n H a c.
Proof. intros J1 J2. induction J2 as [|c d J2 IH Hc Hd N]; [exact J1|]. apply (joined_step n H a c d); assumption. Qed.

Section Sector.
  Variables (rt : nat -> CR) (s : spins CR) (part : nat -> bool) (m : nat) (P : mat CR) (idx : list nat) (H : mat CR).
  Hypothesis root : rt 1%nat = k1.
  Hypothesis half : sp_two s = 1%nat.
  Notation n := (sg_nsites (sp_geom s)).
  Notation D := (2 ^ n)%nat.
  Notation dg p a := (digit 2 n p a).
  Notation eps := (state_sign part n).
  Notation N := (length idx).
  Notation at_ p := (nth p idx 0%nat).
  Notation swp i j a := (pull 2 n (exchange i j) a).
  Hypothesis unf : unfrustrated part s.
  Hypothesis sec : flipped n m P idx.
  Hypothesis made : sp_createH rt s (Some P) = Ok H.
  Lemma at_lt p : (p < N)%nat -> (at_ p < D)%nat /\ digit_sum 2 n (at_ p) = m.
  Proof using sec. intros Hp. destruct sec as (_ & _ & I). apply I, nth_In, Hp. Qed.
  Lemma at_inj p q : (p < N)%nat -> (q < N)%nat -> at_ p = at_ q -> p = q.
  Proof using sec. intros Hp Hq Q. destruct sec as (_ & ND & _). apply (proj1 (NoDup_nth idx 0%nat) ND); assumption. Qed.
  Lemma at_find a : (a < D)%nat -> digit_sum 2 n a = m -> exists p, (p < N)%nat /\ at_ p = a.
  Proof using sec. intros Ha S. destruct sec as (_ & _ & I). destruct (In_nth idx a 0%nat (proj2 (I a) ltac:(split; assumption))) as (p & Hp & E). exists p. auto. Qed.
  Lemma sector_ent : nrow H = N /\ ncol H = N /\ forall F a b, sp_createH rt s None = Ok F -> (a < N)%nat -> (b < N)%nat -> ent H a b = ent F (at_ a) (at_ b).
  Proof using half sec made.
    clear root unf. destruct sec as ((R1 & R2 & R3) & ND & I). destruct (createH_proj rt s P) as (H' & E' & (S1 & S2) & W); [rewrite half; exact R2 | exact (half_fields s half)|]. rewrite made in E'. injection E' as <-.
    split; [congruence|]. split; [congruence|]. intros F a b EF Ha Hb. rewrite W, half. destruct (spin_ent rt s F half EF) as (_ & _ & VF).
    assert (B : forall k, In k idx -> (k < D)%nat) by (intros k Hk; apply I, Hk). rewrite (VF _ _ (B _ (nth_In _ _ Ha)) (B _ (nth_In _ _ Hb))).
    change (2 ^ sg_nsites (sp_geom s))%nat with D. apply (sand_rows D P idx (H_elem rt s) a b); [split; [exact R1|]; split; [exact R2 | exact R3] | exact B | exact Ha | exact Hb].
  Qed.
  Lemma full_exists : exists F, sp_createH rt s None = Ok F.
  Proof using half. destruct (createH_full rt s (half_fields s half)) as (F & EF & _). exists F. exact EF. Qed.
  Lemma sector_signs : signs N (fun p => eps (at_ p)).
  Proof using sec. intros p Hp. apply (state_signs part n). apply at_lt, Hp. Qed.
  Theorem sector_lowers : lowers N (fun p => eps (at_ p)) H.
  Proof using All.
    intros a b Ha Hb NE. destruct full_exists as (F & EF). destruct sector_ent as (_ & _ & W). rewrite (W F a b EF Ha Hb).
    apply (spin_lowers rt s part F root half EF unf); [apply at_lt, Ha | apply at_lt, Hb|]. intros Q. apply NE, at_inj; assumption.
  Qed.

  Hypothesis round : round_axis s.
  Lemma swap_agrees i j a : (i < n)%nat -> (j < n)%nat -> agree_off 2 n [i; j] a (swp i j a) = true.
  Proof using. intros Hi Hj. rewrite agree_off_spec. intros p Hp NI. rewrite digit_pull by (discriminate || exact Hp). rewrite exchange_o; [reflexivity | |]; intros ->; apply NI; cbn; auto. Qed.
  Lemma swap_entry F i j a : sp_createH rt s None = Ok F -> (j < i < n)%nat -> (a < D)%nat -> dg i a <> dg j a -> ent F a (swp i j a) = sp_jx s i j.
  Proof using root half unf round.
    clear made sec. intros EF Hij Ha NE. set (b := swp i j a). assert (Hb : (b < D)%nat) by (apply pull_lt; discriminate). pose proof (swap_agrees i j a ltac:(lia) ltac:(lia)) as AG. fold b in AG. rewrite (spin_parts rt s F half EF a b Ha Hb).
    assert (Di : dg i b = dg j a) by (unfold b; rewrite digit_pull by (discriminate || lia); rewrite exchange_l; reflexivity).
    assert (Dj : dg j b = dg i a) by (unfold b; rewrite digit_pull by (discriminate || lia); rewrite exchange_r; reflexivity).
    rewrite (ksum_single n i); [|lia|].
    - rewrite (ksum_single i j); [|lia|].
      + destruct unf as (UJ & _), round as (RJ & _). destruct (UJ i j ltac:(lia)) as (x & y & z & J1 & J2 & J3 & _). pose proof (RJ i j ltac:(lia)) as Q.
        unfold pair_part, pair_elem. rewrite AG, Di, Dj, J1, J2, J3, (pair_flip rt root) by (auto using digit_two || congruence). rewrite (proj2 (Nat.eqb_neq _ _) NE).
        assert (Z : ksum n (field_part rt s a b) = c0).
        { apply ksum_zero. intros k Hk. apply field_part_off. destruct (agree_off 2 n [k] a b) eqn:A2; [|reflexivity]. rewrite agree_off_spec in A2. exfalso.
          destruct (Nat.eq_dec k i) as [->|Nk]; [apply NE; rewrite <- Dj; symmetry; apply A2; [lia | intros [X|[]]; lia] | apply NE; rewrite <- Di; apply A2; [lia | intros [X|[]]; lia]]. }
        rewrite Z. rewrite J1, J2 in Q. injection Q as <-. apply injective_projections; cbn; field.
      + intros k Hk Nk. apply pair_part_off. destruct (agree_off 2 n [i; k] a b) eqn:A2; [|reflexivity]. rewrite agree_off_spec in A2. exfalso. apply NE. rewrite <- Dj. symmetry. apply A2; [lia|]. intros [X|[X|[]]]; lia.
    - intros k Hk Nk. apply ksum_zero. intros l Hl. apply pair_part_off. destruct (agree_off 2 n [k; l] a b) eqn:A2; [|reflexivity]. rewrite agree_off_spec in A2. exfalso.
      destruct (Nat.eq_dec l i) as [->|Nl].
      + apply NE. rewrite <- Dj. symmetry. apply A2; [lia|]. intros [X|[X|[]]]; lia.
      + apply NE. rewrite <- Di. apply A2; [lia|]. intros [X|[X|[]]]; lia.
  Qed.
  (** Configurations of the sector that are joined. *)
  Definition reaches (a b : nat) : Prop := forall p, (p < N)%nat -> at_ p = a -> exists q, (q < N)%nat /\ at_ q = b /\ joined N H p q.
  Lemma reaches_trans a b c : reaches a b -> reaches b c -> reaches a c.
  Proof using. intros R1 R2 p Hp Ep. destruct (R1 p Hp Ep) as (q & Hq & Eq & J1). destruct (R2 q Hq Eq) as (r & Hr & Er & J2). exists r. split; [exact Hr|]. split; [exact Er|]. exact (joined_trans _ _ _ _ _ J1 J2). Qed.
  Lemma reaches_same a : reaches a a. Proof using. intros p Hp Ep. exists p. split; [exact Hp|]. split; [exact Ep | constructor]. Qed.
  Lemma bond_reaches i j a : (i < n)%nat -> (j < n)%nat -> exchanging s i j -> (a < D)%nat -> digit_sum 2 n a = m -> reaches a (swp i j a).
  Proof using root half unf sec made round.
    assert (L : forall i j a, (j < i < n)%nat -> sp_jx s i j <> (0, 0) -> (a < D)%nat -> digit_sum 2 n a = m -> reaches a (swp i j a)).
    { clear i j a. intros i j a Hij NZ Ha S. destruct (Nat.eq_dec (dg i a) (dg j a)) as [Q|Q]; [rewrite (swp_equal n i j a Ha ltac:(lia) ltac:(lia) Q); apply reaches_same|].
      intros p Hp Ep. destruct (at_find (swp i j a)) as (q & Hq & Eq); [apply pull_lt; discriminate | rewrite (swp_sum n i j a Ha ltac:(lia) ltac:(lia)); exact S|].
      exists q. split; [exact Hq|]. split; [exact Eq|]. apply (joined_step N H p p q); [constructor | exact Hp | exact Hq|]. destruct full_exists as (F & EF). destruct sector_ent as (_ & _ & W). rewrite (W F p q EF Hp Hq), Ep, Eq, (swap_entry F i j a EF Hij Ha Q). exact NZ. }
    intros Hi Hj (Nij & NZ) Ha S. destruct (lt_dec j i) as [O|O].
    - rewrite Nat.max_l, Nat.min_r in NZ by lia. apply L; auto.
    - rewrite Nat.max_r, Nat.min_l in NZ by lia. replace (swp i j a) with (swp j i a); [apply L; auto; lia|]. apply pull_ext; [discriminate|]. intros p _. unfold exchange. destruct (Nat.eqb_spec p i), (Nat.eqb_spec p j); congruence.
  Qed.
  Lemma path_reaches i j : (i < n)%nat -> linked_sites s i j -> (j < n)%nat -> forall a, (a < D)%nat -> digit_sum 2 n a = m -> reaches a (swp i j a).
  Proof using root half unf sec made round.
    intros Hi L. induction L as [|k j L IH Hk Hj' EX]; intros Hj a Ha S; [rewrite (swp_same n i a Ha); apply reaches_same|].
    destruct (Nat.eq_dec i j) as [<-|Nj]; [rewrite (swp_same n i a Ha); apply reaches_same|]. destruct (Nat.eq_dec i k) as [<-|Nk]; [apply bond_reaches; assumption|].
    assert (Nkj : k <> j) by (destruct EX; assumption). rewrite <- (swp_over n i k j a Ha Hi Hk Hj Nk Nkj Nj).
    assert (B1 : (swp k j a < D)%nat) by (apply pull_lt; discriminate). assert (S1 : digit_sum 2 n (swp k j a) = m) by (rewrite (swp_sum n k j a Ha Hk Hj); exact S).
    assert (B2 : (swp i k (swp k j a) < D)%nat) by (apply pull_lt; discriminate). assert (S2 : digit_sum 2 n (swp i k (swp k j a)) = m) by (rewrite (swp_sum n i k _ B1 Hi Hk); exact S1).
    apply (reaches_trans _ (swp k j a)); [apply bond_reaches; assumption|]. apply (reaches_trans _ (swp i k (swp k j a))); [apply IH; assumption | apply bond_reaches; assumption].
  Qed.
  Hypothesis conn : connected_spins s.
  Lemma sector_reaches a b : (a < D)%nat -> digit_sum 2 n a = m -> (b < D)%nat -> digit_sum 2 n b = m -> reaches a b.
  Proof using root half unf sec made round conn.
    intros Ha Sa Hb Sb.
    assert (ST : forall k, (k <= n)%nat -> exists c, (c < D)%nat /\ digit_sum 2 n c = m /\ (forall p, (p < k)%nat -> dg p c = dg p b) /\ reaches a c).
    { induction k as [|k IH]; intros Hk; [exists a; split; [exact Ha|]; split; [exact Sa|]; split; [intros; lia | apply reaches_same]|].
      destruct (IH ltac:(lia)) as (c & Hc & Sc & DC & RC). destruct (Nat.eq_dec (dg k c) (dg k b)) as [Q|Q].
      - exists c. split; [exact Hc|]. split; [exact Sc|]. split; [|exact RC]. intros p Hp. destruct (Nat.eq_dec p k) as [->|]; [exact Q | apply DC; lia].
      - pose proof (heads n k c b ltac:(lia) DC ltac:(congruence)) as TS. rewrite (tail_step n k c), (tail_step n k b) in TS by lia. pose proof (bit n k c) as B1. pose proof (bit n k b) as B2.
        destruct (tail_find n (S k) c (dg k b) ltac:(lia) B2) as [(j & Hj & Ej)|T].
        + exists (swp k j c). assert (B3 : (swp k j c < D)%nat) by (apply pull_lt; discriminate). split; [exact B3|]. split; [rewrite (swp_sum n k j c Hc ltac:(lia) ltac:(lia)); exact Sc|]. split.
          * intros p Hp. rewrite digit_pull by (discriminate || lia). destruct (Nat.eq_dec p k) as [->|]; [rewrite exchange_l; exact Ej|]. rewrite exchange_o by lia. apply DC. lia.
          * apply (reaches_trans _ c); [exact RC|]. apply path_reaches; try assumption; try lia. apply conn; lia.
        + exfalso. destruct (tail_find n (S k) b (dg k c) ltac:(lia) B1) as [(j & Hj & Ej)|T'].
          * assert (LE : forall l, (l <= n)%nat -> (tail_sum n l b <= n - l)%nat).
            { clear. intros l. remember (n - l)%nat as r eqn:K. revert l K. induction r as [|r IH]; intros l K Hl; [replace l with n by lia; unfold tail_sum; rewrite Nat.sub_diag; cbn; lia|]. rewrite (tail_step n l b) by lia. pose proof (bit n l b). pose proof (IH (S l) ltac:(lia) ltac:(lia)). lia. }
            pose proof (LE (S k) ltac:(lia)). assert (dg k b = 0%nat \/ dg k b = 1%nat) as [Z|Z] by lia; rewrite Z in *.
            -- lia.
            -- assert (dg k c = 0%nat) by lia. lia.
          * assert (dg k b = 0%nat \/ dg k b = 1%nat) as [Z|Z] by lia; rewrite Z in *; assert (dg k c = 0%nat \/ dg k c = 1%nat) as [Z'|Z'] by lia; rewrite Z' in *; lia. }
    destruct (ST n (le_n n)) as (c & Hc & _ & DC & RC). replace b with c; [exact RC|]. apply (digits_ext 2 ltac:(discriminate) n); assumption.
  Qed.
  Theorem sector_joined p q : (p < N)%nat -> (q < N)%nat -> joined N H p q.
  Proof using root half unf sec made round conn.
    intros Hp Hq. destruct (at_lt p Hp) as (A1 & A2). destruct (at_lt q Hq) as (B1 & B2). destruct (sector_reaches _ _ A1 A2 B1 B2 p Hp eq_refl) as (r & Hr & Er & J). rewrite <- (at_inj r q Hr Hq Er). exact J.
  Qed.
End Sector.

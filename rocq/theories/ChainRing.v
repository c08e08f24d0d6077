(** The symmetries of a ring of spins 1/2. *)
From Coq Require Import List Arith Lia ZArith QArith Qabs Lqa Reals Lra Bool Ring Permutation.
From Verif Require Import Scalars Sums Res Matrix SpecMat SpecPerm FermiOps ModelBase ModelSpins SpecSpins ModelGeometry ModelPhase ModelSites ModelSymmetry SpecSymmetry SpecGeometry SpecSpace
  SpecCentre Centre GeoSquare GeoPhase GeoTotal GeoApi SpaceMaps SpaceHubbard SpaceFinal ModelThermal SpecThermal ModelSpinLattice Digits SpinOps SpinAlg SpinHam SpinSym SpinSwap SpinApi
  ModelFermions ModelFreeLattice SymBase ModelChain SpecChain RingSectors ChainSpectrum.
Import ListNotations.
Local Open Scope R_scope.

(** ** Matrices that move states *)
Section Rows.
  Variable N : nat.
  Definition follows (T : cmat) (f : nat -> nat) : Prop :=
    square N T /\ (forall a, (a < N)%nat -> (f a < N)%nat) /\ forall a b, (a < N)%nat -> (b < N)%nat -> ent T a b = kb (b =? f a)%nat.
  Lemma follows_ext T f f' : (forall a, (a < N)%nat -> f a = f' a) -> follows T f -> follows T f'.
  Proof. intros E (S & L & V). split; [exact S|]. split; [intros a Ha; rewrite <- E by exact Ha; auto|]. intros a b Ha Hb. rewrite <- E by exact Ha. auto. Qed.
  Lemma follows_mul A B f h : follows A f -> follows B h -> follows (mmul A B) (fun a => h (f a)).
  Proof.
    intros ((A1 & A2) & AL & AV) ((B1 & B2) & BL & BV). split; [split; cbn; assumption|]. split; [auto|].
    intros a b Ha Hb. cbn [mmul ent]. rewrite A2, (ksum_single N (f a)); [|auto|].
    - rewrite AV, BV by auto. rewrite Nat.eqb_refl. cbn [kb]. ring.
    - intros l Hl Ne. rewrite AV by assumption. destruct (Nat.eqb_spec l (f a)); [congruence|]. cbn [kb]. ring.
  Qed.
  Lemma follows_eq A B f h : follows A f -> follows B h -> (forall a, (a < N)%nat -> f a = h a) -> meq A B.
  Proof.
    intros ((A1 & A2) & AL & AV) ((B1 & B2) & BL & BV) E. split; [congruence|]. split; [congruence|]. rewrite A1, A2. intros a b Ha Hb.
    rewrite AV, BV, E by assumption. reflexivity.
  Qed.
  Lemma follows_eye : follows (meye N) (fun a => a).
  Proof. split; [split; reflexivity|]. split; [auto|]. intros a b _ _. cbn. rewrite Nat.eqb_sym. reflexivity. Qed.
  Lemma follows_pow A f k : follows A f -> follows (mpow N A k) (iter f k).
  Proof.
    intros H. induction k as [|k IH]; [exact follows_eye|]. cbn [mpow].
    apply (follows_ext _ (fun a => iter f k (f a))); [|exact (follows_mul _ _ _ _ H IH)].
    intros a _. clear. revert a. induction k as [|k IH]; intros a; [reflexivity|]. cbn [iter] in *. rewrite IH. reflexivity.
  Qed.
  Lemma follows_moves A f : unitary_mat N A -> follows A f -> moves_states N A.
  Proof.
    intros U (S & L & V). split; [exact U|]. intros i j k Hi Hj Hk. rewrite !V by assumption.
    destruct (Nat.eqb_spec j (f i)), (Nat.eqb_spec k (f i)); cbn [kb]; congruence.
  Qed.
  Lemma follows_diag A f D (d : nat -> CR) (x : CR) : follows A f -> square N D -> (forall a b, (a < N)%nat -> (b < N)%nat -> ent D a b = kmul (kb (a =? b)%nat) (d a)) ->
    (forall a, (a < N)%nat -> d (f a) = kmul x (d a)) -> meq (mmul A D) (mscale x (mmul D A)).
  Proof.
    intros ((A1 & A2) & AL & AV) (D1 & D2) DV E. split; [cbn; congruence|]. split; [cbn; congruence|].
    cbn [mmul mscale nrow ncol ent]. rewrite A1, A2, D2. intros a b Ha Hb.
    rewrite (ksum_single N b); [|exact Hb|]. 2:{ intros l Hl Ne. rewrite DV by assumption. destruct (Nat.eqb_spec l b); [congruence|]. cbn [kb]. ring. }
    rewrite (ksum_single N a); [|exact Ha|]. 2:{ intros l Hl Ne. rewrite DV by assumption. destruct (Nat.eqb_spec a l); [congruence|]. cbn [kb]. ring. }
    rewrite !DV, AV, !Nat.eqb_refl by assumption. destruct (Nat.eqb_spec b (f a)) as [->|Z]; cbn [kb]; [rewrite E by exact Ha; ring|ring].
  Qed.
End Rows.

(** ** Spins carried along *)
Section Carry.
  Variable n : nat.
  Notation N := (2 ^ n)%nat.
  Lemma sum_pull pi a : (forall p, (p < n)%nat -> (pi p < n)%nat) -> (forall p q, (p < n)%nat -> (q < n)%nat -> pi p = pi q -> p = q) ->
    digit_sum 2 n (pull 2 n pi a) = digit_sum 2 n a.
  Proof.
    intros L I. unfold digit_sum. rewrite (map_ext_in _ (fun p => digit 2 n (pi p) a)).
    2:{ intros p Hp. apply in_seq in Hp. apply digit_pull; [discriminate|lia]. }
    rewrite <- (map_map pi (fun p => digit 2 n p a)). apply list_sum_perm, Permutation_map.
    apply NoDup_Permutation_bis.
    - apply NoDup_map_in; [|apply seq_NoDup]. intros x y Hx Hy. apply in_seq in Hx, Hy. apply I; lia.
    - rewrite map_length. lia.
    - intros y Hy. apply in_map_iff in Hy as (x & <- & Hx). apply in_seq in Hx. apply in_seq. specialize (L x). lia.
  Qed.
  Lemma sum_flip a : (a < N)%nat -> (digit_sum 2 n (N - 1 - a) + digit_sum 2 n a = n)%nat.
  Proof.
    intros Ha. unfold digit_sum. rewrite (map_ext_in (fun p => digit 2 n p (N - 1 - a)) (fun p => 1 - digit 2 n p a)%nat).
    2:{ intros p Hp. apply in_seq in Hp. rewrite (digit_flip 2) by (assumption || lia). lia. }
    assert (G : forall l, (list_sum (map (fun p => 1 - digit 2 n p a) l) + list_sum (map (fun p => digit 2 n p a) l) = length l)%nat).
    { induction l as [|p l IH]; [reflexivity|]. cbn [map list_sum fold_right length] in *. pose proof (digit_lt 2 ltac:(lia) n p a). unfold list_sum in IH. lia. }
    rewrite G, seq_length. reflexivity.
  Qed.
  Lemma flip_pull pi a : (forall p, (p < n)%nat -> (pi p < n)%nat) -> (a < N)%nat -> pull 2 n pi (N - 1 - a) = (N - 1 - pull 2 n pi a)%nat.
  Proof.
    intros L Ha. pose proof (pull_lt 2 n ltac:(discriminate) pi a). apply (digits_ext 2 ltac:(lia) n); [apply pull_lt; discriminate|lia|].
    intros p Hp. rewrite digit_pull by (assumption || discriminate). rewrite !(digit_flip 2) by (auto; lia). rewrite digit_pull by (assumption || discriminate). reflexivity.
  Qed.
  Definition mag (a : nat) : CR := ksum n (fun i => zval 1 (digit 2 n i a)).
  Lemma mag_flip a : (a < N)%nat -> mag (N - 1 - a) = kmul (kopp k1) (mag a).
  Proof.
    intros Ha. unfold mag. rewrite !zsum. pose proof (sum_flip a Ha) as E. set (x := digit_sum 2 n (N - 1 - a)) in *. set (y := digit_sum 2 n a) in *.
    assert (X : kofnat (K:=CR) n = kadd (kofnat x) (kofnat y)) by (rewrite <- kofnat_add; congruence).
    assert (Z : kadd (K:=CR) (kmul (kQ (1 # 2)) (kofnat 1)) (kmul (kQ (1 # 2)) (kofnat 1)) = k1) by (rewrite kofnat_S, kofnat_0; transitivity (kadd (K:=CR) (kQ (1 # 2)) (kQ (1 # 2))); [ring|apply khalf2]).
    set (h := kmul (K:=CR) (kQ (1 # 2)) (kofnat 1)) in *. rewrite X.
    transitivity (kadd (kadd (kmul (kadd (kofnat x) (kofnat y)) (kadd h h)) (kopp (kmul (kadd (kofnat x) (kofnat y)) h))) (kopp (K:=CR) (kofnat x))); [ring|]. rewrite Z. ring.
  Qed.
  Hypothesis n0 : n <> 0%nat.
  Lemma total_made : exists Sz, sum_op (dsys 2 n) (sz_op 1) 0 Boson = Ok Sz /\ square N Sz /\
    forall a b, (a < N)%nat -> (b < N)%nat -> ent Sz a b = kmul (kb (a =? b)%nat) (mag a).
  Proof.
    destruct (sum_op_half (K:=CR) n (sz_op 1) (sz_sq 1) n0) as (T & ET & ST & VT). exists T. split; [exact ET|]. split; [exact ST|].
    intros a b Ha Hb. rewrite VT by assumption. unfold mag. rewrite <- ksum_mul_l. apply ksum_ext. intros i Hi.
    rewrite <- site_diag by assumption. unfold site_elem. destruct (agree_off _ _ _ _ _); [|reflexivity]. apply Z_ent.
  Qed.
End Carry.

(** ** The ring *)
Section Ring.
  Variables (z : Z) (g : geometry CR).
  Hypothesis Z2 : (2 <= z)%Z.
  Hypothesis ZB : (2 * z <= 100000000000000)%Z.
  Hypothesis LG : c_square_geometry z 1 0 0 false true = Ok g.
  Notation n := (Z.to_nat z).
  Notation N := (2 ^ n)%nat.
  Definition next (i : nat) : nat := ((i + 1) mod n)%nat.
  Definition mirrored (i : nat) : nat := (n - 1 - i)%nat.
  Lemma z1 : Z.to_nat (z * 1) = n. Proof. f_equal. lia. Qed.
  Lemma sites_ring : g_n g = n.
  Proof using LG Z2 ZB. rewrite <- z1. apply (sites_n z 1 false true g); try lia. exact LG. Qed.
  Lemma coords i : (i < n)%nat -> nth i (combine (g_x g) (g_y g)) vzero = (nth i (g_x g) 0%Q, nth i (g_y g) 0%Q) /\
    (nth i (g_x g) 0 == inject_Z (Z.of_nat i) /\ nth i (g_y g) 0 == 0)%Q.
  Proof using LG Z2 ZB.
    intros Hi. destruct (square_neighbours phase_matrix valid_phases z 1 0 0 false true g ltac:(lia) ltac:(lia) ZB ltac:(lia) LG) as (G & L1 & L2 & _ & _ & CO & _).
    rewrite z1 in G. rewrite G in *. split; [apply combine_nth; congruence|]. destruct (CO i Hi) as [C1 C2]. rewrite C1, C2. unfold site_x, site_y.
    rewrite Z.div_1_r, Z.mod_1_r. split; reflexivity.
  Qed.
  Lemma shift_spot i : (i < n)%nat -> spot_at z 1 (move_z (shift 1 0) (site_x 1 i, site_y 1 i)) = next i.
  Proof using Z2.
    intros Hi. unfold spot_at, move_z, shift, turned, site_x, site_y, next. cbn [m_swap m_sx m_sy m_a m_b fst snd signed_z].
    rewrite Z.div_1_r, !Z.mod_1_r, Z.mul_1_r, Z.add_0_r. apply Nat2Z.inj. rewrite Z2Nat.id by (apply Z.mod_pos_bound; lia).
    rewrite Nat2Z.inj_mod, Z2Nat.id by lia. f_equal. lia.
  Qed.
  Lemma turn_spot i : (i < n)%nat -> spot_at z 1 (move_z (half_turn z 1) (site_x 1 i, site_y 1 i)) = mirrored i.
  Proof using Z2.
    intros Hi. unfold spot_at, move_z, half_turn, turned, site_x, site_y, mirrored. cbn [m_swap m_sx m_sy m_a m_b fst snd signed_z].
    rewrite Z.div_1_r, !Z.mod_1_r, Z.mul_1_r, Z.add_0_r. rewrite Z.mod_small by lia. lia.
  Qed.
  Lemma half_pos : (0 < half_unit)%Q. Proof. reflexivity. Qed.
  Lemma near_same v w : (fst v == fst w -> snd v == snd w -> near_point v w)%Q.
  Proof.
    intros A B. split; (match goal with |- (Qabs ?e < _)%Q => assert (X : (e == 0)%Q) by (rewrite ?A, ?B; ring) end); rewrite X; reflexivity.
  Qed.
  Lemma shift_gives : gives z 1 g (shift 1 0) (translation_q (1, 0)%Q).
  Proof using LG Z2 ZB.
    intros i. rewrite z1. intros Hi. destruct (coords i Hi) as (E & C1 & C2). rewrite E. unfold translation_q, move, shift, turned, site_x, site_y.
    cbn [m_swap m_sx m_sy m_a m_b fst snd signed_q]. rewrite Z.div_1_r, Z.mod_1_r. apply near_same; cbn [fst snd]; rewrite ?C1, ?C2; reflexivity.
  Qed.
  Lemma qsum_same l l' : length l = length l' -> (forall i, (i < length l)%nat -> nth i l 0 == nth i l' 0)%Q -> (qsum l == qsum l')%Q.
  Proof.
    revert l'. induction l as [|a l IH]; intros [|b l'] L E; try discriminate; [reflexivity|]. cbn [qsum fold_right]. fold (qsum l) (qsum l').
    rewrite (IH l'), (E 0%nat ltac:(cbn; lia)); [reflexivity|cbn in L; lia|]. intros i Hi. apply (E (S i)). cbn. lia.
  Qed.
  Lemma qsum_seq m : (2 * qsum (map (fun i => inject_Z (Z.of_nat i)) (seq 0 m)) == inject_Z (Z.of_nat m) * (inject_Z (Z.of_nat m) - 1))%Q.
  Proof.
    assert (A : forall l l', (qsum (l ++ l') == qsum l + qsum l')%Q) by (induction l as [|x l IH]; intros l'; [symmetry; apply Qplus_0_l|cbn [app qsum fold_right]; fold (qsum (l ++ l')) (qsum l) (qsum l'); rewrite IH; ring]).
    induction m as [|m IH]; [reflexivity|]. rewrite seq_S, map_app, A. cbn [map qsum fold_right Nat.add]. rewrite Qmult_plus_distr_r, IH, Nat2Z.inj_succ. unfold Z.succ. rewrite inject_Z_plus. change (inject_Z 1) with 1%Q. ring.
  Qed.
  Lemma centre_ring : exists c, center_of_mass g = Ok c /\ (2 * fst c == inject_Z (z - 1) /\ snd c == 0)%Q.
  Proof using LG Z2 ZB.
    destruct (square_neighbours phase_matrix valid_phases z 1 0 0 false true g ltac:(lia) ltac:(lia) ZB ltac:(lia) LG) as (G & L1 & L2 & _ & _ & _ & _).
    rewrite z1 in G. rewrite G in *.
    assert (NX : g_x g <> []) by (intros X; rewrite X in L1; cbn in L1; lia). assert (NY : g_y g <> []) by (intros X; rewrite X in L2; cbn in L2; lia).
    destruct (centre_ok g NX NY) as (c & E & O1 & O2 & _). exists c. split; [exact E|].
    assert (SX : (qsum (g_x g) == qsum (map (fun i => inject_Z (Z.of_nat i)) (seq 0 n)))%Q).
    { apply qsum_same; [rewrite map_length, seq_length; exact L1|]. rewrite L1. intros i Hi. rewrite (proj1 (proj2 (coords i Hi))).
      pose proof (map_nth (fun i => inject_Z (Z.of_nat i)) (seq 0 n) 0%nat i) as X. rewrite seq_nth in X by exact Hi. change (inject_Z (Z.of_nat 0)) with 0%Q in X. rewrite X. reflexivity. }
    assert (SY : (qsum (g_y g) == qsum (map (fun _ => 0%Q) (seq 0 n)))%Q).
    { apply qsum_same; [rewrite map_length, seq_length; exact L2|]. rewrite L2. intros i Hi. rewrite (proj2 (proj2 (coords i Hi))).
      pose proof (map_nth (fun _ : nat => 0%Q) (seq 0 n) 0%nat i) as X. cbv beta in X. rewrite X. reflexivity. }
    assert (S0 : (qsum (map (fun _ => 0%Q) (seq 0 n)) == 0)%Q) by (generalize (seq 0 n); induction l as [|a l IH]; [reflexivity|cbn [map qsum fold_right]; fold (qsum (map (fun _ : nat => 0%Q) l)); rewrite IH; reflexivity]).
    pose proof (qsum_seq n) as Q. rewrite <- SX in Q. rewrite S0 in SY. rewrite away_sum in O1, O2. rewrite L1 in O1. rewrite L2 in O2. rewrite Z2Nat.id in * by lia.
    assert (ZP : (0 < inject_Z z)%Q) by (change 0%Q with (inject_Z 0); rewrite <- Zlt_Qlt; lia).
    assert (ZN : ~ (inject_Z z == 0)%Q) by (intros X; rewrite X in ZP; discriminate ZP).
    split.
    - apply (Qmult_inj_l _ _ (inject_Z z) ZN). transitivity (2 * (inject_Z z * fst c))%Q; [ring|]. transitivity (2 * qsum (g_x g) - 2 * (qsum (g_x g) - inject_Z z * fst c))%Q; [ring|]. rewrite O1, Q. unfold Z.sub. rewrite inject_Z_plus. change (inject_Z (- (1))) with (- (1))%Q. ring.
    - apply (Qmult_inj_l _ _ (inject_Z z) ZN). transitivity (qsum (g_y g) - (qsum (g_y g) - inject_Z z * snd c))%Q; [ring|]. rewrite O2, SY. ring.
  Qed.
  Lemma turn_gives c : (2 * fst c == inject_Z (z - 1) -> snd c == 0 -> gives z 1 g (half_turn z 1) (inversion_q c))%Q.
  Proof using LG Z2 ZB.
    intros H1 H2 i. rewrite z1. intros Hi. destruct (coords i Hi) as (E & C1 & C2). rewrite E. unfold inversion_q, move, half_turn, turned, site_x, site_y.
    cbn [m_swap m_sx m_sy m_a m_b fst snd signed_q]. rewrite Z.div_1_r, Z.mod_1_r. apply near_same; cbn [fst snd]; rewrite ?C1, ?C2; [|rewrite H2; reflexivity].
    rewrite <- H1. ring.
  Qed.

  Section Spins.
    Variables (J : R) (s : spins CR) (rt : nat -> CR).
    Hypothesis R1 : roots_ok rt 1.
    Hypothesis ST : sp_geom s = sgeom_of g /\ sp_two s = 1%nat /\
      (forall a b, sp_jx s a b = if sg_adj (sgeom_of g) a b then kmul (real J) (sg_phase (sgeom_of g) a b) else k0) /\
      (forall a b, sp_jy s a b = if sg_adj (sgeom_of g) a b then kmul (real J) (sg_phase (sgeom_of g) a b) else k0) /\
      (forall a b, sp_jz s a b = if sg_adj (sgeom_of g) a b then kmul (real J) (sg_phase (sgeom_of g) a b) else k0) /\
      (forall i, sp_hx s i = k0) /\ (forall i, sp_hy s i = k0) /\ (forall i, sp_hz s i = k0).
    Lemma sys_ring : sp_sys s = dsys 2 n.
    Proof using LG Z2 ZB ST. destruct ST as (SG & S2 & _). rewrite sp_sys_dsys, SG, S2. cbn [sg_nsites sgeom_of]. rewrite sites_ring. reflexivity. Qed.
    Lemma coupled a b : (a < n)%nat -> (b < n)%nat -> let v := if negb (Qeq_bool (ent (g_adj g) a b) 0) then real J else k0 in
      sp_jx s a b = v /\ sp_jy s a b = v /\ sp_jz s a b = v.
    Proof using LG Z2 ZB ST.
      intros Ha Hb. cbv zeta. destruct ST as (SG & S2 & SX & SY & SZ & _). rewrite SX, SY, SZ. cbn [sgeom_of sg_adj sg_phase].
      pose proof (phase_one z 1 false true g ltac:(lia) ltac:(lia) ZB ltac:(lia) LG a b ltac:(rewrite z1; exact Ha) ltac:(rewrite z1; exact Hb)) as P. cbn [fgeom_of fg_phase] in P. rewrite P.
      assert (X : kmul (real J) c1 = real J) by ring. rewrite X. auto.
    Qed.
    Lemma moved M fn pi : keeps z 1 false true M -> gives z 1 g M fn -> (forall i, (i < n)%nat -> spot_at z 1 (move_z M (site_x 1 i, site_y 1 i)) = pi i) -> (pi 0 <> 0)%nat ->
      (forall i, (i < n)%nat -> (pi i < n)%nat) /\ (forall i j, (i < n)%nat -> (j < n)%nat -> pi i = pi j -> i = j) /\
      exists T, operator_from s g fn = Ok T /\ unitary_mat N T /\ follows N T (pull 2 n pi) /\ exists H, sp_createH rt s None = Ok H /\ meq (mmul T H) (mmul H T).
    Proof using LG Z2 ZB ST.
      intros KP GV SP P0. destruct (cycles_of_motion z 1 0 0 false true g M fn ltac:(lia) ltac:(lia) ZB ltac:(lia) LG ltac:(lia) KP GV) as (cs & m & EC & CP & PE & _ & _ & _ & AD).
      rewrite z1 in *.
      assert (CP' : forall i, (i < n)%nat -> cycles_perm cs i = pi i) by (intros i Hi; rewrite CP, SP by exact Hi; reflexivity).
      assert (V : valid_cycles n cs).
      { split; [apply (Permutation_NoDup (Permutation_sym PE)), seq_NoDup|]. intros x Hx. apply (Permutation_in x PE) in Hx. apply in_seq in Hx. lia. }
      assert (LC : exists c, In c cs /\ (1 < length c)%nat) by (apply (long_cycle cs 0); rewrite CP' by lia; exact P0).
      destruct (cycles_inverse n cs V) as (rho & RH).
      assert (L : forall i, (i < n)%nat -> (pi i < n)%nat) by (intros i Hi; rewrite <- CP' by exact Hi; apply RH; exact Hi).
      split; [exact L|]. split.
      { intros i j Hi Hj E. rewrite <- !CP' in E by assumption. destruct (RH i Hi) as (_ & _ & _ & A). destruct (RH j Hj) as (_ & _ & _ & B). congruence. }
      pose proof sys_ring as SYS.
      destruct (spin_xform_api (K:=CR) (sp_sys s) cs) as (T & ET & MT & UT); [rewrite SYS; reflexivity|rewrite SYS; reflexivity|rewrite SYS; exact V|exact LC|].
      exists T. split; [unfold operator_from; rewrite EC; cbn [bind fst]; rewrite ET; reflexivity|]. rewrite SYS in MT, UT. cbn [s_nsites dsys] in MT, UT. split; [exact UT|].
      split.
      - assert (MP : meq T (Pm 2 n (cycles_perm cs))) by (etransitivity; [exact MT|apply Pm_carry; discriminate]).
        destruct UT as (SQ & _). split; [exact SQ|]. split; [intros; apply pull_lt; discriminate|]. intros a b Ha Hb. destruct SQ as (S1 & S2). destruct MP as (_ & _ & MP). rewrite MP by congruence.
        cbn [Pm ent]. rewrite (pull_ext 2 n ltac:(discriminate) (cycles_perm cs) pi a CP'). reflexivity.
      - assert (NS : sg_nsites (sp_geom s) = n) by (destruct ST as (SG & _); rewrite SG; cbn [sgeom_of sg_nsites]; apply sites_ring).
        apply (spin_symmetry rt s cs T); try rewrite NS.
        + apply ST.
        + exact V.
        + exact ET.
        + intros i j Hi Hj. destruct (coupled i j Hi Hj) as (-> & -> & ->). destruct (coupled j i Hj Hi) as (-> & -> & ->).
          destruct (coupled (cycles_perm cs i) (cycles_perm cs j) (proj1 (RH i Hi)) (proj1 (RH j Hj))) as (-> & -> & ->). rewrite AD by assumption.
          pose proof (adj_sym z 1 false true g ltac:(lia) ltac:(lia) ZB ltac:(lia) LG i j ltac:(rewrite z1; exact Hi) ltac:(rewrite z1; exact Hj)) as AS.
          unfold adjb in AS. cbn [fgeom_of fg_adj] in AS. rewrite AS. repeat split.
        + intros i Hi. destruct ST as (_ & _ & _ & _ & _ & HX & HY & HZ). rewrite !HX, !HY, !HZ. repeat split.
    Qed.
    Lemma shift_keeps : keeps z 1 false true (shift 1 0).
    Proof. split; [discriminate|]. split; [discriminate|]. reflexivity. Qed.
    Lemma turn_keeps : keeps z 1 false true (half_turn z 1).
    Proof. split; [discriminate|]. split; [discriminate|]. reflexivity. Qed.
    Lemma next_pow k i : (i < n)%nat -> iter next k i = ((i + k) mod n)%nat.
    Proof using Z2.
      clear ST. intros Hi. induction k as [|k IH]; cbn [iter]; [rewrite Nat.add_0_r, Nat.mod_small by exact Hi; reflexivity|]. rewrite IH. unfold next.
      rewrite Nat.add_mod_idemp_l by lia. f_equal. lia.
    Qed.
    Lemma pull_pow pi k a : (forall p, (p < n)%nat -> (pi p < n)%nat) -> (a < N)%nat -> iter (pull 2 n pi) k a = pull 2 n (iter pi k) a.
    Proof using.
      intros L Ha. induction k as [|k IH]; cbn [iter]; [symmetry; apply pull_id; [discriminate|exact Ha]|].
      rewrite IH, pull_pull by (assumption || discriminate). apply pull_ext; [discriminate|]. intros p Hp. clear. revert p.
      induction k as [|k IH]; intros p; [reflexivity|]. cbn [iter] in *. rewrite IH. reflexivity.
    Qed.
    Theorem ring_made : exists Sz T F I H c,
      sum_op (sp_sys s) (sz_op 1) 0 Boson = Ok Sz /\ operator_from s g (translation_q (1, 0)%Q) = Ok T /\ F = swap_up_down (sp_sys s) /\
      center_of_mass g = Ok c /\ operator_from s g (inversion_q c) = Ok I /\ sp_createH rt s None = Ok H /\
      ring_symmetries N n Sz T F I /\ square N H /\ hermitian N H /\
      meq (mmul Sz H) (mmul H Sz) /\ meq (mmul T H) (mmul H T) /\ meq (mmul F H) (mmul H F) /\ meq (mmul I H) (mmul H I).
    Proof using LG Z2 ZB ST R1.
      pose proof sys_ring as SYS.
      assert (NS : sg_nsites (sp_geom s) = n) by (destruct ST as (SG & _); rewrite SG; cbn [sgeom_of sg_nsites]; apply sites_ring).
      destruct (moved (shift 1 0) (translation_q (1, 0)%Q) next shift_keeps shift_gives shift_spot) as (TL & TI & T & ET & UT & FT & H & EH & CT).
      { unfold next. rewrite Nat.mod_small by lia. discriminate. }
      destruct centre_ring as (c & EC & C1 & C2).
      destruct (moved (half_turn z 1) (inversion_q c) mirrored turn_keeps (turn_gives c C1 C2) turn_spot) as (IL & II & I & EI & UI & FI & H' & EH' & CI).
      { unfold mirrored. lia. }
      assert (H' = H) by congruence. subst H'.
      destruct (total_made n ltac:(lia)) as (Sz & ES & SS & VS).
      destruct (xxz_conserves rt s) as (H' & EX & SH & _ & CX).
      { destruct ST as (_ & -> & _). exact R1. }
      { intros i j Hi Hj. rewrite NS in Hi. destruct (coupled i j Hi ltac:(lia)) as (-> & -> & _). reflexivity. }
      { intros i _. destruct ST as (_ & _ & _ & _ & _ & HX & HY & _). rewrite HX, HY. auto. }
      { left. apply ST. }
      assert (H' = H) by congruence. subst H'. destruct (CX (proj1 (proj2 ST)) ltac:(lia)) as (Sz' & ES' & CS). rewrite SYS, ES in ES'. injection ES' as <-.
      destruct (flip_commutes rt s) as (H' & EF & _ & CF).
      { intros i _. destruct ST as (_ & _ & _ & _ & _ & _ & HY & HZ). rewrite HY, HZ. auto. }
      { left. apply ST. }
      assert (H' = H) by congruence. subst H'.
      destruct (spin_hermitian rt s None) as (H' & EM & _ & HM).
      { reflexivity. }
      { destruct ST as (_ & -> & _). exact R1. }
      { intros i j Hi Hj. rewrite NS in Hi. destruct (coupled i j Hi ltac:(lia)) as (-> & -> & ->).
        assert (X : kconj (if negb (Qeq_bool (ent (g_adj g) i j) 0) then real J else k0) = if negb (Qeq_bool (ent (g_adj g) i j) 0) then real J else k0).
        { destruct (negb _); apply injective_projections; cbn; ring. }
        auto. }
      { intros i _. destruct ST as (_ & _ & _ & _ & _ & HX & HY & HZ). rewrite HX, HY, HZ, kconj_0. auto. }
      { left. apply ST. }
      assert (H' = H) by congruence. subst H'.
      assert (NN : nstates (dsys 2 n) = N) by apply dsys_nstates.
      set (F := swap_up_down (K:=CR) (dsys 2 n)). destruct (flip_unitary (K:=CR) (dsys 2 n)) as (UF & F2). rewrite NN in UF, F2. fold F in UF, F2.
      assert (FF : follows N F (fun a => N - 1 - a)%nat).
      { split; [apply UF|]. split; [intros; lia|]. intros a b Ha Hb. unfold F. cbn [swap_up_down ent]. rewrite NN.
        destruct (Nat.eqb_spec a (N - 1 - b)), (Nat.eqb_spec b (N - 1 - a)); try reflexivity; lia. }
      rewrite SYS in *. exists Sz, T, F, I, H, c.
      destruct ST as (_ & S2 & _). rewrite S2, NS in SH. change (1 + 1)%nat with 2%nat in SH.
      assert (SC1 : forall A, meq A (mscale c1 (mmul Sz T)) -> meq A (mmul Sz T)) by (intros A (A1 & A2 & A3); split; [exact A1|split; [exact A2|intros i j Hi Hj; rewrite A3 by assumption; cbn [mscale ent]; ring]]).
      assert (SC2 : forall A, meq A (mscale c1 (mmul Sz I)) -> meq A (mmul Sz I)) by (intros A (A1 & A2 & A3); split; [exact A1|split; [exact A2|intros i j Hi Hj; rewrite A3 by assumption; cbn [mscale ent]; ring]]).
      split; [exact ES|]. split; [exact ET|]. split; [reflexivity|]. split; [exact EC|]. split; [exact EI|]. split; [exact EH|]. split.
      - split; [split; [exact SS|]; intros i j Hi Hj Ne; rewrite VS by assumption; destruct (Nat.eqb_spec i j); [congruence|]; cbn [kb]; ring|].
        split; [exact (follows_moves N T _ UT FT)|]. split; [exact (follows_moves N F _ UF FF)|]. split; [exact (follows_moves N I _ UI FI)|].
        split.
        { apply (follows_eq N _ _ _ _ (follows_pow N T _ n FT) (follows_eye N)). intros a Ha. rewrite pull_pow by assumption.
          rewrite (pull_ext 2 n ltac:(discriminate) _ (fun p => p)); [apply pull_id; [discriminate|exact Ha]|]. intros p Hp. rewrite next_pow by exact Hp.
          rewrite <- Nat.add_mod_idemp_r, Nat.mod_same, Nat.add_0_r by lia. apply Nat.mod_small, Hp. }
        split; [apply (follows_eq N _ _ _ _ (follows_pow N F _ 2 FF) (follows_eye N)); intros a Ha; cbn [iter]; lia|].
        split.
        { apply (follows_eq N _ _ _ _ (follows_pow N I _ 2 FI) (follows_eye N)). intros a Ha. rewrite pull_pow by assumption.
          rewrite (pull_ext 2 n ltac:(discriminate) _ (fun p => p)); [apply pull_id; [discriminate|exact Ha]|]. intros p Hp. cbn [iter]. unfold mirrored. lia. }
        split; [apply SC1, (follows_diag N T _ Sz (mag n) c1 FT SS VS); intros a Ha; unfold mag; rewrite !zsum, (sum_pull n next a TL TI); ring|].
        split; [apply SC2, (follows_diag N I _ Sz (mag n) c1 FI SS VS); intros a Ha; unfold mag; rewrite !zsum, (sum_pull n mirrored a IL II); ring|].
        split; [apply (follows_diag N F _ Sz (mag n) (kopp k1) FF SS VS); intros a Ha; apply mag_flip; exact Ha|].
        split; [apply (follows_eq N _ _ _ _ (follows_mul N _ _ _ _ FT FF) (follows_mul N _ _ _ _ FF FT)); intros a Ha; symmetry; apply flip_pull; assumption|].
        split; [apply (follows_eq N _ _ _ _ (follows_mul N _ _ _ _ FF FI) (follows_mul N _ _ _ _ FI FF)); intros a Ha; apply flip_pull; assumption|].
        apply (follows_eq N _ _ _ _ (follows_mul N _ _ _ _ FT (follows_mul N _ _ _ _ FI FT)) FI). intros a Ha. rewrite !pull_pull by (auto; discriminate).
        apply pull_ext; [discriminate|]. intros p Hp. unfold next, mirrored.
        destruct (Nat.eq_dec p (n - 1)) as [->|Ne].
        + replace (n - 1 + 1)%nat with n by lia. rewrite Nat.mod_same by lia. replace (n - 1 - 0 + 1)%nat with n by lia. rewrite Nat.mod_same by lia. lia.
        + rewrite (Nat.mod_small (p + 1)) by lia. rewrite Nat.mod_small by lia. lia.
      - split; [exact SH|]. split.
        { destruct HM as (_ & _ & HM). cbn [madj nrow ncol ent] in HM. destruct SH as (H1 & H2'). intros i j Hi Hj. symmetry. apply HM; congruence. }
        repeat split; try apply CS; try apply CT; try apply CF; try apply CI.
    Qed.
  End Spins.
End Ring.

(** The Hubbard model on rectangular lattices and the motions of the lattice. *)
From Coq Require Import List Arith Lia Reals Lra ZArith QArith Qabs Qreals Bool Permutation.
From Verif Require Import Scalars Res Matrix SpecMat ModelBase ModelFermions ModelGeometry ModelPhase ModelSymmetry SymBase GeoSquare GeoApi GeoTotal SpecGeometry
  SpecSites ModelSites SpecPerm SpecThermal ModelThermal SpecFermiGas SpecHubbard ModelFreeLattice SpecFreeLattice FermiOps SwapProofs FermiApi SpecSymmetry SymSpan SymZn SpecSpace SpaceMaps SpaceSites SpaceXform ThermalBlocks.
Import ListNotations.
Local Open Scope R_scope.

Lemma kre_re x : kre (real x) = real x.
Proof. unfold kre. apply injective_projections; cbn; [|ring]. unfold Q2R. cbn. field. Qed.
Lemma kconj_kre (z : CR) : kconj (kre z) = kre z.
Proof. apply injective_projections; cbn; ring. Qed.

Lemma cycles_id cs x : (forall c, In c cs -> (length c <= 1)%nat) -> cycles_perm cs x = x.
Proof.
  induction cs as [|c cs IH]; intros H; [reflexivity|]. cbn [cycles_perm]. destruct (existsb (Nat.eqb x) c) eqn:E; [|apply IH; intros; apply H; right; assumption].
  pose proof (H c (or_introl eq_refl)) as L. destruct c as [|a [|b t]]; [discriminate| |cbn in L; lia]. cbn in E. rewrite orb_false_r in E. apply Nat.eqb_eq in E. subst. cbn. rewrite Nat.eqb_refl. reflexivity.
Qed.
Lemma long_cycle cs x : cycles_perm cs x <> x -> exists c, In c cs /\ (1 < length c)%nat.
Proof.
  intros H. destruct (existsb (fun c => (1 <? length c)%nat) cs) eqn:E.
  - apply existsb_exists in E as (c & I & L). exists c. split; [exact I|]. apply Nat.ltb_lt, L.
  - exfalso. apply H, cycles_id. intros c I. destruct (Nat.le_gt_cases (length c) 1) as [L|L]; [exact L|]. exfalso.
    apply Bool.not_true_iff_false in E. apply E, existsb_exists. exists c. split; [exact I|]. apply Nat.ltb_lt, L.
Qed.
Lemma eigenbasis_meq H H' V E : meq H H' -> eigenbasis H V E -> eigenbasis H' V E.
Proof.
  intros (D1 & D2 & EN) ((A & B & C & EV) & R). split; [|exact R]. split; [exact A|]. split; [congruence|]. split; [congruence|].
  intros i k Hi Hk. rewrite <- EV by assumption. unfold apply. apply ksum_ext. intros j Hj. rewrite EN by congruence. reflexivity.
Qed.

Section Hubbard.
  Variables (nx ny : Z) (o1 o2 : bool) (g : geometry CR) (u w : R) (t v mu : nat -> R) (m : nat) (f : fermions CR).
  Hypothesis X1 : (1 <= nx)%Z. Hypothesis Y1 : (1 <= ny)%Z.
  Hypothesis X2 : (2 * nx <= 100000000000000)%Z. Hypothesis Y2 : (2 * ny <= 100000000000000)%Z.
  Hypothesis LG : c_square_geometry nx ny 0 0 o1 o2 = Ok g.
  Hypothesis made : fermions_init (fgeom_of g) (number u) (numbers m t) None (numbers m mu) (number w) (numbers m v) m = Ok f.
  Hypothesis species : (2 <= m)%nat \/ u = 0.
  Hypothesis m1 : (1 <= m)%nat.
  Hypothesis two : (2 <= nx * ny)%Z.
  Notation n := (Z.to_nat (nx * ny)).

  Lemma couplings : f_geom f = fgeom_of g /\ f_nspecies f = m /\
    (forall i j k, (k < m)%nat -> f_ts f i j k = kre (real (t k) *c (kb (fg_adj (fgeom_of g) i j) *c fg_phase (fgeom_of g) i j))) /\
    (forall i, f_us f i = real u) /\ (forall i j k, (k < m)%nat -> f_same f i j k = kre (real (v k) *c kb (fg_adj (fgeom_of g) i j))) /\
    (forall k, (k < m)%nat -> f_mus f k = real (mu k)) /\ (forall i k, f_pot f i k = real w).
  Proof using made.
    clear - made. unfold fermions_init in made.
    apply bind_ok in made as (ts & E1 & M1). apply bind_ok in M1 as (us & E2 & M2). apply bind_ok in M2 as (sm & E3 & M3).
    apply bind_ok in M3 as (ms & E4 & M4). apply bind_ok in M4 as (pt & E5 & M5). apply bind_ok in M5 as (pr & E6 & M6).
    injection M6 as <-. cbn [f_geom f_nspecies f_ts f_us f_same f_mus f_pot].
    assert (SZ : forall x, nd_size (numbers m x) = m) by (intros x; unfold nd_size, numbers; cbn [ModelFermions.shape fold_right]; lia).
    unfold init_ts in E1. rewrite SZ, Nat.eqb_refl in E1. cbn [orb] in E1. unfold hopping_mat in E1.
    destruct (forallb _ (seq 0 m)) in E1; [|discriminate]. injection E1 as <-.
    cbn in E2. injection E2 as <-. unfold init_same in E3. rewrite SZ, Nat.eqb_refl, orb_true_r in E3. injection E3 as <-. cbn in E5. injection E5 as <-.
    split; [reflexivity|]. split; [reflexivity|]. split; [|split; [reflexivity|split; [|split; [|reflexivity]]]].
    - intros i j k Hk. rewrite SZ. destruct (Nat.eqb_spec m 1) as [X|X]; [replace k with 0%nat by lia|]; reflexivity.
    - intros i j k Hk. unfold samespecies_int_mat. rewrite SZ. destruct (Nat.eqb_spec m 1) as [X|X]; [replace k with 0%nat by lia|]; reflexivity.
    - intros k Hk. unfold init_mus in E4. rewrite SZ, Nat.eqb_refl in E4. destruct (Nat.eqb_spec m 1) as [X|X]; injection E4 as <-; [replace k with 0%nat by lia|]; reflexivity.
  Qed.
  Lemma sites_n : g_n g = n.
  Proof using LG X1 Y1 X2 Y2. destruct (square_neighbours phase_matrix valid_phases nx ny 0 0 o1 o2 g X1 Y1 X2 Y2 LG) as (G & _). exact G. Qed.
  Lemma phase_one i j : (i < n)%nat -> (j < n)%nat -> fg_phase (fgeom_of g) i j = c1.
  Proof using LG X1 Y1 X2 Y2.
    intros Hi Hj. rewrite <- sites_n in Hi, Hj. pose proof LG as LG'. unfold c_square_geometry, square_geometry in LG'.
    destruct (_ && _) in LG'; [discriminate|]. destruct (_ && _) in LG'; [discriminate|].
    destruct (phases_hermitian _ _ _ _ _ _ _ _ _ g LG' (or_intror (px_long nx X1)) (or_intror (py_long ny Y1))) as (_ & _ & PP).
    destruct (PP i j Hi Hj) as (_ & _ & P1). apply P1; reflexivity.
  Qed.
  Definition adjb (i j : nat) : bool := fg_adj (fgeom_of g) i j.
  Lemma adj_dist i j : (i < n)%nat -> (j < n)%nat -> adjb i j = true -> (Qabs (fg_xdist (fgeom_of g) i j) + Qabs (fg_ydist (fgeom_of g) i j) == 1)%Q.
  Proof using LG X1 Y1 X2 Y2.
    clear two species m1 made. intros Hi Hj A1. rewrite <- sites_n in Hi, Hj.
    destruct (square_displacements phase_matrix valid_phases nx ny 0 0 o1 o2 g X1 Y1 X2 Y2 LG i j Hi Hj) as (a & b & X & Y & _ & _ & _ & _ & AE).
    unfold adjb in A1. cbn [fgeom_of fg_adj fg_xdist fg_ydist] in *. rewrite X, Y. rewrite AE in A1. destruct (Z.eqb_spec (a * a + b * b) 1) as [E|E]; [|discriminate].
    assert (A2 : (a = -1 \/ a = 0 \/ a = 1)%Z) by nia. assert (B2 : (b = -1 \/ b = 0 \/ b = 1)%Z) by nia.
    destruct A2 as [-> | [-> | ->] ], B2 as [-> | [-> | ->] ]; try discriminate E; reflexivity.
  Qed.
  Lemma adj_sym i j : (i < n)%nat -> (j < n)%nat -> adjb i j = adjb j i.
  Proof using LG X1 Y1 X2 Y2.
    intros Hi Hj. destruct (square_neighbours phase_matrix valid_phases nx ny 0 0 o1 o2 g X1 Y1 X2 Y2 LG) as (G & _ & _ & _ & _ & _ & NB). rewrite G in NB.
    unfold adjb. cbn [fgeom_of fg_adj]. rewrite (proj1 (proj2 (NB i j Hi Hj))). reflexivity.
  Qed.
  Lemma hopping i j k : (i < n)%nat -> (j < n)%nat -> (k < m)%nat ->
    kmul (f_ts f i j k) (kQ (Qabs (fg_xdist (f_geom f) i j) + Qabs (fg_ydist (f_geom f) i j))) = real (t k) *c kb (adjb i j).
  Proof using LG X1 Y1 X2 Y2 made.
    intros Hi Hj Hk. destruct couplings as (FG & FS & FT & _). rewrite FT, FG, phase_one by assumption. pose proof (adj_dist i j Hi Hj) as B. unfold adjb in *.
    destruct (fg_adj (fgeom_of g) i j); cbn [kb].
    - specialize (B eq_refl). apply Qeq_eqR in B.
      replace (real (t k) *c (c1 *c c1)) with (real (t k)) by ring. rewrite kre_re. f_equal.
      change (real (Q2R (Qabs (fg_xdist (fgeom_of g) i j) + Qabs (fg_ydist (fgeom_of g) i j))) = c1). rewrite B.
      apply injective_projections; cbn; unfold Q2R; cbn; field.
    - replace (real (t k) *c (c0 *c c1)) with (real 0) by (apply injective_projections; cbn; ring). rewrite kre_re. change (real 0) with c0. ring.
  Qed.
  Lemma us_fine : us_ok f.
  Proof using made species. destruct couplings as (_ & FS & _ & FU & _). unfold us_ok. rewrite FS. destruct species as [L|Z]; [left; exact L|right]. intros i _. rewrite FU, Z. reflexivity. Qed.
  Notation N := (nstates (f_sys f)).
  Lemma sys_eq : f_sys f = fsys n m.
  Proof using LG X1 Y1 X2 Y2 made. destruct couplings as (FG & FS & _). unfold f_sys. rewrite FG, FS. cbn [fgeom_of fg_nsites]. rewrite sites_n. reflexivity. Qed.
  Lemma reals : HamProofs.real_couplings f.
  Proof using made LG X1 Y1 X2 Y2.
    destruct couplings as (FG & FS & FT & FU & FV & FM & FP). unfold HamProofs.real_couplings, HamProofs.real. rewrite FS. repeat split; intros.
    - rewrite FT by assumption. apply kconj_kre.
    - rewrite FU. apply real_conj.
    - rewrite FV by assumption. apply kconj_kre.
    - rewrite FM by assumption. apply real_conj.
    - rewrite FP. apply real_conj.
  Qed.
  Lemma hamiltonian : exists H, createH f None = Ok H /\ square N H /\ hermitian N H.
  Proof using made LG X1 Y1 X2 Y2 species.
    clear m1 two. destruct (hermitian_api f None) as (H & EH & SQ & HH).
    - apply nstates2, HamProofs.f_two.
    - exact us_fine.
    - exact reals.
    - exists H. split; [exact EH|]. cbn [meye nrow] in SQ. split; [exact SQ|]. destruct SQ as [S1 S2].
      intros i j Hi Hj. destruct HH as (_ & _ & HH). specialize (HH i j). cbn [madj nrow ncol ent] in HH. symmetry. apply HH; lia.
  Qed.
  Lemma in_sector H B : createH f None = Ok H -> ncol B = N -> exists HB, createH f (Some B) = Ok HB /\ meq HB (seen_in B H).
  Proof using made LG X1 Y1 X2 Y2 species.
    intros EH CB. rewrite (nstates2 _ (HamProofs.f_two f)) in CB. destruct (HamProofs.createH_spec f B CB us_fine) as (HB & E1 & M1). destruct (HamProofs.createH_None_spec f us_fine) as (H' & E2 & M2).
    assert (H' = H) by congruence. subst H'. exists HB. split; [exact E1|]. rewrite M1. unfold seen_in.
    destruct M2 as (D1 & D2 & EN). split; [reflexivity|]. split; [reflexivity|]. intros i j Hi Hj. cbn [mmul madj nrow ncol ent] in *. rewrite D1, D2 in *. unfold HamProofs.Hspec in *. cbn [SpecHubbard.hubbard_spec ncol nrow] in *.
    apply ksum_ext. intros b Hb. f_equal. apply ksum_ext. intros a Ha. f_equal. symmetry. apply EN; [rewrite CB in Ha; exact Ha | exact Hb].
  Qed.

  Section Motion.
    Variables (M : motion) (fn : vec -> vec).
    Hypothesis KP : keeps nx ny o1 o2 M.
    Hypothesis FM : forall i, (i < n)%nat -> near_point (fn (nth i (combine (g_x g) (g_y g)) vzero)) (move M (inject_Z (site_x ny i), inject_Z (site_y ny i))).
    Hypothesis MS : moves_some nx ny M.
    Lemma moved_by : exists cs ord T, find_site_cycles fn g = Ok (cs, ord) /\ xform_op (f_sys f) (f_swap_op (f_sys f)) cs = Ok (Some T) /\
      (forall i, (i < n)%nat -> cycles_perm cs i = image nx ny M i) /\ valid_cycles n cs /\ (1 <= ord)%nat /\
      (forall i, (i < n)%nat -> iter (cycles_perm cs) ord i = i) /\
      (forall k, (1 <= k < ord)%nat -> exists i, (i < n)%nat /\ iter (cycles_perm cs) k i <> i) /\
      goodm (f_sys f) T (fun _ => cycles_perm cs).
    Proof using All.
      destruct (found_near phase_matrix valid_phases nx ny 0 0 o1 o2 g M fn X1 Y1 X2 Y2 LG KP two FM) as (cs & ord & E & CP & _ & PE & OB & OC & OM).
      exists cs, ord.
      assert (V : valid_cycles n cs).
      { split; [apply (Permutation_NoDup (Permutation_sym PE)), seq_NoDup|]. intros x Hx. apply (Permutation_in x PE) in Hx. apply in_seq in Hx. lia. }
      assert (LC : exists c, In c cs /\ (1 < length c)%nat).
      { destruct MS as (x & y & Hx & Hy & Ne). pose proof (spot_lt nx ny X1 Y1 (x, y)) as L.
        apply (long_cycle cs (spot_at nx ny (x, y))). rewrite CP by exact L. rewrite (image_spot nx ny o1 o2 M X1 Y1 KP). exact Ne. }
      destruct (xform_op_good (K:=CR) (f_sys f) cs) as (T & ET & GT).
      - apply HamProofs.f_two.
      - rewrite sys_eq. cbn. lia.
      - rewrite sys_eq. exact V.
      - exact LC.
      - exists T. repeat (split; [assumption || lia|]). exact GT.
    Qed.
    Lemma commutes cs T : (forall i, (i < n)%nat -> cycles_perm cs i = image nx ny M i) -> valid_cycles n cs ->
      xform_op (f_sys f) (f_swap_op (f_sys f)) cs = Ok (Some T) -> exists H, createH f None = Ok H /\ meq (mmul T H) (mmul H T).
    Proof using All.
      intros CP V ET. destruct couplings as (FG & FS & FT & FU & FV & FMu & FP).
      assert (NS : fg_nsites (f_geom f) = n) by (rewrite FG; cbn [fgeom_of fg_nsites]; apply sites_n).
      assert (KA : forall i j, (i < n)%nat -> (j < n)%nat -> adjb (cycles_perm cs i) (cycles_perm cs j) = adjb i j).
      { intros i j Hi Hj. rewrite !CP by assumption. unfold adjb. cbn [fgeom_of fg_adj]. rewrite (neighbours_kept phase_matrix valid_phases nx ny 0 0 o1 o2 g M X1 Y1 X2 Y2 LG KP i j Hi Hj). reflexivity. }
      assert (IL : forall i, (i < n)%nat -> (cycles_perm cs i < n)%nat) by (intros i Hi; rewrite CP by exact Hi; apply image_lt; assumption).
      apply (symmetry_api f cs T); try rewrite NS; try rewrite FS.
      - exact us_fine.
      - exact V.
      - exact ET.
      - intros i j k Hi Hj Hk. rewrite !hopping by auto. rewrite KA, (adj_sym i j) by assumption. split; reflexivity.
      - intros i Hi. rewrite !FU. reflexivity.
      - intros i j k Hi Hj Hk. rewrite !FV by assumption. fold (adjb i j) (adjb j i) (adjb (cycles_perm cs i) (cycles_perm cs j)). rewrite KA, (adj_sym i j) by assumption. split; reflexivity.
      - intros i k Hi Hk. rewrite !FP. reflexivity.
    Qed.
    Theorem space_symmetry svd : exists cs ord T H Bs,
      find_site_cycles fn g = Ok (cs, ord) /\ (forall i, (i < n)%nat -> cycles_perm cs i = spot_at nx ny (move_z M (site_x ny i, site_y ny i))) /\
      xform_op (f_sys f) (f_swap_op (f_sys f)) cs = Ok (Some T) /\ signed N T /\ meq (mpow N T ord) (meye N) /\
      createH f None = Ok H /\ meq (mmul T H) (mmul H T) /\
      zn_projectors svd T ord = Ok Bs /\ length Bs = ord /\ splits N Bs /\
      (forall k, (k < ord)%nat -> acts_as (nth k Bs (mzero 0 0)) T (cexp (- (2 * PI * INR k / INR ord)))) /\
      (forall k, (k < ord)%nat -> (0 < nrow (nth k Bs (mzero 0 0)))%nat) /\
      block_diagonal Bs H /\
      (forall B, In B Bs -> exists HB, createH f (Some B) = Ok HB /\ hermitian (nrow B) HB /\ meq HB (seen_in B H)).
    Proof using All.
      destruct moved_by as (cs & ord & T & EC & ET & CP & V & O1 & OC & OM & GT).
      destruct (commutes cs T CP V ET) as (H & EH & CO).
      destruct hamiltonian as (H' & EH' & SQ & HE). assert (H' = H) by congruence. subst H'.
      pose proof (HamProofs.f_two f) as TW.
      assert (NS : s_nsites (f_sys f) = n) by (rewrite sys_eq; reflexivity).
      pose proof (good_signed (f_sys f) T _ TW GT) as SG.
      assert (IL : forall i, (i < n)%nat -> (cycles_perm cs i < n)%nat) by (intros i Hi; rewrite CP by exact Hi; apply image_lt; assumption).
      assert (PO : meq (mpow N T ord) (meye N)) by (apply (pow_one (f_sys f) T (cycles_perm cs) ord TW GT); rewrite NS; assumption).
      destruct (zn_sectors N ord T svd ltac:(lia) (proj1 SG) PO) as (Bs & EB & LB & SP & AA & BD).
      destruct (sectors_filled (f_sys f) T (cycles_perm cs) ord TW) with (svd := svd) as (Bs' & EB' & FI); try rewrite NS; try assumption.
      { rewrite sys_eq. cbn. lia. }
      assert (Bs' = Bs) by congruence. subst Bs'.
      exists cs, ord, T, H, Bs. repeat (split; [first [assumption | exact (BD H SQ CO)] |]).
      intros B IB. apply (In_nth _ _ (mzero 0 0)) in IB as (k & Hk & EK).
      destruct SP as (S1 & _). destruct (S1 k Hk) as (CB & _). rewrite EK in CB.
      destruct (in_sector H B EH CB) as (HB & E1 & M1). exists HB. split; [exact E1|]. split; [|exact M1].
      destruct (hermitian_api f (Some B) CB us_fine reals) as (HB' & E2 & SQ2 & HH). assert (HB' = HB) by congruence. subst HB'. destruct SQ2 as [Q1 Q2].
      intros i j Hi Hj. destruct HH as (_ & _ & HH). specialize (HH i j). cbn [madj nrow ncol ent] in HH. symmetry. apply HH; lia.
    Qed.
    (** Averages computed sector by sector. *)
    Theorem space_thermal svd cs ord T H Bs (l : list block) V E O beta : find_site_cycles fn g = Ok (cs, ord) ->
      xform_op (f_sys f) (f_swap_op (f_sys f)) cs = Ok (Some T) -> createH f None = Ok H -> zn_projectors svd T ord = Ok Bs ->
      map (fun x => fst (fst x)) l = Bs ->
      (forall x, In x l -> exists HB, createH f (Some (fst (fst x))) = Ok HB /\ eigenbasis HB (snd (fst x)) (snd x)) ->
      eigenbasis H V E -> square N O ->
      beta <> 0 \/ (sorted_list E /\ (forall x, In x l -> sorted_list (snd x)) /\ apart gap13 E) ->
      (vals <- rmap (fun x => exp_vals_thermal (snd (fst x)) (seen_in (fst (fst x)) O) (snd x) beta) l ;;
       combine_sectors vals (map (fun x => snd x) l) beta) = exp_vals_thermal V O E beta.
    Proof using All.
      intros EC ET EH EB ML EL EV SO BT.
      destruct (space_symmetry svd) as (cs' & ord' & T' & H' & Bs' & EC' & _ & ET' & _ & _ & EH' & _ & EB' & LB & SP & _ & FI & BD & _).
      rewrite EC in EC'. injection EC' as <- <-. rewrite ET in ET'. injection ET' as <-. rewrite EH in EH'. injection EH' as <-. rewrite EB in EB'. injection EB' as <-.
      destruct hamiltonian as (H' & EH' & SQ & HE). assert (H' = H) by congruence. subst H'.
      assert (NP : (0 < N)%nat) by (rewrite (nstates2 _ (HamProofs.f_two f)); apply N_pos).
      assert (NB : forall x, In x l -> In (fst (fst x)) Bs) by (intros x Hx; rewrite <- ML; apply (in_map (fun x => fst (fst x))), Hx).
      assert (ML' : map bB l = Bs) by exact ML.
      apply (blocks_thermal N H l); try assumption.
      - rewrite ML'. exact SP.
      - rewrite ML'. exact BD.
      - intros x Hx. destruct (EL x Hx) as (HB & E1 & E2). pose proof (NB x Hx) as IB. apply (In_nth _ _ (mzero 0 0)) in IB as (k & Hk & EK).
        destruct SP as (S1 & _). destruct (S1 k Hk) as (CB & _). rewrite EK in CB.
        destruct (in_sector H (fst (fst x)) EH CB) as (HB' & E3 & M1). assert (HB' = HB) by congruence. subst HB'. apply (eigenbasis_meq HB); assumption.
      - destruct EV as ((_ & D & _) & _). destruct SQ. congruence.
      - intros x Hx. pose proof (NB x Hx) as IB. apply (In_nth _ _ (mzero 0 0)) in IB as (k & Hk & EK). unfold bB. rewrite <- EK. apply FI. lia.
    Qed.
  End Motion.
End Hubbard.

(** Averages on rectangular lattices: half filling, and sites related by a motion
    of the lattice.  Proofs. *)
From Coq Require Import List Arith Lia Reals Lra ZArith Bool QArith Qabs Setoid Morphisms.
From Verif Require Import Scalars Res Matrix Sums SqMat CarAlgebra ModelBase ModelFermions SpecFock SpecHubbard OpsProofs
  FockProofs FermiOps SwapProofs FermiApi HamSym
  ModelGeometry ModelPhase ModelSymmetry SymBase ModelThermal SpecThermal ThermalBase ThermalBasis SymAverage FreeThermal SpecFermiGas SpecHalf HalfModes HalfHam
  SpecGeometry GeoSquare SpecSites ModelSites SpecPerm ModelFreeLattice SpecFreeLattice SpecSpace SpaceMaps SpaceHubbard.
Import ListNotations.
Local Open Scope R_scope.

Lemma step_odd o n d : (1 <= n)%Z -> o = true \/ Z.even n = true -> one_step o n d -> Z.even d = false.
Proof.
  intros Hn Hp. unfold one_step. destruct o.
  - intros [-> | ->]; reflexivity.
  - destruct Hp as [Hp|Hp]; [discriminate|]. apply Zeven_bool_iff, Zeven_ex_iff in Hp as (h & Eh).
    intros [E|E]; apply Z.mod_divide in E; try lia; destruct E as (c & E).
    + replace d with (1 + 2 * (c * h))%Z by nia. rewrite Z.even_add_mul_2. reflexivity.
    + replace d with (-1 + 2 * (c * h))%Z by nia. rewrite Z.even_add_mul_2. reflexivity.
Qed.

Section Lattice.
  Variables (nx ny : Z) (o1 o2 : bool) (g : geometry CR) (u w : R) (t v mu : nat -> R) (m : nat) (f : fermions CR).
  Hypothesis X1 : (1 <= nx)%Z. Hypothesis Y1 : (1 <= ny)%Z.
  Hypothesis X2 : (2 * nx <= 100000000000000)%Z. Hypothesis Y2 : (2 * ny <= 100000000000000)%Z.
  Hypothesis LG : c_square_geometry nx ny 0 0 o1 o2 = Ok g.
  Hypothesis made : fermions_init (fgeom_of g) (number u) (numbers m t) None (numbers m mu) (number w) (numbers m v) m = Ok f.
  Hypothesis species : (2 <= m)%nat \/ u = 0.
  Notation n := (Z.to_nat (nx * ny)).
  Variables (H V : mat CR) (E : list R) (T : R).
  Hypothesis ham : createH f None = Ok H.
  Hypothesis basis : eigenbasis H V E.
  Hypothesis HT : T <> 0 \/ (sorted_list E /\ apart gap13 E).

  Lemma nsites_f : fg_nsites (f_geom f) = n.
  Proof using X1 Y1 X2 Y2 LG made.
    destruct (couplings g u w t v mu m f made) as (FG & _). rewrite FG. cbn [fgeom_of fg_nsites]. exact (sites_n nx ny o1 o2 g X1 Y1 X2 Y2 LG).
  Qed.
  Lemma nsp_f : f_nspecies f = m.
  Proof using made. apply (couplings g u w t v mu m f made). Qed.
  Lemma us_f : (2 <= f_nspecies f)%nat \/ (forall i, (i < fg_nsites (f_geom f))%nat -> f_us f i = k0).
  Proof using made species. exact (us_fine g u w t v mu m f made species). Qed.

  Section Chess.
    Hypothesis P1 : o1 = true \/ Z.even nx = true.
    Hypothesis P2 : o2 = true \/ Z.even ny = true.
    Hypothesis v0 : forall k, (k < m)%nat -> v k = 0.
    Hypothesis mu_half : forall k, (k < m)%nat -> mu k = w + (if (k <? 2)%nat then u / 2 else 0).

    Lemma chess_coloured : two_coloured f (chess ny).
    Proof using X1 Y1 X2 Y2 LG made P1 P2.
      clear species. intros i j k Hij Hk. rewrite nsites_f in Hij. rewrite nsp_f in Hk. intros Ne Eq. apply Ne.
      destruct (couplings g u w t v mu m f made) as (_ & _ & FT & _). rewrite FT by exact Hk.
      destruct (square_neighbours phase_matrix valid_phases nx ny 0 0 o1 o2 g X1 Y1 X2 Y2 LG) as (G & _ & _ & _ & _ & _ & NB). rewrite G in NB.
      destruct (NB i j ltac:(lia) ltac:(lia)) as (B01 & _ & _ & ADJ). cbn [fgeom_of fg_adj].
      assert (Z0 : (ent (g_adj g) i j == 0)%Q).
      { destruct B01 as [B|B]; [rewrite B; reflexivity|]. exfalso. apply ADJ in B. unfold chess in Eq.
        assert (EE : Z.even (site_x ny i + site_y ny i - (site_x ny j + site_y ny j)) = true).
        { rewrite Z.even_sub, Eq. apply eqb_reflx. }
        destruct B as [(S1 & S2)|(S1 & S2)].
        - apply step_odd in S1; try assumption. rewrite S2 in EE. replace (site_x ny i + site_y ny j - (site_x ny j + site_y ny j))%Z with (site_x ny i - site_x ny j)%Z in EE by lia. congruence.
        - apply step_odd in S2; try assumption. rewrite S1 in EE. replace (site_x ny j + site_y ny i - (site_x ny j + site_y ny j))%Z with (site_y ny i - site_y ny j)%Z in EE by lia. congruence. }
      apply Qeq_bool_iff in Z0. rewrite Z0. cbn [negb kb]. apply injective_projections; cbn; ring.
    Qed.
    Lemma lattice_balanced : balanced f.
    Proof using X1 Y1 X2 Y2 LG made v0 mu_half.
      clear species. intros i k Hi Hk. rewrite nsp_f in Hk. destruct (couplings g u w t v mu m f made) as (_ & _ & _ & FU & FV & FM & FP).
      assert (Z : forall a b, f_same f a b k = c0).
      { intros a b. rewrite FV by exact Hk. rewrite v0 by exact Hk. apply injective_projections; cbn; ring. }
      unfold mean_field. rewrite ksum_zero by (intros j Hj; unfold same_pair; rewrite !Z; destruct (j =? i)%nat, (j <? i)%nat; reflexivity).
      rewrite Z, FU, FM, FP by exact Hk. rewrite mu_half by exact Hk. destruct (k <? 2)%nat; apply injective_projections; cbn; field.
    Qed.
    Theorem lattice_half_density i k A : (i < n)%nat -> (k < m)%nat -> single_site_op (f_sys f) i k n_op Boson = Ok A ->
      exp_vals_thermal V A E T = Ok (1 / 2).
    Proof using All.
      intros Hi Hk EA. apply (half_density f (chess ny) chess_coloured lattice_balanced us_f H V E T ham basis HT i k A); [rewrite nsites_f; exact Hi | rewrite nsp_f; exact Hk | exact EA].
    Qed.
    Theorem lattice_half_bond i j k A : (i < n)%nat -> (j < n)%nat -> (k < m)%nat -> i <> j -> chess ny i = chess ny j ->
      two_site_op (f_sys f) i k j k cdag_op c_op Fermion = Ok A -> exp_vals_thermal V A E T = Ok 0.
    Proof using All.
      intros Hi Hj Hk Ne Ch EA. apply (half_bond f (chess ny) chess_coloured lattice_balanced us_f H V E T ham basis HT i j k A);
        try rewrite nsites_f; try rewrite nsp_f; assumption.
    Qed.
  End Chess.

  Section Motion.
    Variable M : motion.
    Hypothesis KP : keeps nx ny o1 o2 M.
    Notation N := (2 ^ nlog (f_sys f))%nat.
    Notation q i k := (lsite (f_sys f) i k).
    Notation nl := (nlog (f_sys f)).

    Lemma exact_motion i : (i < n)%nat -> near_point (move M (nth i (combine (g_x g) (g_y g)) vzero)) (move M (inject_Z (site_x ny i), inject_Z (site_y ny i))).
    Proof using X1 Y1 X2 Y2 LG.
      clear species. intros Hi. destruct (square_neighbours phase_matrix valid_phases nx ny 0 0 o1 o2 g X1 Y1 X2 Y2 LG) as (G & L1 & L2 & _ & _ & CO & _). rewrite G in *.
      destruct (CO i Hi) as [C1 C2].
      assert (E1 : nth i (combine (g_x g) (g_y g)) vzero = (nth i (g_x g) 0%Q, nth i (g_y g) 0%Q)) by (apply combine_nth; congruence).
      rewrite E1. unfold near_point, move, turned. destruct (m_swap M); cbn [fst snd]; split;
        (match goal with |- (Qabs ?e < _)%Q => assert (Z : (e == 0)%Q) end;
         [unfold signed_q; destruct (m_sx M), (m_sy M); rewrite ?C1, ?C2; ring | rewrite Z; reflexivity]).
    Qed.
    Lemma image_at i : (i < n)%nat -> spot_at nx ny (site_x ny i, site_y ny i) = i.
    Proof using X1 Y1.
      clear species. intros Hi. unfold spot_at. cbn [fst snd]. pose proof (site_x_range nx ny i Y1 Hi). pose proof (site_y_range ny i Y1).
      rewrite !Z.mod_small by lia. unfold site_x, site_y in *.
      rewrite Z.mul_comm, <- Z.div_mod by lia. apply Nat2Z.id.
    Qed.

    (** Operators made of the modes are carried to the moved sites. *)
    Lemma carried (O O' : mat CR) : (1 <= m)%nat -> square N O -> square N O' ->
      ((forall i, (i < n)%nat -> image nx ny M i = i) -> O = O') ->
      (forall W : sq CR N, (forall i k, (i < n)%nat -> (k < m)%nat ->
          seqv (smul W (Cd nl (q i k))) (smul (Cd nl (q (image nx ny M i) k)) W) /\
          seqv (smul W (Ca nl (q i k))) (smul (Ca nl (q (image nx ny M i) k)) W)) -> seqv (smul W (ent O)) (smul (ent O') W)) ->
      exp_vals_thermal V O E T = exp_vals_thermal V O' E T.
    Proof using All.
      intros m1 SO SO' TR C.
      destruct (forallb (fun i => (image nx ny M i =? i)%nat) (seq 0 n)) eqn:FB.
      - rewrite TR; [reflexivity|]. intros i Hi. rewrite forallb_forall in FB. apply Nat.eqb_eq, FB, in_seq. lia.
      - assert (EX : exists i, (i < n)%nat /\ image nx ny M i <> i).
        { clear - FB. assert (G : forall l, forallb (fun i => (image nx ny M i =? i)%nat) l = false -> exists i, In i l /\ image nx ny M i <> i).
          { induction l as [|a l IH]; [discriminate|]. cbn. destruct (Nat.eqb_spec (image nx ny M a) a) as [Ea|Ea].
            - cbn. intros X. destruct (IH X) as (i & I & J). exists i. split; [right; exact I|exact J].
            - intros _. exists a. split; [left; reflexivity|exact Ea]. }
          destruct (G _ FB) as (i & I & J). exists i. split; [apply in_seq in I; lia|exact J]. }
        destruct EX as (i0 & Hi0 & Mi0).
        assert (two : (2 <= nx * ny)%Z).
        { destruct (Z.le_gt_cases 2 (nx * ny)) as [L|L]; [exact L|]. exfalso. apply Mi0. pose proof (image_lt nx ny M X1 Y1 i0). lia. }
        assert (MS : moves_some nx ny M).
        { exists (site_x ny i0), (site_y ny i0). split; [exact (site_x_range nx ny i0 Y1 Hi0)|]. split; [exact (site_y_range ny i0 Y1)|].
          rewrite (image_at i0 Hi0). exact Mi0. }
        destruct (moved_by nx ny o1 o2 g u w t v mu m f X1 Y1 X2 Y2 LG made species m1 two M (move M) KP exact_motion MS)
          as (cs & ord & Tm & EC & ET & CP & VC & _ & _ & _ & (ST & MV & UN & _)).
        destruct (SpaceHubbard.commutes nx ny o1 o2 g u w t v mu m f X1 Y1 X2 Y2 LG made species m1 two M (move M) KP exact_motion MS cs Tm CP VC ET) as (H' & EH & CO).
        assert (H' = H) by congruence. subst H'.
        destruct (H_is f us_f H ham) as (RH & CH & _).
        symmetry. apply (symmetric_average N H V E (ent Tm) basis (V_is f us_f H V E ham basis)).
        + split; apply UN.
        + apply (meq_seqv N) in CO; [|apply square_mul; [exact ST | split; assumption]|apply square_mul; [split; assumption|exact ST]].
          rewrite !(ent_mul N) in CO by (exact ST || (split; assumption)). exact CO.
        + exact SO'.
        + exact SO.
        + symmetry. apply C. intros i k Hi Hk.
          assert (Hi' : (i < s_nsites (f_sys f))%nat) by (change (s_nsites (f_sys f)) with (fg_nsites (f_geom f)); rewrite nsites_f; exact Hi).
          destruct (MV (q i k)) as (_ & M1 & M2).
          { apply lsite_lt; [exact Hi'|]. change (s_nspecies (f_sys f)) with (f_nspecies f). rewrite nsp_f. exact Hk. }
          rewrite lift_lsite in M1, M2 by exact Hi'. rewrite CP in M1, M2 by exact Hi. split; assumption.
        + apply N_pos.
        + exact HT.
    Qed.
    Notation pi i := (spot_at nx ny (move_z M (site_x ny i, site_y ny i))).

    Theorem moved_density i k A B : (i < n)%nat -> (k < m)%nat -> single_site_op (f_sys f) i k n_op Boson = Ok A ->
      single_site_op (f_sys f) (pi i) k n_op Boson = Ok B -> exp_vals_thermal V A E T = exp_vals_thermal V B E T.
    Proof using All.
      intros Hi Hk EA EB. assert (Hp : (pi i < n)%nat) by (apply (image_lt nx ny M X1 Y1 i)).
      assert (Hk' : (k < s_nspecies (f_sys f))%nat) by (change (s_nspecies (f_sys f)) with (f_nspecies f); rewrite nsp_f; exact Hk).
      assert (SI : forall i, (i < n)%nat -> (i < s_nsites (f_sys f))%nat) by (intros; change (s_nsites (f_sys f)) with (fg_nsites (f_geom f)); rewrite nsites_f; assumption).
      destruct (single_ok (f_sys f) i k n_op Boson (HamProofs.f_two f) ltac:(discriminate) (SI _ Hi) Hk' (sq2 _ _ _ _)) as (A' & EA' & SA & VA).
      destruct (single_ok (f_sys f) (pi i) k n_op Boson (HamProofs.f_two f) ltac:(discriminate) (SI _ Hp) Hk' (sq2 _ _ _ _)) as (B' & EB' & SB & VB).
      rewrite EA in EA'. injection EA' as <-. rewrite EB in EB'. injection EB' as <-.
      change (seqv (N:=N) (ent A) (Nn nl (q i k))) in VA. change (seqv (N:=N) (ent B) (Nn nl (q (pi i) k))) in VB.
      apply carried; [lia | exact SA | exact SB | |].
      - intros FX. change (pi i) with (image nx ny M i) in EB. rewrite (FX i Hi) in EB. congruence.
      - intros W HW. rewrite VA, VB.
        assert (Q1 : (q i k < nl)%nat) by (apply lsite_lt; auto). assert (Q2 : (q (pi i) k < nl)%nat) by (apply lsite_lt; auto).
        rewrite <- (Cd_Ca nl (q i k) Q1), <- (Cd_Ca nl (q (pi i) k) Q2). apply (T_prod f); apply HW; assumption.
    Qed.
    Theorem moved_pair i k j k' (a b : mat CR) fl A B : (i < n)%nat -> (k < m)%nat -> (j < n)%nat -> (k' < m)%nat ->
      (a, b, fl) = (n_op, n_op, Boson) \/ (a, b, fl) = (cdag_op, c_op, Fermion) ->
      two_site_op (f_sys f) i k j k' a b fl = Ok A -> two_site_op (f_sys f) (pi i) k (pi j) k' a b fl = Ok B ->
      exp_vals_thermal V A E T = exp_vals_thermal V B E T.
    Proof using All.
      intros Hi Hk Hj Hk' AB EA EB. assert (Hp : (pi i < n)%nat) by (apply (image_lt nx ny M X1 Y1 i)). assert (Hr : (pi j < n)%nat) by (apply (image_lt nx ny M X1 Y1 j)).
      assert (KI : forall k, (k < m)%nat -> (k < s_nspecies (f_sys f))%nat) by (intros; change (s_nspecies (f_sys f)) with (f_nspecies f); rewrite nsp_f; assumption).
      assert (SI : forall i, (i < n)%nat -> (i < s_nsites (f_sys f))%nat) by (intros; change (s_nsites (f_sys f)) with (fg_nsites (f_geom f)); rewrite nsites_f; assumption).
      assert (Q1 : (q i k < nl)%nat) by (apply lsite_lt; auto). assert (Q2 : (q (pi i) k < nl)%nat) by (apply lsite_lt; auto).
      assert (Q3 : (q j k' < nl)%nat) by (apply lsite_lt; auto). assert (Q4 : (q (pi j) k' < nl)%nat) by (apply lsite_lt; auto).
      assert (NO : fl <> OtherFormat) by (destruct AB as [AB|AB]; injection AB as -> -> ->; discriminate).
      assert (SA0 : square 2 a) by (destruct AB as [AB|AB]; injection AB as -> -> ->; apply sq2).
      assert (SB0 : square 2 b) by (destruct AB as [AB|AB]; injection AB as -> -> ->; apply sq2).
      destruct (two_ok (f_sys f) i k j k' a b fl (HamProofs.f_two f) NO (SI _ Hi) (KI _ Hk) (SI _ Hj) (KI _ Hk') SA0 SB0) as (A' & EA' & SA & VA).
      destruct (two_ok (f_sys f) (pi i) k (pi j) k' a b fl (HamProofs.f_two f) NO (SI _ Hp) (KI _ Hk) (SI _ Hr) (KI _ Hk') SA0 SB0) as (B' & EB' & SB & VB).
      rewrite EA in EA'. injection EA' as <-. rewrite EB in EB'. injection EB' as <-.
      apply carried; [lia | exact SA | exact SB | |].
      - intros FX. change (pi i) with (image nx ny M i) in EB. change (pi j) with (image nx ny M j) in EB. rewrite (FX i Hi), (FX j Hj) in EB. congruence.
      - intros W HW. rewrite VA, VB. destruct AB as [AB|AB]; injection AB as -> -> ->; cbn [gop].
        + change (seqv (smul W (smul (Nn nl (q i k)) (Nn nl (q j k')))) (smul (smul (Nn nl (q (pi i) k)) (Nn nl (q (pi j) k'))) W)).
          rewrite <- (Cd_Ca nl (q i k) Q1), <- (Cd_Ca nl (q (pi i) k) Q2), <- (Cd_Ca nl (q j k') Q3), <- (Cd_Ca nl (q (pi j) k') Q4).
          apply (T_prod f); apply (T_prod f); apply HW; assumption.
        + apply (T_prod f); apply HW; assumption.
    Qed.
  End Motion.

  (** All sites of a periodic lattice have the same density. *)
  Theorem uniform_density i j k A B : o1 = false -> o2 = false -> (i < n)%nat -> (j < n)%nat -> (k < m)%nat ->
    single_site_op (f_sys f) i k n_op Boson = Ok A -> single_site_op (f_sys f) j k n_op Boson = Ok B ->
    exp_vals_thermal V A E T = exp_vals_thermal V B E T.
  Proof using All.
    intros F1 F2 Hi Hj Hk EA EB.
    set (M := shift (site_x ny j - site_x ny i) (site_y ny j - site_y ny i)).
    assert (KP : keeps nx ny o1 o2 M) by (rewrite F1, F2; split; [|split]; discriminate).
    assert (EQ : spot_at nx ny (move_z M (site_x ny i, site_y ny i)) = j).
    { unfold move_z, M, shift, turned, signed_z. cbn [m_swap m_sx m_sy m_a m_b fst snd].
      replace (site_x ny i + (site_x ny j - site_x ny i))%Z with (site_x ny j) by lia.
      replace (site_y ny i + (site_y ny j - site_y ny i))%Z with (site_y ny j) by lia. apply image_at. exact Hj. }
    apply (moved_density M KP i k A B Hi Hk EA). rewrite EQ. exact EB.
  Qed.
End Lattice.

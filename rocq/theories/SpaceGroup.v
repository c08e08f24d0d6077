(** Groups of motions of rectangular lattices. *)
From Coq Require Import List Arith Lia Reals Lra ZArith QArith Bool Permutation.
From Verif Require Import Scalars Res Matrix SpecMat ModelBase ModelFermions ModelGeometry ModelPhase ModelSymmetry SymBase GeoSquare GeoApi SpecGeometry
  SpecSites ModelSites SpecPerm SpecThermal SpecFermiGas ModelFreeLattice SpecFreeLattice FermiOps SwapProofs FermiApi SpecSymmetry SymApi SpecSpace SpaceMaps SpaceSites SpaceXform SpaceHubbard.
Import ListNotations.
Local Open Scope R_scope.

Section Group.
  Variables (nx ny : Z) (o1 o2 : bool) (g : geometry CR) (u w : R) (t v mu : nat -> R) (m : nat) (f : fermions CR).
  Hypothesis X1 : (1 <= nx)%Z. Hypothesis Y1 : (1 <= ny)%Z.
  Hypothesis X2 : (2 * nx <= 100000000000000)%Z. Hypothesis Y2 : (2 * ny <= 100000000000000)%Z.
  Hypothesis LG : c_square_geometry nx ny 0 0 o1 o2 = Ok g.
  Hypothesis made : fermions_init (fgeom_of g) (number u) (numbers m t) None (numbers m mu) (number w) (numbers m v) m = Ok f.
  Hypothesis species : (2 <= m)%nat \/ u = 0.
  Hypothesis m1 : (1 <= m)%nat.
  Hypothesis two : (2 <= nx * ny)%Z.
  Notation n := (Z.to_nat (nx * ny)).
  Notation N := (nstates (f_sys f)).
  Notation good M T := (goodm (f_sys f) T (fun _ => image nx ny M)).

  Lemma operator M fn : keeps nx ny o1 o2 M -> gives nx ny g M fn -> moves_some nx ny M ->
    exists T H, operator_of f g fn T /\ good M T /\ createH f None = Ok H /\ square N H /\ meq (mmul T H) (mmul H T).
  Proof using All.
    intros KP FM MS.
    destruct (moved_by nx ny o1 o2 g u w t v mu m f X1 Y1 X2 Y2 LG made species m1 two M fn KP FM MS) as (cs & ord & T & EC & ET & CP & V & _ & _ & _ & GT).
    destruct (commutes nx ny o1 o2 g u w t v mu m f X1 Y1 X2 Y2 LG made species m1 two M fn KP FM MS cs T CP V ET) as (H & EH & CO).
    destruct (hamiltonian nx ny o1 o2 g u w t v mu m f X1 Y1 X2 Y2 LG made species) as (H' & EH' & SQ & _). assert (H' = H) by congruence. subst H'.
    exists T, H. split; [exists cs, ord; split; assumption|]. split; [|tauto].
    eapply goodm_ext; [|exact GT]. intros sp i Hsp Hi. apply CP. rewrite (sys_eq nx ny o1 o2 g u w t v mu m f X1 Y1 X2 Y2 LG made) in Hi. exact Hi.
  Qed.
  Lemma two_states : s_nbasis (f_sys f) = 2%nat. Proof using. apply HamProofs.f_two. Qed.
  Lemma ns_n : s_nsites (f_sys f) = n.
  Proof using LG X1 Y1 X2 Y2 made. rewrite (sys_eq nx ny o1 o2 g u w t v mu m f X1 Y1 X2 Y2 LG made). reflexivity. Qed.
  Lemma good_m A B p q : goodm (f_sys f) A (fun _ => p) -> goodm (f_sys f) B (fun _ => q) -> (forall i, (i < n)%nat -> (q i < n)%nat) ->
    goodm (f_sys f) (mmul A B) (fun _ i => p (q i)).
  Proof using LG X1 Y1 X2 Y2 made.
    intros GA GB QL. destruct (goodm_mul (f_sys f) A B (fun _ => p) (fun _ => q) two_states) as [_ GG]; auto. intros sp i _ Hi. rewrite ns_n in *. apply QL, Hi.
  Qed.
  Lemma good_p A p k : goodm (f_sys f) A (fun _ => p) -> (forall i, (i < n)%nat -> (p i < n)%nat) -> goodm (f_sys f) (mpow N A k) (fun _ => iter p k).
  Proof using LG X1 Y1 X2 Y2 made.
    intros GA PL. rewrite (nstates2 _ two_states). apply pow_good; [exact two_states | exact GA |]. rewrite ns_n. exact PL.
  Qed.
  Lemma good_eq A B p q : goodm (f_sys f) A (fun _ => p) -> goodm (f_sys f) B (fun _ => q) -> (forall i, (i < n)%nat -> p i = q i) -> meq A B.
  Proof using LG X1 Y1 X2 Y2 made.
    intros GA GB E. eapply goodm_unique; [exact GA|]. eapply goodm_ext; [|exact GB]. intros sp i _ Hi. rewrite ns_n in Hi. symmetry. apply E, Hi.
  Qed.
  Lemma good_one : goodm (f_sys f) (meye N) (fun _ i => i).
  Proof using. rewrite (nstates2 _ two_states). apply goodm_1. Qed.
  Lemma lt_image M : forall i, (i < n)%nat -> (image nx ny M i < n)%nat.
  Proof using X1 Y1. clear - X1 Y1. intros i _. apply image_lt; assumption. Qed.

  (** Relations follow from the motions. *)
  Lemma power_one M A k : keeps nx ny o1 o2 M -> good M A -> (forall z, congr nx ny (iter (move_z M) k z) z) -> meq (mpow N A k) (meye N).
  Proof using LG X1 Y1 X2 Y2 made.
    intros KP GA C. eapply good_eq; [apply good_p; [exact GA | apply lt_image] | exact good_one|]. intros i Hi. cbv beta.
    rewrite <- (spot_site nx ny X1 Y1 i Hi) at 1. rewrite (image_iter nx ny o1 o2 M X1 Y1 KP), (spot_congr nx ny X1 Y1 _ _ (C (at_site ny i))). apply spot_site; assumption.
  Qed.
  (** A B = C^k B' *)
  Lemma relation MA MB MC k MD A B C D : keeps nx ny o1 o2 MA -> keeps nx ny o1 o2 MB -> keeps nx ny o1 o2 MC -> keeps nx ny o1 o2 MD ->
    good MA A -> good MB B -> good MC C -> good MD D ->
    (forall z, congr nx ny (move_z MA (move_z MB z)) (iter (move_z MC) k (move_z MD z))) -> meq (mmul A B) (mmul (mpow N C k) D).
  Proof using LG X1 Y1 X2 Y2 made.
    intros KA KB KC KD GA GB GC GD E. eapply good_eq.
    - apply good_m; [exact GA | exact GB | apply lt_image].
    - apply good_m; [apply good_p; [exact GC | apply lt_image] | exact GD | apply lt_image].
    - intros i Hi. cbv beta. unfold image at 2. rewrite (image_spot nx ny o1 o2 MA X1 Y1 KA). unfold image at 2.
      rewrite (image_iter nx ny o1 o2 MC X1 Y1 KC). apply spot_congr; [exact X1 | exact Y1 | apply E].
  Qed.
  Lemma relation1 MA MB MC MD A B C D : keeps nx ny o1 o2 MA -> keeps nx ny o1 o2 MB -> keeps nx ny o1 o2 MC -> keeps nx ny o1 o2 MD ->
    good MA A -> good MB B -> good MC C -> good MD D ->
    (forall z, congr nx ny (move_z MA (move_z MB z)) (move_z MC (move_z MD z))) -> meq (mmul A B) (mmul C D).
  Proof using LG X1 Y1 X2 Y2 made.
    intros KA KB KC KD GA GB GC GD E. eapply good_eq.
    - apply good_m; [exact GA | exact GB | apply lt_image].
    - apply good_m; [exact GC | exact GD | apply lt_image].
    - intros i Hi. cbv beta. unfold image at 2. rewrite (image_spot nx ny o1 o2 MA X1 Y1 KA). unfold image at 2.
      rewrite (image_spot nx ny o1 o2 MC X1 Y1 KC). apply spot_congr; [exact X1 | exact Y1 | apply E].
  Qed.
End Group.

Lemma spot_small nx ny x y : (0 <= x < nx)%Z -> (0 <= y < ny)%Z -> spot_at nx ny (x, y) = Z.to_nat (x * ny + y).
Proof. intros X Y. unfold spot_at. cbn [fst snd]. rewrite !Z.mod_small by assumption. reflexivity. Qed.
Lemma congr_eq nx ny v w : (1 <= nx)%Z -> (1 <= ny)%Z -> v = w -> congr nx ny v w.
Proof. intros X Y ->. split; rewrite Z.sub_diag; apply Zmod_0_l. Qed.
Lemma congr_by nx ny v w a b : (1 <= nx)%Z -> (1 <= ny)%Z -> (fst v = fst w + a * nx)%Z -> (snd v = snd w + b * ny)%Z -> congr nx ny v w.
Proof. intros X Y A B. split; apply mod0; try assumption; [exists a | exists b]; lia. Qed.

Ltac mv := cbn [iter Nat.sub]; unfold move_z, turned, half_turn, quarter_turn, back_turn, mirror, shift, signed_z; cbn [fst snd m_swap m_sx m_sy m_a m_b].

Section Groups.
  Variables (nx ny : Z) (o1 o2 : bool) (g : geometry CR) (u w : R) (t v mu : nat -> R) (m : nat) (f : fermions CR).
  Hypothesis X2 : (2 * nx <= 100000000000000)%Z. Hypothesis Y2 : (2 * ny <= 100000000000000)%Z.
  Hypothesis LG : c_square_geometry nx ny 0 0 o1 o2 = Ok g.
  Hypothesis made : fermions_init (fgeom_of g) (number u) (numbers m t) None (numbers m mu) (number w) (numbers m v) m = Ok f.
  Hypothesis species : (2 <= m)%nat \/ u = 0.
  Hypothesis m1 : (1 <= m)%nat.
  Notation N := (nstates (f_sys f)).

  (** A rectangle: half turn and reflection. *)
  Theorem rectangle fr fs svd : (2 <= nx)%Z -> (1 <= ny)%Z ->
    gives nx ny g (half_turn nx ny) fr -> gives nx ny g (mirror nx) fs -> (forall A, row_basis A (svd A)) ->
    exists R S H Bs, operator_of f g fr R /\ operator_of f g fs S /\ createH f None = Ok H /\ dihedral_pair 2 N R S /\
      d2_projectors svd R S = Ok Bs /\ length Bs = 4%nat /\ symmetry_sectors N [R; S] Bs /\ block_diagonal Bs H.
  Proof using All.
    intros X1 Y1 FR FS SV. assert (X0 : (1 <= nx)%Z) by lia. assert (two : (2 <= nx * ny)%Z) by nia.
    assert (KR : keeps nx ny o1 o2 (half_turn nx ny)) by (repeat split; cbn; intros; try discriminate; reflexivity).
    assert (KS : keeps nx ny o1 o2 (mirror nx)) by (repeat split; cbn; intros; try discriminate; reflexivity).
    assert (MR : moves_some nx ny (half_turn nx ny)).
    { exists 0%Z, 0%Z. split; [lia|]. split; [lia|]. replace (move_z (half_turn nx ny) (0, 0)%Z) with (nx - 1, ny - 1)%Z by reflexivity. rewrite !spot_small by lia. nia. }
    assert (MS : moves_some nx ny (mirror nx)).
    { exists 0%Z, 0%Z. split; [lia|]. split; [lia|]. replace (move_z (mirror nx) (0, 0)%Z) with (nx - 1, 0)%Z by reflexivity. rewrite !spot_small by lia. nia. }
    destruct (operator nx ny o1 o2 g u w t v mu m f X0 Y1 X2 Y2 LG made species m1 two _ fr KR FR MR) as (R & H & OR & GR & EH & SQ & CR).
    destruct (operator nx ny o1 o2 g u w t v mu m f X0 Y1 X2 Y2 LG made species m1 two _ fs KS FS MS) as (S & H' & OS & GS & EH' & _ & CS).
    assert (H' = H) by congruence. subst H'.
    assert (DP : dihedral_pair 2 N R S).
    { split; [apply (good_signed _ _ _ (two_states f) GR)|]. split; [apply (good_signed _ _ _ (two_states f) GS)|].
      split; [|split].
      - apply (power_one nx ny o1 o2 g u w t v mu m f X0 Y1 X2 Y2 LG made _ R 2 KR GR). intros [x y]. apply congr_eq; try assumption. mv; f_equal; lia.
      - apply (power_one nx ny o1 o2 g u w t v mu m f X0 Y1 X2 Y2 LG made _ S 2 KS GS). intros [x y]. apply congr_eq; try assumption. mv; f_equal; lia.
      - apply (relation nx ny o1 o2 g u w t v mu m f X0 Y1 X2 Y2 LG made _ _ _ (2 - 1) _ S R R S KS KR KR KS GS GR GR GS). intros [x y]. apply congr_eq; try assumption. mv; f_equal; lia. }
    destruct (d2_ok N R S svd SV DP) as (Bs & E & LB & SS & _). exists R, S, H, Bs. repeat (split; [assumption|]). destruct SS as (_ & BD & _). apply BD; [exact SQ|].
    intros A [<- | [<- | [] ] ]; assumption.
  Qed.
  (** A square: quarter turn and reflection. *)
  Theorem square_group fr fs svd : (2 <= nx)%Z -> ny = nx -> o2 = o1 ->
    gives nx ny g (quarter_turn nx) fr -> gives nx ny g (mirror nx) fs -> (forall A, row_basis A (svd A)) ->
    exists R S H Bs, operator_of f g fr R /\ operator_of f g fs S /\ createH f None = Ok H /\ dihedral_pair 4 N R S /\
      d4_projectors svd R S = Ok Bs /\ length Bs = 5%nat /\ symmetry_sectors N [R; S] Bs /\ block_diagonal Bs H.
  Proof using All.
    intros X1 EN EO FR FS SV. assert (X0 : (1 <= nx)%Z) by lia. assert (Y1 : (1 <= ny)%Z) by lia. assert (two : (2 <= nx * ny)%Z) by nia.
    assert (KR : keeps nx ny o1 o2 (quarter_turn nx)) by (repeat split; cbn; intros; congruence || lia).
    assert (KS : keeps nx ny o1 o2 (mirror nx)) by (repeat split; cbn; intros; try discriminate; reflexivity).
    assert (MR : moves_some nx ny (quarter_turn nx)).
    { exists 0%Z, 0%Z. split; [lia|]. split; [lia|]. replace (move_z (quarter_turn nx) (0, 0)%Z) with (nx - 1, 0)%Z by reflexivity. rewrite !spot_small by lia. nia. }
    assert (MS : moves_some nx ny (mirror nx)).
    { exists 0%Z, 0%Z. split; [lia|]. split; [lia|]. replace (move_z (mirror nx) (0, 0)%Z) with (nx - 1, 0)%Z by reflexivity. rewrite !spot_small by lia. nia. }
    destruct (operator nx ny o1 o2 g u w t v mu m f X0 Y1 X2 Y2 LG made species m1 two _ fr KR FR MR) as (R & H & OR & GR & EH & SQ & CR).
    destruct (operator nx ny o1 o2 g u w t v mu m f X0 Y1 X2 Y2 LG made species m1 two _ fs KS FS MS) as (S & H' & OS & GS & EH' & _ & CS).
    assert (H' = H) by congruence. subst H'.
    assert (DP : dihedral_pair 4 N R S).
    { split; [apply (good_signed _ _ _ (two_states f) GR)|]. split; [apply (good_signed _ _ _ (two_states f) GS)|].
      split; [|split].
      - apply (power_one nx ny o1 o2 g u w t v mu m f X0 Y1 X2 Y2 LG made _ R 4 KR GR). intros [x y]. apply congr_eq; try assumption. mv; f_equal; lia.
      - apply (power_one nx ny o1 o2 g u w t v mu m f X0 Y1 X2 Y2 LG made _ S 2 KS GS). intros [x y]. apply congr_eq; try assumption. mv; f_equal; lia.
      - apply (relation nx ny o1 o2 g u w t v mu m f X0 Y1 X2 Y2 LG made _ _ _ (4 - 1) _ S R R S KS KR KR KS GS GR GR GS). intros [x y]. apply congr_eq; try assumption. mv; f_equal; lia. }
    destruct (d4_ok N R S svd SV DP) as (Bs & E & LB & SS & _). exists R, S, H, Bs. repeat (split; [assumption|]). destruct SS as (_ & BD & _). apply BD; [exact SQ|].
    intros A [<- | [<- | [] ] ]; assumption.
  Qed.
  (** The torus of 3 x 3 sites. *)
  Theorem torus (ccw : bool) fr fs fx fy : nx = 3%Z -> ny = 3%Z -> o1 = false -> o2 = false ->
    gives nx ny g (if ccw then quarter_turn 3 else back_turn 3) fr -> gives nx ny g (mirror 3) fs -> gives nx ny g (shift 1 0) fx -> gives nx ny g (shift 0 1) fy ->
    exists R S X Y H, operator_of f g fr R /\ operator_of f g fs S /\ operator_of f g fx X /\ operator_of f g fy Y /\
      createH f None = Ok H /\ square N H /\ torus_group ccw N R S X Y /\ forall A, In A [X; Y; R; S] -> meq (mmul A H) (mmul H A).
  Proof using All.
    intros EX EY EO1 EO2 FR FS FX FY. assert (X0 : (1 <= nx)%Z) by lia. assert (Y1 : (1 <= ny)%Z) by lia. assert (two : (2 <= nx * ny)%Z) by nia.
    set (MQ := if ccw then quarter_turn 3 else back_turn 3) in *.
    assert (KA : forall M, keeps nx ny o1 o2 M) by (intros M; repeat split; congruence).
    assert (MR : moves_some nx ny MQ) by (exists 0%Z, 0%Z; split; [lia|]; split; [lia|]; unfold MQ; rewrite EX, EY; destruct ccw; vm_compute; discriminate).
    assert (MS : moves_some nx ny (mirror 3)) by (exists 0%Z, 0%Z; split; [lia|]; split; [lia|]; rewrite EX, EY; vm_compute; discriminate).
    assert (MX : moves_some nx ny (shift 1 0)) by (exists 0%Z, 0%Z; split; [lia|]; split; [lia|]; rewrite EX, EY; vm_compute; discriminate).
    assert (MY : moves_some nx ny (shift 0 1)) by (exists 0%Z, 0%Z; split; [lia|]; split; [lia|]; rewrite EX, EY; vm_compute; discriminate).
    destruct (operator nx ny o1 o2 g u w t v mu m f X0 Y1 X2 Y2 LG made species m1 two _ fr (KA _) FR MR) as (R & H & OR & GR & EH & SQ & CR).
    destruct (operator nx ny o1 o2 g u w t v mu m f X0 Y1 X2 Y2 LG made species m1 two _ fs (KA _) FS MS) as (S & H' & OS & GS & EH' & _ & CS).
    assert (H' = H) by congruence. subst H'.
    destruct (operator nx ny o1 o2 g u w t v mu m f X0 Y1 X2 Y2 LG made species m1 two _ fx (KA _) FX MX) as (X & H' & OX & GX & EH1 & _ & CX).
    assert (H' = H) by congruence. subst H'.
    destruct (operator nx ny o1 o2 g u w t v mu m f X0 Y1 X2 Y2 LG made species m1 two _ fy (KA _) FY MY) as (Y & H' & OY & GY & EH2 & _ & CY).
    assert (H' = H) by congruence. subst H'.
    assert (PW : forall M A k, goodm (f_sys f) A (fun _ => image nx ny M) -> (forall z, congr nx ny (iter (move_z M) k z) z) -> meq (mpow N A k) (meye N))
      by (intros M A k GA C; exact (power_one nx ny o1 o2 g u w t v mu m f X0 Y1 X2 Y2 LG made M A k (KA M) GA C)).
    assert (RL : forall MA MB MC k MD A B C D, goodm (f_sys f) A (fun _ => image nx ny MA) -> goodm (f_sys f) B (fun _ => image nx ny MB) ->
      goodm (f_sys f) C (fun _ => image nx ny MC) -> goodm (f_sys f) D (fun _ => image nx ny MD) ->
      (forall z, congr nx ny (move_z MA (move_z MB z)) (iter (move_z MC) k (move_z MD z))) -> meq (mmul A B) (mmul (mpow N C k) D))
      by (intros MA MB MC k MD A B C D GA GB GC GD E; exact (relation nx ny o1 o2 g u w t v mu m f X0 Y1 X2 Y2 LG made MA MB MC k MD A B C D (KA _) (KA _) (KA _) (KA _) GA GB GC GD E)).
    assert (R1 : forall MA MB MC MD A B C D, goodm (f_sys f) A (fun _ => image nx ny MA) -> goodm (f_sys f) B (fun _ => image nx ny MB) ->
      goodm (f_sys f) C (fun _ => image nx ny MC) -> goodm (f_sys f) D (fun _ => image nx ny MD) ->
      (forall z, congr nx ny (move_z MA (move_z MB z)) (move_z MC (move_z MD z))) -> meq (mmul A B) (mmul C D))
      by (intros MA MB MC MD A B C D GA GB GC GD E; exact (relation1 nx ny o1 o2 g u w t v mu m f X0 Y1 X2 Y2 LG made MA MB MC MD A B C D (KA _) (KA _) (KA _) (KA _) GA GB GC GD E)).
    exists R, S, X, Y, H. do 6 (split; [assumption|]). split; [|intros A [<- | [<- | [<- | [<- | [] ] ] ] ]; assumption].
    assert (ME : forall a b : Z * Z, (fst a = fst b)%Z -> (snd a = snd b)%Z -> congr nx ny a b) by (intros a b A B; apply (congr_by _ _ _ _ 0 0); try assumption; lia).
    assert (SG : forall A p, goodm (f_sys f) A p -> signed N A) by (intros A p GA; exact (good_signed _ _ _ (two_states f) GA)).
    split; [split; [exact (SG _ _ GR)|split; [exact (SG _ _ GS)|split; [|split]]]|].
    - apply (PW MQ R 4%nat GR). intros [x y]. apply ME; unfold MQ; destruct ccw; mv; lia.
    - apply (PW (mirror 3) S 2%nat GS). intros [x y]. apply ME; mv; lia.
    - apply (RL _ _ MQ (4 - 1)%nat _ S R R S GS GR GR GS). intros [x y]. apply ME; unfold MQ; destruct ccw; mv; lia.
    - split; [exact (SG _ _ GX)|]. split; [exact (SG _ _ GY)|]. split; [|split; [|split; [|split; [|split]]]].
      + apply (PW (shift 1 0) X 3%nat GX). intros [x y]. apply (congr_by _ _ _ _ 1 0); try assumption; mv; lia.
      + apply (PW (shift 0 1) Y 3%nat GY). intros [x y]. apply (congr_by _ _ _ _ 0 1); try assumption; mv; lia.
      + apply (R1 _ _ _ _ Y X X Y GY GX GX GY). intros [x y]. apply ME; mv; lia.
      + apply (RL _ _ (shift 1 0) 2%nat _ S X X S GS GX GX GS). intros [x y]. apply (congr_by _ _ _ _ (-1) 0); try assumption; mv; lia.
      + apply (R1 _ _ _ _ S Y Y S GS GY GY GS). intros [x y]. apply ME; mv; lia.
      + unfold MQ in *. destruct ccw; split.
        * apply (R1 _ _ _ _ R X Y R GR GX GY GR). intros [x y]. apply ME; mv; lia.
        * apply (RL _ _ (shift 1 0) 2%nat _ R Y X R GR GY GX GR). intros [x y]. apply (congr_by _ _ _ _ (-1) 0); try assumption; mv; lia.
        * apply (RL _ _ (shift 0 1) 2%nat _ R X Y R GR GX GY GR). intros [x y]. apply (congr_by _ _ _ _ 0 (-1)); try assumption; mv; lia.
        * apply (R1 _ _ _ _ R Y X R GR GY GX GR). intros [x y]. apply ME; mv; lia.
  Qed.
End Groups.

Section Torus.
  Variables (g : geometry CR) (u w : R) (t v mu : nat -> R) (m : nat) (f : fermions CR).
  Hypothesis LG : c_square_geometry 3 3 0 0 false false = Ok g.
  Hypothesis made : fermions_init (fgeom_of g) (number u) (numbers m t) None (numbers m mu) (number w) (numbers m v) m = Ok f.
  Hypothesis species : (2 <= m)%nat \/ u = 0.
  Hypothesis m1 : (1 <= m)%nat.
  Notation N := (nstates (f_sys f)).
  Theorem torus_sectors (ccw : bool) fr fs fx fy svd : 
    gives 3 3 g (if ccw then quarter_turn 3 else back_turn 3) fr -> gives 3 3 g (mirror 3) fs -> gives 3 3 g (shift 1 0) fx -> gives 3 3 g (shift 0 1) fy ->
    (forall A, row_basis A (svd A)) ->
    exists R S X Y H Bs, operator_of f g fr R /\ operator_of f g fs S /\ operator_of f g fx X /\ operator_of f g fy Y /\
      createH f None = Ok H /\ torus_group ccw N R S X Y /\ torus_projectors svd R S X Y = Ok Bs /\ length Bs = 9%nat /\ splits N Bs /\ block_diagonal Bs H /\
      (ccw = false -> symmetry_sectors N [X; Y; R; S] Bs).
  Proof using All.
    intros FR FS FX FY SV.
    destruct (torus 3 3 false false g u w t v mu m f ltac:(lia) ltac:(lia) LG made species m1 ccw fr fs fx fy eq_refl eq_refl eq_refl eq_refl FR FS FX FY)
      as (R & S & X & Y & H & OR & OS & OX & OY & EH & SQ & TG & CO).
    destruct ccw.
    - destruct (torus_ccw_partial N R S X Y svd SV TG) as (Bs & E & LB & SP & BD). exists R, S, X, Y, H, Bs. do 10 (split; [first [assumption | exact (BD H SQ CO)]|]). discriminate.
    - destruct (torus_cw_ok N R S X Y svd SV TG) as (Bs & E & LB & SS & _). exists R, S, X, Y, H, Bs.
      do 10 (split; [first [assumption | exact (proj1 SS) | exact (proj1 (proj2 SS) H SQ CO)]|]). intros _. exact SS.
  Qed.
End Torus.

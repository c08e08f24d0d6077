(** Concrete cases that meet the hypotheses of C126..C129. *)
From Coq Require Import List Arith Lia Reals Lra ZArith QArith Qabs Bool Permutation.
From Verif Require Import Scalars Res Matrix SpecMat ModelBase ModelFermions ModelGeometry ModelPhase ModelSymmetry SpecGeometry SpecSites ModelSites SpecPerm
  ModelThermal SpecThermal SpecFermiGas ModelFreeLattice SpecFreeLattice SpecSymmetry SymGram GeoSquare GeoTotal SpecSpace SpaceMaps SpaceSites SpaceHubbard SpaceGroup SpaceReal SpaceExist SpaceFinal.
Import ListNotations.
Local Open Scope R_scope.

Lemma exact_gives nx ny ph1 ph2 o1 o2 g M : (1 <= nx)%Z -> (1 <= ny)%Z -> (2 * nx <= 100000000000000)%Z -> (2 * ny <= 100000000000000)%Z ->
  c_square_geometry nx ny ph1 ph2 o1 o2 = Ok g -> gives nx ny g M (move M).
Proof.
  intros X1 Y1 X2 Y2 LG i Hi. apply same_near. exact (exact_site phase_matrix valid_phases nx ny ph1 ph2 o1 o2 g M X1 Y1 X2 Y2 LG i Hi).
Qed.

(** C126: the sites of a ring of four, moved on by one, and of a square of two by
    two, turned by a quarter; the sites are numbered along the second axis first. *)
Definition any_phase (L : lattice) (n : nat) (xd yd : nat -> nat -> Q) : mat unit := Mat n n (fun _ _ => tt).
Definition any_valid (n : nat) (A : mat unit) : bool := true.
Definition cycles_on (nx ny : Z) (o1 o2 : bool) (fn : vec -> vec) :=
  g <- square_geometry any_phase any_valid nx ny 0 0 o1 o2 ;; find_site_cycles fn g.
Example ex_cycle : cycles_on 4 1 false true (move (shift 1 0)) = Ok ([[0; 1; 2; 3]%nat], 4%nat).
Proof. vm_compute. reflexivity. Qed.
Example ex_turn : cycles_on 2 2 true true (move (quarter_turn 2)) = Ok ([[0; 2; 3; 1]%nat], 4%nat).
Proof. vm_compute. reflexivity. Qed.
(** A map with an error of 10^-15 is accepted; on a ring with an even number of
    sites an error of 10^-13 is not, although the tolerance is 10^-10. *)
Definition off (e : Q) (v : vec) : vec := (fst v + 1 - e, snd v)%Q.
Example ex_rounded : cycles_on 4 1 false true (off (1 # 1000000000000000)) = Ok ([[0; 1; 2; 3]%nat], 4%nat) /\
  cycles_on 4 1 false true (off (1 # 10000000000000)) = Raise GenericException.
Proof. split; vm_compute; reflexivity. Qed.
Example ex_off_gives : exists g, c_square_geometry 4 1 0 0 false true = Ok g /\ gives 4 1 g (shift 1 0) (off (1 # 1000000000000000)).
Proof.
  destruct (square_total 4 1 0 0 false true ltac:(lia) ltac:(lia) ltac:(lia) ltac:(lia) ltac:(discriminate) ltac:(reflexivity)) as (g & LG). exists g. split; [exact LG|].
  intros i Hi. destruct (coords_ok phase_matrix valid_phases 4 1 0 0 false true g ltac:(lia) ltac:(lia) ltac:(lia) ltac:(lia) LG) as [_ CO]. destruct (CO i Hi) as [A B].
  unfold near_point, off, move, shift, turned, signed_q. cbn [m_swap m_sx m_sy m_a m_b fst snd]. rewrite A, B. split.
  - setoid_replace (inject_Z (site_x 1 i) + 1 - (1 # 1000000000000000) - (inject_Z (site_x 1 i) + inject_Z 1))%Q with (- (1 # 1000000000000000))%Q by (change (inject_Z 1) with 1%Q; ring). reflexivity.
  - setoid_replace (inject_Z (site_y 1 i) - (inject_Z (site_y 1 i) + inject_Z 0))%Q with 0%Q by (change (inject_Z 0) with 0%Q; ring). reflexivity.
Qed.

(** C127: a ring of four sites with two species and a repulsion of eight; all four
    sectors of the translation hold states. *)
Example ex_ring_sectors svd : exists f H Bs, fg_nsites (f_geom f) = 4%nat /\ f_nspecies f = 2%nat /\ createH f None = Ok H /\
  length Bs = 4%nat /\ splits (nstates (f_sys f)) Bs /\ block_diagonal Bs H /\ (forall k, (k < 4)%nat -> (0 < nrow (nth k Bs (mzero 0 0)))%nat) /\
  exists T, zn_projectors svd T 4 = Ok Bs /\ signed (nstates (f_sys f)) T /\ meq (mmul T H) (mmul H T).
Proof.
  destruct (hubbard_exists 4 1 false true 8 0 (fun _ => 1) (fun _ => 0) (fun _ => 2) 2 ltac:(lia) ltac:(lia) ltac:(lia) ltac:(lia) ltac:(discriminate) ltac:(reflexivity)) as (g & f & LG & made).
  destruct (sectors_of_motion 4 1 false true g 8 0 (fun _ => 1) (fun _ => 0) (fun _ => 2) 2 f ltac:(lia) ltac:(lia) ltac:(lia) ltac:(lia) LG made (or_introl (le_n 2)) ltac:(lia) ltac:(lia)
    (shift 1 0) (move (shift 1 0))) with (svd := svd) as (cs & ord & T & H & Bs & EC & CP & ET & SG & PO & EH & CO & EB & LB & SP & AA & FI & BD & _).
  - unfold keeps, shift; cbn [m_swap m_sx m_sy m_a m_b]; split; [discriminate|]; split; [discriminate | reflexivity].
  - exact (exact_gives 4 1 0 0 false true g _ ltac:(lia) ltac:(lia) ltac:(lia) ltac:(lia) LG).
  - exists 0%Z, 0%Z. vm_compute. intuition discriminate.
  - destruct (cycles_of_motion 4 1 0 0 false true g (shift 1 0) (move (shift 1 0))) as (cs' & m' & EC' & CP' & _ & MB & MO & MM & _); [lia|lia|lia|lia|exact LG|lia| | |].
    + unfold keeps, shift; cbn [m_swap m_sx m_sy m_a m_b]; split; [discriminate|]; split; [discriminate | reflexivity].
    + exact (exact_gives 4 1 0 0 false true g _ ltac:(lia) ltac:(lia) ltac:(lia) ltac:(lia) LG).
    + rewrite EC in EC'. injection EC' as <- <-.
      assert (OR : ord = 4%nat).
      { change (Z.to_nat (4 * 1)) with 4%nat in *. assert (P : cycles_perm cs 0 = 1%nat /\ cycles_perm cs 1 = 2%nat /\ cycles_perm cs 2 = 3%nat).
        { rewrite !CP by lia. vm_compute. tauto. }
        destruct P as (P0 & P1 & P2). specialize (MO 0%nat ltac:(lia)).
        destruct ord as [|[|[|[|[|o]]]]]; try lia; exfalso; cbn [iter] in MO; rewrite ?P0, ?P1, ?P2 in MO; discriminate. }
      rewrite OR in *. exists f, H, Bs.
      assert (FF : fg_nsites (f_geom f) = 4%nat /\ f_nspecies f = 2%nat).
      { pose proof (sys_eq 4 1 false true g 8 0 (fun _ => 1) (fun _ => 0) (fun _ => 2) 2 f ltac:(lia) ltac:(lia) ltac:(lia) ltac:(lia) LG made) as SE.
        split; [exact (f_equal s_nsites SE) | exact (f_equal s_nspecies SE)]. }
      destruct FF as [F1 F2]. split; [exact F1|]. split; [exact F2|]. split; [exact EH|]. split; [exact LB|]. split; [exact SP|]. split; [exact BD|]. split; [exact FI|]. exists T. split; [exact EB|]. split; [exact SG | exact CO].
Qed.
(** C129: the three by three torus with two species. *)
Example ex_torus : exists f g fr fs fx fy svd, c_square_geometry 3 3 0 0 false false = Ok g /\
  fermions_init (fgeom_of g) (number 8) (numbers 2 (fun _ => 1)) None (numbers 2 (fun _ => 4)) (number 0) (numbers 2 (fun _ => 0)) 2 = Ok f /\
  gives 3 3 g (back_turn 3) fr /\ gives 3 3 g (mirror 3) fs /\ gives 3 3 g (shift 1 0) fx /\ gives 3 3 g (shift 0 1) fy /\ (forall A, row_basis A (svd A)).
Proof.
  destruct (hubbard_exists 3 3 false false 8 0 (fun _ => 1) (fun _ => 0) (fun _ => 4) 2 ltac:(lia) ltac:(lia) ltac:(lia) ltac:(lia) ltac:(discriminate) ltac:(discriminate)) as (g & f & LG & made).
  exists f, g, (move (back_turn 3)), (move (mirror 3)), (move (shift 1 0)), (move (shift 0 1)), gram_schmidt.
  split; [exact LG|]. split; [exact made|]. repeat (split; [exact (exact_gives 3 3 0 0 false false g _ ltac:(lia) ltac:(lia) ltac:(lia) ltac:(lia) LG)|]). exact gram_schmidt_ok.
Qed.
(** C129: open lattices of three by two and of two by two sites. *)
Example ex_rectangle : exists f g fr fs, c_square_geometry 3 2 0 0 true true = Ok g /\
  fermions_init (fgeom_of g) (number 8) (numbers 2 (fun _ => 1)) None (numbers 2 (fun _ => 4)) (number 0) (numbers 2 (fun _ => 0)) 2 = Ok f /\
  gives 3 2 g (half_turn 3 2) fr /\ gives 3 2 g (mirror 3) fs.
Proof.
  destruct (hubbard_exists 3 2 true true 8 0 (fun _ => 1) (fun _ => 0) (fun _ => 4) 2 ltac:(lia) ltac:(lia) ltac:(lia) ltac:(lia) ltac:(reflexivity) ltac:(reflexivity)) as (g & f & LG & made).
  exists f, g, (move (half_turn 3 2)), (move (mirror 3)). split; [exact LG|]. split; [exact made|]. split; exact (exact_gives 3 2 0 0 true true g _ ltac:(lia) ltac:(lia) ltac:(lia) ltac:(lia) LG).
Qed.
Example ex_square : exists f g fr fs, c_square_geometry 2 2 0 0 true true = Ok g /\
  fermions_init (fgeom_of g) (number 8) (numbers 2 (fun _ => 1)) None (numbers 2 (fun _ => 4)) (number 0) (numbers 2 (fun _ => 0)) 2 = Ok f /\
  gives 2 2 g (quarter_turn 2) fr /\ gives 2 2 g (mirror 2) fs.
Proof.
  destruct (hubbard_exists 2 2 true true 8 0 (fun _ => 1) (fun _ => 0) (fun _ => 4) 2 ltac:(lia) ltac:(lia) ltac:(lia) ltac:(lia) ltac:(reflexivity) ltac:(reflexivity)) as (g & f & LG & made).
  exists f, g, (move (quarter_turn 2)), (move (mirror 2)). split; [exact LG|]. split; [exact made|]. split; exact (exact_gives 2 2 0 0 true true g _ ltac:(lia) ltac:(lia) ltac:(lia) ltac:(lia) LG).
Qed.

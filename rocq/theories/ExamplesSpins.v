(** Concrete non-trivial cases meeting the hypotheses of C23..C30, C66..C72. *)
From Coq Require Import List Arith Lia Bool QArith Qcanon Reals Qreals Lra.
From Verif Require Import Scalars Res Matrix ModelBase ModelSpins SpecSpins SpecPerm SpecMat OpsProofs
  SpinSwap SpinAlg SpinHam SpinApi RefuteFermions RefuteSpins PropertiesSpins ExamplesFermions.
Import ListNotations.
Local Open Scope nat_scope.

Definition sp3 := Sys 3 1 2.

Example C23_ex : is_table (sp_swap_op (Sys 2 1 2) 0 1 0) [[1;0;0;0]; [0;0;1;0]; [0;1;0;0]; [0;0;0;1]]%Z = true.
Proof. vm_compute. reflexivity. Qed.
Example C23_hyp : exists S : mat GQ, sp_swap_op sp3 2 0 0 = Ok S /\
  meq S (carry_mat 2 3 (exchange 2 0)) /\ meq (madj S) S /\ meq (mmul S S) (meye 8).
Proof. apply (C23_spin_swap GQ GQ_StarRing sp3 2 0); cbn; try reflexivity; lia. Qed.

Example C24_ex : is_table (sp_swap_op (Sys 2 1 2) 1 1 0) [[2;0;0;0]; [0;2;0;0]; [0;0;2;0]; [0;0;0;2]]%Z = true.
Proof. vm_compute. reflexivity. Qed.

(** The real square root makes [roots_ok] true for every spin. *)
Definition rtR (n : nat) : CR := (sqrt (INR n), 0%R).
Lemma rtR_ok two : roots_ok rtR two.
Proof.
  intros i _. generalize ((i + 1) * (two - i)). intros m. unfold rtR. split.
  - assert (E : kofnat (K:=CR) m = (INR m, 0%R)).
    { unfold kofnat. change (cr_Q (inject_Z (Z.of_nat m)) = (INR m, 0%R)). unfold cr_Q, Q2R, inject_Z. cbn [Qnum Qden].
      rewrite INR_IZR_INZ. f_equal. field. }
    rewrite E. change (cr_mul (sqrt (INR m), 0%R) (sqrt (INR m), 0%R) = (INR m, 0%R)). unfold cr_mul. cbn [fst snd].
    rewrite sqrt_sqrt by apply pos_INR. f_equal; ring.
  - change (cr_conj (sqrt (INR m), 0%R) = (sqrt (INR m), 0%R)). unfold cr_conj. cbn [fst snd]. f_equal. ring.
Qed.
Example C25_spin_one :
  meq (msub (mmul (sx_op rtR 2) (sy_op rtR 2)) (mmul (sy_op rtR 2) (sx_op rtR 2))) (mscale (kopp ki) (sz_op (K:=CR) 2)) /\
  ~ meq (msub (mmul (sx_op rtR 2) (sy_op rtR 2)) (mmul (sy_op rtR 2) (sx_op rtR 2))) (mscale ki (sz_op (K:=CR) 2)).
Proof.
  split; [apply (C25_spin_commutators_partial CR CR_StarRing rtR 2 (rtR_ok 2))|].
  apply (C25_spin_algebra_refuted CR CR_StarRing rtR 2 (rtR_ok 2)). discriminate.
Qed.
Example C25_half : is_table (Ok (mscale (kofnat 2) (sz_op 1))) [[1;0]; [0;-1]]%Z = true /\
  is_table (Ok (mscale (kmul ki (kofnat 2)) (sy_op rt1 1))) [[0;-1]; [1;0]]%Z = true.
Proof. vm_compute. auto. Qed.

(** Three spins in a chain, anisotropic couplings and a transverse field. *)
Definition chain3 : sgeom GQ :=
  SGeom 3 (fun i j => (i =? S j) || (j =? S i)) (fun _ _ => k1).
Definition build (jx jy jz : coupling GQ) hx hy hz ryd two : res (spins GQ) :=
  spins_init no_imag chain3 jx jy jz hx hy hz ryd two.
Definition sp_xyz : spins GQ :=
  Spins chain3 1 (fun i j => kmul (zz 1) (kb (sg_adj chain3 i j))) (fun i j => kmul (zz 2) (kb (sg_adj chain3 i j)))
    (fun i j => kmul (zz 4) (kb (sg_adj chain3 i j))) (fun _ => zz 2) (fun _ => k0) (fun i => zz (2 * Z.of_nat i)).
Example build_ex : is_ok (build (JNum (zz 1)) (JNum (zz 2)) (JNum (zz 4)) (HNum (zz 2)) (HNum k0) (HArr [k0; zz 2; zz 4]) true 1) = true
  /\ is_ok (build (JArr1 [k1; k1; k1]) (JNum k0) (JNum k0) (HNum k0) (HNum k0) (HNum k0) false 1) = false.
Proof. vm_compute. auto. Qed.
Example C26_hyp : exists H, sp_createH rt1 sp_xyz None = Ok H /\
  meq H (pauli_hamiltonian 3 (sp_jx sp_xyz) (sp_jy sp_xyz) (sp_jz sp_xyz) (sp_hx sp_xyz) (sp_hy sp_xyz) (sp_hz sp_xyz)).
Proof. apply (C26_documented_spin_model_partial GQ GQ_StarRing rt1 sp_xyz); reflexivity. Qed.
(** [<up up up| H |up up up> = (4+4)/2 - (0+2+4)/2 = 1] and a spin-flip element. *)
Example C26_ex : geqb (probe (sp_createH rt1 sp_xyz None) 0 0) (zz 1) = true /\
  geqb (probe (sp_createH rt1 sp_xyz None) 0 1) (zz (-1)) = true /\
  geqb (probe (sp_createH rt1 sp_xyz None) 1 2) (gq_Q (3 # 2)) = true.
Proof. vm_compute. auto. Qed.
Example C27_hyp : exists H, sp_createH rt1 sp_xyz None = Ok H /\ square 8 H /\ meq (madj H) H.
Proof.
  apply (C27_real_spin_hamiltonian_partial GQ GQ_StarRing rt1 sp_xyz None); try reflexivity.
  - exact rt1_ok.
  - intros i j _ _. cbn [sp_jx sp_jy sp_jz sp_xyz]. rewrite !kconj_mul, !kb_conj. splits; f_equal; exact (kQ_conj (K:=GQ) _).
  - intros i _. cbn [sp_hx sp_hy sp_hz sp_xyz]. splits; [exact (kQ_conj (K:=GQ) _)|apply kconj_0|exact (kQ_conj (K:=GQ) _)].
  - left. reflexivity.
Qed.

(** XXZ chain of three spins in a field along z; transverse field Ising chain. *)
Definition sp_xxz : spins GQ :=
  Spins chain3 1 (fun i j => kb (sg_adj chain3 i j)) (fun i j => kb (sg_adj chain3 i j))
    (fun i j => kmul (zz 3) (kb (sg_adj chain3 i j))) (fun _ => k0) (fun _ => k0) (fun i => zz (Z.of_nat i)).
Example C28_hyp : exists H, sp_createH rt1 sp_xxz None = Ok H /\ square 8 H /\
  (forall a b, a < 8 -> b < 8 -> digit_sum 2 3 a <> digit_sum 2 3 b -> ent H a b = k0) /\
  (1 = 1 -> 3 <> 0 -> exists Sz, sum_op (Sys 3 1 2) (sz_op 1) 0 Boson = Ok Sz /\ meq (mmul Sz H) (mmul H Sz)).
Proof.
  apply (C28_magnetisation GQ GQ_StarRing rt1 sp_xxz); try (intros; reflexivity); try (intros; split; reflexivity).
  - exact rt1_ok.
  - left. reflexivity.
Qed.
Definition sp_tfi : spins GQ :=
  Spins chain3 1 (fun _ _ => k0) (fun _ _ => k0) (fun i j => kb (sg_adj chain3 i j)) (fun _ => zz 5) (fun _ => k0) (fun _ => k0).
Example C28_flip_hyp : exists H, sp_createH rt1 sp_tfi None = Ok H /\ square 8 H /\
  meq (mmul (swap_up_down (sp_sys sp_tfi)) H) (mmul H (swap_up_down (sp_sys sp_tfi))).
Proof.
  apply (C28_spin_flip GQ GQ_StarRing rt1 sp_tfi); [intros; split; reflexivity|left; reflexivity].
Qed.

Example C29_ex : is_table (Ok (swap_up_down (Sys 2 1 2))) [[0;0;0;1]; [0;0;1;0]; [0;1;0;0]; [1;0;0;0]]%Z = true /\
  map (sp_state_label 3 5) [0; 1; 2] = [0; 1; 0] /\ map (fun p => digit 2 3 p 5) [0; 1; 2] = [1; 0; 1].
Proof. vm_compute. auto. Qed.
Example C29_hyp : meq (allsite_op sp3 pauli_x) (swap_up_down (K:=GQ) sp3).
Proof. apply C29_flip_is_product; reflexivity. Qed.

(** Four sites: up-down-up-down is 5, the second "antiferromagnetic" state 11
    is down-up-down-down. *)
Example C30_ex : afm_indices 4 1 true = (5, 11) /\ map (fun p => digit 2 4 p 11) [0; 1; 2; 3] = [1; 0; 1; 1] /\
  afm_indices 3 3 true = (2, 6).
Proof. vm_compute. auto. Qed.

(** Two spins one. *)
Definition sp_one : spins CR :=
  Spins (SGeom 2 (fun i j => negb (i =? j)) (fun _ _ => k1)) 2 (fun _ _ => k1) (fun _ _ => k1) (fun _ _ => k1)
    (fun _ => k0) (fun _ => k0) (fun i => if i =? 1 then k1 else k0).
Example C66_hyp : exists H, sp_createH rtR sp_one None = Ok H /\ meq H (spin_hamiltonian rtR sp_one).
Proof.
  apply C66_any_spin. cbn. intros i Hi. replace i with 0 by lia. repeat split.
Qed.
Definition sp_one' : spins CR :=
  Spins (SGeom 2 (fun i j => negb (i =? j)) (fun _ _ => k1)) 2 (fun _ _ => k1) (fun _ _ => k1) (fun _ _ => k1)
    (fun _ => k0) (fun _ => k0) (fun _ => k1).
Example C66_raises : sp_createH rtR sp_one' None = Raise ValueError.
Proof.
  apply C66_higher_spin_field_refuted; [cbn; lia|]. exists 0. split; [cbn; lia|]. right. right. apply (k1_neq_0 (K:=CR)).
Qed.

(** Three atoms in a chain with interaction 2: neighbouring excitations cost
    4 each, and the constant is -2. *)
Example C67_ex :
  let r := build (JNum k0) (JNum k0) (JNum (zz 2)) (HNum k0) (HNum k0) (HNum k0) true 1 in
  map (fun a => negb (kneb (probe (s <- r ;; sp_createH rt1 s None) a a) (zz (nth a [6; 2; -2; -2; 2; -2; -2; -2]%Z 0%Z)))) (seq 0 8)
  = repeat true 8.
Proof. vm_compute. reflexivity. Qed.

Example C68_hyp : exists T : mat GQ, xform_op sp3 (sp_swap_op sp3) [[0; 1; 2]] = Ok (Some T) /\
  meq T (carry_mat 2 3 (cycles_perm [[0; 1; 2]])) /\ unitary_mat 8 T.
Proof.
  apply (C68_spin_site_permutation GQ GQ_StarRing sp3); try reflexivity.
  - split; [repeat constructor; cbn; lia|]. cbn. intros x [<-|[<-|[<-|[]]]]; lia.
  - exists [0; 1; 2]. cbn. auto.
Qed.

(** Reflection of the chain. *)
Example C69_hyp : forall T, xform_op (sp_sys sp_tfi) (sp_swap_op (sp_sys sp_tfi)) [[0; 2]; [1]] = Ok (Some T) ->
  exists H, sp_createH rt1 sp_tfi None = Ok H /\ meq (mmul T H) (mmul H T).
Proof.
  intros T ET. apply (C69_spin_symmetry_commutes GQ GQ_StarRing rt1 sp_tfi [[0; 2]; [1]] T); auto.
  - split; [repeat constructor; cbn; lia|]. cbn. intros x [<-|[<-|[<-|[]]]]; lia.
  - cbn [sp_tfi sp_geom chain3 sg_nsites]. intros i j Hi Hj.
    assert (Ci : i = 0 \/ i = 1 \/ i = 2) by lia. assert (Cj : j = 0 \/ j = 1 \/ j = 2) by lia.
    destruct Ci as [->|[->| ->]], Cj as [->|[->| ->]]; repeat split.
Qed.
Example C69_exists : is_ok (xform_op (K:=GQ) (sp_sys sp_tfi) (sp_swap_op (sp_sys sp_tfi)) [[0; 2]; [1]]) = true.
Proof. vm_compute. reflexivity. Qed.

(** Pairs (1,0), (2,0), (2,1); counting the neighbours only. *)
Example C71_ex : upper_pairs 3 = [(1, 0); (2, 0); (2, 1)] /\
  (let T := match npairs_op (K:=GQ) sp3 [true; false; true] with Ok (Some T) => T | _ => meye 1 end in
   map (fun a => negb (kneb (ent T a a) (zz (nth a [2; 1; 0; 0; 1; 0; 0; 0]%Z 0%Z)))) (seq 0 8) = repeat true 8).
Proof. vm_compute. auto. Qed.
Example C72_ex : symm_exc_rows 3 = [6; 5; 3] /\ fm_indices 3 = (0, 7).
Proof. vm_compute. auto. Qed.

(** Counterexamples to spin properties. *)
From Coq Require Import List Arith Lia Bool QArith Qcanon Ring.
From Verif Require Import Scalars Res Matrix ModelBase ModelSpins SpecSpins OpsProofs SpinAlg SpinApi RefuteFermions.
Import ListNotations.
Local Open Scope nat_scope.

(** [S^x S^y - S^y S^x = i S^z] fails for every non-zero spin, over every field. *)
Section Algebra.
  Context {K : Type} {SR : StarRing K}.
  Add Ring KringRS : (@k_ring K SR).
  Lemma spin_algebra_refuted rt two : roots_ok rt two -> two <> 0 ->
    ~ meq (msub (mmul (sx_op rt two) (sy_op rt two)) (mmul (sy_op rt two) (sx_op rt two))) (mscale ki (sz_op (K:=K) two)).
  Proof.
    intros HR Ht M. pose proof (comm_xy rt two HR) as C. unfold comm in C. rewrite M in C.
    destruct C as (_ & _ & C). specialize (C 0 0). cbn [nrow ncol mscale sz_op mdiag ent] in C. rewrite Nat.eqb_refl in C.
    assert (E := C ltac:(lia) ltac:(lia)). clear C M.
    set (z := ksub (kmul (kQ (1 # 2)) (kofnat two)) (kofnat 0)) in *.
    assert (E2 : kadd z z = k0 :> K).
    { transitivity (kmul (kopp ki) (kmul (kadd ki ki) z)).
      - transitivity (kmul (kopp (kmul ki ki)) (kadd z z)); [|ring]. rewrite ki_sq. ring.
      - transitivity (kmul (kopp ki) (kadd (kmul ki z) (kmul ki z))); [ring|]. rewrite E at 1. ring. }
    assert (E3 : kofnat two = k0 :> K).
    { transitivity (kmul (kadd (kQ (1 # 2)) (kQ (1 # 2))) (kofnat (K:=K) two)); [rewrite khalf2; ring|].
      rewrite <- E2. unfold z. rewrite kofnat_0. ring. }
    rewrite <- kofnat_0 in E3. apply kofnat_inj in E3. contradiction.
  Qed.

  Lemma half_roots : roots_ok (K:=K) (fun _ => k1) 1.
  Proof.
    intros i Hi. replace i with 0 by lia. change ((0 + 1) * (1 - 0)) with 1. rewrite kofnat_S, kofnat_0. split; [ring|apply kconj_1].
  Qed.
End Algebra.

Definition rt1 : nat -> GQ := fun _ => k1.
Lemma rt1_ok : roots_ok rt1 1.
Proof. exact half_roots. Qed.

(** One spin in a field along y. *)
Definition sg1 : sgeom GQ := SGeom 1 (fun _ _ => false) (fun _ _ => k1).
Definition no_imag : GQ -> bool := fun _ => false.
Definition run_spin (g : sgeom GQ) (j : coupling GQ) (hx hy hz : field GQ) : res (spins GQ) :=
  spins_init no_imag g j j j hx hy hz false 1.

Lemma documented_spin_refuted :
  exists (s : spins GQ) H, run_spin sg1 (JNum k0) (HNum k0) (HNum k1) (HNum k0) = Ok s /\
    sp_createH rt1 s None = Ok H /\
    ~ meq H (pauli_hamiltonian 1 (sp_jx s) (sp_jy s) (sp_jz s) (sp_hx s) (sp_hy s) (sp_hz s)).
Proof.
  set (r := run_spin sg1 (JNum k0) (HNum k0) (HNum k1) (HNum k0)).
  assert (X : is_ok (s <- r ;; sp_createH rt1 s None) = true) by (vm_compute; reflexivity).
  apply is_ok_ex in X as (H & X). pose proof X as Y. apply bind_ok in X as (s & E & EH).
  exists s, H. splits; auto. intros (_ & D2 & M).
  assert (Hd : (nrow H, ncol H) = (2, 2)).
  { transitivity (dims (s <- r ;; sp_createH rt1 s None)); [rewrite Y; reflexivity|vm_compute; reflexivity]. }
  injection Hd as Hr Hc. specialize (M 0 1 ltac:(lia) ltac:(lia)). revert M.
  assert (E1 : ent H 0 1 = probe (s <- r ;; sp_createH rt1 s None) 0 1) by (rewrite Y; reflexivity). rewrite E1.
  unfold r, run_spin, spins_init in E. cbn [interaction_mat field_mat bind] in E. injection E as <-.
  apply kneb_true. vm_compute. reflexivity.
Qed.

(** Two spins joined by a bond with phase [i]. *)
Definition sg2 (ph : GQ) : sgeom GQ :=
  SGeom 2 (fun i j => negb (i =? j)) (fun i j => if i <? j then ph else if j <? i then kconj ph else k1).

Lemma complex_spin_refuted :
  exists (s : spins GQ) H, run_spin (sg2 gi) (JNum k1) (HNum k0) (HNum k0) (HNum k0) = Ok s /\
    (forall i j, sg_phase (sg2 gi) j i = kconj (sg_phase (sg2 gi) i j)) /\
    sp_createH rt1 s None = Ok H /\ ~ meq (madj H) H.
Proof.
  set (r := run_spin (sg2 gi) (JNum k1) (HNum k0) (HNum k0) (HNum k0)).
  assert (X : is_ok (s <- r ;; sp_createH rt1 s None) = true) by (vm_compute; reflexivity).
  apply is_ok_ex in X as (H & X). pose proof X as Y. apply bind_ok in X as (s & E & EH).
  exists s, H. splits; auto.
  - intros i j. cbn [sg2 sg_phase]. destruct (Nat.ltb_spec i j), (Nat.ltb_spec j i); try lia.
    + reflexivity.
    + rewrite kconj_inv. reflexivity.
    + rewrite kconj_1. reflexivity.
  - intros (_ & _ & M).
    assert (Hd : (nrow H, ncol H) = (4, 4)).
    { transitivity (dims (s <- r ;; sp_createH rt1 s None)); [rewrite Y; reflexivity|vm_compute; reflexivity]. }
    injection Hd as Hr Hc. specialize (M 0 0). cbn [madj nrow ncol ent] in M. specialize (M ltac:(lia) ltac:(lia)). revert M.
    assert (E1 : ent H 0 0 = probe (s <- r ;; sp_createH rt1 s None) 0 0) by (rewrite Y; reflexivity). rewrite E1.
    apply kneb_true. vm_compute. reflexivity.
Qed.

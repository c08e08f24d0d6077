(** The 3x3 torus acting on its nine sites, site (x, y) having number 3x + y. *)
From Coq Require Import List Arith Lia ZArith Reals Lra Bool Ring Setoid Permutation.
From Verif Require Import Scalars Sums Res Matrix SpecMat ModelPhase ModelSymmetry SpecSymmetry
  SymBase SymReduce SymMany SymGroup SymTable SymZn SymWord SymNum SymGroups SymApi SymPerm.
Import ListNotations.
Local Open Scope nat_scope.

Add Ring CRring : (@k_ring CR CR_StarRing).

Definition move9 (l : list nat) (j : nat) : nat := nth j l 0.
Definition site9 (f : nat -> nat -> nat * nat) : list nat :=
  map (fun k => let r := f (k / 3) (k mod 3) in 3 * (fst r mod 3) + snd r mod 3) (seq 0 9).
Definition x9 := Eval vm_compute in site9 (fun x y => (x + 1, y)).
Definition x9i := Eval vm_compute in site9 (fun x y => (x + 2, y)).
Definition y9 := Eval vm_compute in site9 (fun x y => (x, y + 1)).
Definition y9i := Eval vm_compute in site9 (fun x y => (x, y + 2)).
(** Counterclockwise and clockwise quarter turns. *)
Definition l9 := Eval vm_compute in site9 (fun x y => (3 - y, x)).
Definition r9 := Eval vm_compute in site9 (fun x y => (y, 3 - x)).
(** The reflection which changes the sign of x. *)
Definition s9 := Eval vm_compute in site9 (fun x y => (3 - x, y)).
Definition op9 (l : list nat) : cmat := perm_mat 9 (move9 l).

Lemma below9 l : below_b 9 (move9 l) = true -> below 9 (move9 l).
Proof. apply below_ok. Qed.

Lemma mul_pow9 n f g k : below n f -> below n g -> meq (mmul (mpow n (perm_mat n f) k) (perm_mat n g)) (perm_mat n (fun j => piter f k (g j))).
Proof.
  intros Hf Hg. etransitivity; [apply mm; [apply perm_pow; exact Hf| |reflexivity]|].
  - destruct (perm_pow n f k Hf) as (_ & X & _). rewrite X. reflexivity.
  - apply perm_mul. exact Hg.
Qed.

Lemma torus9_ccw : torus_group true 9 (op9 l9) (op9 s9) (op9 x9) (op9 y9).
Proof.
  assert (Bl : below 9 (move9 l9)) by (apply below9; vm_compute; reflexivity).
  assert (Bs : below 9 (move9 s9)) by (apply below9; vm_compute; reflexivity).
  assert (Bx : below 9 (move9 x9)) by (apply below9; vm_compute; reflexivity).
  assert (By : below 9 (move9 y9)) by (apply below9; vm_compute; reflexivity).
  assert (Hpow : forall l k, below 9 (move9 l) -> same_b 9 (piter (move9 l) k) (fun j => j) = true -> meq (mpow 9 (op9 l) k) (meye 9)).
  { intros l k Hl E. etransitivity; [apply perm_pow; exact Hl|]. etransitivity; [apply perm_eq; exact E|apply perm_id]. }
  assert (Hmm : forall a b c d, below 9 (move9 b) -> below 9 (move9 d) ->
     same_b 9 (fun j => move9 a (move9 b j)) (fun j => move9 c (move9 d j)) = true -> meq (mmul (op9 a) (op9 b)) (mmul (op9 c) (op9 d))).
  { intros a b c d Hb Hd E. etransitivity; [apply perm_mul; exact Hb|]. symmetry. etransitivity; [apply perm_mul; exact Hd|].
    symmetry. apply perm_eq. exact E. }
  assert (Hmp : forall a b c k d, below 9 (move9 b) -> below 9 (move9 c) -> below 9 (move9 d) ->
     same_b 9 (fun j => move9 a (move9 b j)) (fun j => piter (move9 c) k (move9 d j)) = true ->
     meq (mmul (op9 a) (op9 b)) (mmul (mpow 9 (op9 c) k) (op9 d))).
  { intros a b c k d Hb Hc Hd E. etransitivity; [apply perm_mul; exact Hb|]. symmetry. etransitivity; [apply mul_pow9; assumption|].
    symmetry. apply perm_eq. exact E. }
  split; [split; [|split; [|split; [|split]]]|].
  - apply (perm_signed 9 (move9 l9) (move9 r9)); vm_compute; reflexivity.
  - apply (perm_signed 9 (move9 s9) (move9 s9)); vm_compute; reflexivity.
  - apply Hpow; [assumption|vm_compute; reflexivity].
  - apply Hpow; [assumption|vm_compute; reflexivity].
  - apply Hmp; try assumption; vm_compute; reflexivity.
  - split; [|split; [|split; [|split; [|split; [|split; [|split; [|split]]]]]]].
    + apply (perm_signed 9 (move9 x9) (move9 x9i)); vm_compute; reflexivity.
    + apply (perm_signed 9 (move9 y9) (move9 y9i)); vm_compute; reflexivity.
    + apply Hpow; [assumption|vm_compute; reflexivity].
    + apply Hpow; [assumption|vm_compute; reflexivity].
    + apply Hmm; try assumption; vm_compute; reflexivity.
    + apply Hmp; try assumption; vm_compute; reflexivity.
    + apply Hmm; try assumption; vm_compute; reflexivity.
    + apply Hmm; try assumption; vm_compute; reflexivity.
    + apply Hmp; try assumption; vm_compute; reflexivity.
Qed.

Lemma torus9_cw : torus_group false 9 (op9 r9) (op9 s9) (op9 x9) (op9 y9).
Proof.
  assert (Bl : below 9 (move9 r9)) by (apply below9; vm_compute; reflexivity).
  assert (Bs : below 9 (move9 s9)) by (apply below9; vm_compute; reflexivity).
  assert (Bx : below 9 (move9 x9)) by (apply below9; vm_compute; reflexivity).
  assert (By : below 9 (move9 y9)) by (apply below9; vm_compute; reflexivity).
  assert (Hpow : forall l k, below 9 (move9 l) -> same_b 9 (piter (move9 l) k) (fun j => j) = true -> meq (mpow 9 (op9 l) k) (meye 9)).
  { intros l k Hl E. etransitivity; [apply perm_pow; exact Hl|]. etransitivity; [apply perm_eq; exact E|apply perm_id]. }
  assert (Hmm : forall a b c d, below 9 (move9 b) -> below 9 (move9 d) ->
     same_b 9 (fun j => move9 a (move9 b j)) (fun j => move9 c (move9 d j)) = true -> meq (mmul (op9 a) (op9 b)) (mmul (op9 c) (op9 d))).
  { intros a b c d Hb Hd E. etransitivity; [apply perm_mul; exact Hb|]. symmetry. etransitivity; [apply perm_mul; exact Hd|].
    symmetry. apply perm_eq. exact E. }
  assert (Hmp : forall a b c k d, below 9 (move9 b) -> below 9 (move9 c) -> below 9 (move9 d) ->
     same_b 9 (fun j => move9 a (move9 b j)) (fun j => piter (move9 c) k (move9 d j)) = true ->
     meq (mmul (op9 a) (op9 b)) (mmul (mpow 9 (op9 c) k) (op9 d))).
  { intros a b c k d Hb Hc Hd E. etransitivity; [apply perm_mul; exact Hb|]. symmetry. etransitivity; [apply mul_pow9; assumption|].
    symmetry. apply perm_eq. exact E. }
  split; [split; [|split; [|split; [|split]]]|].
  - apply (perm_signed 9 (move9 r9) (move9 l9)); vm_compute; reflexivity.
  - apply (perm_signed 9 (move9 s9) (move9 s9)); vm_compute; reflexivity.
  - apply Hpow; [assumption|vm_compute; reflexivity].
  - apply Hpow; [assumption|vm_compute; reflexivity].
  - apply Hmp; try assumption; vm_compute; reflexivity.
  - split; [|split; [|split; [|split; [|split; [|split; [|split; [|split]]]]]]].
    + apply (perm_signed 9 (move9 x9) (move9 x9i)); vm_compute; reflexivity.
    + apply (perm_signed 9 (move9 y9) (move9 y9i)); vm_compute; reflexivity.
    + apply Hpow; [assumption|vm_compute; reflexivity].
    + apply Hpow; [assumption|vm_compute; reflexivity].
    + apply Hmm; try assumption; vm_compute; reflexivity.
    + apply Hmp; try assumption; vm_compute; reflexivity.
    + apply Hmm; try assumption; vm_compute; reflexivity.
    + apply Hmp; try assumption; vm_compute; reflexivity.
    + apply Hmm; try assumption; vm_compute; reflexivity.
Qed.

(** With the counterclockwise quarter turn one of the sectors is not mapped to
    itself by the translation along x. *)
Definition fun9 (g : nat) : nat -> nat :=
  match g with O => move9 x9 | 1 => move9 y9 | 2 => move9 l9 | 3 => move9 s9 | _ => fun j => j end.
Lemma fun9_below g : below 9 (fun9 g).
Proof.
  destruct g as [|[|[|[|g]]]]; [apply below_ok; vm_compute; reflexivity|apply below_ok; vm_compute; reflexivity|
    apply below_ok; vm_compute; reflexivity|apply below_ok; vm_compute; reflexivity|intros j Hj; exact Hj].
Qed.
Lemma fun9_mat g : meq (four 9 (op9 x9) (op9 y9) (op9 l9) (op9 s9) g) (perm_mat 9 (fun9 g)).
Proof. destruct g as [|[|[|[|g]]]]; [reflexivity|reflexivity|reflexivity|reflexivity|symmetry; apply perm_id]. Qed.

Lemma ksum_ints n (t h : nat -> Z) : ksum n (fun k => real (IZR (t k)) *c real (IZR (h k))) =
  real (IZR (fold_right (fun k s => t k * h k + s)%Z 0%Z (seq 0 n))).
Proof.
  rewrite <- (klsum_seq n (fun k => real (IZR (t k)) *c real (IZR (h k)))).
  induction (seq 0 n) as [|k l IH]; [reflexivity|]. cbn [klsum fold_right]. rewrite IH, plus_IZR, mult_IZR, real_add, real_mul. reflexivity.
Qed.

Lemma sector9 a i j : i < 9 -> j < 9 ->
  ent (sector_op 9 torus_table (torus_classes (op9 l9) (op9 s9) (op9 x9) (op9 y9)) a) i j =
  real (IZR (fold_right (fun k s => nth k (nth a torus_ints []) 0 * Z.of_nat (hits fun9 (nth k torus_exps []) i j) + s)%Z 0%Z (seq 0 9))).
Proof.
  intros Hi Hj. change (torus_classes (op9 l9) (op9 s9) (op9 x9) (op9 y9))
    with (map (map (xeval 9 (four 9 (op9 x9) (op9 y9) (op9 l9) (op9 s9)))) torus_exps).
  rewrite (perm_sector 9 fun9); [|exact fun9_below|exact fun9_mat|assumption|assumption|reflexivity].
  rewrite <- ksum_ints. apply ksum_ext. intros k Hk. cbn [torus_table int_table ent]. rewrite real_conj, INR_IZR_INZ. reflexivity.
Qed.

Theorem torus9_moves svd : (forall M, row_basis M (svd M)) ->
  exists Bs B, torus_projectors svd (op9 l9) (op9 s9) (op9 x9) (op9 y9) = Ok Bs /\ In B Bs /\
    ~ meq (mmul (op9 x9) (mmul (madj B) B)) (mmul (mmul (madj B) B) (op9 x9)).
Proof.
  intros Hsvd. destruct torus_ccw_check as (C1 & _ & _).
  assert (HT : table_is torus_table torus_ccw) by (apply int_table_is; reflexivity).
  assert (HG : obeys 9 (four 9 (op9 x9) (op9 y9) (op9 l9) (op9 s9)) torus_ccw).
  { apply (torus_obeys true); [reflexivity|reflexivity|exact torus9_ccw]. }
  destruct (data_sectors 9 _ torus_ccw torus_table svd C1 HG HT Hsvd) as (Bs & E1 & E2 & _ & E4 & _).
  exists Bs, (nth 5 Bs (mzero 0 0)). split; [exact E1|]. split; [apply nth_In; rewrite E2; vm_compute; lia|].
  intros Hc. assert (H5 : 5 < length (gd_tab torus_ccw)) by (vm_compute; lia).
  specialize (E4 5 H5). set (P := mmul (madj (nth 5 Bs (mzero 0 0))) (nth 5 Bs (mzero 0 0))) in *.
  destruct E4 as (P1 & P2 & P3).
  change (nrow P = 9) in P1. change (ncol P = 9) in P2. rewrite P1, P2 in P3.
  destruct Hc as (_ & _ & Hc). specialize (Hc 3 0). cbn [mmul nrow ncol op9 perm_mat] in Hc. rewrite P2 in Hc.
  specialize (Hc ltac:(lia) ltac:(lia)).
  assert (L : ksum 9 (fun k => ent (op9 x9) 3 k *c ent P k 0) = ent P 0 0).
  { rewrite (ksum_single 9 0); [|lia|].
    - change (ent (op9 x9) 3 0) with c1. ring.
    - intros k Hk Hne. assert (X : ent (op9 x9) 3 k = c0).
      { do 9 (destruct k as [|k]; [first [lia|reflexivity]|]). lia. }
      rewrite X. ring. }
  assert (R : ksum 9 (fun k => ent P 3 k *c ent (op9 x9) k 0) = ent P 3 3).
  { rewrite (ksum_single 9 3); [|lia|].
    - change (ent (op9 x9) 3 0) with c1. ring.
    - intros k Hk Hne. assert (X : ent (op9 x9) k 0 = c0).
      { do 9 (destruct k as [|k]; [first [lia|reflexivity]|]). lia. }
      rewrite X. ring. }
  assert (E : ent P 0 0 = ent P 3 3).
  { rewrite <- L, <- R. etransitivity; [exact Hc|]. cbn [mmul ent]. rewrite P2. reflexivity. }
  rewrite !P3 in E by lia. cbn [mscale ent] in E.
  change (map (map (xeval 9 (four 9 (op9 x9) (op9 y9) (op9 l9) (op9 s9)))) (gd_exps torus_ccw))
    with (torus_classes (op9 l9) (op9 s9) (op9 x9) (op9 y9)) in E.
  rewrite !sector9 in E by lia.
  match type of E with _ *c real (IZR ?a) = _ *c real (IZR ?b) =>
    let a' := eval vm_compute in a in let b' := eval vm_compute in b in change a with a' in E; change b with b' in E end.
  apply mul_cancel in E.
  - apply real_inj in E. lra.
  - intros X. apply real_inj in X. revert X. apply Rgt_not_eq. unfold gd_m, Rdiv.
    match goal with |- (INR ?a * / INR ?b > 0)%R =>
      let a' := eval vm_compute in a in let b' := eval vm_compute in b in change a with a'; change b with b' end.
    apply Rmult_lt_0_compat; [|apply Rinv_0_lt_compat]; apply lt_0_INR; lia.
Qed.

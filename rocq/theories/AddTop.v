(** The highest states of the multiplets of two spins. *)
From Coq Require Import List Arith Lia Reals Lra Bool.
From Verif Require Import Scalars Res Matrix ModelGeometry ModelPhase ModelSymmetry SymBase SpecThermal ThermalBase ThermalBasis Addition.
Import ListNotations.
Local Open Scope R_scope.

Section Top.
  Variables t s k : nat.
  Hypothesis kt : (k <= t)%nat.
  Hypothesis ks : (k <= s)%nat.
  Fixpoint ac (i : nat) : CR := match i with O => c1 | S j => kopp (gi t (S j) *c gf s (k - j) *c ac j) end.
  Definition top0 : vec2 := fun m b => if (m + b =? k)%nat then ac m else c0.
  Lemma top0_raise : eq2 t s (oU t s top0) (fun _ _ => c0).
  Proof using kt ks.
    intros m b (Hm & Hb). unfold oU, top0. rewrite Nat.add_succ_r. cbn [Nat.add].
    destruct (Nat.eqb_spec (S (m + b)) k) as [E|E]; [|ring]. cbn [ac].
    replace (k - m)%nat with (S b) by lia.
    transitivity ((c1 +c kopp (gi t (S m) *c gf t (S m))) *c gf s (S b) *c ac m); [ring|]. rewrite gi_gf by lia. ring.
  Qed.
  Lemma top0_wt : eq2 t s (oZ t s top0) (fun m b => real (INR (t + s - 2 * k) / 2) *c top0 m b).
  Proof using kt ks.
    intros m b _. unfold oZ, top0. destruct (Nat.eqb_spec (m + b) k) as [E|E]; [|ring]. f_equal. f_equal. unfold wt.
    rewrite minus_INR by lia. rewrite plus_INR, mult_INR, <- E, plus_INR. cbn [INR]. field.
  Qed.
  Lemma ip_self x : ip t s x x = real (rsum (S t) (fun m => rsum (S s) (fun b => nsq (x m b)))).
  Proof using.
    unfold ip. assert (G : forall j (f : nat -> R), real (rsum j f) = ksum j (fun i => real (f i))) by (intros j f; induction j as [|j IH]; [reflexivity|]; cbn [rsum ksum]; rewrite real_add, IH; reflexivity).
    rewrite G. apply ksum_ext. intros m _. rewrite G. apply ksum_ext. intros b _. destruct (x m b) as [p q]. unfold nsq, real. cbn. unfold cr_mul, cr_conj. cbn. f_equal; ring.
  Qed.
  Definition tn : R := rsum (S t) (fun m => rsum (S s) (fun b => nsq (top0 m b))).
  Lemma tn_pos : 0 < tn.
  Proof using kt ks.
    assert (P : 0 <= tn) by (apply rsum_ge; intros; apply rsum_ge; intros; apply nsq_ge).
    destruct (Req_dec tn 0) as [Z|N]; [|lra]. exfalso.
    assert (I : ip t s top0 top0 = c0) by (rewrite ip_self; fold tn; rewrite Z; reflexivity).
    pose proof (ip_zero t s top0 I 0%nat k ltac:(split; [lia|exact ks])) as Q. unfold top0 in Q. cbn [Nat.add ac] in Q. rewrite Nat.eqb_refl in Q.
    injection Q as Q. lra.
  Qed.
  Definition top : vec2 := fun m b => real (/ sqrt tn) *c top0 m b.
  Lemma top_raise : eq2 t s (oU t s top) (fun _ _ => c0).
  Proof using kt ks. intros m b I. unfold top. rewrite oU_scale, top0_raise by exact I. ring. Qed.
  Lemma top_wt : eq2 t s (oZ t s top) (fun m b => real (INR (t + s - 2 * k) / 2) *c top m b).
  Proof using kt ks. intros m b I. unfold top. transitivity (real (/ sqrt tn) *c oZ t s top0 m b); [unfold oZ; ring|]. rewrite top0_wt by exact I. ring. Qed.
  Lemma top_unit : ip t s top top = c1.
  Proof using kt ks.
    unfold top. rewrite ip_scale, ip_scale_l, real_conj, ip_self. fold tn. pose proof tn_pos as P.
    rewrite <- !real_mul, <- real_1. f_equal. rewrite <- Rmult_assoc, <- Rinv_mult, sqrt_sqrt by lra. field. lra.
  Qed.
  Definition cg : nat -> vec2 := rung t s (t + s - 2 * k) top.
  Theorem cg_multiplet : multiplet t s (t + s - 2 * k) cg /\ units t s (t + s - 2 * k) cg.
  Proof using kt ks. apply rung_multiplet; [apply top_raise | apply top_wt | apply top_unit]. Qed.
End Top.

(** The multiplets fill the space. *)
Lemma cg_count t s : list_sum (map (fun k => S (t + s - 2 * k)) (seq 0 (S (Nat.min t s)))) = (S t * S s)%nat.
Proof.
  assert (G : forall j, (j <= Nat.min t s)%nat -> list_sum (map (fun k => S (t + s - 2 * k)) (seq 0 (S j))) = (S j * (S (t + s) - j))%nat).
  { induction j as [|j IH]; intros Hj; [cbn; lia|]. rewrite seq_S, map_app, list_sum_app, IH by lia. unfold list_sum at 1. cbn [Nat.add map fold_right]. nia. }
  rewrite G by lia. nia.
Qed.

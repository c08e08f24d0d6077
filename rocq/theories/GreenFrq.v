(** Matsubara frequencies. *)
From Coq Require Import List Arith Lia Reals Lra ZArith Bool Permutation Sorting.
From Verif Require Import Scalars Res Sums ModelPhase ModelSymmetry SpecThermal SpecFermiGas ModelFermiGas FermiBase FermiGrid FermiCorr ModelGreen SpecGreen.
Import ListNotations.
Local Open Scope R_scope.

Lemma ceil_spec x : IZR (ceil x) - 1 < x <= IZR (ceil x).
Proof. unfold ceil. rewrite opp_IZR. destruct (base_Int_part (- x)) as [H1 H2]. lra. Qed.
Lemma below_ceil i x : (i < Z.to_nat (ceil x))%nat <-> INR i < x.
Proof.
  destruct (ceil_spec x) as [H1 H2]. rewrite INR_IZR_INZ. split; intros H.
  - assert (E : (Z.of_nat i <= ceil x - 1)%Z) by lia. apply IZR_le in E. rewrite minus_IZR in E. lra.
  - assert (E : (Z.of_nat i < ceil x)%Z) by (apply lt_IZR; lra). lia.
Qed.
Lemma arange_in s m d x : 0 < d -> In x (arange s m d) <-> exists i, x = s + INR i * d /\ x < m.
Proof.
  intros Hd. unfold arange. rewrite in_map_iff. split.
  - intros (i & <- & Hi). exists i. split; [reflexivity|]. apply in_seq in Hi. destruct Hi as [_ Hi]. cbn in Hi. assert (Hi' := proj1 (below_ceil i _) Hi).
    apply (Rmult_lt_compat_r d) in Hi'; [|assumption]. unfold Rdiv in Hi'. rewrite Rmult_assoc, Rinv_l in Hi' by lra. lra.
  - intros (i & -> & Hi). exists i. split; [reflexivity|]. apply in_seq. split; [lia|]. apply below_ceil.
    apply (Rmult_lt_reg_r d); [assumption|]. unfold Rdiv. rewrite Rmult_assoc, Rinv_l by lra. lra.
Qed.
Lemma arange_nodup s m d : 0 < d -> NoDup (arange s m d).
Proof.
  intros Hd. unfold arange. apply FinFun.Injective_map_NoDup; [|apply seq_NoDup].
  intros i j H. apply INR_eq. nra.
Qed.

(** The frequencies above zero and their mirror images. *)
Lemma both_nodup s m d : 0 < s -> 0 < d -> NoDup (map Ropp (arange s m d) ++ arange s m d).
Proof.
  intros Hs Hd. assert (P : forall x, In x (arange s m d) -> 0 < x).
  { intros x Hx. apply arange_in in Hx as (i & -> & _); [|assumption]. pose proof (pos_INR i). nra. }
  apply NoDup_app_in; [|apply arange_nodup; assumption|].
  - apply FinFun.Injective_map_NoDup; [|apply arange_nodup; assumption]. intros x y H. lra.
  - intros x Hx Hy. apply in_map_iff in Hx as (y & <- & Hx). apply P in Hx, Hy. lra.
Qed.
Lemma both_in s m d x : 0 < s -> 0 < d ->
  In x (map Ropp (arange s m d) ++ arange s m d) <-> exists i, Rabs x = s + INR i * d /\ Rabs x < m.
Proof.
  intros Hs Hd. rewrite in_app_iff, in_map_iff. split.
  - intros [(y & <- & Hy)|Hx].
    + apply arange_in in Hy as (i & -> & Hy); [|assumption]. exists i. pose proof (pos_INR i).
      rewrite Rabs_Ropp, Rabs_right by nra. auto.
    + apply arange_in in Hx as (i & -> & Hx); [|assumption]. exists i. pose proof (pos_INR i).
      rewrite Rabs_right by nra. auto.
  - intros (i & E & Hm). destruct (Rle_or_lt 0 x) as [H|H].
    + right. rewrite Rabs_right in E, Hm by lra. apply arange_in; [assumption|]. exists i. auto.
    + left. rewrite Rabs_left in E, Hm by lra. exists (- x). split; [ring|]. apply arange_in; [assumption|]. exists i. auto.
Qed.
Lemma sort_strict l : NoDup l -> increasing (r_sort l).
Proof.
  intros H. apply sorted_strict; [apply r_sort_sorted|]. eapply Permutation_NoDup; [|exact H]. symmetry. apply r_sort_perm.
Qed.
Lemma sort_in l x : In x (r_sort l) <-> In x l.
Proof. split; apply Permutation_in; [|symmetry]; apply r_sort_perm. Qed.

Lemma abs_multiple c (z : Z) : 0 < c -> Rabs (IZR z * c) = IZR (Z.abs z) * c.
Proof. intros Hc. rewrite Rabs_mult, (Rabs_right c) by lra. rewrite abs_IZR. reflexivity. Qed.

Lemma fermion_frqs_ok b m : 0 < b -> exists l, matsubara_frqs b m Fermion = Ok l /\ increasing l /\
  (forall w, In w l <-> fermion_frq b w /\ Rabs w < m).
Proof.
  intros Hb. unfold matsubara_frqs. destruct (Req_EM_T b 0); [lra|]. eexists. split; [reflexivity|].
  assert (P := PI_RGT_0). assert (Hs : 0 < PI / b) by (apply Rdiv_lt_0_compat; lra).
  assert (Hd : 0 < 2 * PI / b) by (apply Rdiv_lt_0_compat; lra).
  split; [apply sort_strict, both_nodup; assumption|]. intros w. rewrite sort_in, both_in by assumption.
  assert (F : forall z, (2 * IZR z + 1) * PI / b = IZR (2 * z + 1) * (PI / b)) by (intros z; rewrite plus_IZR, mult_IZR; unfold Rdiv; ring).
  split.
  - intros (i & E & H). split; [|exact H].
    destruct (Rle_or_lt 0 w) as [H0|H0].
    + exists (Z.of_nat i). rewrite <- INR_IZR_INZ. rewrite Rabs_right in E by lra. rewrite E. field. lra.
    + exists (- Z.of_nat i - 1)%Z. rewrite minus_IZR, opp_IZR, <- INR_IZR_INZ. rewrite Rabs_left in E by lra.
      replace w with (- (PI / b + INR i * (2 * PI / b))) by lra. field. lra.
  - intros ((z & E) & H). rewrite F in E. pose proof H as H'. rewrite E, abs_multiple in H' by assumption.
    rewrite E, abs_multiple by assumption. exists (Z.to_nat (Z.abs (2 * z + 1) / 2)).
    split; [|assumption]. rewrite INR_IZR_INZ, Z2Nat.id by (apply Z.div_pos; lia).
    assert (D : (Z.abs (2 * z + 1) = 1 + 2 * (Z.abs (2 * z + 1) / 2))%Z).
    { pose proof (Z.div_mod (Z.abs (2 * z + 1)) 2). pose proof (Z.mod_pos_bound (Z.abs (2 * z + 1)) 2).
      assert (Z.abs (2 * z + 1) mod 2 <> 0)%Z; [|lia]. intros D. apply Zmod_divides in D as [c D]; lia. }
    rewrite D at 1. rewrite plus_IZR, mult_IZR. field. lra.
Qed.

Lemma boson_frqs_ok b m : 0 < b -> exists l, matsubara_frqs b m Boson = Ok l /\ increasing l /\
  (forall w, In w l <-> boson_frq b w /\ (Rabs w < m \/ w = 0)).
Proof.
  intros Hb. unfold matsubara_frqs. destruct (Req_EM_T b 0); [lra|]. eexists. split; [reflexivity|].
  assert (P := PI_RGT_0). assert (Hd : 0 < 2 * PI / b) by (apply Rdiv_lt_0_compat; lra).
  assert (F : forall z, 2 * IZR z * PI / b = IZR z * (2 * PI / b)) by (intros z; unfold Rdiv; ring).
  split.
  - apply sort_strict. apply NoDup_app_in; [apply both_nodup; assumption|constructor; [intros []|constructor]|].
    intros x Hx [<-|[]]. apply both_in in Hx as (i & E & _); [|assumption|assumption]. rewrite Rabs_R0 in E. pose proof (pos_INR i). nra.
  - intros w. rewrite sort_in, in_app_iff, both_in by assumption. split.
    + intros [(i & E & H)|[<-|[]]].
      * split; [|left; exact H]. destruct (Rle_or_lt 0 w) as [H0|H0].
        -- exists (Z.of_nat (S i)). rewrite <- INR_IZR_INZ, S_INR. rewrite Rabs_right in E by lra. rewrite E. field. lra.
        -- exists (- Z.of_nat (S i))%Z. rewrite opp_IZR, <- INR_IZR_INZ, S_INR. rewrite Rabs_left in E by lra.
           replace w with (- (2 * PI / b + INR i * (2 * PI / b))) by lra. field. lra.
      * split; [|right; reflexivity]. exists 0%Z. unfold Rdiv. ring.
    + intros ((z & E) & H). destruct (Z.eq_dec z 0) as [-> |Hz].
      * right. left. rewrite E. unfold Rdiv. ring.
      * destruct H as [H|H].
        -- left. rewrite F in E. pose proof H as H'. rewrite E, abs_multiple in H' by assumption.
           rewrite E, abs_multiple by assumption. exists (Z.to_nat (Z.abs z - 1)). split; [|assumption].
           rewrite INR_IZR_INZ, Z2Nat.id by lia. rewrite minus_IZR. field. lra.
        -- right. left. symmetry. assumption.
Qed.

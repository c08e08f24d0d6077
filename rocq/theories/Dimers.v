(** Pairs of spins that form singlets. *)
From Coq Require Import List Arith Lia Reals Lra Bool Permutation.
From Verif Require Import Scalars Matrix Sums SpecMat SpecSpins Digits SpinSwap SwapProofs SpecPerm ModelGeometry ModelPhase ModelSymmetry SymBase SpecThermal ThermalBase ThermalBasis SpecSigns Signs SignsSpins Sectors Ladder SpecSinglet.
Import ListNotations.
Local Open Scope R_scope.

(** Pairs of sites of different kinds, and all other sites; every site once. *)
Definition flat_pairs (l : list (nat * nat)) : list nat := flat_map (fun p => [fst p; snd p]) l.
Definition pairing (part : nat -> bool) (n : nat) (l : list (nat * nat)) (rest : list nat) : Prop :=
  (forall i j, In (i, j) l -> part i = true /\ part j = false) /\ Permutation (flat_pairs l ++ rest) (seq 0 n).
Lemma product_perm (f : nat -> R) l m : Permutation l m -> fold_right (fun i x => f i * x) 1 l = fold_right (fun i x => f i * x) 1 m.
Proof. induction 1; cbn [fold_right] in *; try congruence; ring. Qed.
Lemma product_app (f : nat -> R) l m : fold_right (fun i x => f i * x) 1 (l ++ m) = fold_right (fun i x => f i * x) 1 l * fold_right (fun i x => f i * x) 1 m.
Proof. induction l as [|a l IH]; cbn [app fold_right]; [ring | rewrite IH; ring]. Qed.
Section Dimers.
  Variables (part : nat -> bool) (n : nat).
  Notation D := (2 ^ n)%nat.
  Notation dg p a := (digit 2 n p a).
  Notation eps := (state_sign part n).
  Notation fl := (fl n).
  Definition pw (l : list (nat * nat)) (a : nat) : R := fold_right (fun p x => (INR (dg (snd p) a) - INR (dg (fst p) a)) * x) 1 l.
  Definition phi (l : list (nat * nat)) (r : list nat) (cf : nat -> nat) (a : nat) : R := if forallb (fun p => dg p a =? cf p)%nat r then pw l a else 0.
  Lemma pw_other i l a : (forall p, In p (flat_pairs l) -> (p < n)%nat) -> ~ In i (flat_pairs l) -> pw l (fl i a) = pw l a.
  Proof using.
    induction l as [|(u, v) l IH]; intros B N; [reflexivity|]. cbn [flat_pairs flat_map app fst snd] in B, N. cbn [pw fold_right fst snd]. fold (pw l (fl i a)). fold (pw l a).
    rewrite IH, !dg_other; [reflexivity | | | | |intros p Hp; apply B; right; right; exact Hp | intros X; apply N; right; right; exact X]; try (intros ->; apply N; cbn; auto); apply B; cbn; auto.
  Qed.
  Lemma pw_pairs v l a : (v < 2)%nat -> NoDup (flat_pairs l) -> (forall p, In p (flat_pairs l) -> (p < n)%nat) -> total (fun p => if (dg p a =? v)%nat then pw l (fl p a) else 0) (flat_pairs l) = 0.
  Proof using.
    intros Hv. induction l as [|(i, j) l IH]; intros ND B; [reflexivity|]. change (flat_pairs ((i, j) :: l)) with (i :: j :: flat_pairs l) in *. inversion_clear ND as [|? ? N1 ND1]. inversion_clear ND1 as [|? ? N2 ND].
    assert (Hi : (i < n)%nat) by (apply B; left; reflexivity). assert (Hj : (j < n)%nat) by (apply B; right; left; reflexivity). assert (NE : i <> j) by (intros ->; apply N1; left; reflexivity).
    assert (B' : forall p, In p (flat_pairs l) -> (p < n)%nat) by (intros p Hp; apply B; right; right; exact Hp).
    rewrite !total_cons. rewrite (total_ext _ (fun p => (INR (dg j a) - INR (dg i a)) * (if (dg p a =? v)%nat then pw l (fl p a) else 0))).
    - rewrite total_scale, (IH ND B'). unfold pw. cbn [fold_right fst snd]. fold (pw l (fl i a)). fold (pw l (fl j a)).
      rewrite !(pw_other _ l a B') by (first [exact N2 | intros X; apply N1; right; exact X]). rewrite !dg_same, (dg_other n i a j), (dg_other n j a i) by (assumption || congruence).
      destruct v as [|[|]]; [| |lia]; destruct (digit2_cases n i a) as [-> | ->], (digit2_cases n j a) as [-> | ->]; cbn; ring.
    - intros p Hp. destruct (dg p a =? v)%nat; [|ring]. unfold pw at 1. cbn [fold_right fst snd]. fold (pw l (fl p a)). rewrite !dg_other; try reflexivity; try assumption; intros ->; first [exact (N2 Hp) | apply N1; right; exact Hp].
  Qed.
  Lemma forallb_same (f g : nat -> bool) l : (forall p, In p l -> f p = g p) -> forallb f l = forallb g l.
  Proof using. induction l as [|p l IH]; intros X; [reflexivity|]. cbn [forallb]. rewrite (X p (or_introl eq_refl)), IH; [reflexivity|]. intros; apply X; right; assumption. Qed.

  Variables (l : list (nat * nat)) (r : list nat).
  Hypothesis pr : pairing part n l r.
  Lemma all_distinct : NoDup (flat_pairs l ++ r). Proof using pr. destruct pr as (_ & P). apply (Permutation_NoDup (Permutation_sym P)), seq_NoDup. Qed.
  Lemma all_below p : In p (flat_pairs l ++ r) -> (p < n)%nat.
  Proof using pr. intros Hp. destruct pr as (_ & P). apply (Permutation_in _ P) in Hp. apply in_seq in Hp. lia. Qed.
  Lemma apart_lists p : In p (flat_pairs l) -> In p r -> False.
  Proof using pr. intros H1 H2. apply (NoDup_app_disj _ _ _ all_distinct H1 H2). Qed.
  Lemma pairs_NoDup : NoDup (flat_pairs l). Proof using pr. pose proof all_distinct as ND. apply NoDup_app_l in ND. exact ND. Qed.
  (** Moves of paired spins cancel. *)
  Theorem phi_moves v cf a : (v < 2)%nat -> total (fun p => if (dg p a =? v)%nat then phi l r cf (fl p a) else 0) (seq 0 n) = total (fun p => if (dg p a =? v)%nat then phi l r cf (fl p a) else 0) r.
  Proof using pr.
    intros Hv. pose proof pr as (_ & P). rewrite <- (total_perm _ _ _ P), total_app. rewrite (total_ext _ (fun p => (if forallb (fun p => dg p a =? cf p)%nat r then 1 else 0) * (if (dg p a =? v)%nat then pw l (fl p a) else 0)) (flat_pairs l)).
    - rewrite total_scale, pw_pairs; [ring | exact Hv | exact pairs_NoDup |]. intros p Hp. apply all_below, in_or_app. left. exact Hp.
    - intros p Hp. unfold phi. rewrite (forallb_same (fun q => dg q (fl p a) =? cf q)%nat (fun q => dg q a =? cf q)%nat); [destruct (forallb _ r), (dg p a =? v)%nat; ring|].
      intros q Hq. rewrite dg_other; [reflexivity | apply all_below, in_or_app; right; exact Hq |]. intros ->. exact (apart_lists p Hp Hq).
  Qed.
  Lemma phi_still v : (v < 2)%nat -> forall a, total (fun p => if (dg p a =? v)%nat then phi l r (fun _ => v) (fl p a) else 0) (seq 0 n) = 0.
  Proof using pr.
    intros Hv a. rewrite (phi_moves v (fun _ => v) a Hv). apply total_zero. intros p Hp. destruct (Nat.eqb_spec (dg p a) v) as [Q|Q]; [|reflexivity]. unfold phi. assert (X : forallb (fun q => dg q (fl p a) =? v)%nat r = false).
    { destruct (forallb (fun q => dg q (fl p a) =? v)%nat r) eqn:F; [|reflexivity]. rewrite forallb_forall in F. specialize (F p Hp). rewrite dg_same in F by (apply all_below, in_or_app; right; exact Hp). apply Nat.eqb_eq in F. lia. }
    rewrite X. reflexivity.
  Qed.
  (** Signs of these states. *)
  Definition site_sign (cf : nat -> nat) (p : nat) : R := if part p && negb (cf p =? 0)%nat then -1 else 1.
  Definition rest_sign (cf : nat -> nat) : R := fold_right (fun p x => site_sign cf p * x) 1 r.
  Lemma rest_square cf : rest_sign cf = 1 \/ rest_sign cf = -1.
  Proof using. clear pr. unfold rest_sign. induction r as [|p q IH]; [left; reflexivity|]. cbn [fold_right]. destruct IH as [Q|Q]; rewrite Q; unfold site_sign; destruct (part p && negb (cf p =? 0)%nat); (left; ring) || (right; ring). Qed.
  Lemma pairs_sign a : forall l0, (forall i j, In (i, j) l0 -> part i = true /\ part j = false) -> 0 <= pw l0 a * fold_right (fun p x => (if part p && negb (dg p a =? 0)%nat then -1 else 1) * x) 1 (flat_pairs l0).
  Proof using.
    induction l0 as [|(i, j) l0 IH]; intros K; [cbn; lra|]. destruct (K i j (or_introl eq_refl)) as (K1 & K2). specialize (IH ltac:(intros; apply K; right; assumption)).
    change (flat_pairs ((i, j) :: l0)) with (i :: j :: flat_pairs l0). cbn [pw fold_right fst snd]. fold (pw l0 a). rewrite K1, K2. revert IH. set (F := fold_right _ _ _). intros IH.
    destruct (digit2_cases n i a) as [-> | ->], (digit2_cases n j a) as [-> | ->]; cbn; lra.
  Qed.
  Theorem phi_sign cf a : 0 <= rest_sign cf * (eps a * phi l r cf a).
  Proof using pr.
    unfold phi. destruct (forallb (fun p => dg p a =? cf p)%nat r) eqn:F; [|lra]. pose proof pr as (K & P). unfold state_sign. rewrite <- (product_perm (fun i => if part i && negb (dg i a =? 0)%nat then -1 else 1) _ _ P), product_app.
    assert (X : fold_right (fun i x => (if part i && negb (dg i a =? 0)%nat then -1 else 1) * x) 1 r = rest_sign cf).
    { unfold rest_sign. rewrite forallb_forall in F. clear pr P. induction r as [|p q IH]; [reflexivity|]. cbn [fold_right]. rewrite IH by (intros; apply F; right; assumption). unfold site_sign. specialize (F p (or_introl eq_refl)). apply Nat.eqb_eq in F. rewrite F. reflexivity. }
    rewrite X. pose proof (pairs_sign a l K) as Y. destruct (rest_square cf) as [Q|Q]; rewrite Q; lra.
  Qed.
  (** A configuration that appears. *)
  Definition shown (cf : nat -> nat) : nat := of_digits 2 n (fun p => if existsb (fun q => fst q =? p)%nat l then 0%nat else if existsb (fun q => snd q =? p)%nat l then 1%nat else cf p).
  Lemma shown_lt cf : (forall p, (p < n)%nat -> (cf p < 2)%nat) -> (shown cf < D)%nat.
  Proof using. intros B. apply of_digits_lt; [discriminate|]. intros p Hp. destruct (existsb _ l); [lia|]. destruct (existsb _ l); [lia | auto]. Qed.
  Lemma in_flat i j : In (i, j) l -> In i (flat_pairs l) /\ In j (flat_pairs l).
  Proof using. intros H. unfold flat_pairs. split; apply in_flat_map; exists (i, j); cbn; auto. Qed.
  Lemma shown_phi cf : (forall p, (p < n)%nat -> (cf p < 2)%nat) -> phi l r cf (shown cf) = 1.
  Proof using pr.
    intros B. assert (DG : forall p, (p < n)%nat -> dg p (shown cf) = if existsb (fun q => fst q =? p)%nat l then 0%nat else if existsb (fun q => snd q =? p)%nat l then 1%nat else cf p).
    { intros p Hp. apply digit_of_digits; [discriminate | | exact Hp]. intros q Hq. destruct (existsb _ l); [lia|]. destruct (existsb _ l); [lia | auto]. }
    unfold phi. assert (F : forallb (fun p => dg p (shown cf) =? cf p)%nat r = true).
    { apply forallb_forall. intros p Hp. apply Nat.eqb_eq. rewrite DG by (apply all_below, in_or_app; right; exact Hp).
      assert (E1 : existsb (fun q => fst q =? p)%nat l = false) by (apply not_true_iff_false; intros X; apply existsb_exists in X as ((i, j) & IN & Q); apply Nat.eqb_eq in Q; cbn in Q; subst i; apply (apart_lists p); [apply (in_flat p j IN) | exact Hp]).
      assert (E2 : existsb (fun q => snd q =? p)%nat l = false) by (apply not_true_iff_false; intros X; apply existsb_exists in X as ((i, j) & IN & Q); apply Nat.eqb_eq in Q; cbn in Q; subst j; apply (apart_lists p); [apply (in_flat i p IN) | exact Hp]).
      rewrite E1, E2. reflexivity. }
    rewrite F. clear F. assert (S : forall i j, In (i, j) l -> dg i (shown cf) = 0%nat /\ dg j (shown cf) = 1%nat).
    { intros i j IN. destruct (in_flat i j IN) as (I1 & I2). assert (L1 : (i < n)%nat) by (apply all_below, in_or_app; left; exact I1). assert (L2 : (j < n)%nat) by (apply all_below, in_or_app; left; exact I2).
      rewrite !DG by assumption. assert (E1 : existsb (fun q => fst q =? i)%nat l = true) by (apply existsb_exists; exists (i, j); split; [exact IN | apply Nat.eqb_refl]). rewrite E1. split; [reflexivity|].
      destruct pr as (K & _). assert (E2 : existsb (fun q => fst q =? j)%nat l = false).
      { apply not_true_iff_false. intros X. apply existsb_exists in X as ((u, v) & IN' & Q). apply Nat.eqb_eq in Q. cbn in Q. subst u. destruct (K _ _ IN'), (K _ _ IN). congruence. }
      rewrite E2. assert (E3 : existsb (fun q => snd q =? j)%nat l = true) by (apply existsb_exists; exists (i, j); split; [exact IN | apply Nat.eqb_refl]). rewrite E3. reflexivity. }
    generalize (shown cf) S. clear. intros a S. induction l as [|(i, j) l0 IH]; [reflexivity|]. cbn [pw fold_right fst snd]. fold (pw l0 a). rewrite IH by (intros; apply S; right; assumption). destruct (S i j (or_introl eq_refl)) as (-> & ->). cbn. ring.
  Qed.
  (** They live on one number of flipped spins. *)
  Lemma pw_sum a : forall l0, pw l0 a <> 0 -> list_sum (map (fun p => dg p a) (flat_pairs l0)) = length l0.
  Proof using.
    induction l0 as [|(i, j) l0 IH]; intros N; [reflexivity|]. change (flat_pairs ((i, j) :: l0)) with (i :: j :: flat_pairs l0). cbn [pw fold_right fst snd] in N. fold (pw l0 a) in N. change (dg i a + (dg j a + list_sum (map (fun p => dg p a) (flat_pairs l0))) = S (length l0))%nat.
    rewrite IH by (intros Q; apply N; rewrite Q; ring). destruct (digit2_cases n i a) as [Q1|Q1], (digit2_cases n j a) as [Q2|Q2]; rewrite Q1, Q2 in *; try lia; exfalso; apply N; cbn; ring.
  Qed.
  Theorem phi_lives cf a : (a < D)%nat -> phi l r cf a <> 0 -> digit_sum 2 n a = (length l + list_sum (map cf r))%nat.
  Proof using pr.
    intros Ha. unfold phi. destruct (forallb (fun p => dg p a =? cf p)%nat r) eqn:F; [|tauto]. intros N. unfold digit_sum. destruct pr as (_ & P). rewrite <- (sum_perm _ _ (Permutation_map (fun p => dg p a) P)), map_app, list_sum_app, (pw_sum a l N). f_equal. f_equal.
    rewrite forallb_forall in F. apply map_ext_in. intros p Hp. apply Nat.eqb_eq, F, Hp.
  Qed.
End Dimers.

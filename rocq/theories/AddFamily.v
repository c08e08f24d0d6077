(** Any number of spins, added one at a time. *)
From Coq Require Import List Arith Lia Reals Lra Bool.
From Verif Require Import Scalars Res Matrix ModelGeometry ModelPhase ModelSymmetry SymBase SpecThermal ThermalBase ThermalBasis Spectral SpecAddition Addition AddTop AddStep.
Import ListNotations.
Local Open Scope R_scope.

(** ** Pairs in a list *)
Lemma fop_nth {A} (P : A -> A -> Prop) d l : ForallOrdPairs P l -> forall i j, (i < j < length l)%nat -> P (nth i l d) (nth j l d).
Proof.
  induction 1 as [|a l HA HL IH]; intros i j Hij; [cbn in Hij; lia|]. destruct j as [|j]; [lia|]. cbn in Hij. destruct i as [|i]; cbn [nth].
  - rewrite Forall_forall in HA. apply HA. apply nth_In. lia.
  - apply IH. lia.
Qed.
Lemma fop_app {A} (P : A -> A -> Prop) l l' : ForallOrdPairs P l -> ForallOrdPairs P l' -> (forall x y, In x l -> In y l' -> P x y) -> ForallOrdPairs P (l ++ l').
Proof.
  intros HL HL' HC. induction HL as [|a l HA HL IH]; [exact HL'|]. cbn. constructor.
  - apply Forall_app. split; [exact HA|]. apply Forall_forall. intros y Hy. apply HC; [left; reflexivity|exact Hy].
  - apply IH. intros x y Hx Hy. apply HC; [right; exact Hx|exact Hy].
Qed.
Lemma fop_flat {A B} (P : B -> B -> Prop) (g : A -> list B) l : (forall x, In x l -> ForallOrdPairs P (g x)) ->
  ForallOrdPairs (fun x x' => forall y y', In y (g x) -> In y' (g x') -> P y y') l -> ForallOrdPairs P (flat_map g l).
Proof.
  intros HE HL. induction HL as [|a l HA HL IH]; [constructor|]. cbn. apply fop_app.
  - apply HE. left. reflexivity.
  - apply IH. intros x Hx. apply HE. right. exact Hx.
  - intros x y Hx Hy. apply in_flat_map in Hy as (z & Hz & Hy). rewrite Forall_forall in HA. exact (HA z Hz x y Hx Hy).
Qed.
Lemma fop_impl {A} (P Q : A -> A -> Prop) l : (forall x y, In x l -> In y l -> P x y -> Q x y) -> ForallOrdPairs P l -> ForallOrdPairs Q l.
Proof.
  intros H HL. induction HL as [|a l HA HL IH]; [constructor|]. constructor.
  - rewrite Forall_forall in *. intros x Hx. apply H; [left; reflexivity|right; exact Hx|auto].
  - apply IH. intros x y Hx Hy. apply H; right; assumption.
Qed.
Lemma fop_map {A B} (P : B -> B -> Prop) (g : A -> B) l : ForallOrdPairs (fun x y => P (g x) (g y)) l -> ForallOrdPairs P (map g l).
Proof. induction 1 as [|a l HA HL IH]; [constructor|]. cbn. constructor; [apply Forall_map; exact HA|exact IH]. Qed.
Lemma fop_seq (P : nat -> nat -> Prop) n a : (forall i j, (a <= i < j)%nat -> (j < a + n)%nat -> P i j) -> ForallOrdPairs P (seq a n).
Proof.
  revert a. induction n as [|n IH]; intros a H; [constructor|]. cbn. constructor.
  - apply Forall_forall. intros j Hj. apply in_seq in Hj. apply H; lia.
  - apply IH. intros i j Hi Hj. apply H; lia.
Qed.

(** ** Families of multiplets *)
Definition member : Type := (R * nat * (nat -> nat -> CR)).
Definition me (f : member) : R := fst (fst f).
Definition mt (f : member) : nat := snd (fst f).
Definition mv (f : member) : nat -> nat -> CR := snd f.
Definition member_ok n Z U L H (f : member) : Prop :=
  rep n Z U L (mt f) (mv f) /\
  (forall M, (M <= mt f)%nat -> forall i, (i < n)%nat -> act n H (mv f M) i = real (me f) *c mv f M i) /\
  (forall M M', (M <= mt f)%nat -> (M' <= mt f)%nat -> inner n (mv f M) (mv f M') = kb (M =? M')%nat).
Definition apart n (f f' : member) : Prop := forall M M', (M <= mt f)%nat -> (M' <= mt f')%nat -> inner n (mv f M) (mv f' M') = c0.
Definition family_ok n Z U L H (l : list member) : Prop :=
  Forall (member_ok n Z U L H) l /\ ForallOrdPairs (apart n) l /\ list_sum (map (fun f => S (mt f)) l) = n.

Section Fam.
  Variables (s : nat) (c : nat -> R).
  Fixpoint dm (n : nat) : nat := match n with O => 1 | S m => dm m * S s end.
  Lemma dm_pow n : dm n = (S s ^ n)%nat.
  Proof using. induction n as [|n IH]; [reflexivity|]. cbn [dm Nat.pow]. rewrite IH. apply Nat.mul_comm. Qed.
  Fixpoint tot (B : kern) (n : nat) : kern := match n with O => fun _ _ => c0 | S m => both (S s) (tot B m) B end.
  Fixpoint ham (n : nat) : kern := match n with
    | O => fun _ _ => c0
    | S m => add_k (cross (S s) (ham m) one_k) (sc_k (real (c m)) (dot2 s (tot (sZ s) m) (tot (sU s) m) (tot (sL s) m)))
    end.
  Definition grow (cm : R) (f : member) (k : nat) : member :=
    let K := (Nat.min (mt f) s - k)%nat in
    (next_energy s (mt f) (me f) cm (mt f + s - 2 * K), (mt f + s - 2 * K)%nat, fun M => lift s (mt f) (mv f) (cg (mt f) s K M)).
  Fixpoint fam (n : nat) : list member := match n with
    | O => [(0, 0%nat, fun _ _ => c1)]
    | S m => flat_map (fun f => map (grow (c m) f) (seq 0 (S (Nat.min (mt f) s)))) (fam m)
    end.

  Lemma fam_levels n : map fst (fam n) = spin_levels c s n.
  Proof using.
    induction n as [|n IH]; [reflexivity|]. cbn [fam spin_levels]. rewrite <- IH. clear IH.
    rewrite !flat_map_concat_map, concat_map, !map_map. f_equal. apply map_ext. intros f. rewrite map_map. unfold total_spins. rewrite map_map. apply map_ext_in. intros k Hk. apply in_seq in Hk.
    unfold grow. cbn [fst]. fold (me f). fold (mt f).
    assert (EQ : (mt f + s - 2 * (Nat.min (mt f) s - k) = Nat.max (mt f) s - Nat.min (mt f) s + 2 * k)%nat) by (unfold mt in *; clear - Hk; lia). rewrite EQ.
    unfold next_energy, casimir. f_equal. field.
  Qed.

  Lemma list_sum_flat {A} (g : A -> list nat) l : list_sum (flat_map g l) = list_sum (map (fun x => list_sum (g x)) l).
  Proof using. induction l as [|a l IH]; [reflexivity|]. cbn [flat_map map]. rewrite list_sum_app, IH. reflexivity. Qed.
  Lemma list_sum_rev l : list_sum (rev l) = list_sum l.
  Proof using. induction l as [|a l IH]; [reflexivity|]. cbn [rev]. rewrite list_sum_app, IH. unfold list_sum. cbn [fold_right]. lia. Qed.
  Lemma rev_seq_sum (g : nat -> nat) n : list_sum (map (fun k => g (n - k)%nat) (seq 0 (S n))) = list_sum (map g (seq 0 (S n))).
  Proof using.
    rewrite <- (list_sum_rev (map g _)), <- map_rev. f_equal.
    apply (nth_ext _ _ (g (n - 0)%nat) (g (n - 0)%nat)); [rewrite !map_length, rev_length; reflexivity|]. intros i Hi. rewrite map_length, seq_length in Hi.
    rewrite (map_nth (fun k => g (n - k)%nat)), seq_nth by exact Hi. rewrite (map_nth g), rev_nth by (rewrite seq_length; exact Hi). rewrite seq_length, seq_nth by lia. reflexivity.
  Qed.

  Lemma grow_ok n Z U L H cm f k : member_ok n Z U L H f -> (k <= Nat.min (mt f) s)%nat ->
    member_ok (n * S s) (both (S s) Z (sZ s)) (both (S s) U (sU s)) (both (S s) L (sL s)) (add_k (cross (S s) H one_k) (sc_k (real cm) (dot2 s Z U L))) (grow cm f k).
  Proof using.
    intros (R & E & O) Hk. set (K := (Nat.min (mt f) s - k)%nat).
    destruct (cg_multiplet (mt f) s K ltac:(lia) ltac:(lia)) as (MU & UN).
    unfold member_ok, grow. fold K. cbn [fst snd me mt mv]. split; [|split].
    - exact (lift_rep n s Z U L (mt f) (mv f) R _ _ MU).
    - exact (lift_H n s Z U L (mt f) (mv f) R H (me f) E cm _ _ MU).
    - intros M M' HM HM'. cbn [mt mv fst snd] in *. rewrite lift_iso by exact O. destruct (Nat.eqb_spec M M') as [<-|N].
      + exact (UN M HM).
      + apply (multiplets_orth (mt f) s _ _ _ _ MU MU M M' HM HM'). left. exact N.
  Qed.
  Lemma grow_family n Z U L H cm l : family_ok n Z U L H l ->
    family_ok (n * S s) (both (S s) Z (sZ s)) (both (S s) U (sU s)) (both (S s) L (sL s)) (add_k (cross (S s) H one_k) (sc_k (real cm) (dot2 s Z U L)))
      (flat_map (fun f => map (grow cm f) (seq 0 (S (Nat.min (mt f) s)))) l).
  Proof using.
    intros (OK & AP & CT). rewrite Forall_forall in OK. split; [|split].
    - apply Forall_forall. intros g Hg. apply in_flat_map in Hg as (f & Hf & Hg). apply in_map_iff in Hg as (k & <- & Hk). apply in_seq in Hk.
      apply grow_ok; [auto|lia].
    - apply fop_flat.
      + intros f Hf. apply fop_map. apply fop_seq. intros i j Hi Hj M M' HM HM'. destruct (OK f Hf) as (_ & _ & O).
        unfold grow in *. cbn [mt mv fst snd] in *. rewrite lift_iso by exact O.
        destruct (cg_multiplet (mt f) s (Nat.min (mt f) s - i) ltac:(lia) ltac:(lia)) as (MU & _).
        destruct (cg_multiplet (mt f) s (Nat.min (mt f) s - j) ltac:(lia) ltac:(lia)) as (MU' & _).
        apply (multiplets_orth (mt f) s _ _ _ _ MU MU' M M' HM HM'). right. lia.
      + apply (fop_impl (apart n)); [|exact AP]. intros f f' Hf Hf' A y y' Hy Hy'.
        apply in_map_iff in Hy as (k & <- & _). apply in_map_iff in Hy' as (k' & <- & _). intros M M' HM HM'.
        unfold grow. cbn [mv snd]. apply lift_apart. exact A.
    - rewrite flat_map_concat_map, concat_map, map_map, <- flat_map_concat_map, list_sum_flat. rewrite <- CT. clear.
      induction l as [|f l IH]; [reflexivity|]. cbn [map]. cbn [list_sum fold_right]. unfold list_sum in *. rewrite IH. rewrite map_map.
      change (fold_right Nat.add 0%nat (map (fun x => S (mt (grow cm f x))) (seq 0 (S (Nat.min (mt f) s)))) + fold_right Nat.add 0 (map (fun f0 => S (mt f0)) l) * S s
        = (S (mt f) + fold_right Nat.add 0 (map (fun f0 => S (mt f0)) l)) * S s)%nat.
      rewrite Nat.mul_add_distr_r. f_equal.
      rewrite <- cg_count, <- (rev_seq_sum (fun k => S (mt f + s - 2 * k))). reflexivity.
  Qed.
  Theorem fam_ok n : family_ok (dm n) (tot (sZ s) n) (tot (sU s) n) (tot (sL s) n) (ham n) (fam n).
  Proof using.
    induction n as [|n IH]; [|exact (grow_family _ _ _ _ _ (c n) _ IH)].
    split; [|split; [repeat constructor|reflexivity]]. constructor; [|constructor]. unfold member_ok. cbn [mt mv me fst snd tot ham dm].
    split; [|split].
    - intros M HM i Hi. assert (M = 0%nat) by lia. subst M. change 0%nat with 0%nat in *. rewrite gf_0, gf_top. unfold act. cbn [ksum]. cbn [INR].
      split; [ring|]. split; [ring|]. replace (0 / 2 - 0) with 0 by field. rewrite real_0. ring.
    - intros M HM i Hi. unfold act. cbn [ksum]. rewrite real_0. ring.
    - intros M M' HM HM'. assert (M = 0%nat) by lia. assert (M' = 0%nat) by lia. subst. unfold inner. cbn [ksum]. rewrite Nat.eqb_refl. cbn [kb]. rewrite kconj_1. ring.
  Qed.

  (** ** The eigenbasis *)
  Definition states (l : list member) : list (R * (nat -> CR)) := flat_map (fun f => map (fun M => (me f, mv f M)) (seq 0 (S (mt f)))) l.
  Lemma states_energies l : map fst (states l) = level_energies (map fst l).
  Proof using.
    induction l as [|f l IH]; [reflexivity|]. unfold states, level_energies in *. cbn [flat_map map]. rewrite map_app, IH. f_equal. rewrite map_map. cbn [fst].
    fold (me f). fold (mt f). generalize 0%nat. induction (S (mt f)) as [|k IHk]; intros a; [reflexivity|]. cbn [seq map repeat]. f_equal. apply IHk.
  Qed.
  Lemma states_length l : length (states l) = list_sum (map (fun f => S (mt f)) l).
  Proof using. induction l as [|f l IH]; [reflexivity|]. unfold states in *. cbn [flat_map map]. rewrite app_length, IH, map_length, seq_length. reflexivity. Qed.
  Definition basis_of (n : nat) (l : list member) : mat CR := Mat n n (fun i a => snd (nth a (states l) (0, fun _ => c0)) i).
  Theorem family_eigenbasis n Z U L H l Hm : family_ok n Z U L H l -> nrow Hm = n -> ncol Hm = n -> (forall i j, (i < n)%nat -> (j < n)%nat -> ent Hm i j = H i j) ->
    eigenbasis Hm (basis_of n l) (map fst (states l)).
  Proof using.
    intros (OK & AP & CT) R1 R2 EH. rewrite Forall_forall in OK.
    set (W := fun a => snd (nth a (states l) (0, fun _ => c0))).
    assert (LN : length (states l) = n) by (rewrite states_length; exact CT).
    assert (FO : ForallOrdPairs (fun x y => inner n (snd x) (snd y) = c0) (states l)).
    { apply fop_flat.
      - intros f Hf. apply fop_map. apply fop_seq. intros i j Hi Hj. cbn [snd]. destruct (OK f Hf) as (_ & _ & O). rewrite O by lia. rewrite (proj2 (Nat.eqb_neq i j)) by lia. reflexivity.
      - apply (fop_impl (apart n)); [|exact AP]. intros f f' _ _ A y y' Hy Hy'. apply in_map_iff in Hy as (M & <- & HM). apply in_map_iff in Hy' as (M' & <- & HM'). apply in_seq in HM, HM'. cbn [snd]. apply A; lia. }
    assert (UN : forall x, In x (states l) -> inner n (snd x) (snd x) = c1 /\ forall i, (i < n)%nat -> act n H (snd x) i = real (fst x) *c snd x i).
    { intros x Hx. apply in_flat_map in Hx as (f & Hf & Hx). apply in_map_iff in Hx as (M & <- & HM). apply in_seq in HM. destruct (OK f Hf) as (_ & E & O). cbn [fst snd].
      split; [rewrite O, Nat.eqb_refl by lia; reflexivity|]. apply E. lia. }
    assert (OR : forall a b, (a < n)%nat -> (b < n)%nat -> inner n (W a) (W b) = kb (a =? b)%nat).
    { intros a b Ha Hb. unfold W. destruct (lt_eq_lt_dec a b) as [[L0|E]|L0].
      - rewrite (proj2 (Nat.eqb_neq a b)) by lia. apply (fop_nth _ _ _ FO). lia.
      - subst b. rewrite Nat.eqb_refl. apply UN. apply nth_In. lia.
      - rewrite (proj2 (Nat.eqb_neq a b)) by lia. rewrite <- inner_conj, (fop_nth _ _ _ FO) by lia. apply kconj_0. }
    split; [|split].
    - unfold eigen. cbn [nrow ncol basis_of]. rewrite map_length. repeat split; try congruence.
      intros i a Hi Ha. rewrite (nth_indep _ 0 (fst (0, fun _ : nat => c0))) by (rewrite map_length; lia). rewrite map_nth.
      change (col (basis_of n l) a) with (W a). change (ent (basis_of n l) i a) with (W a i). transitivity (act n H (W a) i).
      + unfold apply, act. apply ksum_ext. intros j Hj. rewrite EH by assumption. reflexivity.
      + apply UN; [apply nth_In; lia|exact Hi].
    - intros a b Ha Hb. exact (OR a b Ha Hb).
    - intros psi i Hi. exact (full n n W OR eq_refl psi i Hi).
  Qed.
End Fam.

(** The states do not depend on the couplings. *)
Lemma fam_same s c c' n : map (fun f => (mt f, mv f)) (fam s c n) = map (fun f => (mt f, mv f)) (fam s c' n).
Proof.
  induction n as [|n IH]; [reflexivity|]. cbn [fam].
  rewrite !flat_map_concat_map, !concat_map, !map_map.
  set (G := fun x : nat * (nat -> nat -> CR) => map (fun k => ((fst x + s - 2 * (Nat.min (fst x) s - k))%nat, fun M => lift s (fst x) (snd x) (cg (fst x) s (Nat.min (fst x) s - k) M))) (seq 0 (S (Nat.min (fst x) s)))).
  rewrite (map_ext _ (fun f => G (mt f, mv f))) by (intros f; rewrite map_map; reflexivity).
  rewrite (map_ext (fun x => map (fun f => (mt f, mv f)) (map (grow s (c' n) x) _)) (fun f => G (mt f, mv f))) by (intros f; rewrite map_map; reflexivity).
  rewrite <- !(map_map (fun f => (mt f, mv f)) G), IH. reflexivity.
Qed.
Lemma basis_same s c c' n N : basis_of N (fam s c n) = basis_of N (fam s c' n).
Proof.
  assert (E : map snd (states (fam s c n)) = map snd (states (fam s c' n))).
  { pose proof (fam_same s c c' n) as F. unfold states. rewrite !flat_map_concat_map, !concat_map, !map_map.
    set (G := fun x : nat * (nat -> nat -> CR) => map (fun M => snd x M) (seq 0 (S (fst x)))).
    rewrite (map_ext _ (fun f => G (mt f, mv f))) by (intros f; rewrite map_map; reflexivity).
    rewrite (map_ext (fun x => map snd (map (fun M => (me x, mv x M)) (seq 0 (S (mt x))))) (fun f => G (mt f, mv f))) by (intros f; rewrite map_map; reflexivity).
    rewrite <- !(map_map (fun f => (mt f, mv f)) G), F. reflexivity. }
  unfold basis_of.
  assert (X : forall l a, snd (nth a l ((0, fun _ : nat => c0) : R * (nat -> CR))) = nth a (map snd l) (fun _ => c0)) by (intros l a; symmetry; exact (map_nth snd l (0, fun _ : nat => c0) a)).
  assert (Y : (fun i a => snd (nth a (states (fam s c n)) (0, fun _ => c0)) i) = (fun i a => snd (nth a (states (fam s c' n)) (0, fun _ => c0)) i)) by (apply FunctionalExtensionality.functional_extensionality; intros i; apply FunctionalExtensionality.functional_extensionality; intros a; rewrite !X, E; reflexivity).
  rewrite Y. reflexivity.
Qed.

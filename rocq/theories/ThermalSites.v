(** Expectation values and correlators of sites: proofs. *)
From Coq Require Import List Arith Lia Reals Lra Bool.
From Verif Require Import Scalars Res Matrix SpecMat ModelGeometry ModelPhase ModelSymmetry SymBase ModelBase
  ModelThermal SpecThermal ThermalBase ThermalSectors ThermalBasis.
Import ListNotations.
Local Open Scope R_scope.

(** ** The default pairs of sites *)
Lemma all_pairs_in n x y : In (x, y) (all_pairs n) <-> (y <= x < n)%nat.
Proof.
  unfold all_pairs. rewrite in_flat_map. split.
  - intros (y' & Hy & H). apply in_map_iff in H as (x' & E & Hx). inversion E; subst.
    apply filter_In in Hx as (Hx & L). apply in_seq in Hx. apply Nat.leb_le in L. lia.
  - intros H. exists y. split; [apply in_seq; lia|]. apply (in_map (fun x => (x, y))). apply filter_In. split; [apply in_seq; lia | apply Nat.leb_le; lia].
Qed.
Lemma nodup_flat {A B} (f : A -> list B) l : NoDup l -> (forall a, In a l -> NoDup (f a)) ->
  (forall a b x, In a l -> In b l -> In x (f a) -> In x (f b) -> a = b) -> NoDup (flat_map f l).
Proof.
  induction 1 as [|a l Hn ND IH]; intros H1 H2; [constructor|]. cbn.
  assert (G : forall m : list B, NoDup m -> (forall x, In x m -> ~ In x (flat_map f l)) -> NoDup (m ++ flat_map f l)).
  { intros m. induction 1 as [|x m Hx Hm IHm]; intros D; cbn.
    - apply IH; [intros; apply H1; right; assumption|]. intros b c y Hb Hc; apply H2; right; assumption.
    - constructor.
      + intros X. apply in_app_or in X as [X|X]; [contradiction | apply (D x (or_introl eq_refl) X)].
      + apply IHm. intros y Hy. apply D. right. exact Hy. }
  apply G; [apply H1; left; reflexivity|]. intros x Hx X. apply in_flat_map in X as (b & Hb & Hxb).
  assert (a = b) by (eapply H2; [left; reflexivity | right; exact Hb | exact Hx | exact Hxb]). subst. contradiction.
Qed.
Lemma all_pairs_nodup n : NoDup (all_pairs n).
Proof.
  apply nodup_flat; [apply seq_NoDup| |].
  - intros y _. apply FinFun.Injective_map_NoDup; [intros a b E; inversion E; reflexivity|]. apply NoDup_filter, seq_NoDup.
  - intros a b x _ _ Ha Hb. apply in_map_iff in Ha as (? & <- & _). apply in_map_iff in Hb as (? & E & _). inversion E. reflexivity.
Qed.

(** ** Lifting with the projector: a state of the subspace [psi] is [P^dag psi] in
    the full space *)

Lemma expect_lift P O psi : nrow O = ncol P -> ncol O = ncol P ->
  expect (nrow P) (mmul (mmul P O) (madj P)) psi = expect (ncol P) O (lift P psi).
Proof.
  intros H1 H2. unfold expect. f_equal.
  set (m := nrow P). set (n := ncol P).
  assert (A : forall k, apply m (mmul (mmul P O) (madj P)) psi k = ksum n (fun i => ent P k i *c apply n O (lift P psi) i)).
  { intros k. unfold apply. cbn [mmul madj ent ncol]. rewrite H2. fold n.
    transitivity (ksum m (fun j => ksum n (fun b => ksum n (fun i => ent P k i *c (ent O i b *c (conj (ent P j b) *c psi j)))))).
    - apply ksum_ext. intros j _. rewrite <- ksum_mul_r. apply ksum_ext. intros b _. rewrite <- !ksum_mul_r. apply ksum_ext. intros i _. ring.
    - rewrite ksum_swap. rewrite (ksum_ext n _ (fun b => ksum n (fun i => ksum m (fun j => ent P k i *c (ent O i b *c (conj (ent P j b) *c psi j)))))) by (intros; apply ksum_swap).
      rewrite ksum_swap. apply ksum_ext. intros i _. rewrite <- ksum_mul_l. apply ksum_ext. intros b _. unfold lift. fold m.
      rewrite <- !ksum_mul_l. reflexivity. }
  unfold inner. transitivity (ksum m (fun k => ksum n (fun i => conj (psi k) *c (ent P k i *c apply n O (lift P psi) i)))).
  - apply ksum_ext. intros k _. rewrite A, ksum_mul_l. reflexivity.
  - rewrite ksum_swap. apply ksum_ext. intros i _. unfold lift at 2. fold m. rewrite ksum_conj, <- ksum_mul_r. apply ksum_ext. intros k _.
    rewrite kconj_mul, kconj_inv. ring.
Qed.

Lemma expect_meq n A B psi : nrow A = n -> ncol A = n -> meq A B -> expect n A psi = expect n B psi.
Proof.
  intros H1 H2 (M1 & M2 & M). unfold expect. f_equal. apply inner_ext; [reflexivity|]. intros i Hi. apply ksum_ext. intros j Hj.
  rewrite M by lia. reflexivity.
Qed.
Lemma lift_eye n psi i : (i < n)%nat -> lift (meye n) psi i = psi i.
Proof.
  intros Hi. unfold lift. cbn [meye nrow ent]. rewrite (ksum_single n i).
  - rewrite Nat.eqb_refl. cbn [kb]. rewrite kconj_1. ring.
  - exact Hi.
  - intros k Hk Ne. replace (k =? i)%nat with false by (symmetry; apply Nat.eqb_neq; exact Ne). cbn [kb]. rewrite kconj_0. ring.
Qed.
Lemma expect_ext n O a b : (forall i, (i < n)%nat -> a i = b i) -> expect n O a = expect n O b.
Proof.
  intros H. unfold expect. f_equal. apply inner_ext; [exact H|]. intros i Hi. apply apply_ext. exact H.
Qed.

(** What one row of the result is. *)
Lemma site_row P M op : let Q := the_projector P (nrow M) in
  nrow Q = nrow M -> nrow op = ncol Q -> ncol op = ncol Q ->
  (full <- conj_by P (nrow M) op ;; exp_vals (Columns M) full) =
  Ok (map (fun k => expect (ncol Q) op (lift Q (col M k))) (seq 0 (ncol M))).
Proof.
  cbv zeta. intros H1 H2 H3. unfold conj_by, cmulv. change (match P with Some P0 => P0 | None => meye (nrow M) end) with (the_projector P (nrow M)).
  set (Q := the_projector P (nrow M)) in *. rewrite H2, Nat.eqb_refl. cbn [bind mmul madj ncol nrow]. rewrite H3, Nat.eqb_refl. cbn [bind].
  rewrite exp_vals_spec by (cbn; assumption). f_equal. apply map_ext. intros k. rewrite <- H1. apply expect_lift; assumption.
Qed.

Lemma exp_vals_sites_ok st nsites site_op sites P : let M := as_columns st in
  let Q := the_projector P (nrow M) in
  let l := match sites with None => seq 0 nsites | Some l => l end in
  nrow Q = nrow M -> (forall i, In i l -> exists op, site_op i = Ok op /\ nrow op = ncol Q /\ ncol op = ncol Q) ->
  exists rows, exp_vals_sites st nsites site_op sites P = Ok (rows, l) /\
    Forall2 (fun i row => exists op, site_op i = Ok op /\ row = map (fun k => expect (ncol Q) op (lift Q (col M k))) (seq 0 (ncol M))) l rows.
Proof.
  cbv zeta. intros HQ H. unfold exp_vals_sites. set (M := as_columns st) in *. set (Q := the_projector P (nrow M)) in *.
  set (l := match sites with None => seq 0 nsites | Some l => l end) in *.
  cut (exists rows, rmap (fun site => op <- site_op site;; full <- conj_by P (nrow M) op;; exp_vals (Columns M) full) l = Ok rows /\
    Forall2 (fun i row => exists op, site_op i = Ok op /\ row = map (fun k => expect (ncol Q) op (lift Q (col M k))) (seq 0 (ncol M))) l rows).
  { intros (rows & E & F). exists rows. rewrite E. split; [reflexivity | exact F]. }
  clearbody l. induction l as [|i l IH]; [exists []; split; [reflexivity | constructor]|].
  destruct (H i (or_introl eq_refl)) as (op & E & D1 & D2). destruct IH as (rows & E' & F); [intros; apply H; right; assumption|].
  eexists (_ :: rows). split.
  - cbn [rmap]. rewrite E. cbn [bind]. rewrite (site_row P M op) by assumption. cbn [bind]. rewrite E'. reflexivity.
  - constructor; [|exact F]. exists op. split; [exact E | reflexivity].
Qed.

Lemma corr_sites_ok st nsites pair_op P : let M := as_columns st in
  let Q := the_projector P (nrow M) in
  nrow Q = nrow M ->
  (forall i j, (j <= i < nsites)%nat -> exists op, pair_op i j = Ok op /\ nrow op = ncol Q /\ ncol op = ncol Q) ->
  exists rows pairs, corr_sites st nsites pair_op None P = Ok (rows, pairs) /\
    NoDup pairs /\ (forall i j, In (i, j) pairs <-> (j <= i < nsites)%nat) /\
    Forall2 (fun p row => exists op, pair_op (fst p) (snd p) = Ok op /\
       row = map (fun k => expect (ncol Q) op (lift Q (col M k))) (seq 0 (ncol M))) pairs rows.
Proof.
  cbv zeta. intros HQ H. unfold corr_sites. set (M := as_columns st) in *. set (Q := the_projector P (nrow M)) in *. cbn [bind].
  cut (exists rows, rmap (fun p => op <- pair_op (fst p) (snd p);; full <- conj_by P (nrow M) op;; exp_vals (Columns M) full) (all_pairs nsites) = Ok rows /\
    Forall2 (fun p row => exists op, pair_op (fst p) (snd p) = Ok op /\ row = map (fun k => expect (ncol Q) op (lift Q (col M k))) (seq 0 (ncol M))) (all_pairs nsites) rows).
  { intros (rows & E & F). exists rows, (all_pairs nsites). rewrite E. split; [reflexivity|]. split; [apply all_pairs_nodup|].
    split; [intros; apply all_pairs_in | exact F]. }
  assert (H' : forall p, In p (all_pairs nsites) -> exists op, pair_op (fst p) (snd p) = Ok op /\ nrow op = ncol Q /\ ncol op = ncol Q).
  { intros [i j] Hp. apply H. apply all_pairs_in, Hp. }
  clear H. revert H'. generalize (all_pairs nsites) as l. induction l as [|i l IH]; intros H; [exists []; split; [reflexivity | constructor]|].
  destruct (H i (or_introl eq_refl)) as (op & E & D1 & D2). destruct IH as (rows & E' & F); [intros; apply H; right; assumption|].
  eexists (_ :: rows). split.
  - cbn [rmap]. rewrite E. cbn [bind]. rewrite (site_row P M op) by assumption. cbn [bind]. rewrite E'. reflexivity.
  - constructor; [|exact F]. exists op. split; [exact E | reflexivity].
Qed.

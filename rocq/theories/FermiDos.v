(** The density of states. *)
From Coq Require Import List Arith Lia Reals Lra ZArith Bool Permutation Sorting.
From Verif Require Import Scalars Res Sums Matrix ModelPhase ModelSymmetry SymBase SpecThermal ThermalBase
  SpecFermiGas ModelFermiGas FermiBase FermiGrid FermiModes.
Import ListNotations.
Local Open Scope R_scope.

Lemma count_total (f : R -> bool) l : INR (length (filter f l)) = total (fun x => if f x then 1 else 0) l.
Proof.
  induction l as [|x l IH]; [reflexivity|]. rewrite total_cons, <- IH. cbn [filter]. destruct (f x); [|ring].
  cbn [length]. rewrite S_INR. ring.
Qed.
Lemma diffs_pos edges : increasing edges -> forall d, In d (diffs edges) -> 0 < d.
Proof.
  induction 1 as [|a l H IH F]; [intros d []|]. destruct l as [|b t]; [intros d []|]. intros d [<-|Hd]; [|apply IH; assumption].
  inversion F; subst. lra.
Qed.
Lemma weighted es edges c : increasing edges ->
  total (fun p => fst p * snd p) (combine (map (fun x => x / c) (quotients (histogram es edges) (diffs edges))) (diffs edges)) =
  total (fun k => INR k) (histogram es edges) / c.
Proof.
  intros H. pose proof (diffs_pos edges H) as D. clear H.
  induction edges as [|a l IH]; [cbn; unfold Rdiv; ring|]. destruct l as [|b t]; [cbn; unfold Rdiv; ring|].
  set (rest := b :: t) in *. change (diffs (a :: rest)) with (b - a :: diffs rest).
  change (histogram es (a :: rest)) with (length (filter (in_bin a b (match t with [] => true | _ => false end)) es) :: histogram es rest).
  cbn [quotients map combine]. rewrite !total_cons, IH by (intros d Hd; apply D; right; exact Hd). cbn [fst snd].
  specialize (D (b - a) (or_introl eq_refl)). set (x := INR _). set (S := total _ _). unfold Rdiv.
  transitivity (x * (/ (b - a) * (b - a)) * / c + S * / c); [ring|]. rewrite Rinv_l by lra. ring.
Qed.
Lemma hist_total es a edges : edges <> [] -> increasing (a :: edges) ->
  total (fun k => INR k) (histogram es (a :: edges)) = INR (length (filter (fun x => rle_b a x && rle_b x (last edges a)) es)).
Proof.
  revert a. induction edges as [|b t IH]; intros a Hne H; [contradiction|].
  change (histogram es (a :: b :: t)) with (length (filter (in_bin a b (match t with [] => true | _ => false end)) es) :: histogram es (b :: t)).
  rewrite total_cons. apply StronglySorted_inv in H as [H F]. rewrite Forall_forall in F.
  pose proof (F b (or_introl eq_refl)) as Lab.
  destruct t as [|c u].
  - cbn [histogram]. rewrite total_nil, Rplus_0_r. f_equal. f_equal. apply filter_ext. intros x. unfold in_bin. cbn [last].
    unfold rle_b, rlt_b. destruct (Rle_dec a x), (Rlt_dec x b), (Rle_dec x b); try reflexivity; lra.
  - rewrite IH by (discriminate || assumption). rewrite !count_total, <- total_add. apply total_ext. intros x _.
    change (last (b :: c :: u) a) with (last (c :: u) a).
    assert (E : last (c :: u) a = last (c :: u) b) by (clear; revert c; induction u as [|d u IH]; intros c; [reflexivity|]; exact (IH d)).
    rewrite E. assert (Lb : b < last (c :: u) b).
    { apply StronglySorted_inv in H as [_ F2]. rewrite Forall_forall in F2. apply F2.
      clear. revert c. induction u as [|d u IH]; intros c; [left; reflexivity|]. right. exact (IH d). }
    set (z := last (c :: u) b) in *. unfold in_bin, rle_b, rlt_b.
    destruct (Rle_dec a x), (Rlt_dec x b), (Rle_dec x b), (Rle_dec b x), (Rle_dec x z); cbn; lra.
Qed.
Lemma existsb_none {A} (f : A -> bool) l : (forall a, In a l -> f a = false) -> existsb f l = false.
Proof. induction l as [|a l IH]; intros H; [reflexivity|]. cbn. rewrite (H a (or_introl eq_refl)), IH by (intros; apply H; right; assumption). reflexivity. Qed.
Lemma quotients_ge l m : (forall d, In d m -> 0 < d) -> forall x, In x (quotients l m) -> 0 <= x.
Proof.
  revert m. induction l as [|a l IH]; intros [|b m] H x Hx; try (destruct Hx; fail).
  destruct Hx as [<-|Hx]; [|apply (IH m); [|exact Hx]; intros d Hd; apply H; right; exact Hd].
  specialize (H b (or_introl eq_refl)). unfold Rdiv. apply Rmult_le_pos; [apply pos_INR|]. apply Rlt_le, Rinv_0_lt_compat. assumption.
Qed.
Lemma dos_ok es a edges : es <> [] -> edges <> [] -> increasing (a :: edges) -> exists dos,
  get_dos es (a :: edges) = Ok dos /\ (forall x, In x dos -> 0 <= x) /\
  total (fun p => fst p * snd p) (combine dos (widths (a :: edges))) =
  INR (length (filter (fun x => rle_b a x && rle_b x (last edges a)) es)) / INR (length es).
Proof.
  intros He Hd H. pose proof (diffs_pos _ H) as D. unfold get_dos.
  rewrite existsb_none. 2:{ intros d Hd'. specialize (D d Hd'). unfold rlt_b. destruct Rlt_dec; [lra|reflexivity]. }
  rewrite existsb_none. 2:{ intros d Hd'. specialize (D d Hd'). unfold rle_b. destruct Rle_dec; [lra|reflexivity]. }
  assert (L : (0 < length es)%nat) by (destruct es; [contradiction|cbn; lia]).
  destruct (Nat.eqb_spec (length es) 0); [lia|]. cbn [orb]. eexists. split; [reflexivity|]. split.
  - intros x Hx. apply in_map_iff in Hx as (y & <- & Hy). apply quotients_ge in Hy; [|assumption].
    unfold Rdiv. apply Rmult_le_pos; [assumption|]. apply Rlt_le, Rinv_0_lt_compat, lt_0_INR. assumption.
  - change widths with diffs. rewrite weighted by assumption. rewrite hist_total by assumption. reflexivity.
Qed.
Lemma dos_normalised es a edges : es <> [] -> edges <> [] -> increasing (a :: edges) ->
  (forall x, In x es -> a <= x <= last edges a) -> exists dos,
  get_dos es (a :: edges) = Ok dos /\ (forall x, In x dos -> 0 <= x) /\
  total (fun p => fst p * snd p) (combine dos (widths (a :: edges))) = 1.
Proof.
  intros He Hd H Hx. destruct (dos_ok es a edges He Hd H) as (dos & E & P & S). exists dos. split; [assumption|]. split; [assumption|].
  rewrite S. replace (filter _ es) with es.
  - assert (0 < INR (length es)) by (apply lt_0_INR; destruct es; [contradiction|cbn; lia]). field. lra.
  - symmetry. clear - Hx. induction es as [|x es IH]; [reflexivity|]. cbn.
    destruct (Hx x (or_introl eq_refl)) as [A B]. rewrite !rle_b_true by assumption. cbn. f_equal. apply IH. intros; apply Hx; right; assumption.
Qed.
Lemma dos2_raises n dim : is_ok (get_dos2 n dim) = false.
Proof.
  unfold get_dos2. destruct kpoints; [cbn [bind]|reflexivity]. destruct rmap; [cbn [bind]|reflexivity]. destruct energy_spacing; reflexivity.
Qed.

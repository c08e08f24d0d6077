(** Thermal averages: proofs. *)
From Coq Require Import List Arith Lia Reals Lra Bool Sorting Permutation.
From Verif Require Import Scalars Res Matrix ModelGeometry ModelPhase ModelSymmetry SymBase ModelBase ModelThermal SpecThermal.
Import ListNotations.
Local Open Scope R_scope.

Lemma total_cons {A} (f : A -> R) a l : total f (a :: l) = f a + total f l.
Proof. reflexivity. Qed.
Lemma total_nil {A} (f : A -> R) : total f [] = 0.
Proof. reflexivity. Qed.
Lemma total_ext {A} (f g : A -> R) l : (forall a, In a l -> f a = g a) -> total f l = total g l.
Proof.
  induction l as [|a l IH]; intros H; [reflexivity|]. cbn [app map]. rewrite ?total_cons.
  rewrite IH by (intros; apply H; right; assumption). rewrite H by (left; reflexivity). reflexivity.
Qed.
Lemma total_map {A B} (f : B -> R) (g : A -> B) l : total f (map g l) = total (fun a => f (g a)) l.
Proof. induction l as [|a l IH]; [reflexivity|]. cbn [app map]. rewrite ?total_cons. rewrite IH. reflexivity. Qed.
Lemma total_app {A} (f : A -> R) l m : total f (l ++ m) = total f l + total f m.
Proof. induction l as [|a l IH]; [cbn [app]; rewrite ?total_nil; ring|]. cbn [app]. rewrite !total_cons. rewrite IH. ring. Qed.
Lemma total_add {A} (f g : A -> R) l : total (fun a => f a + g a) l = total f l + total g l.
Proof. induction l as [|a l IH]; [cbn [app]; rewrite ?total_nil; ring|]. cbn [app]. rewrite !total_cons. rewrite IH. ring. Qed.
Lemma total_scale {A} c (f : A -> R) l : total (fun a => c * f a) l = c * total f l.
Proof. induction l as [|a l IH]; [cbn [app]; rewrite ?total_nil; ring|]. cbn [app]. rewrite !total_cons. rewrite IH. ring. Qed.
Lemma total_zero {A} (f : A -> R) l : (forall a, In a l -> f a = 0) -> total f l = 0.
Proof.
  induction l as [|a l IH]; intros H; [reflexivity|]. cbn [app map]. rewrite ?total_cons.
  rewrite IH by (intros; apply H; right; assumption). rewrite H by (left; reflexivity). ring.
Qed.
Lemma total_le {A} (f g : A -> R) l : (forall a, In a l -> f a <= g a) -> total f l <= total g l.
Proof.
  induction l as [|a l IH]; intros H; [rewrite !total_nil; lra|]. cbn [app map]. rewrite ?total_cons.
  apply Rplus_le_compat; [apply H; left; reflexivity | apply IH; intros; apply H; right; assumption].
Qed.
Lemma total_ge0 {A} (f : A -> R) l : (forall a, In a l -> 0 <= f a) -> 0 <= total f l.
Proof. intros H. rewrite <- (total_zero (fun _ : A => 0) l) by auto. apply total_le. assumption. Qed.
Lemma total_pos {A} (f : A -> R) l : (forall a, In a l -> 0 <= f a) -> (exists a, In a l /\ 0 < f a) -> 0 < total f l.
Proof.
  intros H (a & Ha & Hp). apply in_split in Ha as (l1 & l2 & ->). rewrite total_app.
  assert (0 <= total f l1) by (apply total_ge0; intros; apply H, in_or_app; auto).
  assert (0 <= total f l2) by (apply total_ge0; intros; apply H, in_or_app; right; right; auto).
  rewrite total_cons. lra.
Qed.
Lemma total_perm {A} (f : A -> R) l m : Permutation l m -> total f l = total f m.
Proof. induction 1; rewrite ?total_cons; lra. Qed.
Lemma total_abs {A} (f : A -> R) l : Rabs (total f l) <= total (fun a => Rabs (f a)) l.
Proof.
  induction l as [|a l IH]; [rewrite !total_nil, Rabs_R0; lra|]. rewrite !total_cons. eapply Rle_trans; [apply Rabs_triang|].
  lra.
Qed.
Lemma total_concat {A} (f : A -> R) ls : total f (concat ls) = total (total f) ls.
Proof. induction ls as [|l ls IH]; [reflexivity|]. cbn [concat]. rewrite total_app, total_cons, IH. reflexivity. Qed.

Lemma lsum_total l : lsum l = total (fun x => x) l.
Proof. reflexivity. Qed.
Lemma lsum_map {A} (f : A -> R) l : lsum (map f l) = total f l.
Proof. rewrite lsum_total, total_map. reflexivity. Qed.
Lemma lmul_map {A} (f g : A -> R) l : lmul (map f l) (map g l) = map (fun a => f a * g a) l.
Proof. induction l as [|a l IH]; [reflexivity|]. cbn. rewrite IH. reflexivity. Qed.
Lemma list_seq (E : list R) : E = map (fun k => nth k E 0) (seq 0 (length E)).
Proof.
  apply (nth_ext _ _ 0 0); [rewrite map_length, seq_length; reflexivity|]. intros i Hi.
  rewrite (nth_indep (map _ _) 0 (nth O E 0)) by (rewrite map_length, seq_length; exact Hi).
  rewrite (map_nth (fun k => nth k E 0)), seq_nth by exact Hi. reflexivity.
Qed.
Lemma total_nth f (E : list R) : total f E = total (fun k => f (nth k E 0)) (seq 0 (length E)).
Proof. rewrite (list_seq E) at 1. apply total_map. Qed.

Lemma map_seq_nth {A} (f : R -> A) (E : list R) : map f E = map (fun k => f (nth k E 0)) (seq 0 (length E)).
Proof. rewrite (list_seq E) at 1. apply map_map. Qed.

(** ** Expectation values *)
Lemma exp_vals_spec V op : nrow op = nrow V -> ncol op = nrow V ->
  exp_vals (Columns V) op = Ok (map (fun k => expect (nrow V) op (col V k)) (seq 0 (ncol V))).
Proof.
  intros H1 H2. unfold exp_vals. cbn [as_columns]. rewrite H1, H2, Nat.eqb_refl. cbn [andb]. f_equal.
  apply map_ext. intros k. unfold col_exp, expect, inner. f_equal. apply ksum_ext. intros i Hi. f_equal.
  cbn [mmul ent]. rewrite H2. reflexivity.
Qed.
Lemma exp_vals_vec n v op : nrow op = n -> ncol op = n -> exp_vals (OneState n v) op = Ok [expect n op v].
Proof.
  intros H1 H2. change (exp_vals (OneState n v) op) with (exp_vals (Columns (Mat n 1 (fun i _ => v i))) op).
  rewrite exp_vals_spec by assumption. reflexivity.
Qed.

Lemma is_zero_true x : is_zero x = true <-> x = 0.
Proof. unfold is_zero. destruct (Req_EM_T x 0); split; congruence. Qed.
Lemma is_zero_false x : x <> 0 -> is_zero x = false.
Proof. unfold is_zero. destruct (Req_EM_T x 0); congruence. Qed.
Lemma is_zero_0 : is_zero 0 = true.
Proof. apply is_zero_true. reflexivity. Qed.

(** ** The Boltzmann average *)
Lemma boltzmann_shift T c l : T <> 0 ->
  boltzmann T (map (fun p => (energy p + c, value p)) l) = boltzmann T l.
Proof.
  intros HT. unfold boltzmann. rewrite !total_map. cbn [energy value fst snd].
  assert (X : forall p : level, exp (- (energy p + c) / T) = exp (- c / T) * exp (- energy p / T)).
  { intros p. rewrite <- exp_plus. f_equal. field. exact HT. }
  rewrite (total_ext (fun a : level => exp (- (fst a + c) / T) * snd a) (fun a => exp (- c / T) * (exp (- energy a / T) * value a)))
    by (intros p _; pose proof (X p) as Y; unfold energy, value in *; rewrite Y; ring).
  rewrite (total_ext (fun a : level => exp (- (fst a + c) / T)) (fun a => exp (- c / T) * exp (- energy a / T)))
    by (intros p _; apply X).
  rewrite !total_scale. pose proof (exp_pos (- c / T)).
  destruct (Req_EM_T (total (fun a : level => exp (- energy a / T)) l) 0) as [Z|Z].
  - rewrite Z. replace (exp (- c / T) * 0) with 0 by ring. unfold Rdiv. rewrite Rinv_0. ring.
  - field. split; lra.
Qed.

Lemma boltzmann_den_pos T (l : list level) : l <> [] -> 0 < total (fun p => exp (- energy p / T)) l.
Proof.
  intros H. apply total_pos; [intros; left; apply exp_pos|]. destruct l as [|p l]; [congruence|].
  exists p. split; [left; reflexivity | apply exp_pos].
Qed.

Lemma boltzmann_perm T l m : Permutation l m -> boltzmann T l = boltzmann T m.
Proof. intros P. unfold boltzmann. rewrite !(total_perm _ _ _ P). reflexivity. Qed.
Lemma average_at_perm e l m : Permutation l m -> average_at e l = average_at e m.
Proof. intros P. unfold average_at. rewrite !(total_perm _ _ _ P). reflexivity. Qed.

Lemma weighted_bounds {A} (w f : A -> R) l lo hi : (forall a, In a l -> 0 <= w a) -> 0 < total w l ->
  (forall a, In a l -> lo <= f a <= hi) ->
  lo <= total (fun a => w a * f a) l / total w l <= hi.
Proof.
  intros Hw Hp Hf. split.
  - apply Rmult_le_reg_r with (total w l); [exact Hp|]. unfold Rdiv. rewrite Rmult_assoc, Rinv_l by lra.
    rewrite Rmult_1_r, <- total_scale. apply total_le. intros a Ha. specialize (Hw a Ha). specialize (Hf a Ha). nra.
  - apply Rmult_le_reg_r with (total w l); [exact Hp|]. unfold Rdiv. rewrite Rmult_assoc, Rinv_l by lra.
    rewrite Rmult_1_r, <- total_scale. apply total_le. intros a Ha. specialize (Hw a Ha). specialize (Hf a Ha). nra.
Qed.

(** ** Zero temperature limit *)
Lemma exp_small x T : 0 < x -> 0 < T -> exp (- x / T) <= T / x.
Proof.
  intros Hx HT.
  assert (Y : 0 < x / T) by (unfold Rdiv; apply Rmult_lt_0_compat; [lra | apply Rinv_0_lt_compat; lra]).
  assert (X : x / T < exp (x / T)) by (pose proof (exp_ineq1 (x / T) (Rgt_not_eq _ _ Y)); lra).
  replace (- x / T) with (- (x / T)) by (unfold Rdiv; ring). rewrite exp_Ropp.
  replace (T / x) with (/ (x / T)) by (field; split; lra).
  apply Rinv_le_contravar; lra.
Qed.

Lemma at_energy_ge e p : 0 <= at_energy e p.
Proof. unfold at_energy. destruct (Req_EM_T (energy p) e); lra. Qed.
Lemma average_den_pos e (l : list level) : In e (map energy l) -> 0 < total (at_energy e) l.
Proof.
  intros H. apply in_map_iff in H as (p & Hp & Hin). apply total_pos; [intros; apply at_energy_ge|].
  exists p. split; [exact Hin|]. unfold at_energy. destruct (Req_EM_T (energy p) e); [lra | congruence].
Qed.

Lemma boltzmann_limit e l : smallest e (map energy l) -> tends_at_0 (fun T => boltzmann T l) (average_at e l).
Proof.
  intros [Hin Hle]. pose proof (average_den_pos e l Hin) as Hpos.
  set (G := average_at e l).
  set (C := total (fun p => if Req_EM_T (energy p) e then 0 else Rabs (value p - G) / (energy p - e)) l).
  assert (HC : 0 <= C).
  { apply total_ge0. intros p Hp. destruct (Req_EM_T (energy p) e) as [|n]; [lra|].
    assert (e <= energy p) by (apply Hle, in_map; exact Hp).
    apply Rmult_le_pos; [apply Rabs_pos|]. left. apply Rinv_0_lt_compat. lra. }
  intros eps Heps. exists (eps / (C + 1)). split; [apply Rdiv_lt_0_compat; lra|]. intros T [HT0 HT].
  assert (B : Rabs (boltzmann T l - G) <= T * C).
  { (* shift to the lowest energy *)
    rewrite <- (boltzmann_shift T (- e) l) by lra.
    unfold boltzmann. rewrite !total_map. cbn [energy value fst snd].
    set (w := fun p : level => exp (- (fst p + - e) / T)).
    set (Z := total w l).
    assert (HZ : total (at_energy e) l <= Z).
    { apply total_le. intros p Hp. unfold at_energy, w. destruct (Req_EM_T (energy p) e) as [E|E].
      - unfold energy in E. rewrite E. replace (- (e + - e) / T) with 0 by (field; lra). rewrite exp_0. lra.
      - left. apply exp_pos. }
    assert (H1 : 1 <= total (at_energy e) l).
    { apply in_map_iff in Hin as (p & Hp & Hin). apply in_split in Hin as (l1 & l2 & ->). rewrite total_app.
      assert (0 <= total (at_energy e) l1) by (apply total_ge0; intros; apply at_energy_ge).
      assert (0 <= total (at_energy e) l2) by (apply total_ge0; intros; apply at_energy_ge).
      rewrite total_cons. unfold at_energy at 2. destruct (Req_EM_T (energy p) e); [lra | congruence]. }
    assert (X : total (fun a => w a * value a) l / Z - G = total (fun p => w p * (value p - G)) l / Z).
    { rewrite (total_ext (fun p => w p * (value p - G)) (fun p => w p * value p + (- G) * w p)) by (intros; ring).
      rewrite total_add, total_scale. fold Z. field. lra. }
    change (Rabs (total (fun a => w a * value a) l / Z - G) <= T * C). rewrite X. unfold Rdiv. rewrite Rabs_mult, (Rabs_right (/ Z)) by (left; apply Rinv_0_lt_compat; lra).
    apply Rle_trans with (Rabs (total (fun p => w p * (value p - G)) l)).
    { rewrite <- (Rmult_1_r (Rabs (total _ l))) at 2. apply Rmult_le_compat_l; [apply Rabs_pos|].
      rewrite <- Rinv_1. apply Rinv_le_contravar; lra. }
    assert (Y : total (fun p => w p * (value p - G)) l =
                total (fun p => if Req_EM_T (energy p) e then 0 else w p * (value p - G)) l).
    { (* the ground state part vanishes *)
      rewrite (total_ext (fun p => w p * (value p - G))
        (fun p => (at_energy e p * value p + (- G) * at_energy e p) + (if Req_EM_T (energy p) e then 0 else w p * (value p - G)))).
      - rewrite !total_add, total_scale. unfold G, average_at.
        replace (total (fun a : level => at_energy e a * value a) l +
           - (total (fun p : level => at_energy e p * value p) l / total (at_energy e) l) * total (at_energy e) l)
          with 0 by (field; lra). ring.
      - intros p Hp. unfold at_energy, w. destruct (Req_EM_T (energy p) e) as [E|E]; [|ring].
        unfold energy in E. rewrite E. replace (- (e + - e) / T) with 0 by (field; lra). rewrite exp_0. ring. }
    rewrite Y. eapply Rle_trans; [apply total_abs|]. unfold C. rewrite <- total_scale. apply total_le.
    intros p Hp. destruct (Req_EM_T (energy p) e) as [E|E]; [rewrite Rabs_R0; lra|].
    assert (e < energy p) by (assert (e <= energy p) by (apply Hle, in_map; exact Hp); lra).
    rewrite Rabs_mult, (Rabs_right (w p)) by (left; apply exp_pos).
    assert (W : w p <= T / (energy p - e)) by (apply exp_small; unfold energy in *; lra).
    pose proof (Rabs_pos (value p - G)). unfold Rdiv in *. nra. }
  eapply Rle_lt_trans; [exact B|].
  apply Rle_lt_trans with (T * (C + 1)); [nra|].
  apply Rmult_lt_reg_r with (/ (C + 1)); [apply Rinv_0_lt_compat; lra|].
  rewrite Rmult_assoc, Rinv_r, Rmult_1_r by lra. exact HT.
Qed.

(** ** Sorted lists *)
Lemma sorted_tail e t : sorted_list (e :: t) -> sorted_list t /\ forall x, In x t -> e <= x.
Proof.
  intros H. split.
  - intros i j Hij. apply (H (S i) (S j)). cbn. lia.
  - intros x Hx. apply (In_nth _ _ 0) in Hx as (n & Hn & <-). apply (H O (S n)). cbn. lia.
Qed.
Lemma sorted_split e t : sorted_list (e :: t) ->
  exists n rest, e :: t = repeat e (S n) ++ rest /\ forall x, In x rest -> e < x.
Proof.
  induction t as [|a t IH]; intros H.
  - exists O, []. split; [reflexivity | contradiction].
  - destruct (sorted_tail e (a :: t) H) as [St Le]. destruct (Req_EM_T a e) as [->|N].
    + destruct (IH St) as (n & rest & E & L). exists (S n), rest. split; [|exact L].
      cbn. cbn in E. rewrite E. reflexivity.
    + exists O, (a :: t). split; [reflexivity|]. intros x Hx.
      assert (e < a) by (pose proof (Le a (or_introl eq_refl)); lra).
      destruct Hx as [->|Hx]; [assumption|]. pose proof (proj2 (sorted_tail a t St) x Hx). lra.
Qed.

Lemma gap13_pos : 0 < gap13.
Proof. unfold gap13. apply Rmult_lt_0_compat; [lra|]. apply Rinv_0_lt_compat, pow_lt. lra. Qed.
Lemma rounds_to_0_true x : rounds_to_0 x = true <-> Rabs x <= gap13.
Proof. unfold rounds_to_0, rle_b, gap13. destruct (Rle_dec (Rabs x) _); split; intros; auto; congruence. Qed.

Lemma filter_repeat {A} (f : A -> bool) a n : filter f (repeat a n) = if f a then repeat a n else [].
Proof. induction n as [|n IH]; cbn; [destruct (f a); reflexivity|]. rewrite IH. destruct (f a); reflexivity. Qed.
Lemma map_rep {A B} (f : A -> B) a n : map f (repeat a n) = repeat (f a) n.
Proof. induction n as [|n IH]; cbn; [reflexivity|]. rewrite IH. reflexivity. Qed.
Lemma filter_false {A} (f : A -> bool) l : (forall a, In a l -> f a = false) -> filter f l = [].
Proof. induction l as [|a l IH]; intros H; [reflexivity|]. cbn. rewrite H by (left; reflexivity). apply IH. intros; apply H; right; assumption. Qed.

(** The number of ground states counted by the code. *)
Lemma ground_count e0 n rest : (forall x, In x rest -> e0 < x) -> apart gap13 (repeat e0 (S n) ++ rest) ->
  length (filter rounds_to_0 (map (fun e => e - e0) (repeat e0 (S n) ++ rest))) = S n.
Proof.
  intros L A. rewrite map_app, filter_app, map_rep, filter_repeat.
  replace (rounds_to_0 (e0 - e0)) with true
    by (symmetry; apply rounds_to_0_true; replace (e0 - e0) with 0 by ring; rewrite Rabs_R0; left; apply gap13_pos).
  rewrite filter_false; [rewrite app_nil_r; apply repeat_length|].
  intros x Hx. apply in_map_iff in Hx as (y & <- & Hy).
  destruct (rounds_to_0 (y - e0)) eqn:X; [|reflexivity]. apply rounds_to_0_true in X.
  assert (Hin : In y (repeat e0 (S n) ++ rest)) by (apply in_or_app; auto).
  assert (H0 : In e0 (repeat e0 (S n) ++ rest)) by (left; reflexivity).
  destruct (A y e0 Hin H0) as [->|G]; [specialize (L e0 Hy); lra | lra].
Qed.

(** ** get_exp_vals_thermal *)

Lemma thermal_finite V op E T : fits V op E -> T <> 0 ->
  exp_vals_thermal V op E T = Ok (boltzmann T (levels E V op)).
Proof.
  intros (H1 & H2 & H3 & H4) HT. unfold exp_vals_thermal, thermal_weights.
  destruct E as [|e0 t] eqn:EE; [congruence|]. rewrite <- EE in *. clear H4.
  cbn [bind]. rewrite is_zero_false by exact HT. cbn [bind].
  rewrite exp_vals_spec by assumption. cbn [bind]. rewrite !map_length, seq_length, H3, Nat.eqb_refl. f_equal.
  rewrite !map_map, map_seq_nth, lmul_map, !lsum_map.
  rewrite <- (boltzmann_shift T (- e0) (levels E V op)) by exact HT.
  unfold boltzmann, levels. rewrite !total_map. cbn [energy value fst snd].
  f_equal; apply total_ext; intros k _.
  - rewrite Rmult_comm. f_equal. f_equal. field. exact HT.
  - f_equal. field. exact HT.
Qed.

Lemma nth_rep_app (e : R) n rest k : nth k (repeat e n ++ rest) 0 = if (k <? n)%nat then e else nth (k - n) rest 0.
Proof.
  destruct (k <? n)%nat eqn:X.
  - apply Nat.ltb_lt in X. rewrite app_nth1 by (rewrite repeat_length; exact X).
    revert n X. induction k as [|k IH]; intros [|n] X; cbn; try lia; try reflexivity. apply IH. lia.
  - apply Nat.ltb_ge in X. rewrite app_nth2 by (rewrite repeat_length; exact X). rewrite repeat_length. reflexivity.
Qed.

Lemma thermal_zero V op E : fits V op E -> sorted_list E -> apart gap13 E ->
  exp_vals_thermal V op E 0 = Ok (average_at (nth 0 E 0) (levels E V op)).
Proof.
  intros (H1 & H2 & H3 & H4) HS HA. unfold exp_vals_thermal, thermal_weights.
  destruct E as [|e0 t]; [congruence|]. clear H4. destruct (sorted_split e0 t HS) as (n & rest & E & L).
  rewrite E in *. cbn [bind]. rewrite is_zero_0. cbn [bind].
  rewrite ground_count by assumption.
  rewrite filter_app, !filter_repeat.
  replace (negb (is_zero 1)) with true by (rewrite is_zero_false by lra; reflexivity).
  rewrite is_zero_0. cbn [negb]. rewrite app_nil_r, repeat_length.
  rewrite exp_vals_spec by assumption. cbn [bind]. f_equal.
  set (N := (S n + length rest)%nat).
  assert (HN : length (repeat e0 (S n) ++ rest) = N) by (rewrite app_length, repeat_length; reflexivity).
  cbn [first_cols nrow ncol]. rewrite H3, HN. replace (Nat.min (S n) N) with (S n) by (unfold N; lia).
  rewrite lsum_map. unfold average_at, levels. rewrite HN.
  set (v := fun k => expect (nrow V) op (col V k)). fold (col V).
  set (Lv := fun k : nat => (nth k (repeat e0 (S n) ++ rest) 0, v k)).
  change (nth 0 (repeat e0 (S n) ++ rest) 0) with e0.
  assert (X : forall k, In k (seq 0 (S n)) -> at_energy e0 (Lv k) = 1).
  { intros k Hk. apply in_seq in Hk. unfold at_energy, Lv. cbn [energy fst]. rewrite nth_rep_app.
    replace (k <? S n)%nat with true by (symmetry; apply Nat.ltb_lt; lia). destruct (Req_EM_T e0 e0); [reflexivity | congruence]. }
  assert (Y : forall k, In k (seq (S n) (length rest)) -> at_energy e0 (Lv k) = 0).
  { intros k Hk. apply in_seq in Hk. unfold at_energy, Lv. cbn [energy fst]. rewrite nth_rep_app.
    replace (k <? S n)%nat with false by (symmetry; apply Nat.ltb_ge; lia).
    assert (e0 < nth (k - S n) rest 0) by (apply L, nth_In; lia). destruct (Req_EM_T _ e0); [lra | reflexivity]. }
  assert (Z : forall m s, total (fun _ : nat => 1) (seq s m) = INR m).
  { induction m as [|m IH]; intros s; [reflexivity|]. rewrite S_INR. cbn [seq]. rewrite total_cons, IH. ring. }
  assert (A1 : total (fun p => at_energy e0 p * value p) (map Lv (seq 0 N)) = total v (seq 0 (S n))).
  { rewrite total_map. unfold N. rewrite seq_app, total_app. cbn [Nat.add].
    rewrite (total_zero _ (seq (S n) (length rest))) by (intros k Hk; rewrite (Y k Hk); ring).
    rewrite Rplus_0_r. apply total_ext. intros k Hk. rewrite (X k Hk). unfold Lv. cbn [value snd]. ring. }
  assert (A2 : total (at_energy e0) (map Lv (seq 0 N)) = INR (S n)).
  { rewrite total_map. unfold N. rewrite seq_app, total_app. cbn [Nat.add].
    rewrite (total_zero _ (seq (S n) (length rest))) by (intros k Hk; apply (Y k Hk)).
    rewrite Rplus_0_r, <- (Z (S n) O). apply total_ext. intros k Hk. apply (X k Hk). }
  change (total v (seq 0 (S n)) / INR (S n) =
    total (fun p => at_energy e0 p * value p) (map Lv (seq 0 N)) / total (at_energy e0) (map Lv (seq 0 N))).
  rewrite A1, A2. reflexivity.
Qed.

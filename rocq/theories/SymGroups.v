(** The dihedral groups D2 to D6 and the group of the 3x3 torus. *)
From Coq Require Import List Arith Lia ZArith Reals Lra Bool Ring Setoid Permutation.
From Verif Require Import Scalars Sums Res Matrix SpecMat ModelPhase ModelSymmetry SpecSymmetry
  SymBase SymReduce SymMany SymGroup SymRep SymTable SymZn SymWord SymNum.
Import ListNotations.
Local Open Scope nat_scope.

Add Ring CRring : (@k_ring CR CR_StarRing).

(** ** Tables computed from the rules *)
Fixpoint index_of (w : list nat) (words : list (list nat)) (k : nat) : nat :=
  match words with [] => k | v :: t => if nats_eq w v then k else index_of w t (S k) end.
Definition mk_mut rules fuel words : list (list nat) :=
  map (fun u => map (fun v => index_of (normal rules fuel (u ++ v)) words 0) words) words.
Definition mk_inv (m : nat) (mut : list (list nat)) : list nat :=
  map (fun i => first_pos 0 (nth i mut [])) (seq 0 m).
Definition mk_cls rules fuel words (exps : list (list wexp)) : list (list nat) :=
  map (map (fun e => index_of (normal rules fuel (flat e)) words 0)) exps.
Definition mk_ci (m : nat) (cls : list (list nat)) : list nat := map (class_of cls) (seq 0 m).
Definition flat_rules (rs : list (wexp * wexp)) : list (list nat * list nat) := map (fun lr => (flat (fst lr), flat (snd lr))) rs.

(** Everything computed about a group presented by rules, with the table and
    classes of the code. *)
Record gdata := GData {
  gd_ng : nat; gd_rules : list (wexp * wexp); gd_words : list (list nat);
  gd_mut : list (list nat); gd_inv : list nat; gd_exps : list (list wexp);
  gd_cls : list (list nat); gd_ci : list nat; gd_tab : list (list gold); gd_dims : list nat }.
Definition gd_m d := length (gd_words d).
Definition gd_gs d := map (fun k => gd_m d / k) (gd_dims d).
Definition mk_data ng rules fuel words exps tab dims : gdata :=
  let rs := flat_rules rules in let m := length words in
  let mut := mk_mut rs fuel words in let cls := mk_cls rs fuel words exps in
  GData ng rules words mut (mk_inv m mut) exps cls (mk_ci m cls) tab dims.
Definition fuel_of : nat := 200.
Definition check_data (d : gdata) : bool :=
  let rs := flat_rules (gd_rules d) in
  forallb (fun lr => in_exp (gd_ng d) (fst lr) && in_exp (gd_ng d) (snd lr)) (gd_rules d) &&
  check_group (gd_ng d) rs fuel_of (gd_words d) (gd_mut d) (gd_inv d) &&
  check_classes (gd_ng d) rs fuel_of (gd_words d) (gd_exps d) (gd_cls d) &&
  check_table (gd_tab d) (gd_cls d) (gd_m d) (gd_ci d) (gd_mut d) (gd_inv d) (gd_dims d) (gd_gs d).
Definition central (d : gdata) (a : nat) : bool :=
  check_central (gd_tab d) (gd_m d) (gd_ci d) (gd_mut d) (gd_inv d) a &&
  all (gd_m d) (fun h => all (gd_m d) (fun e =>
    mu_of (gd_mut d) (mu_of (gd_mut d) (mu_of (gd_mut d) h e) (inv_of (gd_inv d) h)) h =? mu_of (gd_mut d) h e)).

Definition action (d : gdata) (a k : nat) : bool :=
  check_action (gd_tab d) (gd_cls d) (gd_m d) (gd_ci d) (gd_mut d) (gd_inv d) (gd_dims d) a k.

(** The generators satisfy the rules. *)
Definition obeys (N : nat) (G : nat -> cmat) (d : gdata) : Prop :=
  (forall g, g < gd_ng d -> signed N (G g)) /\
  (forall l r, In (l, r) (gd_rules d) -> meq (xeval N G l) (xeval N G r)).
Definition table_is (T : cmat) (d : gdata) : Prop :=
  nrow T = length (gd_tab d) /\ ncol T = length (gd_cls d) /\
  forall i j, i < length (gd_tab d) -> j < length (gd_cls d) -> ent T i j = real (emb (tb (gd_tab d) i j)).

Section Data.
  Variables (N : nat) (G : nat -> cmat) (d : gdata) (T : cmat) (svd : cmat -> cmat).
  Hypothesis Hcheck : check_data d = true.
  Hypothesis HG : obeys N G d.
  Hypothesis HT : table_is T d.
  Hypothesis Hsvd : forall M, row_basis M (svd M).
  Let rs := flat_rules (gd_rules d).
  Let m := gd_m d.
  Let rho (e : nat) : cmat := weval N G (word (gd_words d) e).
  Let classes := map (map (xeval N G)) (gd_exps d).
  Let mu := mu_of (gd_mut d).
  Let inv := inv_of (gd_inv d).

  Lemma data_parts : (forall l r, In (l, r) (gd_rules d) -> ok_exp (gd_ng d) l /\ ok_exp (gd_ng d) r) /\
    check_group (gd_ng d) rs fuel_of (gd_words d) (gd_mut d) (gd_inv d) = true /\
    check_classes (gd_ng d) rs fuel_of (gd_words d) (gd_exps d) (gd_cls d) = true /\
    check_table (gd_tab d) (gd_cls d) m (gd_ci d) (gd_mut d) (gd_inv d) (gd_dims d) (gd_gs d) = true.
  Proof.
    pose proof Hcheck as H. unfold check_data in H. rewrite !andb_true_iff in H. destruct H as (((H1 & H2) & H3) & H4).
    split; [|auto]. intros l r Hlr. rewrite forallb_forall in H1. specialize (H1 (l, r) Hlr). cbn [fst snd] in H1.
    apply andb_true_iff in H1 as (A & B). split; apply in_exp_ok; assumption.
  Qed.

  Lemma rules_ok l r : In (l, r) rs -> ok_word (gd_ng d) l /\ ok_word (gd_ng d) r.
  Proof.
    unfold rs, flat_rules. intros H. apply in_map_iff in H as ((l' & r') & E & H). injection E as <- <-.
    destruct (proj1 data_parts l' r' H) as (A & B). split; apply ok_flat; assumption.
  Qed.
  Lemma rules_hold l r : In (l, r) rs -> meq (weval N G l) (weval N G r).
  Proof.
    unfold rs, flat_rules. intros H. apply in_map_iff in H as ((l' & r') & E & H). injection E as <- <-. cbn [fst snd].
    destruct (proj1 data_parts l' r' H) as (A & B).
    etransitivity; [symmetry; apply (xeval_flat N G (gd_ng d) (proj1 HG)); assumption|].
    etransitivity; [apply (proj2 HG); eassumption|]. apply (xeval_flat N G (gd_ng d) (proj1 HG)); assumption.
  Qed.

  Lemma data_rep : rep N m mu inv rho.
  Proof.
    destruct data_parts as (_ & H & _). exact (word_rep N G (gd_ng d) (proj1 HG) rs rules_ok rules_hold fuel_of _ _ _ H).
  Qed.
  Lemma data_signs e i j : i < N -> j < N -> ent (rho e) i j = c0 \/ ent (rho e) i j = c1 \/ ent (rho e) i j = kopp c1.
  Proof.
    destruct data_parts as (_ & H & _). exact (word_signs N G (gd_ng d) (proj1 HG) rs fuel_of _ _ _ H e i j).
  Qed.
  Lemma data_classes : Forall2 (Forall2 (fun A e => meq A (rho e))) classes (gd_cls d).
  Proof.
    destruct data_parts as (_ & _ & H & _). exact (word_classes N G (gd_ng d) (proj1 HG) rs rules_ok rules_hold fuel_of _ _ _ H).
  Qed.

  Lemma data_op a i j : a < length (gd_tab d) -> i < N -> j < N ->
    ent (sector_op N T classes a) i j = comb m rho (fun e => real (emb (zc (gd_tab d) (gd_ci d) a e))) i j.
  Proof.
    intros Ha Hi Hj. destruct data_parts as (_ & _ & _ & H). destruct HT as (T1 & T2 & T3).
    rewrite (sector_op_ent N m mu inv rho data_rep T classes (gd_cls d) data_classes
      (tab_perm _ _ _ _ _ _ _ _ H) T2) by assumption.
    apply comb_ext. intros e He. apply (coef_zc _ _ _ _ _ _ _ _ H T T3); assumption.
  Qed.

  Lemma data_op_sq a : square N (sector_op N T classes a).
  Proof.
    destruct data_parts as (_ & _ & _ & H). destruct HT as (T1 & T2 & T3).
    exact (sector_op_sq N m mu inv rho data_rep T classes (gd_cls d) data_classes (tab_perm _ _ _ _ _ _ _ _ H) T2 a).
  Qed.

  Lemma data_central a h : a < length (gd_tab d) -> central d a = true -> h < m ->
    meq (mmul (rho h) (sector_op N T classes a)) (mmul (sector_op N T classes a) (rho h)).
  Proof.
    intros Ha Hc Hh. unfold central in Hc. apply andb_true_iff in Hc as (C1 & C2). fold m mu inv in C1, C2.
    unfold check_central in C1. fold m mu inv in C1.
    pose proof data_rep as HR. pose proof (rep_grp _ _ _ _ _ HR) as HGr.
    destruct (data_op_sq a) as (P1 & P2). destruct (rep_sq _ _ _ _ _ HR h Hh) as (R1 & R2).
    set (p := sector_op N T classes a) in *.
    split; [transitivity N; [exact R1|symmetry; exact P1]|]. split; [transitivity N; [exact P2|symmetry; exact R2]|].
    intros i j Hi Hj. change (i < nrow (rho h)) in Hi. change (j < ncol p) in Hj. rewrite R1 in Hi. rewrite P2 in Hj.
    cbn [mmul ent]. rewrite P2, R2.
    set (x := fun e => real (emb (zc (gd_tab d) (gd_ci d) a e))).
    assert (Hp : forall i j, i < N -> j < N -> ent p i j = comb m rho x i j) by (intros; apply data_op; assumption).
    transitivity (ksum m (fun e => x e *c ent (rho (mu h e)) i j)).
    { transitivity (ksum N (fun k => ksum m (fun e => x e *c (ent (rho h) i k *c ent (rho e) k j)))).
      { apply ksum_ext. intros k Hk. rewrite Hp by assumption. unfold comb. rewrite <- ksum_mul_l. apply ksum_ext. intros; ring. }
      rewrite ksum_swap. apply ksum_ext. intros e He. rewrite ksum_mul_l. f_equal. apply (r_mul N m mu inv rho HR); assumption. }
    set (cj := fun e => mu (mu h e) (inv h)).
    assert (Hih : inv h < m) by (apply (inv_lt _ _ _ HGr); assumption).
    assert (Hcj : forall e, e < m -> cj e < m /\ mu (cj e) h = mu h e /\ x (cj e) = x e).
    { intros e He. pose proof (mu_lt _ _ _ HGr h e Hh He) as L1. split; [apply (mu_lt _ _ _ HGr); assumption|].
      pose proof (all_ok _ _ (all_ok _ _ C2 h Hh) e He) as E2. apply Nat.eqb_eq in E2.
      pose proof (all_ok _ _ (all_ok _ _ C1 h Hh) e He) as E1. apply geqb_eq in E1.
      split; [exact E2|]. unfold x. f_equal. f_equal. exact E1. }
    transitivity (ksum m (fun e => x e *c ent (rho (mu e h)) i j)).
    { rewrite <- (ksum_reindex m cj (fun e => x e *c ent (rho (mu e h)) i j)).
      - apply ksum_ext. intros e He. destruct (Hcj e He) as (_ & E2 & E3). rewrite E2, E3. reflexivity.
      - intros e He. apply Hcj. assumption.
      - intros e f He Hf E. destruct (Hcj e He) as (_ & E1 & _). destruct (Hcj f Hf) as (_ & F1 & _).
        rewrite E, F1 in E1. rewrite <- (mu_inv_l _ _ _ HGr h e Hh He), <- (mu_inv_l _ _ _ HGr h f Hh Hf), E1. reflexivity. }
    transitivity (ksum N (fun k => ksum m (fun e => x e *c (ent (rho e) i k *c ent (rho h) k j)))).
    { rewrite ksum_swap. apply ksum_ext. intros e He. rewrite ksum_mul_l. f_equal. symmetry. apply (r_mul N m mu inv rho HR); assumption. }
    apply ksum_ext. intros k Hk. rewrite Hp by assumption. unfold comb. rewrite <- ksum_mul_r. apply ksum_ext. intros; ring.
  Qed.

  Lemma data_action a k : a < length (gd_tab d) -> k < length (gd_cls d) -> action d a k = true ->
    meq (mmul (op_sum N (nth k classes [])) (sector_op N T classes a))
        (mscale (real (INR (length (nth k classes [])) / INR (nth a (gd_dims d) O)) *c ent T a k) (sector_op N T classes a)).
  Proof.
    intros Ha Hk Hact. pose proof data_rep as HR. pose proof (rep_grp _ _ _ _ _ HR) as HGr.
    destruct data_parts as (_ & _ & _ & H). pose proof HT as (T1 & T2 & T3).
    destruct (data_op_sq a) as (P1 & P2). set (p := sector_op N T classes a) in *.
    pose proof data_classes as HF.
    assert (HFk : Forall2 (fun A e => meq A (rho e)) (nth k classes []) (nth k (gd_cls d) [])).
    { clear - HF. revert k. induction HF as [|c c' cl cl' Hc HF IH]; intros [|k]; cbn [nth]; auto. }
    assert (Hlt : forall e, In e (nth k (gd_cls d) []) -> e < m).
    { intros e He. assert (X : In e (concat (gd_cls d))).
      { apply in_concat. exists (nth k (gd_cls d) []). split; [apply nth_In; assumption|assumption]. }
      apply (Permutation_in _ (tab_perm _ _ _ _ _ _ _ _ H)) in X. apply in_seq in X. lia. }
    rewrite (Forall2_len _ _ _ HFk). set (cs := nth k classes []) in *. set (es := nth k (gd_cls d) []) in *.
    assert (Hsq : square N (op_sum N cs)).
    { apply op_sum_sq. intros A HA. clear - HFk HA Hlt HR. revert HA Hlt. induction HFk as [|B e l l' HB HF IH]; intros HA Hlt; [destruct HA|].
      destruct HA as [<-|HA]; [|apply IH; [assumption|intros; apply Hlt; right; assumption]].
      destruct (rep_sq _ _ _ _ _ HR e (Hlt e (or_introl eq_refl))). destruct HB as (B1 & B2 & _). split; congruence. }
    destruct Hsq as (S1 & S2).
    split; [transitivity N; [exact S1|symmetry; exact P1]|]. split; [reflexivity|]. intros i j Hi Hj.
    change (i < nrow (op_sum N cs)) in Hi. change (j < ncol p) in Hj. rewrite S1 in Hi. rewrite P2 in Hj.
    cbn [mmul mscale ent]. rewrite S2.
    set (x := fun e => real (emb (zc (gd_tab d) (gd_ci d) a e))).
    assert (Hp : forall i j, i < N -> j < N -> ent p i j = comb m rho x i j) by (intros; apply data_op; assumption).
    transitivity (klsum es (fun e => comb m rho (fun t => x (mu (inv e) t)) i j)).
    { transitivity (klsum es (fun e => ksum N (fun l => ent (rho e) i l *c comb m rho x l j))).
      - rewrite klsum_ksum. apply ksum_ext. intros l Hl. rewrite op_sum_ent, Hp by assumption.
        rewrite (class_sum_ent N m mu inv rho HR cs es i l HFk Hlt Hi Hl). rewrite klsum_mul_r. reflexivity.
      - apply klsum_ext. intros e He. apply (r_comb N m mu inv rho HR); auto. }
    rewrite Hp by assumption. unfold comb. rewrite klsum_ksum, <- ksum_mul_l. apply ksum_ext. intros t Ht.
    rewrite klsum_mul_r.
    assert (Hsum : klsum es (fun e => x (mu (inv e) t)) =
      real (emb (fold_right (fun e s => gadd (zc (gd_tab d) (gd_ci d) a (mu (inv e) t)) s) (gint 0) es))).
    { clear. induction es as [|e l IH]; cbn [klsum fold_right]; [rewrite emb_int; reflexivity|].
      rewrite IH, emb_add, real_add. reflexivity. }
    pose proof (all_ok _ _ Hact t Ht) as E. apply geqb_eq in E. fold mu inv es in E.
    apply (f_equal emb) in E. rewrite !emb_mul, !emb_int, <- !INR_IZR_INZ in E.
    destruct (g_dim _ _ _ _ _ _ _ _ H a Ha) as (D1 & D2 & D3).
    assert (D4 : (INR (nth a (gd_dims d) O) <> 0)%R) by (intros X; rewrite X in D1; lra).
    replace (klsum es (fun e => x (mu (inv e) t))) with (real (INR (length es) / INR (nth a (gd_dims d) O)) *c ent T a k *c x t); [ring|].
    rewrite Hsum, T3 by assumption. unfold x. rewrite <- !real_mul. f_equal.
    apply (Rmult_eq_reg_l (INR (nth a (gd_dims d) O))); [|assumption]. rewrite E. field. assumption.
  Qed.

  (** Every generator is one of the elements. *)
  Definition gens_listed : bool :=
    all (gd_ng d) (fun g => existsb (fun w => nats_eq w [g]) (gd_words d)).

  Lemma generator g : gens_listed = true -> g < gd_ng d -> exists e, e < m /\ meq (G g) (rho e).
  Proof.
    intros Hl Hg. pose proof (all_ok _ _ Hl g Hg) as E. apply existsb_exists in E as (w & Hw & E). apply nats_eq_true in E. subst w.
    apply (In_nth _ _ []) in Hw as (e & He & E). exists e. split; [exact He|]. unfold rho, word. rewrite E. cbn [weval].
    destruct (proj1 (proj1 (proj1 (proj1 HG g Hg)))) as (G1 & G2). symmetry. apply mmul_eye_r. exact G2.
  Qed.

  Theorem data_sectors : exists Bs, symmetry_projectors svd N T classes = Ok Bs /\ length Bs = length (gd_tab d) /\
    splits N Bs /\
    (forall a, a < length (gd_tab d) ->
       meq (mmul (madj (nth a Bs (mzero 0 0))) (nth a Bs (mzero 0 0)))
           (mscale (real (INR (nth a (gd_dims d) O) / INR m)) (sector_op N T classes a))) /\
    (forall H, square N H -> (forall g, g < gd_ng d -> meq (mmul (G g) H) (mmul H (G g))) -> block_diagonal Bs H) /\
    (forall a g, a < length (gd_tab d) -> g < gd_ng d -> gens_listed = true -> central d a = true ->
       let P := mmul (madj (nth a Bs (mzero 0 0))) (nth a Bs (mzero 0 0)) in meq (mmul (G g) P) (mmul P (G g))) /\
    (forall a k, a < length (gd_tab d) -> k < length (gd_cls d) -> action d a k = true ->
       acts_as (nth a Bs (mzero 0 0)) (op_sum N (nth k classes []))
         (real (INR (length (nth k classes [])) / INR (nth a (gd_dims d) O)) *c ent T a k)).
  Proof.
    destruct data_parts as (_ & HC & _ & H). pose proof HT as (T1 & T2 & T3).
    destruct (checked_projectors _ _ _ _ _ _ _ _ H N rho data_rep (fun e i j => data_signs e i j) T classes svd T1 T2 T3 data_classes Hsvd)
      as (Bs & E1 & E2 & E3 & E4 & E5 & E6).
    exists Bs. split; [exact E1|]. split; [exact E2|]. split; [exact E4|].
    assert (Hform : forall a, a < length (gd_tab d) ->
       meq (mmul (madj (nth a Bs (mzero 0 0))) (nth a Bs (mzero 0 0)))
           (mscale (real (INR (nth a (gd_dims d) O) / INR m)) (sector_op N T classes a))).
    { intros a Ha. destruct (E3 a Ha) as (_ & _ & E). etransitivity; [exact E|].
      replace (INR (nth a (gd_dims d) O) / INR m)%R with (/ g_of (gd_gs d) a)%R; [reflexivity|].
      destruct (g_dim _ _ _ _ _ _ _ _ H a Ha) as (D1 & D2 & D3). rewrite <- D1.
      assert (INR (nth a (gd_dims d) O) <> 0)%R by (intros X; rewrite X in D1; fold m in D3; lra).
      field. split; [assumption|lra]. }
    split; [exact Hform|]. split; [|split].
    - intros X HX Hcom. apply E5; [apply HX|apply HX|]. intros e _.
      apply (word_commute N G (gd_ng d) (proj1 HG) rs fuel_of _ _ _ HC X e HX Hcom).
    - intros a g Ha Hg Hl Hcen P. destruct (generator g Hl Hg) as (e & He & Eg).
      pose proof (data_central a e Ha Hcen He) as Ec. destruct (data_op_sq a) as (P1 & P2).
      destruct (rep_sq _ _ _ _ _ data_rep e He) as (R1 & R2).
      pose proof (Hform a Ha) as EP. fold P in EP. set (c := (INR (nth a (gd_dims d) O) / INR m)%R) in *.
      assert (Pr : nrow P = N) by (rewrite (meq_nrow _ _ EP); exact P1).
      assert (Pc : ncol P = N) by (rewrite (meq_ncol _ _ EP); exact P2).
      assert (Gr : nrow (G g) = N) by (rewrite (meq_nrow _ _ Eg); exact R1).
      assert (Gc : ncol (G g) = N) by (rewrite (meq_ncol _ _ Eg); exact R2).
      etransitivity; [apply mm; [exact Eg|congruence|exact EP]|].
      etransitivity; [apply mmul_scale_r|].
      etransitivity; [apply mscale_meq; exact Ec|].
      etransitivity; [symmetry; apply mmul_scale_l|].
      symmetry. apply mm; [exact EP|congruence|exact Eg].
    - intros a k Ha Hk Hact. pose proof (data_action a k Ha Hk Hact) as Ea. destruct (data_op_sq a) as (P1 & P2).
      apply E6; [assumption| | |exact Ea].
      + transitivity (nrow (sector_op N T classes a)); [exact (meq_nrow _ _ Ea)|exact P1].
      + destruct (op_sum_sq N (nth k classes [])) as (_ & X); [|exact X].
        intros A HA. apply (classes_sq N m mu inv rho data_rep T classes (gd_cls d) data_classes (tab_perm _ _ _ _ _ _ _ _ H) T2 (nth k classes [])); [|exact HA].
        apply nth_In. rewrite (Forall2_len _ _ _ data_classes). assumption.
  Qed.
End Data.

(** ** The dihedral groups *)
Definition dihedral_rules (n : nat) : list (wexp * wexp) :=
  [(WPow (WGen 0) n, WOne); (WPow (WGen 1) 2, WOne); (WMul (WGen 1) (WGen 0), WMul (WPow (WGen 0) (n - 1)) (WGen 1))].
Definition dihedral_words (n : nat) : list (list nat) :=
  map (fun k => repeat 0 k) (seq 0 n) ++ map (fun k => repeat 0 k ++ [1]) (seq 0 n).
Definition ints (rows : list (list Z)) : list (list gold) := map (map gint) rows.

Definition rR := WGen 0. Definition rS := WGen 1.
Definition rk (k : nat) := WPow rR k. Definition rks (k : nat) := WMul (rk k) rS.

Definition d2_exps := [[WOne]; [rR]; [rS]; [WMul rR rS]].
Definition d2_ints : list (list Z) := [[1;  1;  1;  1]; [1;  1; -1; -1]; [1; -1;  1; -1]; [1; -1; -1;  1]]%Z.
Definition d2_data := Eval vm_compute in mk_data 2 (dihedral_rules 2) fuel_of (dihedral_words 2) d2_exps (ints d2_ints) [1; 1; 1; 1].
Definition d3_exps := [[WOne]; [rR; rk 2]; [rS; WMul rR rS; rks 2]].
Definition d3_ints : list (list Z) := [[1;  1;  1]; [1;  1; -1]; [2; -1;  0]]%Z.
Definition d3_data := Eval vm_compute in mk_data 2 (dihedral_rules 3) fuel_of (dihedral_words 3) d3_exps (ints d3_ints) [1; 1; 2].
Definition d4_exps := [[WOne]; [rR; rk 3]; [rk 2]; [rS; rks 2]; [WMul rR rS; rks 3]].
Definition d4_ints : list (list Z) :=
  [[1;  1;  1;  1;  1]; [1;  1;  1; -1; -1]; [1; -1;  1;  1; -1]; [1; -1;  1; -1;  1]; [2;  0; -2;  0;  0]]%Z.
Definition d4_data := Eval vm_compute in mk_data 2 (dihedral_rules 4) fuel_of (dihedral_words 4) d4_exps (ints d4_ints) [1; 1; 1; 1; 2].
Definition d5_exps := [[WOne]; [rS; WMul rR rS; rks 2; rks 3; rks 4]; [rR; rk 4]; [rk 2; rk 3]].
Definition d5_tab : list (list gold) :=
  [[(1, 0); (1, 0); (1, 0); (1, 0)]; [(1, 0); (-1, 0); (1, 0); (1, 0)];
   [(2, 0); (0, 0); (0, -1); (-1, 1)]; [(2, 0); (0, 0); (-1, 1); (0, -1)]]%Z.
Definition d5_data := Eval vm_compute in mk_data 2 (dihedral_rules 5) fuel_of (dihedral_words 5) d5_exps d5_tab [1; 1; 2; 2].
Definition d6_exps := [[WOne]; [rk 3]; [WMul rR rS; rks 3; rks 5]; [rS; rks 2; rks 4]; [rk 2; rk 4]; [rR; rk 5]].
Definition d6_ints : list (list Z) :=
  [[1;  1;  1;  1;  1;  1]; [1;  1; -1; -1;  1;  1]; [1; -1; -1;  1;  1; -1];
   [1; -1;  1; -1;  1; -1]; [2;  2;  0;  0; -1; -1]; [2; -2;  0;  0; -1;  1]]%Z.
Definition d6_data := Eval vm_compute in mk_data 2 (dihedral_rules 6) fuel_of (dihedral_words 6) d6_exps (ints d6_ints) [1; 1; 1; 1; 2; 2].

Lemma d2_check : check_data d2_data = true /\ gens_listed d2_data = true /\ all 4 (central d2_data) = true /\
  all 4 (fun a => all 4 (action d2_data a)) = true.
Proof. split; [|split; [|split]]; vm_compute; reflexivity. Qed.
Lemma d3_check : check_data d3_data = true /\ gens_listed d3_data = true /\ all 3 (central d3_data) = true /\
  all 3 (fun a => all 3 (action d3_data a)) = true.
Proof. split; [|split; [|split]]; vm_compute; reflexivity. Qed.
Lemma d4_check : check_data d4_data = true /\ gens_listed d4_data = true /\ all 5 (central d4_data) = true /\
  all 5 (fun a => all 5 (action d4_data a)) = true.
Proof. split; [|split; [|split]]; vm_compute; reflexivity. Qed.
Lemma d5_check : check_data d5_data = true /\ gens_listed d5_data = true /\ all 4 (central d5_data) = true /\
  all 4 (fun a => all 4 (action d5_data a)) = true.
Proof. split; [|split; [|split]]; vm_compute; reflexivity. Qed.
Lemma d6_check : check_data d6_data = true /\ gens_listed d6_data = true /\ all 6 (central d6_data) = true /\
  all 6 (fun a => all 6 (action d6_data a)) = true.
Proof. split; [|split; [|split]]; vm_compute; reflexivity. Qed.

(** ** The torus; generators x, y, r, s *)
Definition tX := WGen 0. Definition tY := WGen 1. Definition tR := WGen 2. Definition tS := WGen 3.
Definition torus_rules (ccw : bool) : list (wexp * wexp) :=
  [(WPow tX 3, WOne); (WPow tY 3, WOne); (WPow tR 4, WOne); (WPow tS 2, WOne);
   (WMul tY tX, WMul tX tY); (WMul tS tR, WMul (WPow tR 3) tS);
   (WMul tS tX, WMul (WPow tX 2) tS); (WMul tS tY, WMul tY tS)] ++
  (if ccw then [(WMul tR tX, WMul tY tR); (WMul tR tY, WMul (WPow tX 2) tR)]
   else [(WMul tR tX, WMul (WPow tY 2) tR); (WMul tR tY, WMul tX tR)]).
Definition torus_words : list (list nat) :=
  flat_map (fun d => flat_map (fun c => flat_map (fun b => map (fun a =>
    repeat 0 a ++ repeat 1 b ++ repeat 2 c ++ repeat 3 d) (seq 0 3)) (seq 0 3)) (seq 0 4)) (seq 0 2).
Definition x2 := WPow tX 2. Definition y2 := WPow tY 2. Definition r2 := WPow tR 2. Definition r3 := WPow tR 3.
Definition p3 a b c := WMul (WMul a b) c. Definition p4 a b c d := WMul (p3 a b c) d.
Definition torus_exps : list (list wexp) :=
  [[WOne];
   [WMul tR tS; WMul r3 tS; p4 tX y2 tR tS; p4 x2 tY tR tS; p4 tX tY r3 tS; p4 x2 y2 r3 tS];
   [r2; WMul tX r2; WMul x2 r2; WMul tY r2; WMul y2 r2; p3 tX tY r2; p3 tX y2 r2; p3 x2 tY r2; p3 x2 y2 r2];
   [tS; WMul r2 tS; WMul tX tS; WMul x2 tS; p3 tY r2 tS; p3 y2 r2 tS];
   [tR; r3; WMul tX tR; WMul x2 tR; WMul tY tR; WMul y2 tR; p3 tX tY tR; p3 tX y2 tR; p3 x2 tY tR; p3 x2 y2 tR;
    WMul tX r3; WMul x2 r3; WMul tY r3; WMul y2 r3; p3 tX tY r3; p3 tX y2 r3; p3 x2 tY r3; p3 x2 y2 r3];
   [WMul tX tY; WMul x2 tY; WMul tX y2; WMul x2 y2];
   [p3 tX tR tS; p3 x2 tR tS; p3 tY tR tS; p3 y2 tR tS; p4 tX tY tR tS; p4 x2 y2 tR tS;
    p3 tX r3 tS; p3 x2 r3 tS; p3 tY r3 tS; p3 y2 r3 tS; p4 tX y2 r3 tS; p4 x2 tY r3 tS];
   [WMul tY tS; WMul y2 tS; p3 tX tY tS; p3 tX y2 tS; p3 x2 tY tS; p3 x2 y2 tS;
    p3 tX r2 tS; p3 x2 r2 tS; p4 tX tY r2 tS; p4 tX y2 r2 tS; p4 x2 tY r2 tS; p4 x2 y2 r2 tS];
   [tX; x2; tY; y2]].
Definition torus_ints : list (list Z) :=
  [[1;  1;  1;  1;  1;  1;  1;  1;  1]; [1; -1;  1; -1;  1;  1; -1; -1;  1]; [1; -1;  1;  1; -1;  1; -1;  1;  1];
   [1;  1;  1; -1; -1;  1;  1; -1;  1]; [2;  0; -2;  0;  0;  2;  0;  0;  2]; [4; -2;  0;  0;  0;  1;  1;  0; -2];
   [4;  0;  0; -2;  0; -2;  0;  1;  1]; [4;  0;  0;  2;  0; -2;  0; -1;  1]; [4;  2;  0;  0;  0;  1; -1;  0; -2]]%Z.
Definition torus_dims := [1; 1; 1; 1; 2; 4; 4; 4; 4].
Definition torus_cw := Eval vm_compute in
  mk_data 4 (torus_rules false) fuel_of torus_words torus_exps (ints torus_ints) torus_dims.
Definition torus_ccw := Eval vm_compute in
  mk_data 4 (torus_rules true) fuel_of torus_words torus_exps (ints torus_ints) torus_dims.

Lemma torus_cw_check : check_data torus_cw = true /\ gens_listed torus_cw = true /\ all 9 (central torus_cw) = true /\
  all 9 (fun a => all 9 (action torus_cw a)) = true.
Proof. split; [|split; [|split]]; vm_compute; reflexivity. Qed.
Lemma torus_ccw_check : check_data torus_ccw = true /\ gens_listed torus_ccw = true /\
  all 9 (fun a => Bool.eqb (central torus_ccw a) (negb ((a =? 5) || (a =? 8)))) = true.
Proof. split; [|split]; vm_compute; reflexivity. Qed.

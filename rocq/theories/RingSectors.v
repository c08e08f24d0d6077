(** The sectors of a ring of spins. *)
From Coq Require Import List Arith Lia ZArith Reals Lra Bool Ring Setoid Morphisms Permutation Sorted.
From Verif Require Import Scalars Sums Res Matrix SpecMat ModelBase ModelPhase ModelSymmetry SpecSymmetry
  GeoPhase SymBase SymReduce SymMany SymGroup SymRep SymTable SymZn SymTrans SymTrans2 Nested Nested2 ModelChain SpecChain SubspaceProofs.
Import ListNotations.
Local Open Scope R_scope.

Lemma rest_spec k : at_rest k = true <-> k = 0 \/ k = PI.
Proof. unfold at_rest. destruct (Req_EM_T k 0); [tauto|]. destruct (Req_EM_T k PI); [tauto|]. split; [discriminate|tauto]. Qed.
Lemma rest_square k : k = 0 \/ k = PI -> cexp (- k) *c cexp (- k) = c1.
Proof.
  intros H. change (?x *c ?y) with (cr_mul x y). rewrite cexp_mul. unfold cexp. rewrite <- Ropp_plus_distr, cos_neg, sin_neg.
  destruct H as [->| ->]; [rewrite Rplus_0_r, cos_0, sin_0|replace (PI + PI) with (2 * PI) by ring; rewrite cos_2PI, sin_2PI]; rewrite Ropp_0; reflexivity.
Qed.
Lemma two_ks k : (k < 2)%nat -> let p := nth k (zn_ks 2) 0 in (parity p = 1 \/ parity p = -1) /\ cexp (- p) = (parity p, 0).
Proof.
  intros Hk p. unfold p. rewrite zn_ks_nth by exact Hk. unfold parity, cexp. rewrite cos_neg, sin_neg.
  destruct k as [|[|k]]; [| |lia].
  - replace (2 * PI * INR 0 / INR 2) with 0 by (cbn; field). rewrite cos_0, sin_0, Ropp_0. split; [left; reflexivity|reflexivity].
  - replace (2 * PI * INR 1 / INR 2) with PI by (cbn; field). rewrite cos_PI, sin_PI, Ropp_0. split; [right; reflexivity|reflexivity].
Qed.

Lemma rmap_Forall2 {A C} (f : A -> res C) (P : A -> C -> Prop) l :
  (forall k, (k < length l)%nat -> forall x, nth_error l k = Some x -> exists y, f x = Ok y /\ P x y) ->
  exists ys, rmap f l = Ok ys /\ Forall2 P l ys.
Proof.
  intros H. apply rmap_build. intros x Hx. apply In_nth_error in Hx as (k & Hk). apply (H k); [|exact Hk].
  apply nth_error_Some. congruence.
Qed.
Lemma combine_entry {A C} (l : list A) (l' : list C) a c k x : length l = length l' -> nth_error (combine l l') k = Some x ->
  (k < length l)%nat /\ x = (nth k l a, nth k l' c).
Proof.
  intros E Hk. assert (L : (k < length (combine l l'))%nat) by (apply nth_error_Some; congruence).
  rewrite combine_length, <- E, Nat.min_id in L. split; [exact L|].
  apply (nth_error_nth _ _ (a, c)) in Hk. rewrite combine_nth in Hk by exact E. congruence.
Qed.
Lemma map_combine_fst {A C D} (g : A -> D) (l : list A) (l' : list C) : length l = length l' ->
  map (fun x => g (fst x)) (combine l l') = map g l.
Proof. revert l'. induction l as [|x l IH]; intros [|y l'] H; cbn; try discriminate; [reflexivity|]. f_equal. apply IH. injection H. auto. Qed.
Lemma Forall2_map_l {A C D} (g : A -> D) (P : D -> C -> Prop) l l' : Forall2 (fun a c => P (g a) c) l l' -> Forall2 P (map g l) l'.
Proof. induction 1; cbn; constructor; assumption. Qed.
Lemma Forall2_map_r {A C D} (g : C -> D) (P : A -> D -> Prop) l l' : Forall2 (fun a c => P a (g c)) l l' -> Forall2 P l (map g l').
Proof. induction 1; cbn; constructor; assumption. Qed.
Lemma filter_map_comm {A C} (g : A -> C) (p : C -> bool) l : filter p (map g l) = map g (filter (fun x => p (g x)) l).
Proof. induction l as [|x l IH]; cbn; [reflexivity|]. rewrite IH. destruct (p (g x)); reflexivity. Qed.

Section Ring.
  Variables (svd : cmat -> cmat) (N n : nat) (Sz T F I : cmat).
  Hypothesis Hn : (0 < n)%nat.
  Hypothesis RS : ring_symmetries N n Sz T F I.

  (** Operators every sector should keep. *)
  Definition invariant (H : cmat) : Prop :=
    square N H /\ meq (mmul Sz H) (mmul H Sz) /\ meq (mmul T H) (mmul H T) /\ meq (mmul F H) (mmul H F) /\ meq (mmul I H) (mmul H I).
  Definition fine (s : sector) : Prop :=
    (0 < nrow (se_rows s))%nat /\ labelled n Sz T F I (se_rows s) (se_mz s) (se_k s) (se_spin s) (se_space s) /\
    forall H, invariant H -> keeps N (se_rows s) H.
  Definition answer (B : cmat) (r : res (list sector)) : Prop :=
    exists ss, r = Ok ss /\ refines N B (map se_rows ss) /\ forall s, In s ss -> fine s.

  Lemma inversion_ok C mz k spin : good N C -> (forall H, invariant H -> keeps N C H) -> acts_as C Sz mz ->
    (exists l, (l < n)%nat /\ k = 2 * PI * INR l / INR n) -> acts_as C T (cexp (- k)) ->
    (mz = k0 -> (spin = 1 \/ spin = -1) /\ acts_as C F (spin, 0)) -> (mz <> k0 -> spin = 0) ->
    (k = 0 \/ k = PI -> keeps N C I) ->
    answer C (by_inversion svd I C mz k spin).
  Proof.
    destruct RS as (DS & MT & MF & MI & PT & PF & PI' & TS & IS & FS & TF & FI & TIT).
    intros G KH AS HK AT AF NF KI. unfold by_inversion.
    destruct (Nat.eqb_spec (nrow C) 0) as [E0|E0].
    { exists []. split; [reflexivity|]. split; [apply refines_empty; exact E0|intros s []]. }
    destruct (at_rest k) eqn:Rk.
    - apply rest_spec in Rk. specialize (KI Rk).
      destruct (step N C I 2 svd G KI MI PI' ltac:(lia)) as (Qs & E & HL & RF & FS').
      change (in_basis C I) with (compress C I). rewrite E. cbn [bind].
      assert (LK : length Qs = length (zn_ks 2)) by (rewrite zn_ks_length; exact HL).
      eexists. split; [reflexivity|]. split.
      + rewrite (filter_map_comm (fun qk : cmat * R => Sector (mmul (fst qk) C) mz k spin (parity (snd qk)))). cbn [se_rows].
        rewrite map_map. cbn [se_rows].
        rewrite <- (filter_map_comm (fun qk : cmat * R => mmul (fst qk) C) (fun D => negb (nrow D =? 0)%nat)).
        apply refines_filter. rewrite (map_combine_fst (fun q => mmul q C)) by exact LK. exact RF.
      + intros s Hs. apply filter_In in Hs as (Hs & Hne). apply in_map_iff in Hs as (qk & <- & Hq).
        apply In_nth_error in Hq as (a & Ha). apply (combine_entry _ _ (mzero 0 0) 0) in Ha as (Ha & ->); [|exact LK].
        rewrite HL in Ha. cbn [fst snd se_rows] in *. destruct (FS' a Ha) as (GC & AI & INH & KC & _). destruct (two_ks a Ha) as (W1 & W2).
        split; [cbn [se_rows]; destruct (Nat.eqb_spec (nrow (mmul (nth a Qs (mzero 0 0)) C)) 0); [discriminate|lia]|].
        split; [|intros H IH; cbn [se_rows]; apply KC; [apply KH; exact IH|apply IH]].
        unfold labelled. cbn [se_rows se_mz se_k se_spin se_space].
        split; [apply INH; [apply DS|exact AS]|]. split; [exact HK|]. split; [apply INH; [apply MT|exact AT]|].
        split; [intros Z; destruct (AF Z) as (Z1 & Z2); split; [exact Z1|apply INH; [apply MF|exact Z2]]|].
        split; [exact NF|]. split; [|intros; exfalso; tauto].
        intros _. split; [exact W1|]. rewrite <- W2. exact AI.
    - assert (NR : ~ (k = 0 \/ k = PI)) by (intros Z; apply rest_spec in Z; congruence).
      eexists. split; [reflexivity|]. split; [apply refines_refl; exact G|]. intros s [<-|[]].
      split; [cbn [se_rows]; lia|]. split; [|exact KH].
      unfold labelled. cbn [se_rows se_mz se_k se_spin se_space]. repeat (split; [assumption|]). split; [intros; tauto|reflexivity].
  Qed.

  Lemma answer_concat {A} (B : cmat) (g : A -> cmat) (f : A -> res (list sector)) (l : list A) :
    ncol B = N -> refines N B (map g l) -> (forall x, In x l -> answer (g x) (f x)) ->
    answer B (parts <- rmap f l ;; Ok (concat parts)).
  Proof.
    intros HB RF HA.
    destruct (rmap_build f (fun x ss => refines N (g x) (map se_rows ss) /\ forall s, In s ss -> fine s) l) as (yss & E & F2).
    { intros x Hx. destruct (HA x Hx) as (ss & E & W). exists ss. split; assumption. }
    rewrite E. cbn [bind]. exists (concat yss). split; [reflexivity|]. split.
    - rewrite concat_map. apply (refines_concat N B (map g l)); [exact HB|exact RF|].
      apply Forall2_map_l, Forall2_map_r. refine (Forall2_impl' _ _ _ _ _ F2). intros x ss _ (W & _). exact W.
    - intros s Hs. apply in_concat in Hs as (ss & Hss & Hs). destruct (Forall2_in_l _ _ _ _ F2 Hss) as (x & _ & (_ & W)). apply W. exact Hs.
  Qed.

  Lemma flip_ok C mz k : good N C -> (forall H, invariant H -> keeps N C H) -> acts_as C Sz mz ->
    (exists l, (l < n)%nat /\ k = 2 * PI * INR l / INR n) -> acts_as C T (cexp (- k)) ->
    (mz = k0 -> keeps N C F) -> (k = 0 \/ k = PI -> keeps N C I) ->
    answer C (by_flip svd F I C mz k).
  Proof.
    intros G KH AS HK AT KF KI.
    unfold by_flip. destruct (keq_dec mz k0) as [Z|Z].
    - specialize (KF Z). pose proof RS as (DS & MT & MF & MI & PT & PF & PI' & TS & IS & FS & TF & FI & TIT).
      destruct (step N C F 2 svd G KF MF PF ltac:(lia)) as (Qs & E & HL & RF & FS').
      change (in_basis C F) with (compress C F). rewrite E. cbn [bind].
      assert (LK : length Qs = length (zn_ks 2)) by (rewrite zn_ks_length; exact HL).
      apply (answer_concat C (fun qk => mmul (fst qk) C)); [apply G|rewrite (map_combine_fst (fun q => mmul q C)) by exact LK; exact RF|].
      intros x Hx. apply In_nth_error in Hx as (a & Ha). apply (combine_entry _ _ (mzero 0 0) 0) in Ha as (Ha & ->); [|exact LK].
      rewrite HL in Ha. cbn [fst snd]. destruct (FS' a Ha) as (GC & AI & INH & KC & _). destruct (two_ks a Ha) as (W1 & W2).
      apply inversion_ok; [exact GC| | |exact HK| | | |].
      + intros H IH. apply KC; [apply KH; exact IH|apply IH].
      + apply INH; [apply DS|exact AS].
      + apply INH; [apply MT|exact AT].
      + intros _. split; [exact W1|]. rewrite <- W2. exact AI.
      + intros Z'. contradiction.
      + intros R. apply KC; [apply KI; exact R|exact FI].
    - apply inversion_ok; try assumption; [intros; contradiction|reflexivity].
  Qed.

  Lemma momentum_ok P mz : good N P -> (forall H, invariant H -> keeps N P H) -> acts_as P Sz mz ->
    keeps N P T -> keeps N P I -> (mz = k0 -> keeps N P F) ->
    answer P (by_momentum svd T F I n P mz).
  Proof.
    intros G KH AS KT KI KF. pose proof RS as (DS & MT & MF & MI & PT & PF & PI' & TS & IS & FS & TF & FI & TIT).
    unfold by_momentum. destruct (step N P T n svd G KT MT PT Hn) as (Qs & E & HL & RF & FS').
    change (in_basis P T) with (compress P T). rewrite E. cbn [bind].
    assert (LK : length Qs = length (zn_ks n)) by (rewrite zn_ks_length; exact HL).
    apply (answer_concat P (fun qk => mmul (fst qk) P)); [apply G|rewrite (map_combine_fst (fun q => mmul q P)) by exact LK; exact RF|].
    intros x Hx. apply In_nth_error in Hx as (a & Ha). apply (combine_entry _ _ (mzero 0 0) 0) in Ha as (Ha & ->); [|exact LK].
    rewrite HL in Ha. cbn [fst snd]. destruct (FS' a Ha) as (GC & AI & INH & KC & KTW).
    apply flip_ok; [exact GC| | | |exact AI| |].
    - intros H IH. apply KC; [apply KH; exact IH|apply IH].
    - apply INH; [apply DS|exact AS].
    - exists a. split; [exact Ha|]. apply zn_ks_nth. exact Ha.
    - intros Z. apply KC; [apply KF; exact Z|exact TF].
    - intros R. apply KTW; [exact KI|exact TIT|apply rest_square; exact R].
  Qed.

  (** ** The magnetisations. *)
  Lemma keeps_diag P v X : meq (mmul (madj P) P) (mdiag N (fun k => if keq_dec (ent Sz k k) v then k1 else k0)) -> square N X ->
    (forall i j, (i < N)%nat -> (j < N)%nat -> ent X i j <> c0 -> (ent Sz i i = v <-> ent Sz j j = v)) -> keeps N P X.
  Proof.
    intros E (X1 & X2) HX. split; [split; assumption|].
    assert (E1 : ncol P = N) by (destruct E as (E & _); exact E).
    etransitivity; [apply mm; [exact E|dims|reflexivity]|].
    etransitivity; [|symmetry; apply mm; [reflexivity|dims|exact E]].
    split; [cbn; congruence|]. split; [cbn; congruence|]. cbn [mmul mdiag nrow ncol ent]. rewrite X2. intros i j Hi Hj.
    rewrite (ksum_single N i); [|exact Hi|].
    2:{ intros l Hl Hne. destruct (Nat.eqb_spec i l); [congruence|]. ring. }
    rewrite (ksum_single N j); [|exact Hj|].
    2:{ intros l Hl Hne. destruct (Nat.eqb_spec l j); [congruence|]. ring. }
    rewrite !Nat.eqb_refl. destruct (cr_eq_dec (ent X i j) c0) as [Z|Z]; [change (0,0) with c0 in Z; rewrite Z; ring|].
    specialize (HX i j Hi Hj Z). destruct (keq_dec (ent Sz i i) v), (keq_dec (ent Sz j j) v); try ring; exfalso; tauto.
  Qed.
  Lemma diag_commute X : diagonal_mat N Sz -> square N X -> meq (mmul X Sz) (mmul Sz X) -> forall i j, (i < N)%nat -> (j < N)%nat ->
    ent X i j <> c0 -> ent Sz i i = ent Sz j j.
  Proof.
    intros ((S1 & S2) & D) (X1 & X2) (_ & _ & E) i j Hi Hj Hne. specialize (E i j). cbn [mmul nrow ncol ent] in E.
    rewrite X1, X2, S2 in E. specialize (E Hi Hj).
    rewrite (ksum_single N j) in E; [|exact Hj|intros l Hl Hlj; rewrite D by assumption; ring].
    rewrite (ksum_single N i) in E; [|exact Hi|intros l Hl Hli; rewrite (D i l) by auto; ring].
    apply (mul_cancel (ent X i j)); [exact Hne|]. rewrite E. ring.
  Qed.
  Lemma diag_reverse X : diagonal_mat N Sz -> square N X -> meq (mmul X Sz) (mscale (kopp k1) (mmul Sz X)) -> forall i j, (i < N)%nat -> (j < N)%nat ->
    ent X i j <> c0 -> ent Sz j j = kopp (ent Sz i i).
  Proof.
    intros ((S1 & S2) & D) (X1 & X2) (_ & _ & E) i j Hi Hj Hne. specialize (E i j). cbn [mmul mscale nrow ncol ent] in E.
    rewrite X1, X2, S2 in E. specialize (E Hi Hj).
    rewrite (ksum_single N j) in E; [|exact Hj|intros l Hl Hlj; rewrite D by assumption; ring].
    rewrite (ksum_single N i) in E; [|exact Hi|intros l Hl Hli; rewrite (D i l) by auto; ring].
    apply (mul_cancel (ent X i j)); [exact Hne|]. rewrite E. ring.
  Qed.

  Theorem sectors_answer : answer (meye N) (chain_sectors svd Sz T F I n).
  Proof.
    pose proof RS as (DS & MT & MF & MI & PT & PF & PI' & TS & IS & FS & TF & FI & TIT).
    destruct (projs_spec N Sz None DS) as (ps & vs & E & HL & _ & HV & HP & HS).
    destruct (HV eq_refl) as (ND & _). specialize (HS eq_refl).
    unfold chain_sectors. rewrite E. cbn [bind fst snd].
    assert (HP' : forall k, (k < length ps)%nat -> let P := nth k ps (mzero 0 0) in
      exists idx, rows_are N P idx /\ (forall a, In a idx <-> (a < N)%nat /\ ent Sz a a = nth k vs k0) /\ NoDup idx /\ good N P /\
        meq (mmul (madj P) P) (mdiag N (fun a => if keq_dec (ent Sz a a) (nth k vs k0) then k1 else k0))).
    { intros k Hk P. rewrite HL in Hk. destruct (HP k Hk) as (idx & Q1 & Q2 & Q3 & Q4 & Q5 & Q6). exists idx.
      split; [exact Q3|]. split; [exact Q2|].
      assert (NDI : NoDup idx).
      { clear - Q1. induction Q1 as [|a l H IH W]; constructor; [|exact IH]. intros Z. rewrite Forall_forall in W. specialize (W a Z). lia. }
      split; [exact NDI|]. split; [|exact Q5]. destruct Q3 as (W1 & W2 & W3).
      split; [exact W2|]. split; [fold P in W1; rewrite W1; exact Q4|].
      intros a b j Ha Hb Hj Xa Xb. unfold P in *. rewrite W1 in Ha, Hb. rewrite W3 in Xa, Xb by assumption.
      destruct (Nat.eqb_spec (nth a idx 0%nat) j); [|congruence]. destruct (Nat.eqb_spec (nth b idx 0%nat) j); [|congruence].
      apply (proj1 (NoDup_nth idx 0%nat) NDI); congruence. }
    apply (answer_concat (meye N) (fun x => fst x)); [reflexivity| |].
    - rewrite (map_combine_fst (fun p => p)), map_id by exact HL. split; [|split].
      + intros C HC. apply (In_nth _ _ (mzero 0 0)) in HC as (k & Hk & <-). destruct (HP' k Hk) as (idx & _ & _ & _ & G & _).
        split; [exact G|]. unfold inside. destruct G as (G1 & _).
        etransitivity; [apply mm; [reflexivity|cbn [mmul madj meye nrow ncol]; symmetry; exact G1|]|apply mmul_eye_r; exact G1].
        split; [reflexivity|]. split; [reflexivity|]. cbn [mmul madj meye nrow ncol ent]. intros i j Hi Hj.
        rewrite (ksum_single N i); [|exact Hi|].
        * rewrite Nat.eqb_refl. destruct (i =? j)%nat; cbn [kb]; rewrite kconj_1; ring.
        * intros l Hl Hne. destruct (Nat.eqb_spec l i); [congruence|]. cbn [kb]. rewrite kconj_0. ring.
      + apply (nth_FOP _ (mzero 0 0)).
        assert (W : forall a b, (a < length ps)%nat -> (b < length ps)%nat -> a <> b ->
          meq (mmul (nth a ps (mzero 0 0)) (mmul (meye N) (madj (nth b ps (mzero 0 0))))) (mzero (nrow (nth a ps (mzero 0 0))) (nrow (nth b ps (mzero 0 0))))).
        { intros a b Ha Hb Hne. destruct (HP' a Ha) as (ia & (A1 & A2 & A3) & A4 & _). destruct (HP' b Hb) as (ib & (B1 & B2 & B3) & B4 & _).
          etransitivity; [apply mm; [reflexivity|cbn [mmul meye nrow]; congruence|apply mmul_eye_l; cbn; congruence]|].
          split; [reflexivity|]. split; [reflexivity|]. cbn [mmul madj mzero nrow ncol ent]. intros i j Hi Hj. rewrite A2.
          apply ksum_zero. intros l Hl. rewrite A1 in Hi. rewrite B1 in Hj. rewrite A3, B3 by assumption.
          destruct (Nat.eqb_spec (nth i ia 0%nat) l) as [Ea|]; [|ring]. destruct (Nat.eqb_spec (nth j ib 0%nat) l) as [Eb|]; [|rewrite kconj_0; ring].
          exfalso. apply Hne. pose proof (proj1 (A4 _) (nth_In ia 0%nat Hi)) as (_ & Va). pose proof (proj1 (B4 _) (nth_In ib 0%nat Hj)) as (_ & Vb).
          rewrite Ea in Va. rewrite Eb in Vb. apply (proj1 (NoDup_nth vs k0) ND); congruence. }
        intros a b Hab. split; apply W; lia.
      + intros i j Hi Hj. destruct HS as (_ & _ & HS).
        destruct (msum_ent N (map (fun P => mmul (madj P) P) ps) i j) as (M1 & M2 & M3).
        { intros A HA. apply in_map_iff in HA as (P & <- & HPi). apply (In_nth _ _ (mzero 0 0)) in HPi as (k & Hk & <-).
          destruct (HP' k Hk) as (idx & (W1 & W2 & _) & _). cbn. rewrite W2. split; reflexivity. }
        rewrite klsum_map in M3. rewrite <- M3, (HS i j) by (first [rewrite M1|rewrite M2]; assumption). cbn [mmul madj meye ent nrow ncol].
        rewrite (ksum_single N i); [|exact Hi|].
        * rewrite Nat.eqb_refl. destruct (i =? j)%nat; cbn [kb]; rewrite kconj_1; ring.
        * intros l Hl Hne. destruct (Nat.eqb_spec l i); [congruence|]. cbn [kb]. rewrite kconj_0. ring.
    - intros x Hx. apply In_nth_error in Hx as (k & Hk). apply (combine_entry _ _ (mzero 0 0) k0) in Hk as (Hk & ->); [|exact HL].
      cbn [fst snd]. destruct (HP' k Hk) as (idx & (W1 & W2 & W3) & W4 & W5 & G & DG). set (P := nth k ps (mzero 0 0)) in *. set (v := nth k vs k0) in *.
      assert (KC : forall X, square N X -> meq (mmul X Sz) (mmul Sz X) -> keeps N P X).
      { intros X SX CX. apply (keeps_diag P v X DG SX). intros i j Hi Hj Z. rewrite (diag_commute X DS SX CX i j Hi Hj Z). tauto. }
      apply momentum_ok; [exact G| | | | |].
      + intros H (H1 & H2 & _). apply KC; [exact H1|symmetry; exact H2].
      + destruct DS as ((S1 & S2) & D). split; [cbn; congruence|]. split; [reflexivity|]. cbn [mmul madj mscale nrow ncol ent].
        rewrite S1, S2. intros i j Hi Hj. rewrite (ksum_single N i); [|exact Hi|intros l Hl Hne; rewrite (D i l) by auto; ring].
        rewrite W1 in Hj. rewrite W3 by assumption. destruct (Nat.eqb_spec (nth j idx 0%nat) i) as [Z|Z]; [|rewrite kconj_0; ring].
        pose proof (proj1 (W4 _) (nth_In idx 0%nat Hj)) as (_ & V). rewrite Z in V. rewrite V. reflexivity.
      + apply KC; [apply MT|exact TS].
      + apply KC; [apply MI|exact IS].
      + intros Z. apply (keeps_diag P v F DG (proj1 (proj1 MF))). intros i j Hi Hj W.
        rewrite (diag_reverse F DS (proj1 (proj1 MF)) FS i j Hi Hj W). rewrite Z. split; intros Y; [rewrite Y; ring|].
        transitivity (kopp (kopp (ent Sz i i))); [ring|]. rewrite Y. ring.
  Qed.

  Theorem chain_ok : exists ss, chain_sectors svd Sz T F I n = Ok ss /\ splits N (map se_rows ss) /\
    (forall s, In s ss -> (0 < nrow (se_rows s))%nat /\
       labelled n Sz T F I (se_rows s) (se_mz s) (se_k s) (se_spin s) (se_space s)) /\
    (forall H, square N H -> meq (mmul Sz H) (mmul H Sz) -> meq (mmul T H) (mmul H T) -> meq (mmul F H) (mmul H F) -> meq (mmul I H) (mmul H I) ->
       block_diagonal (map se_rows ss) H).
  Proof.
    destruct sectors_answer as (ss & E & RF & FN). exists ss. split; [exact E|]. split; [apply refines_splits; exact RF|].
    split; [intros s Hs; destruct (FN s Hs) as (A & B & _); split; assumption|].
    intros H H1 H2 H3 H4 H5. apply (refines_blocks N (meye N)); [exact RF|]. intros C HC. apply in_map_iff in HC as (s & <- & Hs).
    apply (FN s Hs). split; [exact H1|]. split; [exact H2|]. split; [exact H3|]. split; assumption.
  Qed.
End Ring.

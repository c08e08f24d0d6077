(** Rates of change in thermal equilibrium, and the current after a quench. *)
From Coq Require Import List Arith Lia Reals Lra QArith Qreals Bool.
From Verif Require Import Scalars Res Sums Matrix SqMat SpecMat ModelGeometry ModelPhase ModelSymmetry SymBase ModelBase ModelFermions ModelThermal HamProofs FermiApi
  SpecThermal ThermalBase ThermalFacts ThermalBasis ThermalResponse Precess SpecLongtime Longtime SpecEcho Echo SpecRates Rates SpecPerm Sectors ModelCurrent SpecCurrent Current CurrentApi HopSigns SpecShells Shells.
From Verif Require Import ModelSymmetry SymBase ModelThermal SpecThermal ThermalBasis.
Import ListNotations.
Local Open Scope R_scope.

Lemma lsum_zero l : (forall x, In x l -> x = 0) -> ModelThermal.lsum l = 0.
Proof. induction l as [|x l IH]; intros Z; [reflexivity|]. cbn [ModelThermal.lsum fold_right]. fold (ModelThermal.lsum l). rewrite IH by (intros y Hy; apply Z; right; exact Hy). rewrite (Z x (or_introl eq_refl)). ring. Qed.
Lemma lmul_zero l m x : (forall x, In x l -> x = 0) -> In x (ModelThermal.lmul l m) -> x = 0.
Proof.
  revert m. induction l as [|y l IH]; intros m Z I; [destruct I|]. destruct m as [|w m]; [destruct I|]. destruct I as [<-|I]; [rewrite (Z y (or_introl eq_refl)); ring|]. apply (IH m); [intros u Hu; apply Z; right; exact Hu | exact I].
Qed.
Theorem thermal_null V O E T x : nrow O = nrow V -> ncol O = nrow V -> (forall k, (k < ncol V)%nat -> expect (nrow V) O (col V k) = 0) -> exp_vals_thermal V O E T = Ok x -> x = 0.
Proof.
  intros O1 O2 Z X. unfold exp_vals_thermal in X. destruct (thermal_weights true E T) as [(w, z)|]; [|discriminate]. cbn [bind] in X.
  assert (V0 : forall n ev, (n <= ncol V)%nat -> exp_vals (Columns (Mat (nrow V) n (ent V))) O = Ok ev -> forall y, In y ev -> y = 0).
  { intros n ev Hn EV y Hy. rewrite exp_vals_of in EV by assumption. injection EV as <-. cbn [as_columns ncol] in Hy. apply in_map_iff in Hy. destruct Hy as (k & <- & Hk). apply in_seq in Hk. rewrite O1. apply (Z k). lia. }
  destruct (is_zero T).
  - destruct (exp_vals (Columns (first_cols _ V)) O) as [ev|] eqn:EV; [|discriminate]. cbn [bind] in X. injection X as <-. rewrite lsum_zero; [unfold Rdiv; ring|]. apply (V0 _ ev (Nat.le_min_r _ _) EV).
  - destruct (exp_vals (Columns V) O) as [ev|] eqn:EV; [|discriminate]. cbn [bind] in X. destruct (length ev =? length w)%nat; [|discriminate]. injection X as <-. rewrite lsum_zero; [unfold Rdiv; ring|]. intros y Hy. apply (lmul_zero ev w y); [|exact Hy].
    destruct V as [nr nc en]. apply (V0 nc ev (le_n _) EV).
Qed.
Lemma level_rate H V E O k : eigenbasis H V E -> (k < ncol V)%nat -> expect (nrow V) (rate_op H O) (col V k) = 0.
Proof.
  intros B Hk. assert (NV : ncol V = length E) by apply B. change (fst (elem V (rate_op H O) (nrow V) k k) = 0). rewrite (elem_rate H V O E B) by lia. generalize (elem V O (nrow V) k k). intros (a, b). cbn. ring.
Qed.
Theorem equilibrium H V E O T x : eigenbasis H V E -> exp_vals_thermal V (rate_op H O) E T = Ok x -> x = 0.
Proof. intros B. assert (HN : nrow H = nrow V) by apply B. apply thermal_null; [exact HN | exact HN|]. intros k Hk. apply (level_rate H V E O k B Hk). Qed.

Section Current.
  Variables (f : fermions CR) (x y : nat -> Q) (tx ty : CR) (d : axis) (P : mat CR) (idx : list nat) (r : op_or_zero CR) (J H V : mat CR) (E : list R).
  Hypothesis op : open_bonds (f_geom f) x y.
  Hypothesis hp : hops_along f tx ty.
  Hypothesis us : us_ok f.
  Hypothesis sec : rows_are (nstates (f_sys f)) P idx.
  Hypothesis inside : forall a, In a idx -> (a < nstates (f_sys f))%nat.
  Hypothesis ER : current_op (Some tx) (Some ty) f (first_part d) (second_part d) = Ok r.
  Hypothesis EJ : sandwich P (as_matrix (nstates (f_sys f)) r) = Ok J.
  Hypothesis EH : createH f (Some P) = Ok H.
  Hypothesis basis : eigenbasis H V E.
  Notation N := (length idx).
  Notation px a := (place f (along d x y) (nth a idx 0%nat)).
  Lemma sizes : nrow V = N /\ nrow H = N /\ nrow J = N /\ ncol J = N.
  Proof using op hp us sec inside ER EJ EH basis.
    destruct (J_sec f x y tx ty op hp us d P idx r J H sec inside ER EJ EH) as (J1 & J2 & _). destruct (H_sec f us P idx H sec inside EH) as (H1 & _). assert (HN : nrow H = nrow V) by apply basis. repeat split; congruence.
  Qed.
  Lemma current_rate (X : mat CR) a b : (forall a b, (a < N)%nat -> (b < N)%nat -> ent X a b = if (a =? b)%nat then real (px a) else c0) -> (a < N)%nat -> (b < N)%nat -> ent J a b = ent (rate_op H X) a b.
  Proof using op hp us sec inside ER EJ EH basis.
    intros XE Ha Hb. destruct (J_sec f x y tx ty op hp us d P idx r J H sec inside ER EJ EH) as (_ & _ & J3). rewrite J3 by assumption. destruct sizes as (_ & HN & _). cbn [rate_op ent]. rewrite HN.
    rewrite (ksum_ext N _ (fun k => (if (k =? b)%nat then ent H a b *c real (px b) else c0) +c (if (k =? a)%nat then real (- px a) *c ent H a b else c0))).
    - rewrite ksum_add. rewrite (ksum_single N b _ Hb) by (intros k _ NE; rewrite (proj2 (Nat.eqb_neq _ _)) by exact NE; reflexivity). rewrite (ksum_single N a _ Ha) by (intros k _ NE; rewrite (proj2 (Nat.eqb_neq _ _)) by exact NE; reflexivity). rewrite !Nat.eqb_refl. generalize (ent H a b). intros (u, v). apply injective_projections; cbn; ring.
    - intros k Hk. rewrite (XE k b Hk Hb), (XE a k Ha Hk). destruct (Nat.eqb_spec k b) as [->|NB]; destruct (Nat.eqb_spec a b) as [->|NAB]; rewrite ?Nat.eqb_refl, ?(Nat.eqb_sym b a), ?(Nat.eqb_sym k a).
      + generalize (ent H b b), (px b). intros (u, v) q. apply injective_projections; cbn; ring.
      + rewrite ?(proj2 (Nat.eqb_neq a b)) by exact NAB. generalize (ent H a b), (px b), (ent H b b). intros (u, v) q (u', v'). apply injective_projections; cbn; ring.
      + rewrite (proj2 (Nat.eqb_neq b k)), (proj2 (Nat.eqb_neq k b)) by auto. generalize (ent H b k), (ent H k b). intros (u, v) (u', v'). apply injective_projections; cbn; ring.
      + destruct (Nat.eqb_spec a k) as [->|NK]; [generalize (ent H k k), (ent H k b), (px k) | generalize (ent H a k), (ent H k b), (px a)]; intros (u, v) (u', v') q; apply injective_projections; cbn; ring.
  Qed.
  Lemma expect_same A B psi : (forall a b, (a < N)%nat -> (b < N)%nat -> ent A a b = ent B a b) -> expect N A psi = expect N B psi.
  Proof using. clear. intros X. unfold expect, inner, apply. f_equal. apply ksum_ext. intros a Ha. f_equal. apply ksum_ext. intros b Hb. rewrite X by assumption. reflexivity. Qed.
  Theorem no_current T j : exp_vals_thermal V J E T = Ok j -> j = 0.
  Proof using op hp us sec inside ER EJ EH basis.
    destruct sizes as (VN & HN & J1 & J2). apply thermal_null; [congruence | congruence|]. intros k Hk. rewrite VN. rewrite (expect_same J (rate_op H (Mat N N (fun a b => if (a =? b)%nat then real (px a) else c0)))).
    - rewrite <- VN. apply (level_rate H V E _ k basis Hk).
    - intros a b Ha Hb. apply current_rate; try assumption. intros; reflexivity.
  Qed.
  Theorem current_motion X Y st k : position_op f (along d x y) X -> sandwich P X = Ok Y -> NoDup idx -> (k < ncol (as_columns st))%nat ->
    exists z z', (forall t, derivable_pt_lim z t (z' t)) /\
      forall times Ms v w, quench st V E times = Ok Ms -> exp_vals (Columns (nth k Ms (mzero 0 0))) Y = Ok v -> exp_vals (Columns (nth k Ms (mzero 0 0))) J = Ok w ->
        forall a, (a < length times)%nat -> nth a v 0 = z (nth a times 0) /\ nth a w 0 = z' (nth a times 0).
  Proof using op hp us sec inside ER EJ EH basis.
    intros PX EY ND Hk. destruct sizes as (VN & HN & J1 & J2). pose proof PX as ((X1 & X2) & _). destruct sec as (R1 & R2 & R3).
    destruct (sandwich_ok (nstates (f_sys f)) P X R2 (Logic.conj X1 X2)) as (t & Et & (S1 & S2) & Vt). rewrite EY in Et. injection Et as <-.
    assert (YE : forall a b, (a < N)%nat -> (b < N)%nat -> ent Y a b = if (a =? b)%nat then real (px a) else c0).
    { intros a b Ha Hb. rewrite Vt. rewrite (sand_rows (nstates (f_sys f)) P idx (ent X) a b sec inside Ha Hb). pose proof (inside _ (nth_In idx 0%nat Ha)) as Ia. pose proof (inside _ (nth_In idx 0%nat Hb)) as Ib. rewrite (states_D f) in Ia, Ib.
      rewrite (position_entry f (along d x y) X _ _ PX Ia Ib).
      destruct (Nat.eqb_spec a b) as [->|NE]; [rewrite Nat.eqb_refl; reflexivity|]. rewrite (proj2 (Nat.eqb_neq _ _)); [reflexivity|]. intros Q. apply NE. apply (proj1 (NoDup_nth idx 0%nat) ND); assumption. }
    exists (fun t => expect N Y (evolve V E (col (as_columns st) k) t)), (fun t => expect N J (evolve V E (col (as_columns st) k) t)). split.
    - intros t. rewrite (expect_same J (rate_op H Y)) by (intros a b Ha Hb; apply current_rate; assumption). rewrite <- VN. apply (motion H V Y E _ basis).
    - intros times Ms v w Q XV XW a Ha. rewrite <- VN. split; [apply (path_entries V E st times Ms k Y v Q Hk) | apply (path_entries V E st times Ms k J w Q Hk)]; try assumption; congruence.
  Qed.
End Current.

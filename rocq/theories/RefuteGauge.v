(** The sign of the hopping matters on a triangle. *)
From Coq Require Import List Arith Lia Reals Lra ZArith QArith Qabs Bool Permutation.
From Verif Require Import Scalars Res Matrix Sums SqMat SpecMat SpecFock OpsProofs FockProofs FermiOps ModelBase ModelFermions SpecSpins HamProofs FermiApi
  ModelGeometry ModelPhase ModelSymmetry SymBase ModelThermal SpecThermal ThermalBase ThermalBasis Spectral Thermo SpecFermiGas SpecShells HopSigns Shells SpecGauge Gauge GaugeRun.
From Verif Require SymAverage.
Import ListNotations.
Local Open Scope R_scope.

(** Three sites at distance one of each other, spinless particles. *)
Definition triangle (t : R) : fermions CR :=
  Ferm (FGeom 3 (fun i j => negb (i =? j)%nat) (fun _ _ => k1) (fun i j => if (i =? j)%nat then 0%Q else 1%Q) (fun _ _ => 0%Q)) 1
    (fun i j _ => if (i =? j)%nat then k0 else (t, 0)) (fun _ => k0) (fun _ _ _ => k0) (fun _ => k0) (fun _ _ => k0) (meye 8).
(** States with one particle. *)
Definition one_particle : mat CR := Mat 3 8 (fun i j => if (nth i [1; 2; 4]%nat 0 =? j)%nat then k1 else k0).
Lemma tri_us t : us_ok (triangle t). Proof. right. reflexivity. Qed.
Lemma tri_sel t : selects (triangle t) (Some one_particle) [1; 2; 4]%nat.
Proof. change (rows_are 8 one_particle [1; 2; 4]%nat /\ forall k, In k [1; 2; 4]%nat -> (k < 8)%nat). split; [|intros k [<-|[<-|[<-|[]]]]; lia]. split; [reflexivity|]. split; [reflexivity|]. intros; reflexivity. Qed.
Lemma tri_opposite t : opposite_hopping (triangle t) (triangle (- t)).
Proof.
  split; [reflexivity|]. split; [reflexivity|]. split; [|repeat split; reflexivity]. intros i j k Hij _. cbn. destruct (i =? j)%nat; apply injective_projections; cbn; ring.
Qed.
Lemma amp_tri t i j : (j < i < 3)%nat -> amplitude (triangle t) i j 0 = real t.
Proof. intros Hij. unfold amplitude. cbn [f_ts f_geom triangle fg_xdist fg_ydist]. rewrite (proj2 (Nat.eqb_neq i j)) by lia. rewrite (kQ_proper _ 1%Q) by reflexivity. rewrite kQ_1. change ((t, 0) *c c1 = real t). apply injective_projections; cbn; ring. Qed.
Ltac hopv := match goal with |- context [hop (triangle ?t) ?p ?q ?a ?b] => let T := constr:(hop_values (triangle t) p q a b) in
  rewrite T by (discriminate || (apply Nat.ltb_lt; reflexivity)); match goal with |- context [if ?c then ksign ?x else _] => let v := eval vm_compute in c in change c with v; let y := eval vm_compute in x in change x with y end; cbn iota end.
Lemma tri_entries t a b : In a [1; 2; 4]%nat -> In b [1; 2; 4]%nat -> HS2 (triangle t) (amplitude (triangle t)) a b = if (a =? b)%nat then c0 else real (- t).
Proof.
  intros Ia Ib. assert (Q : HS2 (triangle t) (amplitude (triangle t)) a b = kopp (real t *c hop (triangle t) 1 0 a b) +c (kopp (real t *c hop (triangle t) 2 0 a b) +c kopp (real t *c hop (triangle t) 2 1 a b))).
  { unfold HS2. cbn [f_geom f_nspecies triangle fg_nsites ksum f_us f_same f_mus f_pot lsite]. rewrite !amp_tri by lia. change (lsite (f_sys (triangle t)) 0 0) with 0%nat. change (lsite (f_sys (triangle t)) 1 0) with 1%nat. change (lsite (f_sys (triangle t)) 2 0) with 2%nat.
    generalize (hop (triangle t) 1 0 a b) (hop (triangle t) 2 0 a b) (hop (triangle t) 2 1 a b). intros x y z.
    repeat match goal with |- context [smul ?p ?q a b] => generalize (smul p q a b); intro end. repeat match goal with |- context [Nn ?p ?q a b] => generalize (Nn p q a b : CR); intro end. apply injective_projections; cbn; ring. }
  rewrite Q. clear Q. destruct Ia as [<-|[<-|[<-|[]]]], Ib as [<-|[<-|[<-|[]]]]; do 3 hopv; cbn [Nat.eqb ksign]; apply injective_projections; cbn; ring.
Qed.
Lemma tri_solved t : exists H V E, createH (triangle t) (Some one_particle) = Ok H /\ eigenbasis H V E /\ nrow H = 3%nat /\ (forall p q, (p < 3)%nat -> (q < 3)%nat -> ent H p q = if (p =? q)%nat then c0 else real (- t)).
Proof.
  destruct (createH_ok (triangle t) (Some one_particle) eq_refl (tri_us t)) as (H & EH & (S1 & S2) & _). destruct (sel_ent (triangle t) (Some one_particle) _ (tri_sel t) H (tri_us t) EH) as (R1 & R2 & W). cbn [length] in *.
  assert (W' : forall p q, (p < 3)%nat -> (q < 3)%nat -> ent H p q = if (p =? q)%nat then c0 else real (- t)).
  { intros p q Hp Hq. rewrite W by assumption. rewrite tri_entries by (apply nth_In; assumption). destruct p as [|[|[|p]]], q as [|[|[|q]]]; try lia; reflexivity. }
  assert (HM : hermitian 3 H). { intros p q Hp Hq. rewrite !W' by assumption. rewrite (Nat.eqb_sym q p). destruct (p =? q)%nat; apply injective_projections; cbn; ring. }
  destruct (spectral 3 H HM R1 R2) as (V & E & B). exists H, V, E. repeat (split; [assumption|]). exact W'.
Qed.
Lemma tri_levels t H V E : t <> 0 -> eigenbasis H V E -> nrow H = 3%nat -> (forall p q, (p < 3)%nat -> (q < 3)%nat -> ent H p q = if (p =? q)%nat then c0 else real (- t)) ->
  E <> [] /\ forall e, In e E -> e = - 2 * t \/ e = t.
Proof.
  intros NT B R1 W. assert (RV : nrow V = 3%nat) by (destruct B as ((_ & X & _) & _); congruence). split; [apply (Thermo.E_some H V E B); rewrite RV; discriminate|].
  intros e I. destruct (In_nth E e 0 I) as (k & Hk & <-). destruct B as ((LE & _ & _ & EV) & ON & _). specialize (ON k k ltac:(lia) ltac:(lia)). rewrite Nat.eqb_refl, RV in ON.
  pose proof (EV 0%nat k ltac:(lia) ltac:(lia)) as A0. pose proof (EV 1%nat k ltac:(lia) ltac:(lia)) as A1. pose proof (EV 2%nat k ltac:(lia) ltac:(lia)) as A2. rewrite RV in A0, A1, A2. change (ent V 0 k) with (col V k 0) in A0. change (ent V 1 k) with (col V k 1) in A1. change (ent V 2 k) with (col V k 2) in A2. unfold apply in A0, A1, A2. cbn [ksum] in A0, A1, A2. rewrite !W in A0, A1, A2 by lia. cbn [Nat.eqb] in A0, A1, A2.
  unfold inner in ON. cbn [ksum] in ON. set (a := col V k 0) in *. set (b := col V k 1) in *. set (c := col V k 2) in *. set (e := nth k E 0) in *. clearbody a b c e. clear - NT A0 A1 A2 ON.
  destruct a as (a1, a2), b as (b1, b2), c as (d1, d2). apply (f_equal fst) in ON. pose proof (f_equal fst A0) as B0. pose proof (f_equal snd A0) as C0. pose proof (f_equal fst A1) as B1. pose proof (f_equal snd A1) as C1. pose proof (f_equal fst A2) as B2. pose proof (f_equal snd A2) as C2.
  cbn in ON, B0, C0, B1, C1, B2, C2. clear A0 A1 A2.
  destruct (Req_EM_T e (- 2 * t)) as [Q|Q]; [left; exact Q|]. destruct (Req_EM_T e t) as [Q'|Q']; [right; exact Q'|]. exfalso.
  assert (S1 : a1 + b1 + d1 = 0) by (apply (Rmult_eq_reg_l (e + 2 * t)); [nra | lra]). assert (S2 : a2 + b2 + d2 = 0) by (apply (Rmult_eq_reg_l (e + 2 * t)); [nra | lra]).
  assert (Z : forall x y z v, v = e * x -> v = - t * (y + z) -> x + y + z = 0 -> x = 0).
  { intros x y z v V1 V2 V3. apply (Rmult_eq_reg_l (e - t)); [|lra]. replace (y + z) with (- x) in V2 by lra. lra. }
  assert (a1 = 0) by (eapply (Z a1 b1 d1 (e * a1)); nra || lra). assert (a2 = 0) by (eapply (Z a2 b2 d2 (e * a2)); nra || lra).
  assert (b1 = 0) by (eapply (Z b1 a1 d1 (e * b1)); nra || lra). assert (b2 = 0) by (eapply (Z b2 a2 d2 (e * b2)); nra || lra).
  subst. nra.
Qed.
Theorem triangle_differs : exists f f' P idx H H' V V' E E', opposite_hopping f f' /\ us_ok f /\ selects f (Some P) idx /\ createH f (Some P) = Ok H /\ createH f' (Some P) = Ok H' /\ eigenbasis H V E /\ eigenbasis H' V' E' /\ ~ Permutation E E'.
Proof.
  destruct (tri_solved 1) as (H & V & E & EH & B & R1 & W). destruct (tri_solved (- (1))) as (H' & V' & E' & EH' & B' & R1' & W').
  exists (triangle 1), (triangle (- (1))), one_particle, [1; 2; 4]%nat, H, H', V, V', E, E'. split; [apply tri_opposite|]. split; [apply tri_us|]. split; [apply tri_sel|]. repeat (split; [assumption|]).
  destruct (tri_levels 1 H V E ltac:(lra) B R1 W) as (NE & L). destruct (tri_levels (- (1)) H' V' E' ltac:(lra) B' R1' W') as (_ & L').
  intros P. destruct E as [|e E]; [congruence|]. pose proof (L e (or_introl eq_refl)) as Q. pose proof (L' e (Permutation_in e P (or_introl eq_refl))) as Q'. lra.
Qed.

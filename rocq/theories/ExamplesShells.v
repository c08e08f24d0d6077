(** Concrete cases that meet the hypotheses of C148. *)
From Coq Require Import List Arith Lia Reals Lra ZArith QArith Qabs Bool.
From Verif Require Import Scalars Res Sums Matrix SqMat SpecMat SpecFock FockProofs FermiOps HamProofs ModelBase ModelFermions FermiApi ModelGeometry ModelPhase ModelSymmetry ModelThermal SpecThermal ThermalBase Spectral
  SymAverage SpecHeat SpecConvex Thermo SpecSigns SpecShells SymBase Signs Perron Shells ShellsRun ShellsRing PropertiesShells.
Import ListNotations.
Local Open Scope R_scope.

Lemma made_basis (f : fermions CR) counts : fg_nsites (f_geom f) <> 0%nat -> length counts = f_nspecies f -> us_ok f -> real_couplings f -> exists P idx H V E, n_projector (f_sys f) (Some (map Some counts)) = Ok P /\
  shell (fg_nsites (f_geom f)) (f_nspecies f) counts P idx /\ createH f (Some P) = Ok H /\ eigenbasis H V E.
Proof.
  intros NZ LC U RC. destruct (number_basis (K:=CR) (f_sys f) (map Some counts) eq_refl NZ ltac:(rewrite map_length; exact LC)) as (P & _ & EP & _).
  destruct (C148_projectors f counts P NZ LC EP) as (idx & SH). destruct (hermitian_api f (Some P)) as (H & EH & (S1 & S2) & HM); [|exact U | exact RC|].
  - destruct SH as ((_ & R & _) & _). rewrite R. symmetry. apply nstates2. reflexivity.
  - assert (HH : hermitian (nrow H) H) by (intros i j Hi Hj; destruct HM as (_ & _ & M); rewrite <- (M i j) by (cbn [madj nrow ncol]; congruence || lia); reflexivity).
    destruct (spectral (nrow H) H HH eq_refl ltac:(congruence)) as (V & E & B). exists P, idx, H, V, E. auto.
Qed.
(** Three particles on the ring of four sites: one ground state. *)
Example ex_ring : exists P H V E, n_projector (f_sys ring_f) (Some [Some 3%nat]) = Ok P /\ createH ring_f (Some P) = Ok H /\ eigenbasis H V E /\
  (forall e k j, smallest e E -> (k < length E)%nat -> (j < length E)%nat -> nth k E 0 = e -> nth j E 0 = e -> k = j).
Proof.
  assert (U : us_ok ring_f) by (right; reflexivity).
  destruct (made_basis ring_f [3%nat] ltac:(discriminate) eq_refl U) as (P & idx & H & V & E & EP & SH & EH & B).
  - repeat split; intros; apply injective_projections; cbn; ring.
  - exists P, H, V, E. split; [exact EP|]. split; [exact EH|]. split; [exact B|].
    exact (C148_unique ring_f (fun _ => false) [3%nat] P idx H V E U (ring_order 3 ltac:(exists 1%nat; reflexivity)) SH EH B ring_linked).
Qed.
(** Two species on three sites in a row, hopping -1 and interaction u: two particles of
    one species and one of the other. *)
Definition near (i j : nat) : bool := ((i =? j + 1) || (j =? i + 1))%nat.
Definition row3 (u : R) : fermions CR :=
  Ferm (FGeom 3 near (fun _ _ => k1) (fun i j => inject_Z (Z.of_nat i - Z.of_nat j)) (fun _ _ => 0%Q)) 2 (fun i j _ => if near i j then (-1, 0) else (0, 0)) (fun _ => (u, 0)) (fun _ _ _ => k0) (fun _ => k0) (fun _ _ => k0) (meye 64).
Definition alternate (p : nat) : bool := (p =? 1)%nat || (p =? 4)%nat.
Lemma row3_amplitude u i j s : (j < i < 3)%nat -> amplitude (row3 u) i j s = ((if near i j then -1 else 0), 0).
Proof.
  intros Hij. assert (i = 1 /\ j = 0 \/ i = 2 /\ j = 1 \/ i = 2 /\ j = 0)%nat as [(-> & ->)|[(-> & ->)|(-> & ->)]] by lia; unfold amplitude; apply injective_projections; cbn; unfold Q2R; cbn; lra.
Qed.
Lemma row3_order u : orderly alternate (row3 u) [2; 1]%nat.
Proof.
  intros i j s Hij Hs. exists (if near i j then -1 else 0). split; [apply row3_amplitude; exact Hij|]. cbn in Hs, Hij.
  assert (i = 1 /\ j = 0 \/ i = 2 /\ j = 1 \/ i = 2 /\ j = 0)%nat as [(-> & ->)|[(-> & ->)|(-> & ->)]] by lia; (destruct s as [|[|s]]; [| |lia]); cbn; unfold side; cbn; (split; [lra|]); intros NZ; try lra; left; reflexivity.
Qed.
Lemma row3_linked u : connected_hops (row3 u).
Proof.
  intros s i j _ Hi Hj. cbn in Hi, Hj.
  assert (B : forall i j, (i < 3)%nat -> (j < 3)%nat -> near i j = true -> hopping (row3 u) s i j).
  { clear. intros i j Hi Hj A. assert (NE : i <> j) by (intros ->; destruct j as [|[|[|j]]]; try lia; discriminate). split; [exact NE|]. rewrite row3_amplitude by lia.
    replace (near (Nat.max i j) (Nat.min i j)) with true; [intros X; injection X; lra|]. destruct i as [|[|[|i]]]; try lia; destruct j as [|[|[|j]]]; try lia; try discriminate; reflexivity. }
  assert (S : forall i j, (i < 3)%nat -> (j < 3)%nat -> near i j = true -> hop_linked (row3 u) s i j) by (intros p q Hp Hq A; apply (hop_next _ _ _ p); [constructor | exact Hp | exact Hq | apply B; assumption]).
  destruct i as [|[|[|i]]]; try lia; destruct j as [|[|[|j]]]; try lia; try constructor; try (apply S; [lia | lia | reflexivity]); (apply (hop_next _ _ _ 1%nat); [apply S; [lia | lia | reflexivity] | cbn; lia | cbn; lia | apply B; [lia | lia | reflexivity]]).
Qed.
Lemma row3_us u : us_ok (row3 u). Proof. left. cbn. lia. Qed.
Lemma row3_real u : real_couplings (row3 u).
Proof. repeat split; intros; cbn [row3 f_ts f_us f_same f_mus f_pot]; try (destruct (near _ _)); apply injective_projections; cbn; ring. Qed.
(** The ground states at any two interactions overlap. *)
Example ex_row3 : forall u u', exists P (idx : list nat) H V E H' V' E', n_projector (f_sys (row3 u)) (Some [Some 2%nat; Some 1%nat]) = Ok P /\ shell 3 2 [2; 1]%nat P idx /\ createH (row3 u) (Some P) = Ok H /\ eigenbasis H V E /\ createH (row3 u') (Some P) = Ok H' /\ eigenbasis H' V' E' /\
  forall psi phi e e', smallest e E -> smallest e' E' -> state_of (length idx) H e psi -> state_of (length idx) H' e' phi -> (exists a, (a < length idx)%nat /\ psi a <> k0) -> (exists a, (a < length idx)%nat /\ phi a <> k0) -> inner (length idx) psi phi <> k0.
Proof.
  intros u u'. destruct (made_basis (row3 u) [2; 1]%nat ltac:(discriminate) eq_refl (row3_us u) (row3_real u)) as (P & idx & H & V & E & EP & SH & EH & B).
  destruct (made_basis (row3 u') [2; 1]%nat ltac:(discriminate) eq_refl (row3_us u') (row3_real u')) as (P' & idx' & H' & V' & E' & EP' & SH' & EH' & B').
  change (f_sys (row3 u')) with (f_sys (row3 u)) in EP'. rewrite EP in EP'. injection EP' as <-.
  exists P, idx, H, V, E, H', V', E'. split; [exact EP|]. split; [exact SH|]. split; [exact EH|]. split; [exact B|]. split; [exact EH'|]. split; [exact B'|]. intros psi phi e e'.
  exact (C148_overlap (row3 u) (row3 u') alternate [2; 1]%nat P idx H V E H' V' E' psi phi e e' (row3_us u) (row3_us u') eq_refl eq_refl (row3_order u) (row3_order u') (row3_linked u) (row3_linked u') SH EH EH' B B').
Qed.

(** Ground states of fermions with a fixed number of particles of every species. *)
From Coq Require Import List Arith Lia Reals Lra ZArith QArith Qabs Bool Permutation Sorted.
From Verif Require Import Scalars Res Matrix Sums SqMat SpecMat SpecFock OpsProofs FockProofs FermiOps ModelBase ModelFermions ModelSpins SpecSpins Digits SpinOps SpinAlg SpinSwap SpinJordan HamProofs FermiApi SpecPerm
  ModelGeometry ModelPhase ModelSymmetry SymBase ModelThermal SpecThermal ThermalBase ThermalFacts ThermalBasis Spectral Thermo SpecHeat SpecConvex Convex SpecSigns Signs SignsHeat SignsSpins SpecSectors Perron Sectors HopSigns SpecShells Shells.
Import ListNotations.
Local Open Scope R_scope.

(** The projectors of the code span the shells. *)
Theorem shell_projector (f : fermions CR) (counts : list nat) (P : mat CR) : fg_nsites (f_geom f) <> 0%nat -> length counts = f_nspecies f -> n_projector (f_sys f) (Some (map Some counts)) = Ok P ->
  exists idx, shell (fg_nsites (f_geom f)) (f_nspecies f) counts P idx.
Proof.
  intros NZ LC EP. destruct (number_basis (K:=CR) (f_sys f) (map Some counts) eq_refl NZ ltac:(rewrite map_length; exact LC)) as (P' & idx & EP' & R & SS & I & _). rewrite EP in EP'. injection EP' as <-.
  assert (NS : nstates (f_sys f) = (2 ^ (fg_nsites (f_geom f) * f_nspecies f))%nat) by (apply nstates2; reflexivity). rewrite NS in *. exists idx. split; [exact R|]. split.
  - clear - SS. induction SS as [|a l SS IH FA]; constructor; [|exact IH]. intros IN. rewrite Forall_forall in FA. specialize (FA a IN). lia.
  - intros a. rewrite I. change (nlog (f_sys f)) with (fg_nsites (f_geom f) * f_nspecies f)%nat. change (s_nsites (f_sys f)) with (fg_nsites (f_geom f)). split; intros (A & B); (split; [exact A|]).
    + intros s Hs. apply B. rewrite nth_error_map, (nth_error_nth' counts 0%nat) by lia. reflexivity.
    + intros s n E. rewrite nth_error_map in E. destruct (nth_error counts s) as [x|] eqn:X; [|discriminate]. injection E as <-. rewrite (B s).
      * apply nth_error_nth. exact X.
      * rewrite <- LC. apply nth_error_Some. congruence.
Qed.

Section Ground.
  Variables (f : fermions CR) (part : nat -> bool) (counts : list nat) (P : mat CR) (idx : list nat) (H V : mat CR) (E : list R).
  Notation ns := (fg_nsites (f_geom f)).
  Notation m := (f_nspecies f).
  Notation nl := (ns * m)%nat.
  Notation D := (2 ^ (ns * m))%nat.
  Notation N := (length idx).
  Notation eps := (fun p => state_sign part nl (nth p idx 0%nat)).
  Notation orb s i := (ns * s + i)%nat.
  Hypothesis us : us_ok f.
  Hypothesis ord : orderly part f counts.
  Hypothesis sec : shell ns m counts P idx.
  Hypothesis made : createH f (Some P) = Ok H.
  Hypothesis basis : eigenbasis H V E.
  Lemma shell_rows : nrow V = N.
  Proof using us sec made basis. clear ord. destruct (shell_ent f counts P idx H sec us made) as (S1 & _). destruct basis as ((_ & S & _) & _). congruence. Qed.
  Notation sgn := (shell_signs f part counts P idx sec).
  Notation low := (shell_lowers f part counts P idx H sec us made ord).
  (** Averages of hops have the sign of the two orbitals. *)
  Lemma hop_raises i j s A O : (j < i < ns)%nat -> (s < m)%nat -> passes_even ns (nth s counts 0%nat) i j -> two_site_op (f_sys f) i s j s cdag_op c_op Fermion = Ok A -> sandwich P A = Ok O ->
    nrow O = N /\ ncol O = N /\ raises N eps (Mat N N (fun a b => ksum 1 (fun _ => real (side part (orb s i) * side part (orb s j)) *c ent O a b))).
  Proof using sec.
    clear us ord made basis. intros Hij Hs PE EA EO. destruct sec as ((R1 & R2 & R3) & ND & I).
    destruct (two_ok (K:=CR) (f_sys f) i s j s cdag_op c_op Fermion eq_refl) as (A' & EA' & SA & FA); auto using sq_cdag, sq_c; try discriminate; try (cbn; lia). rewrite EA in EA'. injection EA' as <-.
    change (nlog (f_sys f)) with nl in *. destruct (sandwich_ok D P A R2 SA) as (O' & EO' & (S1 & S2) & W). rewrite EO in EO'. injection EO' as <-. split; [congruence|]. split; [congruence|].
    intros a b Ha Hb. cbn [ent ksum]. rewrite W, (sand_rows D P idx (ent A) a b) by (assumption || (split; [exact R1|]; split; assumption) || (intros k Hk; apply I, Hk)).
    destruct (at_full f counts P idx sec a Ha) as (La & Ka). destruct (at_full f counts P idx sec b Hb) as (Lb & Kb). rewrite (FA _ _ La Lb).
    change (gop Fermion nl (lsite (f_sys f) i s) cdag_op) with (Cd (K:=CR) nl (orb s i)). change (gop Fermion nl (lsite (f_sys f) j s) c_op) with (Ca (K:=CR) nl (orb s j)).
    pose proof (orb_lt f s i Hs ltac:(lia)) as Hp. pose proof (orb_lt f s j Hs ltac:(lia)) as Hr. set (x := nth a idx 0%nat) in *. set (y := nth b idx 0%nat) in *.
    rewrite (one_way f (orb s i) (orb s j) x y) by (assumption || lia).
    destruct (agree_off 2 nl [orb s i; orb s j] x y) eqn:AG; cbn [andb]; [|cbn; split; [ring | right; ring]].
    destruct (Nat.eqb_spec (digit 2 nl (orb s i) x) 1) as [Q1|]; cbn [andb]; [|cbn; split; [ring | right; ring]]. destruct (Nat.eqb_spec (digit 2 nl (orb s j) x) 0) as [Q2|]; cbn [andb]; [|cbn; split; [ring | right; ring]].
    destruct (Nat.eqb_spec (digit 2 nl (orb s i) y) 0) as [Q3|]; cbn [andb]; [|cbn; split; [ring | right; ring]]. destruct (Nat.eqb_spec (digit 2 nl (orb s j) y) 1) as [Q4|]; cbn [andb]; [|cbn; split; [ring | right; ring]].
    rewrite (sign_flips part nl (orb s i) (orb s j) x y Hp Hr ltac:(lia) AG) by congruence. rewrite sign_even by (apply (passed f counts); auto; [split; auto | congruence]). cbn. split; [ring|]. unfold side. destruct (part (orb s i)), (part (orb s j)); lra.
  Qed.
  Theorem hop_average i j s A O T x : N <> 0%nat -> (j < i < ns)%nat -> (s < m)%nat -> passes_even ns (nth s counts 0%nat) i j -> two_site_op (f_sys f) i s j s cdag_op c_op Fermion = Ok A -> sandwich P A = Ok O ->
    0 <= T -> allowed T E -> exp_vals_thermal V O E T = Ok x -> 0 <= side part (orb s i) * side part (orb s j) * x.
  Proof using All.
    intros NZ Hij Hs PE EA EO TP AL EX. destruct (hop_raises i j s A O Hij Hs PE EA EO) as (R1 & R2 & RA). pose proof shell_rows as VR.
    match type of RA with raises _ _ ?X => set (M := X) in * end.
    assert (AV : exp_vals_thermal V M E T = Ok (total (fun _ => side part (orb s i) * side part (orb s j) * x) (seq 0 1))).
    { apply (average_sum H V E T M 1 (fun _ => side part (orb s i) * side part (orb s j)) (fun _ => x) (fun _ => O) basis); rewrite ?VR; auto. }
    pose proof (average_sign H V E N eps basis VR NZ sgn low T M _ TP AL eq_refl eq_refl RA AV) as X. cbn in X. lra.
  Qed.
  Hypothesis conn : connected_hops f.
  Notation all := (shell_joined f counts P idx H sec us made conn).
  Theorem shell_unique e k j : smallest e E -> (k < length E)%nat -> (j < length E)%nat -> nth k E 0 = e -> nth j E 0 = e -> k = j.
  Proof using All. exact (one_ground H V E N eps basis shell_rows sgn low all e k j). Qed.
  Theorem shell_state e psi : smallest e E -> state_of N H e psi -> (exists a, (a < N)%nat /\ psi a <> c0) ->
    exists z, abs2 z = 1 /\ forall a, (a < N)%nat -> psi a <> c0 /\ psi a = z *c real (eps a * sqrt (abs2 (psi a))).
  Proof using All.
    intros SM ST NZ. destruct (upright_phase H V E N eps basis shell_rows sgn low all psi e SM ST) as (z & Z1 & Z2). exists z. split; [exact Z1|]. intros a Ha. split; [|apply Z2, Ha].
    exact (nodeless H V E N eps basis shell_rows sgn low all psi e a SM ST NZ Ha).
  Qed.
End Ground.

(** Ground states of two such systems are not orthogonal. *)
Theorem shell_overlap f1 f2 part counts P idx H1 V1 E1 H2 V2 E2 psi phi e1 e2 : us_ok f1 -> us_ok f2 -> fg_nsites (f_geom f2) = fg_nsites (f_geom f1) -> f_nspecies f2 = f_nspecies f1 ->
  orderly part f1 counts -> orderly part f2 counts -> connected_hops f1 -> connected_hops f2 -> shell (fg_nsites (f_geom f1)) (f_nspecies f1) counts P idx ->
  createH f1 (Some P) = Ok H1 -> createH f2 (Some P) = Ok H2 -> eigenbasis H1 V1 E1 -> eigenbasis H2 V2 E2 -> smallest e1 E1 -> smallest e2 E2 ->
  state_of (length idx) H1 e1 psi -> state_of (length idx) H2 e2 phi -> (exists a, (a < length idx)%nat /\ psi a <> c0) -> (exists a, (a < length idx)%nat /\ phi a <> c0) -> inner (length idx) psi phi <> c0.
Proof.
  intros U1 U2 SZ SM O1 O2 C1 C2 SC M1 M2 B1 B2. pose proof SC as SC2. rewrite <- SZ, <- SM in SC2.
  pose proof (shell_lowers f2 part counts P idx H2 SC2 U2 M2 O2) as L2. rewrite SZ, SM in L2.
  exact (grounds_overlap H1 V1 H2 V2 E1 E2 (length idx) (fun p => state_sign part (fg_nsites (f_geom f1) * f_nspecies f1) (nth p idx 0%nat)) psi phi e1 e2 B1 B2
    (shell_rows f1 counts P idx H1 V1 E1 U1 SC M1 B1) (shell_rows f2 counts P idx H2 V2 E2 U2 SC2 M2 B2) (shell_signs f1 part counts P idx SC) (shell_lowers f1 part counts P idx H1 SC U1 M1 O1) L2
    (shell_joined f1 counts P idx H1 SC U1 M1 C1) (shell_joined f2 counts P idx H2 SC2 U2 M2 C2)).
Qed.

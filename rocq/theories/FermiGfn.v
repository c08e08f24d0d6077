(** The statements of FermiGreen in terms of the results of the functions, and the
    overlaps of states. *)
From Coq Require Import List Arith Lia Reals Lra ZArith Bool Ring.
From Verif Require Import Scalars Res Sums Matrix ModelPhase ModelSymmetry SymBase SpecSymmetry ModelBase ModelThermal SpecThermal ThermalBase ThermalBasis ThermalDiag
  ModelFermiGas SpecFermiGas FermiBase FermiGrid FermiModes FermiGas FermiGreen.
Import ListNotations.
Local Open Scope R_scope.

Lemma gfn_relations s n beta mu : good_size s n -> exists G,
  (forall r t ty, ty <> OtherType -> realspace_gfn beta mu r t n (dim_of s) ty = Ok (G r t ty)) /\
  (forall r t, G r t Greater = c_mean (fun p => plane s n r p *c (kopp im *c (wave (- ((level_of s n p - mu) * t)) *c re (1 - fermi beta mu (level_of s n p))))) (modes s n)) /\
  (forall r t, G r t Lesser = c_mean (fun p => plane s n r p *c (im *c (wave (- ((level_of s n p - mu) * t)) *c re (fermi beta mu (level_of s n p))))) (modes s n)) /\
  (forall r, c_sub (G r 0 Greater) (G r 0 Lesser) = if same_site s n r then kopp im else c0) /\
  (forall r t, 0 < t ->
     G r t Retarded = c_sub (G r t Greater) (G r t Lesser) /\ G r t Advanced = c0 /\ G r t TimeOrdered = G r t Greater) /\
  (forall r t, t < 0 ->
     G r t Retarded = c0 /\ G r t Advanced = c_sub (G r t Lesser) (G r t Greater) /\ G r t TimeOrdered = G r t Lesser).
Proof.
  intros Hs. exists (fun r t ty => gval s n beta mu r t ty). split; [intros; apply gval_ok; assumption|].
  split; [|split; [|split; [|split]]].
  - intros r t. unfold gval, c_mean. f_equal. apply klsum_ext. intros p _. f_equal. unfold kval, kspace_gfn.
    generalize (fermi beta mu (level_of s n p)). intros f. unfold c_mi, im, re, real, wave, cexp, cr_mul.
    apply injective_projections; cbn; ring.
  - intros r t. unfold gval, c_mean. f_equal. apply klsum_ext. intros p _. f_equal. unfold kval, kspace_gfn.
    generalize (fermi beta mu (level_of s n p)). intros f. unfold c_i, im, re, real, wave, cexp, cr_mul.
    apply injective_projections; cbn; ring.
  - intros r. apply equal_time. assumption.
  - intros r t. apply later_times.
  - intros r t. apply earlier_times.
Qed.

Lemma gfn_motion s n beta mu ty : good_size s n -> ty = Greater \/ ty = Lesser -> exists G,
  (forall r t, realspace_gfn beta mu r t n (dim_of s) ty = Ok (G r t)) /\
  (forall r t, c_deriv (fun y => G r y) t (im *c (klsum (neighbours s r) (fun r' => G r' t) +c re mu *c G r t))) /\
  (forall r t, G (- fst r, - snd r)%Z (- t) = kopp (conj (G r t))).
Proof.
  intros Hs Ht. assert (ty <> OtherType) by (destruct Ht as [-> | ->]; discriminate).
  exists (fun r t => gval s n beta mu r t ty). split; [intros; apply gval_ok; assumption|].
  split; intros r t; [apply motion | apply reversal]; assumption.
Qed.

Lemma gfn_balance b mu e t : exists g l,
  kspace_gfn (Beta b) mu e t Greater = Ok g /\ kspace_gfn (Beta b) mu e t Lesser = Ok l /\
  l = re (- exp (- b * (e - mu))) *c g.
Proof.
  exists (kval (Beta b) mu e t Greater), (kval (Beta b) mu e t Lesser).
  split; [apply kval_ok; discriminate|]. split; [apply kval_ok; discriminate|]. apply detailed_balance.
Qed.

Lemma gfn_derivative s n b r t ty : good_size s n -> ty = Greater \/ ty = Lesser \/ ty = Retarded \/ ty = Advanced -> exists G,
  (forall mu, realspace_gfn (Beta b) mu r t n (dim_of s) ty = Ok (G mu)) /\
  (forall mu, exists d, realspace_dgdmu (Beta b) mu r t n (dim_of s) ty = Ok d /\ c_deriv G mu d).
Proof.
  intros Hs Ht. exists (fun mu => gval s n (Beta b) mu r t ty). split.
  - intros mu. apply gval_ok; [assumption|]. destruct Ht as [-> |[-> |[-> | ->]]]; discriminate.
  - intros mu. apply gval_deriv; [assumption|]. exact Ht.
Qed.

Lemma overlaps_ok A B : nrow A = nrow B -> exists M,
  overlaps (Columns A) (Columns B) = Ok M /\ nrow M = ncol A /\ ncol M = ncol B /\
  (forall i j, (i < ncol A)%nat -> (j < ncol B)%nat -> ent M i j = inner (nrow A) (col A i) (col B j)) /\
  (complete_basis A -> forall j, (j < ncol B)%nat ->
     total (fun i => modulus (ent M i j) * modulus (ent M i j)) (seq 0 (ncol A)) = norm2 (nrow B) (col B j)).
Proof.
  intros H. unfold overlaps. cbn [as_columns]. rewrite H, Nat.eqb_refl. eexists. split; [reflexivity|].
  split; [reflexivity|]. split; [reflexivity|].
  assert (E : forall i j, (i < ncol A)%nat -> (j < ncol B)%nat -> ent (mmul (madj A) B) i j = inner (nrow B) (col A i) (col B j)).
  { intros i j Hi Hj. unfold inner, col, mmul, madj. cbn. rewrite H. reflexivity. }
  split; [exact E|]. intros C j Hj. unfold norm2. rewrite <- H. rewrite (complete_inner A _ _ C), fst_ksum.
  rewrite <- rsum_total. apply rsum_ext. intros i Hi. rewrite E by assumption. rewrite H.
  rewrite <- (inner_conj (nrow B) (col A i) (col B j)). unfold modulus. destruct (inner (nrow B) (col A i) (col B j)) as [x y].
  cbn. rewrite sqrt_sqrt by nra. ring.
Qed.

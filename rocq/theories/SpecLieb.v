(** Vocabulary for two kinds of fermions that attract each other. *)
From Coq Require Import List Arith Reals.
From Verif Require Import Scalars Matrix SpecMat SpecFock ModelFermions SpecShells.
Local Open Scope R_scope.

(** Two species with the same real energies; particles of different species attract each
    other on every site.  Particles of one species may interact in any way. *)
Definition attracting (f : fermions CR) : Prop :=
  let ns := fg_nsites (f_geom f) in
  f_nspecies f = 2%nat /\
  (forall i j, (j < i < ns)%nat -> exists t, amplitude f i j 0 = (t, 0) /\ amplitude f i j 1 = (t, 0)) /\
  (forall i j, (j <= i < ns)%nat -> exists v, f_same f i j 0%nat = (v, 0) /\ f_same f i j 1%nat = (v, 0)) /\
  (exists mu, f_mus f 0%nat = (mu, 0) /\ f_mus f 1%nat = (mu, 0)) /\
  (forall i, (i < ns)%nat -> exists v, f_pot f i 0%nat = (v, 0) /\ f_pot f i 1%nat = (v, 0)) /\
  (forall i, (i < ns)%nat -> exists u, f_us f i = (u, 0) /\ u < 0).
(** State [x * 2^ns + y] has the first species in configuration [x] and the second in
    configuration [y].  Configurations of one species with [count] particles. *)
Definition config (ns count x : nat) : Prop := (x < 2 ^ ns)%nat /\ length (filter (occ ns x) (seq 0 ns)) = count.
(** The system with one of the species only. *)
Definition alone {K} {SR : StarRing K} (f : fermions K) (s : nat) : fermions K :=
  Ferm (f_geom f) 1 (fun i j _ => f_ts f i j s) (fun _ => k0) (fun i j _ => f_same f i j s) (fun _ => f_mus f s) (fun i _ => f_pot f i s) (f_proj f).

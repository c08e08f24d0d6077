(** Vocabulary for particles that do not interact, written without reference to
    the many-particle model. *)
From Coq Require Import List Arith Reals QArith Qabs Bool.
From Verif Require Import Scalars Matrix Res ModelFermions SpecThermal SpecFermiGas.
Import ListNotations.

(** The matrix of one particle on [n] sites: hopping [t i j] on the bond i > j,
    potential [v], chemical potential [mu]. *)
Definition one_particle (n : nat) (t : nat -> nat -> CR) (v : nat -> CR) (mu : CR) : mat CR :=
  Mat n n (fun i j => if (i =? j)%nat then ksub (v i) mu
                      else kopp (if (j <? i)%nat then t i j else t j i)).

(** Occupation of a level of energy [e] measured from the chemical potential. *)
Definition fermi_weight (T e : R) : R := occupation (1 / T) 0 e.

(** <c+_i c_j> of the levels [e] with wave functions in the columns of [U]. *)
Definition filled (T : R) (U : mat CR) (e : list R) (i j : nat) : CR :=
  ksum (length e) (fun a => kmul (re (fermi_weight T (nth a e 0%R))) (kmul (kconj (ent U i a)) (ent U j a))).

(** A system without interactions. *)
Definition non_interacting (f : fermions CR) : Prop :=
  (forall i, (i < fg_nsites (f_geom f))%nat -> f_us f i = k0) /\
  (forall i j k, (i < fg_nsites (f_geom f))%nat -> (j < fg_nsites (f_geom f))%nat -> (k < f_nspecies f)%nat -> f_same f i j k = k0).

(** The matrix of one particle of species [k]; the code multiplies the hopping by
    |dx| + |dy| (see C14). *)
Definition particle_matrix (f : fermions CR) (k : nat) : mat CR :=
  one_particle (fg_nsites (f_geom f))
    (fun i j => kmul (f_ts f i j k) (kQ (Qabs (fg_xdist (f_geom f) i j) + Qabs (fg_ydist (f_geom f) i j))))
    (fun i => f_pot f i k) (f_mus f k).

(** Weight of a collection of levels that are filled independently. *)
Definition fermi_partition (T : R) (l : list R) : R := fold_right (fun x p => (1 + exp (- x / T)) * p)%R 1%R l.
(** The sums of the sub-collections of [l], one for each of them. *)
Definition subset_sums (l : list R) : list R := fold_right (fun x s => s ++ map (Rplus x) s) [0%R] l.

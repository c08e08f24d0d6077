(** Systems without the terms that change the basis states, written without reference to the model of the functions. *)
From Coq Require Import List Arith Reals.
From Verif Require Import Scalars Matrix ModelFermions ModelSpins SpecThermal.

(** The same fermions, which do not hop. *)
Definition without_hops (f : fermions CR) : fermions CR :=
  Ferm (f_geom f) (f_nspecies f) (fun _ _ _ => k0) (f_us f) (f_same f) (f_mus f) (f_pot f) (f_proj f).
(** The same spins with couplings and fields along z only. *)
Definition along_z (s : spins CR) : spins CR :=
  Spins (sp_geom s) (sp_two s) (fun _ _ => k0) (fun _ _ => k0) (sp_jz s) (fun _ => k0) (fun _ => k0) (sp_hz s).
(** [D] is the diagonal of [H]. *)
Definition diagonal_of (n : nat) (H D : mat CR) : Prop :=
  forall a b, (a < n)%nat -> (b < n)%nat -> ent D a b = if (a =? b)%nat then ent H a a else k0.

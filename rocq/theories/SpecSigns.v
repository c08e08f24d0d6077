(** Vocabulary for matrices whose entries have the signs given by a list of signs. *)
From Coq Require Import List Arith Reals Bool.
From Verif Require Import Scalars Matrix ModelSpins SpecSpins SpecThermal.
Local Open Scope R_scope.

(** Signs of the basis states. *)
Definition signs (n : nat) (eps : nat -> R) : Prop := forall a, (a < n)%nat -> eps a = 1 \/ eps a = -1.
(** Real entries; off the diagonal they have the opposite of the sign, or are zero. *)
Definition lowers (n : nat) (eps : nat -> R) (H : mat CR) : Prop :=
  forall a b, (a < n)%nat -> (b < n)%nat -> a <> b -> snd (ent H a b) = 0 /\ eps a * eps b * fst (ent H a b) <= 0.
(** Real entries that have the sign, or are zero. *)
Definition raises (n : nat) (eps : nat -> R) (O : mat CR) : Prop :=
  forall a b, (a < n)%nat -> (b < n)%nat -> snd (ent O a b) = 0 /\ 0 <= eps a * eps b * fst (ent O a b).
(** Basis states joined by a chain of entries that are not zero. *)
Inductive joined (n : nat) (H : mat CR) (a : nat) : nat -> Prop :=
| joined_here : joined n H a a
| joined_step b c : joined n H a b -> (b < n)%nat -> (c < n)%nat -> ent H b c <> (0, 0) -> joined n H a c.
(** [psi] is a state of energy [e]. *)
Definition state_of (n : nat) (H : mat CR) (e : R) (psi : nat -> CR) : Prop :=
  forall a, (a < n)%nat -> apply n H psi a = @kmul CR _ (e, 0) (psi a).

(** ** Spins 1/2 on two kinds of sites *)
(** [part i] tells the kind of site [i]; its sign is 1 or -1. *)
Definition side (part : nat -> bool) (i : nat) : R := if part i then -1 else 1.
(** Sign of a configuration: a factor -1 for every site of the second kind that is
    down. *)
Definition state_sign (part : nat -> bool) (n a : nat) : R :=
  fold_right (fun i x => (if part i && negb (digit 2 n i a =? 0)%nat then -1 else 1) * x) 1 (seq 0 n).
(** Bonds between sites of different kinds have couplings along x and y of
    antiferromagnetic sign, bonds within a kind of ferromagnetic sign, with the
    coupling along x the stronger one; fields along x point along the sign of the site,
    and there is no field along y. *)
Definition unfrustrated (part : nat -> bool) (s : spins CR) : Prop :=
  let n := sg_nsites (sp_geom s) in
  (forall i j, (j < i < n)%nat -> exists x y z, sp_jx s i j = (x, 0) /\ sp_jy s i j = (y, 0) /\ sp_jz s i j = (z, 0) /\ Rabs y <= - (side part i * side part j * x)) /\
  (forall i, (i < n)%nat -> exists x z, sp_hx s i = (x, 0) /\ sp_hy s i = (0, 0) /\ sp_hz s i = (z, 0) /\ 0 <= side part i * x).

(** Vocabulary of statements about linked cluster sums of quantities which are sums over
    connected parts. *)
From Coq Require Import List Arith ZArith Reals.
From Verif Require Import SpecCluster SpecThermal.
Import ListNotations.

(** [x] is the sum of [phi] over the connected parts of [S], each one taken once. *)
Definition part_sum (adj : pt -> pt -> Prop) (phi : list pt -> R) (S : list pt) (x : R) : Prop :=
  exists parts, x = total phi parts /\ SpecCluster.apart same_set parts /\
    (forall o, In o parts -> connected adj o /\ incl o S) /\
    (forall o, connected adj o -> incl o S -> phi o <> 0%R -> exists o', In o' parts /\ same_set o o').
(** [phi] does not change under translations and symmetries of the square. *)
Definition invariant (adj : pt -> pt -> Prop) (phi : list pt -> R) : Prop :=
  forall S T, connected adj S -> connected adj T -> congruent true S T -> phi S = phi T.

(** Number of pairs of neighbouring sites of [S] on the square lattice. *)
Definition has (S : list pt) (p : pt) : bool := existsb (fun q => (fst p =? fst q)%Z && (snd p =? snd q)%Z)%bool S.
Definition bonds (S : list pt) : nat :=
  length (filter (fun p => has S (shift (1, 0)%Z p)) S) + length (filter (fun p => has S (shift (0, 1)%Z p)) S).

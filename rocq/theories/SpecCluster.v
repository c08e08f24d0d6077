(** Vocabulary of the statements about clusters of lattice sites. *)
From Coq Require Import List Arith ZArith QArith Sorting.
From Verif Require Import Matrix ModelGeometry.
Import ListNotations.

Section Sets.
  Context {A : Type}.
  (** A walk from [p] to [q] along neighbours which stays in [S]. *)
  Inductive walk (adj : A -> A -> Prop) (S : list A) : A -> A -> Prop :=
  | walk_stay p : In p S -> walk adj S p p
  | walk_step p q r : In p S -> adj p q -> walk adj S q r -> walk adj S p r.
  (** A finite non-empty set of sites in which any two are joined by a walk. *)
  Definition connected (adj : A -> A -> Prop) (S : list A) : Prop :=
    S <> [] /\ NoDup S /\ forall p q, In p S -> In q S -> walk adj S p q.
  Definition same_set (S T : list A) : Prop := forall p, In p S <-> In p T.
  (** [T] lies in [S] and is smaller. *)
  Definition proper_part (T S : list A) : Prop := incl T S /\ ~ incl S T.
End Sets.

Definition pt : Type := (Z * Z)%type.
Definition shift (t p : pt) : pt := (fst p + fst t, snd p + snd t)%Z.
(** One step along a lattice vector, forwards or backwards. *)
Definition linked (lv1 lv2 : pt) (p q : pt) : Prop :=
  q = shift lv1 p \/ p = shift lv1 q \/ q = shift lv2 p \/ p = shift lv2 q.

(** The same cluster up to a translation. *)
Definition translate (S T : list pt) : Prop := exists t, same_set (map (shift t) S) T.

(** The eight symmetries of the square. *)
Definition square_symmetries : list (pt -> pt) :=
  [ (fun p => p); (fun p => (- snd p, fst p)); (fun p => (- fst p, - snd p)); (fun p => (snd p, - fst p));
    (fun p => (- fst p, snd p)); (fun p => (snd p, fst p)); (fun p => (fst p, - snd p)); (fun p => (- snd p, - fst p)) ]%Z.
(** The symmetries divided out: those of the square, or none. *)
Definition symmetries (sym : bool) : list (pt -> pt) := if sym then square_symmetries else [fun p => p].
(** The same cluster up to a symmetry and a translation. *)
Definition congruent (sym : bool) (S T : list pt) : Prop :=
  exists s, In s (symmetries sym) /\ translate (map s S) T.

(** [m] is the number of translation-distinct images of [S]. *)
Definition orientations (sym : bool) (S : list pt) (m : nat) : Prop :=
  exists os, length os = m /\
    (forall a b, a < m -> b < m -> translate (nth a os []) (nth b os []) -> a = b)%nat /\
    (forall o, In o os -> exists s, In s (symmetries sym) /\ translate (map s S) o) /\
    (forall s, In s (symmetries sym) -> exists o, In o os /\ translate (map s S) o).

(** The sites of a geometry are the integer points [S]. *)
Definition at_sites {Ph} (g : geometry Ph) (S : list pt) : Prop :=
  g_x g = map (fun p => inject_Z (fst p)) S /\ g_y g = map (fun p => inject_Z (snd p)) S.

(** [N] is the number of connected proper parts of [S] congruent to [T]. *)
Definition contains (sym : bool) (adj : pt -> pt -> Prop) (S T : list pt) (N : nat) : Prop :=
  exists os, length os = N /\
    (forall a b, a < N -> b < N -> same_set (nth a os []) (nth b os []) -> a = b)%nat /\
    (forall o, In o os -> connected adj o /\ proper_part o S /\ congruent sym o T) /\
    (forall o, connected adj o -> proper_part o S -> congruent sym o T -> exists o', In o' os /\ same_set o o').

Local Open Scope nat_scope.
(** Lists without related members. *)
Definition apart {A} (R : list A -> list A -> Prop) (L : list (list A)) : Prop :=
  forall a b, a < length L -> b < length L -> R (nth a L []) (nth b L []) -> a = b.
(** The symmetries divided out map steps to steps. *)
Definition step_symmetric (sym : bool) (lv1 lv2 : pt) : Prop := sym = false \/ lv1 = (1, 0)%Z /\ lv2 = (0, 1)%Z.
(** Neighbours according to the adjacency matrix of [g] with sites [P]. *)
Definition neighbours {Ph} (g : geometry Ph) (P : list pt) (p q : pt) : Prop :=
  exists j k, j < length P /\ k < length P /\ nth j P (0, 0)%Z = p /\ nth k P (0, 0)%Z = q /\ (ent (g_adj g) j k == 1)%Q.
(** The list of each entry names, in increasing order, the entries which are its proper parts. *)
Definition part_of (All : list (list pt)) (a b : nat) : Prop := b < length All /\ proper_part (nth b All []) (nth a All []).
Definition indices_ok (All : list (list pt)) (inds : list (list nat)) : Prop :=
  length inds = length All /\
  forall a, a < length All -> StronglySorted lt (nth a inds []) /\ forall b, In b (nth a inds []) <-> part_of All a b.

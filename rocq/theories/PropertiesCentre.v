(** Property theorems C158: the centre of mass of a geometry.  Theorems only. *)
From Coq Require Import List QArith ZArith.
From Verif Require Import Res ModelGeometry SpecCentre Centre.
Import ListNotations.
Local Open Scope Q_scope.

Theorem C158_centre : forall (Ph : Type) (g : geometry Ph), g_x g <> [] -> g_y g <> [] -> exists c, center_of_mass g = Ok c /\ offsets (fst c) (g_x g) == 0 /\ offsets (snd c) (g_y g) == 0 /\
  (forall p, offsets (fst p) (g_x g) == 0 -> offsets (snd p) (g_y g) == 0 -> fst p == fst c /\ snd p == snd c) /\
  forall p, squares (fst c) (g_x g) + squares (snd c) (g_y g) <= squares (fst p) (g_x g) + squares (snd p) (g_y g).
Proof. exact @centre_ok. Qed.
Print Assumptions C158_centre.
Theorem C158_order : forall (Ph : Type) (g g' : geometry Ph) perm c, length (g_x g) = g_n g -> length (g_y g) = g_n g -> permute_sites g perm = Ok g' -> center_of_mass g = Ok c ->
  exists c', center_of_mass g' = Ok c' /\ fst c' == fst c /\ snd c' == snd c.
Proof. exact @centre_permuted. Qed.
Print Assumptions C158_order.

(** Concrete cases for C151 and C152. *)
From Coq Require Import List Arith Lia Reals Lra ZArith QArith.
From Verif Require Import Scalars Res Matrix ModelGeometry ModelPhase SpecGeometry SpecValid ModelSmall GeoValid PropertiesSmall.
Import ListNotations.

(** Three sites in a row, all connected. *)
Definition triangle_adj : mat Q := Mat 3 3 (fun i j => if (i =? j)%nat then 0%Q else 1%Q).
Definition ones3 (k : nat) : mat CR := Mat k k (fun _ _ => (1, 0)%R).
Example ex_accepted : exists g, c_free_geometry [0; 1; 2]%Q [0; 0; 0]%Q (Some triangle_adj) (Some (ones3 3)) = Ok g /\ g_adj g = triangle_adj.
Proof.
  destruct (C151_accepts [0; 1; 2]%Q [0; 0; 0]%Q triangle_adj (ones3 3) eq_refl) as (g & E & _ & _ & _ & A & _).
  - split; [reflexivity|]. split; [reflexivity|]. intros i j Hi Hj. cbn [length] in *. cbn [ent triangle_adj]. rewrite (Nat.eqb_sym j i). split; [reflexivity|]. destruct (i =? j)%nat; [left | right]; reflexivity.
  - apply ones_sensible.
  - exists g. auto.
Qed.
(** Matrices for two sites are refused. *)
Example ex_refused : c_free_geometry [0; 1; 2]%Q [0; 0; 0]%Q (Some (Mat 2 2 (fun _ _ => 0%Q))) (Some (ones3 3)) = Raise ValueError.
Proof. apply C151_refuses; [reflexivity|]. intros ((R & _) & _). discriminate R. Qed.
(** Sites outside a cell of three by two sites. *)
Example ex_cell : exists L, new_lattice (1, 0)%Q (0, 1)%Q [vzero] (3, 0)%Q (0, 2)%Q 0 0 = Ok L /\
  reduce_to_unit_cell L [4; -2]%Q [5; -1]%Q Positive = Ok [((1, 1)%Q, 1%Z, 2%Z); ((1, 1)%Q, (-1)%Z, (-1)%Z)].
Proof. eexists. split; [vm_compute; reflexivity | vm_compute; reflexivity]. Qed.
(** Two lattices that differ in one periodicity vector only. *)
Example ex_unequal : exists L M, new_lattice (1, 0)%Q (0, 1)%Q [vzero] (3, 0)%Q (0, 2)%Q 0 0 = Ok L /\ new_lattice (1, 0)%Q (0, 1)%Q [vzero] (3, 0)%Q (0, 4)%Q 0 0 = Ok M /\ lattice_neb L M = true /\ lattice_neb L L = false.
Proof. eexists. eexists. split; [vm_compute; reflexivity|]. split; [vm_compute; reflexivity|]. split; vm_compute; reflexivity. Qed.

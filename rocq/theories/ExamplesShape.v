(** Concrete cases that meet the hypotheses of C187. *)
From Coq Require Import List Arith Lia QArith.
From Verif Require Import Res ModelGeometry ModelShape SpecShape PropertiesShape.
Import ListNotations.

Lemma row_12 (x y : Q) : row [x; y] (Nd [1%nat; 2%nat] [x; y]).
Proof. split; [reflexivity|]. split; [reflexivity|]. intros [|[|i]] Hi; try reflexivity. cbn in Hi. lia. Qed.
Lemma column_21 (x y : Q) : column [x; y] (Nd [2%nat; 1%nat] [x; y]).
Proof. split; [reflexivity|]. split; [reflexivity|]. intros [|[|i]] Hi; try reflexivity. cbn in Hi. lia. Qed.
Lemma flat_2 (x y : Q) : flat [x; y] (Nd [2%nat] [x; y]).
Proof. split; [reflexivity|]. split; [reflexivity|]. intros [|[|i]] Hi; try reflexivity. cbn in Hi. lia. Qed.
(** The square lattice with a 3 by 2 cell, its vectors given in different ways. *)
Example ex_square : exists L, lattice_of_arrays (Some (Nd [2%nat] [1; 0])) (Some (Nd [1%nat; 2%nat] [0; 1])) [Some (Nd [2%nat] [0; 0])] (Some (Nd [2%nat; 1%nat] [3; 0])) (Some (Nd [1%nat; 2%nat] [0; 2])) 0 0 = Ok L /\
  lt_p1 L = (3, 0) /\ lt_p2 L = (0, 2).
Proof.
  rewrite (C187_lattices 1 0 0 1 [(0, 0)] _ _ _ 3 0 0 2 _ _ 0 0 (or_introl (flat_2 1 0)) (or_intror (or_intror (row_12 0 1)))).
  - eexists. split; [vm_compute; reflexivity|]. split; reflexivity.
  - constructor; [|constructor]. eexists. split; [reflexivity|]. left. apply (flat_2 0 0).
  - right. left. apply column_21.
  - right. right. apply row_12.
Qed.
(** A 2 by 3 matrix is read row by row. *)
Example ex_matrix : ensure_1d_vect (Some (Nd [2; 3]%nat [1; 2; 3; 4; 5; 6]%nat)) = Ok (Some (Nd [6%nat] [1; 2; 3; 4; 5; 6]%nat)) /\ element (Nd [2; 3]%nat [1; 2; 3; 4; 5; 6]%nat) [1; 0]%nat = Some 4%nat.
Proof. split; reflexivity. Qed.
(** Vectors that are not given. *)
Example ex_none : ensure_1d_vect (A:=Q) None = Ok None /\ forall v bs p1 p2, lattice_of_arrays None v bs p1 p2 0 0 = Raise AttributeError.
Proof. split; reflexivity. Qed.

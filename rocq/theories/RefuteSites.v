(** Site cycles: a symmetry which is refused, and the number reported. *)
From Coq Require Import List Arith Lia QArith Qabs ZArith Bool Permutation.
From Verif Require Import Res SpecPerm Matrix ModelGeometry SpecGeometry ModelSites SpecSites.
Import ListNotations.
Local Open Scope Q_scope.

(** The sixth of a turn of the triangular lattice, in coordinates along the two
    lattice vectors. *)
Definition hex_lattice : lattice :=
  Lat (1, 0) (0, 1) [(0, 0)] (1, 0) (0, 1) (1, 0) (0, 1) 0 0.
Definition hex_turn (v : vec) : vec := (fst v - snd v, fst v).
(** The two three-fold points and the three two-fold points of the cell. *)
Definition hex_sites : list vec :=
  [(2 # 3, 1 # 3); (1 # 3, 2 # 3); (1 # 2, 0); (0, 1 # 2); (1 # 2, 1 # 2)].
Definition hex_image (i : nat) : nat := nth i [1; 0; 4; 2; 3]%nat 0%nat.
Definition tol10 : Q := 1 # 10000000000.

Lemma hex_usable : usable (Some hex_lattice).
Proof.
  unfold usable, generators, long. cbn. split; [right; reflexivity|]. split; [right; reflexivity|].
  intros _ _ H. discriminate H.
Qed.

Lemma hex_images i : (i < 5)%nat -> (hex_image i < 5)%nat /\
  on_site (Some hex_lattice) (hex_turn (nth i hex_sites vzero)) (nth (hex_image i) hex_sites vzero).
Proof.
  intros Hi. unfold on_site, equivalent.
  destruct i as [|[|[|[|[|i]]]]]; [| | | | |lia]; (split; [cbn; lia|]).
  - exists 0%Z, 0%Z. split; reflexivity.
  - exists 1%Z, 0%Z. split; reflexivity.
  - exists 0%Z, 0%Z. split; reflexivity.
  - exists 1%Z, 0%Z. split; reflexivity.
  - exists 0%Z, 0%Z. split; reflexivity.
Qed.

Lemma hex_refused : site_cycles (Some hex_lattice) hex_sites hex_turn tol10 = Raise GenericException.
Proof. vm_compute. reflexivity. Qed.

Lemma hex_with_centre : site_cycles (Some hex_lattice) (hex_sites ++ [(0, 0)]) hex_turn tol10 =
  Ok ([[0; 1]; [2; 4; 3]; [5]]%nat, 6%nat).
Proof. vm_compute. reflexivity. Qed.

Lemma hex_perm : Permutation (map hex_image (seq 0 5)) (seq 0 5).
Proof.
  cbn. apply NoDup_Permutation.
  - repeat (constructor; [cbn; lia|]). constructor.
  - repeat (constructor; [cbn; lia|]). constructor.
  - intros x. cbn. lia.
Qed.
Lemma hex_short (c : list nat) : In c [[0; 1]; [2; 4; 3]; [5]]%nat -> (length c < 6)%nat.
Proof. intros [<-|[<-|[<-|[]]]]; cbn; lia. Qed.

(** Class attributes of the spin systems: projectors on states of one spin and the exchange of two spins. *)
From Coq Require Import List Arith QArith.
From Verif Require Import Scalars Matrix.
Import ListNotations.

Section Projectors.
  Context {K : Type} {SR : StarRing K}.
  (** ed_spins.py:17 [nplus = 0.5 * np.array([[1, 1], [1, 1]])]. *)
  Definition nplus_op : mat K := mscale (kQ (1 # 2)) (mlit 2 2 [[k1; k1]; [k1; k1]]).
  (** ed_spins.py:18 [nminus = 0.5 * np.array([[1, -1], [-1, 1]])]. *)
  Definition nminus_op : mat K := mscale (kQ (1 # 2)) (mlit 2 2 [[k1; kopp k1]; [kopp k1; k1]]).
  (** ed_spins.py:19 [swap_op]. *)
  Definition swap_pair_op : mat K := mlit 4 4 [[k1; k0; k0; k0]; [k0; k0; k1; k0]; [k0; k1; k0; k0]; [k0; k0; k0; k1]].
End Projectors.

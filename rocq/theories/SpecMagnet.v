(** Vocabulary for spins 1/2 in an additional uniform field along z. *)
From Coq Require Import List Arith Reals.
From Verif Require Import Scalars Res Matrix ModelBase ModelSpins SpecSpins SpecThermal.
Import ListNotations.
Local Open Scope R_scope.

(** The same couplings and fields but the field along z, which is larger by [x] everywhere. *)
Definition magnetised (x : R) (s s' : spins CR) : Prop :=
  let n := sg_nsites (sp_geom s) in
  sg_nsites (sp_geom s') = n /\ sp_two s' = sp_two s /\
  (forall i j, (j < i < n)%nat -> sp_jx s' i j = sp_jx s i j /\ sp_jy s' i j = sp_jy s i j /\ sp_jz s' i j = sp_jz s i j) /\
  (forall i, (i < n)%nat -> sp_hx s' i = sp_hx s i /\ sp_hy s' i = sp_hy s i /\ sp_hz s' i = kadd (sp_hz s i) (x, 0)).
(** Spins along z, their products, and products of the transverse parts of two spins. *)
Inductive axial (rt : nat -> CR) (s : spins CR) : mat CR -> Prop :=
| axial_site i O : (i < sg_nsites (sp_geom s))%nat -> single_site_op (sp_sys s) i 0 (sz_op 1) Boson = Ok O -> axial rt s O
| axial_pair i j O : (i < sg_nsites (sp_geom s))%nat -> (j < sg_nsites (sp_geom s))%nat -> i <> j ->
    two_site_op (sp_sys s) i 0 j 0 (sz_op 1) (sz_op 1) Boson = Ok O -> axial rt s O
| axial_transverse i j OX OY O : (i < sg_nsites (sp_geom s))%nat -> (j < sg_nsites (sp_geom s))%nat -> i <> j ->
    two_site_op (sp_sys s) i 0 j 0 (sx_op rt 1) (sx_op rt 1) Boson = Ok OX -> two_site_op (sp_sys s) i 0 j 0 (sy_op rt 1) (sy_op rt 1) Boson = Ok OY -> cadd OX OY = Ok O -> axial rt s O.

(** Vocabulary for the statistics of level spacings, written without reference to the
    model. *)
From Coq Require Import List Arith Reals.
Import ListNotations.
Local Open Scope R_scope.

(** Smaller of two neighbouring spacings divided by the larger one; zero if one of them
    is zero. *)
Definition spacing_ratio (E : list R) (k : nat) : R :=
  let a := nth (k + 1) E 0 - nth k E 0 in
  let b := nth (k + 2) E 0 - nth (k + 1) E 0 in
  if Req_EM_T a 0 then 0 else if Req_EM_T b 0 then 0 else Rmin a b / Rmax a b.

(** The current operator of fermions, ed_fermions.py:480-519. *)
From Coq Require Import List Arith Bool QArith Qabs.
From Verif Require Import Scalars Res Matrix ModelBase ModelFermions ModelGeometry.
Import ListNotations.
Local Open Scope nat_scope.

Section Current.
  Context {K : Type} {SR : StarRing K}.

  (** The accumulator starts as the integer 0 (ed_fermions.py:498) and becomes a matrix
      with the first link.  [1j * 0] is a number as well. *)
  Inductive op_or_zero := ZeroNumber | Op (M : mat K).
  (** A product or sum with a matrix of size [n] treats the number as the zero matrix. *)
  Definition as_matrix (n : nat) (r : op_or_zero) : mat K := match r with ZeroNumber => mzero n n | Op M => M end.
  Definition add_link (acc : op_or_zero) (c : K) (A : mat K) : res op_or_zero :=
    match acc with ZeroNumber => Ok (Op (mscale c A)) | Op M => t <- cadd M (mscale c A) ;; Ok (Op t) end.

  (** ed_fermions.py:501-502: [np.round(np.abs(dist), 14) == 1]. *)
  Definition unit_apart (q : Q) : bool := Qeq_bool (round14 (Qabs q)) 1.

  (** One pass of the loops, ed_fermions.py:508-516. *)
  Definition link_step (tx ty : K) (f : fermions K) (d1 d2 : K) (acc : op_or_zero) (t : nat * nat * nat) : res op_or_zero :=
    let g := f_geom f in let '(ii, jj, kk) := t in
    acc <- (if fg_adj g ii jj && unit_apart (fg_xdist g ii jj) then
              A <- two_site_op (f_sys f) ii kk jj kk cdag_op c_op Fermion ;; add_link acc (kmul tx (kmul (kQ (fg_xdist g ii jj)) d1)) A
            else Ok acc) ;;
    if fg_adj g ii jj && unit_apart (fg_ydist g ii jj) then
      A <- two_site_op (f_sys f) ii kk jj kk cdag_op c_op Fermion ;; add_link acc (kmul ty (kmul (kQ (fg_ydist g ii jj)) d2)) A
    else Ok acc.

  (** ed_fermions.py:480-519 [get_current_op] for the direction [d1, d2].  [tx] and [ty]
      are the attributes [self.tx] and [self.ty], [None] if the object has none. *)
  Definition current_op (tx ty : option K) (f : fermions K) (d1 d2 : K) : res op_or_zero :=
    match tx, ty with
    | Some tx, Some ty =>
        acc <- rfold (link_step tx ty f d1 d2) (triples (fun _ _ => true) (fg_nsites (f_geom f)) (f_nspecies f)) ZeroNumber ;;
        Ok (match acc with ZeroNumber => ZeroNumber | Op M => Op (mscale ki M) end)
    | _, _ => Raise AttributeError
    end.

  (** [__init__], ed_fermions.py:20-176, assigns neither [self.tx] nor [self.ty], nor does
      the base class. *)
  Definition tx_of_init : option K := None.
  Definition ty_of_init : option K := None.
End Current.
Arguments op_or_zero K : clear implicits.

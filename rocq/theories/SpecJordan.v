(** When a chain of spins 1/2 and a chain of spinless fermions are the same. *)
From Coq Require Import List Arith QArith Qabs Bool.
From Verif Require Import Scalars ModelFermions ModelSpins.
Local Open Scope nat_scope.

Section Jordan.
  Context {K : Type} {SR : StarRing K}.
  (** The coupling along z of two different sites; the larger number is first. *)
  Definition jz_pair (s : spins K) (i j : nat) : K := if j <? i then sp_jz s i j else sp_jz s j i.
  (** One species that hops between sites that follow each other, at distance one;
      exchange along x and y is minus the hopping, the interaction is twice the
      coupling along z, and the field along z is the energy of a particle among
      neighbours half of which are there. *)
  Definition same_chain (s : spins K) (f : fermions K) : Prop :=
    let n := fg_nsites (f_geom f) in
    sg_nsites (sp_geom s) = n /\ sp_two s = 1 /\ f_nspecies f = 1 /\
    (forall i, i < n -> f_us f i = k0) /\
    (forall i j, j < i < n -> f_ts f i j 0 <> k0 ->
       i = S j /\ (Qabs (fg_xdist (f_geom f) i j) + Qabs (fg_ydist (f_geom f) i j) == 1)%Q) /\
    (forall i j, j < i < n -> sp_jx s i j = kopp (f_ts f i j 0) /\ sp_jy s i j = kopp (f_ts f i j 0)) /\
    (forall i j, j < i < n -> f_same f i j 0 = kmul (kofnat 2) (sp_jz s i j)) /\
    (forall i, i < n -> sp_hx s i = k0 /\ sp_hy s i = k0 /\
       sp_hz s i = kadd (kadd (ksub (f_pot f i 0) (f_mus f 0)) (f_same f i i 0))
                        (ksum n (fun j => if j =? i then k0 else jz_pair s i j))).
  (** Energy of the state without particles. *)
  Definition chain_offset (s : spins K) : K :=
    let n := sg_nsites (sp_geom s) in
    kmul (kQ (1 # 2)) (ksub (ksum n (fun i => ksum i (fun j => sp_jz s i j))) (ksum n (fun i => sp_hz s i))).
End Jordan.

(** Number of neighbours of a site of an open chain of [n] sites. *)
Definition chain_degree (n i : nat) : nat := (if i =? 0 then 0 else 1) + (if S i =? n then 0 else 1).

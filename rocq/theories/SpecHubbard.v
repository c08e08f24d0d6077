(** Specification of the lattice model: the Hamiltonian as a sum over sites of
    products of the Fock-space operators of SpecFock.v.  Logical site of
    (site, species) is [ns * species + site]. *)
From Coq Require Import List Arith Bool QArith.
From Verif Require Import Scalars Matrix SpecFock.
Local Open Scope nat_scope.

Section Hubbard.
  Context {K : Type} {SR : StarRing K}.

  (** [<a| X Y |b>] *)
  Definition elem (X Y : mat K) (a b : nat) : K := ent (mmul X Y) a b.

  (** [ - sum_{i>j,s} t_ijs (c+_is c_js + c+_js c_is)
        + sum_i U_i n_i0 n_i1
        + sum_{i>=j,s} V_ijs n_is n_js
        - sum_{i,s} mu_s n_is + sum_{i,s} v_is n_is ] *)
  Definition hubbard_elem (ns m : nat) (t : nat -> nat -> nat -> K) (U : nat -> K)
      (V : nat -> nat -> nat -> K) (mu : nat -> K) (v : nat -> nat -> K) (a b : nat) : K :=
    let nl := ns * m in
    let q i s := ns * s + i in
    (ksum ns (fun i => ksum i (fun j => ksum m (fun s =>
       - (t i j s * (elem (cdag_spec nl (q i s)) (c_spec nl (q j s)) a b
                   + elem (cdag_spec nl (q j s)) (c_spec nl (q i s)) a b)))))
     + ksum ns (fun i => U i * elem (n_spec nl (q i 0%nat)) (n_spec nl (q i 1%nat)) a b)
     + ksum ns (fun i => ksum (S i) (fun j => ksum m (fun s =>
         V i j s * elem (n_spec nl (q i s)) (n_spec nl (q j s)) a b)))
     - ksum ns (fun i => ksum m (fun s => mu s * ent (n_spec nl (q i s)) a b))
     + ksum ns (fun i => ksum m (fun s => v i s * ent (n_spec nl (q i s)) a b)))%K.

  Definition hubbard_spec ns m t U V mu v : mat K :=
    Mat (2 ^ (ns * m)) (2 ^ (ns * m)) (hubbard_elem ns m t U V mu v).
End Hubbard.

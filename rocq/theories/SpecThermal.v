(** Vocabulary for statements about diagonalisation, time evolution and thermal
    averages, written without reference to the model. *)
From Coq Require Import List Arith Reals Bool Sorting.
From Verif Require Import Scalars Matrix.
Import ListNotations.
Local Open Scope R_scope.

(** Sum over a list. *)
Definition total {A} (f : A -> R) (l : list A) : R := fold_right (fun a s => f a + s) 0 l.

(** Levels: pairs of an energy and the value of an observable. *)
Definition level := (R * R)%type.
Definition energy (p : level) : R := fst p.
Definition value (p : level) : R := snd p.

(** Average with weights exp(- energy / T). *)
Definition boltzmann (T : R) (l : list level) : R :=
  total (fun p => exp (- energy p / T) * value p) l / total (fun p => exp (- energy p / T)) l.

(** Average over the levels of energy [e]. *)
Definition at_energy (e : R) (p : level) : R := if Req_EM_T (energy p) e then 1 else 0.
Definition average_at (e : R) (l : list level) : R :=
  total (fun p => at_energy e p * value p) l / total (at_energy e) l.

(** [e] is the smallest of the numbers. *)
Definition smallest (e : R) (l : list R) : Prop := In e l /\ forall x, In x l -> e <= x.
(** Two numbers of the list are equal or differ by more than [gap]. *)
Definition apart (gap : R) (l : list R) : Prop :=
  forall x y, In x l -> In y l -> x = y \/ gap < Rabs (x - y).
Definition sorted_list (l : list R) : Prop := forall i j, (i <= j < length l)%nat -> nth i l 0 <= nth j l 0.

(** [f] tends to [L] at zero from above. *)
Definition tends_at_0 (f : R -> R) (L : R) : Prop :=
  forall eps, 0 < eps -> exists d, 0 < d /\ forall T, 0 < T < d -> Rabs (f T - L) < eps.

(** ** Quantum states: vectors of [n] complex numbers *)
Definition apply (n : nat) (O : mat CR) (psi : nat -> CR) (i : nat) : CR :=
  ksum n (fun j => kmul (ent O i j) (psi j)).
Definition inner (n : nat) (phi psi : nat -> CR) : CR := ksum n (fun i => kmul (kconj (phi i)) (psi i)).
(** Real part of the expectation value of [O]. *)
Definition expect (n : nat) (O : mat CR) (psi : nat -> CR) : R := fst (inner n psi (apply n O psi)).
Definition norm2 (n : nat) (psi : nat -> CR) : R := fst (inner n psi psi).
Definition col (A : mat CR) (k : nat) : nat -> CR := fun i => ent A i k.

(** Levels of an eigenbasis: the energies with the expectation values of [O]. *)
Definition levels (E : list R) (V O : mat CR) : list level :=
  map (fun k => (nth k E 0, expect (nrow V) O (col V k))) (seq 0 (length E)).

(** The columns of [V] are orthonormal. *)
Definition orthonormal (V : mat CR) : Prop :=
  forall k l, (k < ncol V)%nat -> (l < ncol V)%nat -> inner (nrow V) (col V k) (col V l) = kb (k =? l)%nat.
(** The columns of [V] are eigenvectors of [H] for the energies [E]. *)
Definition eigen (H V : mat CR) (E : list R) : Prop :=
  ncol V = length E /\ nrow H = nrow V /\ ncol H = nrow V /\
  forall i k, (i < nrow V)%nat -> (k < ncol V)%nat ->
    apply (nrow V) H (col V k) i = @kmul CR _ (nth k E 0, 0) (ent V i k).
(** ... and they span the space. *)
Definition complete_basis (V : mat CR) : Prop :=
  forall psi i, (i < nrow V)%nat ->
    psi i = ksum (ncol V) (fun k => kmul (ent V i k) (inner (nrow V) (col V k) psi)).

(** [H] is Hermitian on vectors of length [n]. *)
Definition hermitian (n : nat) (H : mat CR) : Prop :=
  forall i j, (i < n)%nat -> (j < n)%nat -> ent H i j = kconj (ent H j i).
(** An orthonormal basis of eigenvectors of [H] with energies [E]. *)
Definition eigenbasis (H V : mat CR) (E : list R) : Prop :=
  eigen H V E /\ orthonormal V /\ complete_basis V.

(** Eigenvectors, observable and energies belong together. *)
Definition fits (V O : mat CR) (E : list R) : Prop :=
  nrow O = nrow V /\ ncol O = nrow V /\ ncol V = length E /\ E <> [].
(** 0.5e-13 *)
Definition gap13 : R := / 2 * / 10 ^ 13.

(** A symmetry sector: eigenvectors, observable and energies in the basis of the
    sector. *)
Definition sector := (mat CR * mat CR * list R)%type.
Definition sV (s : sector) := fst (fst s).
Definition sop (s : sector) := snd (fst s).
Definition sE (s : sector) := snd s.
Definition sector_ok (s : sector) : Prop := fits (sV s) (sop s) (sE s).
Definition sector_levels (s : sector) : list level := levels (sE s) (sV s) (sop s).

(** A block of a Hamiltonian: a basis of the sector as rows, the eigenvectors in
    this basis and the energies. *)
Definition block := (mat CR * mat CR * list R)%type.
(** An operator, seen in the sector with the basis [B]. *)
Definition seen_in (B O : mat CR) : mat CR := mmul (mmul B O) (madj B).

(** ** Response *)
(** Occupation probability of level [n] at temperature [T]. *)
Definition prob (T : R) (E : list R) (n : nat) : R :=
  exp (- nth n E 0 / T) / total (fun e => exp (- e / T)) E.
(** Double sum over the levels. *)
Definition sum_nm (N : nat) (f : nat -> nat -> R) : R := total (fun n => total (f n) (seq 0 N)) (seq 0 N).
(** Lorentzian of width [eta] and area one. *)
Definition lorentz (eta x : R) : R := (eta / PI) / (eta ^ 2 + x ^ 2).
(** Lehmann representation of the imaginary part of the retarded response of [A]
    to [B]; [s] is -1 for a commutator, +1 for an anticommutator. *)
Definition lehmann (s : R) (A B : mat CR) (E : list R) (T w eta : R) : R :=
  PI * sum_nm (length E) (fun n m =>
    fst (kmul (ent A n m) (ent B m n)) * (prob T E n + s * prob T E m) * lorentz eta (w + nth n E 0 - nth m E 0)).
(** The lowest energy occurs once. *)
Definition unique_ground (E : list R) : Prop :=
  E <> [] /\ forall k, (0 < k < length E)%nat -> nth 0 E 0 < nth k E 0.
(** Squared modulus. *)
Definition abs2 (z : CR) : R := fst z * fst z + snd z * snd z.
(** Weight of the optical conductivity per site: the level pairs of different
    energy. *)
Definition kubo_weight (nsites : nat) (J : mat CR) (E : list R) (T : R) : R :=
  PI / INR nsites * sum_nm (length E) (fun n m =>
    if Req_EM_T (nth n E 0) (nth m E 0) then 0
    else abs2 (ent J n m) * (prob T E m - prob T E n) / (nth n E 0 - nth m E 0)).
Definition square_size (A : mat CR) (N : nat) : Prop := nrow A = N /\ ncol A = N.

(** A state of the subspace kept by [P], as a state of the whole space. *)
Definition lift (P : mat CR) (psi : nat -> CR) (i : nat) : CR :=
  ksum (nrow P) (fun k => kmul (kconj (ent P k i)) (psi k)).
(** No projector means the whole space. *)
Definition the_projector (P : option (mat CR)) (n : nat) : mat CR := match P with None => meye n | Some P => P end.

(** [E] holds eigenvalues of largest magnitude: any other eigenvalue of [A] is not
    larger in magnitude. *)
Definition largest_magnitude (n : nat) (A : mat CR) (E : list R) : Prop :=
  forall e psi, (exists i, (i < n)%nat /\ psi i <> k0) ->
    (forall i, (i < n)%nat -> apply n A psi i = @kmul CR _ (e, 0) (psi i)) ->
    In e E \/ forall x, In x E -> Rabs e <= Rabs x.
(** [e] is an eigenvalue of [H]. *)
Definition eigenvalue (n : nat) (H : mat CR) (e : R) : Prop :=
  exists psi, (exists i, (i < n)%nat /\ psi i <> k0) /\
    forall i, (i < n)%nat -> apply n H psi i = @kmul CR _ (e, 0) (psi i).
(** [H + c]. *)
Definition plus_const (c : R) (H : mat CR) : mat CR := madd H (@mscale CR _ (c, 0) (meye (nrow H))).

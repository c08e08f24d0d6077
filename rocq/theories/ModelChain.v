(** Model of the reduction to sectors in examples/heisenberg_chain.py.

    Simplified: numbers are exact, so [np.round(np.exp(1j * k).real)] with k = 0
    or pi is the cosine of k, and k == np.pi is decided for real numbers; the
    order of the magnetisations is the one of [subspace_projs]. *)
From Coq Require Import List Arith ZArith QArith Reals Bool.
From Verif Require Import Scalars Res Matrix ModelBase ModelSpins ModelGeometry ModelPhase ModelSites ModelSymmetry ModelThermal ModelSpinLattice.
Import ListNotations.
Local Open Scope R_scope.

(** An entry of the lists [projs], [mzs_all], [kxs_all], [spin_parity_all] and
    [space_parity_all] (examples/heisenberg_chain.py:36-40). *)
Record sector := Sector { se_rows : cmat; se_mz : CR; se_k : R; se_spin : R; se_space : R }.

(** [p * op * p.conj().transpose()]. *)
Definition in_basis (p op : cmat) : cmat := mmul p (mmul op (madj p)).
(** examples/heisenberg_chain.py:49, 58 and 83. *)
Definition parity (k : R) : R := cos k.
(** [kx == 0 or kx == np.pi] (:54, 79). *)
Definition at_rest (k : R) : bool :=
  if Req_EM_T k 0 then true else if Req_EM_T k PI then true else false.

Section Chain.
  Variable svd_rows : cmat -> cmat.

  (** examples/heisenberg_chain.py:52-73 and 78-98: the part after [pp] or [tp];
      [C] is the product of the projectors so far. *)
  Definition by_inversion (inv_op C : cmat) (mz : CR) (k spin : R) : res (list sector) :=
    if (nrow C =? 0)%nat then Ok [] else
    if at_rest k then
      qs <- zn_projectors svd_rows (in_basis C inv_op) 2 ;;
      Ok (filter (fun s => negb (nrow (se_rows s) =? 0)%nat)
            (map (fun qk => Sector (mmul (fst qk) C) mz k spin (parity (snd qk))) (combine qs (zn_ks 2))))
    else Ok [Sector C mz k spin 0].

  (** :45-51: the spin flip is used for magnetisation zero only. *)
  Definition by_flip (flip_op inv_op C : cmat) (mz : CR) (k : R) : res (list sector) :=
    if keq_dec mz k0 then
      qs <- zn_projectors svd_rows (in_basis C flip_op) 2 ;;
      parts <- rmap (fun qk => by_inversion inv_op (mmul (fst qk) C) mz k (parity (snd qk))) (combine qs (zn_ks 2)) ;;
      Ok (concat parts)
    else by_inversion inv_op C mz k 0.

  (** :42-43. *)
  Definition by_momentum (tx_op flip_op inv_op : cmat) (n : nat) (p : cmat) (mz : CR) : res (list sector) :=
    qs <- zn_projectors svd_rows (in_basis p tx_op) n ;;
    parts <- rmap (fun qk => by_flip flip_op inv_op (mmul (fst qk) p) mz (snd qk)) (combine qs (zn_ks n)) ;;
    Ok (concat parts).

  (** :33 and :41. *)
  Definition chain_sectors (sz_op tx_op flip_op inv_op : cmat) (n : nat) : res (list sector) :=
    pv <- subspace_projs true sz_op None ;;
    parts <- rmap (fun x => by_momentum tx_op flip_op inv_op n (fst x) (snd x)) (combine (fst pv) (snd pv)) ;;
    Ok (concat parts).
End Chain.

(** ** The script *)

(** ed_symmetry.py:93-107 [getTranslFn] and :80-90 [getInversionFn] on rational
    points. *)
Definition translation_q (t v : vec) : vec := ((fst v + fst t)%Q, (snd v + snd t)%Q).
Definition inversion_q (c v : vec) : vec := ((- (fst v - fst c) + fst c)%Q, (- (snd v - snd c) + snd c)%Q).

(** examples/heisenberg_chain.py:19-21 and 25-27.  Without a cycle of several
    sites the operator is the number 1, which acts like the unit matrix. *)
Definition operator_from (s : spins CR) (g : geometry CR) (fn : vec -> vec) : res cmat :=
  cm <- find_site_cycles fn g ;;
  T <- xform_op (sp_sys s) (sp_swap_op (sp_sys s)) (fst cm) ;;
  Ok (match T with Some A => A | None => meye (nstates (sp_sys s)) end).

(** What the script has made before it reduces anything (:10-30 and 101). *)
Record chain := Chain { ch_spins : spins CR; ch_sz : cmat; ch_tx : cmat; ch_flip : cmat; ch_inv : cmat; ch_ham : cmat }.
Definition ring_chain (rt : nat -> CR) (n : Z) (J : CR) : res chain :=
  g <- c_square_geometry n 1 0 0 false true ;;
  s <- spins_init (K:=CR) (fun z : CR => negb (rle_b (snd z) (/ 10 ^ 14))) (sgeom_of g) (JNum J) (JNum J) (JNum J) (HNum k0) (HNum k0) (HNum k0) false 1 ;;
  sz <- sum_op (sp_sys s) (sz_op 1) 0 Boson ;;
  tx <- operator_from s g (translation_q (1, 0)%Q) ;;
  c <- center_of_mass g ;;
  inv <- operator_from s g (inversion_q c) ;;
  H <- sp_createH rt s None ;;
  Ok (Chain s sz tx (swap_up_down (sp_sys s)) inv H).
(** :33-98. *)
Definition reduced_chain (svd_rows : cmat -> cmat) (c : chain) : res (list sector) :=
  chain_sectors svd_rows (ch_sz c) (ch_tx c) (ch_flip c) (ch_inv c) (sg_nsites (sp_geom (ch_spins c))).
(** [np.sort]. *)
Definition np_sort (l : list R) : list R := map (fun i => nth i l 0) (argsort l).

(** :101-111: the sorted energies of all sectors, the energies of the whole and
    the greatest difference.  Subtracting lists of different lengths and the
    maximum of an empty one are ValueErrors. *)
Definition sector_matrix (c : chain) (s : sector) : cmat := mmul (mmul (se_rows s) (ch_ham c)) (madj (se_rows s)).
Definition max_difference (a b : list R) : res R :=
  if negb (length a =? length b)%nat then Raise ValueError else
  match map (fun x => Rabs (fst x - snd x)) (combine a b) with
  | [] => Raise ValueError
  | d :: l => Ok (fold_left Rmax l d)
  end.
Definition compared (eigh : cmat -> list R * cmat) (eigsh : cmat -> nat -> list R * cmat) (c : chain) (ss : list sector) : res R :=
  max_difference (np_sort (concat (map (fun s => fst (diagH eigh eigsh (sector_matrix c s) 200 false)) ss)))
    (fst (diagH eigh eigsh (ch_ham c) 200 false)).

(** Model of exact_diag/fermi_gas.py: the non-interacting Fermi gas on a periodic
    chain or square lattice.

    Simplified: numbers are exact; [beta] and [mu] are single numbers (the
    functions loop over arrays of them one at a time); warnings are left out;
    where numpy goes on with nan or inf the result is [Raise NotFinite];
    Python's ZeroDivisionError is reported as [GenericException]; the root finder
    and the minimiser of scipy are arguments. *)
From Coq Require Import List Arith Reals ZArith Bool.
From Verif Require Import Scalars Res Sums Matrix ModelPhase ModelSymmetry.
Import ListNotations.
Local Open Scope R_scope.

(** Inverse temperature: a number or [np.inf]. *)
Inductive invtemp := Beta (b : R) | BetaInf.
Inductive dimension := Dim1 | Dim2 | OtherDim.
Inductive grid_mode := Balanced | Positive | OtherGrid.
Inductive gfn_type := Greater | Lesser | Retarded | Advanced | TimeOrdered | OtherType.

(** fermi_gas.py:9-41 [fermi]. *)
Definition fermi (beta : invtemp) (mu energy : R) : R :=
  match beta with
  | Beta b => 1 / (exp (b * (energy - mu)) + 1)
  | BetaInf => if rle_b (energy - mu) 0 then 1 else 0
  end.

(** fermi_gas.py:44-90 [fermi_derivatives]: with respect to mu, energy, beta.  At
    zero temperature [beta * (energy - mu)] is inf or nan for [mu <= energy], and
    these points are broadened; below the chemical potential the products inf * 0
    of lines 77-78 are nan. *)
Definition fermi_derivatives (beta : invtemp) (mu energy eta : R) : res (R * R * R) :=
  match beta with
  | Beta b =>
      let f := fermi beta mu energy in
      let dfdx := - f * (1 - f) in
      Ok (- b * dfdx, b * dfdx, (energy - mu) * dfdx)
  | BetaInf =>
      let x := energy - mu in
      if rle_b 0 x then
        if Req_EM_T eta 0 then Raise GenericException
        else let d := PI / eta / (x * x + eta * eta) in Ok (d, d, d)
      else Raise NotFinite
  end.
Definition dfdmu (beta : invtemp) (mu energy eta : R) : res R :=
  d <- fermi_derivatives beta mu energy eta ;; Ok (fst (fst d)).

(** [np.sort] of an array of numbers. *)
Fixpoint r_insert (x : R) (l : list R) : list R :=
  match l with [] => [x] | y :: t => if rle_b x y then x :: l else y :: r_insert x t end.
Definition r_sort (l : list R) : list R := fold_right r_insert [] l.

(** fermi_gas.py:106-120, one axis. *)
Definition axis (n : nat) (mode : grid_mode) : res (list R) :=
  let ks := map (fun j => 2 * PI / INR n * INR j) (seq 0 n) in
  match n with
  | O => Raise GenericException
  | _ =>
      match mode with
      | Balanced => Ok (r_sort (map (fun k => if rle_b PI k then k - 2 * PI else k) ks))
      | Positive => Ok ks
      | OtherGrid => Raise GenericException
      end
  end.

(** fermi_gas.py:93-124 [get_allowed_kvects]: the points of the grid row by row,
    and the spacings. *)
Definition allowed_kvects (nx ny : nat) (mode : grid_mode) : res (list (R * R) * R * R) :=
  kxs <- axis nx mode ;;
  kys <- axis ny mode ;;
  Ok (concat (map (fun ky => map (fun kx => (kx, ky)) kxs) kys), 2 * PI / INR nx, 2 * PI / INR ny).

(** fermi_gas.py:127-141 [get_energy_spacing].  [np.min] of an empty array raises
    ValueError.  [np.round(x, 12)] multiplies, rounds and divides. *)
Definition ten12 : R := 10 ^ 12.
Definition round12 (x : R) : R := IZR (round_z (x * ten12)) / ten12.
Fixpoint diffs (l : list R) : list R :=
  match l with x :: ((y :: _) as t) => y - x :: diffs t | _ => [] end.
Definition r_min (x : R) (l : list R) : R := fold_right Rmin x l.
Definition r_max (x : R) (l : list R) : R := fold_right Rmax x l.
Definition energy_spacing (es : list R) : res (R * R * R) :=
  match filter (rlt_b 0) (map round12 (diffs (r_sort es))) with
  | [] => Raise ValueError
  | (x :: t) as d => Ok (r_min x t, r_max x t, fold_right Rplus 0 d / INR (length d))
  end.

(** fermi_gas.py:264-271, the dispersion. *)
Definition dispersion (dim : dimension) (k : R * R) : res R :=
  match dim with
  | Dim1 => Ok (-2 * cos (fst k))
  | Dim2 => Ok (-2 * (cos (fst k) + cos (snd k)))
  | OtherDim => Raise GenericException
  end.

(** fermi_gas.py:364-381, the wave vectors. *)
Definition kpoints (nsites : nat) (dim : dimension) : res (list (R * R)) :=
  match dim with
  | Dim2 => g <- allowed_kvects nsites nsites Balanced ;; Ok (fst (fst g))
  | Dim1 => g <- allowed_kvects nsites 1 Balanced ;; Ok (fst (fst g))
  | OtherDim => Raise GenericException
  end.
(** fermi_gas.py:144-158 [get_dos].  [np.histogram] raises for edges which
    decrease; its last bin includes the right edge.  A bin of no width or an empty
    list of energies makes numpy divide by zero. *)
Definition in_bin (lo hi : R) (closed : bool) (x : R) : bool := rle_b lo x && (rlt_b x hi || (closed && rle_b x hi)).
Fixpoint histogram (es edges : list R) : list nat :=
  match edges with
  | lo :: ((hi :: t) as rest) =>
      length (filter (in_bin lo hi (match t with [] => true | _ => false end)) es) :: histogram es rest
  | _ => []
  end.
Fixpoint quotients (l : list nat) (m : list R) : list R :=
  match l, m with x :: l', y :: m' => INR x / y :: quotients l' m' | _, _ => [] end.
Definition get_dos (es edges : list R) : res (list R) :=
  let de := diffs edges in
  if existsb (fun d => rlt_b d 0) de then Raise ValueError
  else if existsb (fun d => rle_b d 0) de || (length es =? 0)%nat then Raise NotFinite
  else Ok (map (fun x => x / INR (length es)) (quotients (histogram es edges) de)).

(** fermi_gas.py:161-199 [get_dos2].  The number of bins is a float, which
    [np.linspace] refuses (line 192). *)
Definition get_dos2 (nsites : nat) (dim : dimension) : res (list R * list R) :=
  ks <- kpoints nsites dim ;;
  es <- rmap (dispersion dim) ks ;;
  spacing <- energy_spacing es ;;
  Raise TypeError.

(** [np.heaviside(t, 1.)] *)
Definition heaviside (t : R) : R := if rle_b 0 t then 1 else 0.
Definition c_i : CR := (0, 1).
Definition c_mi : CR := (0, -1).

(** fermi_gas.py:203-305 [fg_kspace_gfns] at one wave vector, first result. *)
Definition kspace_gfn (beta : invtemp) (mu ek time : R) (ty : gfn_type) : res CR :=
  let phase := cexp (- ((ek - mu) * time)) in
  let f := fermi beta mu ek in
  match ty with
  | Greater => Ok (cr_mul (cr_mul c_mi phase) (real (1 - f)))
  | Lesser => Ok (cr_mul (cr_mul c_i phase) (real f))
  | Retarded => Ok (cr_mul (cr_mul c_mi (real (heaviside time))) phase)
  | Advanced => Ok (cr_mul (cr_mul c_i (real (heaviside (- time)))) phase)
  | TimeOrdered =>
      Ok (cr_mul (cr_mul c_mi phase) (real (heaviside time * (1 - f) - heaviside (- time) * f)))
  | OtherType => Raise ValueError
  end.
(** ... and second result; the default [eta] of [fermi_derivatives] is 0.1. *)
Definition kspace_dgdmu (beta : invtemp) (mu ek time : R) (ty : gfn_type) : res CR :=
  let phase := cexp (- ((ek - mu) * time)) in
  let f := fermi beta mu ek in
  match ty with
  | Greater =>
      d <- dfdmu beta mu ek (1 / 10) ;;
      Ok (cr_add (cr_mul (cr_mul (real time) phase) (real (1 - f))) (cr_mul (cr_mul c_i phase) (real d)))
  | Lesser =>
      d <- dfdmu beta mu ek (1 / 10) ;;
      Ok (cr_add (cr_mul (cr_mul (real (- time)) phase) (real f)) (cr_mul (cr_mul c_i phase) (real d)))
  | Retarded => Ok (cr_mul (real (time * heaviside time)) phase)
  | Advanced => Ok (cr_mul (real (- time * heaviside (- time))) phase)
  | TimeOrdered => Ok (cr_mul (real 0) (real ek))
  | OtherType => Raise ValueError
  end.

(** fermi_gas.py:368 and 377, the Fourier factors; in one dimension the second
    component of [corr_index] is not looked at. *)
Definition fourier (dim : dimension) (r : Z * Z) (k : R * R) : CR :=
  match dim with
  | Dim2 => cexp (fst k * IZR (fst r) + snd k * IZR (snd r))
  | _ => cexp (fst k * IZR (fst r))
  end.

(** fermi_gas.py:308-394 [fg_realspace_gfn] for one [beta] and [mu], where [g] is
    one of the two results of [fg_kspace_gfns].  The energy spacing is only used
    for a warning, but the call may raise. *)
Definition fourier_sum (g : R -> res CR) (r : Z * Z) (nsites : nat) (dim : dimension) : res CR :=
  ks <- kpoints nsites dim ;;
  es <- rmap (dispersion dim) ks ;;
  gk <- rmap g es ;;
  spacing <- energy_spacing es ;;
  Ok (cr_mul (real (1 / INR (length ks)))
             (klsum (combine ks gk) (fun kg => cr_mul (fourier dim r (fst kg)) (snd kg)))).
Definition realspace_gfn (beta : invtemp) (mu : R) (r : Z * Z) (time : R) (nsites : nat) (dim : dimension)
    (ty : gfn_type) : res CR :=
  fourier_sum (fun ek => kspace_gfn beta mu ek time ty) r nsites dim.
Definition realspace_dgdmu (beta : invtemp) (mu : R) (r : Z * Z) (time : R) (nsites : nat) (dim : dimension)
    (ty : gfn_type) : res CR :=
  fourier_sum (fun ek => kspace_dgdmu beta mu ek time ty) r nsites dim.

(** fermi_gas.py:398-415 [fg_density]. *)
Definition fg_density (beta : invtemp) (mu : R) (nsites : nat) (dim : dimension) : res R :=
  g <- realspace_gfn beta mu (0, 0)%Z 0 nsites dim Lesser ;; Ok (modulus g).
(** fermi_gas.py:483-502 [fg_compressibility]. *)
Definition fg_compressibility (beta : invtemp) (mu : R) (nsites : nat) (dim : dimension) : res R :=
  g <- realspace_dgdmu beta mu (0, 0)%Z 0 nsites dim Lesser ;; Ok (modulus g).

(** fermi_gas.py:418-480 [fg_mu].  [root_scalar f] stands for
    [root_scalar(f, x0=-0.1, x1=0.1).root], [minimize f x] for
    [minimize(f, x).x]. *)
Definition fg_mu (root_scalar : (R -> res R) -> res R) (minimize : (R -> res R) -> R -> res R)
    (beta : invtemp) (density : R) (nsites : nat) (dim : dimension) : res R :=
  let min_fn := fun mu => n <- fg_density beta mu nsites dim ;; Ok (Rabs (n - density)) in
  let jacobian := fun mu => fg_compressibility beta mu nsites dim in
  let jacobian_fsqr := fun mu => m <- min_fn mu ;; j <- jacobian mu ;; Ok (2 * m * j) in
  if Req_EM_T density (1 / 2) then Ok 0
  else match beta with Beta _ => root_scalar jacobian_fsqr | BetaInf => minimize min_fn 0 end.

(** fermi_gas.py:506-525 [fg_corr]. *)
Definition no_shift (r : Z * Z) : R := if ((fst r =? 0) && (snd r =? 0))%Z then 1 else 0.
Definition fg_corr (beta : invtemp) (mu : R) (r : Z * Z) (nsites : nat) (dim : dimension) : res R :=
  g <- realspace_gfn beta mu r 0 nsites dim Lesser ;;
  Ok (no_shift r * modulus g - modulus g * modulus g).

(** [x / z] for a real [x]; nan or inf where [z] is zero. *)
Definition r_over_c (x : R) (z : CR) : res CR :=
  let d := fst z * fst z + snd z * snd z in
  if Req_EM_T d 0 then Raise NotFinite else Ok (x * fst z / d, - (x * snd z) / d).

(** fermi_gas.py:575-596, the energies at k and at k+q.  The dispersion of line 591
    ignores its argument. *)
Definition shifted_energies (nsites : nat) (dim : dimension) (q : R * R) : res (list (R * R)) :=
  ks <- kpoints nsites dim ;;
  match dim with
  | Dim2 => Ok (map (fun k => (-2 * (cos (fst k) + cos (snd k)),
                               -2 * (cos (fst k + fst q) + cos (snd k + snd q)))) ks)
  | Dim1 => Ok (map (fun k => (-2 * cos (fst k), -2 * cos (fst k))) ks)
  | OtherDim => Raise GenericException
  end.
(** fermi_gas.py:613-616, one term: [lim] where the quotient is nan (which is the
    case whenever the denominator vanishes, also for inf + nan j). *)
Definition chi_term (beta : invtemp) (mu omega eta : R) (lim : R) (ee : R * R) : CR :=
  match r_over_c (fermi beta mu (fst ee) - fermi beta mu (snd ee)) (omega + fst ee - snd ee, eta) with
  | Ok z => z
  | Raise _ => real lim
  end.
(** fermi_gas.py:528-623 [fg_density_response] for one [beta] and [mu].  At zero
    temperature line 615 divides by zero or gives nan: reported as [NotFinite]. *)
Definition density_response (beta : invtemp) (mu : R) (q : R * R) (omega eta : R) (nsites : nat)
    (dim : dimension) : res CR :=
  ees <- shifted_energies nsites dim q ;;
  match beta with
  | BetaInf => Raise NotFinite
  | Beta _ =>
      lims <- rmap (fun ee => d <- dfdmu beta mu (fst ee) 0 ;; Ok (- d)) ees ;;
      Ok (cr_mul (real (1 / INR (length ees)))
                 (klsum (combine ees lims) (fun el => chi_term beta mu omega eta (snd el) (fst el))))
  end.

(** fermi_gas.py:649-680 [fg_singles]. *)
Definition fg_singles (beta : invtemp) (mu_up mu_dn : R) (nsites : nat) (dim : dimension) : res R :=
  n_up <- fg_density beta mu_up nsites dim ;;
  n_dn <- fg_density beta mu_dn nsites dim ;;
  Ok (n_up + n_dn - 2 * n_up * n_dn).

(** fermi_gas.py:683-748 [fg_singles_corr]. *)
Definition fg_singles_corr (beta : invtemp) (mu_up mu_dn : R) (r : Z * Z) (nsites : nat) (dim : dimension) : res R :=
  n_up <- fg_density beta mu_up nsites dim ;;
  n_dn <- fg_density beta mu_dn nsites dim ;;
  up <- fg_corr beta mu_up r nsites dim ;;
  dn <- fg_corr beta mu_dn r nsites dim ;;
  Ok (up * (1 + 4 * (n_dn * n_dn) - 4 * n_dn) + dn * (1 + 4 * (n_up * n_up) - 4 * n_up) + 4 * up * dn).

(** fermi_gas.py:751-783 [fg_doubles]. *)
Definition fg_doubles (beta : invtemp) (mu_up mu_dn : R) (nsites : nat) (dim : dimension) : res R :=
  n_up <- fg_density beta mu_up nsites dim ;;
  n_dn <- fg_density beta mu_dn nsites dim ;;
  Ok (n_up * n_dn).

(** fermi_gas.py:786-830 [fg_doubles_corr]. *)
Definition fg_doubles_corr (beta : invtemp) (mu_up mu_dn : R) (r : Z * Z) (nsites : nat) (dim : dimension) : res R :=
  n_up <- fg_density beta mu_up nsites dim ;;
  n_dn <- fg_density beta mu_dn nsites dim ;;
  up <- fg_corr beta mu_up r nsites dim ;;
  dn <- fg_corr beta mu_dn r nsites dim ;;
  Ok (n_up * n_up * dn + n_dn * n_dn * up + up * dn).

(** fermi_gas.py:833-854 [fg_sz_corr]. *)
Definition fg_sz_corr (beta : invtemp) (mu_up mu_dn : R) (r : Z * Z) (nsites : nat) (dim : dimension) : res R :=
  up <- fg_corr beta mu_up r nsites dim ;;
  dn <- fg_corr beta mu_dn r nsites dim ;;
  Ok (up + dn).

(** fermi_gas.py:857-879 [fg_sx_corr]. *)
Definition fg_sx_corr (beta : invtemp) (mu_up mu_dn : R) (r : Z * Z) (nsites : nat) (dim : dimension) : res R :=
  u <- realspace_gfn beta mu_up r 0 nsites dim Lesser ;;
  d <- realspace_gfn beta mu_dn r 0 nsites dim Lesser ;;
  Ok (no_shift r * (modulus u + modulus d) - fst (cr_mul u (cr_conj d)) - fst (cr_mul d (cr_conj u))).

(** Model of exact_diag/greens_fns.py.

    Simplified: numbers are exact; arrays of frequencies and times are lists;
    spectral functions are real; warnings are left out; where numpy goes on with
    nan or inf the result is [Raise NotFinite]; Python's ZeroDivisionError is
    reported as [GenericException]; arrays of different lengths are refused also
    where numpy would stretch an array of length one. *)
From Coq Require Import List Arith Reals ZArith Bool.
From Verif Require Import Scalars Res Sums ModelPhase ModelSymmetry ModelFermiGas.
Import ListNotations.
Local Open Scope R_scope.

Inductive format := Fermion | Boson | OtherFormat.

(** [np.arange(start, stop, step)] for a step that is not zero. *)
Definition ceil (x : R) : Z := (- Int_part (- x))%Z.
Definition arange (start stop step : R) : list R :=
  map (fun i => start + INR i * step) (seq 0 (Z.to_nat (ceil ((stop - start) / step)))).

(** greens_fns.py:8-32 [get_matsubara_frqs]. *)
Definition matsubara_frqs (beta max_frq : R) (fmt : format) : res (list R) :=
  if Req_EM_T beta 0 then Raise GenericException
  else
    let frqs smallest := let w := arange smallest max_frq (2 * PI / beta) in map Ropp w ++ w in
    match fmt with
    | Fermion => Ok (r_sort (frqs (PI / beta)))
    | Boson => Ok (r_sort (frqs (2 * PI / beta) ++ [0]))
    | OtherFormat => Raise GenericException
    end.

(** [np.trapz(ys, xs)]. *)
Fixpoint trapz (xs : list R) (ys : list CR) : CR :=
  match xs, ys with
  | x :: ((x' :: _) as xs'), y :: ((y' :: _) as ys') =>
      cr_add (cr_mul (real ((x' - x) / 2)) (cr_add y y')) (trapz xs' ys')
  | _, _ => (0, 0)
  end.

(** greens_fns.py:36-65 [get_grnfn_imagfrq_spectralfn]. *)
Definition imagfrq_spectralfn (matsubara omegas spectral : list R) : res (list CR) :=
  if negb (length spectral =? length omegas)%nat then Raise ValueError
  else rmap (fun wn =>
    integrand <- rmap (fun oa => r_over_c (snd oa) (- fst oa, wn)) (combine omegas spectral) ;;
    Ok (cr_mul (trapz omegas integrand) (real (1 / (2 * PI))))) matsubara.

Definition statistics (fmt : format) : res R :=
  match fmt with Fermion => Ok 1 | Boson => Ok (-1) | OtherFormat => Raise GenericException end.
(** A quotient of real numbers. *)
Definition r_over_r (x y : R) : res R := if Req_EM_T y 0 then Raise NotFinite else Ok (x / y).

(** greens_fns.py:68-111 [get_grnfn_imagtime_spectralfn]. *)
Definition imagtime_spectralfn (taus : list R) (beta : R) (omegas spectral : list R) (fmt : format) : res (list R) :=
  factor <- statistics fmt ;;
  if negb (length spectral =? length omegas)%nat then Raise ValueError
  else rmap (fun tau =>
    integrand <- rmap (fun oa => r_over_r (snd oa * exp (- (fst oa * tau))) (1 + factor * exp (- beta * fst oa)))
                      (combine omegas spectral) ;;
    Ok (- fst (trapz omegas (map real integrand)) / (2 * PI))) taus.

(** greens_fns.py:132-135 and 166-169, the weights of the grid points. *)
Definition frq_diffs (omegas : list R) : res (list R) :=
  let n := length omegas in
  let w := fun i => nth i omegas 0 in
  if (n <? 2)%nat then Raise IndexError
  else Ok (map (fun i =>
    if (i =? n - 1)%nat then / 2 * (w (n - 1)%nat - w (n - 2)%nat)
    else if (i =? 0)%nat then / 2 * (w 1%nat - w 0%nat)
    else / 2 * (w (i + 1)%nat - w (i - 1)%nat)) (seq 0 n)).

(** greens_fns.py:115-140 [get_grnfn_imagfrq_spectralfn_kernel], which does not look
    at [format]. *)
Definition imagfrq_kernel (matsubara omegas : list R) : res (list (list CR)) :=
  d <- frq_diffs omegas ;;
  rmap (fun wn => rmap (fun od =>
    q <- r_over_c 1 (- fst od, wn) ;;
    Ok (cr_mul (cr_mul (real (1 / (2 * PI))) q) (real (snd od)))) (combine omegas d)) matsubara.

(** greens_fns.py:143-176 [get_grnfn_imagtime_spectralfn_kernel]. *)
Definition imagtime_kernel (taus : list R) (beta : R) (omegas : list R) (fmt : format) : res (list (list R)) :=
  factor <- statistics fmt ;;
  d <- frq_diffs omegas ;;
  rmap (fun tau => rmap (fun od =>
    q <- r_over_r (exp (- fst od * tau)) (1 + factor * exp (- beta * fst od)) ;;
    Ok (- 1 / (2 * PI) * q * snd od)) (combine omegas d)) taus.

(** [np.round(x, 14)] *)
Definition ten14 : R := 10 ^ 14.
Definition round14 (x : R) : R := IZR (round_z (x * ten14)) / ten14.

(** greens_fns.py:180-217 [grnfn_imagtime_ft].  [max] of an empty array raises. *)
Definition imagtime_ft (matsubara taus : list R) (g : list CR) (beta : R) : res (list CR) :=
  let inside := fun t => rle_b 0 (round14 t) && rle_b (round14 t) beta in
  if (length taus =? 0)%nat then Raise ValueError
  else if negb (length g =? length taus)%nat then
    Raise (if forallb inside taus then ValueError else IndexError)
  else
    let data := if forallb inside taus then combine taus g else filter (fun tg => inside (fst tg)) (combine taus g) in
    Ok (map (fun wn => trapz (map fst data) (map (fun tg => cr_mul (snd tg) (cexp (wn * fst tg))) data)) matsubara).

(** greens_fns.py:220-243 [grnfn_imagfrq_ft]. *)
Definition imagfrq_ft (taus matsubara : list R) (g : list CR) (beta : R) : res (list CR) :=
  if negb (length g =? length matsubara)%nat then Raise ValueError
  else if Req_EM_T beta 0 then Raise NotFinite
  else Ok (map (fun tau =>
    cr_mul (klsum (combine matsubara g) (fun wg => cr_mul (snd wg) (cexp (- (fst wg * tau))))) (real (1 / beta))) taus).

(** [np.heaviside(t, 0)] *)
Definition heaviside0 (t : R) : R := if rlt_b 0 t then 1 else 0.
(** greens_fns.py:247-271 [get_noninteracting_gfn_tau] for an array of times. *)
Definition noninteracting_tau (taus : list R) (eps beta : R) (fmt : format) : res (list R) :=
  match fmt with
  | Fermion =>
      let f := 1 / (1 + exp (beta * eps)) in
      Ok (map (fun t => - exp (- eps * t) * ((1 - f) * heaviside0 t - f * heaviside0 (-1 * t))) taus)
  | _ => Raise GenericException
  end.
(** greens_fns.py:274-296 [get_noninteracting_gfn_imagfrq]. *)
Definition noninteracting_imagfrq (max_frq eps beta : R) (fmt : format) : res (list CR * list R) :=
  match fmt with
  | Fermion =>
      w <- matsubara_frqs beta max_frq Fermion ;;
      g <- rmap (fun wn => r_over_c 1 (- eps, wn)) w ;;
      Ok (g, w)
  | _ => Raise GenericException
  end.
(** greens_fns.py:299-312 [get_noninteracting_spectral_fn]. *)
Definition noninteracting_spectral_fn (omegas : list R) (eps eta : R) : res (list R) :=
  rmap (fun w => q <- r_over_r (eta / PI) (eta ^ 2 + (w - eps) ^ 2) ;; Ok (2 * PI * q)) omegas.

(** greens_fns.py:316-341 [chi_hydro]; no [gamma] stands for [np.inf]. *)
Definition chi_hydro (ws : list R) (k chi0 d0 d2 : R) (gamma : option R) : res (list CR) :=
  let d := d0 * k ^ 2 + d2 * k ^ 4 in
  if Req_EM_T d 0 then Raise NotFinite
  else match gamma with
  | Some g =>
      if Req_EM_T g 0 then Raise NotFinite
      else rmap (fun w => r_over_c chi0 (1 - w ^ 2 / (g * d), - (w / d))) ws
  | None => rmap (fun w => r_over_c chi0 (1, - (w / d))) ws
  end.
(** greens_fns.py:344-356 [field_snap_off_w]. *)
Definition field_snap_off (ws : list R) (h0 eta : R) : res (list CR) := rmap (fun w => r_over_c h0 (eta, w)) ws.
(** greens_fns.py:359-375 [phi_t]. *)
Definition phi_t (ts ws : list R) (chi : list CR) : res (list CR) :=
  if negb (length chi =? length ws)%nat then Raise ValueError
  else Ok (map (fun t => cr_mul (real (1 / (2 * PI)))
    (trapz ws (map (fun wc => cr_mul (snd wc) (cexp (- (fst wc * t)))) (combine ws chi)))) ts).
(** greens_fns.py:377-395 [obs_kt]. *)
Definition obs_kt (ts ws : list R) (chi field : list CR) : res (list CR) :=
  if negb (length chi =? length ws)%nat || negb (length field =? length ws)%nat then Raise ValueError
  else Ok (map (fun t => cr_mul (real (1 / (2 * PI)))
    (trapz ws (map (fun wcf => cr_mul (cr_mul (fst (snd wcf)) (snd (snd wcf))) (cexp (- (fst wcf * t))))
                   (combine ws (combine chi field))))) ts).

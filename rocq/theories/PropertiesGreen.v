(** Property theorems C62, C63 and C104..C110: Green's functions in imaginary time and
    frequency, and linear response.  Theorems only. *)
From Coq Require Import List Arith Reals ZArith Bool.
From Verif Require Import Scalars Res Sums ModelPhase ModelSymmetry SymBase SpecThermal SpecFermiGas ModelFermiGas ModelGreen SpecGreen
  GreenFrq GreenKernel GreenTime GreenFT GreenMore.
Import ListNotations.
Local Open Scope R_scope.

(** C62. *)
Theorem C62_frequency_kernel : forall ms os sp, length sp = length os ->
  (2 <= length os)%nat ->
    imagfrq_spectralfn ms os sp = (K <- imagfrq_kernel ms os ;; Ok (map (fun row => row_times row sp) K)).
Proof. exact frq_kernel. Qed.
Print Assumptions C62_frequency_kernel.
Theorem C62_time_kernel : forall ts b os sp fmt, length sp = length os -> fmt <> OtherFormat ->
  (2 <= length os)%nat ->
    imagtime_spectralfn ts b os sp fmt = (K <- imagtime_kernel ts b os fmt ;; Ok (map (fun row => r_row_times row sp) K)).
Proof. exact time_kernel. Qed.
Print Assumptions C62_time_kernel.
Theorem C62_frequency_integral : forall ms os sp, length sp = length os ->
  (forall wn o, In wn ms -> In o os -> wn = 0 -> o = 0 -> False) -> exists G,
    imagfrq_spectralfn ms os sp = Ok G /\ length G = length ms /\
    forall j, (j < length ms)%nat -> exists y,
      (forall i, (i < length os)%nat -> is_quotient (nth i sp 0, 0) (- nth i os 0, nth j ms 0) (y i)) /\
      nth j G k0 = @kmul CR _ (1 / (2 * PI), 0) (trapezoid os y).
Proof. exact frq_direct. Qed.
Print Assumptions C62_frequency_integral.
Theorem C62_time_integral : forall ts b os sp fmt, length sp = length os -> fmt <> OtherFormat ->
  (forall o, In o os -> 1 + match fmt with Fermion => 1 | _ => -1 end * exp (- (b * o)) <> 0) ->
    imagtime_spectralfn ts b os sp fmt =
    Ok (map (fun t => - (1 / (2 * PI)) * r_trapezoid os (fun i => nth i sp 0 * thermal_factor (match fmt with Fermion => 1 | _ => -1 end) b t (nth i os 0))) ts).
Proof. exact time_direct. Qed.
Print Assumptions C62_time_integral.

(** C63: the frequencies; antiperiodicity is false at the end of the interval; what holds. *)
Theorem C63_fermion_frequencies : forall b m, 0 < b -> exists l, matsubara_frqs b m Fermion = Ok l /\ increasing l /\
  (forall w, In w l <-> fermion_frq b w /\ Rabs w < m).
Proof. exact fermion_frqs_ok. Qed.
Print Assumptions C63_fermion_frequencies.
Theorem C63_boson_frequencies : forall b m, 0 < b -> exists l, matsubara_frqs b m Boson = Ok l /\ increasing l /\
  (forall w, In w l <-> boson_frq b w /\ (Rabs w < m \/ w = 0)).
Proof. exact boson_frqs_ok. Qed.
Print Assumptions C63_boson_frequencies.
Theorem C63_end_refuted : forall eps b, 0 < b -> exists G,
  (forall taus, noninteracting_tau taus eps b Fermion = Ok (map G taus)) /\ G (b - b) <> - G b.
Proof. exact antiperiodic_end. Qed.
Print Assumptions C63_end_refuted.
Theorem C63_antiperiodic_partial : forall eps b, exists G,
  (forall taus, noninteracting_tau taus eps b Fermion = Ok (map G taus)) /\
  (forall t, 0 < t < b -> G (t - b) = - G t) /\
  (forall t, 0 < t -> G t = - (exp (- (eps * t)) * (1 - occupation b 0 eps))) /\
  (forall t, t < 0 -> G t = exp (- (eps * t)) * occupation b 0 eps).
Proof. exact antiperiodic. Qed.
Print Assumptions C63_antiperiodic_partial.

(** C104. *)
Theorem C104_ends : forall fmt b os sp, 0 < b -> fmt <> OtherFormat -> length sp = length os -> (fmt = Boson -> ~ In 0 os) -> exists G,
  (forall taus, imagtime_spectralfn taus b os sp fmt = Ok (map G taus)) /\
  G 0 + match fmt with Fermion => 1 | _ => -1 end * G b = - (r_trapezoid os (fun i => nth i sp 0) / (2 * PI)) /\
  (fmt = Fermion -> increasing os -> (forall a, In a sp -> 0 <= a) -> forall t, G t <= 0).
Proof. exact ends_ok. Qed.
Print Assumptions C104_ends.

(** C105. *)
Theorem C105_spectral : forall fmt b os sp, 0 < b -> fmt <> OtherFormat -> length sp = length os -> (fmt = Boson -> ~ In 0 os) -> exists G,
  (forall taus, imagtime_spectralfn taus b os sp fmt = Ok (map G taus)) /\
  (forall wn, match fmt with Fermion => fermion_frq b wn | _ => boson_frq b wn end -> exists g, imagfrq_spectralfn [wn] os sp = Ok [g] /\
     integral (fun t => re (G t) *c wave (wn * t)) 0 b g).
Proof. exact transform_ok. Qed.
Print Assumptions C105_spectral.
Theorem C105_level : forall max_frq eps b, 0 < b -> exists G gs ws,
  (forall taus, noninteracting_tau taus eps b Fermion = Ok (map G taus)) /\
  noninteracting_imagfrq max_frq eps b Fermion = Ok (gs, ws) /\ matsubara_frqs b max_frq Fermion = Ok ws /\ length gs = length ws /\
  forall j, (j < length ws)%nat ->
    is_quotient k1 (- eps, nth j ws 0) (nth j gs k0) /\
    integral (fun t => re (G t) *c wave (nth j ws 0 * t)) 0 b (nth j gs k0).
Proof. exact one_level. Qed.
Print Assumptions C105_level.

(** C106: false where rounding puts the last time beyond the interval; what holds. *)
Theorem C106_round_trip_refuted : exists b m ws g, 0 < b /\ matsubara_frqs b m Boson = Ok ws /\ length g = length ws /\ (length ws <= 1)%nat /\
  exists r, (ht <- imagfrq_ft (even_times b 1) ws g b ;; imagtime_ft ws (even_times b 1) ht b) = Ok r /\ r <> g.
Proof. exact last_time_dropped. Qed.
Print Assumptions C106_round_trip_refuted.
Theorem C106_round_trip_partial : forall fmt b m ws g n, 0 < b -> round14 b <= b -> matsubara_frqs b m fmt = Ok ws -> length g = length ws ->
  (1 <= n)%nat -> (length ws <= n)%nat ->
  (ht <- imagfrq_ft (even_times b n) ws g b ;; imagtime_ft ws (even_times b n) ht b) = Ok g.
Proof. exact round_trip. Qed.
Print Assumptions C106_round_trip_partial.

(** C107. *)
Theorem C107_periodic : forall fmt b ws g, 0 < b -> fmt <> OtherFormat -> length g = length ws -> (forall w, In w ws -> match fmt with Fermion => fermion_frq b w | _ => boson_frq b w end) -> exists G,
  (forall taus, imagfrq_ft taus ws g b = Ok (map G taus)) /\ (forall t, G (t - b) = re (match fmt with Fermion => -1 | _ => 1 end) *c G t).
Proof. exact ft_period. Qed.
Print Assumptions C107_periodic.
Theorem C107_real : forall b ws g, 0 < b -> length g = length ws -> mirror ws -> rev g = map kconj g -> exists G,
  forall taus, imagfrq_ft taus ws g b = Ok (map (fun t => re (G t)) taus).
Proof. exact ft_real. Qed.
Print Assumptions C107_real.
Theorem C107_mirror : forall fmt b m ws, 0 < b -> matsubara_frqs b m fmt = Ok ws -> mirror ws.
Proof. exact matsubara_mirror. Qed.
Print Assumptions C107_mirror.

(** C108. *)
Theorem C108_spectral_weight : forall eps eta, 0 < eta -> exists A I,
  (forall ws, noninteracting_spectral_fn ws eps eta = Ok (map A ws)) /\ (forall w, 0 < A w <= A eps) /\
  (forall w, A (eps - w) = A (eps + w)) /\ A (eps + eta) = A eps / 2 /\
  (forall a c, integral (fun w => re (A w)) a c (re (I a c))) /\ (forall a c, a < c -> 0 < I a c < 2 * PI) /\
  tends_at_infinity (fun L => I (- L) L) (2 * PI).
Proof. exact lorentzian. Qed.
Print Assumptions C108_spectral_weight.

(** C109. *)
Theorem C109_hydrodynamics : forall k chi0 d0 d2, d0 * k ^ 2 + d2 * k ^ 4 <> 0 -> exists chi,
  (forall ws gamma, gamma <> Some 0 -> chi_hydro ws k chi0 d0 d2 gamma = Ok (map (chi gamma) ws)) /\
  (forall gamma, chi gamma 0 = re chi0) /\
  (forall gamma w, chi gamma (- w) = kconj (chi gamma w)) /\
  (forall g w, g <> 0 -> (g * (d0 * k ^ 2 + d2 * k ^ 4) - w ^ 2, - (g * w)) *c chi (Some g) w = re (g * (d0 * k ^ 2 + d2 * k ^ 4) * chi0)) /\
  (forall w, (d0 * k ^ 2 + d2 * k ^ 4, - w) *c chi None w = re ((d0 * k ^ 2 + d2 * k ^ 4) * chi0)) /\
  (forall w, c_tends_at_infinity (fun g => chi (Some g) w) (chi None w)).
Proof. exact hydro. Qed.
Print Assumptions C109_hydrodynamics.

(** C110. *)
Theorem C110_response : forall ts ws chi field, length chi = length ws -> length field = length ws ->
  phi_t ts ws chi = Ok (map (fun t => re (1 / (2 * PI)) *c trapezoid ws (fun i => nth i chi k0 *c wave (- (nth i ws 0 * t)))) ts) /\
  obs_kt ts ws chi field =
    Ok (map (fun t => re (1 / (2 * PI)) *c trapezoid ws (fun i => nth i chi k0 *c nth i field k0 *c wave (- (nth i ws 0 * t)))) ts).
Proof. exact response. Qed.
Print Assumptions C110_response.
Theorem C110_real : forall ws chi, length chi = length ws -> mirror ws -> rev chi = map kconj chi -> exists phi,
  forall ts, phi_t ts ws chi = Ok (map (fun t => re (phi t)) ts).
Proof. exact phi_real. Qed.
Print Assumptions C110_real.
Theorem C110_field : forall h eta, 0 < eta -> exists H,
  (forall ws, field_snap_off ws h eta = Ok (map H ws)) /\
  forall w, exists J, (forall T, integral (fun t => re (h * exp (eta * t)) *c wave (w * t)) (- T) 0 (J T)) /\ c_tends_at_infinity J (H w).
Proof. exact snap_off. Qed.
Print Assumptions C110_field.

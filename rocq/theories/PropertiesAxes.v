(** Property theorems C169 and C170: spins 1/2 described along other axes.  Theorems only. *)
From Coq Require Import List Arith Reals Bool Permutation.
From Verif Require Import Scalars Res Matrix ModelBase ModelSpins SpecSpins ModelGeometry ModelPhase ModelSymmetry ModelThermal SpecThermal SpecAxes AxesApi RefuteAxes.
Import ListNotations.
Local Open Scope R_scope.

(** C169. *)
Theorem C169_energies : forall rt s s' p g F F' V V' E E', rt 1%nat = k1 -> sp_two s = 1%nat -> redescribed p g s s' -> allowed p g s ->
  sp_createH rt s None = Ok F -> sp_createH rt s' None = Ok F' -> eigenbasis F V E -> eigenbasis F' V' E' ->
  Permutation E E' /\ (sorted_list E -> sorted_list E' -> E = E').
Proof. exact same_energies. Qed.
Print Assumptions C169_energies.

Theorem C169_sites : forall rt s s' p g F F' V V' E E', rt 1%nat = k1 -> sp_two s = 1%nat -> redescribed p g s s' -> allowed p g s ->
  sp_createH rt s None = Ok F -> sp_createH rt s' None = Ok F' -> eigenbasis F V E -> eigenbasis F' V' E' ->
  forall i a O O' T x, (i < sg_nsites (sp_geom s))%nat ->
    single_site_op (sp_sys s) i 0 (spin_along rt a) Boson = Ok O -> single_site_op (sp_sys s') i 0 (spin_along rt (p a)) Boson = Ok O' ->
    T <> 0 \/ (sorted_list E /\ sorted_list E' /\ apart gap13 E) ->
    exp_vals_thermal V O E T = Ok x -> exp_vals_thermal V' O' E' T = Ok (g i a * x).
Proof. exact same_sites. Qed.
Print Assumptions C169_sites.

Theorem C169_pairs : forall rt s s' p g F F' V V' E E', rt 1%nat = k1 -> sp_two s = 1%nat -> redescribed p g s s' -> allowed p g s ->
  sp_createH rt s None = Ok F -> sp_createH rt s' None = Ok F' -> eigenbasis F V E -> eigenbasis F' V' E' ->
  forall i j a b O O' T x, (i < sg_nsites (sp_geom s))%nat -> (j < sg_nsites (sp_geom s))%nat -> i <> j ->
    two_site_op (sp_sys s) i 0 j 0 (spin_along rt a) (spin_along rt b) Boson = Ok O -> two_site_op (sp_sys s') i 0 j 0 (spin_along rt (p a)) (spin_along rt (p b)) Boson = Ok O' ->
    T <> 0 \/ (sorted_list E /\ sorted_list E' /\ apart gap13 E) ->
    exp_vals_thermal V O E T = Ok x -> exp_vals_thermal V' O' E' T = Ok (g i a * g j b * x).
Proof. exact same_pairs. Qed.
Print Assumptions C169_pairs.

Theorem C169_mixed : exists rt s s' p g F F' V E, rt 1%nat = k1 /\ sp_two s = 1%nat /\ redescribed p g s s' /\ real_spins s /\
  (forall i, (i < sg_nsites (sp_geom s))%nat -> rotation p (g i) \/ mirrored p (g i)) /\
  sp_createH rt s None = Ok F /\ sp_createH rt s' None = Ok F' /\ eigenbasis F V E /\ forall V', ~ eigenbasis F' V' E.
Proof. exact mixed. Qed.
Print Assumptions C169_mixed.

(** C170. *)
Theorem C170_sites : forall rt s c F V E, rt 1%nat = k1 -> sp_two s = 1%nat -> real_spins s ->
  (forall a i, a <> c -> (i < sg_nsites (sp_geom s))%nat -> field_along s a i = (0, 0)) -> sp_createH rt s None = Ok F -> eigenbasis F V E ->
  forall a i O T x, a <> c -> (i < sg_nsites (sp_geom s))%nat -> single_site_op (sp_sys s) i 0 (spin_along rt a) Boson = Ok O ->
    T <> 0 \/ (sorted_list E /\ apart gap13 E) -> exp_vals_thermal V O E T = Ok x -> x = 0.
Proof. exact vanish_site. Qed.
Print Assumptions C170_sites.

Theorem C170_pairs : forall rt s c F V E, rt 1%nat = k1 -> sp_two s = 1%nat -> real_spins s ->
  (forall a i, a <> c -> (i < sg_nsites (sp_geom s))%nat -> field_along s a i = (0, 0)) -> sp_createH rt s None = Ok F -> eigenbasis F V E ->
  forall a b i j O T x, a <> b -> (i < sg_nsites (sp_geom s))%nat -> (j < sg_nsites (sp_geom s))%nat -> i <> j ->
    two_site_op (sp_sys s) i 0 j 0 (spin_along rt a) (spin_along rt b) Boson = Ok O ->
    T <> 0 \/ (sorted_list E /\ apart gap13 E) -> exp_vals_thermal V O E T = Ok x -> x = 0.
Proof. exact vanish_pair. Qed.
Print Assumptions C170_pairs.

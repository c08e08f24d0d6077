(** Property theorems C188: parts of a spin system move independently.  Theorems only. *)
From Coq Require Import List Arith Reals QArith Bool.
From Verif Require Import Scalars Res Matrix SpecMat ModelBase ModelFermions ModelSpins ModelGeometry ModelPhase ModelSymmetry ModelThermal SpecThermal SpecRates SymBase SpecBloch SpecParts Split Parts.
Import ListNotations.
Local Open Scope R_scope.

(** C188. *)
Theorem C188_independent : forall rt (s s' : spins CR) part, rt 1%nat = k1 -> sp_two s = 1%nat -> sp_two s' = 1%nat -> sg_nsites (sp_geom s') = sg_nsites (sp_geom s) -> real_terms s -> real_terms s' ->
  uncoupled s part -> uncoupled s' part -> same_inside s s' part ->
  forall H V E H' V' E' O st k times Ms Ms' v v', sp_createH rt s None = Ok H -> eigenbasis H V E -> sp_createH rt s' None = Ok H' -> eigenbasis H' V' E' ->
  nrow O = (2 ^ sg_nsites (sp_geom s))%nat -> ncol O = (2 ^ sg_nsites (sp_geom s))%nat -> acts_on (sg_nsites (sp_geom s)) part (ent O) -> (k < ncol (as_columns st))%nat ->
  quench st V E times = Ok Ms -> quench st V' E' times = Ok Ms' -> exp_vals (Columns (nth k Ms (mzero 0 0))) O = Ok v -> exp_vals (Columns (nth k Ms' (mzero 0 0))) O = Ok v' ->
  forall a, (a < length times)%nat -> nth a v 0 = nth a v' 0.
Proof. exact parts_move. Qed.
Print Assumptions C188_independent.
Theorem C188_operators : forall (s : spins CR) part i j A B, sp_two s = 1%nat -> (i < sg_nsites (sp_geom s))%nat -> (j < sg_nsites (sp_geom s))%nat -> i <> j -> part i = true -> part j = true -> square 2 A -> square 2 B ->
  exists O T, single_site_op (sp_sys s) i 0 A Boson = Ok O /\ square (2 ^ sg_nsites (sp_geom s)) O /\ acts_on (sg_nsites (sp_geom s)) part (ent O) /\
    two_site_op (sp_sys s) i 0 j 0 A B Boson = Ok T /\ square (2 ^ sg_nsites (sp_geom s)) T /\ acts_on (sg_nsites (sp_geom s)) part (ent T).
Proof. exact parts_ops. Qed.
Print Assumptions C188_operators.
(** Two commuting terms of a Hamiltonian: only the one that an observable does not commute with moves it. *)
Theorem C188_terms : forall n (HA HB H A B W : mat CR) al be F, eigenbasis HA A al -> eigenbasis HB B be -> eigenbasis H W F -> nrow A = n -> nrow B = n -> nrow W = n ->
  (forall a b, (a < n)%nat -> (b < n)%nat -> ent H a b = kadd (ent HA a b) (ent HB a b)) -> commute_on n HB HA ->
  forall O psi t, commute_on n HB O -> expect n O (evolve W F psi t) = expect n O (evolve A al psi t).
Proof. exact split_motion. Qed.
Print Assumptions C188_terms.

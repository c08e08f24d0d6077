(** A lattice as the spin systems use it. *)
From Coq Require Import QArith Bool.
From Verif Require Import Scalars Matrix ModelGeometry ModelSpins.
Local Open Scope nat_scope.

(** ed_spins.py:21-74 reads [geometry.nsites], [geometry.adjacency_mat] and
    [geometry.phase_mat] (in [get_interaction_mat], ed_spins.py:143-165) of the
    lattice built by ed_geometry.py:90-127. *)
Definition sgeom_of {K} (g : geometry K) : sgeom K :=
  SGeom (g_n g) (fun i j => negb (Qeq_bool (ent (g_adj g) i j) 0)) (ent (g_phase g)).

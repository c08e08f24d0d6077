(** What a fermion system reads from a geometry object. *)
From Coq Require Import QArith Bool.
From Verif Require Import Scalars Matrix ModelGeometry ModelFermions.

(** ed_fermions.py:243, :264, :323-324: [adjacency_mat], [phase_mat], [xdist_mat]
    and [ydist_mat] of ed_geometry.py:90-127.  The entries of the adjacency
    matrix are 0 or 1 (C35). *)
Definition fgeom_of {K} (g : geometry K) : fgeom K :=
  FGeom (g_n g) (fun i j => negb (Qeq_bool (ent (g_adj g) i j) 0)) (ent (g_phase g)) (ent (g_xd g)) (ent (g_yd g)).

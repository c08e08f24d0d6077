(** Model of the cluster enumeration of exact_diag/ed_nlce.py (lines 16-500).

    Coordinates are exact rationals.  Phases of clusters are all 1 and never
    read, so the clusters built here carry phases in a one-element type; a parent
    geometry handed in by the user may carry any phases.  Sparse matrices are
    tables of rational numbers. *)
From Coq Require Import List Arith QArith ZArith Bool.
From Verif Require Import Res Matrix ModelGeometry.
Import ListNotations.
Local Open Scope Q_scope.

Notation cluster_geom := (geometry unit).

(** ed_geometry.py:181-195 [Geometry.createNonPeriodicGeometry]. *)
Definition from_coords (cs : list vec) : res cluster_geom :=
  free_geometry tt (fun _ _ => true) (map fst cs) (map snd cs) None None.

(** ed_nlce.py:56-57, 263-264, 494-495: a geometry with its sites sorted. *)
Definition sorted_cluster (cs : list vec) : res cluster_geom :=
  g <- from_coords cs ;;
  p <- sorting_permutation g TopAlternating ;;
  permute_sites g (map Z.of_nat p).

(** [list(zip(cluster.xlocs, cluster.ylocs))]. *)
Definition coords {Ph} (g : geometry Ph) : list vec := combine (g_x g) (g_y g).
Definition is_among (v : vec) (cs : list vec) : bool := existsb (vec_eqb v) cs.

(** ed_nlce.py:478-490: coordinates of the symmetric partners; the quarter turn
    and the reflection (18-77 of ed_symmetry.py, which see floating point noise)
    are rounded to 14 digits and taken to be exact. *)
Definition rounded (v : vec) : vec := (round14 (fst v), round14 (snd v)).
Definition quarter_turn (cs : list vec) : list vec := map (fun v => rounded (- snd v, fst v)) cs.
Definition reflect_x (cs : list vec) : list vec := map (fun v => rounded (- fst v, snd v)) cs.
Definition symmetric_coords (cs : list vec) : list (list vec) :=
  let r1 := quarter_turn cs in
  let r2 := quarter_turn r1 in
  let r3 := quarter_turn r2 in
  [r1; r2; r3; reflect_x cs; reflect_x r1; reflect_x r2; reflect_x r3].

(** [[h for h in hs if h.isequal_adjacency(c)]] is not empty. *)
Definition any_equal (hs : list cluster_geom) (c : cluster_geom) : res bool :=
  es <- rmap (fun h => equal_adjacency h c) hs ;; Ok (existsb (fun b => b) es).

(** ed_nlce.py:468-500 [get_clusters_rel_by_symmetry]. *)
Definition related_clusters (g : cluster_geom) : res (list cluster_geom) :=
  rfold (fun ps cs =>
    c <- sorted_cluster cs ;;
    e <- any_equal ps c ;;
    Ok (if e then ps else ps ++ [c])) (symmetric_coords (coords g)) [g].

(** ed_nlce.py:59-61, 386-388. *)
Definition partners (sym : bool) (g : cluster_geom) : res (list cluster_geom) :=
  if sym then related_clusters g else Ok [g].

(** ed_nlce.py:56-67: a candidate is appended unless a related cluster is
    already listed. *)
Definition add_cluster (sym : bool) (acc : list cluster_geom * list nat) (cs : list vec)
  : res (list cluster_geom * list nat) :=
  g <- sorted_cluster cs ;;
  ps <- partners sym g ;;
  es <- rmap (any_equal ps) (fst acc) ;;
  if existsb (fun b => b) es then Ok acc else Ok (fst acc ++ [g], snd acc ++ [length ps]).

(** ed_nlce.py:16-69 [get_clusters_next_order]. *)
Definition next_clusters (lv1 lv2 : vec) (sym : bool) (cl : option (list cluster_geom))
  : res (list cluster_geom * list nat) :=
  match cl with
  | None => g <- from_coords [(0, 0)] ;; Ok ([g], [1%nat])
  | Some cl =>
    rfold (fun acc cluster =>
      let cs := coords cluster in
      rfold (fun acc v =>
        rfold (fun acc w =>
          let new := vadd v w in
          if is_among new cs then Ok acc else add_cluster sym acc (cs ++ [new]))
          [lv1; vsub vzero lv1; lv2; vsub vzero lv2] acc) cs acc) cl ([], [])
  end.

(** ed_nlce.py:72-106 [get_all_clusters]; the levels, the multiplicities of each
    level and [order_inds]. *)
Definition cluster_levels (max_order : nat) (lv1 lv2 : vec) (sym : bool)
  : res (list (list cluster_geom) * list (list nat) * list nat) :=
  first <- next_clusters lv1 lv2 sym None ;;
  rfold (fun st ii =>
    let '(levels, mults, inds) := st in
    match nth_error levels (ii - 1), nth_error inds ii with
    | Some prev, Some i0 =>
      new <- next_clusters lv1 lv2 sym (Some prev) ;;
      Ok (levels ++ [fst new], mults ++ [snd new], inds ++ [(length (fst new) + i0)%nat])
    | _, _ => Raise IndexError
    end) (seq 1 (max_order - 1)) ([fst first], [snd first], [0%nat; length (fst first)]).
Definition all_clusters (max_order : nat) (lv1 lv2 : vec) (sym : bool)
  : res (list cluster_geom * list nat * list nat) :=
  r <- cluster_levels max_order lv1 lv2 sym ;;
  let '(levels, mults, inds) := r in Ok (concat levels, concat mults, inds).

(** Position of the first entry with the property. *)
Fixpoint first_true (l : list bool) : option nat :=
  match l with
  | [] => None
  | b :: t => if b then Some O else match first_true t with Some k => Some (S k) | None => None end
  end.
(** [l[k].append(x)]. *)
Fixpoint append_at {A} (k : nat) (x : A) (l : list (list A)) : list (list A) :=
  match l, k with
  | [], _ => []
  | y :: t, O => (y ++ [x]) :: t
  | y :: t, S k => y :: append_at k x t
  end.

Section Subclusters.
  Context {Ph : Type} (parent : geometry Ph).

  (** ed_nlce.py:259-273, a candidate built from cluster [c_index]. *)
  Definition add_subcluster (c_index : nat) (acc : list cluster_geom * list (list nat)) (cs : list vec)
    : res (list cluster_geom * list (list nat)) :=
    g <- sorted_cluster cs ;;
    es <- rmap (fun h => geometry_eqb g h) (fst acc) ;;
    match first_true es with
    | None => Ok (fst acc ++ [g], snd acc ++ [[c_index]])
    | Some k => Ok (fst acc, append_at k c_index (snd acc))
    end.

  (** ed_nlce.py:212-273 [get_subclusters_next_order]. *)
  Definition next_subclusters (cl : option (list cluster_geom)) : res (list cluster_geom * list (list nat)) :=
    match cl with
    | None => gs <- rmap (fun v => from_coords [v]) (coords parent) ;; Ok (gs, map (fun _ => []) gs)
    | Some cl =>
      rfold (fun acc ic =>
        let '(c_index, cluster) := ic in
        let cs := coords cluster in
        rfold (fun acc v =>
          match first_true (map (fun w => vec_eqb w v) (coords parent)) with
          | None => Raise IndexError
          | Some jj =>
            rfold (fun acc kk =>
              let new := nth kk (coords parent) vzero in
              if Qeq_bool (ent (g_adj parent) jj kk) 1 && negb (is_among new cs)
              then add_subcluster c_index acc (cs ++ [new]) else Ok acc)
              (seq 0 (g_n parent)) acc
          end) cs acc) (combine (seq 0 (length cl)) cl) ([], [])
    end.

  (** [sorted(list(set(l)))]. *)
  Fixpoint insert_num (x : nat) (l : list nat) : list nat :=
    match l with
    | [] => [x]
    | y :: t => if (x <? y)%nat then x :: l else if (x =? y)%nat then l else y :: insert_num x t
    end.
  Definition sorted_set (l : list nat) : list nat := fold_right insert_num [] l.

  (** ed_nlce.py:309-317: indices of everything contained in a new cluster. *)
  Definition contained_indices (prev : nat) (inds : list (list nat)) (contained : list nat) : res (list nat) :=
    match contained with
    | [] => Ok []
    | _ => let c0 := map (fun c => (c + prev)%nat) contained in
      more <- rmap (fun ci => match nth_error inds ci with Some l => Ok l | None => Raise IndexError end) c0 ;;
      Ok (sorted_set (c0 ++ concat more))
    end.

  (** ed_nlce.py:303-328, the while loop; the fuel is [nsites - current_order]. *)
  Fixpoint sub_orders (fuel : nat) (next : list cluster_geom) (contained : list (list nat))
    (orders : list (list cluster_geom)) (inds : list (list nat)) (total prev : nat)
    : res (list (list cluster_geom) * list (list nat)) :=
    match fuel, next with
    | O, _ | _, [] => Ok (orders, inds)
    | S fuel, _ =>
      inds' <- rfold (fun inds c => ci <- contained_indices prev inds c ;; Ok (inds ++ [ci])) contained inds ;;
      new <- next_subclusters (Some next) ;;
      sub_orders fuel (fst new) (snd new) (orders ++ [next]) inds' (total + length next) total
    end.

  (** ed_nlce.py:276-343 [get_all_subclusters]; the matrix [sub_cluster_mat] has
      the entry 1 at [i, j] if [j] is listed in [sub_cluster_indices[i]]. *)
  Definition all_subclusters : res (list (list cluster_geom) * list (list nat)) :=
    first <- next_subclusters None ;;
    sub_orders (g_n parent) (fst first) (snd first) [] [] 0 0.
End Subclusters.

(** Tables of numbers. *)
Definition table : Type := list (list Q).
Definition tab (n m : nat) (f : nat -> nat -> Q) : table :=
  map (fun i => map (fun j => Qred (f i j)) (seq 0 m)) (seq 0 n).
Definition entry (T : table) (i j : nat) : Q := nth j (nth i T []) 0.
Definition qsum (n : nat) (f : nat -> Q) : Q := fold_right Qplus 0 (map f (seq 0 n)).
Definition sub_mat (inds : list (list nat)) : table :=
  let n := length inds in
  tab n n (fun i j => if existsb (Nat.eqb j) (nth i inds []) then 1 else 0).

(** [l[k] = l[k] + 1]. *)
Fixpoint incr_at (k : nat) (l : list nat) : list nat :=
  match l, k with
  | [], _ => []
  | y :: t, O => S y :: t
  | y :: t, S k => y :: incr_at k t
  end.

(** ed_nlce.py:379-408, one cluster: distinct clusters of this order, their
    multiplicities, and the column of the row of [cluster_reduction_mat]. *)
Definition place_cluster (sym : bool) (run : nat) (st : list cluster_geom * list nat * list nat) (c : cluster_geom)
  : res (list cluster_geom * list nat * list nat) :=
  let '(distinct, mults, red) := st in
  ps <- partners sym c ;;
  es <- rmap (any_equal ps) distinct ;;
  match first_true es with
  | None => Ok (distinct ++ [c], mults ++ [1%nat], red ++ [(run + length distinct)%nat])
  | Some k => Ok (distinct, incr_at k mults, red ++ [(k + run)%nat])
  end.

(** ed_nlce.py:346-415 [reduce_clusters_by_geometry]; the last list gives the
    reduced index of every full cluster. *)
Definition reduce_clusters (sym : bool) (orders : list (list cluster_geom))
  : res (list (list cluster_geom) * list (list nat) * list nat) :=
  rfold (fun st cl =>
    let '(dist, mults, red) := st in
    new <- rfold (place_cluster sym (length (concat dist))) cl ([], [], red) ;;
    let '(d, m, red') := new in Ok (dist ++ [d], mults ++ [m], red')) orders ([], [], []).

(** ed_nlce.py:447-449, cumulative numbers of clusters. *)
Definition edge_indices {A} (l : list (list A)) : list nat :=
  fold_left (fun acc cl => acc ++ [(length cl + last acc 0)%nat]) l [0%nat].

(** ed_nlce.py:418-465 [get_reduced_subclusters]. *)
Definition reduced_subclusters {Ph} (parent : geometry Ph) : res (list cluster_geom * table * list nat) :=
  subs <- all_subclusters parent ;;
  rd <- reduce_clusters true (fst subs) ;;
  let '(dist, _, red) := rd in
  let SC := sub_mat (snd subs) in
  let nf := length red in
  let nr := length (concat dist) in
  let C := tab nr nf (fun j k => if (nth k red O =? j)%nat then 1 else 0) in
  let RF := tab nf nr (fun i j => qsum nf (fun k => entry SC i k * entry C j k)) in
  let M := tab nr nr (fun i j => / qsum nf (entry C i) * qsum nf (fun k => entry C i k * entry RF k j)) in
  Ok (concat dist, M, edge_indices dist).

(** ed_nlce.py:166-207 [map_between_cluster_bases]: the pairs of indices with
    the entry 1. *)
Definition range (lo hi : nat) : list nat := seq lo (hi - lo).
Definition map_between (larger : list cluster_geom) (inds_l : list nat) (smaller : list cluster_geom)
  (inds_s : list nat) (sym : bool) : res (list (nat * nat)) :=
  rfold (fun acc order =>
    match nth_error inds_s order, nth_error inds_s (S order), nth_error inds_l order, nth_error inds_l (S order) with
    | Some s0, Some s1, Some l0, Some l1 =>
      rfold (fun acc ii => rfold (fun acc jj =>
        match nth_error smaller ii, nth_error larger jj with
        | Some sub, Some c =>
          ps <- partners sym sub ;;
          e <- any_equal ps c ;;
          Ok (if e then acc ++ [(ii, jj)] else acc)
        | _, _ => Raise IndexError
        end) (range l0 l1) acc) (range s0 s1) acc
    | _, _, _, _ => Raise IndexError
    end) (seq 0 (Nat.min (length inds_l - 1) (length inds_s - 1))) [].
Definition pair_mat (n m : nat) (l : list (nat * nat)) : table :=
  tab n m (fun i j => if existsb (fun p => (fst p =? i)%nat && (snd p =? j)%nat) l then 1 else 0).

(** ed_nlce.py:109-163 [get_all_clusters_with_subclusters]. *)
Definition clusters_with_subclusters (max_order : nat) (lv1 lv2 : vec) (sym : bool)
  : res (list cluster_geom * list nat * table * list nat) :=
  r <- all_clusters max_order lv1 lv2 sym ;;
  let '(full, mults, inds) := r in
  let n := length full in
  let zero := tab n n (fun _ _ => 0) in
  match nth_error inds (length inds - 2), nth_error inds (length inds - 1) with
  | Some i0, Some i1 =>
    M <- rfold (fun M index =>
      match nth_error full index with
      | None => Raise IndexError
      | Some c =>
        sub <- reduced_subclusters c ;;
        let '(subs, SM, sinds) := sub in
        ps <- map_between full inds subs sinds sym ;;
        let ns := length subs in
        let R := pair_mat ns n ps in
        let SR := tab ns n (fun i b => qsum ns (fun j => entry SM i j * entry R j b)) in
        let F := tab n n (fun a b => qsum ns (fun i => entry R i a * entry SR i b)) in
        Ok (tab n n (fun a b =>
          entry M a b + (if Qle_bool (qsum n (entry M a)) 0 then 1 else 0) * entry F a b))
      end) (range i0 i1) zero ;;
    Ok (full, mults, M, inds)
  | _, _ => Raise IndexError
  end.

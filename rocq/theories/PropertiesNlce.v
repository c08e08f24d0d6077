(** Properties of the cluster enumeration and of the linked cluster expansion. *)
From Coq Require Import List Arith ZArith QArith Reals.
From Verif Require Import Res Matrix ModelGeometry ModelNlce ModelNlceSum SpecCluster SpecNlce ClusterRep NlceSum NlceFacts RefuteNlce.
Import ListNotations.
Local Open Scope nat_scope.

(** C49: every connected cluster is listed once, by size, with its number of orientations. *)
Theorem C49_clusters : forall sym lv1 lv2 n, step_symmetric sym lv1 lv2 -> 1 <= n ->
  exists cl ms inds L, all_clusters n (inj lv1) (inj lv2) sym = Ok (cl, ms, inds) /\
    Forall2 at_sites cl L /\ Forall2 (orientations sym) L ms /\
    length inds = S n /\ nth 0 inds 0 = 0 /\ nth n inds 0 = length L /\
    (forall k, k < n -> nth k inds 0 <= nth (S k) inds 0 /\
       forall a, nth k inds 0 <= a < nth (S k) inds 0 -> connected (linked lv1 lv2) (nth a L []) /\ length (nth a L []) = S k) /\
    apart (congruent sym) L /\
    (forall T, connected (linked lv1 lv2) T -> length T <= n -> exists a, a < length L /\ congruent sym T (nth a L [])).
Proof. exact all_clusters_sites. Qed.
Print Assumptions C49_clusters.

(** C50: every connected part of a parent is listed once, by size, with its own parts. *)
Theorem C50_subclusters : forall (Ph : Type) (parent : geometry Ph) P, at_sites parent P -> NoDup P -> g_n parent = length P ->
  (forall j k, j < length P -> k < length P -> (ent (g_adj parent) j k == 1 -> ent (g_adj parent) k j == 1)%Q) ->
  exists orders inds LL, all_subclusters parent = Ok (orders, inds) /\
    Forall2 (Forall2 at_sites) orders LL /\
    (forall k l, k < length LL -> In l (nth k LL []) -> connected (neighbours parent P) l /\ incl l P /\ length l = S k) /\
    apart same_set (concat LL) /\
    (forall T, connected (neighbours parent P) T -> incl T P -> exists a, a < length (concat LL) /\ same_set T (nth a (concat LL) [])) /\
    indices_ok (concat LL) inds.
Proof. exact @all_subclusters_sites. Qed.
Print Assumptions C50_subclusters.

(** C51: the weights invert the sums over parts, for every strictly lower triangular table. *)
Theorem C51_weights : forall vals sc mult inds nsites, let n := length vals in
  0 < n -> 0 < nsites -> n <= length sc -> (forall i, i < n -> length (nth i sc []) = n) -> length mult = n -> strictly_lower sc ->
  exists total orders w, nlce_exp_val vals sc mult inds nsites = Ok (total, orders, w) /\ length w = n /\
    (forall i, i < n -> (nth i vals 0 = nth i w 0 + rsum n (fun j => ment sc i j * nth j w 0))%R) /\
    (forall u, (forall i, i < n -> (nth i vals 0 = u i + rsum n (fun j => ment sc i j * u j))%R) -> forall i, i < n -> u i = nth i w 0%R) /\
    (total * INR nsites = rsum n (fun j => nth j mult 0 * nth j w 0))%R /\
    (2 <= length inds -> nth 0 inds 0 = 0 -> nth (length inds - 1) inds 0 = n ->
     (forall k, k < length inds - 1 -> nth k inds 0 <= nth (S k) inds 0) -> fold_right Rplus 0%R orders = total).
Proof. exact expansion_weights. Qed.
Print Assumptions C51_weights.

(** C51: the contribution of an order is the sum over the clusters of that order. *)
Theorem C51_orders : forall vals sc mult inds nsites total orders w, nlce_exp_val vals sc mult inds nsites = Ok (total, orders, w) ->
  length orders = length inds - 1 /\
  forall k, k < length inds - 1 -> (nth k orders 0 * INR nsites =
    rsum (nth (S k) inds O - nth k inds O) (fun j => nth (nth k inds O + j) mult 0 * nth (nth k inds O + j) w 0))%R.
Proof. exact expansion_orders. Qed.
Print Assumptions C51_orders.

(** C51: a parent with its own counts gives back its exact value per site. *)
Theorem C51_parent : forall vals sc p inds nsites, let n := length vals in
  strictly_lower sc -> n <= length sc -> (forall i, i < n -> length (nth i sc []) = n) -> 0 < nsites -> p < n ->
  exists total orders w, nlce_exp_val vals sc (set_at p 1%R (nth p sc [])) inds nsites = Ok (total, orders, w) /\
    (total * INR nsites = nth p vals 0)%R.
Proof. exact expansion_of_parent. Qed.
Print Assumptions C51_parent.

(** C51: fed with the table of [get_all_clusters_with_subclusters], the expansion has
    weights with value(c) = weight(c) + sum over the connected proper parts of c. *)
Theorem C51_clusters : forall n vals nsites cl ms M inds, 1 <= n -> 0 < nsites ->
  clusters_with_subclusters n (inj (1, 0)%Z) (inj (0, 1)%Z) true = Ok (cl, ms, M, inds) -> length vals = length cl ->
  exists total orders w L (count : nat -> nat -> nat),
    nlce_exp_val vals (real_table M) (map INR ms) inds nsites = Ok (total, orders, w) /\ Forall2 at_sites cl L /\
    (forall a b, a < length L -> b < length L -> contains true (linked (1, 0)%Z (0, 1)%Z) (nth a L []) (nth b L []) (count a b)) /\
    (forall a, a < length L -> (nth a vals 0 = nth a w 0 + rsum (length L) (fun b => INR (count a b) * nth b w 0))%R) /\
    (total * INR nsites = rsum (length L) (fun a => INR (nth a ms 0%nat) * nth a w 0%R))%R /\
    fold_right Rplus 0%R orders = total.
Proof. exact expansion_of_clusters. Qed.
Print Assumptions C51_clusters.

(** C52: the resummed partial sums of a terminating series converge to its sum. *)
Theorem C52_limit : forall y, (0 < y)%R -> forall xs, Un_cv (fun k => fst (euler_resum y (xs ++ repeat 0%R k))) (fold_right Rplus 0%R xs).
Proof. exact euler_converges. Qed.
Print Assumptions C52_limit.

(** C52: every term enters with a weight between 0 and 1. *)
Theorem C52_weights : forall y, (0 < y)%R -> forall n, exists ws, length ws = n /\ (forall j, j < n -> (0 <= nth j ws 0 <= 1)%R) /\
  forall xs, length xs = n -> fst (euler_resum y xs) = dot ws xs /\ fst (euler_resum y xs) = fold_right Rplus 0%R (snd (euler_resum y xs)).
Proof. exact euler_weighted. Qed.
Print Assumptions C52_weights.

(** C53 is false: without symmetry the table counts up to symmetry all the same. *)
Theorem C53_refuted : exists cl ms M inds L a b m,
  clusters_with_subclusters 3 (inj (1, 0)%Z) (inj (0, 1)%Z) false = Ok (cl, ms, M, inds) /\ Forall2 at_sites cl L /\
  a < length L /\ b < length L /\ contains false (linked (1, 0)%Z (0, 1)%Z) (nth a L []) (nth b L []) m /\ ~ (entry M a b == inject_Z (Z.of_nat m))%Q.
Proof. exact no_symmetry_table. Qed.
Print Assumptions C53_refuted.

(** C74: the table of an open parent counts parts up to symmetry. *)
Theorem C74_reduced : forall (Ph : Type) (parent : geometry Ph) P, at_sites parent P -> NoDup P -> g_n parent = length P ->
  (forall j k, j < length P -> k < length P -> ((ent (g_adj parent) j k == 1)%Q <-> linked (1, 0)%Z (0, 1)%Z (nth j P (0, 0)%Z) (nth k P (0, 0)%Z))) ->
  exists subs M inds DL, reduced_subclusters parent = Ok (subs, M, inds) /\
    Forall2 at_sites subs (concat DL) /\
    length inds = S (length DL) /\ (forall k, k <= length DL -> nth k inds 0 = length (concat (firstn k DL))) /\
    (forall k d, k < length DL -> In d (nth k DL []) -> connected (linked (1, 0)%Z (0, 1)%Z) d /\ incl d P /\ length d = S k) /\
    apart (congruent true) (concat DL) /\
    (forall T, connected (linked (1, 0)%Z (0, 1)%Z) T -> incl T P -> exists j, j < length (concat DL) /\ congruent true T (nth j (concat DL) [])) /\
    (forall i j, i < length (concat DL) -> j < length (concat DL) ->
      exists N, (entry M i j == inject_Z (Z.of_nat N))%Q /\ contains true (linked (1, 0)%Z (0, 1)%Z) (nth i (concat DL) []) (nth j (concat DL) []) N).
Proof. exact @reduced_subclusters_sites. Qed.
Print Assumptions C74_reduced.

(** C75: with symmetry, the table of all clusters counts parts up to symmetry. *)
Theorem C75_table : forall n, 1 <= n ->
  exists cl ms M inds L, clusters_with_subclusters n (inj (1, 0)%Z) (inj (0, 1)%Z) true = Ok (cl, ms, M, inds) /\
    all_clusters n (inj (1, 0)%Z) (inj (0, 1)%Z) true = Ok (cl, ms, inds) /\ Forall2 at_sites cl L /\
    (forall a b, a < length L -> b < length L -> exists m, (entry M a b == inject_Z (Z.of_nat m))%Q /\
       contains true (linked (1, 0)%Z (0, 1)%Z) (nth a L []) (nth b L []) m) /\
    length M = length L /\ (forall i, i < length L -> length (nth i M []) = length L) /\
    (forall a b, a <= b -> b < length L -> (entry M a b == 0)%Q).
Proof. exact clusters_table_sites. Qed.
Print Assumptions C75_table.

(** C76: reduction by symmetry keeps one cluster of each class and counts the class. *)
Theorem C76_reduction : forall (Ph : Type) (parent : geometry Ph) P, at_sites parent P -> NoDup P -> g_n parent = length P -> forall sym,
  (forall j k, j < length P -> k < length P -> (ent (g_adj parent) j k == 1 -> ent (g_adj parent) k j == 1)%Q) ->
  exists orders inds LL dist mults red DL, all_subclusters parent = Ok (orders, inds) /\ Forall2 (Forall2 at_sites) orders LL /\
    reduce_clusters sym orders = Ok (dist, mults, red) /\ Forall2 (Forall2 at_sites) dist DL /\ length DL = length LL /\
    apart (congruent sym) (concat DL) /\
    (forall k, k < length LL -> incl (nth k DL []) (nth k LL [])) /\
    length red = length (concat LL) /\
    (forall a, a < length (concat LL) -> nth a red 0 < length (concat DL) /\ congruent sym (nth a (concat LL) []) (nth (nth a red 0) (concat DL) [])) /\
    length (concat mults) = length (concat DL) /\
    (forall j, j < length (concat DL) -> nth j (concat mults) 0 = count_occ Nat.eq_dec red j).
Proof. exact @reduce_sites. Qed.
Print Assumptions C76_reduction.

(** C77 is false: not every shape of the expectation values is accepted. *)
Theorem C77_refuted : exists s, weights_shape s <> Ok tt.
Proof. exact axis_refuted. Qed.
Print Assumptions C77_refuted.

(** C77: accepted are the shapes in which axes of length one come first. *)
Theorem C77_shapes_partial : forall s, weights_shape s = Ok tt <-> exists k t, s = repeat 1 k ++ t /\ ~ In 1 t.
Proof. exact weights_shape_ok. Qed.
Print Assumptions C77_shapes_partial.

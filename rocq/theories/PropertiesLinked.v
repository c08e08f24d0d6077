(** Property theorems C144: the linked cluster sum of a quantity which is a sum over the
    connected parts of each cluster is the sum over clusters of the lattice.  Theorems only. *)
From Coq Require Import List Arith ZArith Reals.
From Verif Require Import Res ModelGeometry ModelNlce ModelNlceSum SpecCluster SpecNlce SpecThermal ClusterRep NlceFacts SpecLinked NlceLinked NlceBonds.
Import ListNotations.
Local Open Scope R_scope.

Theorem C144_linked : forall n phi vals nsites cl ms M inds L, (1 <= n)%nat -> (0 < nsites)%nat -> clusters_with_subclusters n (inj (1, 0)%Z) (inj (0, 1)%Z) true = Ok (cl, ms, M, inds) ->
  Forall2 at_sites cl L -> invariant (linked (1, 0)%Z (0, 1)%Z) phi -> length vals = length cl -> (forall a, (a < length L)%nat -> part_sum (linked (1, 0)%Z (0, 1)%Z) phi (nth a L []) (nth a vals 0)) ->
  exists total orders w, nlce_exp_val vals (real_table M) (map INR ms) inds nsites = Ok (total, orders, w) /\
    (forall a, (a < length L)%nat -> nth a w 0 = phi (nth a L [])) /\
    total * INR nsites = rsum (length L) (fun a => INR (nth a ms 0%nat) * phi (nth a L [])) /\
    length orders = n /\ forall k, (k < n)%nat -> nth k orders 0 * INR nsites =
      rsum (nth (S k) inds 0%nat - nth k inds 0%nat) (fun j => INR (nth (nth k inds 0%nat + j) ms 0%nat) * phi (nth (nth k inds 0%nat + j) L [])).
Proof. exact linked_sum. Qed.
Print Assumptions C144_linked.

Theorem C144_sites_and_bonds : forall n p q vals nsites cl ms M inds L, (1 <= n)%nat -> (0 < nsites)%nat -> clusters_with_subclusters n (inj (1, 0)%Z) (inj (0, 1)%Z) true = Ok (cl, ms, M, inds) ->
  Forall2 at_sites cl L -> length vals = length cl -> (forall a, (a < length L)%nat -> nth a vals 0 = p * INR (length (nth a L [])) + q * INR (bonds (nth a L []))) ->
  exists total orders w, nlce_exp_val vals (real_table M) (map INR ms) inds nsites = Ok (total, orders, w) /\ length orders = n /\
    nth 0 orders 0 * INR nsites = p /\ ((2 <= n)%nat -> nth 1 orders 0 * INR nsites = 2 * q) /\ (forall k, (2 <= k < n)%nat -> nth k orders 0 = 0) /\
    (n = 1%nat -> total * INR nsites = p) /\ ((2 <= n)%nat -> total * INR nsites = p + 2 * q).
Proof. exact site_bond_sum. Qed.
Print Assumptions C144_sites_and_bonds.

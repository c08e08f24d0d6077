(** Concrete cases of the theorems about linked cluster sums of sums over parts. *)
From Coq Require Import List Arith Lia ZArith QArith Reals Lra.
From Verif Require Import Res Matrix ModelGeometry ModelNlce ModelNlceSum SpecCluster SpecNlce SpecThermal ClusterSym ClusterRep NlceFacts SpecLinked NlceLinked NlceBonds PropertiesLinked.
Import ListNotations.
Local Open Scope R_scope.

(** Sites and bonds of a square of four sites and of a corner of three. *)
Example square_bonds : bonds [(0, 0); (1, 0); (0, 1); (1, 1)]%Z = 4%nat /\ bonds [(0, 0); (1, 0); (0, 1)]%Z = 2%nat. Proof. split; reflexivity. Qed.
Example square_sum : part_sum (linked (1, 0)%Z (0, 1)%Z) (small 1 10) [(0, 0); (1, 0); (0, 1); (1, 1)]%Z (1 * INR 4 + 10 * INR 4).
Proof. apply (site_bond_parts 1 10 [(0, 0); (1, 0); (0, 1); (1, 1)]%Z). repeat constructor; cbn; intuition discriminate. Qed.

(** The clusters of up to [n] sites and values linear in sites and bonds meet the conditions, for every [n]. *)
Example linear_values n p q : (1 <= n)%nat -> exists cl ms M inds L vals, clusters_with_subclusters n (inj (1, 0)%Z) (inj (0, 1)%Z) true = Ok (cl, ms, M, inds) /\
  Forall2 at_sites cl L /\ length vals = length cl /\ (forall a, (a < length L)%nat -> nth a vals 0 = p * INR (length (nth a L [])) + q * INR (bonds (nth a L []))).
Proof.
  intros Hn. destruct (clusters_table_sites n Hn) as (cl & ms & M & inds & L & EC & _ & F & _).
  exists cl, ms, M, inds, L, (map (fun S => p * INR (length S) + q * INR (bonds S)) L). split; [exact EC|]. split; [exact F|]. split; [rewrite map_length; symmetry; apply (Forall2_length' _ _ _ F)|].
  intros a Ha. rewrite (nth_indep _ 0 (p * INR (length (@nil pt)) + q * INR (bonds []))) by (rewrite map_length; exact Ha). apply (map_nth (fun S => p * INR (length S) + q * INR (bonds S))).
Qed.
Example linear_total p q : exists vals sc mult inds total orders w, nlce_exp_val vals sc mult inds 1 = Ok (total, orders, w) /\ total = p + 2 * q /\ length orders = 5%nat.
Proof.
  destruct (linear_values 5 p q ltac:(lia)) as (cl & ms & M & inds & L & vals & EC & F & LV & VV).
  destruct (C144_sites_and_bonds 5 p q vals 1 cl ms M inds L ltac:(lia) ltac:(lia) EC F LV VV) as (t & o & w & E & LO & _ & _ & _ & _ & T).
  exists vals, (real_table M), (map INR ms), inds, t, o, w. split; [exact E|]. split; [|exact LO]. rewrite <- (T ltac:(lia)). cbn. ring.
Qed.

(** One, two and three sites with 1 per site and 10 per bond, with the table of the clusters of up to three sites: 21 per site. *)
Example three_orders : nlce_exp_val [1; 12; 23; 23] [[0; 0; 0; 0]; [2; 0; 0; 0]; [3; 2; 0; 0]; [3; 2; 0; 0]] [1; 2; 2; 4] [0; 1; 2; 4]%nat 1 = Ok (21, [1; 20; 0], [1; 10; 0; 0]).
Proof.
  unfold nlce_exp_val, nlce_weights, dot, slice. cbn [length seq repeat rfold nth_error Nat.eqb bind set_at nth combine map fst snd fold_right negb INR Nat.sub skipn firstn].
  assert (E3 : forall a b c a' b' c' : R, a = a' -> b = b' -> c = c' -> [a; b; c] = [a'; b'; c']) by congruence.
  assert (E4 : forall a b c d a' b' c' d' : R, a = a' -> b = b' -> c = c' -> d = d' -> [a; b; c; d] = [a'; b'; c'; d']) by congruence.
  f_equal. f_equal; [f_equal|]; [field|apply E3; field|apply E4; ring].
Qed.

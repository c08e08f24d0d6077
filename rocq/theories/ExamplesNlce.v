(** Concrete cases of the theorems about clusters and linked cluster sums. *)
From Coq Require Import List Arith Lia ZArith QArith Reals Lra.
From Verif Require Import Res Matrix ModelGeometry ModelNlce ModelNlceSum SpecCluster SpecNlce ClusterRep ClusterTable NlceSum NlceFacts RefuteNlce PropertiesNlce.
Import ListNotations.
Local Open Scope nat_scope.

(** C49: the multiplicities and index bounds of the unit tests, unittests/nlce_unittest.py. *)
Example clusters_four : match all_clusters 4 (inj (1, 0)%Z) (inj (0, 1)%Z) true with Ok (_, ms, inds) => Some (ms, inds) | Raise _ => None end
  = Some ([1; 2; 2; 4; 2; 8; 4; 1; 4], [0; 1; 2; 4; 9]).
Proof. vm_compute. reflexivity. Qed.
Example steps_of_square : step_symmetric true (1, 0)%Z (0, 1)%Z. Proof. right. split; reflexivity. Qed.
Example steps_of_skew : step_symmetric false (2, 1)%Z (0, 3)%Z. Proof. left. reflexivity. Qed.

(** C50, C74, C76: a square of four sites meets the conditions; it has 4, 4, 4 and 1 connected parts. *)
Definition four : list pt := [(0, 0); (1, 0); (0, 1); (1, 1)]%Z.
Example square_parent : exists g, from_coords (map inj four) = Ok g /\ at_sites g four /\ NoDup four /\ g_n g = length four /\
  (forall j k, j < length four -> k < length four -> ((ent (g_adj g) j k == 1)%Q <-> linked (1, 0)%Z (0, 1)%Z (nth j four (0, 0)%Z) (nth k four (0, 0)%Z))) /\
  (forall j k, j < length four -> k < length four -> (ent (g_adj g) j k == 1 -> ent (g_adj g) k j == 1)%Q).
Proof.
  destruct (rep_new four) as (g & E & H). exists g. split; [exact E|]. split; [apply rep_sites; exact H|].
  split; [repeat constructor; cbn; intuition discriminate|]. split; [apply H|].
  assert (A : forall j k, j < length four -> k < length four -> ((ent (g_adj g) j k == 1)%Q <-> linked (1, 0)%Z (0, 1)%Z (nth j four (0, 0)%Z) (nth k four (0, 0)%Z))).
  { intros j k Hj Hk. rewrite (rep_adj _ _ H j k Hj Hk). unfold pn. generalize (nth j four (0, 0)%Z) (nth k four (0, 0)%Z). intros [a b] [c d]. cbn [fst snd].
    unfold linked, shift. cbn [fst snd]. destruct (Z.eqb_spec (Z.abs (a - c) + Z.abs (b - d))%Z 1) as [X|X].
    - split; [intros _|reflexivity].
      assert ((c = a + 1 /\ d = b \/ a = c + 1 /\ b = d \/ c = a /\ d = b + 1 \/ a = c /\ b = d + 1)%Z) as [[-> ->]|[[-> ->]|[[-> ->]|[-> ->]]]] by lia;
        [left|right; left|right; right; left|right; right; right]; f_equal; lia.
    - split; [intros Y; discriminate|]. intros [Y|[Y|[Y|Y]]]; injection Y as Y1 Y2; lia. }
  split; [exact A|]. intros j k Hj Hk X. apply A; [assumption|assumption|]. apply A in X; [|assumption|assumption].
  destruct X as [X|[X|[X|X]]]; unfold linked; auto.
Qed.
Example square_parts : match from_coords (map inj four) with Ok g => match all_subclusters g with
    | Ok (orders, inds) => Some (map (@length cluster_geom) orders, nth 12 inds []) | Raise _ => None end | Raise _ => None end
  = Some ([4; 4; 4; 1], [0; 1; 2; 3; 4; 5; 6; 7; 8; 9; 10; 11]).
Proof. vm_compute. reflexivity. Qed.
Example square_reduced : match from_coords (map inj four) with Ok g => match reduced_subclusters g with
    | Ok (subs, M, inds) => Some (M, inds) | Raise _ => None end | Raise _ => None end
  = Some ([[0; 0; 0; 0]; [2; 0; 0; 0]; [3; 2; 0; 0]; [4; 4; 4; 0]]%Q, [0; 1; 2; 3; 4]).
Proof. vm_compute. reflexivity. Qed.

(** C75: the table of the clusters of up to three sites. *)
Example table_three : match summary (clusters_with_subclusters 3 (inj (1, 0)%Z) (inj (0, 1)%Z) true) with Some (_, ms, M, inds) => Some (ms, M, inds) | None => None end
  = Some ([1; 2; 2; 4], [[0; 0; 0; 0]; [2; 0; 0; 0]; [3; 2; 0; 0]; [3; 2; 0; 0]]%Q, [0; 1; 2; 4]).
Proof. vm_compute. reflexivity. Qed.

(** C51: a chain of three sites with values 1, 3 and 6. *)
Local Open Scope R_scope.
Definition chain_table : list (list R) := [[0; 0; 0]; [2; 0; 0]; [3; 2; 0]].
Example chain_expansion : nlce_exp_val [1; 3; 6] chain_table [1; 2; 2] [0; 1; 2; 3]%nat 1 = Ok (5, [1; 2; 2], [1; 1; 1]).
Proof.
  unfold nlce_exp_val, nlce_weights, chain_table, dot, slice. cbn [length seq repeat rfold nth_error Nat.eqb bind set_at nth combine map fst snd fold_right negb INR Nat.sub skipn firstn].
  assert (E : forall a b c a' b' c' : R, a = a' -> b = b' -> c = c' -> [a; b; c] = [a'; b'; c']) by congruence.
  f_equal. f_equal; [f_equal|]; [field|apply E; field|apply E; ring].
Qed.
Example chain_lower : strictly_lower chain_table.
Proof. intros [|[|[|i]]] [|[|[|j]]] H; try lia; cbn; try reflexivity; destruct j; try reflexivity; destruct i; reflexivity. Qed.
Example chain_parent : exists total orders w, nlce_exp_val [1; 3; 6] chain_table [3; 2; 1] [0; 1; 2; 3]%nat 3 = Ok (total, orders, w) /\ total * INR 3 = 6.
Proof. apply (C51_parent [1; 3; 6] chain_table 2 [0; 1; 2; 3]%nat 3); [exact chain_lower|cbn; lia| |lia|cbn; lia]. intros [|[|[|i]]] Hi; cbn in Hi |- *; lia. Qed.

(** C52: two terms with y = 1. *)
Example euler_two : euler_resum 1 [1; 1] = (1, [/ 2; / 2]).
Proof.
  unfold euler_resum, euler_term, dot. cbn [length seq map firstn combine fst snd fold_right choose INR pow Nat.add].
  assert (E : forall a b a' b' : R, a = a' -> b = b' -> [a; b] = [a'; b']) by congruence.
  f_equal; [field|apply E; field].
Qed.

(** C77: accepted and rejected shapes. *)
Example shapes : map weights_shape [[]; [5]; [1; 3]; [4; 4]; [3; 1]; [3; 1; 3]]%nat = [Ok tt; Ok tt; Ok tt; Ok tt; Raise ValueError; Raise ValueError].
Proof. reflexivity. Qed.

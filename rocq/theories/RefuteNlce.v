(** Properties of the cluster expansion which the code does not have. *)
From Coq Require Import List Arith Lia ZArith QArith.
From Verif Require Import Res Matrix ModelGeometry ModelNlce ModelNlceSum SpecCluster ClusterRep ClusterSym ClusterTable NlceFacts.
Import ListNotations.
Local Open Scope nat_scope.

Definition site_lists (cl : list cluster_geom) : list (list Q * list Q) := map (fun g => (g_x g, g_y g)) cl.
Definition summary (r : res (list cluster_geom * list nat * table * list nat)) : option (list (list Q * list Q) * list nat * table * list nat) :=
  match r with Ok (cl, ms, M, inds) => Some (site_lists cl, ms, M, inds) | Raise _ => None end.

(** Without symmetry the corner of three sites is said to contain two upright
    pairs and no level pair; it contains one of each. *)
Definition corner : list pt := [(0, 1); (1, 0); (0, 0)]%Z.
Definition level_pair : list pt := [(0, 0); (1, 0)]%Z.
Lemma corner_contains : contains false (linked (1, 0) (0, 1))%Z corner level_pair 1.
Proof.
  exists [level_pair]. split; [reflexivity|]. split; [intros; lia|]. split.
  - intros o [<-|[]]. split; [|split].
    + split; [discriminate|]. split.
      * constructor; [intros [H|[]]; discriminate|]. constructor; [intros []|constructor].
      * assert (A1 : linked (1, 0)%Z (0, 1)%Z (0, 0)%Z (1, 0)%Z) by (left; reflexivity).
        assert (A2 : linked (1, 0)%Z (0, 1)%Z (1, 0)%Z (0, 0)%Z) by (right; left; reflexivity).
        assert (I1 : In (0, 0)%Z level_pair) by (left; reflexivity). assert (I2 : In (1, 0)%Z level_pair) by (right; left; reflexivity).
        intros p q [<-|[<-|[]]] [<-|[<-|[]]]; [apply walk_stay; exact I1| | |apply walk_stay; exact I2].
        -- apply (walk_step _ _ _ (1, 0)%Z); [exact I1|exact A1|apply walk_stay; exact I2].
        -- apply (walk_step _ _ _ (0, 0)%Z); [exact I2|exact A2|apply walk_stay; exact I1].
    + split; [intros p [<-|[<-|[]]]; cbn; auto|]. intros H. destruct (H (0, 1)%Z (or_introl eq_refl)) as [X|[X|[]]]; discriminate.
    + apply congruent_refl.
  - intros o _ [I _] (s & [<-|[]] & t & H). exists level_pair. split; [left; reflexivity|]. rewrite map_id in H.
    assert (exists p, In p o /\ shift t p = (0, 0)%Z) as (p & Hp & Ep). { destruct (proj1 (in_map_iff _ _ _) (proj2 (H (0, 0)%Z) (or_introl eq_refl))) as (p & E & Hp). eauto. }
    assert (exists q, In q o /\ shift t q = (1, 0)%Z) as (q & Hq & Eq). { destruct (proj1 (in_map_iff _ _ _) (proj2 (H (1, 0)%Z) (or_intror (or_introl eq_refl)))) as (q & E & Hq). eauto. }
    destruct t as [t1 t2]. unfold shift in *. cbn [fst snd] in *.
    assert (T : (t1 = 0 /\ t2 = 0)%Z).
    { injection Ep as P1 P2. injection Eq as Q1 Q2. destruct (I p Hp) as [<-|[<-|[<-|[]]]], (I q Hq) as [<-|[<-|[<-|[]]]]; cbn [fst snd] in *; lia. }
    destruct T as [-> ->]. intros x. rewrite <- (H x), in_map_iff. destruct x as [x1 x2]. split.
    + intros Hx. exists (x1, x2). cbn [fst snd]. rewrite !Z.add_0_r. auto.
    + intros ([y1 y2] & E & Hy). cbn [fst snd] in E. rewrite !Z.add_0_r in E. rewrite <- E. exact Hy.
Qed.

Lemma no_symmetry_table : exists cl ms M inds L a b m,
  clusters_with_subclusters 3 (inj (1, 0)%Z) (inj (0, 1)%Z) false = Ok (cl, ms, M, inds) /\ Forall2 at_sites cl L /\
  a < length L /\ b < length L /\ contains false (linked (1, 0)%Z (0, 1)%Z) (nth a L []) (nth b L []) m /\ ~ (entry M a b == inject_Z (Z.of_nat m))%Q.
Proof.
  set (L := [[(0, 0)]; [(0, 0); (1, 0)]; [(0, 1); (0, 0)]; [(-1, 0); (0, 0); (1, 0)]; [(0, 1); (1, 0); (0, 0)]; [(0, 0); (1, 0); (0, -1)];
             [(1, 1); (1, 0); (0, 0)]; [(0, 0); (1, 0); (1, -1)]; [(0, 2); (0, 1); (0, 0)]]%Z : list (list pt)).
  assert (V : match summary (clusters_with_subclusters 3 (inj (1, 0)%Z) (inj (0, 1)%Z) false) with
              | Some (s, _, M, _) => Some (s, entry M 4 1) | None => None end =
              Some (map (fun S => (map (fun p : pt => inject_Z (fst p)) S, map (fun p : pt => inject_Z (snd p)) S)) L, 0%Q)) by (vm_compute; reflexivity).
  destruct (clusters_with_subclusters 3 (inj (1, 0)%Z) (inj (0, 1)%Z) false) as [[[[cl ms] M] inds]|e]; [|discriminate V].
  cbn [summary] in V.
  assert (V1 : site_lists cl = map (fun S => (map (fun p : pt => inject_Z (fst p)) S, map (fun p : pt => inject_Z (snd p)) S)) L) by (injection V; intros _ H; exact H).
  assert (V2 : entry M 4 1 = 0%Q) by (injection V; intros H _; exact H). clear V.
  exists cl, ms, M, inds, L, 4, 1, 1. split; [reflexivity|]. split; [|split; [cbn; lia|split; [cbn; lia|split; [exact corner_contains|]]]].
  - clear V2. revert V1. generalize L. clear. unfold site_lists. induction cl as [|g cl IH]; intros [|S L] E; try discriminate E; [constructor|].
    cbn [map] in E. injection E as E1 E2 E3. constructor; [split; assumption|]. apply IH. exact E3.
  - rewrite V2. discriminate.
Qed.

(** Further axes of length one after longer ones are not accepted. *)
Lemma axis_rejected : weights_shape [2; 1] = Raise ValueError.
Proof. reflexivity. Qed.
Lemma axis_refuted : exists s, weights_shape s <> Ok tt.
Proof. exists [2; 1]. rewrite axis_rejected. discriminate. Qed.

(** Linked cluster sums of quantities linear in the numbers of sites and bonds: proofs. *)
From Coq Require Import List Arith Lia ZArith QArith Reals Lra Bool.
From Verif Require Import Res Matrix ModelGeometry ModelNlce ModelNlceSum SpecCluster SpecNlce SpecThermal ThermalBase ClusterSets ClusterRep ClusterSym ClusterAll ClusterCount NlceSum NlceFacts SpecLinked NlceLinked.
From Verif Require FermiModes.
Import ListNotations.
Local Open Scope R_scope.

Lemma has_iff S p : has S p = true <-> In p S.
Proof.
  unfold has. rewrite existsb_exists. split.
  - intros ([a b] & H & E). destruct p as [x y]. cbn in E. apply andb_prop in E as (E1 & E2). apply Z.eqb_eq in E1, E2. subst. exact H.
  - intros H. exists p. split; [exact H|]. rewrite !Z.eqb_refl. reflexivity.
Qed.
Lemma shift_ne d p : d <> (0, 0)%Z -> shift d p <> p.
Proof. intros N E. apply N. destruct d as [a b], p as [x y]. unfold shift in E. cbn in E. injection E as E1 E2. f_equal; lia. Qed.
Lemma pair_connected p q : nn p q -> p <> q -> connected nn [p; q].
Proof. intros H N. apply (connected_add nn [p] p q (linked_sym _ _) (connected_one nn p)); [left; reflexivity | exact H|]. intros [E|[]]. apply N, E. Qed.
Lemma pair_linked p q : connected nn [p; q] -> nn p q.
Proof.
  intros (_ & ND & W). assert (N : p <> q) by (inversion ND as [|? ? X _]; intros ->; apply X; left; reflexivity).
  destruct (crossing pt_dec nn [p; q] [p] p q (W p q (or_introl eq_refl) (or_intror (or_introl eq_refl))) (or_introl eq_refl)) as (a & b & Ha & Hb & Nb & A).
  - intros [E|[]]. apply N, E.
  - destruct Ha as [<-|[]]. destruct Hb as [<-|[<-|[]]]; [exfalso; apply Nb; left; reflexivity | exact A].
Qed.
Definition step_pair (d p : pt) : list pt := [p; shift d p].
Lemma step_pair_inj d p q : d <> (0, 0)%Z -> same_set (step_pair d p) (step_pair d q) -> p = q.
Proof.
  intros N H. pose proof (proj1 (H p) (or_introl eq_refl)) as A. pose proof (proj2 (H q) (or_introl eq_refl)) as B. destruct A as [<-|[A|[]]]; [reflexivity|]. destruct B as [<-|[B|[]]]; [reflexivity|].
  exfalso. apply N. destruct d as [a b], p as [x y], q as [u v]. unfold shift in A, B. cbn in A, B. injection A as A1 A2. injection B as B1 B2. f_equal; lia.
Qed.
Lemma steps_differ p q : ~ same_set (step_pair (1, 0)%Z p) (step_pair (0, 1)%Z q).
Proof.
  intros H. pose proof (proj1 (H p) (or_introl eq_refl)) as A. pose proof (proj1 (H (shift (1, 0)%Z p)) (or_intror (or_introl eq_refl))) as B.
  destruct p as [x y], q as [u v]. unfold step_pair, shift in A, B. cbn in A, B. destruct A as [A|[A|[]]], B as [B|[B|[]]]; injection A as A1 A2; injection B as B1 B2; lia.
Qed.
Lemma step_linked_1 p : nn p (shift (1, 0)%Z p). Proof. left. reflexivity. Qed.
Lemma step_linked_2 p : nn p (shift (0, 1)%Z p). Proof. right. right. left. reflexivity. Qed.

Section Values.
  Variables p q : R.
  Definition small (T : list pt) : R := match length T with 1%nat => p | 2%nat => q | _ => 0 end.
  Lemma small_invariant : invariant nn small.
  Proof using. intros S T CS CT CG. unfold small. rewrite (congruent_length true S T); [reflexivity | apply CS | apply CT | exact CG]. Qed.
  Lemma total_same {A} (f : A -> R) l c : (forall a, In a l -> f a = c) -> total f l = c * INR (length l).
  Proof using. intros H. rewrite (total_ext f (fun _ => c)) by exact H. rewrite FermiModes.total_const. ring. Qed.
  Lemma site_bond_parts S : NoDup S -> part_sum nn small S (p * INR (length S) + q * INR (bonds S)).
  Proof using.
    intros ND. set (F1 := filter (fun x => has S (shift (1, 0)%Z x)) S). set (F2 := filter (fun x => has S (shift (0, 1)%Z x)) S).
    assert (I1 : forall x, In x F1 <-> In x S /\ In (shift (1, 0)%Z x) S) by (intros x; unfold F1; rewrite filter_In, has_iff; reflexivity).
    assert (I2 : forall x, In x F2 <-> In x S /\ In (shift (0, 1)%Z x) S) by (intros x; unfold F2; rewrite filter_In, has_iff; reflexivity).
    exists (map (fun x => [x]) S ++ map (step_pair (1, 0)%Z) F1 ++ map (step_pair (0, 1)%Z) F2). split; [|split; [|split]].
    - rewrite !total_app, !total_map, !(total_same _ _ p), !(total_same _ _ q) by (intros; reflexivity). unfold bonds. fold F1 F2. rewrite plus_INR. ring.
    - change (spread same_set (map (fun x => [x]) S ++ map (step_pair (1, 0)%Z) F1 ++ map (step_pair (0, 1)%Z) F2)).
      apply spread_app; [apply same_symm| | |].
      + apply spread_map; [apply same_symm | exact ND|]. intros a b _ _ H. destruct (proj1 (H a) (or_introl eq_refl)) as [<-|[]]. reflexivity.
      + apply spread_app; [apply same_symm| | |].
        * apply spread_map; [apply same_symm | apply NoDup_filter; exact ND|]. intros a b _ _ H. apply (step_pair_inj (1, 0)%Z); [discriminate | exact H].
        * apply spread_map; [apply same_symm | apply NoDup_filter; exact ND|]. intros a b _ _ H. apply (step_pair_inj (0, 1)%Z); [discriminate | exact H].
        * intros x y Hx Hy. apply in_map_iff in Hx as (a & <- & _). apply in_map_iff in Hy as (b & <- & _). apply steps_differ.
      + intros x y Hx Hy H. apply in_map_iff in Hx as (a & <- & _). apply in_app_or in Hy as [Hy|Hy]; apply in_map_iff in Hy as (b & <- & _);
          pose proof (proj2 (H b) (or_introl eq_refl)) as X; pose proof (proj2 (H _) (or_intror (or_introl eq_refl))) as Y; destruct X as [X|[]], Y as [Y|[]]; subst a;
          symmetry in Y; apply shift_ne in Y; try exact Y; discriminate.
    - intros o Ho. apply in_app_or in Ho as [Ho|Ho]; [|apply in_app_or in Ho as [Ho|Ho]]; apply in_map_iff in Ho as (x & <- & Hx).
      + split; [apply connected_one | intros y [<-|[]]; exact Hx].
      + apply I1 in Hx as (H1 & H2). split; [apply pair_connected; [apply step_linked_1 | intros E; symmetry in E; apply shift_ne in E; [exact E | discriminate]] | intros y [<-|[<-|[]]]; assumption].
      + apply I2 in Hx as (H1 & H2). split; [apply pair_connected; [apply step_linked_2 | intros E; symmetry in E; apply shift_ne in E; [exact E | discriminate]] | intros y [<-|[<-|[]]]; assumption].
    - intros o C IN NZ. unfold small in NZ. destruct o as [|x [|y [|z o]]]; cbn in NZ; try congruence.
      + exists [x]. split; [|intros r; reflexivity]. apply in_or_app. left. apply in_map_iff. exists x. split; [reflexivity | apply IN; left; reflexivity].
      + assert (Hx : In x S) by (apply IN; left; reflexivity). assert (Hy : In y S) by (apply IN; right; left; reflexivity).
        assert (SW : same_set [x; y] [y; x]) by (intros r; cbn; tauto).
        destruct (pair_linked x y C) as [E|[E|[E|E]]].
        * exists (step_pair (1, 0)%Z x). split; [|rewrite E; intros r; reflexivity]. apply in_or_app; right; apply in_or_app; left. apply in_map, I1. subst y. split; assumption.
        * exists (step_pair (1, 0)%Z y). split; [|unfold step_pair; rewrite <- E; exact SW]. apply in_or_app; right; apply in_or_app; left. apply in_map, I1. subst x. split; assumption.
        * exists (step_pair (0, 1)%Z x). split; [|rewrite E; intros r; reflexivity]. apply in_or_app; right; apply in_or_app; right. apply in_map, I2. subst y. split; assumption.
        * exists (step_pair (0, 1)%Z y). split; [|unfold step_pair; rewrite <- E; exact SW]. apply in_or_app; right; apply in_or_app; right. apply in_map, I2. subst x. split; assumption.
  Qed.
End Values.

(** ** Orientations of one and two sites *)
Local Open Scope nat_scope.
Lemma orientations_unique sym S m k : orientations sym S m -> orientations sym S k -> m = k.
Proof.
  assert (K : forall m k, orientations sym S m -> orientations sym S k -> m <= k).
  { clear. intros m k (os & <- & A & H1 & _) (os' & <- & _ & _ & H2). apply (pigeon translate os os' []).
    - intros o Ho. destruct (H1 o Ho) as (s & Hs & T). destruct (H2 s Hs) as (o' & Ho' & T'). exists o'. split; [exact Ho'|]. apply (translate_trans _ (map s S)); [apply translate_sym; exact T | exact T'].
    - intros a b y Ha Hb Ta Tb. apply A; auto. apply (translate_trans _ y); [exact Ta | apply translate_sym; exact Tb]. }
  intros H1 H2. apply Nat.le_antisymm; apply K; assumption.
Qed.
Lemma translate_single p q : translate [p] [q].
Proof. exists (fst q - fst p, snd q - snd p)%Z. destruct p as [a b], q as [c d]. unfold shift. cbn. intros r. cbn. replace (a + (c - a))%Z with c by ring. replace (b + (d - b))%Z with d by ring. reflexivity. Qed.
Lemma one_orientation p : orientations true [p] 1.
Proof.
  exists [[p]]. split; [reflexivity|]. split; [intros a b Ha Hb _; lia|]. split.
  - intros o [<-|[]]. exists (fun p => p). split; [left; reflexivity | apply translate_single].
  - intros s _. exists [p]. split; [left; reflexivity | apply translate_single].
Qed.
Definition flat : list pt := [(0, 0); (1, 0)]%Z.
Definition upright : list pt := [(0, 0); (0, 1)]%Z.
Lemma to_pair d p : translate [p; shift d p] [(0, 0)%Z; d] /\ translate [shift d p; p] [(0, 0)%Z; d].
Proof.
  assert (X : translate [p; shift d p] [(0, 0)%Z; d]).
  { exists (- fst p, - snd p)%Z. destruct p as [a b], d as [c e]. unfold shift. cbn. intros r. cbn. replace (a + - a)%Z with 0%Z by ring. replace (b + - b)%Z with 0%Z by ring.
    replace (a + c + - a)%Z with c by ring. replace (b + e + - b)%Z with e by ring. reflexivity. }
  split; [exact X|]. apply (translate_trans _ [p; shift d p]); [|exact X]. apply translate_of_same. intros r. cbn. tauto.
Qed.
Lemma flat_upright : ~ translate flat upright.
Proof.
  intros ([a b] & H). pose proof (proj1 (H (0 + a, 0 + b)%Z) (or_introl eq_refl)) as A. pose proof (proj1 (H (1 + a, 0 + b)%Z) (or_intror (or_introl eq_refl))) as B.
  unfold upright in A, B. destruct A as [A|[A|[]]], B as [B|[B|[]]]; apply (f_equal fst) in A, B; cbn [fst] in A, B; lia.
Qed.
Lemma linked_pair_shape x y : nn x y -> translate [x; y] flat \/ translate [x; y] upright.
Proof.
  intros [E|[E|[E|E]]].
  - left. subst y. apply (to_pair (1, 0)%Z x).
  - left. subst x. apply (to_pair (1, 0)%Z y).
  - right. subst y. apply (to_pair (0, 1)%Z x).
  - right. subst x. apply (to_pair (0, 1)%Z y).
Qed.
Definition turn (p : pt) : pt := (- snd p, fst p)%Z.
Lemma turn_flat S : translate S flat -> translate (map turn S) upright.
Proof.
  intros H. apply (translate_trans _ (map turn flat)); [apply (translate_map turn); [intros [a b] [c d]; unfold turn, shift; cbn; f_equal; ring | exact H]|]. apply translate_of_same. intros r. reflexivity.
Qed.
Lemma turn_upright S : translate S upright -> translate (map turn S) flat.
Proof.
  intros H. apply (translate_trans _ (map turn upright)); [apply (translate_map turn); [intros [a b] [c d]; unfold turn, shift; cbn; f_equal; ring | exact H]|].
  exists (1, 0)%Z. intros r. cbn. tauto.
Qed.
Lemma two_orientations x y : nn x y -> orientations true [x; y] 2.
Proof.
  intros N. exists [flat; upright]. split; [reflexivity|]. split; [|split].
  - intros a b Ha Hb T. destruct a as [|[|a]], b as [|[|b]]; try lia; exfalso; cbn [nth] in T; [apply flat_upright; exact T | apply flat_upright, translate_sym; exact T].
  - assert (ID : In (fun p : pt => p) (symmetries true)) by (left; reflexivity). assert (TU : In turn (symmetries true)) by (right; left; reflexivity).
    intros o [<-|[<-|[]]]; destruct (linked_pair_shape x y N) as [T|T].
    + exists (fun p => p). split; [exact ID | rewrite map_id; exact T].
    + exists turn. split; [exact TU | apply turn_upright; exact T].
    + exists turn. split; [exact TU | apply turn_flat; exact T].
    + exists (fun p => p). split; [exact ID | rewrite map_id; exact T].
  - intros s Hs. pose proof (linked_map true (1, 0)%Z (0, 1)%Z s x y ltac:(right; auto) Hs N) as N'. destruct (linked_pair_shape (s x) (s y) N') as [T|T]; [exists flat | exists upright]; (split; [cbn; tauto | exact T]).
Qed.
Lemma pairs_congruent x y u v : nn x y -> nn u v -> congruent true [x; y] [u; v].
Proof.
  intros H1 H2. assert (TU : In turn (symmetries true)) by (right; left; reflexivity).
  destruct (linked_pair_shape x y H1) as [A|A], (linked_pair_shape u v H2) as [B|B].
  - apply congruent_of_translate. apply (translate_trans _ flat); [exact A | apply translate_sym; exact B].
  - exists turn. split; [exact TU|]. apply (translate_trans _ upright); [apply turn_flat; exact A | apply translate_sym; exact B].
  - exists turn. split; [exact TU|]. apply (translate_trans _ flat); [apply turn_upright; exact A | apply translate_sym; exact B].
  - apply congruent_of_translate. apply (translate_trans _ upright); [exact A | apply translate_sym; exact B].
Qed.

Local Open Scope R_scope.
(** A value which is [p] per site plus [q] per bond: the first two orders give it, all others vanish. *)
Theorem site_bond_sum n p q vals nsites cl ms M inds L : (1 <= n)%nat -> (0 < nsites)%nat -> clusters_with_subclusters n (inj (1, 0)%Z) (inj (0, 1)%Z) true = Ok (cl, ms, M, inds) ->
  Forall2 at_sites cl L -> length vals = length cl -> (forall a, (a < length L)%nat -> nth a vals 0 = p * INR (length (nth a L [])) + q * INR (bonds (nth a L []))) ->
  exists total orders w, nlce_exp_val vals (real_table M) (map INR ms) inds nsites = Ok (total, orders, w) /\ length orders = n /\
    nth 0 orders 0 * INR nsites = p /\ ((2 <= n)%nat -> nth 1 orders 0 * INR nsites = 2 * q) /\ (forall k, (2 <= k < n)%nat -> nth k orders 0 = 0) /\
    (n = 1%nat -> total * INR nsites = p) /\ ((2 <= n)%nat -> total * INR nsites = p + 2 * q).
Proof.
  intros Hn Hs EC F LV VV.
  destruct (clusters_table_sites n Hn) as (cl1 & ms1 & M1 & inds1 & L1 & EC1 & EA & F1 & _). rewrite EC in EC1. injection EC1 as <- <- <- <-. clear F1 L1.
  destruct (all_clusters_sites true (1, 0)%Z (0, 1)%Z n ltac:(right; auto) Hn) as (cl2 & ms2 & inds2 & L2 & EA2 & F2 & OR & LI & I0 & IN & HI & AP & ALL).
  rewrite EA in EA2. injection EA2 as <- <- <-. rewrite (sites_unique cl L2 L F2 F) in *. clear F2.
  assert (MONO : forall j k, (j <= k <= n)%nat -> (nth j inds 0 <= nth k inds 0)%nat).
  { intros j k H. replace k with (j + (k - j))%nat by lia. assert (X : forall d, (j + d <= n)%nat -> (nth j inds 0 <= nth (j + d) inds 0)%nat).
    { induction d as [|d IH]; intros Hd; [rewrite Nat.add_0_r; lia|]. eapply Nat.le_trans; [apply IH; lia|]. rewrite Nat.add_succ_r. apply HI. lia. }
    apply X. lia. }
  assert (FIND : forall a, (a < length L)%nat -> exists k, (k < n)%nat /\ (nth k inds 0 <= a < nth (S k) inds 0)%nat).
  { intros a Ha. rewrite <- IN in Ha. clear - Ha I0 HI. induction n as [|m IH]; [lia|]. destruct (Nat.lt_ge_cases a (nth m inds 0%nat)) as [G|G].
    - destruct IH as (k & Hk & B); [intros k Hk; apply HI; lia | exact G|]. exists k. split; [lia | exact B].
    - exists m. split; [lia|]. split; assumption. }
  assert (BD : forall k a, (k < n)%nat -> (nth k inds 0 <= a < nth (S k) inds 0)%nat -> (a < length L)%nat).
  { intros k a Hk H. pose proof (MONO (S k) n ltac:(lia)) as X. rewrite IN in X. lia. }
  assert (SZ : forall a, (a < length L)%nat -> connected nn (nth a L [])).
  { intros a Ha. destruct (FIND a Ha) as (k & Hk & B). destruct (HI k Hk) as (_ & X). apply (X a B). }
  destruct (linked_sum n (small p q) vals nsites cl ms M inds L Hn Hs EC F (small_invariant p q) LV) as (tot & orders & w & EN & _ & TT & LO & HO).
  { intros a Ha. rewrite VV by exact Ha. apply site_bond_parts. apply (SZ a Ha). }
  exists tot, orders, w. split; [exact EN|]. split; [exact LO|].
  assert (NP : INR nsites <> 0) by (apply not_0_INR; lia).
  (* one class *)
  assert (ONE : forall k T, (k < n)%nat -> connected nn T -> length T = S k -> (forall U, connected nn U -> length U = S k -> congruent true U T) ->
            nth (S k) inds 0%nat = S (nth k inds 0%nat)).
  { intros k T Hk C LT CG. destruct (ALL T C ltac:(lia)) as (a & Ha & X). destruct (FIND a Ha) as (k' & Hk' & B).
    destruct (HI k' Hk') as (_ & HK'). destruct (HK' a B) as (Ca & La).
    assert (E : length T = length (nth a L [])) by (apply (congruent_length true); [apply C | apply Ca | exact X]).
    assert (k' = k) as -> by lia. pose proof (proj1 (HI k Hk)) as MO.
    destruct (Nat.le_gt_cases (nth (S k) inds 0%nat) (S (nth k inds 0%nat))) as [G|G]; [lia|]. exfalso.
    assert (B1 : (nth k inds 0 <= nth k inds 0 < nth (S k) inds 0)%nat) by lia. assert (B2 : (nth k inds 0 <= S (nth k inds 0) < nth (S k) inds 0)%nat) by lia.
    destruct (HK' _ B1) as (C1 & LL1). destruct (HK' _ B2) as (C2 & LL2).
    assert (Q : nth k inds 0%nat = S (nth k inds 0%nat)); [|lia].
    apply AP; [apply (BD k); assumption | apply (BD k); assumption|].
    apply (congruent_trans true _ T); [apply CG; assumption | apply congruent_sym, CG; assumption]. }
  assert (ORI : forall a, (a < length L)%nat -> orientations true (nth a L []) (nth a ms 0%nat)).
  { intros a Ha. apply (Forall2_nth _ _ _ [] 0%nat a OR Ha). }
  assert (O0 : nth 0 orders 0 * INR nsites = p).
  { rewrite HO by lia.
    assert (E1 : nth 1 inds 0%nat = S (nth 0 inds 0%nat)).
    { apply (ONE 0%nat [(0, 0)%Z]); [lia | apply connected_one | reflexivity|]. intros U CU LU. destruct U as [|u [|v U]]; cbn in LU; try lia. apply congruent_of_translate, translate_single. }
    rewrite E1. replace (S (nth 0 inds 0) - nth 0 inds 0)%nat with 1%nat by lia. cbn [rsum]. rewrite Nat.add_0_r.
    destruct (HI 0%nat ltac:(lia)) as (_ & H0). destruct (H0 (nth 0 inds 0%nat) ltac:(lia)) as (C & LC).
    pose proof (ORI (nth 0 inds 0%nat) (BD 0%nat (nth 0 inds 0%nat) ltac:(lia) ltac:(lia))) as OO. unfold small. rewrite LC.
    destruct (nth (nth 0 inds 0%nat) L []) as [|u [|v U]]; cbn in LC; try lia.
    rewrite (orientations_unique _ _ _ _ OO (one_orientation u)). cbn. ring. }
  assert (O1 : (2 <= n)%nat -> nth 1 orders 0 * INR nsites = 2 * q).
  { intros H2. rewrite HO by lia.
    assert (E1 : nth 2 inds 0%nat = S (nth 1 inds 0%nat)).
    { apply (ONE 1%nat (step_pair (1, 0)%Z (0, 0)%Z)); [lia | apply pair_connected; [apply step_linked_1 | discriminate] | reflexivity|].
      intros U CU LU. destruct U as [|u [|v [|z U]]]; cbn in LU; try lia. apply pairs_congruent; [apply pair_linked; exact CU | apply step_linked_1]. }
    rewrite E1. replace (S (nth 1 inds 0) - nth 1 inds 0)%nat with 1%nat by lia. cbn [rsum]. rewrite Nat.add_0_r.
    destruct (HI 1%nat ltac:(lia)) as (_ & H0). destruct (H0 (nth 1 inds 0%nat) ltac:(lia)) as (C & LC).
    pose proof (ORI (nth 1 inds 0%nat) (BD 1%nat (nth 1 inds 0%nat) ltac:(lia) ltac:(lia))) as OO. unfold small. rewrite LC.
    destruct (nth (nth 1 inds 0%nat) L []) as [|u [|v [|z U]]]; cbn in LC; try lia.
    rewrite (orientations_unique _ _ _ _ OO (two_orientations u v (pair_linked u v C))). cbn. ring. }
  assert (OK : forall k, (2 <= k < n)%nat -> nth k orders 0 = 0).
  { intros k Hk. apply (Rmult_eq_reg_r (INR nsites)); [|exact NP]. rewrite HO by lia. rewrite Rmult_0_l.
    apply rsum_zero. intros j Hj.
    destruct (HI k ltac:(lia)) as (_ & H0). destruct (H0 (nth k inds 0 + j)%nat ltac:(lia)) as (_ & LC). unfold small. rewrite LC.
    destruct k as [|[|k]]; [lia | lia | ring]. }
  split; [exact O0|]. split; [exact O1|]. split; [exact OK|].
  destruct (expansion_of_clusters n vals nsites cl ms M inds Hn Hs EC LV) as (tot' & orders' & w' & L' & count & EN' & _ & _ & _ & _ & OT).
  rewrite EN in EN'. injection EN' as <- <- <-.
  assert (Z : forall l : list R, (forall k, (k < length l)%nat -> nth k l 0 = 0) -> fold_right Rplus 0 l = 0).
  { induction l as [|x l IH]; intros H; [reflexivity|]. cbn. rewrite IH; [|intros k Hk; apply (H (S k)); cbn; lia]. pose proof (H 0%nat ltac:(cbn; lia)) as X. cbn in X. rewrite X. ring. }
  split.
  - intros ->. destruct orders as [|o [|o' orders]]; cbn in LO; try lia. cbn in OT, O0. rewrite <- OT, <- O0. ring.
  - intros H2. specialize (O1 H2). destruct orders as [|o [|o' orders]]; cbn in LO; try lia. cbn in O0, O1. cbn in OT. rewrite (Z orders) in OT.
    + rewrite <- OT, <- O0, <- O1. ring.
    + intros k Hk. apply (OK (S (S k))). cbn in LO. lia.
Qed.

(** Symmetries of rectangular lattices: proofs about sites. *)
From Coq Require Import List Arith Lia ZArith QArith Qabs Bool Permutation.
From Verif Require Import Res Matrix ModelGeometry ModelPhase SpecGeometry GeoSquare SpecSites ModelSites SpecPerm SiteProofs SpecSpace.
Import ListNotations.
Local Open Scope Z_scope.

Definition congr (nx ny : Z) (v w : Z * Z) : Prop := (fst v - fst w) mod nx = 0 /\ (snd v - snd w) mod ny = 0.
Lemma mod0 n x : 1 <= n -> (x mod n = 0 <-> exists k, x = k * n).
Proof. intros Hn. rewrite Z.mod_divide by lia. reflexivity. Qed.
Lemma mod_same n x y : 1 <= n -> (x - y) mod n = 0 -> x mod n = y mod n.
Proof. intros Hn H. apply mod0 in H; [|exact Hn]. destruct H as [k H]. replace x with (y + k * n) by lia. apply Z_mod_plus_full. Qed.
Lemma mod_diff n x : 1 <= n -> (x mod n - x) mod n = 0.
Proof. intros Hn. apply mod0; [exact Hn|]. exists (- (x / n)). pose proof (Z_div_mod_eq_full x n). lia. Qed.

Section Maps.
  Variables (nx ny : Z) (o1 o2 : bool) (M : motion).
  Hypothesis X1 : 1 <= nx. Hypothesis Y1 : 1 <= ny.
  Hypothesis KP : keeps nx ny o1 o2 M.
  Notation n := (Z.to_nat (nx * ny)).
  Definition at_site (k : nat) : Z * Z := (site_x ny k, site_y ny k).
  Definition image (k : nat) : nat := spot_at nx ny (move_z M (at_site k)).

  Lemma spot_lt v : (spot_at nx ny v < n)%nat.
  Proof using X1 Y1. clear - X1 Y1. unfold spot_at. pose proof (Z.mod_pos_bound (fst v) nx ltac:(lia)). pose proof (Z.mod_pos_bound (snd v) ny ltac:(lia)). apply Z2Nat.inj_lt; nia. Qed.
  Lemma at_spot v : at_site (spot_at nx ny v) = (fst v mod nx, snd v mod ny).
  Proof using X1 Y1.
    clear - X1 Y1. unfold at_site, spot_at, site_x, site_y. pose proof (Z.mod_pos_bound (fst v) nx ltac:(lia)). pose proof (Z.mod_pos_bound (snd v) ny ltac:(lia)).
    rewrite Z2Nat.id by nia. f_equal.
    - symmetry. apply (Z.div_unique _ _ _ (snd v mod ny)); lia.
    - symmetry. apply (Z.mod_unique _ _ (fst v mod nx)); lia.
  Qed.
  Lemma spot_site k : (k < n)%nat -> spot_at nx ny (at_site k) = k.
  Proof using X1 Y1.
    clear - X1 Y1. intros Hk. unfold spot_at, at_site. cbn [fst snd]. pose proof (site_x_range nx ny k Y1 Hk). pose proof (site_y_range ny k Y1).
    rewrite !Z.mod_small by assumption. unfold site_x, site_y. pose proof (Z_div_mod_eq_full (Z.of_nat k) ny). nia.
  Qed.
  Lemma spot_congr v w : congr nx ny v w -> spot_at nx ny v = spot_at nx ny w.
  Proof using X1 Y1. clear - X1 Y1. intros [A B]. unfold spot_at. rewrite (mod_same nx _ _ X1 A), (mod_same ny _ _ Y1 B). reflexivity. Qed.
  Lemma move_congr v w : congr nx ny v w -> congr nx ny (move_z M v) (move_z M w).
  Proof using X1 Y1 KP.
    intros [A B]. apply mod0 in A, B; try assumption. destruct A as [p A], B as [q B]. destruct KP as [SW _].
    unfold congr, move_z, turned. destruct (m_swap M); cbn [fst snd].
    - destruct (SW eq_refl) as [E _]. split; apply mod0; try assumption; unfold signed_z.
      + exists (if m_sx M then - q else q). destruct (m_sx M); rewrite ?E; lia.
      + exists (if m_sy M then - p else p). destruct (m_sy M); rewrite <- ?E; lia.
    - split; apply mod0; try assumption; unfold signed_z.
      + exists (if m_sx M then - p else p). destruct (m_sx M); lia.
      + exists (if m_sy M then - q else q). destruct (m_sy M); lia.
  Qed.
  Lemma at_spot_congr v : congr nx ny (at_site (spot_at nx ny v)) v.
  Proof using X1 Y1. clear - X1 Y1. rewrite at_spot. split; cbn [fst snd]; apply mod_diff; assumption. Qed.
  Lemma image_lt k : (image k < n)%nat.
  Proof using X1 Y1. clear - X1 Y1. apply spot_lt. Qed.
  Lemma image_spot v : image (spot_at nx ny v) = spot_at nx ny (move_z M v).
  Proof using X1 Y1 KP. apply spot_congr, move_congr, at_spot_congr. Qed.
  Lemma image_iter j v : iter image j (spot_at nx ny v) = spot_at nx ny (iter (move_z M) j v).
  Proof using X1 Y1 KP. induction j as [|j IH]; [reflexivity|]. cbn [iter]. rewrite IH. apply image_spot. Qed.

  (** The sites along an open axis are taken to sites. *)
  Lemma open_x k : (k < n)%nat -> o1 = true -> 0 <= fst (move_z M (at_site k)) < nx.
  Proof using X1 Y1 KP.
    intros Hk O. pose proof (site_x_range nx ny k Y1 Hk). pose proof (site_y_range ny k Y1). destruct KP as (SW & A & _). specialize (A O).
    unfold move_z, turned, at_site. cbn [fst snd]. destruct (m_swap M); cbn [fst snd]; [destruct (SW eq_refl) as [E _]|]; rewrite A; unfold signed_z; destruct (m_sx M); lia.
  Qed.
  Lemma open_y k : (k < n)%nat -> o2 = true -> 0 <= snd (move_z M (at_site k)) < ny.
  Proof using X1 Y1 KP.
    intros Hk O. pose proof (site_x_range nx ny k Y1 Hk). pose proof (site_y_range ny k Y1). destruct KP as (SW & _ & B). specialize (B O).
    unfold move_z, turned, at_site. cbn [fst snd]. destruct (m_swap M); cbn [fst snd]; [destruct (SW eq_refl) as [E _]|]; rewrite B; unfold signed_z; destruct (m_sy M); lia.
  Qed.

  (** ** Order *)
  Hypothesis X3 : nx = 1 -> o1 = true. Hypothesis Y3 : ny = 1 -> o2 = true.
  Hypothesis two : 2 <= nx * ny.
  Lemma iter_mul {A} (g : A -> A) p q x : iter g (p * q) x = iter (iter g q) p x.
  Proof using. clear. induction p as [|p IH]; [reflexivity|]. cbn [Nat.mul iter]. rewrite iter_add, IH. reflexivity. Qed.
  Lemma iter_ext {A} (g h : A -> A) k x : (forall y, g y = h y) -> iter g k x = iter h k x.
  Proof using. clear. intros H. induction k as [|k IH]; [reflexivity|]. cbn [iter]. rewrite IH. apply H. Qed.
  Lemma iter_shift c d k v : iter (fun v : Z * Z => (fst v + c, snd v + d)) k v = (fst v + Z.of_nat k * c, snd v + Z.of_nat k * d).
  Proof using. clear. induction k as [|k IH]; [cbn; destruct v; cbn; f_equal; lia|]. cbn [iter]. rewrite IH. cbn [fst snd]. f_equal; lia. Qed.
  Lemma order_z : exists k, (1 <= k <= n)%nat /\ forall v, congr nx ny (iter (move_z M) k v) v.
  Proof using All.
    destruct KP as (SW & KA & KB). unfold keeps in *.
    assert (NN : Z.of_nat n = nx * ny) by (apply Z2Nat.id; nia).
    assert (Z0 : forall m x, x = 0 -> x mod m = 0) by (intros; subst; apply Zmod_0_l).
    assert (ML : forall m k x, 1 <= m -> x = k * m -> x mod m = 0) by (intros m k x Hm ->; apply Z_mod_mult).
    destruct M as [sw sx sy a b]. unfold move_z, turned, signed_z in *. cbn [m_swap m_sx m_sy m_a m_b] in *.
    destruct sw.
    - destruct (SW eq_refl) as [E EO].
      assert (N2 : 2 <= nx) by nia.
      destruct sx, sy; cbn [fst snd].
      + exists (Z.to_nat nx * 2)%nat. split; [nia|]. intros v. rewrite iter_mul.
        rewrite (iter_ext _ (fun v : Z * Z => (fst v + (a - b), snd v + (b - a)))) by (intros y; cbn [iter fst snd]; f_equal; lia).
        rewrite iter_shift. split; cbn [fst snd]; [apply (ML _ (a - b)) | apply (ML _ (b - a))]; try lia; rewrite Z2Nat.id by lia; try rewrite <- E; lia.
      + exists 4%nat. split; [nia|]. intros v. cbn [iter fst snd]. split; cbn [fst snd]; apply Z0; lia.
      + exists 4%nat. split; [nia|]. intros v. cbn [iter fst snd]. split; cbn [fst snd]; apply Z0; lia.
      + exists (Z.to_nat nx * 2)%nat. split; [nia|]. intros v. rewrite iter_mul.
        rewrite (iter_ext _ (fun v : Z * Z => (fst v + (a + b), snd v + (a + b)))) by (intros y; cbn [iter fst snd]; f_equal; lia).
        rewrite iter_shift. split; cbn [fst snd]; apply (ML _ (a + b)); try lia; rewrite Z2Nat.id by lia; try rewrite <- E; lia.
    - destruct sx, sy; cbn [fst snd].
      + exists 2%nat. split; [lia|]. intros v. cbn [iter fst snd]. split; cbn [fst snd]; apply Z0; lia.
      + destruct (Z.eq_dec nx 1) as [E|NE].
        * exists (Z.to_nat ny). split; [nia|]. intros v. split; [rewrite E; apply Z.mod_1_r|].
          assert (G : forall k, snd (iter (fun v : Z * Z => (- fst v + a, snd v + b)) k v) = snd v + Z.of_nat k * b).
          { induction k as [|k IH]; [cbn; lia|]. cbn [iter snd]. rewrite IH. lia. }
          rewrite G. apply (ML _ b); [exact Y1|]. rewrite Z2Nat.id by lia. lia.
        * exists (Z.to_nat ny * 2)%nat. split; [nia|]. intros v. rewrite iter_mul.
          rewrite (iter_ext _ (fun v : Z * Z => (fst v + 0, snd v + 2 * b))) by (intros y; cbn [iter fst snd]; f_equal; lia).
          rewrite iter_shift. split; cbn [fst snd]; [apply Z0; lia | apply (ML _ (2 * b)); try lia; rewrite Z2Nat.id by lia; lia].
      + destruct (Z.eq_dec ny 1) as [E|NE].
        * exists (Z.to_nat nx). split; [nia|]. intros v. split; [|rewrite E; apply Z.mod_1_r].
          assert (G : forall k, fst (iter (fun v : Z * Z => (fst v + a, - snd v + b)) k v) = fst v + Z.of_nat k * a).
          { induction k as [|k IH]; [cbn; lia|]. cbn [iter fst]. rewrite IH. lia. }
          rewrite G. apply (ML _ a); [exact X1|]. rewrite Z2Nat.id by lia. lia.
        * exists (Z.to_nat nx * 2)%nat. split; [nia|]. intros v. rewrite iter_mul.
          rewrite (iter_ext _ (fun v : Z * Z => (fst v + 2 * a, snd v + 0))) by (intros y; cbn [iter fst snd]; f_equal; lia).
          rewrite iter_shift. split; cbn [fst snd]; [apply (ML _ (2 * a)); try lia; rewrite Z2Nat.id by lia; lia | apply Z0; lia].
      + exists n. split; [lia|]. intros v. rewrite iter_shift. split; cbn [fst snd]; rewrite NN; [apply (ML _ (ny * a)) | apply (ML _ (nx * b))]; lia.
  Qed.
  Lemma image_order : exists k, (1 <= k <= n)%nat /\ forall i, (i < n)%nat -> iter image k i = i.
  Proof using All.
    destruct order_z as (k & R & C). exists k. split; [exact R|]. intros i Hi. rewrite <- (spot_site i Hi) at 1. rewrite image_iter.
    rewrite (spot_congr _ _ (C (at_site i))). apply spot_site, Hi.
  Qed.

  (** ** Neighbours *)
  Lemma step_cases (o : bool) (m d d' : Z) : 1 <= m -> (if o then d' = d \/ d' = - d else (d' - d) mod m = 0 \/ (d' + d) mod m = 0) -> (one_step o m d' <-> one_step o m d).
  Proof using.
    clear. intros Hm H. unfold one_step. destruct o; [lia|]. rewrite !mod0 by exact Hm. rewrite !mod0 in H by exact Hm.
    destruct H as [[k H]|[k H]]; split; intros [[j J]|[j J]].
    - left. exists (j - k). lia.
    - right. exists (j - k). lia.
    - left. exists (j + k). lia.
    - right. exists (j + k). lia.
    - right. exists (k - j). lia.
    - left. exists (k - j). lia.
    - right. exists (k - j). lia.
    - left. exists (k - j). lia.
  Qed.
  Definition stepping (i j : nat) : Prop :=
    (one_step o1 nx (site_x ny i - site_x ny j) /\ site_y ny i = site_y ny j) \/
    (site_x ny i = site_x ny j /\ one_step o2 ny (site_y ny i - site_y ny j)).
  Lemma image_x k : (k < n)%nat -> site_x ny (image k) = fst (move_z M (at_site k)) mod nx /\ (o1 = true -> site_x ny (image k) = fst (move_z M (at_site k))).
  Proof using X1 Y1 KP.
    clear X3 Y3 two. intros Hk. pose proof (at_spot (move_z M (at_site k))) as E. unfold at_site in E at 1. injection E as E1 E2. unfold image. split; [exact E1|].
    intros O. rewrite E1. apply Z.mod_small, open_x; assumption.
  Qed.
  Lemma image_y k : (k < n)%nat -> site_y ny (image k) = snd (move_z M (at_site k)) mod ny /\ (o2 = true -> site_y ny (image k) = snd (move_z M (at_site k))).
  Proof using X1 Y1 KP.
    clear X3 Y3 two. intros Hk. pose proof (at_spot (move_z M (at_site k))) as E. unfold at_site in E at 1. injection E as E1 E2. unfold image. split; [exact E2|].
    intros O. rewrite E2. apply Z.mod_small, open_y; assumption.
  Qed.

  Definition rel (o : bool) (m d' d : Z) : Prop := if o then d' = d \/ d' = - d else (d' - d) mod m = 0 \/ (d' + d) mod m = 0.
  Lemma rel_zero o m d' d : 1 <= m -> rel o m d' d -> - m < d < m -> - m < d' < m -> (d' = 0 <-> d = 0).
  Proof using.
    clear. intros Hm H A B. unfold rel in H. destruct o; [lia|]. rewrite !mod0 in H by exact Hm. destruct H as [[k H]|[k H]]; split; intros E; subst.
    - assert (k = 0) by nia. lia.
    - assert (k = 0) by nia. lia.
    - assert (k = 0) by nia. lia.
    - assert (k = 0) by nia. lia.
  Qed.
  Lemma rel_sign (o : bool) m (neg : bool) c X X' x x' : 1 <= m ->
    (o = true -> X = signed_z neg x + c /\ X' = signed_z neg x' + c) ->
    X = (signed_z neg x + c) mod m -> X' = (signed_z neg x' + c) mod m -> rel o m (X - X') (x - x').
  Proof using.
    clear. intros Hm A B C. unfold rel. destruct o.
    - destruct (A eq_refl) as [-> ->]. unfold signed_z. destruct neg; lia.
    - clear A. rewrite !mod0 by exact Hm. subst X X'. unfold signed_z.
      pose proof (Z_div_mod_eq_full ((if neg then - x else x) + c) m). pose proof (Z_div_mod_eq_full ((if neg then - x' else x') + c) m).
      destruct neg; [right | left].
      + exists ((- x' + c) / m - (- x + c) / m). lia.
      + exists ((x' + c) / m - (x + c) / m). lia.
  Qed.
  Lemma image_rel i j : (i < n)%nat -> (j < n)%nat ->
    (m_swap M = false -> rel o1 nx (site_x ny (image i) - site_x ny (image j)) (site_x ny i - site_x ny j) /\
       rel o2 ny (site_y ny (image i) - site_y ny (image j)) (site_y ny i - site_y ny j)) /\
    (m_swap M = true -> rel o1 nx (site_x ny (image i) - site_x ny (image j)) (site_y ny i - site_y ny j) /\
       rel o2 ny (site_y ny (image i) - site_y ny (image j)) (site_x ny i - site_x ny j)).
  Proof using X1 Y1 KP.
    clear X3 Y3 two. intros Hi Hj. destruct (image_x i Hi) as [A1 A2], (image_x j Hj) as [B1 B2], (image_y i Hi) as [C1 C2], (image_y j Hj) as [D1 D2].
    unfold move_z, turned, at_site in *.
    split; intros SW; rewrite SW in *; cbn [fst snd] in *; (split; [apply (rel_sign o1 nx (m_sx M) (m_a M)) | apply (rel_sign o2 ny (m_sy M) (m_b M))]); auto.
  Qed.
  Lemma image_steps i j : (i < n)%nat -> (j < n)%nat -> (stepping (image i) (image j) <-> stepping i j).
  Proof using X1 Y1 KP.
    clear X3 Y3 two. intros Hi Hj. destruct (image_rel i j Hi Hj) as [NS SW]. unfold stepping.
    assert (E : forall a b, a = b <-> a - b = 0) by (intros; lia).
    pose proof (site_x_range nx ny i Y1 Hi). pose proof (site_x_range nx ny j Y1 Hj). pose proof (site_y_range ny i Y1). pose proof (site_y_range ny j Y1).
    pose proof (site_x_range nx ny _ Y1 (image_lt i)). pose proof (site_x_range nx ny _ Y1 (image_lt j)).
    pose proof (site_y_range ny (image i) Y1). pose proof (site_y_range ny (image j) Y1).
    rewrite !(E (site_x _ _)), !(E (site_y _ _)).
    destruct (m_swap M) eqn:S.
    - destruct (SW eq_refl) as [RX RY]. destruct KP as [KS _]. destruct (KS S) as [EN EO]. rewrite EN in RX at 1. rewrite EN. rewrite EO in *.
      rewrite (step_cases _ _ _ _ Y1 RX), (step_cases _ _ _ _ Y1 RY).
      rewrite (rel_zero _ _ _ _ Y1 RX ltac:(lia) ltac:(lia)), (rel_zero _ _ _ _ Y1 RY ltac:(lia) ltac:(lia)). tauto.
    - destruct (NS eq_refl) as [RX RY].
      rewrite (step_cases _ _ _ _ X1 RX), (step_cases _ _ _ _ Y1 RY).
      rewrite (rel_zero _ _ _ _ X1 RX ltac:(lia) ltac:(lia)), (rel_zero _ _ _ _ Y1 RY ltac:(lia) ltac:(lia)). tauto.
  Qed.
End Maps.

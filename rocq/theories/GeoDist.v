(** Reduced distances; neighbours on rectangular clusters. *)
From Coq Require Import List Arith Lia QArith Qround Qabs ZArith Bool Lqa Setoid Morphisms Sorting Psatz.
From Verif Require Import Res Matrix ModelGeometry SpecGeometry GeoArith GeoReduce GeoSites GeoSites2.
Import ListNotations.
Local Open Scope Q_scope.
Arguments Qred : simpl never.
Arguments root_rounds_to_0 : simpl never.
Arguments round14 : simpl never.

Definition at_ (l : list Q) (i : nat) : Q := nth i l 0.

Lemma get_loc_ok l i : (i < length l)%nat -> get_loc l i = Ok (at_ l i).
Proof.
  intros H. unfold get_loc, at_. destruct (nth_error l i) eqn:E.
  - f_equal. symmetry. apply nth_error_nth. assumption.
  - apply nth_error_None in E. lia.
Qed.

Definition diff (xs ys : list Q) (i j : nat) : point := (at_ xs i - at_ xs j, at_ ys i - at_ ys j).

Section D.
  Variables (v1 v2 : vec) (basis : list vec) (p1 p2 : vec) (ph1 ph2 : Q) (L : lattice).
  Hypothesis HL : new_lattice v1 v2 basis p1 p2 ph1 ph2 = Ok L.
  Hypothesis Z1 : is_zero p1 \/ long p1.
  Hypothesis Z2 : is_zero p2 \/ long p2.

  Let pair_value (v : vec) : vec * Z * Z :=
    let r := red Centered p1 p2 v in (r, cell Centered (coord1 v1 v2 r), cell Centered (coord2 v1 v2 r)).

  Lemma gens : generators v1 v2 /\ generators p1 p2.
  Proof.
    destruct (new_lattice_inv _ _ _ _ _ _ _ _ HL) as (_ & _ & G & H & _). split; [assumption|].
    split; [assumption|split; assumption].
  Qed.

  Lemma pair_ok v : reduced_pair L v = Ok (pair_value v).
  Proof.
    destruct gens as [Gv Gp]. destruct (new_lattice_inv _ _ _ _ _ _ _ _ HL) as (_ & _ & _ & _ & rs & _ & ->).
    unfold reduced_pair. cbn [lt_p1 lt_p2 lt_v1 lt_v2].
    rewrite (reduce_value p1 p2 Centered v Gp) by discriminate. cbn [bind fst snd].
    fold (red Centered p1 p2 v). rewrite (reduce_value v1 v2 Centered _ Gv) by discriminate. reflexivity.
  Qed.

  Lemma tri_ok (f : nat -> nat -> vec * Z * Z) n i j : (j < i)%nat -> (i < n)%nat ->
    tri (map (fun i => map (f i) (seq 0 i)) (seq 0 n)) i j = f i j.
  Proof.
    intros H1 H2. unfold tri.
    rewrite (nth_indep _ [] (map (f 0%nat) (seq 0 0))) by (rewrite map_length, seq_length; assumption).
    rewrite (map_nth (fun i => map (f i) (seq 0 i))), seq_nth by assumption. cbn [Nat.add].
    rewrite (nth_indep _ _ (f i 0%nat)) by (rewrite map_length, seq_length; assumption).
    rewrite (map_nth (f i)), seq_nth by assumption. reflexivity.
  Qed.

  (** The four matrices. *)
  Lemma reduced_distance_ok xs ys : length ys = length xs ->
    exists d, reduced_distance L xs ys = Ok d /\
      forall i j, (i < length xs)%nat -> (j < length xs)%nat ->
        let lo := pair_value (diff xs ys i j) in
        let hi := pair_value (diff xs ys j i) in
        d_x d i j = (if (j <? i)%nat then fst (fst (fst lo)) else if (i <? j)%nat then - fst (fst (fst hi)) else 0) /\
        d_y d i j = (if (j <? i)%nat then snd (fst (fst lo)) else if (i <? j)%nat then - snd (fst (fst hi)) else 0) /\
        d_n1 d i j = (if (j <? i)%nat then snd (fst lo) else if (i <? j)%nat then - snd (fst hi) else 0)%Z /\
        d_n2 d i j = (if (j <? i)%nat then snd lo else if (i <? j)%nat then - - snd hi else 0)%Z.
  Proof.
    intros Hlen. unfold reduced_distance.
    rewrite (rmap_total _ (fun i => map (fun j => pair_value (diff xs ys i j)) (seq 0 i))).
    - cbn [bind]. eexists. split; [reflexivity|]. intros i j Hi Hj. cbv zeta.
      cbn [d_x d_y d_n1 d_n2]. unfold from_lower.
      destruct (Nat.ltb_spec j i) as [A|A]; [|destruct (Nat.ltb_spec i j) as [B|B]]; rewrite ?tri_ok by assumption; auto.
    - intros i Hi. apply in_seq in Hi. apply rmap_total. intros j Hj. apply in_seq in Hj.
      rewrite !get_loc_ok by lia. cbn [bind]. apply pair_ok.
  Qed.

  Lemma equiv_opp v w : equivalent p1 p2 v w -> equivalent p1 p2 (- fst v, - snd v) (- fst w, - snd w).
  Proof.
    intros (k & l & A & B). exists (- k)%Z, (- l)%Z. rewrite !inject_Z_opp. unfold moved in *. cbn [fst snd] in *.
    split; cbn [fst snd]; rewrite A || rewrite B; ring.
  Qed.

  Lemma coords_opp v a b : coordinates p1 p2 v a b -> coordinates p1 p2 (- fst v, - snd v) (- a) (- b).
  Proof.
    intros (A & B & C & D & E). unfold coordinates, dot, same_point, moved in *. cbn [fst snd] in *.
    repeat match goal with |- _ /\ _ => split end; intros.
    - rewrite A by assumption. ring.
    - rewrite B by assumption. ring.
    - destruct (C H H0) as [F G]. split; rewrite F || rewrite G; ring.
    - setoid_replace (- a * sq_norm p1) with (- (a * sq_norm p1)) by ring. rewrite D by assumption. ring.
    - setoid_replace (- b * sq_norm p2) with (- (b * sq_norm p2)) by ring. rewrite E by assumption. ring.
  Qed.

  Lemma red_centered v a b : coordinates p1 p2 (red Centered p1 p2 v) a b ->
    Qabs a <= (1 # 2) + half_unit /\ Qabs b <= (1 # 2) + half_unit.
  Proof.
    intros H. destruct gens as [_ Gp].
    destruct (reduce_ok p1 p2 Centered v Gp ltac:(discriminate)) as (r & n1 & n2 & E & _ & _ & _ & _ & B & _).
    rewrite (reduce_value p1 p2 Centered v Gp) in E by discriminate. injection E as E _ _. fold (red Centered p1 p2 v) in E.
    rewrite <- E in B. destruct (B a b H) as [[B1 B2] [B3 B4]]. cbn [low] in *.
    split; apply Qabs_Qle_condition; unfold half_unit in *; lra.
  Qed.

  Lemma distances xs ys : length ys = length xs ->
    exists d, reduced_distance L xs ys = Ok d /\
      forall i j, (i < length xs)%nat -> (j < length xs)%nat ->
        d_x d i j == - d_x d j i /\ d_y d i j == - d_y d j i /\
        d_n1 d i j = (- d_n1 d j i)%Z /\
        equivalent p1 p2 (diff xs ys i j) (d_x d i j, d_y d i j) /\
        (forall a b, coordinates p1 p2 (d_x d i j, d_y d i j) a b ->
           Qabs a <= (1 # 2) + half_unit /\ Qabs b <= (1 # 2) + half_unit).
  Proof.
    intros Hlen. destruct (reduced_distance_ok xs ys Hlen) as (d & E & H). exists d. split; [assumption|].
    intros i j Hi Hj. destruct (H i j Hi Hj) as (A1 & A2 & A3 & _). destruct (H j i Hj Hi) as (B1 & B2 & B3 & _).
    rewrite A1, A2, A3, B1, B2, B3. clear H A1 A2 A3 B1 B2 B3. unfold pair_value. cbn [fst snd].
    destruct (Nat.ltb_spec j i) as [A|A]; [|destruct (Nat.ltb_spec i j) as [B|B]].
    - rewrite (proj2 (Nat.ltb_ge i j)) by lia.
      split; [ring|]. split; [ring|]. split; [lia|]. split.
      + destruct (red Centered p1 p2 (diff xs ys i j)) eqn:F. cbn [fst snd]. rewrite <- F. apply red_equiv.
      + intros a b. rewrite <- surjective_pairing. apply red_centered.
    - split; [reflexivity|]. split; [reflexivity|]. split; [reflexivity|]. split.
      + apply (equiv_trans _ _ _ (- fst (diff xs ys j i), - snd (diff xs ys j i))).
        * apply equiv_same. unfold diff. split; cbn [fst snd]; ring.
        * apply equiv_opp, red_equiv.
      + intros a b Hc. apply coords_opp in Hc. cbn [fst snd] in Hc.
        assert (Hc' : coordinates p1 p2 (red Centered p1 p2 (diff xs ys j i)) (- a) (- b)).
        { destruct Hc as (C1 & C2 & C3 & C4 & C5). set (r := red Centered p1 p2 (diff xs ys j i)) in *.
          unfold coordinates, same_point, dot in *. cbn [fst snd] in *.
          repeat match goal with |- _ /\ _ => split end; intros; auto.
          - destruct (C3 H H0) as [F G]. rewrite <- F, <- G. split; ring.
          - rewrite C4 by assumption. ring.
          - rewrite C5 by assumption. ring. }
        apply red_centered in Hc'. rewrite !Qabs_opp in Hc'. assumption.
    - assert (i = j) by lia. subst j. split; [reflexivity|]. split; [reflexivity|]. split; [reflexivity|]. split.
      + apply equiv_same. unfold diff. split; cbn [fst snd]; ring.
      + intros a b Hc. destruct gens as [_ Gp].
        assert (C0 : coordinates p1 p2 (0, 0) 0 0).
        { unfold coordinates, same_point, moved, dot. cbn [fst snd].
          repeat match goal with |- _ /\ _ => split end; intros; try split; ring. }
        destruct (coords_unique p1 p2 (0, 0) _ _ _ _ Gp Hc C0) as [F G]. rewrite F, G. split; discriminate.
  Qed.
  (** The last two matrices count lattice vectors in the reduced distance
      (below the diagonal; the remainder is the part within one cell). *)
  Lemma distance_counts xs ys : length ys = length xs ->
    exists d, reduced_distance L xs ys = Ok d /\
      forall i j, (j < i)%nat -> (i < length xs)%nat ->
        exists r, same_point (d_x d i j, d_y d i j) (moved r (inject_Z (d_n1 d i j)) v1 (inject_Z (d_n2 d i j)) v2) /\
          (forall a b, coordinates v1 v2 r a b -> Qabs a <= (1 # 2) + half_unit /\ Qabs b <= (1 # 2) + half_unit).
  Proof.
    intros Ly. destruct gens as [Gv Gp].
    destruct (reduced_distance_ok xs ys Ly) as (d & Hd & H). exists d. split; [assumption|].
    intros i j Hij Hi. destruct (H i j Hi ltac:(lia)) as (A & B & C & D). cbv zeta in A, B, C, D.
    rewrite (proj2 (Nat.ltb_lt j i) Hij) in A, B, C, D. rewrite A, B, C, D. unfold pair_value. cbn [fst snd].
    set (v := red Centered p1 p2 (diff xs ys i j)).
    destruct (reduce_ok v1 v2 Centered v Gv ltac:(discriminate)) as (r & n1 & n2 & E & S & _ & _ & _ & G & _).
    rewrite (reduce_value v1 v2 Centered v Gv) in E by discriminate.
    assert (E1 : cell Centered (coord1 v1 v2 v) = n1) by congruence. assert (E2 : cell Centered (coord2 v1 v2 v) = n2) by congruence.
    rewrite E1, E2. exists r. rewrite <- surjective_pairing. split; [exact S|].
    intros a b Hab. destruct (G a b Hab) as [[G1 G2] [G3 G4]]. cbn [low] in *. unfold half_unit in *. split; apply Qabs_Qle_condition; lra.
  Qed.
End D.

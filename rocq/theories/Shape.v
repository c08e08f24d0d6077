(** Vectors of any shape. *)
From Coq Require Import List Arith Lia QArith.
From Verif Require Import Res ModelGeometry ModelShape SpecShape.
Import ListNotations.

Lemma list_ext {A} (l m : list A) : length l = length m -> (forall i, (i < length m)%nat -> nth_error l i = nth_error m i) -> l = m.
Proof.
  revert m. induction l as [|x l IH]; intros [|y m] L X; cbn in L; try discriminate; [reflexivity|]. pose proof (X 0%nat ltac:(cbn; lia)) as X0. injection X0 as ->. f_equal. apply IH; [lia|]. intros i Hi. apply (X (S i)). cbn. lia.
Qed.
Lemma shows_data {A} (v : list A) a : shows v a -> nd_data a = v.
Proof.
  destruct a as (sh, d). intros [(W & S & X)|[(W & S & X)|(W & S & X)]]; unfold well_formed in W; unfold element in X; cbn [nd_shape nd_data] in *; subst sh; cbn [volume place_of] in *.
  - apply list_ext; [lia|]. intros i Hi. rewrite <- (X i Hi). f_equal. lia.
  - apply list_ext; [lia|]. intros i Hi. rewrite <- (X i Hi). f_equal. lia.
  - apply list_ext; [lia|]. intros i Hi. rewrite <- (X i Hi). f_equal. lia.
Qed.
Lemma data_flat {A} (v : list A) : flat v (Nd [length v] v).
Proof. split; [unfold well_formed; cbn; lia|]. split; [reflexivity|]. intros i Hi. unfold element. cbn. f_equal. lia. Qed.
Lemma data_column {A} (v : list A) : column v (Nd [length v; 1%nat] v).
Proof. split; [unfold well_formed; cbn; lia|]. split; [reflexivity|]. intros i Hi. unfold element. cbn. f_equal. lia. Qed.
Lemma data_row {A} (v : list A) : row v (Nd [1%nat; length v] v).
Proof. split; [unfold well_formed; cbn; lia|]. split; [reflexivity|]. intros i Hi. unfold element. cbn. f_equal. lia. Qed.
Lemma made {A} (a : nd A) : ensure_1d_vect (Some a) = Ok (Some (Nd [nd_size a] (nd_data a))) /\ ensure_column_vect (Some a) = Ok (Some (Nd [nd_size a; 1%nat] (nd_data a))) /\ ensure_row_vect (Some a) = Ok (Some (Nd [1%nat; nd_size a] (nd_data a))).
Proof.
  unfold ensure_1d_vect, ensure_column_vect, ensure_row_vect, reshape. cbn [fold_right]. rewrite !Nat.mul_1_r, Nat.mul_1_l, Nat.eqb_refl. repeat split; reflexivity.
Qed.
Theorem shapes {A} (v : list A) a : shows v a ->
  (exists b, ensure_1d_vect (Some a) = Ok (Some b) /\ flat v b) /\ (exists b, ensure_column_vect (Some a) = Ok (Some b) /\ column v b) /\ (exists b, ensure_row_vect (Some a) = Ok (Some b) /\ row v b).
Proof.
  intros X. apply shows_data in X. destruct (made a) as (E1 & E2 & E3). unfold nd_size in *. rewrite X in *.
  split; [|split]; eexists; (split; [eassumption|]); [apply data_flat | apply data_column | apply data_row].
Qed.
Theorem one_result {A} (v : list A) a b : shows v a -> shows v b -> ensure_1d_vect (Some a) = ensure_1d_vect (Some b) /\ ensure_column_vect (Some a) = ensure_column_vect (Some b) /\ ensure_row_vect (Some a) = ensure_row_vect (Some b).
Proof.
  intros X Y. apply shows_data in X, Y. destruct (made a) as (E1 & E2 & E3), (made b) as (F1 & F2 & F3). unfold nd_size in *. rewrite X in *. rewrite Y in *. rewrite E1, E2, E3, F1, F2, F3. auto.
Qed.
Theorem matrices {A} (a : nd A) r c : well_formed a -> nd_shape a = [r; c] ->
  exists b, ensure_1d_vect (Some a) = Ok (Some b) /\ well_formed b /\ nd_shape b = [(r * c)%nat] /\ forall i j, (i < r)%nat -> (j < c)%nat -> element b [(c * i + j)%nat] = element a [i; j].
Proof.
  intros W S. destruct (made a) as (E1 & _). eexists. split; [exact E1|]. unfold well_formed in *. rewrite S in W. cbn [volume] in W. unfold nd_size. cbn [nd_shape nd_data volume]. split; [lia|]. split; [f_equal; lia|].
  intros i j Hi Hj. unfold element. rewrite S. cbn [nd_shape nd_data place_of volume]. f_equal. lia.
Qed.
Lemma pair_of x y a : shows [x; y] a -> column_pair (Some a) = Ok (x, y).
Proof.
  intros X. apply shows_data in X. destruct (made a) as (_ & E2 & _). unfold column_pair. rewrite E2. cbn [bind nd_shape nd_data]. unfold nd_size. rewrite X. reflexivity.
Qed.
Theorem lattice_shapes x1 y1 x2 y2 bs a1 a2 ab px1 py1 px2 py2 c1 c2 ph1 ph2 :
  shows [x1; y1] a1 -> shows [x2; y2] a2 -> Forall2 (fun (v : vec) (o : option (nd Q)) => exists a, o = Some a /\ shows [fst v; snd v] a) bs ab -> shows [px1; py1] c1 -> shows [px2; py2] c2 ->
  lattice_of_arrays (Some a1) (Some a2) ab (Some c1) (Some c2) ph1 ph2 = new_lattice (x1, y1) (x2, y2) bs (px1, py1) (px2, py2) ph1 ph2.
Proof.
  intros S1 S2 SB T1 T2. unfold lattice_of_arrays. rewrite (pair_of _ _ _ S1), (pair_of _ _ _ S2), (pair_of _ _ _ T1), (pair_of _ _ _ T2). cbn [bind].
  assert (RM : rmap column_pair ab = Ok bs).
  { clear - SB. induction SB as [|v o bs ab (a & -> & X) SB IH]; [reflexivity|]. cbn [rmap]. rewrite (pair_of _ _ _ X), IH. cbn [bind]. destruct v. reflexivity. }
  rewrite RM. cbn [bind]. unfold new_lattice. destruct (reciprocal_vects (x1, y1) (x2, y2)); reflexivity.
Qed.

Theorem none_stays (A : Type) : ensure_1d_vect (A:=A) None = Ok None /\ ensure_column_vect (A:=A) None = Ok None /\ ensure_row_vect (A:=A) None = Ok None /\
  forall v2 bs p1 p2 ph1 ph2, lattice_of_arrays None v2 bs p1 p2 ph1 ph2 = Raise AttributeError.
Proof. repeat split; reflexivity. Qed.

(** Configurations of two species: proofs. *)
From Coq Require Import List Arith Lia Reals Lra ZArith QArith Qabs Bool Permutation.
From Verif Require Import Scalars Res Matrix Sums SqMat SpecMat SpecFock OpsProofs FockProofs FermiOps ModelBase ModelFermions ModelSpins SpecSpins Digits SpinOps SpinAlg SpinSwap SpinJordan HamProofs FermiApi SpecPerm
  ModelGeometry ModelPhase ModelSymmetry SymBase ModelThermal SpecThermal ThermalBase ThermalFacts ThermalBasis Spectral Thermo SpecHeat SpecConvex Convex SpecSigns Signs SignsHeat SignsSpins SpecSectors Perron Sectors HopSigns SpecShells Shells SpecLieb.
Import ListNotations.
Local Open Scope nat_scope.
Arguments Nat.div : simpl never.
Arguments Nat.modulo : simpl never.
Arguments Nat.pow : simpl never.

Section Glue.
  Variable ns : nat.
  Notation B := (2 ^ ns).
  Notation nl := (ns * 2).
  Definition glue (x y : nat) : nat := x * B + y.
  Lemma B_pos : B <> 0. Proof using. apply Nat.pow_nonzero. discriminate. Qed.
  Lemma glue_lt x y : x < B -> y < B -> glue x y < 2 ^ nl.
  Proof using. intros Hx Hy. unfold glue. replace nl with (ns + ns) by lia. rewrite Nat.pow_add_r. nia. Qed.
  Lemma glue_hi x y : y < B -> glue x y / B = x.
  Proof using. intros Hy. unfold glue. rewrite Nat.div_add_l by exact B_pos. rewrite Nat.div_small by exact Hy. lia. Qed.
  Lemma glue_lo x y : y < B -> glue x y mod B = y.
  Proof using. intros Hy. unfold glue. rewrite Nat.add_comm, Nat.mod_add by exact B_pos. apply Nat.mod_small, Hy. Qed.
  Lemma glue_inj x y x' y' : y < B -> y' < B -> glue x y = glue x' y' -> x = x' /\ y = y'.
  Proof using. intros Hy Hy' Q. split; [rewrite <- (glue_hi x y Hy), Q; apply glue_hi, Hy' | rewrite <- (glue_lo x y Hy), Q; apply glue_lo, Hy']. Qed.
  Lemma glue_split a : a < 2 ^ nl -> a / B < B /\ a mod B < B /\ glue (a / B) (a mod B) = a.
  Proof using.
    intros Ha. split; [|split].
    - apply Nat.div_lt_upper_bound; [exact B_pos|]. rewrite <- Nat.pow_add_r. replace (ns + ns) with nl by lia. exact Ha.
    - apply Nat.mod_upper_bound, B_pos.
    - unfold glue. rewrite (Nat.div_mod a B B_pos) at 3. lia.
  Qed.
  Lemma digit_hi x y i : i < ns -> y < B -> digit 2 nl i (glue x y) = digit 2 ns i x.
  Proof using.
    intros Hi Hy. unfold digit. replace (nl - 1 - i) with (ns + (ns - 1 - i)) by lia. rewrite Nat.pow_add_r, <- Nat.div_div by (apply Nat.pow_nonzero; discriminate). rewrite glue_hi by exact Hy. reflexivity.
  Qed.
  Lemma digit_lo x y i : i < ns -> y < B -> digit 2 nl (ns + i) (glue x y) = digit 2 ns i y.
  Proof using.
    intros Hi Hy. unfold digit. replace (nl - 1 - (ns + i)) with (ns - 1 - i) by lia. rewrite <- (div_mod_pow 2 ltac:(discriminate) (glue x y) (ns - 1 - i) ns) by lia. rewrite glue_lo by exact Hy. reflexivity.
  Qed.
  Lemma glue_eqb x y x' y' : y < B -> y' < B -> (glue x y =? glue x' y') = (x =? x') && (y =? y').
  Proof using.
    intros Hy Hy'. destruct (Nat.eqb_spec x x') as [->|N1], (Nat.eqb_spec y y') as [->|N2]; cbn [andb]; [apply Nat.eqb_refl| | |]; apply Nat.eqb_neq; intros Q; apply glue_inj in Q as [Q1 Q2]; auto.
  Qed.
  Lemma agree_hi x y x' y' i j : i < ns -> j < ns -> y < B -> y' < B -> agree_off 2 nl [i; j] (glue x y) (glue x' y') = agree_off 2 ns [i; j] x x' && (y =? y').
  Proof using.
    intros Hi Hj Hy Hy'. apply bool_eq_iff. rewrite andb_true_iff, !agree_off_spec, Nat.eqb_eq. split.
    - intros W. split.
      + intros p Hp NI. rewrite <- (digit_hi x y p), <- (digit_hi x' y' p) by assumption. apply W; [lia | exact NI].
      + apply (digits_ext 2 ltac:(discriminate) ns); try assumption. intros p Hp. rewrite <- (digit_lo x y p), <- (digit_lo x' y' p) by assumption. apply W; [lia|]. intros [X|[X|[]]]; lia.
    - intros [W ->] p Hp NI. destruct (lt_dec p ns) as [L|L].
      + rewrite !digit_hi by assumption. apply W; assumption.
      + replace p with (ns + (p - ns)) by lia. rewrite !digit_lo by (assumption || lia). reflexivity.
  Qed.
  Lemma agree_lo x y x' y' i j : i < ns -> j < ns -> x < B -> x' < B -> y < B -> y' < B -> agree_off 2 nl [ns + i; ns + j] (glue x y) (glue x' y') = agree_off 2 ns [i; j] y y' && (x =? x').
  Proof using.
    intros Hi Hj Hx Hx' Hy Hy'. apply bool_eq_iff. rewrite andb_true_iff, !agree_off_spec, Nat.eqb_eq. split.
    - intros W. split.
      + intros p Hp NI. rewrite <- (digit_lo x y p), <- (digit_lo x' y' p) by assumption. apply W; [lia|]. intros [X|[X|[]]]; apply NI; cbn; lia.
      + apply (digits_ext 2 ltac:(discriminate) ns); try assumption. intros p Hp. rewrite <- (digit_hi x y p), <- (digit_hi x' y' p) by assumption. apply W; [lia|]. intros [X|[X|[]]]; lia.
    - intros [W ->] p Hp NI. destruct (lt_dec p ns) as [L|L].
      + rewrite !digit_hi by assumption. reflexivity.
      + replace p with (ns + (p - ns)) by lia. rewrite !digit_lo by (assumption || lia). apply W; [lia|]. intros [X|[X|[]]]; apply NI; cbn; lia.
  Qed.
  Lemma between_hi x y i j : i < ns -> j < ns -> y < B -> between nl i j (glue x y) = between ns i j x.
  Proof using. intros Hi Hj Hy. unfold between. f_equal. apply map_ext_in. intros p Hp. apply in_seq in Hp. apply digit_hi; [lia | exact Hy]. Qed.
  Lemma between_lo x y i j : i < ns -> j < ns -> y < B -> between nl (ns + i) (ns + j) (glue x y) = between ns i j y.
  Proof using.
    intros Hi Hj Hy. unfold between. f_equal. rewrite Nat.add_min_distr_l, Nat.add_max_distr_l.
    replace (ns + Nat.max i j - (ns + Nat.min i j) - 1) with (Nat.max i j - Nat.min i j - 1) by lia. replace (S (ns + Nat.min i j)) with (ns + S (Nat.min i j)) by lia.
    rewrite (map_ext_in (fun p => digit 2 ns p y) (fun p => digit 2 nl (ns + p) (glue x y))) by (intros p Hp; apply in_seq in Hp; symmetry; apply digit_lo; [lia | exact Hy]).
    rewrite <- (map_map (fun p => ns + p) (fun p => digit 2 nl p (glue x y))). f_equal. generalize (S (Nat.min i j)) as q. generalize (Nat.max i j - Nat.min i j - 1) as k. induction k as [|k IH]; intros q; [reflexivity|]. cbn [seq map]. f_equal. rewrite <- IH. f_equal. lia.
  Qed.
End Glue.

Local Open Scope R_scope.
(** Values of the operators. *)
Lemma Nn_val nl p a b : (p < nl)%nat -> (a < 2 ^ nl)%nat -> (b < 2 ^ nl)%nat -> Nn (K:=CR) nl p a b = kb (a =? b)%nat *c kb (digit 2 nl p a =? 1)%nat.
Proof.
  intros Hp Ha Hb. rewrite (n_entry nl p Hp a b Ha Hb). cbn [n_spec ent]. destruct (Nat.eqb_spec a b) as [<-|]; cbn [andb kb]; [|ring].
  rewrite <- (occ_digit nl a p Hp). destruct (occ nl a p); cbn; apply injective_projections; cbn; ring.
Qed.
Lemma NN_val nl p r a b : (p < nl)%nat -> (r < nl)%nat -> (a < 2 ^ nl)%nat -> (b < 2 ^ nl)%nat ->
  smul (N:=2 ^ nl) (Nn (K:=CR) nl p) (Nn nl r) a b = kb (a =? b)%nat *c (kb (digit 2 nl p a =? 1)%nat *c kb (digit 2 nl r a =? 1)%nat).
Proof.
  intros Hp Hr Ha Hb. unfold smul. rewrite (ksum_single _ a _ Ha).
  - rewrite !Nn_val by assumption. rewrite Nat.eqb_refl. cbn [kb]. ring.
  - intros c Hc NE. rewrite (Nn_val nl p a c) by assumption. rewrite (proj2 (Nat.eqb_neq a c)) by auto. cbn [kb]. ring.
Qed.

Section Two.
  Variables (g : fgeom CR) (ts : nat -> nat -> nat -> CR) (us : nat -> CR) (same : nat -> nat -> nat -> CR) (mus : nat -> CR) (pot : nat -> nat -> CR) (pr : mat CR).
  Definition pairsys : fermions CR := Ferm g 2 ts us same mus pot pr.
  Notation f := pairsys.
  Notation ns := (fg_nsites g).
  Notation B := (2 ^ ns)%nat.
  Notation gl x y := (glue ns x y).
  Notation h1 s := (HS2 (alone f s) (amplitude (alone f s))).

  Lemma pow1 : (2 ^ (ns * 1))%nat = B. Proof using. rewrite Nat.mul_1_r. reflexivity. Qed.
  Lemma hop_hi x y x' y' i j s : i <> j -> (i < ns)%nat -> (j < ns)%nat -> (x < B)%nat -> (y < B)%nat -> (x' < B)%nat -> (y' < B)%nat ->
    hop f (ns * 0 + i) (ns * 0 + j) (gl x y) (gl x' y') = hop (alone f s) (ns * 0 + i) (ns * 0 + j) x x' *c kb (y =? y')%nat.
  Proof using.
    intros NE Hi Hj Hx Hy Hx' Hy'.
    rewrite (hop_values f) by (cbn [f_geom f_nspecies pairsys]; try (apply glue_lt; assumption); lia).
    rewrite (hop_values (alone f s)) by (cbn [f_geom f_nspecies alone pairsys]; rewrite ?pow1; try assumption; lia).
    cbn [f_geom f_nspecies alone pairsys]. rewrite !Nat.mul_0_r, !Nat.add_0_l, !Nat.mul_1_r.
    rewrite agree_hi, between_hi, !digit_hi by assumption. destruct (y =? y')%nat; cbn [kb]; rewrite ?andb_true_r, ?andb_false_r; [|cbn [andb]; ring].
    match goal with |- context [if ?c then _ else _] => destruct c end; ring.
  Qed.
  Lemma hop_lo x y x' y' i j s : i <> j -> (i < ns)%nat -> (j < ns)%nat -> (x < B)%nat -> (y < B)%nat -> (x' < B)%nat -> (y' < B)%nat ->
    hop f (ns * 1 + i) (ns * 1 + j) (gl x y) (gl x' y') = kb (x =? x')%nat *c hop (alone f s) (ns * 0 + i) (ns * 0 + j) y y'.
  Proof using.
    intros NE Hi Hj Hx Hy Hx' Hy'.
    rewrite (hop_values f) by (cbn [f_geom f_nspecies pairsys]; try (apply glue_lt; assumption); lia).
    rewrite (hop_values (alone f s)) by (cbn [f_geom f_nspecies alone pairsys]; rewrite ?pow1; try assumption; lia).
    cbn [f_geom f_nspecies alone pairsys]. rewrite !Nat.mul_0_r, !Nat.add_0_l, !Nat.mul_1_r.
    rewrite agree_lo, between_lo, !digit_lo by assumption. destruct (x =? x')%nat; cbn [kb]; rewrite ?andb_true_r, ?andb_false_r; [|cbn [andb]; ring].
    match goal with |- context [if ?c then _ else _] => destruct c end; ring.
  Qed.

  (** The energies of one species: without the other. *)
  Definition diag (s x : nat) : CR :=
    ksum ns (fun i => ksum (S i) (fun j => same i j s *c (kb (digit 2 ns i x =? 1)%nat *c kb (digit 2 ns j x =? 1)%nat)))
    -c ksum ns (fun i => mus s *c kb (digit 2 ns i x =? 1)%nat) +c ksum ns (fun i => pot i s *c kb (digit 2 ns i x =? 1)%nat).
  Definition hops (s x x' : nat) : CR := ksum ns (fun i => ksum i (fun j => kopp (amplitude f i j s *c hop (alone f s) (ns * 0 + i) (ns * 0 + j) x x'))).
  Lemma alone_val s x x' : (x < B)%nat -> (x' < B)%nat -> h1 s x x' = hops s x x' +c kb (x =? x')%nat *c diag s x.
  Proof using.
    intros Hx Hx'. unfold HS2. cbn [f_us alone f_mus f_pot f_same f_geom f_nspecies]. change (nlog (f_sys (alone f s))) with (ns * 1)%nat. change (s_nsites (f_sys (alone f s))) with ns. unfold lsite. change (s_nsites (f_sys (alone f s))) with ns.
    rewrite (ksum_zero ns (fun i => kmul k0 _)) by (intros; apply injective_projections; cbn; ring).
    change (fg_nsites (f_geom f)) with ns.
    rewrite (ksum_ext ns (fun i => ksum i (fun j => ksum 1 _)) (fun i => ksum i (fun j => kopp (amplitude f i j s *c hop (alone f s) (ns * 0 + i) (ns * 0 + j) x x')))).
    2:{ intros i Hi. apply ksum_ext. intros j Hj. cbn [ksum]. change (amplitude (alone f s) i j 0) with (amplitude f i j s). apply injective_projections; cbn; ring. }
    fold (hops s x x'). unfold diag.
    rewrite (ksum_ext ns (fun i => ksum (S i) (fun j => ksum 1 _)) (fun i => kb (x =? x')%nat *c ksum (S i) (fun j => same i j s *c (kb (digit 2 ns i x =? 1)%nat *c kb (digit 2 ns j x =? 1)%nat)))).
    2:{ intros i Hi. rewrite <- ksum_mul_l. apply ksum_ext. intros j Hj. cbn [ksum]. change (f_same f i j s) with (same i j s).
        rewrite NN_val by (rewrite ?pow1; try assumption; lia). rewrite !Nat.mul_0_r, !Nat.add_0_l, !Nat.mul_1_r. ring. }
    rewrite (ksum_ext ns (fun i => ksum 1 (fun k => kmul (f_mus f s) _)) (fun i => kb (x =? x')%nat *c (mus s *c kb (digit 2 ns i x =? 1)%nat))).
    2:{ intros i Hi. cbn [ksum]. change (f_mus f s) with (mus s). rewrite Nn_val by (rewrite ?pow1; try assumption; lia). rewrite !Nat.mul_0_r, !Nat.add_0_l, !Nat.mul_1_r. ring. }
    rewrite (ksum_ext ns (fun i => ksum 1 (fun k => kmul (f_pot f i s) _)) (fun i => kb (x =? x')%nat *c (pot i s *c kb (digit 2 ns i x =? 1)%nat))).
    2:{ intros i Hi. cbn [ksum]. change (f_pot f i s) with (pot i s). rewrite Nn_val by (rewrite ?pow1; try assumption; lia). rewrite !Nat.mul_0_r, !Nat.add_0_l, !Nat.mul_1_r. ring. }
    rewrite !ksum_mul_l. change (@k0 CR CR_StarRing) with c0. ring.
  Qed.

  Theorem glue_ham x y x' y' : (x < B)%nat -> (y < B)%nat -> (x' < B)%nat -> (y' < B)%nat ->
    HS2 f (amplitude f) (gl x y) (gl x' y') = h1 0 x x' *c kb (y =? y')%nat +c kb (x =? x')%nat *c h1 1 y y' +c
      kb (x =? x')%nat *c kb (y =? y')%nat *c ksum ns (fun i => us i *c (kb (digit 2 ns i x =? 1)%nat *c kb (digit 2 ns i y =? 1)%nat)).
  Proof using.
    intros Hx Hy Hx' Hy'. pose proof (glue_lt ns x y Hx Hy) as La. pose proof (glue_lt ns x' y' Hx' Hy') as Lb. rewrite !alone_val by assumption.
    unfold HS2. cbn [f_us f_mus f_pot f_same f_geom f_nspecies pairsys]. change (nlog (f_sys f)) with (ns * 2)%nat. unfold lsite. change (s_nsites (f_sys f)) with ns.
    rewrite (ksum_ext ns (fun i => ksum i (fun j => ksum 2 _)) (fun i => ksum i (fun j => kopp (amplitude f i j 0 *c hop (alone f 0) (ns * 0 + i) (ns * 0 + j) x x')) *c kb (y =? y')%nat +c
       kb (x =? x')%nat *c ksum i (fun j => kopp (amplitude f i j 1 *c hop (alone f 1) (ns * 0 + i) (ns * 0 + j) y y')))).
    2:{ intros i Hi. rewrite <- ksum_mul_l, <- ksum_mul_r, <- ksum_add. apply ksum_ext. intros j Hj. cbn [ksum].
        rewrite (hop_hi x y x' y' i j 0), (hop_lo x y x' y' i j 1) by (assumption || lia). apply injective_projections; cbn; ring. }
    rewrite (ksum_ext ns (fun i => kmul (us i) _) (fun i => kb (x =? x')%nat *c kb (y =? y')%nat *c (us i *c (kb (digit 2 ns i x =? 1)%nat *c kb (digit 2 ns i y =? 1)%nat)))).
    2:{ intros i Hi. rewrite NN_val by (assumption || lia). rewrite Nat.mul_0_r, Nat.add_0_l, Nat.mul_1_r, digit_hi, digit_lo, glue_eqb by assumption. destruct (x =? x')%nat, (y =? y')%nat; cbn [andb kb]; ring. }
    rewrite (ksum_ext ns (fun i => ksum (S i) (fun j => ksum 2 _)) (fun i => kb (x =? x')%nat *c kb (y =? y')%nat *c (ksum (S i) (fun j => same i j 0%nat *c (kb (digit 2 ns i x =? 1)%nat *c kb (digit 2 ns j x =? 1)%nat)) +c ksum (S i) (fun j => same i j 1%nat *c (kb (digit 2 ns i y =? 1)%nat *c kb (digit 2 ns j y =? 1)%nat))))).
    2:{ intros i Hi. rewrite <- ksum_add, <- ksum_mul_l. apply ksum_ext. intros j Hj. cbn [ksum]. rewrite !NN_val by (assumption || lia). rewrite Nat.mul_0_r, !Nat.add_0_l, Nat.mul_1_r, !digit_hi, !digit_lo, glue_eqb by (assumption || lia).
        destruct (x =? x')%nat, (y =? y')%nat; cbn [andb kb]; ring. }
    rewrite (ksum_ext ns (fun i => ksum 2 (fun k => kmul (mus k) _)) (fun i => kb (x =? x')%nat *c kb (y =? y')%nat *c (mus 0%nat *c kb (digit 2 ns i x =? 1)%nat +c mus 1%nat *c kb (digit 2 ns i y =? 1)%nat))).
    2:{ intros i Hi. cbn [ksum]. rewrite !Nn_val by (assumption || lia). rewrite Nat.mul_0_r, !Nat.add_0_l, Nat.mul_1_r, !digit_hi, !digit_lo, glue_eqb by (assumption || lia).
        destruct (x =? x')%nat, (y =? y')%nat; cbn [andb kb]; ring. }
    rewrite (ksum_ext ns (fun i => ksum 2 (fun k => kmul (pot i k) _)) (fun i => kb (x =? x')%nat *c kb (y =? y')%nat *c (pot i 0%nat *c kb (digit 2 ns i x =? 1)%nat +c pot i 1%nat *c kb (digit 2 ns i y =? 1)%nat))).
    2:{ intros i Hi. cbn [ksum]. rewrite !Nn_val by (assumption || lia). rewrite Nat.mul_0_r, !Nat.add_0_l, Nat.mul_1_r, !digit_hi, !digit_lo, glue_eqb by (assumption || lia).
        destruct (x =? x')%nat, (y =? y')%nat; cbn [andb kb]; ring. }
    unfold hops, diag. rewrite !ksum_mul_l, !ksum_add, !ksum_mul_r, !ksum_mul_l. destruct (x =? x')%nat, (y =? y')%nat; cbn [kb]; ring.
  Qed.
End Two.

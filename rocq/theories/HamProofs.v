(** The fermion Hamiltonian built by createH. *)
From Coq Require Import List Arith Lia Bool QArith Qabs Setoid Morphisms Ring Ncring Ncring_tac.
From Verif Require Import Scalars Res Matrix Sums ModelBase ModelFermions SpecFock SpecHubbard SpecPerm OpsProofs
  SqMat CarAlgebra FockProofs FermiOps SwapProofs.
Import ListNotations.
Local Open Scope nat_scope.
Arguments Nat.div : simpl never.
Arguments Nat.modulo : simpl never.
Arguments Nat.pow : simpl never.

Section Ham.
  Context {K : Type} {SR : StarRing K}.
  Add Ring KringH0 : (@k_ring K SR).

  Section Sand.
    Variable N : nat.

    Definition lsum {A} (l : list A) (F : A -> sq K N) : sq K N := fun a b => klsum l (fun x => F x a b).

    Definition sand (P : mat K) (X : sq K N) (i j : nat) : K :=
      ksum N (fun b => kmul (ksum N (fun a => kmul (ent P i a) (X a b))) (kconj (ent P j b))).

    Lemma sand_ext P X Y i j : seqv X Y -> sand P X i j = sand P Y i j.
    Proof.
      intros H. apply ksum_ext. intros b Hb. f_equal. apply ksum_ext. intros a Ha. rewrite H by assumption. reflexivity.
    Qed.
    Lemma sand_add P X Y i j : sand P (sadd X Y) i j = kadd (sand P X i j) (sand P Y i j).
    Proof.
      unfold sand, sadd. rewrite <- ksum_add. apply ksum_ext. intros b Hb.
      transitivity (kmul (kadd (ksum N (fun a => kmul (ent P i a) (X a b))) (ksum N (fun a => kmul (ent P i a) (Y a b))))
        (kconj (ent P j b))); [|ring].
      f_equal. rewrite <- ksum_add. apply ksum_ext. intros. ring.
    Qed.
    Lemma sand_scale P c X i j : sand P (sscale c X) i j = kmul c (sand P X i j).
    Proof.
      unfold sand, sscale. rewrite <- ksum_mul_l. apply ksum_ext. intros b Hb.
      transitivity (kmul (kmul c (ksum N (fun a => kmul (ent P i a) (X a b)))) (kconj (ent P j b))); [|ring].
      f_equal. rewrite <- ksum_mul_l. apply ksum_ext. intros. ring.
    Qed.
    Lemma sand_0 P i j : sand P s0 i j = k0.
    Proof.
      unfold sand, s0. apply ksum_zero. intros b Hb. rewrite ksum_zero; [ring|]. intros. ring.
    Qed.
    Lemma sand_opp P X i j : sand P (sopp X) i j = kopp (sand P X i j).
    Proof.
      transitivity (kmul (kopp k1) (sand P X i j)); [|ring].
      rewrite <- sand_scale. apply sand_ext. intros a b _ _. unfold sopp, sscale. ring.
    Qed.

    Lemma sand_eye X i j : i < N -> j < N -> sand (meye N) X i j = X i j.
    Proof.
      intros Hi Hj. unfold sand, meye. cbn [ent].
      rewrite (ksum_single N j).
      - rewrite Nat.eqb_refl. cbn. rewrite kconj_1. rewrite (ksum_single N i).
        + rewrite Nat.eqb_refl. cbn. ring.
        + assumption.
        + intros a Ha Hne. rewrite (proj2 (Nat.eqb_neq i a)) by congruence. cbn. ring.
      - assumption.
      - intros b Hb Hne. rewrite (proj2 (Nat.eqb_neq j b)) by congruence. cbn. rewrite kconj_0. ring.
    Qed.

    Lemma sand_adj P X i j : kconj (sand P X i j) = sand P (sadj X) j i.
    Proof.
      unfold sand. rewrite ksum_conj.
      rewrite (ksum_ext N _ (fun b => ksum N (fun a => kmul (kmul (ent P j b) (kconj (X a b))) (kconj (ent P i a))))).
      - rewrite ksum_swap. apply ksum_ext. intros a Ha. rewrite <- ksum_mul_r. apply ksum_ext. intros. reflexivity.
      - intros b Hb. rewrite kconj_mul, ksum_conj, kconj_inv, <- ksum_mul_r. apply ksum_ext.
        intros. rewrite kconj_mul. ring.
    Qed.

    Lemma sandwich_ok P A : ncol P = N -> square N A ->
      exists t, sandwich P A = Ok t /\ square (nrow P) t /\ forall i j, ent t i j = sand P (ent A) i j.
    Proof.
      intros HP [H1 H2]. unfold sandwich, cmul. rewrite HP, H1, Nat.eqb_refl. cbn [bind ncol mmul madj nrow].
      rewrite H2, HP, Nat.eqb_refl. eexists. split; [reflexivity|]. split; [split; reflexivity|].
      intros i j. cbn [ent mmul madj ncol nrow]. rewrite H2, HP. reflexivity.
    Qed.

    (** Loops adding one sandwiched term per element. *)
    Lemma loop_ok {A} (P : mat K) (g : mat K -> A -> res (mat K)) (F : A -> sq K N) l :
      (forall x, In x l -> forall acc, square (nrow P) acc ->
        exists acc', g acc x = Ok acc' /\ square (nrow P) acc' /\
          forall i j, ent acc' i j = kadd (ent acc i j) (sand P (F x) i j)) ->
      exists R, rfold g l (mzero (nrow P) (nrow P)) = Ok R /\ square (nrow P) R /\
        forall i j, ent R i j = sand P (lsum l F) i j.
    Proof.
      intros H.
      assert (G : forall acc, square (nrow P) acc -> exists R, rfold g l acc = Ok R /\ square (nrow P) R /\
        forall i j, ent R i j = kadd (ent acc i j) (sand P (lsum l F) i j)).
      { induction l as [|x l IH]; intros acc Sa.
        - exists acc. splits; auto. intros. unfold lsum. cbn. change (fun _ _ : nat => k0) with (s0 (K:=K) (N:=N)).
          rewrite sand_0. ring.
        - destruct (H x (or_introl eq_refl) acc Sa) as (acc' & E & Sa' & V). cbn [rfold]. rewrite E. cbn [bind].
          destruct IH with (acc := acc') as (R & ER & SR' & VR); auto.
          { intros. apply H; [right; assumption|assumption]. }
          exists R. splits; auto. intros i j. rewrite VR, V.
          change (lsum (x :: l) F) with (sadd (F x) (lsum l F)). rewrite sand_add. ring. }
      destruct (G (mzero (nrow P) (nrow P))) as (R & ER & SR' & VR); [split; reflexivity|].
      exists R. splits; auto. intros. rewrite VR. cbn. ring.
    Qed.

    Lemma add_term_ok P c A F acc : ncol P = N -> square N A -> square (nrow P) acc -> seqv (ent A) F ->
      exists acc', add_term P c A acc = Ok acc' /\ square (nrow P) acc' /\
        forall i j, ent acc' i j = kadd (ent acc i j) (sand P (sscale c F) i j).
    Proof.
      intros HP SA Sacc HF. unfold add_term. destruct (sandwich_ok P A HP SA) as (t & Et & St & Vt).
      rewrite Et. cbn [bind]. rewrite (cadd_ok (nrow P)) by auto using square_scale.
      eexists. splits; [reflexivity|auto using square_add|].
      intros i j. cbn [ent madd mscale]. rewrite Vt, sand_scale, (sand_ext P _ _ i j HF). reflexivity.
    Qed.
  End Sand.

  Lemma kneb_false (a b : K) : kneb a b = false -> a = b.
  Proof. unfold kneb. destruct (keq_dec a b); [auto|discriminate]. Qed.
  Lemma kneb_true (a b : K) : kneb a b = true -> a <> b.
  Proof. unfold kneb. destruct (keq_dec a b); [discriminate|auto]. Qed.

  Variable f : fermions K.
  Notation g := (f_geom f).
  Notation ns := (fg_nsites (f_geom f)).
  Notation m := (f_nspecies f).
  Notation s := (f_sys f).
  Notation nl := (nlog (f_sys f)).
  Notation N := (2 ^ nlog (f_sys f)).
  Notation q i k := (lsite (f_sys f) i k).

  Lemma f_two : two_state s.
  Proof. reflexivity. Qed.
  Lemma f_nl : nl = ns * m.
  Proof. reflexivity. Qed.

  (** Interaction between species 0 and 1; the code always addresses species 1. *)
  Definition u_term (ii : nat) : sq K N := sscale (f_us f ii) (smul (Nn nl (q ii 0)) (Nn nl (q ii 1))).
  Lemma u_ok P : ncol P = N -> 2 <= m \/ (forall i, i < ns -> f_us f i = k0) ->
    exists R, u_interspecies_op f (f_us f) P = Ok R /\ square (nrow P) R /\
      forall i j, ent R i j = sand N P (lsum N (seq 0 ns) u_term) i j.
  Proof.
    intros HP Hm. unfold u_interspecies_op. apply loop_ok. intros ii Hii acc Sacc. apply in_seq in Hii.
    destruct (kneb (f_us f ii) k0) eqn:E.
    - apply kneb_true in E. destruct Hm as [Hm|Hm]; [|exfalso; apply E, Hm; lia].
      destruct (two_ok (K:=K) s ii 0 ii 1 n_op n_op Boson) as (A & EA & SA & FA); auto using sq_n, f_two;
        try discriminate; try (cbn; lia).
      rewrite EA. cbn [bind]. apply add_term_ok; assumption.
    - apply kneb_false in E. exists acc. splits; auto. intros i j.
      rewrite (sand_ext N P _ s0); [rewrite sand_0; ring|]. intros a b _ _. unfold u_term, sscale, s0. rewrite E. ring.
  Qed.

  Definition v_term (t : nat * nat * nat) : sq K N :=
    let '(ii, jj, kk) := t in sscale (f_same f ii jj kk) (smul (Nn nl (q ii kk)) (Nn nl (q jj kk))).
  Lemma in_triples c n k t : In t (triples c n k) ->
    let '(ii, jj, kk) := t in ii < n /\ jj < n /\ kk < k /\ c ii jj = true.
  Proof.
    destruct t as [[ii jj] kk]. unfold triples. intros H. apply in_prod_iff in H. destruct H as [H1 H2].
    apply filter_In in H1. destruct H1 as [H1 H3]. apply in_prod_iff in H1. destruct H1 as [H1 H4].
    apply in_seq in H1, H2, H4. cbn in H3. splits; try lia. assumption.
  Qed.
  Lemma v_ok P : ncol P = N ->
    exists R, u_samespecies_op f (f_same f) P = Ok R /\ square (nrow P) R /\
      forall i j, ent R i j = sand N P (lsum N (triples (fun ii jj => jj <=? ii) ns m) v_term) i j.
  Proof.
    intros HP. unfold u_samespecies_op. apply loop_ok. intros [[ii jj] kk] Hin acc Sacc.
    apply in_triples in Hin. destruct Hin as (Hi & Hj & Hk & _).
    destruct (kneb (f_same f ii jj kk) k0) eqn:E.
    - destruct (two_ok (K:=K) s ii kk jj kk n_op n_op Boson) as (A & EA & SA & FA); auto using sq_n, f_two;
        try discriminate.
      rewrite EA. cbn [bind]. apply add_term_ok; assumption.
    - apply kneb_false in E. exists acc. splits; auto. intros i j.
      rewrite (sand_ext N P _ s0); [rewrite sand_0; ring|]. intros a b _ _. unfold v_term, sscale, s0. rewrite E. ring.
  Qed.

  Definition hop (p r : nat) : sq K N := sadd (smul (Cd nl p) (Ca nl r)) (smul (Cd nl r) (Ca nl p)).
  Definition kin_term (d : axis) (t : nat * nat * nat) : sq K N :=
    let '(ii, jj, kk) := t in
    sscale (kopp (kmul (f_ts f ii jj kk) (kQ (sep_along g d ii jj)))) (hop (q ii kk) (q jj kk)).
  Lemma kin_ok P d : ncol P = N ->
    exists R, kinetic_op f P d = Ok R /\ square (nrow P) R /\
      forall i j, ent R i j = sand N P (lsum N (triples (fun ii jj => jj <? ii) ns m) (kin_term d)) i j.
  Proof.
    intros HP. unfold kinetic_op. destruct (Nat.ltb_spec 1 ns) as [Hn|Hn].
    - apply loop_ok. intros [[ii jj] kk] Hin acc Sacc.
      apply in_triples in Hin. destruct Hin as (Hi & Hj & Hk & _).
      destruct (kneb (f_ts f ii jj kk) k0) eqn:E.
      + destruct (two_ok (K:=K) s ii kk jj kk cdag_op c_op Fermion) as (A & EA & SA & FA);
          auto using sq_cdag, sq_c, f_two; try discriminate.
        destruct (two_ok (K:=K) s jj kk ii kk cdag_op c_op Fermion) as (B & EB & SB & FB);
          auto using sq_cdag, sq_c, f_two; try discriminate.
        rewrite EA, EB. cbn [bind].
        destruct (sandwich_ok N P A HP SA) as (a & Ea & Sa & Va).
        destruct (sandwich_ok N P B HP SB) as (b & Eb & Sb & Vb).
        rewrite Ea, Eb. cbn [bind].
        assert (Soa : square (nrow P) (mopp a)) by (destruct Sa; split; assumption).
        rewrite (csub_ok (nrow P)) by assumption. cbn [bind].
        rewrite (cadd_ok (nrow P)) by auto using square_scale, square_sub.
        eexists. splits; [reflexivity|auto using square_add|].
        intros i j. cbn [ent madd mscale msub mopp]. rewrite Va, Vb. unfold kin_term, hop.
        rewrite sand_scale, sand_add.
        rewrite (sand_ext N P _ _ i j FA), (sand_ext N P _ _ i j FB). unfold gop.
        unfold FockProofs.Cd, FockProofs.Ca. ring.
      + apply kneb_false in E. exists acc. splits; auto. intros i j.
        rewrite (sand_ext N P _ s0); [rewrite sand_0; ring|]. intros a b _ _. unfold kin_term, sscale, s0. rewrite E. ring.
    - eexists. splits; [reflexivity|split; reflexivity|]. intros i j.
      assert (E : triples (fun ii jj => jj <? ii) ns m = []).
      { destruct (triples (fun ii jj => jj <? ii) ns m) as [|[[ii jj] kk] l] eqn:E; [reflexivity|].
        exfalso. assert (X : In (ii, jj, kk) (triples (fun ii jj => jj <? ii) ns m)) by (rewrite E; left; reflexivity).
        apply in_triples in X. destruct X as (X1 & X2 & _ & X3). apply Nat.ltb_lt in X3. lia. }
      rewrite E. change (lsum N [] (kin_term d)) with (s0 (K:=K) (N:=N)). rewrite sand_0. reflexivity.
  Qed.

  Definition pot_term (vs : nat -> nat -> K) (t : nat * nat) : sq K N :=
    let '(ii, kk) := t in sscale (vs ii kk) (Nn nl (q ii kk)).
  Notation sitesp := (list_prod (seq 0 ns) (seq 0 m)).

  Lemma pot_ok vs P : ncol P = N ->
    exists R, potential_op f vs P = Ok R /\ square (nrow P) R /\
      forall i j, ent R i j = sand N P (lsum N sitesp (pot_term vs)) i j.
  Proof.
    intros HP. unfold potential_op. apply loop_ok. intros [ii kk] Hin acc Sacc.
    apply in_prod_iff in Hin. destruct Hin as [Hi Hk]. apply in_seq in Hi, Hk.
    destruct (kneb (vs ii kk) k0) eqn:E.
    - destruct (single_ok (K:=K) s ii kk n_op Boson) as (A & EA & SA & FA); auto using sq_n, f_two;
        try discriminate; try (cbn; lia).
      rewrite EA. cbn [bind]. apply add_term_ok; assumption.
    - apply kneb_false in E. exists acc. splits; auto. intros i j.
      rewrite (sand_ext N P _ s0); [rewrite sand_0; ring|]. intros a b _ _. unfold pot_term, sscale, s0. rewrite E. ring.
  Qed.

  Lemma mu_ok P : ncol P = N ->
    exists R, chemical_pot_op f (f_mus f) P = Ok R /\ square (nrow P) R /\
      forall i j, ent R i j = sand N P (lsum N sitesp (pot_term (fun _ k => kopp (f_mus f k)))) i j.
  Proof.
    intros HP. unfold chemical_pot_op. apply loop_ok. intros [ii kk] Hin acc Sacc.
    apply in_prod_iff in Hin. destruct Hin as [Hi Hk]. apply in_seq in Hi, Hk.
    destruct (kneb (f_mus f kk) k0) eqn:E.
    - destruct (single_ok (K:=K) s ii kk n_op Boson) as (A & EA & SA & FA); auto using sq_n, f_two;
        try discriminate; try (cbn; lia).
      rewrite EA. cbn [bind]. destruct (sandwich_ok N P A HP SA) as (t & Et & St & Vt).
      rewrite Et. cbn [bind]. rewrite (csub_ok (nrow P)) by auto using square_scale.
      eexists. splits; [reflexivity|auto using square_sub|].
      intros i j. cbn [ent msub mscale]. rewrite Vt. unfold pot_term. rewrite sand_scale.
      rewrite (sand_ext N P _ _ i j FA). unfold gop, Nn. ring.
    - apply kneb_false in E. exists acc. splits; auto. intros i j.
      rewrite (sand_ext N P _ s0); [rewrite sand_0; ring|]. intros a b _ _. unfold pot_term, sscale, s0. rewrite E. ring.
  Qed.

  (** Operator whose sandwich createH returns. *)
  Definition HS : sq K N :=
    sadd (sadd (sadd (sadd (sadd
      (lsum N (seq 0 ns) u_term)
      (lsum N (triples (fun ii jj => jj <=? ii) ns m) v_term))
      (lsum N (triples (fun ii jj => jj <? ii) ns m) (kin_term AxisX)))
      (lsum N (triples (fun ii jj => jj <? ii) ns m) (kin_term AxisY)))
      (lsum N sitesp (pot_term (fun _ k => kopp (f_mus f k)))))
      (lsum N sitesp (pot_term (f_pot f))).

  Definition the_proj (pr : option (mat K)) : mat K := match pr with Some P => P | None => meye (nstates s) end.

  Lemma createH_ok pr : ncol (the_proj pr) = N -> 2 <= m \/ (forall i, i < ns -> f_us f i = k0) ->
    exists H, createH f pr = Ok H /\ square (nrow (the_proj pr)) H /\
      forall i j, ent H i j = sand N (the_proj pr) HS i j.
  Proof.
    intros HP Hm. unfold createH. fold (the_proj pr). set (P := the_proj pr) in *. cbv zeta.
    destruct (u_ok P HP Hm) as (h1 & E1 & S1 & V1). rewrite E1. cbn [bind].
    rewrite (cadd_ok (nrow P)) by auto using square_zero. cbn [bind].
    destruct (v_ok P HP) as (h2 & E2 & S2 & V2). rewrite E2. cbn [bind].
    rewrite (cadd_ok (nrow P)) by auto using square_zero, square_add. cbn [bind].
    destruct (kin_ok P AxisX HP) as (h3 & E3 & S3 & V3). rewrite E3. cbn [bind].
    rewrite (cadd_ok (nrow P)) by auto using square_zero, square_add. cbn [bind].
    destruct (kin_ok P AxisY HP) as (h4 & E4 & S4 & V4). rewrite E4. cbn [bind].
    rewrite (cadd_ok (nrow P)) by auto using square_zero, square_add. cbn [bind].
    destruct (mu_ok P HP) as (h5 & E5 & S5 & V5). rewrite E5. cbn [bind].
    rewrite (cadd_ok (nrow P)) by auto using square_zero, square_add. cbn [bind].
    destruct (pot_ok (f_pot f) P HP) as (h6 & E6 & S6 & V6). rewrite E6. cbn [bind].
    rewrite (cadd_ok (nrow P)) by auto 10 using square_zero, square_add.
    eexists. splits; [reflexivity|auto 10 using square_zero, square_add|].
    intros i j. cbn [ent madd mzero]. rewrite V1, V2, V3, V4, V5, V6. unfold HS.
    rewrite !sand_add. ring.
  Qed.

  (** ** Comparison with the specification *)
  Definition teff (i j k : nat) : K :=
    kmul (f_ts f i j k) (kQ (Qabs (fg_xdist g i j) + Qabs (fg_ydist g i j))).

  Lemma klsum_triples_lt (F : nat -> nat -> nat -> K) :
    klsum (triples (fun ii jj => jj <? ii) ns m) (fun t => let '(ii, jj, kk) := t in F ii jj kk) =
    ksum ns (fun i => ksum i (fun j => ksum m (fun k => F i j k))).
  Proof.
    unfold triples. rewrite klsum_prod, klsum_filter, klsum_prod, klsum_seq. apply ksum_ext. intros i Hi.
    rewrite klsum_seq. cbn [fst snd]. rewrite <- (ksum_le ns i) by lia. apply ksum_ext. intros j Hj.
    destruct (j <? i); [apply klsum_seq|reflexivity].
  Qed.
  Lemma klsum_triples_le (F : nat -> nat -> nat -> K) :
    klsum (triples (fun ii jj => jj <=? ii) ns m) (fun t => let '(ii, jj, kk) := t in F ii jj kk) =
    ksum ns (fun i => ksum (S i) (fun j => ksum m (fun k => F i j k))).
  Proof.
    unfold triples. rewrite klsum_prod, klsum_filter, klsum_prod, klsum_seq. apply ksum_ext. intros i Hi.
    rewrite klsum_seq. cbn [fst snd]. rewrite <- (ksum_le ns (S i)) by lia. apply ksum_ext. intros j Hj.
    change (j <? S i) with (j <=? i).
    destruct (j <=? i); [apply klsum_seq|reflexivity].
  Qed.
  Lemma klsum_sitesp (F : nat -> nat -> K) :
    klsum sitesp (fun t => let '(ii, kk) := t in F ii kk) = ksum ns (fun i => ksum m (fun k => F i k)).
  Proof. rewrite klsum_prod, klsum_seq. apply ksum_ext. intros i Hi. apply klsum_seq. Qed.

  (** HS as nested sums. *)
  Definition HS2 (t : nat -> nat -> nat -> K) : sq K N := fun a b =>
    (ksum ns (fun i => ksum i (fun j => ksum m (fun k => - (t i j k * hop (q i k) (q j k) a b))))
     + ksum ns (fun i => f_us f i * smul (Nn nl (q i 0%nat)) (Nn nl (q i 1%nat)) a b)
     + ksum ns (fun i => ksum (S i) (fun j => ksum m (fun k => f_same f i j k * smul (Nn nl (q i k)) (Nn nl (q j k)) a b)))
     - ksum ns (fun i => ksum m (fun k => f_mus f k * Nn nl (q i k) a b))
     + ksum ns (fun i => ksum m (fun k => f_pot f i k * Nn nl (q i k) a b)))%K.

  Lemma HS_HS2 : forall a b, HS a b = HS2 teff a b.
  Proof.
    intros a b. unfold HS, HS2, sadd, lsum, kin_term, v_term, pot_term, u_term, sscale.
    rewrite klsum_seq.
    transitivity
      (kadd (kadd (kadd (kadd (kadd
        (ksum ns (fun i => kmul (f_us f i) (smul (Nn nl (q i 0)) (Nn nl (q i 1)) a b)))
        (klsum (triples (fun ii jj => jj <=? ii) ns m) (fun t => let '(i, j, k) := t in
           kmul (f_same f i j k) (smul (Nn nl (q i k)) (Nn nl (q j k)) a b))))
        (klsum (triples (fun ii jj => jj <? ii) ns m) (fun t => let '(i, j, k) := t in
           kmul (kopp (kmul (f_ts f i j k) (kQ (Qabs (fg_xdist g i j))))) (hop (q i k) (q j k) a b))))
        (klsum (triples (fun ii jj => jj <? ii) ns m) (fun t => let '(i, j, k) := t in
           kmul (kopp (kmul (f_ts f i j k) (kQ (Qabs (fg_ydist g i j))))) (hop (q i k) (q j k) a b))))
        (klsum sitesp (fun t => let '(i, k) := t in kopp (kmul (f_mus f k) (Nn nl (q i k) a b)))))
        (klsum sitesp (fun t => let '(i, k) := t in kmul (f_pot f i k) (Nn nl (q i k) a b)))).
    { repeat apply (f_equal2 kadd); try reflexivity; apply klsum_ext; try (intros [[i j] k] _; reflexivity); intros [i k] _; ring. }
    rewrite !klsum_triples_lt, klsum_triples_le, !klsum_sitesp.
    rewrite (ksum_ext ns (fun i => ksum m (fun k => kopp (kmul (f_mus f k) (Nn nl (q i k) a b))))
      (fun i => kopp (ksum m (fun k => kmul (f_mus f k) (Nn nl (q i k) a b)))))
      by (intros; apply ksum_opp).
    rewrite ksum_opp.
    assert (E : kadd
      (ksum ns (fun i => ksum i (fun j => ksum m (fun k =>
           kmul (kopp (kmul (f_ts f i j k) (kQ (Qabs (fg_xdist g i j))))) (hop (q i k) (q j k) a b)))))
      (ksum ns (fun i => ksum i (fun j => ksum m (fun k =>
           kmul (kopp (kmul (f_ts f i j k) (kQ (Qabs (fg_ydist g i j))))) (hop (q i k) (q j k) a b))))) =
      ksum ns (fun i => ksum i (fun j => ksum m (fun k => kopp (kmul (teff i j k) (hop (q i k) (q j k) a b)))))).
    { rewrite <- ksum_add. apply ksum_ext. intros i Hi. rewrite <- ksum_add. apply ksum_ext. intros j Hj.
      rewrite <- ksum_add. apply ksum_ext. intros k Hk. unfold teff. rewrite kQ_add. ring. }
    rewrite <- E. ring.
  Qed.

  Lemma HS2_ext t t' : (forall i j k, i < ns -> j < i -> k < m -> t i j k = t' i j k) ->
    forall a b, HS2 t a b = HS2 t' a b.
  Proof.
    intros H a b. unfold HS2. do 4 f_equal. apply ksum_ext. intros i Hi. apply ksum_ext. intros j Hj.
    apply ksum_ext. intros k Hk. rewrite H by assumption. reflexivity.
  Qed.

  Lemma elem_n p r : p < nl -> r < nl ->
    seqv (N:=N) (elem (n_spec nl p) (n_spec nl r)) (smul (Nn nl p) (Nn nl r)).
  Proof.
    intros Hp Hr a b Ha Hb. unfold elem. rewrite (ent_mul N) by (split; reflexivity).
    assert (E : seqv (N:=N) (smul (ent (n_spec nl p)) (ent (n_spec nl r))) (smul (Nn nl p) (Nn nl r))).
    { rewrite <- (n_entry nl p Hp), <- (n_entry nl r Hr). reflexivity. }
    apply E; assumption.
  Qed.
  Lemma elem_hop p r : p < nl -> r < nl ->
    seqv (N:=N) (elem (cdag_spec nl p) (c_spec nl r)) (smul (Cd nl p) (Ca nl r)).
  Proof.
    intros Hp Hr a b Ha Hb. unfold elem. rewrite (ent_mul N) by (split; reflexivity).
    assert (E : seqv (N:=N) (smul (ent (cdag_spec nl p)) (ent (c_spec nl r))) (smul (Cd nl p) (Ca nl r))).
    { rewrite <- (cdag_entry nl p Hp), <- (c_entry nl r Hr). reflexivity. }
    apply E; assumption.
  Qed.

  Lemma q_lt i k : i < ns -> k < m -> q i k < nl.
  Proof. intros. apply lsite_lt; assumption. Qed.

  Lemma HS2_spec t : 2 <= m \/ (forall i, i < ns -> f_us f i = k0) ->
    seqv (N:=N) (HS2 t) (hubbard_elem ns m t (f_us f) (f_same f) (f_mus f) (f_pot f)).
  Proof.
    intros Hm a b Ha Hb. unfold HS2, hubbard_elem. cbv zeta.
    change (ns * m) with nl.
    f_equal; [f_equal; [f_equal; [f_equal|]|]|].
    - apply ksum_ext. intros i Hi. apply ksum_ext. intros j Hj. apply ksum_ext. intros k Hk.
      rewrite (elem_hop (ns * k + i) (ns * k + j)) by (auto; apply q_lt; lia).
      rewrite (elem_hop (ns * k + j) (ns * k + i)) by (auto; apply q_lt; lia). reflexivity.
    - apply ksum_ext. intros i Hi. destruct Hm as [Hm|Hm].
      + rewrite (elem_n (ns * 0 + i) (ns * 1 + i)) by (auto; apply q_lt; lia). reflexivity.
      + rewrite Hm by assumption. ring.
    - apply ksum_ext. intros i Hi. apply ksum_ext. intros j Hj. apply ksum_ext. intros k Hk.
      rewrite (elem_n (ns * k + i) (ns * k + j)) by (auto; apply q_lt; lia). reflexivity.
    - apply ksum_ext. intros i Hi. apply ksum_ext. intros k Hk.
      rewrite <- (n_entry nl (ns * k + i)) by (auto; apply q_lt; lia). reflexivity.
    - apply ksum_ext. intros i Hi. apply ksum_ext. intros k Hk.
      rewrite <- (n_entry nl (ns * k + i)) by (auto; apply q_lt; lia). reflexivity.
  Qed.

  Definition Hspec (t : nat -> nat -> nat -> K) : mat K :=
    hubbard_spec ns m t (f_us f) (f_same f) (f_mus f) (f_pot f).

  (** The general statement: createH is the sandwich of the lattice model with
      hopping multiplied by |dx| + |dy|. *)
  Lemma createH_spec P : ncol P = N -> 2 <= m \/ (forall i, i < ns -> f_us f i = k0) ->
    exists H, createH f (Some P) = Ok H /\ meq H (mmul (mmul P (Hspec teff)) (madj P)).
  Proof.
    intros HP Hm. destruct (createH_ok (Some P) HP Hm) as (H & EH & SH & VH).
    exists H. split; [assumption|]. cbn [the_proj] in *. destruct SH as [SH1 SH2].
    unfold meq; splits; cbn; auto. intros i j _ _. rewrite VH.
    rewrite (sand_ext N P HS (hubbard_elem ns m teff (f_us f) (f_same f) (f_mus f) (f_pot f))).
    - unfold sand. rewrite HP. reflexivity.
    - etransitivity; [|apply HS2_spec, Hm]. intros a b _ _. apply HS_HS2.
  Qed.

  Lemma createH_None_spec : 2 <= m \/ (forall i, i < ns -> f_us f i = k0) ->
    exists H, createH f None = Ok H /\ meq H (Hspec teff).
  Proof.
    intros Hm. destruct (createH_ok None) as (H & EH & SH & VH); [apply nstates2, f_two|assumption|].
    exists H. split; [assumption|]. cbn [the_proj nrow meye] in *. rewrite (nstates2 s f_two) in *.
    apply (meq_of_seqv N); [assumption|split; reflexivity|].
    intros i j Hi Hj. rewrite VH. rewrite sand_eye by assumption. rewrite HS_HS2. apply HS2_spec; assumption.
  Qed.

  (** ** Hermiticity *)
  Lemma hop_adj p r : p < nl -> r < nl -> seqv (N:=N) (sadj (hop p r)) (hop p r).
  Proof.
    intros Hp Hr. unfold hop. rewrite sadj_add, !sadj_mul, !sadj_Cd, !sadj_Ca by assumption.
    intros a b _ _. unfold sadd. ring.
  Qed.
  Lemma NN_comm p r : p < nl -> r < nl -> seqv (N:=N) (smul (Nn nl p) (Nn nl r)) (smul (Nn nl r) (Nn nl p)).
  Proof.
    intros Hp Hr. destruct (Nat.eq_dec p r) as [->|Hne]; [reflexivity|].
    apply bop_comm; auto using sq_n.
  Qed.
  Lemma NN_adj p r : p < nl -> r < nl -> seqv (N:=N) (sadj (smul (Nn nl p) (Nn nl r))) (smul (Nn nl p) (Nn nl r)).
  Proof. intros Hp Hr. rewrite sadj_mul, !sadj_Nn by assumption. apply NN_comm; assumption. Qed.

  Definition real (x : K) : Prop := kconj x = x.
  Definition real_couplings : Prop :=
    (forall i j k, i < ns -> j < ns -> k < m -> real (f_ts f i j k)) /\
    (forall i, i < ns -> real (f_us f i)) /\
    (forall i j k, i < ns -> j < ns -> k < m -> real (f_same f i j k)) /\
    (forall k, k < m -> real (f_mus f k)) /\
    (forall i k, i < ns -> k < m -> real (f_pot f i k)).

  Lemma HS2_adj t : (2 <= m \/ (forall i, i < ns -> f_us f i = k0)) -> real_couplings ->
    (forall i j k, i < ns -> j < ns -> k < m -> real (t i j k)) ->
    seqv (N:=N) (sadj (HS2 t)) (HS2 t).
  Proof.
    intros Hm (R1 & R2 & R3 & R4 & R5) Ht a b Ha Hb. unfold sadj, HS2.
    rewrite !kconj_add, !kconj_sub, !kconj_add, !ksum_conj.
    f_equal; [f_equal; [f_equal; [f_equal|]|]|].
    - apply ksum_ext. intros i Hi. rewrite ksum_conj. apply ksum_ext. intros j Hj. rewrite ksum_conj.
      apply ksum_ext. intros k Hk. rewrite kconj_opp, kconj_mul, (Ht i j k) by lia.
      change (kconj (hop (q i k) (q j k) b a)) with (sadj (N:=N) (hop (q i k) (q j k)) a b).
      rewrite hop_adj by (auto; apply q_lt; lia). reflexivity.
    - apply ksum_ext. intros i Hi. rewrite kconj_mul, (R2 i Hi). destruct Hm as [Hm|Hm].
      + change (kconj (smul (Nn nl (q i 0)) (Nn nl (q i 1)) b a)) with (sadj (N:=N) (smul (Nn nl (q i 0)) (Nn nl (q i 1))) a b).
        rewrite NN_adj by (auto; apply q_lt; lia). reflexivity.
      + rewrite Hm by assumption. ring.
    - apply ksum_ext. intros i Hi. rewrite ksum_conj. apply ksum_ext. intros j Hj. rewrite ksum_conj.
      apply ksum_ext. intros k Hk. rewrite kconj_mul, (R3 i j k) by lia.
      change (kconj (smul (Nn nl (q i k)) (Nn nl (q j k)) b a)) with (sadj (N:=N) (smul (Nn nl (q i k)) (Nn nl (q j k))) a b).
      rewrite NN_adj by (auto; apply q_lt; lia). reflexivity.
    - apply ksum_ext. intros i Hi. rewrite ksum_conj. apply ksum_ext. intros k Hk. rewrite kconj_mul, (R4 k) by lia.
      change (kconj (Nn nl (q i k) b a)) with (sadj (N:=N) (Nn nl (q i k)) a b).
      rewrite sadj_Nn by (auto; apply q_lt; lia). reflexivity.
    - apply ksum_ext. intros i Hi. rewrite ksum_conj. apply ksum_ext. intros k Hk. rewrite kconj_mul, (R5 i k) by lia.
      change (kconj (Nn nl (q i k) b a)) with (sadj (N:=N) (Nn nl (q i k)) a b).
      rewrite sadj_Nn by (auto; apply q_lt; lia). reflexivity.
  Qed.

  Lemma createH_hermitian pr : ncol (the_proj pr) = N -> 2 <= m \/ (forall i, i < ns -> f_us f i = k0) ->
    real_couplings -> exists H, createH f pr = Ok H /\ square (nrow (the_proj pr)) H /\ meq (madj H) H.
  Proof.
    intros HP Hm HR. destruct (createH_ok pr HP Hm) as (H & EH & SH & VH).
    exists H. splits; [assumption|assumption|]. destruct SH as [S1 S2].
    unfold meq; splits; cbn; try congruence. intros i j Hi Hj. rewrite !VH, sand_adj. apply sand_ext.
    assert (E : seqv (N:=N) HS (HS2 teff)) by (intros a b _ _; apply HS_HS2).
    rewrite E. apply HS2_adj; auto. intros i' j' k' H1 H2 H3. unfold real, teff. rewrite kconj_mul, kQ_conj.
    destruct HR as (R1 & _). rewrite (R1 i' j' k') by assumption. reflexivity.
  Qed.
End Ham.

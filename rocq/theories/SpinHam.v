(** The Hamiltonian of a spin system. *)
From Coq Require Import List Arith Lia Bool QArith Ring Setoid.
From Verif Require Import Scalars Res Matrix ModelBase ModelSpins SpecSpins SpecPerm SpecMat OpsProofs SqMat FockProofs
  FermiOps SwapProofs Sums HamProofs Digits SpinOps SpinSwap SpinAlg.
Import ListNotations.
Local Open Scope nat_scope.
Arguments Nat.div : simpl never.
Arguments Nat.modulo : simpl never.
Arguments Nat.pow : simpl never.

Section SpinHam.
  Context {K : Type} {SR : StarRing K}.
  Add Ring KringSH : (@k_ring K SR).
  Variable rt : nat -> K.

  Section Loops.
    Variable N : nat.

    Lemma loop_from {A} (P : mat K) (g : mat K -> A -> res (mat K)) (F : A -> sq K N) l :
      (forall x, In x l -> forall acc, square (nrow P) acc ->
        exists acc', g acc x = Ok acc' /\ square (nrow P) acc' /\
          forall i j, ent acc' i j = kadd (ent acc i j) (sand N P (F x) i j)) ->
      forall acc, square (nrow P) acc -> exists R, rfold g l acc = Ok R /\ square (nrow P) R /\
        forall i j, ent R i j = kadd (ent acc i j) (sand N P (lsum N l F) i j).
    Proof.
      induction l as [|x l IH]; intros H acc Sa.
      - exists acc. splits; auto. intros. unfold lsum. cbn. change (fun _ _ : nat => k0) with (s0 (K:=K) (N:=N)).
        rewrite sand_0. ring.
      - destruct (H x (or_introl eq_refl) acc Sa) as (acc' & E & Sa' & V). cbn [rfold]. rewrite E. cbn [bind].
        destruct IH with (acc := acc') as (R & ER & SR' & VR); auto.
        { intros. apply H; [right; assumption|assumption]. }
        exists R. splits; auto. intros i j. rewrite VR, V.
        change (lsum N (x :: l) F) with (sadd (N:=N) (F x) (lsum N l F)). rewrite sand_add. ring.
    Qed.

    Lemma scaled_sandwich_ok (P : mat K) c A : ncol P = N -> square N A ->
      exists t, scaled_sandwich P c A = Ok t /\ square (nrow P) t /\
        forall i j, ent t i j = sand N P (sscale c (ent A)) i j.
    Proof.
      intros HP [H1 H2]. unfold scaled_sandwich, cmul. cbn [ncol nrow mscale mmul madj].
      rewrite HP, H1, Nat.eqb_refl. cbn [bind ncol nrow mmul mscale]. rewrite H2, Nat.eqb_refl.
      eexists. splits; [reflexivity|split; reflexivity|].
      intros i j. cbn [ent mmul mscale madj ncol]. rewrite H2, HP. unfold sand. apply ksum_ext. intros b Hb. f_equal.
      apply ksum_ext. intros a Ha. unfold sscale. ring.
    Qed.
  End Loops.

  Variable s : spins K.
  Notation n := (sg_nsites (sp_geom s)).
  Notation two := (sp_two s).
  Notation d := (sp_two s + 1).

  Lemma d_nz : d <> 0. Proof. lia. Qed.
  Lemma sp_sys_dsys : sp_sys s = dsys d n. Proof. reflexivity. Qed.

  Notation SX := (ent (sx_op rt (sp_two s))).
  Notation SY := (ent (sy_op rt (sp_two s))).
  Notation SZ := (ent (sz_op (K:=K) (sp_two s))).
  Notation D := (d ^ n).

  (** Where operators of one site have the right shape. *)
  Definition field_ok (i : nat) (h : K) : Prop := h = k0 \/ two = 1 \/ i = n - 1.

  Lemma field_term_ok (P : mat K) h i op H : ncol P = D -> square d op -> i < n -> field_ok i h -> square (nrow P) H ->
    exists H', field_term s P h i op H = Ok H' /\ square (nrow P) H' /\
      forall a b, ent H' a b = kadd (ent H a b) (sand D P (sscale (kopp h) (site_elem d n i (ent op))) a b).
  Proof.
    intros HP Hop Hi Hf SH. unfold field_term. destruct (kneb h k0) eqn:E.
    - apply kneb_true in E. destruct Hf as [->|Hf]; [congruence|].
      assert (Hf' : d = 2 \/ i = n - 1) by (destruct Hf; [left; lia|right; assumption]).
      destruct (single_elem d d_nz n i op Hop Hi Hf') as (A & EA & SA & VA). rewrite sp_sys_dsys, EA. cbn [bind].
      destruct (scaled_sandwich_ok D P h A HP SA) as (t & Et & St & Vt). rewrite Et. cbn [bind].
      rewrite (csub_ok (nrow P)) by assumption. eexists. splits; [reflexivity|auto using square_sub|].
      intros a b. cbn [ent msub]. rewrite Vt.
      rewrite (sand_ext D P _ (sscale h (site_elem d n i (ent op)))).
      2:{ intros x y Hx Hy. unfold sscale. rewrite VA by assumption. reflexivity. }
      rewrite !sand_scale. ring.
    - apply kneb_false in E. subst h. exists H. splits; auto. intros a b. rewrite sand_scale. ring.
  Qed.

  Lemma pair_term_ok (P : mat K) j i1 i2 op H : ncol P = D -> square d op -> i1 < n -> i2 < n -> i1 <> i2 ->
    square (nrow P) H ->
    exists H', pair_term s P j i1 i2 op H = Ok H' /\ square (nrow P) H' /\
      forall a b, ent H' a b =
        kadd (ent H a b) (sand D P (sscale (kmul (kofnat 2) j) (pair_elem d n i1 i2 (ent op) (ent op))) a b).
  Proof.
    intros HP Hop H1 H2 Hne SH. unfold pair_term. destruct (kneb j k0) eqn:E.
    - destruct (two_elem d d_nz n i1 i2 op op Hop Hop H1 H2 Hne) as (A & EA & SA & VA). rewrite sp_sys_dsys, EA. cbn [bind].
      destruct (scaled_sandwich_ok D P (kmul (kofnat 2) j) A HP SA) as (t & Et & St & Vt). rewrite Et. cbn [bind].
      rewrite (cadd_ok (nrow P)) by assumption. eexists. splits; [reflexivity|auto using square_add|].
      intros a b. cbn [ent madd]. rewrite Vt. f_equal. apply sand_ext.
      intros x y Hx Hy. unfold sscale. rewrite VA by assumption. reflexivity.
    - apply kneb_false in E. subst j. exists H. splits; auto. intros a b. rewrite sand_scale. ring.
  Qed.

  Definition f_elem (i : nat) : sq K D := fun a b =>
    kopp (kadd (kadd (kmul (sp_hx s i) (site_elem d n i SX a b)) (kmul (sp_hy s i) (site_elem d n i SY a b)))
               (kmul (sp_hz s i) (site_elem d n i SZ a b))).
  Definition p_elem (p : nat * nat) : sq K D := fun a b =>
    if snd p <? fst p then
      kmul (kofnat 2) (kadd (kadd
        (kmul (sp_jx s (fst p) (snd p)) (pair_elem d n (fst p) (snd p) SX SX a b))
        (kmul (sp_jy s (fst p) (snd p)) (pair_elem d n (fst p) (snd p) SY SY a b)))
        (kmul (sp_jz s (fst p) (snd p)) (pair_elem d n (fst p) (snd p) SZ SZ a b)))
    else k0.

  Definition H_elem : sq K D :=
    spin_elem d n (kofnat 2) k1 SX SY SZ (sp_jx s) (sp_jy s) (sp_jz s) (sp_hx s) (sp_hy s) (sp_hz s).

  Lemma H_elem_sum a b : kadd (lsum D (seq 0 n) f_elem a b) (lsum D (list_prod (seq 0 n) (seq 0 n)) p_elem a b) = H_elem a b.
  Proof.
    unfold H_elem, spin_elem, lsum. rewrite klsum_seq, klsum_prod, klsum_seq.
    rewrite (ksum_ext n (fun x => klsum (seq 0 n) _) (fun i => ksum i (fun j =>
      kmul (kofnat 2) (kadd (kadd (kmul (sp_jx s i j) (pair_elem d n i j SX SX a b))
        (kmul (sp_jy s i j) (pair_elem d n i j SY SY a b))) (kmul (sp_jz s i j) (pair_elem d n i j SZ SZ a b)))))).
    2:{ intros i Hi. rewrite klsum_seq. unfold p_elem. cbn [fst snd]. apply (ksum_le n i). lia. }
    unfold f_elem. rewrite ksum_opp.
    rewrite (ksum_ext n (fun i => kmul k1 _) (fun i => kadd (kadd (kmul (sp_hx s i) (site_elem d n i SX a b))
       (kmul (sp_hy s i) (site_elem d n i SY a b))) (kmul (sp_hz s i) (site_elem d n i SZ a b)))) by (intros; ring).
    ring.
  Qed.

  Definition fields_ok : Prop := forall i, i < n ->
    field_ok i (sp_hx s i) /\ field_ok i (sp_hy s i) /\ field_ok i (sp_hz s i).

  Lemma createH_proj (P : mat K) : ncol P = D -> fields_ok ->
    exists H, sp_createH rt s (Some P) = Ok H /\ square (nrow P) H /\
      forall a b, ent H a b = sand D P H_elem a b.
  Proof.
    intros HP HF. unfold sp_createH.
    destruct (loop_from D P (fun H ii =>
           H <- field_term s P (sp_hx s ii) ii (sx_op rt two) H ;;
           H <- field_term s P (sp_hy s ii) ii (sy_op rt two) H ;;
           field_term s P (sp_hz s ii) ii (sz_op two) H) f_elem (seq 0 n)) with (acc := mzero (K:=K) (nrow P) (nrow P))
      as (H1 & E1 & S1 & V1).
    - intros i Hi acc Sa. apply in_seq in Hi. destruct (HF i) as (F1 & F2 & F3); [lia|].
      destruct (field_term_ok P (sp_hx s i) i (sx_op rt two) acc) as (A1 & EA1 & SA1 & VA1); auto using sx_sq; [lia|].
      rewrite EA1. cbn [bind].
      destruct (field_term_ok P (sp_hy s i) i (sy_op rt two) A1) as (A2 & EA2 & SA2 & VA2); auto using sy_sq; [lia|].
      rewrite EA2. cbn [bind].
      destruct (field_term_ok P (sp_hz s i) i (sz_op two) A2) as (A3 & EA3 & SA3 & VA3); auto using sz_sq; [lia|].
      rewrite EA3. exists A3. splits; auto. intros a b. rewrite VA3, VA2, VA1.
      rewrite (sand_ext D P (f_elem i) (sadd (sadd (sscale (kopp (sp_hx s i)) (site_elem d n i SX))
         (sscale (kopp (sp_hy s i)) (site_elem d n i SY))) (sscale (kopp (sp_hz s i)) (site_elem d n i SZ)))).
      + rewrite !sand_add. ring.
      + intros x y _ _. unfold f_elem, sadd, sscale. ring.
    - split; reflexivity.
    - rewrite E1. cbn [bind].
      assert (G : forall acc, square (nrow P) acc -> exists R, rfold (fun H p =>
           let ii := fst p in let jj := snd p in
           if jj <? ii then
             H <- pair_term s P (sp_jx s ii jj) ii jj (sx_op rt two) H ;;
             H <- pair_term s P (sp_jy s ii jj) ii jj (sy_op rt two) H ;;
             pair_term s P (sp_jz s ii jj) ii jj (sz_op two) H
           else Ok H) (list_prod (seq 0 n) (seq 0 n)) acc = Ok R /\ square (nrow P) R /\
           forall i j, ent R i j = kadd (ent acc i j) (sand D P (lsum D (list_prod (seq 0 n) (seq 0 n)) p_elem) i j)).
      { apply loop_from. intros [i j] Hij acc Sa. cbn zeta. cbn [fst snd]. apply in_prod_iff in Hij as [Hi Hj].
        apply in_seq in Hi, Hj.
        destruct (Nat.ltb_spec j i) as [Hlt|Hge].
        - destruct (pair_term_ok P (sp_jx s i j) i j (sx_op rt two) acc) as (A1 & EA1 & SA1 & VA1); auto using sx_sq; try lia.
          rewrite EA1. cbn [bind].
          destruct (pair_term_ok P (sp_jy s i j) i j (sy_op rt two) A1) as (A2 & EA2 & SA2 & VA2); auto using sy_sq; try lia.
          rewrite EA2. cbn [bind].
          destruct (pair_term_ok P (sp_jz s i j) i j (sz_op two) A2) as (A3 & EA3 & SA3 & VA3); auto using sz_sq; try lia.
          rewrite EA3. exists A3. splits; auto. intros a b. rewrite VA3, VA2, VA1.
          rewrite (sand_ext D P (p_elem (i, j)) (sadd (sadd (sscale (kmul (kofnat 2) (sp_jx s i j)) (pair_elem d n i j SX SX))
             (sscale (kmul (kofnat 2) (sp_jy s i j)) (pair_elem d n i j SY SY)))
             (sscale (kmul (kofnat 2) (sp_jz s i j)) (pair_elem d n i j SZ SZ)))).
          + rewrite !sand_add. ring.
          + intros x y _ _. unfold p_elem, sadd, sscale. cbn [fst snd]. rewrite (proj2 (Nat.ltb_lt j i)) by assumption. ring.
        - exists acc. splits; auto. intros a b. rewrite (sand_ext D P (p_elem (i, j)) s0).
          + rewrite sand_0. ring.
          + intros x y _ _. unfold p_elem, s0. cbn [fst snd]. rewrite (proj2 (Nat.ltb_ge j i)) by assumption. reflexivity. }
      assert (W : forall i j, kadd (sand D P (lsum D (seq 0 n) f_elem) i j) (sand D P (lsum D (list_prod (seq 0 n) (seq 0 n)) p_elem) i j)
          = sand D P H_elem i j).
      { intros i j. rewrite <- sand_add. apply sand_ext. intros x y _ _. apply H_elem_sum. }
      destruct (Nat.ltb_spec 1 n) as [Hn|Hn].
      + destruct (G H1 S1) as (R & ER & SR' & VR). exists R. splits; auto. intros a b. rewrite VR, V1, <- W. cbn. ring.
      + exists H1. splits; auto. intros a b. rewrite V1, <- W. cbn.
        rewrite (sand_ext D P (lsum D (list_prod (seq 0 n) (seq 0 n)) p_elem) s0).
        * rewrite sand_0. ring.
        * intros x y _ _. unfold lsum, s0. apply klsum_zero. intros [i j] Hij. apply in_prod_iff in Hij as [Hi Hj].
          apply in_seq in Hi, Hj. unfold p_elem. cbn [fst snd]. rewrite (proj2 (Nat.ltb_ge j i)) by lia. reflexivity.
  Qed.

  Lemma createH_full : fields_ok -> exists H, sp_createH rt s None = Ok H /\ square D H /\
      forall a b, a < D -> b < D -> ent H a b = H_elem a b.
  Proof.
    intros HF. destruct (createH_proj (meye D) eq_refl HF) as (H & E & S & V). exists H. splits; auto.
    - unfold sp_createH in *. rewrite sp_sys_dsys, dsys_nstates. exact E.
    - intros a b Ha Hb. rewrite V. apply sand_eye; assumption.
  Qed.

  (** Higher spins: a field anywhere but on the last site fails. *)
  Lemma createH_raises : 1 < two ->
    (exists i, i < n - 1 /\ (sp_hx s i <> k0 \/ sp_hy s i <> k0 \/ sp_hz s i <> k0)) ->
    sp_createH rt s None = Raise ValueError.
  Proof.
    intros Ht (i0 & Hi0 & Hne). unfold sp_createH. rewrite sp_sys_dsys, dsys_nstates.
    set (g := fun (H : mat K) ii =>
           H <- field_term s (meye D) (sp_hx s ii) ii (sx_op rt two) H ;;
           H <- field_term s (meye D) (sp_hy s ii) ii (sy_op rt two) H ;;
           field_term s (meye D) (sp_hz s ii) ii (sz_op two) H).
    assert (B : forall h i op H, square d op -> i < n - 1 -> h <> k0 -> field_term s (meye D) h i op H = Raise ValueError).
    { intros h i op H Hop Hi Hh. unfold field_term. assert (kneb h k0 = true) as -> by (unfold kneb; destruct (keq_dec h k0); [contradiction|reflexivity]).
      destruct (single_shape d d_nz n i op Hop ltac:(lia)) as (A & EA & SA & _). rewrite sp_sys_dsys, EA. cbn [bind].
      unfold scaled_sandwich, cmul. cbn [ncol mscale meye]. rewrite SA.
      assert (X : D <> d ^ S i * 2 ^ (n - i - 1)).
      { replace n with (S i + (n - i - 1)) at 1 by lia. rewrite Nat.pow_add_r. intros X.
        apply Nat.mul_cancel_l in X; [|apply Nat.pow_nonzero, d_nz].
        assert (2 ^ (n - i - 1) < d ^ (n - i - 1)) by (apply Nat.pow_lt_mono_l; lia). lia. }
      rewrite (proj2 (Nat.eqb_neq _ _) X). reflexivity. }
    assert (Z : forall i op H, field_term s (meye D) k0 i op H = Ok H).
    { intros. unfold field_term, kneb. destruct (keq_dec k0 k0); [reflexivity|congruence]. }
    assert (G : forall i H, i < n - 1 -> sp_hx s i <> k0 \/ sp_hy s i <> k0 \/ sp_hz s i <> k0 -> g H i = Raise ValueError).
    { intros i H Hi Hn. unfold g.
      destruct (keq_dec (sp_hx s i) k0) as [Ex|Ex]; [rewrite Ex, Z; cbn [bind]|rewrite B by auto using sx_sq; reflexivity].
      destruct (keq_dec (sp_hy s i) k0) as [Ey|Ey]; [rewrite Ey, Z; cbn [bind]|rewrite B by auto using sy_sq; reflexivity].
      apply B; auto using sz_sq. tauto. }
    assert (G0 : forall i H, sp_hx s i = k0 -> sp_hy s i = k0 -> sp_hz s i = k0 -> g H i = Ok H).
    { intros i H E1 E2 E3. unfold g. rewrite E1, E2, E3, !Z. cbn [bind]. rewrite Z. cbn [bind]. apply Z. }
    assert (F : forall l H, (forall i, In i l -> i < n) -> In i0 l -> NoDup l -> (forall i j l1 l2, l = l1 ++ i :: l2 -> In j l2 -> i < j) ->
       rfold g l H = Raise ValueError).
    { induction l as [|i l IH]; intros H Hl Hin ND Hord; [destruct Hin|]. cbn [rfold].
      assert (Hi : i <= i0).
      { destruct Hin as [->|Hin]; [lia|]. specialize (Hord i i0 [] l eq_refl Hin). lia. }
      destruct (keq_dec (sp_hx s i) k0) as [Ex|Ex]; [|rewrite G by (auto; lia); reflexivity].
      destruct (keq_dec (sp_hy s i) k0) as [Ey|Ey]; [|rewrite G by (auto; lia); reflexivity].
      destruct (keq_dec (sp_hz s i) k0) as [Ez|Ez]; [|rewrite G by (auto; lia); reflexivity].
      rewrite G0 by assumption. cbn [bind]. destruct Hin as [->|Hin]; [tauto|].
      apply IH; auto.
      - intros; apply Hl; right; assumption.
      - inversion ND; assumption.
      - intros i' j l1 l2 ->. apply (Hord i' j (i :: l1) l2). reflexivity. }
    cbn zeta. rewrite F; [reflexivity| | | |].
    - intros i Hi. apply in_seq in Hi. lia.
    - apply in_seq. lia.
    - apply seq_NoDup.
    - intros i j l1 l2 E Hj.
      assert (NTH : forall k x, nth_error (seq 0 n) k = Some x -> x = k).
      { intros k x Hk. assert (k < n) by (rewrite <- (seq_length n 0); apply nth_error_Some; congruence).
        rewrite (nth_error_nth' _ 0) in Hk by (rewrite seq_length; assumption). rewrite seq_nth in Hk by assumption. cbn in Hk. congruence. }
      apply In_nth_error in Hj as (k & Hk).
      assert (E1 : i = length l1).
      { apply NTH. rewrite E. rewrite nth_error_app2 by lia. rewrite Nat.sub_diag. reflexivity. }
      assert (E2 : j = length l1 + S k).
      { apply NTH. rewrite E. rewrite nth_error_app2 by lia. replace (length l1 + S k - length l1) with (S k) by lia. exact Hk. }
      lia.
  Qed.
End SpinHam.

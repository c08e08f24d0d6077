(** Wrappers bringing the lemmas of the previous files into the form used by
    the property statements. *)
From Coq Require Import List Arith Lia Bool QArith Setoid Morphisms Ring Sorted.
From Verif Require Import Scalars Res Matrix Sums ModelBase ModelFermions SpecFock SpecHubbard SpecPerm SpecMat OpsProofs
  SqMat FockProofs FermiOps SubspaceProofs SwapProofs HamProofs HamSym.
Import ListNotations.
Local Open Scope nat_scope.
Arguments Nat.div : simpl never.
Arguments Nat.modulo : simpl never.
Arguments Nat.pow : simpl never.

Lemma logical_bijection n ns : n <> 0 ->
  (forall i k, i < n -> k < ns -> spinful2spinless i n k < n * ns /\ spinless2spinful (spinful2spinless i n k) n = (i, k)) /\
  (forall q, q < n * ns -> exists i k, spinless2spinful q n = (i, k) /\ i < n /\ k < ns /\ spinful2spinless i n k = q).
Proof.
  intros Hn. split.
  - intros i k Hi Hk. split; [apply spinful_lt; assumption|apply spinless_spinful; assumption].
  - intros q Hq. pose proof (spinful_spinless q n Hn) as A. pose proof (spinless_species_lt q n ns Hq) as B.
    destruct (spinless2spinful q n) as [i k]. exists i, k. destruct A. splits; auto.
Qed.

Lemma state_label_occ s row ii : ii < nlog s -> f_state_label s row ii = Nat.b2n (occ (nlog s) row ii).
Proof.
  intros H. unfold f_state_label, occ. replace (nlog s - 1 - ii) with (nlog s - ii - 1) by lia.
  set (e := nlog s - ii - 1). assert (P : 2 ^ e <> 0) by (apply Nat.pow_nonzero; lia).
  assert (E : (row mod (2 * 2 ^ e)) / 2 ^ e = Nat.b2n (Nat.testbit row e)).
  { rewrite Nat.testbit_spec'. rewrite (Nat.mul_comm 2). rewrite Nat.mod_mul_r by lia.
    rewrite (Nat.mul_comm (2 ^ e)), Nat.div_add by assumption.
    rewrite Nat.div_small by (apply Nat.mod_upper_bound; assumption). reflexivity. }
  rewrite E. destruct (Nat.testbit row e); reflexivity.
Qed.

Section Api.
  Context {K : Type} {SR : StarRing K}.
  Add Ring KringP : (@k_ring K SR).

  Lemma not_csr (op : mat K) ev : subspace_projs false op ev = Raise GenericException.
  Proof. reflexivity. Qed.

  Lemma sector_pred_spec s l k : length l = s_nspecies s ->
    sector_pred s (combine (seq 0 (s_nspecies s)) l) k = true <->
    (forall sp n, nth_error l sp = Some (Some n) -> occ_species (nlog s) (s_nsites s) k sp = n).
  Proof.
    intros Hl. unfold sector_pred. rewrite forallb_forall.
    assert (G : forall l a, (forall x, In x (combine (seq a (length l)) l) ->
       match snd x with Some n => occ_species (nlog s) (s_nsites s) k (fst x) =? n | None => true end = true) <->
       (forall sp n, nth_error l sp = Some (Some n) -> occ_species (nlog s) (s_nsites s) k (a + sp) = n)).
    { clear l Hl. induction l as [|o l IH]; intros a; cbn [length seq combine].
      - split; [intros _ [|sp] n E; discriminate|intros _ x []].
      - split.
        + intros H [|sp] n E; cbn in E.
          * inversion E; subst. specialize (H (a, Some n) (or_introl eq_refl)). cbn in H.
            apply Nat.eqb_eq in H. rewrite Nat.add_0_r. assumption.
          * replace (a + S sp) with (S a + sp) by lia. apply (proj1 (IH (S a))); [|assumption].
            intros x Hx. apply H. right; assumption.
        + intros H x [<-|Hx].
          * destruct o as [n|]; cbn; [|reflexivity]. apply Nat.eqb_eq. specialize (H 0 n eq_refl).
            rewrite Nat.add_0_r in H. assumption.
          * revert x Hx. apply (proj2 (IH (S a))). intros sp n E. specialize (H (S sp) n E).
            replace (S a + sp) with (a + S sp) by lia. assumption. }
    rewrite <- Hl. rewrite (G l 0). split; intros H sp n; apply H.
  Qed.

  Lemma number_basis s l :
    s_nbasis s = 2 -> s_nsites s <> 0 -> length l = s_nspecies s ->
    exists P idx, n_projector (K:=K) s (Some l) = Ok P /\ rows_are (nstates s) P idx /\
      StronglySorted lt idx /\
      (forall k, In k idx <-> k < nstates s /\
         forall sp n, nth_error l sp = Some (Some n) -> occ_species (nlog s) (s_nsites s) k sp = n) /\
      (forall ns, l = map Some ns -> nrow P = fold_right Nat.mul 1 (map (binom (s_nsites s)) ns)).
  Proof.
    intros Hb Hn Hl. destruct (n_projector_spec (K:=K) s l Hb Hn Hl) as (P & EP & HP).
    set (idx := filter (sector_pred s (combine (seq 0 (s_nspecies s)) l)) (seq 0 (nstates s))) in *.
    exists P, idx. destruct HP as (H1 & H2 & H3). cbn [sel nrow ncol] in *. splits; auto.
    - unfold rows_are. splits; auto. intros i j Hi Hj. rewrite H3 by congruence. cbn [sel ent].
      rewrite (nth_indep idx 0 (nstates s) Hi). destruct (_ =? _); reflexivity.
    - apply filter_seq_sorted.
    - intros k. unfold idx. rewrite filter_In, in_seq, sector_pred_spec by assumption.
      split; intros [A B]; split; auto; lia.
    - intros ns ->. rewrite H1. unfold idx. rewrite map_length in Hl.
      rewrite (nstates2 s Hb). unfold nlog. rewrite <- Hl, <- count_sector. unfold count. f_equal.
      apply filter_ext_in. intros k Hk. unfold sector_pred, nlog. rewrite <- Hl. clear.
      assert (G : forall M l a, forallb (fun p : nat * option nat => match snd p with
          | Some n => occ_species M (s_nsites s) k (fst p) =? n
          | None => true end) (combine (seq a (length l)) (map Some l)) =
        forallb (fun p => occ_species M (s_nsites s) k (fst p) =? snd p) (combine (seq a (length l)) l)).
      { intros M. induction l as [|n l IH]; intros a; [reflexivity|]. cbn [length seq map combine forallb fst snd].
        rewrite IH. reflexivity. }
      apply G.
  Qed.

  (** Transformation operators. *)
  Lemma good_carries s (T : mat K) pi : s_nbasis s = 2 -> sites_ok s pi -> goodm s T pi -> carries s T pi.
  Proof.
    intros Hb Hpi (ST & MT & _) i k Hi Hk. assert (Hp := Hpi k i Hk Hi).
    destruct (single_ok (K:=K) s i k c_op Fermion) as (c & E1 & S1 & F1); auto using sq_c; [discriminate|].
    destruct (single_ok (K:=K) s i k cdag_op Fermion) as (c' & E2 & S2 & F2); auto using sq_cdag; [discriminate|].
    destruct (single_ok (K:=K) s (pi k i) k c_op Fermion) as (d & E3 & S3 & F3); auto using sq_c; [discriminate|].
    destruct (single_ok (K:=K) s (pi k i) k cdag_op Fermion) as (d' & E4 & S4 & F4); auto using sq_cdag; [discriminate|].
    exists c, c', d, d'. splits; auto;
      (destruct (MT (lsite s i k)) as (_ & M1 & M2); [apply lsite_lt; assumption|];
       rewrite lift_lsite in M1, M2 by assumption;
       apply (meq_of_seqv (2 ^ nlog s)); auto using square_mul; rewrite !(ent_mul (2 ^ nlog s)) by assumption).
    - rewrite F1, F3. exact M2.
    - rewrite F2, F4. exact M1.
  Qed.

  Lemma good_unitary s (T : mat K) pi : s_nbasis s = 2 -> goodm s T pi ->
    unitary_mat (nstates s) T /\ fixes_first (nstates s) T.
  Proof.
    intros Hb (ST & _ & (U1 & U2) & V). rewrite (nstates2 s Hb). split.
    - unfold unitary_mat. splits; [exact ST| |];
        (apply (meq_of_seqv (2 ^ nlog s)); auto using square_mul, square_adj; [split; reflexivity|];
         rewrite (ent_mul (2 ^ nlog s)) by auto using square_adj; assumption).
    - intros a Ha. rewrite V by assumption. destruct (a =? 0); reflexivity.
  Qed.

  Lemma swap_api s a b k :
    s_nbasis s = 2 -> a < s_nsites s -> b < s_nsites s -> k < s_nspecies s ->
    exists S, f_swap_op (K:=K) s a b k = Ok S /\ square (nstates s) S /\
      meq (madj S) S /\ meq (mmul S S) (meye (nstates s)) /\ fixes_first (nstates s) S /\
      carries s S (fun k' i => if k' =? k then exchange a b i else i) /\
      (a = b -> meq S (meye (nstates s))).
  Proof.
    intros Hb Ha Hb' Hk. destruct (f_swap_ok (K:=K) s a b k Hb Ha Hb' Hk) as (S & ES & SS & FS).
    destruct (goodm_swap (K:=K) s a b k Hb Ha Hb' Hk) as (S' & ES' & GS). assert (S' = S) by congruence. subst S'.
    destruct (good_unitary s S _ Hb GS) as [_ V].
    pose proof (lsite_lt s a k Ha Hk) as La. pose proof (lsite_lt s b k Hb' Hk) as Lb.
    exists S. rewrite (nstates2 s Hb) in *. splits; auto.
    - apply (meq_of_seqv (2 ^ nlog s)); auto using square_adj.
      change (ent (madj S)) with (sadj (N:=2 ^ nlog s) (ent S)). rewrite FS. apply swapS_adj; assumption.
    - apply (meq_of_seqv (2 ^ nlog s)); auto using square_mul; [split; reflexivity|].
      rewrite (ent_mul (2 ^ nlog s)) by assumption. rewrite FS. apply swapS_sq; assumption.
    - apply good_carries; auto. intros sp i Hsp Hi. destruct (sp =? k); [apply tr_sites; assumption|assumption].
    - intros <-. apply (meq_of_seqv (2 ^ nlog s)); auto; [split; reflexivity|]. rewrite FS. apply swapS_self; assumption.
  Qed.

  Lemma xform_api s cs :
    s_nbasis s = 2 -> s_nspecies s <> 0 -> valid_cycles (s_nsites s) cs ->
    (exists c, In c cs /\ 1 < length c) ->
    exists T, xform_op s (f_swap_op (K:=K) s) cs = Ok (Some T) /\
      unitary_mat (nstates s) T /\ fixes_first (nstates s) T /\ carries s T (fun _ => cycles_perm cs).
  Proof.
    intros Hb Hm Hv Hl. destruct (xform_op_good (K:=K) s cs Hb Hm Hv Hl) as (T & ET & GT).
    destruct (good_unitary s T _ Hb GT). exists T. splits; auto. apply good_carries; auto.
    intros sp i Hsp Hi. apply cycles_perm_lt; assumption.
  Qed.

  Lemma goodm_unique s (T T' : mat K) pi : goodm s T pi -> goodm s T' pi -> meq T T'.
  Proof.
    intros [S1 G1] [S2 G2]. apply (meq_of_seqv (2 ^ nlog s)); auto. eapply good_unique; eassumption.
  Qed.

  Lemma goodm_1 s : goodm s (meye (K:=K) (2 ^ nlog s)) (fun _ x => x).
  Proof.
    split; [split; reflexivity|]. eapply good_ext; [|exact (good_1 (nlog s))].
    intros q Hq. destruct (decode_ok s q Hq) as (i & sp & Hi & Hsp & ->). rewrite lift_lsite by assumption. reflexivity.
  Qed.

  (** Composition. *)
  Lemma xform_compose s cs1 cs2 cs3 T1 T2 T3 :
    s_nbasis s = 2 -> s_nspecies s <> 0 ->
    valid_cycles (s_nsites s) cs1 -> valid_cycles (s_nsites s) cs2 -> valid_cycles (s_nsites s) cs3 ->
    (exists c, In c cs1 /\ 1 < length c) -> (exists c, In c cs2 /\ 1 < length c) -> (exists c, In c cs3 /\ 1 < length c) ->
    (forall x, x < s_nsites s -> cycles_perm cs3 x = cycles_perm cs1 (cycles_perm cs2 x)) ->
    xform_op s (f_swap_op (K:=K) s) cs1 = Ok (Some T1) ->
    xform_op s (f_swap_op (K:=K) s) cs2 = Ok (Some T2) ->
    xform_op s (f_swap_op (K:=K) s) cs3 = Ok (Some T3) ->
    meq T3 (mmul T1 T2).
  Proof.
    intros Hb Hm V1 V2 V3 L1 L2 L3 Hp E1 E2 E3.
    destruct (xform_op_good (K:=K) s cs1 Hb Hm V1 L1) as (T1' & F1 & G1).
    destruct (xform_op_good (K:=K) s cs2 Hb Hm V2 L2) as (T2' & F2 & G2).
    destruct (xform_op_good (K:=K) s cs3 Hb Hm V3 L3) as (T3' & F3 & G3).
    assert (T1' = T1) by congruence. assert (T2' = T2) by congruence. assert (T3' = T3) by congruence. subst.
    destruct (goodm_mul s T1 T2 (fun _ => cycles_perm cs1) (fun _ => cycles_perm cs2) Hb) as [_ G]; auto.
    { intros sp i Hsp Hi. apply cycles_perm_lt; assumption. }
    eapply goodm_unique; [exact G3|]. eapply goodm_ext; [|exact G].
    intros sp i Hsp Hi. symmetry. apply Hp, Hi.
  Qed.

  Lemma xform_order s cs T m :
    s_nbasis s = 2 -> s_nspecies s <> 0 -> valid_cycles (s_nsites s) cs ->
    (exists c, In c cs /\ 1 < length c) ->
    xform_op s (f_swap_op (K:=K) s) cs = Ok (Some T) ->
    (forall x, x < s_nsites s -> iter (cycles_perm cs) m x = x) ->
    meq (mpow (nstates s) T m) (meye (nstates s)).
  Proof.
    intros Hb Hm V L E Ho. destruct (xform_op_good (K:=K) s cs Hb Hm V L) as (T' & F & G).
    assert (T' = T) by congruence. subst T'. rewrite (nstates2 s Hb).
    assert (P : forall n, goodm s (mpow (2 ^ nlog s) T n) (fun _ => iter (cycles_perm cs) n)).
    { induction n as [|n IH]; [apply goodm_1|]. cbn [mpow].
      destruct (goodm_mul s T (mpow (2 ^ nlog s) T n) (fun _ => cycles_perm cs) (fun _ => iter (cycles_perm cs) n) Hb) as [_ GG]; auto.
      intros sp i Hsp Hi. clear -V Hi. induction n as [|n IHn]; [assumption|]. cbn. apply cycles_perm_lt; assumption. }
    eapply goodm_unique; [|apply goodm_1]. eapply goodm_ext; [|apply P]. intros sp i Hsp Hi. apply Ho, Hi.
  Qed.

  Lemma xform_trivial s (swap : nat -> nat -> nat -> res (mat K)) cs :
    (forall c, In c cs -> length c <= 1) -> xform_op s swap cs = Ok None.
  Proof.
    intros H. unfold xform_op. induction cs as [|c cs IH]; [reflexivity|]. cbn [rfold].
    rewrite (proj2 (Nat.ltb_ge 1 (length c))) by (apply H; left; reflexivity). cbn [bind].
    apply IH. intros; apply H; right; assumption.
  Qed.

  (** createH on axis-aligned unit bonds. *)
  Lemma createH_documented (f : fermions K) :
    let ns := fg_nsites (f_geom f) in let m := f_nspecies f in
    2 <= m \/ (forall i, i < ns -> f_us f i = k0) ->
    (forall i j k, j < i -> i < ns -> k < m -> f_ts f i j k <> k0 ->
       (Qabs.Qabs (fg_xdist (f_geom f) i j) + Qabs.Qabs (fg_ydist (f_geom f) i j) == 1)%Q) ->
    exists H, createH f None = Ok H /\
      meq H (hubbard_spec ns m (f_ts f) (f_us f) (f_same f) (f_mus f) (f_pot f)).
  Proof.
    intros ns m Hm Hd. destruct (createH_None_spec f Hm) as (H & EH & MH). exists H. split; [assumption|].
    rewrite MH. apply (meq_of_seqv (2 ^ nlog (f_sys f))); [split; reflexivity|split; reflexivity|].
    unfold Hspec. cbn [hubbard_spec ent].
    etransitivity; [symmetry; apply (HS2_spec f (teff f) Hm)|].
    etransitivity; [|apply (HS2_spec f (f_ts f) Hm)].
    intros a b _ _. apply (HS2_ext f (teff f) (f_ts f)). intros i j k Hi Hj Hk. unfold teff.
    destruct (keq_dec (f_ts f i j k) k0) as [->|Hne]; [ring|].
    rewrite (kQ_proper _ 1%Q) by (apply (Hd i j k); assumption). rewrite kQ_1. ring.
  Qed.
  (** Public forms. *)
  Definition us_ok (f : fermions K) : Prop :=
    2 <= f_nspecies f \/ (forall i, i < fg_nsites (f_geom f) -> f_us f i = k0).

  Lemma hermitian_api (f : fermions K) pr :
    let P := match pr with Some P => P | None => meye (nstates (f_sys f)) end in
    ncol P = nstates (f_sys f) -> us_ok f -> real_couplings f ->
    exists H, createH f pr = Ok H /\ square (nrow P) H /\ meq (madj H) H.
  Proof. intros P HP Hu HR. apply (createH_hermitian f pr); auto. Qed.

  Lemma effective_model (f : fermions K) P :
    ncol P = nstates (f_sys f) -> us_ok f ->
    exists H, createH f (Some P) = Ok H /\
      meq H (mmul (mmul P (hubbard_spec (fg_nsites (f_geom f)) (f_nspecies f)
        (fun i j k => kmul (f_ts f i j k) (kQ (Qabs.Qabs (fg_xdist (f_geom f) i j) + Qabs.Qabs (fg_ydist (f_geom f) i j))))
        (f_us f) (f_same f) (f_mus f) (f_pot f))) (madj P)).
  Proof. intros HP Hu. apply (createH_spec f P); auto. Qed.

  Lemma symmetry_api (f : fermions K) cs T :
    let n := fg_nsites (f_geom f) in let m := f_nspecies f in
    let t i j k := kmul (f_ts f i j k) (kQ (Qabs.Qabs (fg_xdist (f_geom f) i j) + Qabs.Qabs (fg_ydist (f_geom f) i j))) in
    let pi := cycles_perm cs in
    us_ok f -> valid_cycles n cs ->
    xform_op (f_sys f) (f_swap_op (f_sys f)) cs = Ok (Some T) ->
    (forall i j k, i < n -> j < n -> k < m -> t i j k = t j i k /\ t (pi i) (pi j) k = t i j k) ->
    (forall i, i < n -> f_us f (pi i) = f_us f i) ->
    (forall i j k, i < n -> j < n -> k < m ->
       f_same f i j k = f_same f j i k /\ f_same f (pi i) (pi j) k = f_same f i j k) ->
    (forall i k, i < n -> k < m -> f_pot f (pi i) k = f_pot f i k) ->
    exists H, createH f None = Ok H /\ meq (mmul T H) (mmul H T).
  Proof. intros n m t pi Hu Hv HT Ht Hus Hs Hp. apply (symmetry f cs T); auto. Qed.

  Lemma identity_not_matrix s (swap : nat -> nat -> nat -> res (mat K)) cs :
    (forall c, In c cs -> length c <= 1) ->
    xform_op s swap cs = Ok None /\ ~ exists T, xform_op s swap cs = Ok (Some T).
  Proof. intros H. rewrite (xform_trivial s swap cs H). split; [reflexivity|]. intros (T & E). discriminate. Qed.

  Lemma single_site_dims s i si (op : mat K) f A :
    square (s_nbasis s) op -> i < s_nsites s -> si < s_nspecies s ->
    single_site_op s i si op f = Ok A ->
    let q := s_nsites s * si + i in
    nrow A = s_nbasis s ^ (q + 1) * 2 ^ (nlog s - q - 1) /\ ncol A = nrow A /\
    (s_nbasis s = 2 \/ q + 1 = nlog s -> square (nstates s) A).
  Proof.
    intros Hop Hi Hs HA q. pose proof (single_site_shape s i si op f A Hop Hi Hs HA) as R. cbv zeta in R. fold q in R.
    assert (C : ncol A = nrow A).
    { destruct Hop as [D1 D2]. unfold single_site_op in HA.
      destruct f; cbn [bind] in HA; inversion HA; subst; cbn [ncol nrow mkron meye]; rewrite D1, D2; f_equal.
      - generalize (nlog s - spinful2spinless i (s_nsites s) si - 1). intros n. induction n; cbn; congruence.
      - unfold eye_pow. destruct (_ <? _); reflexivity. }
    splits; auto. intros Hq. split; rewrite ?C, R; unfold nstates;
      pose proof (lsite_lt s i si Hi Hs) as L; unfold lsite in L; fold q in L.
    - destruct Hq as [E|E].
      + rewrite E, <- Nat.pow_add_r. f_equal. lia.
      + replace (nlog s - q - 1) with 0 by lia. rewrite E, Nat.pow_0_r. lia.
    - destruct Hq as [E|E].
      + rewrite E, <- Nat.pow_add_r. f_equal. lia.
      + replace (nlog s - q - 1) with 0 by lia. rewrite E, Nat.pow_0_r. lia.
  Qed.
End Api.

(** Conservation laws and lattice symmetries of the fermion Hamiltonian. *)
From Coq Require Import List Arith Lia Bool QArith Qabs Lqa Setoid Morphisms Ring Ncring Ncring_tac.
From Verif Require Import Scalars Res Matrix Sums ModelBase ModelFermions SpecFock SpecHubbard SpecPerm OpsProofs
  SqMat CarAlgebra FockProofs FermiOps SwapProofs HamProofs.
Import ListNotations.
Local Open Scope nat_scope.
Arguments Nat.div : simpl never.
Arguments Nat.modulo : simpl never.
Arguments Nat.pow : simpl never.

Section SqSums.
  Context {K : Type} {SR : StarRing K} {N : nat}.
  Add Ring KringY0 : (@k_ring K SR).

  Lemma smul_ksum_r n (X : sq K N) (F : nat -> sq K N) a b :
    smul X (fun a b => ksum n (fun i => F i a b)) a b = ksum n (fun i => smul X (F i) a b).
  Proof.
    unfold smul. rewrite ksum_swap. apply ksum_ext. intros k Hk. rewrite <- ksum_mul_l. reflexivity.
  Qed.
  Lemma smul_ksum_l n (X : sq K N) (F : nat -> sq K N) a b :
    smul (fun a b => ksum n (fun i => F i a b)) X a b = ksum n (fun i => smul (F i) X a b).
  Proof.
    unfold smul. rewrite ksum_swap. apply ksum_ext. intros k Hk. rewrite <- ksum_mul_r. reflexivity.
  Qed.
  Lemma smul_add_r' (X Y Z : sq K N) a b : smul X (fun a b => kadd (Y a b) (Z a b)) a b = kadd (smul X Y a b) (smul X Z a b).
  Proof. unfold smul. rewrite <- ksum_add. apply ksum_ext. intros. ring. Qed.
  Lemma smul_add_l' (X Y Z : sq K N) a b : smul (fun a b => kadd (Y a b) (Z a b)) X a b = kadd (smul Y X a b) (smul Z X a b).
  Proof. unfold smul. rewrite <- ksum_add. apply ksum_ext. intros. ring. Qed.
  Lemma smul_scale_r' c (X Y : sq K N) a b : smul X (fun a b => kmul c (Y a b)) a b = kmul c (smul X Y a b).
  Proof. unfold smul. rewrite <- ksum_mul_l. apply ksum_ext. intros. ring. Qed.
  Lemma smul_scale_l' c (X Y : sq K N) a b : smul (fun a b => kmul c (Y a b)) X a b = kmul c (smul Y X a b).
  Proof. unfold smul. rewrite <- ksum_mul_l. apply ksum_ext. intros. ring. Qed.
  Lemma smul_opp_r' (X Y : sq K N) a b : smul X (fun a b => kopp (Y a b)) a b = kopp (smul X Y a b).
  Proof. unfold smul. rewrite <- ksum_opp. apply ksum_ext. intros. ring. Qed.
  Lemma smul_opp_l' (X Y : sq K N) a b : smul (fun a b => kopp (Y a b)) X a b = kopp (smul Y X a b).
  Proof. unfold smul. rewrite <- ksum_opp. apply ksum_ext. intros. ring. Qed.
  Lemma smul_sub_r' (X Y Z : sq K N) a b : smul X (fun a b => ksub (Y a b) (Z a b)) a b = ksub (smul X Y a b) (smul X Z a b).
  Proof.
    transitivity (kadd (smul X Y a b) (kopp (smul X Z a b))); [|ring].
    rewrite <- smul_opp_r', <- smul_add_r'. unfold smul. apply ksum_ext. intros. ring.
  Qed.
  Lemma smul_sub_l' (X Y Z : sq K N) a b : smul (fun a b => ksub (Y a b) (Z a b)) X a b = ksub (smul Y X a b) (smul Z X a b).
  Proof.
    transitivity (kadd (smul Y X a b) (kopp (smul Z X a b))); [|ring].
    rewrite <- smul_opp_l', <- smul_add_l'. unfold smul. apply ksum_ext. intros. ring.
  Qed.

  Definition commutes (X Y : sq K N) : Prop := seqv (smul X Y) (smul Y X).

  Lemma commutes_mul X Y Z : commutes X Y -> commutes X Z -> commutes X (smul Y Z).
  Proof.
    unfold commutes. intros H G. rewrite <- smul_assoc, H, smul_assoc, G, smul_assoc. reflexivity.
  Qed.
  Lemma commutes_add X Y Z : commutes X Y -> commutes X Z -> commutes X (sadd Y Z).
  Proof. unfold commutes. intros H G. rewrite smul_add_l, smul_add_r, H, G. reflexivity. Qed.
End SqSums.

Section Trans.
  Context {K : Type} {SR : StarRing K}.
  Add Ring KringY1 : (@k_ring K SR).

  (** Conjugating a lower-triangular double sum by a permutation. *)
  Lemma lower_perm n (pi : nat -> nat) (G : nat -> nat -> K) :
    (forall i, i < n -> pi i < n) -> (forall i j, i < n -> j < n -> pi i = pi j -> i = j) ->
    (forall i j, i < n -> j < n -> G i j = G j i) ->
    ksum n (fun i => ksum i (fun j => G (pi i) (pi j))) = ksum n (fun i => ksum i (G i)).
  Proof.
    intros H1 H2 Hs. apply half_inj.
    pose proof (ksum_lower_double n G Hs) as E1.
    pose proof (ksum_lower_double n (fun i j => G (pi i) (pi j))) as E2. cbv beta in E2.
    specialize (E2 ltac:(intros; apply Hs; auto)).
    rewrite (ksum_reindex n pi (fun i => G i i)) in E2 by assumption.
    rewrite (ksum_ext n (fun i => ksum n (fun j => G (pi i) (pi j))) (fun i => ksum n (G (pi i)))) in E2
      by (intros; apply ksum_reindex; assumption).
    rewrite (ksum_reindex n pi (fun i => ksum n (G i))) in E2 by assumption.
    rewrite <- E1 in E2.
    assert (C : forall x y z : K, kadd x z = kadd y z -> x = y).
    { intros x y z H. transitivity (ksub (kadd x z) z); [ring|]. rewrite H. ring. }
    apply C in E2. exact E2.
  Qed.

  Lemma lower_perm_le n (pi : nat -> nat) (G : nat -> nat -> K) :
    (forall i, i < n -> pi i < n) -> (forall i j, i < n -> j < n -> pi i = pi j -> i = j) ->
    (forall i j, i < n -> j < n -> G i j = G j i) ->
    ksum n (fun i => ksum (S i) (fun j => G (pi i) (pi j))) = ksum n (fun i => ksum (S i) (G i)).
  Proof.
    intros H1 H2 Hs. cbn [ksum]. rewrite !ksum_add. rewrite lower_perm by assumption.
    f_equal. apply (ksum_reindex n pi (fun i => G i i)); assumption.
  Qed.

  Lemma tr_inj p q x y : tr p q x = tr p q y -> x = y.
  Proof.
    unfold exchange. destruct (Nat.eqb_spec x p), (Nat.eqb_spec x q), (Nat.eqb_spec y p), (Nat.eqb_spec y q); subst; congruence.
  Qed.
  Lemma fold_tr_inj l x y :
    fold_left (fun x p => tr (fst p) (snd p) x) l x = fold_left (fun x p => tr (fst p) (snd p) x) l y -> x = y.
  Proof. revert x y. induction l as [|p l IH]; intros x y H; [exact H|]. cbn in H. apply IH in H. eapply tr_inj, H. Qed.

  Lemma valid_each n cs c : valid_cycles n cs -> In c cs -> NoDup c /\ forall x, In x c -> x < n.
  Proof.
    intros [ND Hlt] Hc. split.
    - clear -ND Hc. induction cs as [|d cs IH]; [destruct Hc|]. cbn in ND.
      destruct Hc as [->|Hc]; [apply NoDup_app_l in ND; assumption|].
      apply IH; [apply NoDup_app_r in ND; assumption|assumption].
    - intros x Hx. apply Hlt. apply in_concat. exists c; split; assumption.
  Qed.

  Lemma cycles_perm_inj n cs x y : valid_cycles n cs -> cycles_perm cs x = cycles_perm cs y -> x = y.
  Proof.
    intros V. rewrite <- !fold_next_perm by apply V.
    assert (HN : forall c, In c cs -> NoDup c) by (intros c Hc; eapply valid_each; eassumption).
    clear V. revert x y. induction cs as [|c cs IH]; intros x y H; [exact H|]. cbn [fold_left] in H.
    apply IH in H; [|intros; apply HN; right; assumption].
    rewrite <- !cycle_pairs_perm in H by (apply HN; left; reflexivity). eapply fold_tr_inj, H.
  Qed.
  Lemma cycles_perm_lt n cs x : valid_cycles n cs -> x < n -> cycles_perm cs x < n.
  Proof.
    intros V. rewrite <- fold_next_perm by apply V.
    assert (HN : forall c, In c cs -> forall y, In y c -> y < n) by (intros c Hc; eapply valid_each; eassumption).
    clear V. revert x. induction cs as [|c cs IH]; intros x H; [exact H|]. cbn [fold_left].
    apply IH; [intros c' Hc'; apply HN; right; assumption|].
    apply next_sites; [apply HN; left; reflexivity|assumption].
  Qed.
End Trans.

Section HamSym.
  Context {K : Type} {SR : StarRing K}.
  Add Ring KringY2 : (@k_ring K SR).
  Variable f : fermions K.
  Notation g := (f_geom f).
  Notation ns := (fg_nsites (f_geom f)).
  Notation m := (f_nspecies f).
  Notation s := (f_sys f).
  Notation nl := (nlog (f_sys f)).
  Notation N := (2 ^ nlog (f_sys f)).
  Notation q i k := (lsite (f_sys f) i k).

  (** ** Number conservation *)
  Definition NS (k : nat) : sq K N := fun a b => ksum ns (fun i => Nn nl (q i k) a b).

  Lemma Nn_Cd p r : p < nl -> r < nl ->
    seqv (N:=N) (smul (Nn nl p) (Cd nl r)) (sadd (smul (Cd nl r) (Nn nl p)) (sscale (kb (p =? r)) (Cd nl r))).
  Proof.
    intros Hp Hr. rewrite <- (Cd_Ca nl p Hp).
    destruct (Nat.eqb_spec p r) as [->|Hne].
    - pose proof (number_cdag (Rr:=sq_ring (N:=N)) (Ca nl r) (Cd nl r) (Ca_Cd_same nl r Hr) (Cd_sq nl r Hr)) as E.
      unfold comm in E. intros a b Ha Hb. specialize (E a b Ha Hb).
      unfold sadd, sscale, ssub in *. cbn [kb].
      change (ksub (smul (smul (Cd nl r) (Ca nl r)) (Cd nl r) a b) (smul (Cd nl r) (smul (Cd nl r) (Ca nl r)) a b) = Cd nl r a b) in E.
      rewrite <- E. ring.
    - pose proof (number_other (Rr:=sq_ring (N:=N)) (Ca nl p) (Cd nl p) (Cd nl r)
        (Cd_Ca_ne nl r p ltac:(congruence) Hr Hp) (Cd_Cd_ne nl r p ltac:(congruence) Hr Hp)) as E.
      intros a b Ha Hb. specialize (E a b Ha Hb). unfold sadd, sscale. cbn [kb].
      change (ksub (smul (smul (Cd nl p) (Ca nl p)) (Cd nl r) a b) (smul (Cd nl r) (smul (Cd nl p) (Ca nl p)) a b) = k0) in E.
      transitivity (kadd (ksub (smul (smul (Cd nl p) (Ca nl p)) (Cd nl r) a b) (smul (Cd nl r) (smul (Cd nl p) (Ca nl p)) a b))
        (smul (Cd nl r) (smul (Cd nl p) (Ca nl p)) a b)); [ring|]. rewrite E. ring.
  Qed.
  Lemma Nn_Ca p r : p < nl -> r < nl ->
    seqv (N:=N) (smul (Nn nl p) (Ca nl r)) (ssub (smul (Ca nl r) (Nn nl p)) (sscale (kb (p =? r)) (Ca nl r))).
  Proof.
    intros Hp Hr. rewrite <- (Cd_Ca nl p Hp).
    destruct (Nat.eqb_spec p r) as [->|Hne].
    - pose proof (number_c (Rr:=sq_ring (N:=N)) (Ca nl r) (Cd nl r) (Ca_Cd_same nl r Hr) (Ca_sq nl r Hr)) as E.
      unfold comm in E. intros a b Ha Hb. specialize (E a b Ha Hb).
      unfold ssub, sscale in *. cbn [kb].
      change (ksub (smul (smul (Cd nl r) (Ca nl r)) (Ca nl r) a b) (smul (Ca nl r) (smul (Cd nl r) (Ca nl r)) a b) = kopp (Ca nl r a b)) in E.
      transitivity (kadd (ksub (smul (smul (Cd nl r) (Ca nl r)) (Ca nl r) a b) (smul (Ca nl r) (smul (Cd nl r) (Ca nl r)) a b))
        (smul (Ca nl r) (smul (Cd nl r) (Ca nl r)) a b)); [ring|]. rewrite E. ring.
    - pose proof (number_other (Rr:=sq_ring (N:=N)) (Ca nl p) (Cd nl p) (Ca nl r)
        (Ca_Ca_ne nl r p ltac:(congruence) Hr Hp) (Ca_Cd_ne nl r p ltac:(congruence) Hr Hp)) as E.
      intros a b Ha Hb. specialize (E a b Ha Hb). unfold ssub, sscale. cbn [kb].
      change (ksub (smul (smul (Cd nl p) (Ca nl p)) (Ca nl r) a b) (smul (Ca nl r) (smul (Cd nl p) (Ca nl p)) a b) = k0) in E.
      transitivity (kadd (ksub (smul (smul (Cd nl p) (Ca nl p)) (Ca nl r) a b) (smul (Ca nl r) (smul (Cd nl p) (Ca nl p)) a b))
        (smul (Ca nl r) (smul (Cd nl p) (Ca nl p)) a b)); [ring|]. rewrite E. ring.
  Qed.

  Lemma delta_sum k i0 k' : i0 < ns -> ksum ns (fun i => kb (q i k =? q i0 k')) = kb (K:=K) (k =? k').
  Proof.
    intros Hi. destruct (Nat.eqb_spec k k') as [->|Hne].
    - rewrite (ksum_single ns i0); auto; [rewrite Nat.eqb_refl; reflexivity|].
      intros i Hi' Hn. destruct (Nat.eqb_spec (q i k') (q i0 k')) as [E|]; [|reflexivity].
      apply lsite_inj in E; auto. destruct E; congruence.
    - apply ksum_zero. intros i Hi'. destruct (Nat.eqb_spec (q i k) (q i0 k')) as [E|]; [|reflexivity].
      apply lsite_inj in E; auto. destruct E; congruence.
  Qed.

  Lemma NS_Cd k i0 k' : k < m -> i0 < ns -> k' < m ->
    seqv (N:=N) (smul (NS k) (Cd nl (q i0 k'))) (sadd (smul (Cd nl (q i0 k')) (NS k)) (sscale (kb (k =? k')) (Cd nl (q i0 k')))).
  Proof.
    intros Hk Hi Hk' a b Ha Hb. unfold NS. rewrite smul_ksum_l. unfold sadd. rewrite smul_ksum_r.
    unfold sscale. rewrite <- (delta_sum k i0 k' Hi), <- ksum_mul_r, <- ksum_add. apply ksum_ext. intros i Hi'.
    rewrite Nn_Cd by (auto; apply q_lt; assumption). reflexivity.
  Qed.
  Lemma NS_Ca k i0 k' : k < m -> i0 < ns -> k' < m ->
    seqv (N:=N) (smul (NS k) (Ca nl (q i0 k'))) (ssub (smul (Ca nl (q i0 k')) (NS k)) (sscale (kb (k =? k')) (Ca nl (q i0 k')))).
  Proof.
    intros Hk Hi Hk' a b Ha Hb. unfold NS. rewrite smul_ksum_l. unfold ssub. rewrite smul_ksum_r.
    unfold sscale. rewrite <- (delta_sum k i0 k' Hi), <- ksum_mul_r.
    assert (Sb : forall x y : K, ksub x y = kadd x (kopp y)) by (intros; ring).
    rewrite Sb, <- ksum_opp, <- ksum_add. apply ksum_ext. intros i Hi'.
    rewrite Nn_Ca by (auto; apply q_lt; assumption). unfold ssub, sscale. apply Sb.
  Qed.

  Lemma NS_hop1 k i j k' : k < m -> i < ns -> j < ns -> k' < m ->
    commutes (N:=N) (NS k) (smul (Cd nl (q i k')) (Ca nl (q j k'))).
  Proof.
    intros Hk Hi Hj Hk'. unfold commutes. rewrite <- smul_assoc, NS_Cd by assumption.
    rewrite smul_add_l, smul_assoc, NS_Ca by assumption.
    rewrite sscale_mul_l. intros a b Ha Hb. unfold sadd, ssub, sscale.
    rewrite smul_sub_r', smul_scale_r'. rewrite <- (smul_assoc _ _ (NS k) a b Ha Hb). ring.
  Qed.

  Lemma NS_Nn k p : k < m -> p < nl -> commutes (N:=N) (NS k) (Nn nl p).
  Proof.
    intros Hk Hp a b Ha Hb. unfold NS. rewrite smul_ksum_l, smul_ksum_r. apply ksum_ext. intros i Hi.
    apply NN_comm; auto. apply q_lt; assumption.
  Qed.

  Lemma NS_HS2 k t : k < m -> 2 <= m \/ (forall i, i < ns -> f_us f i = k0) -> commutes (N:=N) (NS k) (HS2 f t).
  Proof.
    intros Hk Hm a b Ha Hb. unfold HS2.
    assert (D : forall X Y : sq K N, smul X (fun a b => kadd (Y a b) k0) a b = smul X Y a b).
    { intros. unfold smul. apply ksum_ext. intros. ring. }
    rewrite !smul_add_r', !smul_sub_r', !smul_add_r', !smul_add_l', !smul_sub_l', !smul_add_l'.
    f_equal; [f_equal; [f_equal; [f_equal|]|]|].
    - rewrite smul_ksum_r, smul_ksum_l. apply ksum_ext. intros i Hi.
      rewrite smul_ksum_r, smul_ksum_l. apply ksum_ext. intros j Hj.
      rewrite smul_ksum_r, smul_ksum_l. apply ksum_ext. intros k' Hk'.
      rewrite smul_opp_r', smul_opp_l', smul_scale_r', smul_scale_l'. do 2 f_equal.
      apply (commutes_add (N:=N)); auto; apply NS_hop1; lia.
    - rewrite smul_ksum_r, smul_ksum_l. apply ksum_ext. intros i Hi. rewrite smul_scale_r', smul_scale_l'.
      destruct Hm as [Hm|Hm].
      + f_equal. apply (commutes_mul (N:=N)); auto; apply NS_Nn; auto; apply q_lt; lia.
      + rewrite Hm by assumption. ring.
    - rewrite smul_ksum_r, smul_ksum_l. apply ksum_ext. intros i Hi.
      rewrite smul_ksum_r, smul_ksum_l. apply ksum_ext. intros j Hj.
      rewrite smul_ksum_r, smul_ksum_l. apply ksum_ext. intros k' Hk'. rewrite smul_scale_r', smul_scale_l'.
      f_equal. apply (commutes_mul (N:=N)); auto; apply NS_Nn; auto; apply q_lt; lia.
    - rewrite smul_ksum_r, smul_ksum_l. apply ksum_ext. intros i Hi.
      rewrite smul_ksum_r, smul_ksum_l. apply ksum_ext. intros k' Hk'. rewrite smul_scale_r', smul_scale_l'.
      f_equal. apply NS_Nn; auto; apply q_lt; lia.
    - rewrite smul_ksum_r, smul_ksum_l. apply ksum_ext. intros i Hi.
      rewrite smul_ksum_r, smul_ksum_l. apply ksum_ext. intros k' Hk'. rewrite smul_scale_r', smul_scale_l'.
      f_equal. apply NS_Nn; auto; apply q_lt; lia.
  Qed.

  Lemma NS_number k : k < m -> seqv (N:=N) (NS k) (ent (number_spec nl ns k)).
  Proof.
    intros Hk a b Ha Hb. unfold NS, number_spec. cbn [ent].
    rewrite (ksum_ext ns _ (fun i => kmul (kb (a =? b)) (kb (occ nl b (ns * k + i))))).
    2:{ intros i Hi. rewrite n_entry by (auto; apply q_lt; assumption). cbn [n_spec ent].
        change (q i k) with (ns * k + i).
        destruct (a =? b), (occ nl b (ns * k + i)); cbn; ring. }
    rewrite ksum_mul_l. unfold occ_species.
    assert (E : forall n, ksum n (fun i => kb (occ nl b (ns * k + i))) =
      kofnat (K:=K) (length (filter (fun i => occ nl b (ns * k + i)) (seq 0 n)))).
    { induction n as [|n IH]; [cbn; symmetry; apply kofnat_0|].
      rewrite seq_S, filter_app, app_length. cbn [ksum Nat.add filter]. rewrite IH, kofnat_add.
      destruct (occ nl b (ns * k + n)); cbn [length kb]; [rewrite kofnat_S|]; rewrite kofnat_0; ring. }
    rewrite E. destruct (a =? b); cbn [kb]; ring.
  Qed.

  Lemma conserve : 2 <= m \/ (forall i, i < ns -> f_us f i = k0) ->
    exists H, createH f None = Ok H /\ square (nstates s) H /\
      (forall k, k < m -> ns <> 0 -> exists Nk, sum_op s n_op k Boson = Ok Nk /\ meq (mmul Nk H) (mmul H Nk)) /\
      (forall k a b, k < m -> a < nstates s -> b < nstates s ->
         occ_species nl ns a k <> occ_species nl ns b k -> ent H a b = k0).
  Proof.
    intros Hm. destruct (createH_ok f None) as (H & EH & SH & VH); [apply nstates2; reflexivity|assumption|].
    exists H. cbn [the_proj nrow meye] in *. rewrite (nstates2 s (f_two f)) in *.
    assert (VS : seqv (N:=N) (ent H) (HS2 f (teff f))).
    { intros a b Ha Hb. rewrite VH, sand_eye by assumption. apply HS_HS2. }
    splits; auto.
    - intros k Hk Hn. destruct (sum_op_number (K:=K) s k) as (Nk & EN & FN); auto; [reflexivity|].
      exists Nk. split; [assumption|].
      assert (SN : square N Nk) by (eapply square_meq; [symmetry; exact FN|split; reflexivity]).
      apply (meq_of_seqv N); auto using square_mul. rewrite !(ent_mul N) by assumption.
      assert (E : seqv (N:=N) (ent Nk) (NS k)).
      { rewrite (NS_number k Hk). apply (meq_seqv N); auto. split; reflexivity. }
      rewrite E, VS. apply NS_HS2; assumption.
    - intros k a b Hk Ha Hb Hne.
      pose proof (NS_HS2 k (teff f) Hk Hm) as C. unfold commutes in C.
      rewrite (NS_number k Hk) in C. rewrite <- VS in C. specialize (C a b Ha Hb).
      unfold smul in C. rewrite (ksum_single N a), (ksum_single N b) in C; auto.
      + cbn [number_spec ent] in C. rewrite !Nat.eqb_refl in C.
        set (x := ent H a b) in *. set (da := occ_species nl ns a k) in *. set (db := occ_species nl ns b k) in *.
        set (d := (inject_Z (Z.of_nat da) - inject_Z (Z.of_nat db))%Q).
        assert (Hd : ~ (d == 0)%Q).
        { intros Z. assert (Z2 : (inject_Z (Z.of_nat da) == inject_Z (Z.of_nat db))%Q) by (unfold d in Z; lra).
          apply (proj1 (inject_Z_injective _ _)) in Z2. apply Nat2Z.inj in Z2. exact (Hne Z2). }
        assert (Ed : kmul (kQ d) x = k0).
        { unfold d, Qminus. rewrite kQ_add, kQ_opp. fold (kofnat (K:=K) da) (kofnat (K:=K) db).
          transitivity (ksub (kmul (kofnat da) x) (kmul x (kofnat db))); [ring|]. rewrite C. ring. }
        transitivity (kmul (kQ (/ d * d)) x).
        * rewrite (kQ_proper (/ d * d) 1); [rewrite kQ_1; ring|]. rewrite Qmult_comm. apply Qmult_inv_r, Hd.
        * rewrite kQ_mul. transitivity (kmul (kQ (/ d)) (kmul (kQ d) x)); [ring|]. rewrite Ed. ring.
      + intros c Hc Hn. cbn. rewrite (proj2 (Nat.eqb_neq c b)) by congruence. ring.
      + intros c Hc Hn. cbn. rewrite (proj2 (Nat.eqb_neq a c)) by congruence. ring.
  Qed.

  (** ** Lattice symmetries *)
  Definition Gmoves (T : sq K N) (pi : nat -> nat) : Prop :=
    forall i k, i < ns -> k < m -> seqv (smul T (Cd nl (q i k))) (smul (Cd nl (q (pi i) k)) T) /\
      seqv (smul T (Ca nl (q i k))) (smul (Ca nl (q (pi i) k)) T).

  Lemma T_prod (T A B A' B' : sq K N) : seqv (smul T A) (smul A' T) -> seqv (smul T B) (smul B' T) ->
    seqv (smul T (smul A B)) (smul (smul A' B') T).
  Proof. intros H G. rewrite <- smul_assoc, H, smul_assoc, G, smul_assoc. reflexivity. Qed.

  Section Sym.
    Variable T : sq K N.
    Variable pi : nat -> nat.
    Hypothesis pi_lt : forall i, i < ns -> pi i < ns.
    Hypothesis pi_inj : forall i j, i < ns -> j < ns -> pi i = pi j -> i = j.
    Hypothesis HT : Gmoves T pi.

    Lemma T_hop i j k : i < ns -> j < ns -> k < m ->
      seqv (smul T (hop f (q i k) (q j k))) (smul (hop f (q (pi i) k) (q (pi j) k)) T).
    Proof.
      intros Hi Hj Hk. unfold hop. rewrite smul_add_r, smul_add_l.
      destruct (HT i k Hi Hk), (HT j k Hj Hk).
      rewrite (T_prod T (Cd nl (q i k)) (Ca nl (q j k)) (Cd nl (q (pi i) k)) (Ca nl (q (pi j) k))) by assumption.
      rewrite (T_prod T (Cd nl (q j k)) (Ca nl (q i k)) (Cd nl (q (pi j) k)) (Ca nl (q (pi i) k))) by assumption.
      reflexivity.
    Qed.
    Lemma T_N i k : i < ns -> k < m -> seqv (smul T (Nn nl (q i k))) (smul (Nn nl (q (pi i) k)) T).
    Proof.
      intros Hi Hk. destruct (HT i k Hi Hk). assert (Hp := pi_lt i Hi).
      rewrite <- (Cd_Ca nl (q i k)) by (apply q_lt; assumption).
      rewrite <- (Cd_Ca nl (q (pi i) k)) by (apply q_lt; assumption).
      apply T_prod; assumption.
    Qed.

    Variable t : nat -> nat -> nat -> K.
    Hypothesis Hm : 2 <= m \/ (forall i, i < ns -> f_us f i = k0).
    Hypothesis t_sym : forall i j k, i < ns -> j < ns -> k < m -> t i j k = t j i k.
    Hypothesis t_inv : forall i j k, i < ns -> j < ns -> k < m -> t (pi i) (pi j) k = t i j k.
    Hypothesis u_inv : forall i, i < ns -> f_us f (pi i) = f_us f i.
    Hypothesis v_sym : forall i j k, i < ns -> j < ns -> k < m -> f_same f i j k = f_same f j i k.
    Hypothesis v_inv : forall i j k, i < ns -> j < ns -> k < m -> f_same f (pi i) (pi j) k = f_same f i j k.
    Hypothesis p_inv : forall i k, i < ns -> k < m -> f_pot f (pi i) k = f_pot f i k.

    Lemma T_HS2 : commutes T (HS2 f t).
    Proof.
      intros a b Ha Hb. unfold HS2.
      rewrite !smul_add_r', !smul_sub_r', !smul_add_r', !smul_add_l', !smul_sub_l', !smul_add_l'.
      f_equal; [f_equal; [f_equal; [f_equal|]|]|].
      - set (G := fun i j => ksum m (fun k => kopp (kmul (t i j k) (smul (hop f (q i k) (q j k)) T a b)))).
        transitivity (ksum ns (fun i => ksum i (fun j => G (pi i) (pi j)))).
        + rewrite smul_ksum_r. apply ksum_ext. intros i Hi. rewrite smul_ksum_r. apply ksum_ext. intros j Hj.
          rewrite smul_ksum_r. apply ksum_ext. intros k Hk. rewrite smul_opp_r', smul_scale_r'.
          rewrite t_inv by lia. do 2 f_equal. apply T_hop; lia.
        + rewrite lower_perm by (auto; intros i j Hi Hj; apply ksum_ext; intros k Hk; rewrite t_sym by assumption;
            do 2 f_equal; unfold smul; apply ksum_ext; intros c Hc; f_equal; unfold hop, sadd; ring).
          rewrite smul_ksum_l. apply ksum_ext. intros i Hi. rewrite smul_ksum_l. apply ksum_ext. intros j Hj.
          rewrite smul_ksum_l. apply ksum_ext. intros k Hk. rewrite smul_opp_l', smul_scale_l'. reflexivity.
      - rewrite smul_ksum_r, smul_ksum_l.
        rewrite <- (ksum_reindex ns pi (fun i => smul (fun a b => kmul (f_us f i) (smul (Nn nl (q i 0)) (Nn nl (q i 1)) a b)) T a b)) by assumption.
        apply ksum_ext. intros i Hi. rewrite smul_scale_r', smul_scale_l', u_inv by assumption.
        destruct Hm as [Hm'|Hm']; [|rewrite Hm' by assumption; ring].
        f_equal. apply T_prod; auto; apply T_N; auto; lia.
      - set (G := fun i j => ksum m (fun k => kmul (f_same f i j k) (smul (smul (Nn nl (q i k)) (Nn nl (q j k))) T a b))).
        transitivity (ksum ns (fun i => ksum (S i) (fun j => G (pi i) (pi j)))).
        + rewrite smul_ksum_r. apply ksum_ext. intros i Hi. rewrite smul_ksum_r. apply ksum_ext. intros j Hj.
          rewrite smul_ksum_r. apply ksum_ext. intros k Hk. rewrite smul_scale_r'.
          rewrite v_inv by lia. f_equal. apply T_prod; auto; apply T_N; auto; lia.
        + rewrite lower_perm_le.
          * rewrite smul_ksum_l. apply ksum_ext. intros i Hi. rewrite smul_ksum_l. apply ksum_ext. intros j Hj.
            rewrite smul_ksum_l. apply ksum_ext. intros k Hk. rewrite smul_scale_l'. reflexivity.
          * assumption.
          * assumption.
          * intros i j Hi Hj. apply ksum_ext; intros k Hk. rewrite v_sym by assumption. f_equal.
            apply smul_proper; auto; [|reflexivity]. apply NN_comm; apply q_lt; assumption.
      - rewrite smul_ksum_r, smul_ksum_l.
        rewrite <- (ksum_reindex ns pi (fun i => smul (fun a b => ksum m (fun k => kmul (f_mus f k) (Nn nl (q i k) a b))) T a b)) by assumption.
        apply ksum_ext. intros i Hi. rewrite smul_ksum_l, smul_ksum_r. apply ksum_ext. intros k Hk.
        rewrite smul_scale_r', smul_scale_l'. f_equal. apply T_N; auto.
      - rewrite smul_ksum_r, smul_ksum_l.
        rewrite <- (ksum_reindex ns pi (fun i => smul (fun a b => ksum m (fun k => kmul (f_pot f i k) (Nn nl (q i k) a b))) T a b)) by assumption.
        apply ksum_ext. intros i Hi. rewrite smul_ksum_l, smul_ksum_r. apply ksum_ext. intros k Hk.
        rewrite smul_scale_r', smul_scale_l', p_inv by assumption. f_equal. apply T_N; auto.
    Qed.
  End Sym.

  Lemma symmetry cs T :
    2 <= m \/ (forall i, i < ns -> f_us f i = k0) ->
    valid_cycles ns cs ->
    xform_op s (f_swap_op s) cs = Ok (Some T) ->
    let pi := cycles_perm cs in
    (forall i j k, i < ns -> j < ns -> k < m -> teff f i j k = teff f j i k /\ teff f (pi i) (pi j) k = teff f i j k) ->
    (forall i, i < ns -> f_us f (pi i) = f_us f i) ->
    (forall i j k, i < ns -> j < ns -> k < m ->
       f_same f i j k = f_same f j i k /\ f_same f (pi i) (pi j) k = f_same f i j k) ->
    (forall i k, i < ns -> k < m -> f_pot f (pi i) k = f_pot f i k) ->
    exists H, createH f None = Ok H /\ meq (mmul T H) (mmul H T).
  Proof.
    intros Hm Hv ET pi Ht Hu Hsm Hp.
    destruct (createH_ok f None) as (H & EH & SH & VH); [apply nstates2; reflexivity|assumption|].
    exists H. split; [assumption|]. cbn [the_proj nrow meye] in *. rewrite (nstates2 s (f_two f)) in *.
    assert (VS : seqv (N:=N) (ent H) (HS2 f (teff f))).
    { intros a b Ha Hb. rewrite VH, sand_eye by assumption. apply HS_HS2. }
    assert (Hlong : m <> 0 /\ exists c, In c cs /\ 1 < length c).
    { assert (G : forall l acc A, xform_op s (f_swap_op s) cs = Ok (Some T) ->
        rfold (fun trans c => if 1 <? length c then
               rfold (fun trans ii => C <- cycle_op (f_swap_op s) c ii ;;
                        match C with None => Ok trans | Some A => one_mul A trans end) (seq 0 m) trans
             else Ok trans) l acc = Ok (Some A) -> acc = None -> m <> 0 /\ exists c, In c l /\ 1 < length c).
      { clear. induction l as [|c l IH]; intros acc A E R ->; [discriminate|]. cbn [rfold] in R.
        destruct (Nat.ltb_spec 1 (length c)) as [Hl|Hl].
        - destruct (Nat.eq_dec m 0) as [Hz|Hz].
          + assert (X : seq 0 m = []) by (rewrite Hz; reflexivity).
            match type of R with bind (rfold ?F (seq 0 m) None) _ = _ =>
              replace (rfold F (seq 0 m) None) with (@Ok (option (mat K)) None) in R by (rewrite X; reflexivity) end.
            cbn [bind] in R.
            destruct (IH None A E R eq_refl) as [Y _]. congruence.
          + split; [assumption|]. exists c; split; [left; reflexivity|assumption].
        - cbn [bind] in R. destruct (IH None A E R eq_refl) as [X (c' & Hc & Hl')].
          split; [assumption|]. exists c'; split; [right; assumption|assumption]. }
      exact (G cs None T ET ET eq_refl). }
    destruct Hlong as [Hm0 Hlong].
    destruct (xform_op_good (K:=K) s cs) as (T' & ET' & (ST & MT & _)); auto; [reflexivity|].
    assert (T' = T) by congruence. subst T'.
    apply (meq_of_seqv N); auto using square_mul. rewrite !(ent_mul N) by assumption.
    rewrite VS. apply (T_HS2 (ent T) pi).
    - intros i Hi. apply cycles_perm_lt; assumption.
    - intros i j Hi Hj. apply (cycles_perm_inj ns cs); assumption.
    - intros i k Hi Hk. destruct (MT (q i k)) as (_ & M1 & M2); [apply q_lt; assumption|].
      rewrite lift_lsite in M1, M2 by assumption. split; assumption.
    - assumption.
    - intros. apply Ht; assumption.
    - intros. apply Ht; assumption.
    - assumption.
    - intros. apply Hsm; assumption.
    - intros. apply Hsm; assumption.
    - assumption.
  Qed.
End HamSym.

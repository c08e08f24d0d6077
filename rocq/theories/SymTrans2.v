(** Two commuting translations, continued. *)
From Coq Require Import List Arith Lia ZArith Reals Lra Bool Ring Setoid Morphisms Permutation.
From Verif Require Import Scalars Sums Res Matrix SpecMat ModelPhase ModelSymmetry SpecSymmetry
  GeoPhase SymBase SymReduce SymMany SymGroup SymRep SymTable SymZn SymTrans SiteProofs.
Import ListNotations.
Local Open Scope R_scope.

Lemma reduce_one_support N p g svd rel :
  nrow p = N -> ncol p = N -> 0 < g ->
  (forall i j, (i < N)%nat -> (j < N)%nat -> ent p i j = conj (ent p j i)) ->
  (forall i j, (i < N)%nat -> (j < N)%nat -> ksum N (fun k => ent p i k *c ent p k j) = real g *c ent p i j) ->
  (forall i j, (i < N)%nat -> (j < N)%nat -> ent p i j <> c0 -> noise <= modulus (ent p i j)) ->
  (forall i k, (i < N)%nat -> (k < N)%nat -> ent p i k <> c0 ->
     exists u, forall j, (j < N)%nat -> ent p i j = u *c ent p k j) ->
  let B := reduce_projector svd p (1, 0) rel in
  (forall a b j, (a < nrow B)%nat -> (b < nrow B)%nat -> (j < N)%nat -> ent B a j <> c0 -> ent B b j <> c0 -> a = b) /\
  (forall a i j, (a < nrow B)%nat -> (i < N)%nat -> (j < N)%nat -> ent B a j <> c0 -> (ent p j i <> c0 <-> ent B a i <> c0)).
Proof.
  intros Hr Hc Hg Hh Hi Hl Hp B.
  destruct (reduce_one_basis N p g Hr Hc Hh Hi Hl svd rel) as (E1 & E2 & E3). fold B in E1, E2, E3.
  set (r := fun a => nth a (picked p) O).
  assert (Hr' : forall a, (a < nrow B)%nat -> (r a < N)%nat /\ ~ zero_row p (r a)).
  { intros a Ha. apply (picked_ok N p Hr Hc Hl), nth_In. rewrite <- E1. assumption. }
  assert (Hent : forall a j, (a < nrow B)%nat -> (j < N)%nat -> (ent B a j <> c0 <-> ent p (r a) j <> c0)).
  { intros a j Ha Hj. rewrite E3 by (rewrite <- ?E1; assumption). cbn [basis ent]. fold (r a).
    pose proof (Hr' a Ha) as (R1 & R2).
    pose proof (weight_pos N p g Hc Hg Hh Hi (r a) R1 R2) as W.
    split; intros X Y; apply X.
    - rewrite Y. ring.
    - apply mul_0 in Y as [Y|Y]; [|exact Y]. exfalso.
      apply (f_equal fst) in Y. change (/ sqrt (g * weight p (r a)) = 0) in Y.
      assert (0 < sqrt (g * weight p (r a))) by (apply sqrt_lt_R0, Rmult_lt_0_compat; assumption).
      pose proof (Rinv_0_lt_compat _ H). lra. }
  split.
  - intros a b j Ha Hb Hj Xa Xb. apply Hent in Xa, Xb; auto. destruct (Hr' a Ha) as (Ra & _). destruct (Hr' b Hb) as (Rb & _).
    pose proof (same_first N p Hc Hp (r a) j Ra Hj Xa) as Fa.
    pose proof (same_first N p Hc Hp (r b) j Rb Hj Xb) as Fb.
    apply (NoDup_nth (map (first_col p) (picked p)) O).
    + rewrite (map_first_picked N p Hr Hc Hl). apply increasing_NoDup, unique_nats_increasing.
    + rewrite map_length, <- E1. assumption.
    + rewrite map_length, <- E1. assumption.
    + rewrite !(nth_indep (map (first_col p) (picked p)) O (first_col p O)) by (rewrite map_length, <- E1; assumption).
      rewrite !map_nth. fold (r a). fold (r b). congruence.
  - intros a i j Ha Hi' Hj X. rewrite Hent by assumption. apply Hent in X; auto. destruct (Hr' a Ha) as (Ra & _).
    pose proof (same_support N p Hp (r a) j Ra Hj X i Hi') as S. tauto.
Qed.

Lemma rmap_build {A B} (f : A -> res B) (P : A -> B -> Prop) l :
  (forall x, In x l -> exists y, f x = Ok y /\ P x y) -> exists ys, rmap f l = Ok ys /\ Forall2 P l ys.
Proof.
  induction l as [|x l IH]; intros H; [exists []; split; [reflexivity|constructor]|].
  destruct (H x (or_introl eq_refl)) as (y & E & Py). destruct IH as (ys & Ey & Hys).
  { intros; apply H; right; assumption. }
  exists (y :: ys). split; [cbn [rmap]; rewrite E; cbn [bind]; rewrite Ey; reflexivity|constructor; assumption].
Qed.

Section Two.
  Variables (N n1 n2 : nat) (T1 T2 : cmat) (svd : cmat -> cmat).
  Hypothesis H1 : (0 < n1)%nat.
  Hypothesis H2 : (0 < n2)%nat.
  Hypothesis M1 : moves_states N T1.
  Hypothesis M2 : moves_states N T2.
  Hypothesis P1 : meq (mpow N T1 n1) (meye N).
  Hypothesis P2 : meq (mpow N T2 n2) (meye N).
  Hypothesis Hcom : meq (mmul T1 T2) (mmul T2 T1).

  Lemma T2_sq : square N T2.
  Proof. apply M2. Qed.

  (** A sector of the first translation. *)
  Section OneSector.
    Variables (Bs : list cmat) (k : nat).
    Hypothesis Hk : (k < n1)%nat.
    Hypothesis HBs : zn_projectors svd T1 n1 = Ok Bs.
    Notation B := (nth k Bs (mzero 0 0)).
    Notation x := (fun e => root n1 (k * e)).
    Notation P := (comb n1 (op_pow T1) (fun e => root n1 (k * e))).

    Lemma sector_facts : ncol B = N /\ meq (mmul B (madj B)) (meye (nrow B)) /\
      (forall X, square N X -> meq (mmul T1 X) (mmul X T1) -> keeps N B X) /\
      (forall a b j, (a < nrow B)%nat -> (b < nrow B)%nat -> (j < N)%nat -> ent B a j <> c0 -> ent B b j <> c0 -> a = b) /\
      (forall a i j, (a < nrow B)%nat -> (i < N)%nat -> (j < N)%nat -> ent B a j <> c0 -> (P j i <> c0 <-> ent B a i <> c0)).
    Proof.
      destruct (zn_ok N n1 T1 svd H1 M1 P1) as (Bs' & E & Hlen & Hsp & _ & _ & Hred).
      rewrite HBs in E. injection E as <-.
      destruct (Hred k Hk) as (p & Ep & (Pr & Pc) & Hp).
      pose proof (zn_rep N n1 T1 H1 M1 P1) as HR.
      assert (Hx1 : one_dim n1 (zmu n1) (zinv n1) x).
      { intros h Hh. exists (conj (root n1 (k * h))). split; [rewrite nsq_conj; apply root_unit|].
        intros t Ht. apply zn_shift; assumption. }
      assert (Hx2 : forall e, (e < n1)%nat -> x (zinv n1 e) = conj (x e)).
      { intros e He. cbv beta. unfold zinv. rewrite root_mul_mod by assumption. apply root_neg; [assumption|lia]. }
      assert (Hx3 : forall t, (t < n1)%nat -> conv n1 (zmu n1) (zinv n1) x x t = real (INR n1) *c x t).
      { intros t Ht. unfold conv.
        transitivity (ksum n1 (fun e => root n1 (k * t) *c (root n1 (k * e) *c conj (root n1 (k * e))))).
        - apply ksum_ext. intros e He. rewrite zn_shift by assumption. ring.
        - rewrite ksum_mul_l, root_orth by assumption. rewrite Nat.eqb_refl. ring. }
      assert (Hg : 0 < INR n1) by (apply lt_0_INR; assumption).
      assert (A1 : forall i j, (i < N)%nat -> (j < N)%nat -> ent p i j = conj (ent p j i)).
      { intros i j Hi Hj. rewrite !Hp by assumption. apply (comb_herm N n1 _ _ _ HR); assumption. }
      assert (A2 : forall i j, (i < N)%nat -> (j < N)%nat -> ksum N (fun l => ent p i l *c ent p l j) = real (INR n1) *c ent p i j).
      { intros i j Hi Hj. rewrite Hp by assumption. rewrite (ksum_ext N _ (fun l => P i l *c P l j)).
        2:{ intros l Hl. rewrite !Hp by assumption. reflexivity. }
        rewrite (comb_mul N n1 _ _ _ HR) by assumption. rewrite <- comb_scale. apply comb_ext. assumption. }
      assert (A3 : forall i j, (i < N)%nat -> (j < N)%nat -> ent p i j <> c0 -> noise <= modulus (ent p i j)).
      { intros i j Hi Hj. rewrite Hp by assumption. intros Hne. apply Rle_trans with 1; [apply noise_le_1|].
        apply (comb_large N n1 _ _ _ HR); assumption. }
      assert (A4 : forall i l, (i < N)%nat -> (l < N)%nat -> ent p i l <> c0 ->
        exists u, forall j, (j < N)%nat -> ent p i j = u *c ent p l j).
      { intros i l Hi Hl. rewrite Hp by assumption. intros Hne.
        destruct (comb_prop N n1 _ _ _ HR x Hx1 i l Hi Hl (comb_linked _ _ _ _ _ Hne)) as (u & _ & Hu).
        exists u. intros j Hj. rewrite !Hp by assumption. apply Hu. assumption. }
      destruct (reduce_one_support N p (INR n1) svd (related N (map (fun l => [op_pow T1 l]) (seq 0 n1))) Pr Pc Hg A1 A2 A3 A4) as (S1 & S2).
      destruct (reduce_one_sector N p (INR n1) svd (related N (map (fun l => [op_pow T1 l]) (seq 0 n1))) Pr Pc Hg A1 A2 A3 A4) as (C1 & C2 & C3).
      rewrite <- Ep in *. split; [exact C1|]. split; [exact C2|]. split; [|split].
      - intros X (X1 & X2) HX. split; [split; assumption|].
        etransitivity; [apply mm; [exact C3|dims|reflexivity]|].
        etransitivity; [|symmetry; apply mm; [reflexivity|dims|exact C3]].
        etransitivity; [apply mmul_scale_l|]. etransitivity; [|symmetry; apply mmul_scale_r]. apply mscale_meq.
        split; [cbn; congruence|]. split; [cbn; congruence|]. cbn [mmul nrow ncol ent]. rewrite Pr, Pc, X2. intros i j Hi Hj.
        transitivity (ksum n1 (fun e => x e *c ksum N (fun l => ent (op_pow T1 e) i l *c ent X l j))).
        { transitivity (ksum N (fun l => ksum n1 (fun e => x e *c (ent (op_pow T1 e) i l *c ent X l j)))).
          { apply ksum_ext. intros l Hl. rewrite Hp by assumption. unfold comb. rewrite <- ksum_mul_r. apply ksum_ext. intros; ring. }
          rewrite ksum_swap. apply ksum_ext. intros e _. rewrite ksum_mul_l. reflexivity. }
        transitivity (ksum n1 (fun e => x e *c ksum N (fun l => ent X i l *c ent (op_pow T1 e) l j))).
        { apply ksum_ext. intros e He.
          destruct (op_pow_commute N T1 (proj1 (proj1 M1)) X e (Coq.Init.Logic.conj X1 X2) HX) as (_ & _ & E).
          destruct (op_pow_sq N T1 (proj1 (proj1 M1)) e) as (R1 & R2). specialize (E i j). cbn [mmul nrow ncol ent] in E.
          rewrite R1, R2, X2 in E. rewrite E by assumption. reflexivity. }
        transitivity (ksum N (fun l => ksum n1 (fun e => x e *c (ent X i l *c ent (op_pow T1 e) l j)))).
        { rewrite ksum_swap. apply ksum_ext. intros e _. rewrite ksum_mul_l. reflexivity. }
        apply ksum_ext. intros l Hl. rewrite Hp by assumption. unfold comb. rewrite <- ksum_mul_l. apply ksum_ext. intros; ring.
      - exact S1.
      - intros a i j Ha Hi Hj. rewrite <- Hp by assumption. apply S2; assumption.
    Qed.

    Lemma sub_moves : moves_states (nrow B) (compress B T2).
    Proof.
      destruct sector_facts as (F1 & F2 & F3 & F4 & F5). pose proof (zn_rep N n1 T1 H1 M1 P1) as HR.
      pose proof T2_sq as (T2r & T2c).
      split; [apply (compress_unitary N B F1 F2); [apply F3; [exact T2_sq|exact Hcom]|apply M2]|].
      assert (Hsup : forall a b, (a < nrow B)%nat -> (b < nrow B)%nat -> ent (compress B T2) a b <> c0 ->
        exists i j, (i < N)%nat /\ (j < N)%nat /\ ent B a i <> c0 /\ ent T2 i j <> c0 /\ ent B b j <> c0).
      { intros a b Ha Hb Hne.
        destruct (existsb (fun ij => kneb (ent B a (fst ij)) c0 && kneb (ent T2 (fst ij) (snd ij)) c0 && kneb (ent B b (snd ij)) c0)%bool
          (list_prod (seq 0 N) (seq 0 N))) eqn:E.
        - apply existsb_exists in E as ((i & j) & Hij & E). apply in_prod_iff in Hij as (Hi & Hj). apply in_seq in Hi, Hj.
          cbn [fst snd] in E. apply andb_true_iff in E as (E & E3). apply andb_true_iff in E as (E1 & E2).
          apply kneb_true in E1, E2, E3. exists i, j. repeat split; auto; lia.
        - exfalso. apply Hne. cbn [compress mmul madj ent]. rewrite F1, T2c. apply ksum_zero. intros i Hi.
          destruct (cr_eq_dec (ent B a i) c0) as [X|X]; [change (0,0) with c0 in X; rewrite X; ring|].
          rewrite ksum_zero; [ring|]. intros j Hj.
          destruct (cr_eq_dec (ent T2 i j) c0) as [Y|Y]; [change (0,0) with c0 in Y; rewrite Y; ring|].
          destruct (cr_eq_dec (ent B b j) c0) as [Z|Z]; [change (0,0) with c0 in Z; rewrite Z, kconj_0; ring|].
          exfalso. match type of E with ?t = false => assert (W : t = true); [|congruence] end.
          apply existsb_exists. exists (i, j). split; [apply in_prod_iff; split; apply in_seq; lia|].
          cbn [fst snd]. rewrite !andb_true_iff. repeat split; apply kneb_true; assumption. }
      intros a b c Ha Hb Hc Xb Xc.
      destruct (Hsup a b Ha Hb Xb) as (i & j & Hi & Hj & I1 & I2 & I3).
      destruct (Hsup a c Ha Hc Xc) as (i' & j' & Hi' & Hj' & J1 & J2 & J3).
      assert (L : linked n1 (op_pow T1) i i').
      { apply (comb_linked n1 (op_pow T1) x). apply (F5 a); auto. }
      destruct L as (e & He & Hne).
      assert (Hjj : ent (op_pow T1 e) j j' <> c0).
      { destruct (op_pow_commute N T1 (proj1 (proj1 M1)) T2 e T2_sq Hcom) as (_ & _ & E).
        destruct (op_pow_sq N T1 (proj1 (proj1 M1)) e) as (R1 & R2). specialize (E i j'). cbn [mmul nrow ncol ent] in E.
        rewrite R1, R2, T2c in E. specialize (E Hi Hj').
        rewrite (r_pick N n1 _ _ _ HR e i i' (fun l => ent T2 l j')) in E by assumption.
        rewrite (ksum_single N j) in E; [|assumption|].
        2:{ intros l Hl Hlj. destruct (cr_eq_dec (ent T2 i l) c0) as [X|X]; [change (0,0) with c0 in X; rewrite X; ring|].
            exfalso. apply Hlj. apply (proj2 M2 i); assumption. }
        intros Z. rewrite Z in E. assert (Z' : ent (op_pow T1 e) i i' *c ent T2 i' j' = c0) by (rewrite E; ring).
        apply mul_0 in Z'. tauto. }
      assert (Hx1 : one_dim n1 (zmu n1) (zinv n1) x).
      { intros h Hh. exists (conj (root n1 (k * h))). split; [rewrite nsq_conj; apply root_unit|].
        intros t Ht. apply zn_shift; assumption. }
      assert (Hx2 : forall e, (e < n1)%nat -> x (zinv n1 e) = conj (x e)).
      { intros e' He'. cbv beta. unfold zinv. rewrite root_mul_mod by assumption. apply root_neg; [assumption|lia]. }
      destruct (comb_prop N n1 _ _ _ HR x Hx1 j j' Hj Hj') as (u & Hu & Huj).
      { exists e. split; assumption. }
      assert (Pjj : P j j <> c0) by (apply (F5 b); auto).
      assert (Pj'j : P j' j <> c0) by (intros Z; apply Pjj; rewrite (Huj j Hj), Z; ring).
      assert (Pjj' : P j j' <> c0).
      { intros Z. apply Pj'j. rewrite (comb_herm N n1 _ _ _ HR x Hx2 j' j) by assumption. rewrite Z. apply kconj_0. }
      apply (F4 b c j'); auto. apply (F5 b j' j); auto.
    Qed.

    Lemma sub_period : meq (mpow (nrow B) (compress B T2) n2) (meye (nrow B)).
    Proof.
      destruct sector_facts as (F1 & F2 & F3 & F4 & F5).
      pose proof (F3 T2 T2_sq Hcom) as K.
      etransitivity; [apply (compress_pow N B F1 F2); exact K|].
      etransitivity; [|apply (compress_eye N B F1 F2)]. apply (compress_meq N B F1); [|exact P2].
      assert (Hs : forall q, square N (mpow N T2 q)); [|apply Hs].
      induction q as [|q (I1 & I2)]; [split; reflexivity|]. destruct T2_sq. split; cbn; assumption.
    Qed.
  End OneSector.

  Definition in_part (p : cmat) (k1 : R) (c : cmat * R * R) : Prop :=
    let C := fst (fst c) in
    ncol C = N /\ meq (mmul C (madj C)) (meye (nrow C)) /\ snd (fst c) = k1 /\ In (snd c) (zn_ks n2) /\
    acts_as C T1 (cexp (- k1)) /\ acts_as C T2 (cexp (- snd c)) /\
    exists q, ncol q = nrow p /\ C = mmul q p.

  Definition part (pk : cmat * R) (ys : list (cmat * R * R)) : Prop :=
    let p := fst pk in
    (forall c, In c ys -> in_part p (snd pk) c) /\
    map snd ys = zn_ks n2 /\
    (forall H, square N H -> meq (mmul T1 H) (mmul H T1) -> meq (mmul T2 H) (mmul H T2) ->
       ForallOrdPairs (clean_pair H) (map (fun c => fst (fst c)) ys)) /\
    (forall i j, (i < N)%nat -> (j < N)%nat ->
       klsum ys (fun c => ent (mmul (madj (fst (fst c))) (fst (fst c))) i j) = ent (mmul (madj p) p) i j).

  Lemma symmetry_total T cl N' l : symmetry_projectors svd N' T cl = Ok l -> list_sum (map (@nrow CR) l) = N'.
  Proof.
    unfold symmetry_projectors. destruct (validate_table T (map (@length cmat) cl)) as [b|x]; cbn [bind]; [|discriminate].
    destruct (negb b); [discriminate|]. destruct (Nat.eqb_spec (list_sum (map (@nrow CR) (map (fun a => reduce_projector svd (sector_op N' T cl a) (ent T a O) (related N' cl)) (seq 0 (nrow T))))) N') as [E|E]; [|discriminate].
    intros X. injection X as <-. exact E.
  Qed.

  Lemma clean_compose H p p' q q' : ncol p = N -> ncol p' = N -> square N H -> ncol q = nrow p -> ncol q' = nrow p' ->
    meq (mmul p (mmul H (madj p'))) (mzero (nrow p) (nrow p')) ->
    meq (mmul (mmul q p) (mmul H (madj (mmul q' p')))) (mzero (nrow q) (nrow q')).
  Proof.
    intros Cp Cp' (Hr & Hc) Cq Cq' E.
    etransitivity; [apply mm; [reflexivity|dims|apply mm; [reflexivity|dims|apply madj_mul; dims]]|].
    etransitivity; [apply mmul_assoc; dims|].
    etransitivity.
    { apply mm; [reflexivity|dims|]. etransitivity; [apply mm; [reflexivity|dims|symmetry; apply mmul_assoc; dims]|].
      etransitivity; [symmetry; apply mmul_assoc; dims|].
      etransitivity; [apply mm; [exact E|dims|reflexivity]|]. apply mmul_zero_l. }
    etransitivity; [apply mmul_zero_r|]. reflexivity.
  Qed.

  Lemma part_ok Bs k : (k < n1)%nat -> zn_projectors svd T1 n1 = Ok Bs ->
    let p := nth k Bs (mzero 0 0) in let k1 := nth k (zn_ks n1) 0 in
    exists ys, (sub <- zn_projectors svd (mmul p (mmul T2 (madj p))) n2 ;;
      if (list_sum (map (@nrow CR) sub) =? nrow p)%nat
      then Ok (map (fun qk => (mmul (fst qk) p, k1, snd qk)) (combine sub (zn_ks n2)))
      else Raise GenericException) = Ok ys /\ part (p, k1) ys.
  Proof.
    intros Hk HBs p k1.
    destruct (sector_facts Bs k Hk HBs) as (F1 & F2 & F3 & _). fold p in F1, F2, F3.
    pose proof (sub_moves Bs k Hk HBs) as SM. pose proof (sub_period Bs k Hk HBs) as SP. fold p in SM, SP.
    destruct (zn_ok N n1 T1 svd H1 M1 P1) as (Bs' & E & _ & _ & Hact1 & _). rewrite HBs in E. injection E as <-.
    specialize (Hact1 k Hk). fold p in Hact1. fold k1 in Hact1.
    destruct (zn_ok (nrow p) n2 (compress p T2) svd H2 SM SP) as (sub & Es & Hlen & Hsp & Hact2 & Hblk & _).
    change (mmul p (mmul T2 (madj p))) with (compress p T2). rewrite Es. cbn [bind].
    assert (Htot : list_sum (map (@nrow CR) sub) = nrow p).
    { unfold zn_projectors in Es. destruct (n2 =? 0)%nat; [discriminate|]. apply symmetry_total in Es. exact Es. }
    rewrite Htot, Nat.eqb_refl. eexists. split; [reflexivity|].
    assert (Hks : length (zn_ks n2) = n2) by (unfold zn_ks; rewrite map_length, seq_length; reflexivity).
    apply splits_lists in Hsp as (Q1 & Q2 & Q3).
    pose proof T2_sq as (T2r & T2c). pose proof (proj1 (proj1 M1)) as (T1r & T1c).
    assert (Qcol : forall q, In q sub -> ncol q = nrow p) by (intros; apply Q1; assumption).
    pose proof (F3 T2 T2_sq Hcom) as KT2.
    unfold part. cbn [fst snd]. split; [|split; [|split]].
    - intros c Hc. apply in_map_iff in Hc as ((q & k2) & <- & Hq). cbn [fst snd].
      pose proof (in_combine_l _ _ _ _ Hq) as Hql. pose proof (in_combine_r _ _ _ _ Hq) as Hqr.
      destruct (Q1 q Hql) as (Cq & Oq). unfold in_part. cbn [fst snd].
      assert (Aq : acts_as q (compress p T2) (cexp (- k2))).
      { destruct (In_nth _ _ (mzero 0 0, 0) Hq) as (l & Hl & El). rewrite combine_nth in El by congruence.
        injection El as El1 El2. rewrite combine_length, Hlen, Hks, Nat.min_id in Hl.
        rewrite <- El1, <- El2. apply Hact2. assumption. }
      assert (Ad : meq (madj (mmul q p)) (mmul (madj p) (madj q))) by (apply madj_mul; congruence).
      split; [cbn; exact F1|]. split; [|split; [reflexivity|split; [exact Hqr|split; [|split]]]].
      + etransitivity; [apply mm; [reflexivity|dims|exact Ad]|].
        etransitivity; [apply mmul_assoc; dims|].
        etransitivity; [apply mm; [reflexivity|dims|]|].
        { etransitivity; [symmetry; apply mmul_assoc; dims|].
          etransitivity; [apply mm; [exact F2|dims|reflexivity]|]. apply mmul_eye_l. dims. }
        exact Oq.
      + unfold acts_as in *. etransitivity; [apply mm; [reflexivity|dims|exact Ad]|].
        etransitivity; [symmetry; apply mmul_assoc; dims|].
        etransitivity; [apply mm; [exact Hact1|dims|reflexivity]|].
        etransitivity; [apply mmul_scale_l|]. apply mscale_meq. symmetry. exact Ad.
      + unfold acts_as in *. etransitivity; [apply mm; [reflexivity|dims|exact Ad]|].
        etransitivity; [symmetry; apply mmul_assoc; dims|].
        etransitivity; [apply mm; [apply (push_adj N p F1 F2 T2 KT2)|dims|reflexivity]|].
        etransitivity; [apply mmul_assoc; dims|].
        etransitivity; [apply mm; [reflexivity|dims|exact Aq]|].
        etransitivity; [apply mmul_scale_r|]. apply mscale_meq. symmetry. exact Ad.
      + exists q. split; [exact Cq|reflexivity].
    - rewrite map_map. cbn [snd].
      assert (Hc : forall (A : Type) (l : list A) (l' : list R), length l = length l' -> map snd (combine l l') = l').
      { clear. intros A l. induction l as [|x l IH]; intros [|y l'] H; cbn; try discriminate; [reflexivity|].
        f_equal. apply IH. injection H. auto. }
      apply Hc. congruence.
    - intros H (Hr & Hc) C1 C2.
      pose proof (F3 H (Coq.Init.Logic.conj Hr Hc) C1) as KH.
      assert (Hblk' : block_diagonal sub (compress p H)).
      { apply Hblk; [split; reflexivity|].
        etransitivity; [apply (compress_mul N p F1 F2); [exact KH|exact T2_sq]|].
        etransitivity; [|symmetry; apply (compress_mul N p F1 F2); [exact KT2|split; assumption]].
        apply (compress_meq N p F1); [split; dims|exact C2]. }
      apply block_diagonal_FOP in Hblk'. rewrite map_map. cbn [fst].
      assert (Hmap : forall (l : list cmat) (l' : list R), length l = length l' ->
        map (fun x : cmat * R => mmul (fst x) p) (combine l l') = map (fun q => mmul q p) l).
      { clear. intros l. induction l as [|x l IH]; intros [|y l'] H; cbn; try discriminate; [reflexivity|].
        f_equal. apply IH. injection H. auto. }
      rewrite Hmap by congruence. apply FOP_map. refine (FOP_impl _ _ _ _ Hblk').
      assert (Hhalf : forall q q', In q sub -> In q' sub ->
        meq (mmul q (mmul (compress p H) (madj q'))) (mzero (nrow q) (nrow q')) ->
        meq (mmul (mmul q p) (mmul H (madj (mmul q' p)))) (mzero (nrow q) (nrow q'))).
      { intros q q' Hq Hq' E. pose proof (Qcol q Hq) as Cq. pose proof (Qcol q' Hq') as Cq'.
        etransitivity; [|exact E].
        etransitivity; [apply mm; [reflexivity|dims|apply mm; [reflexivity|dims|apply madj_mul; dims]]|].
        etransitivity; [apply mmul_assoc; dims|]. apply mm; [reflexivity|dims|].
        unfold compress.
        etransitivity; [apply mm; [reflexivity|dims|symmetry; apply mmul_assoc; dims]|].
        symmetry. apply mmul_assoc. dims. }
      intros q q' Hq Hq' (E1 & E2). split; [exact (Hhalf q q' Hq Hq' E1)|exact (Hhalf q' q Hq' Hq E2)].
    - intros i j Hi Hj. rewrite klsum_map. cbn [fst].
      assert (Hmap : forall (l : list cmat) (l' : list R) (f : cmat -> CR), length l = length l' ->
        klsum (combine l l') (fun x => f (fst x)) = klsum l f).
      { clear. intros l. induction l as [|x l IH]; intros [|y l'] f H; cbn; try discriminate; [reflexivity|].
        f_equal. apply IH. injection H. auto. }
      rewrite (Hmap sub (zn_ks n2) (fun q => ent (mmul (madj (mmul q p)) (mmul q p)) i j)) by congruence.
      transitivity (klsum sub (fun q => ksum (nrow p) (fun a => ksum (nrow p) (fun b => conj (ent p a i) *c ent (mmul (madj q) q) a b *c ent p b j)))).
      { apply klsum_ext. intros q Hq. pose proof (Qcol q Hq) as Cq.
        cbn [mmul madj ent ncol nrow]. rewrite Cq.
        transitivity (ksum (nrow q) (fun r => ksum (nrow p) (fun a => ksum (nrow p) (fun b =>
          conj (ent p a i) *c (conj (ent q r a) *c ent q r b) *c ent p b j)))).
        { apply ksum_ext. intros r _. rewrite ksum_conj, <- ksum_mul_r. apply ksum_ext. intros a _.
          rewrite <- ksum_mul_l. apply ksum_ext. intros b _. rewrite kconj_mul. ring. }
        rewrite ksum_swap. apply ksum_ext. intros a _. rewrite ksum_swap. apply ksum_ext. intros b _.
        rewrite ksum_mul_r. rewrite ksum_mul_l. reflexivity. }
      rewrite klsum_ksum. cbn [mmul madj ent ncol]. apply ksum_ext. intros a Ha. rewrite klsum_ksum.
      rewrite (ksum_single (nrow p) a).
      + rewrite (klsum_ext sub _ (fun q => conj (ent p a i) *c ent p a j *c ent (mmul (madj q) q) a a)) by (intros; cbn [mmul madj ent ncol]; ring).
        rewrite klsum_mul_l, Q3 by assumption. rewrite Nat.eqb_refl. cbn [kb]. ring.
      + assumption.
      + intros b Hb Hne. rewrite (klsum_ext sub _ (fun q => conj (ent p a i) *c ent p b j *c ent (mmul (madj q) q) a b)) by (intros; cbn [mmul madj ent ncol]; ring).
        rewrite klsum_mul_l, Q3 by assumption. destruct (Nat.eqb_spec a b); [congruence|]. cbn [kb]. ring.
  Qed.

  Lemma nodup_prod {A B} (l : list A) (l' : list B) : NoDup l -> NoDup l' -> NoDup (list_prod l l').
  Proof.
    intros H H'. induction H as [|a l Ha Hl IH]; cbn [list_prod]; [constructor|].
    assert (Hsep : forall x, In x (map (fun y : B => (a, y)) l') -> ~ In x (list_prod l l')).
    { intros x Hx X. apply in_map_iff in Hx as (y & <- & _). apply in_prod_iff in X as (X & _). contradiction. }
    assert (Hm : NoDup (map (fun y : B => (a, y)) l')).
    { apply FinFun.Injective_map_NoDup; [|assumption]. intros y y' E. injection E. auto. }
    revert Hm Hsep. clear - IH. generalize (map (fun y : B => (a, y)) l'). intros l0 Hm Hsep. induction l0 as [|x t IHt]; cbn [app]; [assumption|].
    inversion Hm; subst. constructor.
    - rewrite in_app_iff. intros [X|X]; [contradiction|]. apply (Hsep x); [left; reflexivity|assumption].
    - apply IHt; [assumption|]. intros; apply Hsep; right; assumption.
  Qed.

  Lemma zn_ks_nodup n : NoDup (zn_ks n).
  Proof.
    unfold zn_ks. destruct n as [|n]; [constructor|]. apply FinFun.Injective_map_NoDup; [|apply seq_NoDup].
    intros a b E. assert (Hn : INR (S n) <> 0) by (apply not_0_INR; lia). pose proof PI_neq0.
    apply INR_eq. apply (Rmult_eq_reg_l (2 * PI / INR (S n))).
    - transitivity (2 * PI * INR a / INR (S n)); [field; assumption|]. etransitivity; [|transitivity (2 * PI * INR b / INR (S n)); [exact E|field; assumption]]. reflexivity.
    - unfold Rdiv. apply Rmult_integral_contrapositive_currified; [lra|]. apply Rinv_neq_0_compat. assumption.
  Qed.

  Theorem translation_ok : (0 < N)%nat -> exists l, translation_projectors svd T1 n1 T2 n2 = Ok l /\
    splits N (map (fun c => fst (fst c)) l) /\
    NoDup (map (fun c => (snd (fst c), snd c)) l) /\
    (forall c, In c l -> (0 < nrow (fst (fst c)))%nat /\ In (snd (fst c)) (zn_ks n1) /\ In (snd c) (zn_ks n2) /\
       acts_as (fst (fst c)) T1 (cexp (- snd (fst c))) /\ acts_as (fst (fst c)) T2 (cexp (- snd c))) /\
    (forall H, square N H -> meq (mmul T1 H) (mmul H T1) -> meq (mmul T2 H) (mmul H T2) ->
       block_diagonal (map (fun c => fst (fst c)) l) H).
  Proof.
    intros HN. destruct (zn_ok N n1 T1 svd H1 M1 P1) as (Bs & EBs & Hlen & Hsp & _ & Hblk & _).
    unfold translation_projectors. rewrite EBs. cbn [bind].
    assert (Hks : length (zn_ks n1) = n1) by (unfold zn_ks; rewrite map_length, seq_length; reflexivity).
    set (F := fun pk : cmat * R => sub <- zn_projectors svd (mmul (fst pk) (mmul T2 (madj (fst pk)))) n2 ;;
      if (list_sum (map (@nrow CR) sub) =? nrow (fst pk))%nat
      then Ok (map (fun qk => (mmul (fst qk) (fst pk), snd pk, snd qk)) (combine sub (zn_ks n2)))
      else Raise GenericException).
    destruct (rmap_build F part (combine Bs (zn_ks n1))) as (parts & Ep & Hparts).
    { intros (p & k1) Hpk. destruct (In_nth _ _ (mzero 0 0, 0) Hpk) as (k & Hk & Ek). rewrite combine_nth in Ek by congruence.
      rewrite combine_length, Hlen, Hks, Nat.min_id in Hk. injection Ek as <- <-.
      apply (part_ok Bs k Hk EBs). }
    change (rmap (fun pk : cmat * R => _) (combine Bs (zn_ks n1))) with (rmap F (combine Bs (zn_ks n1))).
    rewrite Ep. cbn [bind].
    apply splits_lists in Hsp as (Q1 & Q2 & Q3).
    set (all := concat parts).
    (* facts about the whole list *)
    assert (Hin : forall c, In c all -> exists pk, In pk (combine Bs (zn_ks n1)) /\ in_part (fst pk) (snd pk) c).
    { unfold all. clear - Hparts. induction Hparts as [|pk ys l parts Hp H IH]; intros c Hc; [destruct Hc|].
      cbn [concat] in Hc. apply in_app_iff in Hc as [Hc|Hc].
      - exists pk. split; [left; reflexivity|]. apply Hp. assumption.
      - destruct (IH c Hc) as (pk' & X & Y). exists pk'. split; [right; assumption|assumption]. }
    assert (Hfst : map fst (combine Bs (zn_ks n1)) = Bs).
    { clear - Hlen Hks. rewrite <- Hks in Hlen. clear Hks. revert Hlen. generalize (zn_ks n1). induction Bs as [|x Bs IH]; intros [|y l] Hl; cbn in *; try discriminate; [reflexivity|].
      f_equal. apply IH. injection Hl. auto. }
    assert (Hall : forall H, square N H -> meq (mmul T1 H) (mmul H T1) -> meq (mmul T2 H) (mmul H T2) ->
      ForallOrdPairs (clean_pair H) (map (fun c => fst (fst c)) all)).
    { intros H HH C1 C2. pose proof (proj1 (block_diagonal_FOP H Bs) (Hblk H HH C1)) as HF.
      rewrite <- Hfst in HF. unfold all.
      assert (Hcol : forall pk, In pk (combine Bs (zn_ks n1)) -> ncol (fst pk) = N).
      { intros pk Hpk. apply Q1. rewrite <- Hfst. apply in_map. assumption. }
      clear - Hparts HF HH C1 C2 Hcol.
      induction Hparts as [|pk ys l parts Hp Hrest IH]; [constructor|].
      cbn [concat map] in *. rewrite map_app. inversion HF as [|? ? Hx HF']; subst. apply FOP_app.
      - apply Hp; assumption.
      - apply IH; [assumption|]. intros; apply Hcol; right; assumption.
      - intros C C' HC HC'. apply in_map_iff in HC as (c & <- & Hc). apply in_map_iff in HC' as (c' & <- & Hc').
        apply in_concat in Hc' as (ys' & Hys' & Hc').
        assert (exists pk', In pk' l /\ in_part (fst pk') (snd pk') c') as (pk' & Hpk' & Hin').
        { clear - Hrest Hys' Hc'. induction Hrest as [|pk0 ys0 l parts Hp0 Hrest IH]; [destruct Hys'|].
          destruct Hys' as [<-|Hys'].
          - exists pk0. split; [left; reflexivity|]. apply Hp0. assumption.
          - destruct (IH Hys') as (pk' & X & Y). exists pk'. split; [right; assumption|assumption]. }
        destruct (proj1 Hp c Hc) as (_ & _ & _ & _ & _ & _ & q & Cq & ->).
        destruct Hin' as (_ & _ & _ & _ & _ & _ & q' & Cq' & ->).
        rewrite Forall_forall in Hx. destruct (Hx (fst pk') (in_map fst _ _ Hpk')) as (E1 & E2).
        pose proof (Hcol pk (or_introl eq_refl)) as K1. pose proof (Hcol pk' (or_intror Hpk')) as K2.
        split; [exact (clean_compose H _ _ q q' K1 K2 HH Cq Cq' E1)|exact (clean_compose H _ _ q' q K2 K1 HH Cq' Cq E2)]. }
    assert (Hsum : forall i j, (i < N)%nat -> (j < N)%nat ->
      klsum all (fun c => ent (mmul (madj (fst (fst c))) (fst (fst c))) i j) = kb (i =? j)%nat).
    { intros i j Hi Hj. rewrite <- Q3 by assumption. rewrite <- Hfst, klsum_map. unfold all.
      clear - Hparts Hi Hj. induction Hparts as [|pk ys l parts Hp Hrest IH]; [reflexivity|].
      cbn [concat klsum]. rewrite klsum_app, IH. f_equal. apply Hp; assumption. }
    (* dropping sectors without entries *)
    set (kept := filter (fun c => has_entries (fst (fst c))) all).
    assert (Hempty : forall c, In c all -> has_entries (fst (fst c)) = false -> nrow (fst (fst c)) = O).
    { intros c Hc He. destruct (Hin c Hc) as (pk & _ & (Cn & Co & _)).
      destruct (nrow (fst (fst c))) as [|n] eqn:En; [reflexivity|]. exfalso.
      destruct Co as (_ & _ & Co). specialize (Co O O). cbn [mmul madj nrow ncol ent meye] in Co. rewrite En in Co.
      specialize (Co ltac:(lia) ltac:(lia)). cbn [Nat.eqb kb] in Co.
      rewrite ksum_zero in Co.
      - apply c1_neq_0. symmetry. exact Co.
      - intros j Hj. unfold has_entries in He. rewrite En in He. cbn [seq existsb] in He.
        apply orb_false_iff in He as (He & _).
        destruct (row_cols (fst (fst c)) 0) eqn:Er; [|discriminate]. apply row_cols_nil in Er.
        rewrite (Er j Hj). ring. }
    assert (Hnonempty : forall c : cmat * R * R, has_entries (fst (fst c)) = true -> (0 < nrow (fst (fst c)))%nat).
    { intros c He. unfold has_entries in He. apply existsb_exists in He as (r & Hr & _). apply in_seq in Hr. lia. }
    assert (Hsumk : forall i j, (i < N)%nat -> (j < N)%nat ->
      klsum kept (fun c => ent (mmul (madj (fst (fst c))) (fst (fst c))) i j) = kb (i =? j)%nat).
    { intros i j Hi Hj. rewrite <- Hsum by assumption. unfold kept. rewrite klsum_filter. apply klsum_ext. intros c Hc.
      destruct (has_entries (fst (fst c))) eqn:E; [reflexivity|]. cbn [mmul madj ent ncol]. rewrite (Hempty c Hc E). reflexivity. }
    assert (Hkn : kept <> []).
    { intros E. specialize (Hsumk O O HN HN). rewrite E in Hsumk. cbn [klsum Nat.eqb kb] in Hsumk. symmetry in Hsumk. exact (c1_neq_0 Hsumk). }
    exists kept. split; [|split; [|split; [|split]]].
    - change (filter (fun x : cmat * R * R => has_entries (fst (fst x))) all) with kept.
      destruct kept; [congruence|reflexivity].
    - apply splits_lists. split; [|split].
      + intros A HA. apply in_map_iff in HA as (c & <- & Hc). apply filter_In in Hc as (Hc & _).
        destruct (Hin c Hc) as (pk & _ & (Cn & Co & _)). split; assumption.
      + assert (Hm : forall l : list (cmat * R * R), ForallOrdPairs (clean_pair (meye N)) (map (fun c => fst (fst c)) l) ->
          ForallOrdPairs (clean_pair (meye N)) (map (fun c => fst (fst c)) (filter (fun c => has_entries (fst (fst c))) l))).
        { clear. induction l as [|c l IH]; intros H; cbn [filter map] in *; [constructor|]. inversion H as [|? ? Hx H']; subst.
          destruct (has_entries (fst (fst c))); cbn [map]; [|auto]. constructor; [|auto].
          rewrite Forall_forall in *. intros y Hy. apply Hx. apply in_map_iff in Hy as (d & <- & Hd). apply filter_In in Hd as (Hd & _).
          apply in_map_iff. exists d. split; [reflexivity|assumption]. }
        apply Hm, Hall.
        * split; reflexivity.
        * destruct (proj1 (proj1 M1)). etransitivity; [apply mmul_eye_r; assumption|]. symmetry. apply mmul_eye_l. assumption.
        * destruct T2_sq. etransitivity; [apply mmul_eye_r; assumption|]. symmetry. apply mmul_eye_l. assumption.
      + intros i j Hi Hj. rewrite klsum_map. apply Hsumk; assumption.
    - assert (Hlab : map (fun c : cmat * R * R => (snd (fst c), snd c)) all = list_prod (zn_ks n1) (zn_ks n2)).
      { assert (Hsnd : map snd (combine Bs (zn_ks n1)) = zn_ks n1).
        { clear - Hlen Hks. rewrite <- Hks in Hlen. clear Hks. revert Hlen. generalize (zn_ks n1). induction Bs as [|x Bs IH]; intros [|y l] Hl; cbn in *; try discriminate; [reflexivity|].
          f_equal. apply IH. injection Hl. auto. }
        rewrite <- Hsnd at 1. unfold all. clear - Hparts. induction Hparts as [|pk ys l parts Hp Hrest IH]; [reflexivity|].
        cbn [concat map list_prod]. rewrite map_app, IH. f_equal. destruct Hp as (Hp1 & Hp2 & _). rewrite <- Hp2, map_map.
        apply map_ext_in. intros c Hc. destruct (Hp1 c Hc) as (_ & _ & -> & _). reflexivity. }
      assert (Hnd : NoDup (map (fun c : cmat * R * R => (snd (fst c), snd c)) all)).
      { rewrite Hlab. apply nodup_prod; apply zn_ks_nodup. }
      unfold kept. revert Hnd. generalize all. clear. induction all as [|c l IH]; intros H; cbn [filter map] in *; [constructor|].
      inversion H as [|? ? Hx H']; subst. destruct (has_entries (fst (fst c))); cbn [map]; [|auto]. constructor; [|auto].
      intros X. apply Hx. apply in_map_iff in X as (d & E & Hd). apply filter_In in Hd as (Hd & _).
      apply in_map_iff. exists d. split; assumption.
    - intros c Hc. apply filter_In in Hc as (Hc & He). destruct (Hin c Hc) as ((p & k1) & Hpk & (Cn & Co & Ck & Ck2 & A1 & A2 & _)).
      cbn [fst snd] in *. split; [apply Hnonempty; assumption|]. rewrite Ck. apply in_combine_r in Hpk. auto.
    - intros H HH C1 C2. apply block_diagonal_FOP. specialize (Hall H HH C1 C2). unfold kept. revert Hall. generalize all. clear.
      induction all as [|c l IH]; intros H'; cbn [filter map] in *; [constructor|]. inversion H' as [|? ? Hx H2]; subst.
      destruct (has_entries (fst (fst c))); cbn [map]; [|auto]. constructor; [|auto].
      rewrite Forall_forall in *. intros y Hy. apply Hx. apply in_map_iff in Hy as (d & <- & Hd). apply filter_In in Hd as (Hd & _).
      apply in_map_iff. exists d. split; [reflexivity|assumption].
  Qed.
End Two.

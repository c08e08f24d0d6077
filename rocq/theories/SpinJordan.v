(** A chain of spins 1/2 is a chain of spinless fermions: proofs. *)
From Coq Require Import List Arith Lia Bool QArith Qabs Ring Setoid.
From Verif Require Import Scalars Res Matrix ModelBase ModelFermions ModelSpins SpecSpins SpecFock SpecPerm SpecMat OpsProofs SqMat FockProofs
  FermiOps SwapProofs Sums HamProofs Digits SpinOps SpinSwap SpinAlg SpinHam SpinApi SpecJordan.
Import ListNotations.
Local Open Scope nat_scope.
Arguments Nat.div : simpl never.
Arguments Nat.modulo : simpl never.
Arguments Nat.pow : simpl never.

Section Jordan.
  Context {K : Type} {SR : StarRing K}.
  Add Ring KringJW : (@k_ring K SR).
  Notation h2 := (kQ (1 # 2)).

  Local Ltac two22 := repeat split; intros i j Hi Hj; cbn in Hi, Hj;
    (destruct i as [|[|i]]; [| |lia]); (destruct j as [|[|j]]; [| |lia]); cbn; ring.
  (** Signs cancel between sites that follow each other. *)
  Lemma parity_c : meq (mmul parity_op c_op) (c_op (K:=K)). Proof. two22. Qed.
  Lemma cdag_parity : meq (mmul cdag_op parity_op) (cdag_op (K:=K)). Proof. two22. Qed.

  Lemma adjacent_chain nl q (A T T' B B' : mat K) : S q < nl -> square 2 A -> square 2 T -> square 2 T' -> square 2 B -> square 2 B' -> meq B B' ->
    seqv (N:=2 ^ nl) (ent (kchain (pair_chain nl q (S q) A T B))) (ent (kchain (pair_chain nl q (S q) A T' B'))).
  Proof.
    intros Hq SA ST ST' SB SB' HB. apply meq_seqv; [apply pair_chain_square; auto; lia | apply pair_chain_square; auto; lia |].
    apply kchain_meq. unfold pair_chain. replace (S q - q - 1) with 0 by lia. cbn [repeat app].
    apply Forall2_app; [apply Forall2_repeat; reflexivity|]. constructor; [reflexivity|]. constructor; [exact HB|]. apply Forall2_repeat. reflexivity.
  Qed.
  Lemma bop_mul_lt nl qa qb (A B : mat K) : qa < qb -> qb < nl -> square 2 A -> square 2 B ->
    seqv (N:=2 ^ nl) (smul (bop nl qa A) (bop nl qb B)) (ent (kchain (pair_chain nl qa qb A (meye 2) (mmul (meye 2) B)))).
  Proof.
    intros. unfold bop. rewrite <- ent_mul; [|apply site_chain_sq_kchain; auto using eye_square; lia].
    apply meq_seqv; [apply square_mul; apply site_chain_sq_kchain; auto using eye_square; lia | apply pair_chain_square; auto using eye_square, mul_square |].
    apply site_chain_mul_lt; auto using eye_square. apply mmul_eye_l. reflexivity.
  Qed.
  Lemma hop_up nl q : S q < nl -> seqv (N:=2 ^ nl) (smul (Cd nl q) (Ca nl (S q))) (smul (bop nl q (cdag_op (K:=K))) (bop nl (S q) c_op)).
  Proof.
    intros Hq. unfold Cd, Ca. rewrite fop_mul_lt, bop_mul_lt by (auto using sq_cdag, sq_c).
    apply adjacent_chain; [exact Hq | auto using sq_cdag, sq_c | apply parity_square | apply eye_square | auto using sq_cdag, sq_c, parity_square, mul_square | auto using sq_cdag, sq_c, eye_square, mul_square |].
    rewrite parity_c. symmetry. apply mmul_eye_l. reflexivity.
  Qed.
  Lemma hop_down nl q : S q < nl -> seqv (N:=2 ^ nl) (smul (Cd nl (S q)) (Ca nl q)) (smul (bop nl q (c_op (K:=K))) (bop nl (S q) cdag_op)).
  Proof.
    intros Hq. unfold Cd, Ca. rewrite fop_mul_gt, bop_mul_lt by (auto using sq_cdag, sq_c).
    apply adjacent_chain; [exact Hq | auto using sq_cdag, sq_c | apply parity_square | apply eye_square | auto using sq_cdag, sq_c, parity_square, mul_square | auto using sq_cdag, sq_c, eye_square, mul_square |].
    rewrite cdag_parity. symmetry. apply mmul_eye_l. reflexivity.
  Qed.

  Lemma bop_site nl p (A : mat K) a b : square 2 A -> p < nl -> a < 2 ^ nl -> b < 2 ^ nl -> bop nl p A a b = site_elem 2 nl p (ent A) a b.
  Proof.
    intros SA Hp Ha Hb. destruct (single_elem 2 ltac:(lia) nl p A SA Hp (or_introl eq_refl)) as (T & ET & ST & VT).
    destruct (single_ok (dsys 2 nl) p 0 A Boson eq_refl ltac:(discriminate) Hp ltac:(cbn; lia) SA) as (T' & ET' & ST' & VT').
    rewrite ET in ET'. injection ET' as <-. rewrite dsys_nlog in VT'. rewrite <- VT by assumption. symmetry. rewrite VT' by assumption.
    unfold lsite. cbn [dsys s_nsites gop]. rewrite Nat.mul_0_r. reflexivity.
  Qed.
  Lemma bop_pair nl p r (A B : mat K) a b : square 2 A -> square 2 B -> p < nl -> r < nl -> p <> r -> a < 2 ^ nl -> b < 2 ^ nl ->
    smul (N:=2 ^ nl) (bop nl p A) (bop nl r B) a b = pair_elem 2 nl p r (ent A) (ent B) a b.
  Proof.
    intros SA SB Hp Hr Hpr Ha Hb. destruct (two_elem 2 ltac:(lia) nl p r A B SA SB Hp Hr Hpr) as (T & ET & ST & VT).
    destruct (two_ok (dsys 2 nl) p 0 r 0 A B Boson eq_refl ltac:(discriminate) Hp ltac:(cbn; lia) Hr ltac:(cbn; lia) SA SB) as (T' & ET' & ST' & VT').
    rewrite ET in ET'. injection ET' as <-. rewrite dsys_nlog in VT'. rewrite <- VT by assumption. symmetry. rewrite VT' by assumption.
    unfold lsite. cbn [dsys s_nsites gop]. rewrite Nat.mul_0_r. reflexivity.
  Qed.

  Variable rt : nat -> K.
  Hypothesis rt1 : rt 1 = k1.
  Variables (s : spins K) (f : fermions K).
  Hypothesis same : same_chain s f.
  Notation n := (fg_nsites (f_geom f)).
  Notation nl := (nlog (f_sys f)).
  Notation N := (2 ^ n).

  Lemma nl_n : nl = n.
  Proof using same. destruct same as (_ & _ & NS & _). change (n * f_nspecies f = n). rewrite NS. lia. Qed.
  Lemma q_i i : lsite (f_sys f) i 0 = i.
  Proof using. unfold lsite. lia. Qed.

  Definition P i j A B a b : K := pair_elem 2 n i j A B a b.

  (** Exchange along x and y moves one excitation. *)
  Lemma xy_flip i j a b : kmul h2 (kadd (P i j sigma_x sigma_x a b) (P i j sigma_y sigma_y a b)) =
    kadd (P i j (ent cdag_op) (ent c_op) a b) (P i j (ent c_op) (ent cdag_op) a b).
  Proof using.
    unfold P, pair_elem. destruct (agree_off _ _ _ _ _); [|ring].
    destruct (two_cases (digit 2 n i a)) as [-> | ->]; [apply digit_lt; lia| |];
    (destruct (two_cases (digit 2 n i b)) as [-> | ->]; [apply digit_lt; lia| |]);
    (destruct (two_cases (digit 2 n j a)) as [-> | ->]; [apply digit_lt; lia| |]);
    (destruct (two_cases (digit 2 n j b)) as [-> | ->]; [apply digit_lt; lia| |]); cbn; try ring.
    all: pose proof (ki_sq (K:=K)) as I2; pose proof (khalf2 (K:=K)) as H2; try (ring [I2]).
    all: transitivity (kadd h2 h2); [ring [I2] | rewrite H2; ring].
  Qed.
  (** [sigma_z] is one minus twice the number of particles. *)
  Lemma zz_number i j a b : i < n -> j < n -> i <> j -> a < N -> b < N ->
    P i j sigma_z sigma_z a b = kadd (ksub (ksub (kb (a =? b)) (kmul (kofnat 2) (site_elem 2 n i (ent n_op) a b))) (kmul (kofnat 2) (site_elem 2 n j (ent n_op) a b)))
      (kmul (kofnat 2) (kmul (kofnat 2) (P i j (ent n_op) (ent n_op) a b))).
  Proof using.
    intros Hi Hj Hij Ha Hb. pose (v := fun r => kb (K:=K) (r =? 1)).
    assert (V : forall i, i < n -> site_elem 2 n i (ent (n_op (K:=K))) a b = kmul (kb (a =? b)) (v (digit 2 n i a))).
    { intros k Hk. rewrite <- site_diag by assumption. unfold site_elem. destruct (agree_off _ _ _ _ _); [|reflexivity].
      destruct (two_cases (digit 2 n k a)) as [-> | ->]; [apply digit_lt; lia| |];
      (destruct (two_cases (digit 2 n k b)) as [-> | ->]; [apply digit_lt; lia| |]); cbn; ring. }
    rewrite !V by assumption. unfold P, pair_elem. destruct (Nat.eqb_spec a b) as [->|Ne]; cbn [kb].
    - assert (E : agree_off 2 n [i; j] b b = true) by (apply agree_off_spec; reflexivity). rewrite E. unfold v. rewrite !kofnat_S, kofnat_0.
      destruct (two_cases (digit 2 n i b)) as [-> | ->]; [apply digit_lt; lia| |];
      (destruct (two_cases (digit 2 n j b)) as [-> | ->]; [apply digit_lt; lia| |]); cbn; ring.
    - destruct (agree_off 2 n [i; j] a b) eqn:E; [|ring].
      assert (D : digit 2 n i a <> digit 2 n i b \/ digit 2 n j a <> digit 2 n j b).
      { destruct (Nat.eq_dec (digit 2 n i a) (digit 2 n i b)) as [Ei|Ei]; [right|left; exact Ei]. intros Ej. apply Ne.
        apply (digits_ext 2 ltac:(lia) n); auto. intros p Hp. destruct (Nat.eq_dec p i) as [->|Pi]; [exact Ei|]. destruct (Nat.eq_dec p j) as [->|Pj]; [exact Ej|].
        apply (proj1 (agree_off_spec _ _ _ _ _) E); auto. cbn. intros [X|[X|[]]]; congruence. }
      destruct (two_cases (digit 2 n i a)) as [Eia|Eia]; [apply digit_lt; lia| |];
      (destruct (two_cases (digit 2 n i b)) as [Eib|Eib]; [apply digit_lt; lia| |]);
      (destruct (two_cases (digit 2 n j a)) as [Eja|Eja]; [apply digit_lt; lia| |]);
      (destruct (two_cases (digit 2 n j b)) as [Ejb|Ejb]; [apply digit_lt; lia| |]); rewrite Eia, Eib, Eja, Ejb in *; try (exfalso; destruct D; congruence); cbn; ring.
  Qed.
  Lemma z_number i a b : i < n -> a < N -> b < N ->
    site_elem 2 n i sigma_z a b = ksub (kb (a =? b)) (kmul (kofnat 2) (site_elem 2 n i (ent (n_op (K:=K))) a b)).
  Proof using.
    intros Hi Ha Hb. assert (D : kb (K:=K) (a =? b) = site_elem 2 n i (fun r c => kmul (kb (r =? c)) k1) a b) by (rewrite (site_diag n i (fun _ => k1)) by assumption; ring).
    rewrite D. unfold site_elem. rewrite !kofnat_S, kofnat_0. destruct (agree_off _ _ _ _ _); [|ring].
    destruct (two_cases (digit 2 n i a)) as [-> | ->]; [apply digit_lt; lia| |];
    (destruct (two_cases (digit 2 n i b)) as [-> | ->]; [apply digit_lt; lia| |]); cbn; ring.
  Qed.
  Lemma hop_entry j a b : S j < n -> a < N -> b < N ->
    hop f (lsite (f_sys f) (S j) 0) (lsite (f_sys f) j 0) a b = kadd (P (S j) j (ent cdag_op) (ent c_op) a b) (P (S j) j (ent c_op) (ent cdag_op) a b).
  Proof using same.
    intros Hj Ha Hb. unfold hop, sadd. rewrite !q_i. pose proof nl_n as NL.
    rewrite (hop_down nl j) by (rewrite ?NL; assumption). rewrite (hop_up nl j) by (rewrite ?NL; assumption).
    rewrite !bop_pair by (rewrite ?NL; auto using sq_c, sq_cdag; lia). rewrite NL. unfold P.
    rewrite (pair_elem_sym 2 n j (S j) (ent c_op) (ent cdag_op)), (pair_elem_sym 2 n j (S j) (ent cdag_op) (ent c_op)). ring.
  Qed.
  Lemma NN_entry i j a b : i < n -> j < n -> i <> j -> a < N -> b < N ->
    smul (N:=2 ^ nl) (Nn nl i) (Nn nl j) a b = P i j (ent n_op) (ent n_op) a b.
  Proof using same.
    intros Hi Hj Hij Ha Hb. pose proof nl_n as NL. unfold Nn. rewrite bop_pair by (rewrite ?NL; auto using sq_n). rewrite NL. reflexivity.
  Qed.
  Lemma n_n : meq (mmul n_op n_op) (n_op (K:=K)).
  Proof using. two22. Qed.
  Lemma NN_same i a b : i < n -> a < N -> b < N -> smul (N:=2 ^ nl) (Nn nl i) (Nn nl i) a b = site_elem 2 n i (ent n_op) a b.
  Proof using same.
    intros Hi Ha Hb. pose proof nl_n as NL. unfold Nn. rewrite (bop_mul_same nl i n_op n_op) by (rewrite ?NL; auto using sq_n).
    rewrite (bop_ext nl i _ n_op n_n) by (rewrite ?NL; auto using sq_n, mul_square). rewrite bop_site by (rewrite ?NL; auto using sq_n). rewrite NL. reflexivity.
  Qed.
  Lemma N_entry i a b : i < n -> a < N -> b < N -> Nn nl i a b = site_elem 2 n i (ent (n_op (K:=K))) a b.
  Proof using same. intros Hi Ha Hb. pose proof nl_n as NL. unfold Nn. rewrite bop_site by (rewrite ?NL; auto using sq_n). rewrite NL. reflexivity. Qed.

  Lemma ksum_pairs' k (F : nat -> nat -> K) :
    ksum k (fun i => ksum i (fun j => kadd (F i j) (F j i))) = ksum k (fun i => ksum k (fun j => if j =? i then k0 else F i j)).
  Proof using.
    rewrite (ksum_ext k (fun i => ksum k (fun j => if j =? i then k0 else F i j))
      (fun i => kadd (ksum k (fun j => if j <? i then F i j else k0)) (ksum k (fun j => if i <? j then F i j else k0)))).
    - rewrite ksum_add. rewrite (ksum_swap k k (fun i j => if i <? j then F i j else k0)), <- ksum_add.
      apply ksum_ext. intros i Hi. rewrite !(ksum_le k i) by lia. rewrite <- ksum_add. reflexivity.
    - intros i Hi. rewrite <- ksum_add. apply ksum_ext. intros j Hj.
      destruct (Nat.eqb_spec j i) as [->|Ne]; [rewrite Nat.ltb_irrefl; ring|].
      destruct (Nat.ltb_spec j i), (Nat.ltb_spec i j); try lia; ring.
  Qed.

  Theorem chains_agree : exists Hs Hf, sp_createH rt s None = Ok Hs /\ createH f None = Ok Hf /\ square N Hs /\ square N Hf /\
    forall a b, a < N -> b < N -> ent Hs a b = kadd (ent Hf a b) (kmul (chain_offset s) (kb (a =? b))).
  Proof using rt1 same.
    pose proof same as (NS & TW & SP & US & TS & JJ & VV & HH). pose proof nl_n as NL.
    destruct (half_model_full rt s TW rt1) as (Hs & EHs & Ms). rewrite NS in Ms.
    assert (SHs : square N Hs). { destruct Ms as (M1 & M2 & _). cbn in M1, M2. split; assumption. }
    destruct (createH_ok f None) as (Hf & EHf & SHf & VHf).
    { cbn [the_proj meye ncol]. apply nstates2, f_two. }
    { right. exact US. }
    assert (NN : nrow (the_proj f None) = N) by (cbn [the_proj meye nrow]; rewrite (nstates2 _ (f_two f)), NL; reflexivity). rewrite NN in SHf.
    exists Hs, Hf. split; [exact EHs|]. split; [exact EHf|]. split; [exact SHs|]. split; [exact SHf|].
    intros a b Ha Hb.
    assert (E2 : ent Hf a b = HS2 f (teff f) a b).
    { rewrite VHf. cbn [the_proj]. rewrite <- HS_HS2. rewrite (nstates2 _ (f_two f)). apply sand_eye; rewrite NL; assumption. }
    rewrite E2. destruct Ms as (_ & _ & Ms). destruct SHs as [S1 S2]. rewrite Ms by (rewrite ?S1, ?S2; assumption). cbn [pauli_hamiltonian ent].
    unfold spin_elem, HS2. rewrite SP.
    pose (nn := fun i => site_elem 2 n i (ent (n_op (K:=K))) a b). pose (ww := fun i j => P i j (ent (n_op (K:=K))) (ent n_op) a b). pose (d := kb (K:=K) (a =? b)).
    pose (fl := fun i j => kmul (f_ts f i j 0) (kmul h2 (kadd (P i j sigma_x sigma_x a b) (P i j sigma_y sigma_y a b)))).
    (* hopping *)
    rewrite (ksum_ext n (fun i => ksum i (fun j => ksum 1 (fun k => kopp (kmul (teff f i j k) (hop f (lsite (f_sys f) i k) (lsite (f_sys f) j k) a b)))))
      (fun i => ksum i (fun j => kopp (fl i j)))).
    2:{ intros i Hi. apply ksum_ext. intros j Hj. cbn [ksum]. unfold fl, teff. destruct (keq_dec (f_ts f i j 0) k0) as [Z|Z]; [rewrite Z; ring|].
        destruct (TS i j ltac:(lia) Z) as (-> & DI). rewrite (kQ_proper _ _ DI), kQ_1. rewrite hop_entry by (assumption || lia). rewrite xy_flip. ring. }
    (* on-site interaction *)
    rewrite (ksum_zero n (fun i => kmul (f_us f i) _)) by (intros i Hi; rewrite US by exact Hi; ring).
    (* interactions *)
    rewrite (ksum_ext n (fun i => ksum (S i) (fun j => ksum 1 (fun k => kmul (f_same f i j k) (smul (Nn nl (lsite (f_sys f) i k)) (Nn nl (lsite (f_sys f) j k)) a b))))
      (fun i => kadd (ksum i (fun j => kmul (kmul (kofnat 2) (sp_jz s i j)) (ww i j))) (kmul (f_same f i i 0) (nn i)))).
    2:{ intros i Hi. cbn [ksum]. f_equal.
        - apply ksum_ext. intros j Hj. rewrite !q_i, NN_entry by (assumption || lia). rewrite VV by lia. unfold ww. ring.
        - rewrite !q_i, NN_same by assumption. unfold nn. ring. }
    rewrite (ksum_ext n (fun i => ksum 1 (fun k => kmul (f_mus f k) (Nn nl (lsite (f_sys f) i k) a b))) (fun i => kmul (f_mus f 0) (nn i))).
    2:{ intros i Hi. cbn [ksum]. rewrite q_i, N_entry by assumption. unfold nn. ring. }
    rewrite (ksum_ext n (fun i => ksum 1 (fun k => kmul (f_pot f i k) (Nn nl (lsite (f_sys f) i k) a b))) (fun i => kmul (f_pot f i 0) (nn i))).
    2:{ intros i Hi. cbn [ksum]. rewrite q_i, N_entry by assumption. unfold nn. ring. }
    (* spins *)
    assert (H4 : forall x : K, kmul h2 (kmul (kofnat 2) x) = x).
    { intros x. rewrite !kofnat_S, kofnat_0. transitivity (kmul (kadd h2 h2) x); [ring|]. rewrite khalf2. ring. }
    rewrite (ksum_ext n (fun i => ksum i (fun j => kmul h2 _))
      (fun i => ksum i (fun j => kadd (kadd (kopp (fl i j)) (kmul (kmul h2 (sp_jz s i j)) d))
         (kadd (kopp (kadd (kmul (jz_pair s i j) (nn i)) (kmul (jz_pair s j i) (nn j)))) (kmul (kmul (kofnat 2) (sp_jz s i j)) (ww i j)))))).
    2:{ intros i Hi. apply ksum_ext. intros j Hj. destruct (JJ i j ltac:(lia)) as [-> ->].
        change (pair_elem 2 n i j sigma_z sigma_z a b) with (P i j sigma_z sigma_z a b). rewrite (zz_number i j a b) by (assumption || lia).
        fold (nn i). fold (nn j). fold d. fold (ww i j). unfold jz_pair. rewrite (proj2 (Nat.ltb_lt j i)), (proj2 (Nat.ltb_ge i j)) by lia. unfold fl, P.
        set (x := pair_elem 2 n i j sigma_x sigma_x a b). set (y := pair_elem 2 n i j sigma_y sigma_y a b).
        transitivity (kadd (kadd (kopp (kmul (f_ts f i j 0) (kmul h2 (kadd x y)))) (kmul (kmul h2 (sp_jz s i j)) d))
          (kadd (kopp (kadd (kmul h2 (kmul (kofnat 2) (kmul (sp_jz s i j) (nn i)))) (kmul h2 (kmul (kofnat 2) (kmul (sp_jz s i j) (nn j))))))
            (kmul h2 (kmul (kofnat 2) (kmul (kmul (kofnat 2) (sp_jz s i j)) (ww i j)))))); [ring|]. rewrite !H4. reflexivity. }
    rewrite (ksum_ext n (fun i => kmul h2 (kadd _ _)) (fun i => kadd (kmul (kmul h2 (sp_hz s i)) d) (kopp (kmul (sp_hz s i) (nn i))))).
    2:{ intros i Hi. destruct (HH i Hi) as (-> & -> & _). rewrite z_number by assumption. fold (nn i). fold d.
        transitivity (kadd (kmul (kmul h2 (sp_hz s i)) d) (kopp (kmul h2 (kmul (kofnat 2) (kmul (sp_hz s i) (nn i)))))); [ring|]. rewrite H4. reflexivity. }
    assert (HN : ksum n (fun i => kmul (sp_hz s i) (nn i)) = kadd (kadd (kadd (ksum n (fun i => kmul (f_pot f i 0) (nn i))) (kopp (ksum n (fun i => kmul (f_mus f 0) (nn i)))))
        (ksum n (fun i => kmul (f_same f i i 0) (nn i)))) (ksum n (fun i => ksum i (fun j => kadd (kmul (jz_pair s i j) (nn i)) (kmul (jz_pair s j i) (nn j)))))).
    { rewrite (ksum_pairs' n (fun i j => kmul (jz_pair s i j) (nn i))). rewrite <- ksum_opp, <- !ksum_add. apply ksum_ext. intros i Hi.
      destruct (HH i Hi) as (_ & _ & ->).
      rewrite (ksum_ext n (fun j => if j =? i then k0 else kmul (jz_pair s i j) (nn i)) (fun j => kmul (if j =? i then k0 else jz_pair s i j) (nn i))) by (intros j Hj; destruct (j =? i); ring).
      rewrite ksum_mul_r. ring. }
    unfold chain_offset. rewrite NS. fold d.
    assert (SPL : forall A B C D : nat -> nat -> K, ksum n (fun i => ksum i (fun j => kadd (kadd (A i j) (B i j)) (kadd (kopp (C i j)) (D i j)))) =
      kadd (kadd (ksum n (fun i => ksum i (A i))) (ksum n (fun i => ksum i (B i)))) (kadd (kopp (ksum n (fun i => ksum i (C i)))) (ksum n (fun i => ksum i (D i))))).
    { intros A B C D. rewrite <- ksum_opp, <- !ksum_add. apply ksum_ext. intros i Hi. rewrite <- ksum_opp, <- !ksum_add. reflexivity. }
    rewrite SPL, !ksum_add, !ksum_opp, HN.
    assert (O1 : ksum n (fun i => ksum i (fun j => kmul (kmul h2 (sp_jz s i j)) d)) = kmul (kmul h2 (ksum n (fun i => ksum i (fun j => sp_jz s i j)))) d).
    { rewrite <- ksum_mul_l, <- ksum_mul_r. apply ksum_ext. intros i Hi. rewrite <- ksum_mul_l, <- ksum_mul_r. reflexivity. }
    assert (O2 : ksum n (fun i => kmul (kmul h2 (sp_hz s i)) d) = kmul (kmul h2 (ksum n (fun i => sp_hz s i))) d) by (rewrite <- ksum_mul_l, <- ksum_mul_r; reflexivity).
    rewrite O1, O2. ring.
  Qed.
End Jordan.

(** Public forms of the results on spin systems. *)
From Coq Require Import List Arith Lia Bool QArith Ring Setoid.
From Verif Require Import Scalars Res Matrix ModelBase ModelSpins SpecSpins SpecPerm SpecMat OpsProofs SqMat FockProofs
  FermiOps SwapProofs Sums HamProofs HamSym FermiApi Digits SpinOps SpinSwap SpinAlg SpinHam SpinSym.
Import ListNotations.
Local Open Scope nat_scope.
Arguments Nat.div : simpl never.
Arguments Nat.modulo : simpl never.
Arguments Nat.pow : simpl never.

(** *** State labels and special states *)
Lemma sp_label n row ii : ii < n -> sp_state_label n row ii = 1 - digit 2 n ii row.
Proof.
  intros H. unfold sp_state_label, digit. replace (n - ii - 1) with (n - 1 - ii) by lia. set (m := n - 1 - ii).
  rewrite Nat.pow_succ_r', (Nat.mul_comm 2), Nat.mod_mul_r by (try apply Nat.pow_nonzero; lia).
  rewrite Nat.mul_comm, Nat.div_add by (apply Nat.pow_nonzero; lia).
  rewrite (Nat.div_small (row mod 2 ^ m)) by (apply Nat.mod_upper_bound, Nat.pow_nonzero; lia). cbn [plus].
  pose proof (Nat.mod_upper_bound (row / 2 ^ m) 2). destruct (row / 2 ^ m mod 2) as [|[|x]]; [reflexivity|reflexivity|lia].
Qed.

Lemma alt_sum n :
  let A n := of_digits 2 n (fun p => p mod 2) in let B n := of_digits 2 n (fun p => S p mod 2) in
  3 * A n + (if n mod 2 =? 1 then 2 else 1) = 2 ^ n /\ A n + B n = 2 ^ n - 1.
Proof.
  cbn zeta. induction n as [|n [IH1 IH2]]; [split; reflexivity|].
  cbn [of_digits]. rewrite Nat.pow_succ_r'. pose proof (Nat.pow_nonzero 2 n ltac:(lia)) as Hp.
  replace (0 mod 2) with 0 by reflexivity. replace (1 mod 2) with 1 by reflexivity.
  assert (E : of_digits 2 n (fun p => S (S p) mod 2) = of_digits 2 n (fun p => p mod 2)).
  { apply of_digits_ext; [lia|]. intros p _. replace (S (S p)) with (p + 1 * 2) by lia. apply Nat.mod_add. lia. }
  rewrite E.
  assert (F : (S n mod 2 =? 1) = negb (n mod 2 =? 1)).
  { replace (S n) with (n + 1) by lia. rewrite Nat.add_mod by lia. pose proof (Nat.mod_upper_bound n 2).
    destruct (n mod 2) as [|[|x]]; [reflexivity|reflexivity|lia]. }
  rewrite F. destruct (n mod 2 =? 1); cbn [negb]; lia.
Qed.

Lemma afm_first n xs l2r : 1 < n -> xs mod 2 = 1 \/ l2r = false ->
  fst (afm_indices n xs l2r) < 2 ^ n /\
  (forall p, p < n -> digit 2 n p (fst (afm_indices n xs l2r)) = p mod 2) /\
  snd (afm_indices n xs l2r) = 2 ^ n - fst (afm_indices n xs l2r).
Proof.
  intros Hn Hx. unfold afm_indices.
  assert (C : ((xs mod 2 =? 1) || negb l2r) && (1 <? n) = true).
  { rewrite (proj2 (Nat.ltb_lt 1 n)) by assumption. rewrite andb_true_r. destruct Hx as [-> | ->]; [reflexivity|].
    apply orb_true_r. }
  rewrite C. cbn [fst snd].
  destruct (alt_sum n) as [E _].
  assert (I : (if n mod 2 =? 1 then (1 + 2 ^ n) / 3 - 1 else (2 + 2 ^ n) / 3 - 1) = of_digits 2 n (fun p => p mod 2)).
  { set (A := of_digits 2 n (fun p => p mod 2)) in *. destruct (n mod 2 =? 1).
    - rewrite <- E. replace (1 + (3 * A + 2)) with ((A + 1) * 3) by lia. rewrite Nat.div_mul by lia. lia.
    - rewrite <- E. replace (2 + (3 * A + 1)) with ((A + 1) * 3) by lia. rewrite Nat.div_mul by lia. lia. }
  rewrite I. splits; auto.
  - apply of_digits_lt; [lia|]. intros. apply Nat.mod_upper_bound. lia.
  - intros p Hp. apply (digit_of_digits 2 ltac:(lia) n (fun p => p mod 2)); auto. intros. apply Nat.mod_upper_bound. lia.
Qed.

Lemma afm_second n xs l2r : 1 < n -> xs mod 2 = 1 \/ l2r = false ->
  ~ (forall p, p < n -> digit 2 n p (snd (afm_indices n xs l2r)) = 1 - p mod 2).
Proof.
  intros Hn Hx H. destruct (afm_first n xs l2r Hn Hx) as (L & D & E). rewrite E in H.
  set (i1 := fst (afm_indices n xs l2r)) in *.
  assert (X : 2 ^ n - i1 = 2 ^ n - 1 - i1).
  { assert (P : 0 < i1).
    { destruct i1; [|lia]. specialize (D 1 Hn). exfalso. revert D. unfold digit.
      rewrite Nat.div_0_l by (apply Nat.pow_nonzero; lia). discriminate. }
    apply (digits_ext 2 ltac:(lia) n); try lia.
    intros p Hp. rewrite H, (digit_flip 2), D by (auto; lia). reflexivity. }
  lia.
Qed.

Lemma fm_states n : (forall p, p < n -> digit 2 n p (fst (fm_indices n)) = 0) /\
  (forall p, p < n -> digit 2 n p (snd (fm_indices n)) = 1).
Proof.
  assert (Z : forall p, digit 2 n p 0 = 0).
  { intros p. unfold digit. rewrite Nat.div_0_l by (apply Nat.pow_nonzero; lia). reflexivity. }
  cbn. split; intros p Hp; [apply Z|].
  pose proof (Nat.pow_nonzero 2 n ltac:(lia)).
  replace (2 ^ n - 1) with (2 ^ n - 1 - 0) by lia. rewrite (digit_flip 2), Z by (auto; lia). reflexivity.
Qed.

Lemma pow2_digit n i : i < n -> forall p, p < n -> digit 2 n p (2 ^ i) = if p =? n - 1 - i then 1 else 0.
Proof.
  intros Hi p Hp. unfold digit. destruct (Nat.eqb_spec p (n - 1 - i)) as [->|Hne].
  - replace (n - 1 - (n - 1 - i)) with i by lia. rewrite Nat.div_same by (apply Nat.pow_nonzero; lia). reflexivity.
  - destruct (Nat.lt_ge_cases i (n - 1 - p)) as [L|L].
    + rewrite Nat.div_small; [reflexivity|]. apply Nat.pow_lt_mono_r; lia.
    + replace i with (S (i - S (n - 1 - p)) + (n - 1 - p)) at 1 by lia. rewrite Nat.pow_add_r, Nat.div_mul by (apply Nat.pow_nonzero; lia).
      rewrite Nat.pow_succ_r', Nat.mul_comm. apply Nat.mod_mul. lia.
Qed.

Lemma exc_rows n k : In k (symm_exc_rows n) ->
  exists q, q < n /\ forall p, p < n -> digit 2 n p k = if p =? q then 0 else 1.
Proof.
  unfold symm_exc_rows. intros H. apply in_map_iff in H as (i & <- & Hi). apply in_seq in Hi.
  exists (n - 1 - i). split; [lia|]. intros p Hp.
  assert (2 ^ i < 2 ^ n) by (apply Nat.pow_lt_mono_r; lia).
  replace (2 ^ n - 2 ^ i - 1) with (2 ^ n - 1 - 2 ^ i) by lia.
  rewrite (digit_flip 2), pow2_digit by (auto; lia). destruct (p =? n - 1 - i); reflexivity.
Qed.

Lemma two_cases x : x < 2 -> x = 0 \/ x = 1. Proof. lia. Qed.

Section SpinApi.
  Context {K : Type} {SR : StarRing K}.
  Add Ring KringSA : (@k_ring K SR).
  Notation h2 := (kQ (1 # 2)).

  Lemma half_sq : kmul (kofnat (K:=K) 2) (kmul h2 h2) = h2.
  Proof. rewrite <- (h4 (K:=K)) at 3. rewrite !kofnat_S, kofnat_0. ring. Qed.

  Section Half.
  Variable rt : nat -> K.
  Variable s : spins K.
  Notation n := (sg_nsites (sp_geom s)).
  Hypothesis Htwo : sp_two s = 1.
  Hypothesis Hrt : rt 1 = k1.

  Lemma half_x r c : r < 2 -> c < 2 -> ent (sx_op rt 1) r c = kmul h2 (sigma_x r c).
  Proof.
    intros Hr Hc. destruct (two_cases r Hr) as [-> | ->], (two_cases c Hc) as [-> | ->]; cbn; rewrite ?Hrt; ring.
  Qed.
  Lemma half_y r c : r < 2 -> c < 2 -> ent (sy_op rt 1) r c = kopp (kmul h2 (sigma_y r c)).
  Proof.
    intros Hr Hc. destruct (two_cases r Hr) as [-> | ->], (two_cases c Hc) as [-> | ->]; cbn; rewrite ?Hrt; ring.
  Qed.
  Lemma half_z r c : r < 2 -> c < 2 -> ent (sz_op (K:=K) 1) r c = kmul h2 (sigma_z r c).
  Proof.
    intros Hr Hc. rewrite Z_ent. unfold zval. rewrite kofnat_S, kofnat_0.
    destruct (two_cases r Hr) as [-> | ->], (two_cases c Hc) as [-> | ->]; cbn -[kofnat]; try ring.
    - rewrite kofnat_0. ring.
    - rewrite kofnat_S, kofnat_0.
      transitivity (ksub (kmul h2 k1) (k1 (K:=K))); [ring|]. rewrite <- (khalf2 (K:=K)) at 2. ring.
  Qed.

  Lemma H_elem_half a b :
    H_elem rt s a b = spin_elem 2 n h2 h2 sigma_x sigma_y sigma_z (sp_jx s) (sp_jy s) (sp_jz s)
       (sp_hx s) (fun i => kopp (sp_hy s i)) (sp_hz s) a b.
  Proof.
    unfold H_elem. rewrite Htwo. change (1 + 1) with 2. unfold spin_elem.
    assert (L : forall p x, digit 2 n p x < 2) by (intros; apply digit_lt; lia).
    assert (X : forall i, site_elem 2 n i (ent (sx_op rt 1)) a b = kmul h2 (site_elem 2 n i sigma_x a b)).
    { intros. unfold site_elem. destruct (agree_off _ _ _ _ _); [apply half_x; apply L|ring]. }
    assert (Y : forall i, site_elem 2 n i (ent (sy_op rt 1)) a b = kopp (kmul h2 (site_elem 2 n i sigma_y a b))).
    { intros. unfold site_elem. destruct (agree_off _ _ _ _ _); [apply half_y; apply L|ring]. }
    assert (Z : forall i, site_elem 2 n i (ent (sz_op (K:=K) 1)) a b = kmul h2 (site_elem 2 n i sigma_z a b)).
    { intros. unfold site_elem. destruct (agree_off _ _ _ _ _); [apply half_z; apply L|ring]. }
    assert (XX : forall i j, pair_elem 2 n i j (ent (sx_op rt 1)) (ent (sx_op rt 1)) a b = kmul (kmul h2 h2) (pair_elem 2 n i j sigma_x sigma_x a b)).
    { intros. unfold pair_elem. destruct (agree_off _ _ _ _ _); [rewrite !half_x by apply L|]; ring. }
    assert (YY : forall i j, pair_elem 2 n i j (ent (sy_op rt 1)) (ent (sy_op rt 1)) a b = kmul (kmul h2 h2) (pair_elem 2 n i j sigma_y sigma_y a b)).
    { intros. unfold pair_elem. destruct (agree_off _ _ _ _ _); [rewrite !half_y by apply L|]; ring. }
    assert (ZZ : forall i j, pair_elem 2 n i j (ent (sz_op (K:=K) 1)) (ent (sz_op (K:=K) 1)) a b = kmul (kmul h2 h2) (pair_elem 2 n i j sigma_z sigma_z a b)).
    { intros. unfold pair_elem. destruct (agree_off _ _ _ _ _); [rewrite !half_z by apply L|]; ring. }
    f_equal; apply ksum_ext; intros i Hi.
    - apply ksum_ext. intros j Hj. rewrite XX, YY, ZZ.
      set (t := kadd (kadd (kmul (sp_jx s i j) (pair_elem 2 n i j sigma_x sigma_x a b))
                   (kmul (sp_jy s i j) (pair_elem 2 n i j sigma_y sigma_y a b)))
                   (kmul (sp_jz s i j) (pair_elem 2 n i j sigma_z sigma_z a b))).
      transitivity (kmul (kmul (kofnat 2) (kmul h2 h2)) t); [unfold t; ring|]. rewrite half_sq. reflexivity.
    - rewrite X, Y, Z. ring.
  Qed.

  Lemma half_fields : fields_ok s.
  Proof. intros i Hi. unfold field_ok. splits; right; left; assumption. Qed.

  Lemma half_model P : ncol P = 2 ^ n ->
    exists H, sp_createH rt s (Some P) = Ok H /\
      meq H (mmul (mmul P (pauli_hamiltonian n (sp_jx s) (sp_jy s) (sp_jz s) (sp_hx s) (fun i => kopp (sp_hy s i)) (sp_hz s)))
                  (madj P)).
  Proof.
    intros HP. destruct (createH_proj rt s P) as (H & E & [S1 S2] & V); [rewrite Htwo; exact HP|exact half_fields|].
    exists H. split; [assumption|]. split; [|split].
    - rewrite S1. reflexivity.
    - rewrite S2. reflexivity.
    - intros i j Hi Hj. rewrite V. cbn [ent mmul madj ncol pauli_hamiltonian]. rewrite HP.
      replace ((sp_two s + 1) ^ n) with (2 ^ n) by (rewrite Htwo; reflexivity). unfold sand.
      apply ksum_ext. intros b Hb. f_equal. apply ksum_ext. intros a Ha. f_equal. apply H_elem_half.
  Qed.
  Lemma half_model_full :
    exists H, sp_createH rt s None = Ok H /\
      meq H (pauli_hamiltonian n (sp_jx s) (sp_jy s) (sp_jz s) (sp_hx s) (fun i => kopp (sp_hy s i)) (sp_hz s)).
  Proof.
    destruct (createH_full rt s half_fields) as (H & E & S & V). exists H. split; [assumption|].
    assert (Dn : (sp_two s + 1) ^ n = 2 ^ n) by (rewrite Htwo; reflexivity). rewrite Dn in *.
    apply (meq_of_seqv (2 ^ n)); [assumption|split; reflexivity|].
    intros a b Ha Hb. rewrite V by assumption. apply H_elem_half.
  Qed.
  Lemma half_model_documented : (forall i, i < n -> sp_hy s i = k0) ->
    exists H, sp_createH rt s None = Ok H /\
      meq H (pauli_hamiltonian n (sp_jx s) (sp_jy s) (sp_jz s) (sp_hx s) (sp_hy s) (sp_hz s)).
  Proof.
    intros Hy. destruct half_model_full as (H & E & M). exists H. split; [assumption|]. rewrite M.
    apply (meq_of_seqv (2 ^ n)); [split; reflexivity|split; reflexivity|]. intros a b Ha Hb. cbn [ent pauli_hamiltonian].
    unfold spin_elem. f_equal. apply ksum_ext. intros i Hi. rewrite Hy by assumption. ring.
  Qed.
  End Half.

  (** Higher spins. *)
  Definition spin_hamiltonian (rt : nat -> K) (s : spins K) : mat K :=
    let d := sp_two s + 1 in let n := sg_nsites (sp_geom s) in
    Mat (d ^ n) (d ^ n) (spin_elem d n (kofnat 2) k1 (ent (sx_op rt (sp_two s))) (ent (sy_op rt (sp_two s))) (ent (sz_op (sp_two s)))
      (sp_jx s) (sp_jy s) (sp_jz s) (sp_hx s) (sp_hy s) (sp_hz s)).

  Lemma any_spin rt s :
    (forall i, i < sg_nsites (sp_geom s) - 1 -> sp_hx s i = k0 /\ sp_hy s i = k0 /\ sp_hz s i = k0) ->
    exists H, sp_createH rt s None = Ok H /\ meq H (spin_hamiltonian rt s).
  Proof.
    intros Hf. set (n := sg_nsites (sp_geom s)) in *.
    assert (FO : fields_ok s).
    { intros i Hi. fold n in Hi. unfold field_ok. destruct (Nat.eq_dec i (n - 1)) as [->|Hne]; [splits; right; right; reflexivity|].
      destruct (Hf i ltac:(lia)) as (-> & -> & ->). splits; left; reflexivity. }
    destruct (createH_full rt s FO) as (H & E & S & V). exists H. split; [assumption|].
    apply (meq_of_seqv ((sp_two s + 1) ^ n)); [assumption|split; reflexivity|]. exact V.
  Qed.

  (** *** Hermiticity *)
  Lemma spin_hermitian rt (s : spins K) pr :
    let D := (sp_two s + 1) ^ sg_nsites (sp_geom s) in
    let P := match pr with Some P => P | None => meye D end in
    ncol P = D -> roots_ok rt (sp_two s) ->
    (forall i j, i < sg_nsites (sp_geom s) -> j < i ->
       kconj (sp_jx s i j) = sp_jx s i j /\ kconj (sp_jy s i j) = sp_jy s i j /\ kconj (sp_jz s i j) = sp_jz s i j) ->
    (forall i, i < sg_nsites (sp_geom s) ->
       kconj (sp_hx s i) = sp_hx s i /\ kconj (sp_hy s i) = sp_hy s i /\ kconj (sp_hz s i) = sp_hz s i) ->
    (sp_two s = 1 \/ forall i, i < sg_nsites (sp_geom s) - 1 -> sp_hx s i = k0 /\ sp_hy s i = k0 /\ sp_hz s i = k0) ->
    exists H, sp_createH rt s pr = Ok H /\ square (nrow P) H /\ meq (madj H) H.
  Proof.
    cbn zeta. intros HP HR HJ Hh Hf.
    assert (FO : fields_ok s).
    { intros i Hi. set (n := sg_nsites (sp_geom s)) in *. unfold field_ok. fold n.
      destruct (Nat.eq_dec i (n - 1)) as [->|Hne]; [splits; right; right; reflexivity|].
      destruct Hf as [Hf|Hf]; [splits; right; left; assumption|].
      destruct (Hf i ltac:(lia)) as (-> & -> & ->). splits; left; reflexivity. }
    destruct pr as [P|].
    - apply createH_herm; auto. split; assumption.
    - destruct (createH_herm_full rt s HR (conj HJ Hh) FO) as (H & E & S & M). exists H. splits; auto.
  Qed.

  (** *** Total operators of spin-1/2 systems *)
  Lemma sum_op_half n A : square 2 A -> n <> 0 ->
    exists T, sum_op (dsys 2 n) A 0 Boson = Ok T /\ square (2 ^ n) T /\
      forall a b, a < 2 ^ n -> b < 2 ^ n -> ent T a b = ksum n (fun i => site_elem 2 n i (ent A) a b).
  Proof.
    intros SA Hn. unfold sum_op. cbn [s_nsites dsys].
    set (I := fun (pre : list nat) (acc : option (mat K)) =>
      match acc with None => pre = [] | Some T => square (2 ^ n) T /\
        forall a b, a < 2 ^ n -> b < 2 ^ n -> ent T a b = klsum pre (fun i => site_elem 2 n i (ent A) a b) end).
    destruct (rfold_inv (fun acc ii => A <- single_site_op (dsys 2 n) ii 0 A Boson ;; opt_add acc A) I (seq 0 n))
      with (s := @None (mat K)) as (acc & EA & HI).
    - intros pre i post acc Hsplit HI.
      assert (Hi : i < n). { assert (X : In i (seq 0 n)) by (rewrite Hsplit; apply in_elt). apply in_seq in X. lia. }
      destruct (single_elem 2 ltac:(lia) n i A SA Hi (or_introl eq_refl)) as (B & EB & SB & VB). rewrite EB. cbn [bind].
      destruct acc as [T|]; unfold opt_add.
      + destruct HI as [ST VT]. rewrite (cadd_ok (2 ^ n)) by assumption. cbn [bind].
        eexists. split; [reflexivity|]. split; [auto using square_add|].
        intros a b Ha Hb. cbn [ent madd]. rewrite VT, VB by assumption. rewrite klsum_app. cbn. ring.
      + cbn in HI. subst pre. eexists. split; [reflexivity|]. split; [assumption|].
        intros a b Ha Hb. rewrite VB by assumption. cbn. ring.
    - reflexivity.
    - rewrite EA. cbn [bind]. destruct acc as [T|].
      + destruct HI as [ST VT]. exists T. splits; auto. intros a b Ha Hb. rewrite VT by assumption. apply klsum_seq.
      + cbn in HI. destruct n; [congruence|discriminate].
  Qed.

  Lemma site_diag n i (v : nat -> K) a b : i < n -> a < 2 ^ n -> b < 2 ^ n ->
    site_elem 2 n i (fun r c => kmul (kb (r =? c)) (v r)) a b = kmul (kb (a =? b)) (v (digit 2 n i a)).
  Proof.
    intros Hi Ha Hb. unfold site_elem. destruct (Nat.eqb_spec a b) as [->|Hne]; cbn [kb].
    - assert (E : agree_off 2 n [i] b b = true) by (apply agree_off_spec; reflexivity). rewrite E, Nat.eqb_refl. cbn [kb]. reflexivity.
    - destruct (agree_off 2 n [i] a b) eqn:E; [|ring].
      destruct (Nat.eqb_spec (digit 2 n i a) (digit 2 n i b)) as [Ed|Ed]; cbn [kb]; [|ring].
      exfalso. apply Hne. apply (digits_ext 2 ltac:(lia) n); auto. intros p Hp.
      destruct (Nat.eq_dec p i) as [->|Hp']; [assumption|].
      apply (proj1 (agree_off_spec _ _ _ _ _) E); auto. cbn. intros [->|[]]; congruence.
  Qed.

  Lemma zsum d n two a : ksum n (fun i => zval (K:=K) two (digit d n i a)) =
    ksub (kmul (kofnat n) (kmul h2 (kofnat two))) (kofnat (digit_sum d n a)).
  Proof.
    unfold digit_sum. 
    assert (G : forall f m, ksum m (fun i => zval (K:=K) two (f i)) =
       ksub (kmul (kofnat m) (kmul h2 (kofnat two))) (kofnat (list_sum (map f (seq 0 m))))).
    { intros f m. induction m as [|m IH]; [cbn; rewrite kofnat_0; ring|].
      cbn [ksum]. rewrite IH. rewrite seq_S, map_app, list_sum_app. cbn [map list_sum fold_right plus].
      rewrite Nat.add_0_r, kofnat_add, kofnat_S. unfold zval. ring. }
    apply G.
  Qed.

  Lemma xxz_conserves rt (s : spins K) :
    let n := sg_nsites (sp_geom s) in let d := sp_two s + 1 in
    roots_ok rt (sp_two s) ->
    (forall i j, i < n -> j < i -> sp_jx s i j = sp_jy s i j) ->
    (forall i, i < n -> sp_hx s i = k0 /\ sp_hy s i = k0) ->
    (sp_two s = 1 \/ forall i, i < n - 1 -> sp_hz s i = k0) ->
    exists H, sp_createH rt s None = Ok H /\ square (d ^ n) H /\
      (forall a b, a < d ^ n -> b < d ^ n -> digit_sum d n a <> digit_sum d n b -> ent H a b = k0) /\
      (sp_two s = 1 -> n <> 0 ->
         exists Sz, sum_op (sp_sys s) (sz_op 1) 0 Boson = Ok Sz /\ meq (mmul Sz H) (mmul H Sz)).
  Proof.
    cbn zeta. intros HR HJ Hh Hz. set (n := sg_nsites (sp_geom s)) in *. set (d := sp_two s + 1) in *.
    assert (FO : fields_ok s).
    { intros i Hi. destruct (Hh i Hi) as [-> ->]. fold n in Hi. unfold field_ok. splits; auto. fold n.
      destruct Hz as [Hz|Hz]; [auto|]. destruct (Nat.eq_dec i (n - 1)) as [->|Hne]; [auto|]. left. apply Hz. lia. }
    destruct (createH_full rt s FO) as (H & E & S & V). exists H.
    assert (Z : forall a b, a < d ^ n -> b < d ^ n -> digit_sum d n a <> digit_sum d n b -> ent H a b = k0).
    { intros a b Ha Hb Hne. rewrite V by assumption. apply H_elem_conserves; auto. split; assumption. }
    splits; auto.
    intros H1 Hn. destruct (sum_op_half n (sz_op 1) (sz_sq 1) Hn) as (T & ET & ST & VT).
    exists T. split.
    - rewrite <- ET. unfold sp_sys, dsys. fold n. rewrite H1. reflexivity.
    - assert (Ed : d = 2) by (unfold d; lia). fold n in S. fold d in S. rewrite Ed in S, Z.
      apply (diag_commutes (2 ^ n) T H (fun a => ksum n (fun i => zval 1 (digit 2 n i a)))); auto.
      + intros a b Ha Hb. rewrite VT by assumption. rewrite <- ksum_mul_l. apply ksum_ext. intros i Hi.
        rewrite <- site_diag by assumption. unfold site_elem. destruct (agree_off _ _ _ _ _); [|reflexivity]. apply Z_ent.
      + intros a b Ha Hb Hne. apply Z; auto. intros X. apply Hne. rewrite !zsum, X. reflexivity.
  Qed.

  (** *** Spin flip *)
  Lemma flip_flip N a : a < N -> N - 1 - (N - 1 - a) = a. Proof. lia. Qed.

  Lemma flip_commutes rt (s : spins K) :
    let n := sg_nsites (sp_geom s) in let d := sp_two s + 1 in
    (forall i, i < n -> sp_hy s i = k0 /\ sp_hz s i = k0) ->
    (sp_two s = 1 \/ forall i, i < n - 1 -> sp_hx s i = k0) ->
    exists H, sp_createH rt s None = Ok H /\ square (d ^ n) H /\
      meq (mmul (swap_up_down (sp_sys s)) H) (mmul H (swap_up_down (sp_sys s))).
  Proof.
    cbn zeta. intros Hh Hx. set (n := sg_nsites (sp_geom s)) in *. set (d := sp_two s + 1) in *.
    assert (FO : fields_ok s).
    { intros i Hi. destruct (Hh i Hi) as [-> ->]. fold n in Hi. unfold field_ok. splits; auto. fold n.
      destruct Hx as [Hz|Hz]; [auto|]. destruct (Nat.eq_dec i (n - 1)) as [->|Hne]; [auto|]. left. apply Hz. lia. }
    destruct (createH_full rt s FO) as (H & E & S & V). exists H. splits; auto.
    fold n in S, V. fold d in S, V.
    assert (NS : nstates (sp_sys s) = d ^ n) by (rewrite sp_sys_dsys; apply dsys_nstates).
    apply (perm_commutes (d ^ n) _ H (fun a => d ^ n - 1 - a) (fun a => d ^ n - 1 - a)).
    - split; exact NS.
    - assumption.
    - intros a Ha. cbn beta. rewrite flip_flip by assumption. splits; try lia.
    - intros a b Ha Hb. cbn [ent swap_up_down]. rewrite NS. f_equal. apply bool_eq_iff. rewrite !Nat.eqb_eq. lia.
    - intros a b Ha Hb. rewrite !V by lia. apply H_elem_flip; assumption.
  Qed.

  Lemma flip_unitary (s : sys) : unitary_mat (nstates s) (swap_up_down (K:=K) s) /\
    meq (mmul (swap_up_down s) (swap_up_down s)) (meye (K:=K) (nstates s)).
  Proof.
    set (N := nstates s).
    assert (S : square N (swap_up_down (K:=K) s)) by (split; reflexivity).
    assert (E : meq (mmul (swap_up_down s) (swap_up_down s)) (meye (K:=K) N)).
    { apply (meq_of_seqv N); [auto using mul_square|split; reflexivity|]. intros a b Ha Hb. cbn [ent mmul swap_up_down ncol meye]. fold N.
      rewrite (ksum_single N (N - 1 - b)); [|lia|].
      - rewrite Nat.eqb_refl. replace (N - 1 - (N - 1 - b)) with b by lia. cbn [kb]. destruct (a =? b); cbn [kb]; ring.
      - intros c Hc Hne. rewrite (proj2 (Nat.eqb_neq c (N - 1 - b))) by assumption. cbn [kb]. ring. }
    assert (A : meq (madj (swap_up_down (K:=K) s)) (swap_up_down s)).
    { apply (meq_of_seqv N); [split; reflexivity|assumption|]. intros a b Ha Hb. cbn [ent madj swap_up_down]. fold N.
      rewrite kb_conj. f_equal. apply bool_eq_iff. rewrite !Nat.eqb_eq. lia. }
    split; [|exact E]. split; [assumption|]. split.
    - rewrite <- E. apply mmul_meq; [reflexivity|exact A|reflexivity].
    - rewrite <- E. apply mmul_meq; [reflexivity|reflexivity|exact A].
  Qed.

  (** The flip reverses every digit. *)
  Lemma flip_digits (s : sys) a b : s_nspecies s = 1 -> s_nbasis s <> 0 -> a < nstates s -> b < nstates s ->
    ent (swap_up_down (K:=K) s) a b =
    if forallb (fun p => digit (s_nbasis s) (s_nsites s) p a + digit (s_nbasis s) (s_nsites s) p b =? s_nbasis s - 1) (seq 0 (s_nsites s))
    then k1 else k0.
  Proof.
    destruct s as [n m d]. cbn [s_nspecies s_nbasis s_nsites]. intros -> Hd. change (Sys n 1 d) with (dsys d n).
    rewrite dsys_nstates. intros Ha Hb. cbn [ent swap_up_down]. rewrite dsys_nstates.
    change (kb (a =? d ^ n - 1 - b) = kb (K:=K) (forallb (fun p => digit d n p a + digit d n p b =? d - 1) (seq 0 n))).
    f_equal. apply bool_eq_iff. rewrite Nat.eqb_eq, forallb_forall. split.
    - intros -> p Hp. apply in_seq in Hp. rewrite (digit_flip d Hd) by lia. apply Nat.eqb_eq.
      pose proof (digit_lt d Hd n p b). lia.
    - intros H. apply (digits_ext d Hd n); auto; [lia|]. intros p Hp. rewrite (digit_flip d Hd) by assumption.
      specialize (H p ltac:(apply in_seq; lia)). apply Nat.eqb_eq in H. lia.
  Qed.

  Lemma allsite_chain n A : meq (allsite_loop n A) (kchain (K:=K) (repeat A n)).
  Proof.
    induction n as [|n IH].
    { split; [reflexivity|]. split; [reflexivity|]. cbn. intros [|i] [|j] Hi Hj; try lia. reflexivity. }
    cbn [allsite_loop].
    replace (S n) with (n + 1) by lia. rewrite repeat_app, kchain_app. cbn [repeat kchain].
    rewrite IH, mkron_eye1_r. reflexivity.
  Qed.

  Lemma allsite_entry d n A a b : d <> 0 -> square d A -> a < d ^ n -> b < d ^ n ->
    ent (allsite_loop (K:=K) n A) a b = kprod n (fun p => ent A (digit d n p a) (digit d n p b)).
  Proof.
    intros Hd SA Ha Hb. destruct (allsite_chain n A) as (E1 & E2 & E3).
    assert (F : Forall (square d) (repeat A n)) by (apply Forall_forall; intros x Hx; apply repeat_spec in Hx; subst; assumption).
    destruct (kchain_dims d _ F) as [D1 D2]. rewrite repeat_length in *.
    rewrite E3 by congruence. rewrite (kchain_entry d Hd) by (rewrite ?repeat_length; assumption).
    rewrite repeat_length. apply kprod_ext. intros p Hp. rewrite (nth_repeat' d) by assumption. reflexivity.
  Qed.

  Lemma flip_is_allsite_x (s : sys) : s_nbasis s = 2 -> s_nspecies s = 1 ->
    meq (allsite_op s pauli_x) (swap_up_down (K:=K) s).
  Proof.
    intros Hb Hs. rewrite (spin_sys s Hb Hs). set (n := s_nsites s). unfold allsite_op. cbn [s_nsites dsys].
    assert (SX : square 2 (pauli_x (K:=K))) by (split; reflexivity).
    destruct (allsite_chain n pauli_x) as (E1 & E2 & _).
    assert (F : Forall (square 2) (repeat (pauli_x (K:=K)) n)) by (apply Forall_forall; intros x Hx; apply repeat_spec in Hx; subst; assumption).
    destruct (kchain_dims 2 _ F) as [D1 D2]. rewrite repeat_length in *.
    apply (meq_of_seqv (2 ^ n)); [split; congruence|split; apply dsys_nstates|].
    intros a b Ha Hb'. rewrite (allsite_entry 2) by (auto; lia).
    rewrite flip_digits by (rewrite ?dsys_nstates; auto; cbn; lia). cbn [s_nbasis s_nsites dsys].
    change (kprod n (fun p => ent (pauli_x (K:=K)) (digit 2 n p a) (digit 2 n p b)) =
       kb (K:=K) (forallb (fun p => digit 2 n p a + digit 2 n p b =? 2 - 1) (seq 0 n))).
    rewrite <- kprod_kb. apply kprod_ext. intros p Hp.
    pose proof (digit_lt 2 ltac:(lia) n p a). pose proof (digit_lt 2 ltac:(lia) n p b).
    destruct (two_cases _ H) as [-> | ->], (two_cases _ H0) as [-> | ->]; auto.
  Qed.

  (** *** Lattice symmetries *)
  Lemma spin_symmetry rt (s : spins K) cs T :
    let n := sg_nsites (sp_geom s) in let pi := cycles_perm cs in
    sp_two s = 1 -> valid_cycles n cs ->
    xform_op (sp_sys s) (sp_swap_op (sp_sys s)) cs = Ok (Some T) ->
    (forall i j, i < n -> j < n ->
       sp_jx s i j = sp_jx s j i /\ sp_jx s (pi i) (pi j) = sp_jx s i j /\
       sp_jy s i j = sp_jy s j i /\ sp_jy s (pi i) (pi j) = sp_jy s i j /\
       sp_jz s i j = sp_jz s j i /\ sp_jz s (pi i) (pi j) = sp_jz s i j) ->
    (forall i, i < n -> sp_hx s (pi i) = sp_hx s i /\ sp_hy s (pi i) = sp_hy s i /\ sp_hz s (pi i) = sp_hz s i) ->
    exists H, sp_createH rt s None = Ok H /\ meq (mmul T H) (mmul H T).
  Proof.
    cbn zeta. intros Htwo HV ET HJ Hh. set (n := sg_nsites (sp_geom s)) in *.
    destruct (createH_full rt s (half_fields s Htwo)) as (H & E & S & V). exists H. split; [assumption|].
    assert (Hex : exists c, In c cs /\ 1 < length c).
    { destruct (existsb (fun c => 1 <? length c) cs) eqn:EX.
      - apply existsb_exists in EX as (c & Hc & Hl). apply Nat.ltb_lt in Hl. eauto.
      - exfalso. rewrite (xform_trivial (sp_sys s) _ cs) in ET; [discriminate|].
        intros c Hc. destruct (Nat.le_gt_cases (length c) 1) as [L|L]; [assumption|].
        assert (X : existsb (fun c => 1 <? length c) cs = true) by (apply existsb_exists; exists c; split; [assumption|apply Nat.ltb_lt; assumption]).
        congruence. }
    assert (Sy : sp_sys s = dsys 2 n) by (rewrite sp_sys_dsys, Htwo; reflexivity). rewrite Sy in ET.
    destruct (xform_spin (K:=K) n cs HV Hex) as (T' & ET' & MT). rewrite ET in ET'. injection ET' as <-.
    destruct (cycles_inverse n cs HV) as (rho & HR).
    assert (HR' : forall p, p < n -> rho p < n /\ cycles_perm cs p < n /\ rho (cycles_perm cs p) = p /\ cycles_perm cs (rho p) = p)
      by (intros p Hp; destruct (HR p Hp) as (? & ? & ? & ?); auto).
    assert (ST : square (2 ^ n) T) by (eapply square_meq; [symmetry; exact MT|apply Pm_sq]).
    fold n in S, V. rewrite Htwo in S, V. change (1 + 1) with 2 in S, V.
    apply (perm_commutes (2 ^ n) T H (pull 2 n (cycles_perm cs)) (pull 2 n rho)); auto.
    - intros a Ha. splits; try (apply pull_lt; lia).
      + rewrite pull_pull by (auto; intros; apply HR; assumption).
        rewrite (pull_ext 2 n ltac:(lia) _ (fun p => p)) by (intros; apply HR; assumption). apply pull_id; [lia|assumption].
      + rewrite pull_pull by (auto; intros; apply HR; assumption).
        rewrite (pull_ext 2 n ltac:(lia) _ (fun p => p)) by (intros; apply HR; assumption). apply pull_id; [lia|assumption].
    - intros a b Ha Hb. destruct MT as (_ & _ & MT). destruct ST as [ST1 ST2]. rewrite MT by congruence. reflexivity.
    - intros a b Ha Hb. assert (PL : forall x, pull 2 n (cycles_perm cs) x < 2 ^ n) by (intros; apply pull_lt; lia).
      rewrite !V by auto.
      pose proof (H_elem_perm rt s (cycles_perm cs) rho a b) as G. rewrite Htwo in G. change (1 + 1) with 2 in G. fold n in G.
      apply G; [exact HR|]. split; assumption.
  Qed.

  (** *** Rydberg atoms *)
  Definition rydberg_elem (n : nat) (J : nat -> nat -> K) (a : nat) : K :=
    ksum n (fun i => ksum i (fun j => kmul (J i j)
      (ksub (kmul (kofnat 2) (kmul (kb (digit 2 n i a =? 0)) (kb (digit 2 n j a =? 0)))) h2))).

  Lemma sigma_z_n r : r < 2 -> sigma_z (K:=K) r r = ksub (kmul (kofnat 2) (kb (r =? 0))) k1.
  Proof.
    intros Hr. rewrite !kofnat_S, kofnat_0. unfold sigma_z. rewrite Nat.eqb_refl.
    destruct (two_cases r Hr) as [-> | ->]; cbn [Nat.eqb kb]; ring.
  Qed.

  Lemma ryd_sum n (J : nat -> nat -> K) (u : nat -> K) :
    (forall i j, i < n -> j < n -> J i j = J j i) -> (forall i, i < n -> J i i = k0) ->
    ksum n (fun i => kmul (ksum n (fun j => J i j)) (u i)) =
    ksum n (fun i => ksum i (fun j => kmul (J i j) (kadd (u i) (u j)))).
  Proof.
    induction n as [|n IH]; intros HS H0; [reflexivity|].
    cbn [ksum]. rewrite <- IH by (intros; (apply HS || apply H0); lia).
    rewrite (H0 n) by lia.
    transitivity (kadd (kadd (ksum n (fun i => kmul (ksum n (fun j => J i j)) (u i))) (ksum n (fun i => kmul (J i n) (u i))))
       (kmul (ksum n (fun j => J n j)) (u n))).
    - rewrite <- ksum_add. f_equal.
      + apply ksum_ext. intros i Hi. ring.
      + ring.
    - rewrite (ksum_ext n (fun j => kmul (J n j) (kadd (u n) (u j))) (fun j => kadd (kmul (J n j) (u n)) (kmul (J j n) (u j)))).
      + rewrite ksum_add, ksum_mul_r. change (fun j : nat => J n j) with (J n). ring.
      + intros j Hj. rewrite (HS j n) by lia. ring.
  Qed.

  Lemma rydberg imag_pos rt (g : sgeom K) (jx jy jz : coupling K) (hx hy hz : field K) s s' :
    let n := sg_nsites g in
    spins_init imag_pos g jx jy jz hx hy hz true 1 = Ok s ->
    spins_init imag_pos g jx jy (JNum k0) hx hy hz false 1 = Ok s' ->
    rt 1 = k1 ->
    (forall i j, i < n -> j < n -> sp_jz s i j = sp_jz s j i) -> (forall i, i < n -> sp_jz s i i = k0) ->
    (forall i j, i < n -> j < n -> kconj (sp_jz s i j) = sp_jz s i j) ->
    exists H H', sp_createH rt s None = Ok H /\ sp_createH rt s' None = Ok H' /\
      square (2 ^ n) H /\ square (2 ^ n) H' /\
      forall a b, a < 2 ^ n -> b < 2 ^ n -> ent H a b = kadd (ent H' a b) (if a =? b then rydberg_elem n (sp_jz s) a else k0).
  Proof.
    cbn zeta. intros E1 E2 Hrt HS H0 HC. unfold spins_init in E1, E2.
    destruct (interaction_mat g jx) as [Jx|]; [|discriminate]. cbn [bind] in E1, E2.
    destruct (interaction_mat g jy) as [Jy|]; [|discriminate]. cbn [bind] in E1, E2.
    destruct (interaction_mat g jz) as [Jz|]; [|discriminate].
    cbn [interaction_mat bind] in E1, E2.
    destruct (field_mat g hx) as [fx|]; [|discriminate]. cbn [bind] in E1, E2.
    destruct (field_mat g hy) as [fy|]; [|discriminate]. cbn [bind] in E1, E2.
    destruct (field_mat g hz) as [fz|]; [|discriminate]. cbn [bind] in E1, E2.
    set (n := sg_nsites g) in *.
    assert (DET : forall i, i < n -> sp_jz s = Jz -> rydberg_detunes imag_pos n Jz i = kopp (ksum n (fun j => Jz i j))).
    { intros i Hi Es. unfold rydberg_detunes.
      assert (D : kmul (kopp (kofnat 2)) (kmul h2 (ksum n (fun j => Jz i j))) = kopp (ksum n (fun j => Jz i j))).
      { rewrite !kofnat_S, kofnat_0. transitivity (kopp (kmul (kadd h2 h2) (ksum n (fun j => Jz i j)))); [ring|]. rewrite khalf2. ring. }
      assert (R : kconj (kopp (ksum n (fun j => Jz i j))) = kopp (ksum n (fun j => Jz i j))).
      { rewrite kconj_opp, ksum_conj. f_equal. apply ksum_ext. intros j Hj. rewrite <- Es. apply HC; assumption. }
      destruct (negb _); [|exact D]. rewrite D. apply kre_of_real. exact R. }
    assert (Ejz : sp_jz s = Jz) by (injection E1 as <-; reflexivity).
    assert (T1 : sp_two s = 1) by (injection E1 as <-; reflexivity).
    assert (T2 : sp_two s' = 1) by (injection E2 as <-; reflexivity).
    destruct (createH_full rt s (half_fields s T1)) as (H & EH & SH & VH).
    destruct (createH_full rt s' (half_fields s' T2)) as (H' & EH' & SH' & VH').
    assert (G1 : sp_geom s = g) by (injection E1 as <-; reflexivity).
    assert (G2 : sp_geom s' = g) by (injection E2 as <-; reflexivity).
    rewrite G1, T1 in SH, VH. rewrite G2, T2 in SH', VH'. fold n in SH, VH, SH', VH'.
    change (1 + 1) with 2 in *.
    exists H, H'. splits; auto. intros a b Ha Hb. rewrite VH, VH' by assumption.
    rewrite !H_elem_half by assumption. rewrite G1, G2. fold n.
    specialize (fun i Hi => DET i Hi Ejz). rewrite Ejz in *.
    injection E1 as <-. injection E2 as <-. cbn [sp_jx sp_jy sp_jz sp_hx sp_hy sp_hz].
    unfold spin_elem.
    set (Z i := site_elem (K:=K) 2 n i sigma_z a b).
    set (ZZ i j := pair_elem (K:=K) 2 n i j sigma_z sigma_z a b).
    set (A i j := kadd (kmul (Jx i j) (pair_elem 2 n i j sigma_x sigma_x a b)) (kmul (Jy i j) (pair_elem 2 n i j sigma_y sigma_y a b))).
    set (B i := kadd (kmul (fx i) (site_elem 2 n i sigma_x a b)) (kmul (kopp (fy i)) (site_elem 2 n i sigma_y a b))).
    transitivity (kadd (ksub (ksum n (fun i => ksum i (fun j => kmul h2 (A i j)))) (ksum n (fun i => kmul h2 (kadd (B i) (kmul (fz i) (Z i))))))
      (kmul h2 (kadd (ksum n (fun i => ksum i (fun j => kmul (Jz i j) (ZZ i j)))) (ksum n (fun i => kmul (ksum n (fun j => Jz i j)) (Z i)))))).
    { assert (P1 : ksum n (fun i => ksum i (fun j => kmul h2 (kadd (A i j) (kmul (Jz i j) (ZZ i j))))) =
        kadd (ksum n (fun i => ksum i (fun j => kmul h2 (A i j)))) (kmul h2 (ksum n (fun i => ksum i (fun j => kmul (Jz i j) (ZZ i j)))))).
      { rewrite <- ksum_mul_l, <- ksum_add. apply ksum_ext. intros i Hi. rewrite <- ksum_mul_l, <- ksum_add.
        apply ksum_ext. intros j Hj. ring. }
      assert (P2 : ksum n (fun i => kmul h2 (kadd (B i) (kmul (kadd (fz i) (rydberg_detunes imag_pos n Jz i)) (Z i)))) =
        ksub (ksum n (fun i => kmul h2 (kadd (B i) (kmul (fz i) (Z i))))) (kmul h2 (ksum n (fun i => kmul (ksum n (fun j => Jz i j)) (Z i))))).
      { transitivity (kadd (ksum n (fun i => kmul h2 (kadd (B i) (kmul (fz i) (Z i)))))
           (ksum n (fun i => kopp (kmul h2 (kmul (ksum n (fun j => Jz i j)) (Z i)))))).
        - rewrite <- ksum_add. apply ksum_ext. intros i Hi. rewrite DET by assumption. ring.
        - rewrite ksum_opp, !ksum_mul_l. ring. }
      transitivity (ksub (ksum n (fun i => ksum i (fun j => kmul h2 (kadd (A i j) (kmul (Jz i j) (ZZ i j))))))
         (ksum n (fun i => kmul h2 (kadd (B i) (kmul (kadd (fz i) (rydberg_detunes imag_pos n Jz i)) (Z i)))))); [reflexivity|].
      rewrite P1, P2. ring. }
    f_equal.
    - f_equal. apply ksum_ext. intros i Hi. apply ksum_ext. intros j Hj. unfold A. ring.
    - rewrite ryd_sum by assumption. rewrite <- ksum_add.
      destruct (Nat.eqb_spec a b) as [<-|Hab].
      + unfold rydberg_elem. rewrite <- ksum_mul_l. apply ksum_ext. intros i Hi. rewrite <- ksum_add, <- ksum_mul_l.
        apply ksum_ext. intros j Hj. unfold ZZ, Z, pair_elem, site_elem.
        assert (AG : forall L, agree_off 2 n L a a = true) by (intros; apply agree_off_spec; reflexivity).
        rewrite !AG, !sigma_z_n by (apply digit_lt; lia).
        set (x := kb (digit 2 n i a =? 0)). set (y := kb (digit 2 n j a =? 0)).
        assert (TW : kofnat (K:=K) 2 = kadd k1 k1) by (rewrite !kofnat_S, kofnat_0; ring). rewrite TW.
        transitivity (kmul (Jz i j) (ksub (kmul (kmul (kadd h2 h2) (kadd k1 k1)) (kmul x y)) h2)); [ring|]. rewrite khalf2. ring.
      + assert (ZZ0 : forall i j, i < n -> j < n -> i <> j -> ZZ i j = k0).
        { intros i j Hi Hj Hij. unfold ZZ, pair_elem, sigma_z. destruct (agree_off 2 n [i; j] a b) eqn:E; [|reflexivity].
          destruct (Nat.eqb_spec (digit 2 n i a) (digit 2 n i b)); [|ring].
          destruct (Nat.eqb_spec (digit 2 n j a) (digit 2 n j b)); [|ring].
          exfalso. apply Hab. apply (digits_ext 2 ltac:(lia) n); auto. intros p Hp.
          destruct (Nat.eq_dec p i) as [->|Hp1]; [assumption|]. destruct (Nat.eq_dec p j) as [->|Hp2]; [assumption|].
          apply (proj1 (agree_off_spec _ _ _ _ _) E); auto. cbn. intros [->|[->|[]]]; congruence. }
        assert (Z0 : forall i, i < n -> Z i = k0).
        { intros i Hi. unfold Z, site_elem, sigma_z. destruct (agree_off 2 n [i] a b) eqn:E; [|reflexivity].
          destruct (Nat.eqb_spec (digit 2 n i a) (digit 2 n i b)); [|reflexivity].
          exfalso. apply Hab. apply (digits_ext 2 ltac:(lia) n); auto. intros p Hp.
          destruct (Nat.eq_dec p i) as [->|Hp1]; [assumption|].
          apply (proj1 (agree_off_spec _ _ _ _ _) E); auto. cbn. intros [->|[]]; congruence. }
        rewrite ksum_zero; [ring|]. intros i Hi.
        rewrite (ksum_zero i (fun j => kmul (Jz i j) (ZZ i j))) by (intros j Hj; rewrite ZZ0 by lia; ring).
        rewrite ksum_zero; [ring|]. intros j Hj. rewrite !Z0 by lia. ring.
  Qed.

  (** *** Excitation pairs *)
  Lemma npairs (s : sys) conn : s_nbasis s = 2 -> s_nspecies s = 1 ->
    length conn = length (upper_pairs (s_nsites s)) ->
    match npairs_op (K:=K) s conn with
    | Raise _ => False
    | Ok None => forall b, In b conn -> b = false
    | Ok (Some T) => square (2 ^ s_nsites s) T /\ forall a b, a < 2 ^ s_nsites s -> b < 2 ^ s_nsites s ->
        ent T a b = if a =? b then kofnat (length (filter
           (fun p => (digit 2 (s_nsites s) (fst p) a =? 0) && (digit 2 (s_nsites s) (snd p) a =? 0))
           (map fst (filter snd (combine (upper_pairs (s_nsites s)) conn))))) else k0
    end.
  Proof.
    intros Hb Hs HL. rewrite (spin_sys s Hb Hs). set (n := s_nsites s) in *. cbn [s_nsites dsys].
    unfold npairs_op. cbn [s_nsites dsys]. rewrite (proj2 (Nat.eqb_eq _ _) HL).
    set (ps := map fst (filter snd (combine (upper_pairs n) conn))).
    assert (HP : forall p, In p ps -> fst p < n /\ snd p < n /\ fst p <> snd p).
    { intros p Hp. unfold ps in Hp. apply in_map_iff in Hp as ([q c] & <- & Hq). apply filter_In in Hq as [Hq _].
      apply in_combine_l in Hq. unfold upper_pairs in Hq. apply in_map_iff in Hq as ([x y] & <- & Hx).
      apply filter_In in Hx as [Hx Hlt]. apply in_prod_iff in Hx as [Hx Hy]. apply in_seq in Hx, Hy.
      apply Nat.ltb_lt in Hlt. cbn in *. lia. }
    set (F := fun a p => (digit 2 n (fst p) a =? 0) && (digit 2 n (snd p) a =? 0)).
    set (I := fun (pre : list (nat * nat)) (acc : option (mat K)) =>
      match acc with None => pre = [] | Some T => square (2 ^ n) T /\
        forall a b, a < 2 ^ n -> b < 2 ^ n -> ent T a b = if a =? b then kofnat (length (filter (F a) pre)) else k0 end).
    assert (NR : square 2 (nr_op (K:=K))) by (split; reflexivity).
    assert (PE : forall i j a b, i < n -> j < n -> i <> j -> a < 2 ^ n -> b < 2 ^ n ->
      pair_elem 2 n i j (ent (nr_op (K:=K))) (ent nr_op) a b = if a =? b then kofnat (if F a (i, j) then 1 else 0) else k0).
    { intros i j a b Hi Hj Hij Ha Hb'. unfold F. cbn [fst snd].
      assert (L : forall p x, digit 2 n p x < 2) by (intros; apply digit_lt; lia).
      assert (NE : forall r c, r < 2 -> c < 2 -> ent (nr_op (K:=K)) r c = kmul (kb (r =? c)) (kb (r =? 0))).
      { intros r c Hr Hc. destruct (two_cases r Hr) as [-> | ->], (two_cases c Hc) as [-> | ->]; cbn; ring. }
      unfold pair_elem. rewrite !NE by apply L. destruct (Nat.eqb_spec a b) as [<-|Hab].
      - assert (AG : agree_off 2 n [i; j] a a = true) by (apply agree_off_spec; reflexivity). rewrite AG, !Nat.eqb_refl.
        assert (K1 : kofnat (K:=K) 1 = k1) by (rewrite kofnat_S, kofnat_0; ring).
        assert (K0 : kofnat (K:=K) 0 = k0) by apply kofnat_0.
        destruct (digit 2 n i a =? 0), (digit 2 n j a =? 0); cbn [andb kb]; rewrite ?K1, ?K0; ring.
      - destruct (agree_off 2 n [i; j] a b) eqn:E; [|reflexivity].
        destruct (Nat.eqb_spec (digit 2 n i a) (digit 2 n i b)); [|cbn [kb]; ring].
        destruct (Nat.eqb_spec (digit 2 n j a) (digit 2 n j b)); [|cbn [kb]; ring].
        exfalso. apply Hab. apply (digits_ext 2 ltac:(lia) n); auto. intros p Hp.
        destruct (Nat.eq_dec p i) as [->|Hp1]; [assumption|]. destruct (Nat.eq_dec p j) as [->|Hp2]; [assumption|].
        apply (proj1 (agree_off_spec _ _ _ _ _) E); auto. cbn. intros [->|[->|[]]]; congruence. }
    destruct (rfold_inv (fun acc p => A <- two_site_op (dsys 2 n) (fst p) 0 (snd p) 0 nr_op nr_op Boson ;; opt_add acc A) I ps)
      with (s := @None (mat K)) as (acc & EA & HI).
    - intros pre [i j] post acc Hsplit HI. cbn [fst snd].
      destruct (HP (i, j)) as (Hi & Hj & Hij); [rewrite Hsplit; apply in_elt|]. cbn [fst snd] in *.
      destruct (two_elem 2 ltac:(lia) n i j nr_op nr_op NR NR Hi Hj Hij) as (B & EB & SB & VB). rewrite EB. cbn [bind].
      destruct acc as [T|]; unfold opt_add.
      + destruct HI as [ST VT]. rewrite (cadd_ok (2 ^ n)) by assumption. cbn [bind]. eexists. split; [reflexivity|].
        split; [auto using square_add|]. intros a b Ha Hb'. cbn [ent madd]. rewrite VT, VB, PE by assumption.
        rewrite filter_app, app_length. cbn [filter]. destruct (a =? b); [|ring].
        rewrite kofnat_add. destruct (F a (i, j)); reflexivity.
      + cbn in HI. subst pre. eexists. split; [reflexivity|]. split; [assumption|].
        intros a b Ha Hb'. rewrite VB, PE by assumption. cbn [app filter]. destruct (a =? b); [|reflexivity].
        destruct (F a (i, j)); reflexivity.
    - reflexivity.
    - rewrite EA. destruct acc as [T|]; [exact HI|]. cbn in HI.
      intros b Hb'. destruct b; [|reflexivity]. exfalso.
      apply In_nth with (d := false) in Hb' as (k & Hk & Ek).
      assert (X : In (nth k (combine (upper_pairs n) conn) ((0, 0), false)) (combine (upper_pairs n) conn)).
      { apply nth_In. rewrite combine_length. lia. }
      rewrite combine_nth in X by congruence. rewrite Ek in X.
      assert (Y : In (nth k (upper_pairs n) (0, 0)) ps).
      { unfold ps. apply in_map_iff. eexists. split; [|apply filter_In; split; [exact X|reflexivity]]. reflexivity. }
      rewrite HI in Y. destruct Y.
  Qed.

  (** What the constructor stores. *)
  Lemma spins_init_ok imag_pos (g : sgeom K) jx jy jz hx hy hz two s :
    spins_init imag_pos g jx jy jz hx hy hz false two = Ok s ->
    let stored j J := match j with
      | JNum x => forall a b, J a b = if sg_adj g a b then kmul x (sg_phase g a b) else k0
      | JArr2 r c m => r = sg_nsites g /\ c = sg_nsites g /\ J = m
      | _ => False end in
    let fstored h F := match h with
      | HNum x => forall i : nat, F i = x
      | HArr l => length l = sg_nsites g /\ forall i, F i = nth i l k0
      | HOther => False end in
    sp_geom s = g /\ sp_two s = two /\ stored jx (sp_jx s) /\ stored jy (sp_jy s) /\ stored jz (sp_jz s) /\
    fstored hx (sp_hx s) /\ fstored hy (sp_hy s) /\ fstored hz (sp_hz s).
  Proof.
    intros E. cbn zeta.
    assert (IM : forall j J, interaction_mat g j = Ok J -> match j with
      | JNum x => forall a b, J a b = if sg_adj g a b then kmul x (sg_phase g a b) else k0
      | JArr2 r c m => r = sg_nsites g /\ c = sg_nsites g /\ J = m
      | _ => False end).
    { intros [x|l|r c m|] J H; cbn [interaction_mat] in H.
      - injection H as <-. intros a b. destruct (sg_adj g a b); cbn [kb]; ring.
      - destruct (_ =? _); discriminate.
      - destruct (Nat.eqb_spec r (sg_nsites g)), (Nat.eqb_spec c (sg_nsites g)); cbn [andb] in H;
          try (injection H as <-; auto; fail); destruct (_ =? _) in H; try discriminate; destruct (_ =? _) in H; discriminate.
      - discriminate. }
    assert (FM : forall h F, field_mat g h = Ok F -> match h with
      | HNum x => forall i : nat, F i = x
      | HArr l => length l = sg_nsites g /\ forall i, F i = nth i l k0
      | HOther => False end).
    { intros [x|l|] F H; cbn [field_mat] in H.
      - injection H as <-. intros i. ring.
      - destruct (Nat.eqb_spec (length l) (sg_nsites g)); cbn [negb] in H; [injection H as <-; auto|discriminate].
      - discriminate. }
    unfold spins_init in E.
    apply bind_ok in E as (Jx & E1 & E). apply bind_ok in E as (Jy & E2 & E). apply bind_ok in E as (Jz & E3 & E).
    apply bind_ok in E as (Hx & E4 & E). apply bind_ok in E as (Hy & E5 & E). apply bind_ok in E as (Hz & E6 & E).
    injection E as <-. cbn [sp_geom sp_two sp_jx sp_jy sp_jz sp_hx sp_hy sp_hz].
    splits; try reflexivity; (apply IM || apply FM); assumption.
  Qed.

  Lemma list_coupling imag_pos (g : sgeom K) l jy jz hx hy hz ryd two :
    spins_init imag_pos g (JArr1 l) jy jz hx hy hz ryd two =
    Raise (if length l =? sg_nsites g then ValueError else GenericException).
  Proof. unfold spins_init. cbn [interaction_mat]. destruct (length l =? sg_nsites g); reflexivity. Qed.
End SpinApi.

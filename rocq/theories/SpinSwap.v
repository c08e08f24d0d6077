(** Swap operators and site permutations of spin-1/2 systems. *)
From Coq Require Import List Arith Lia Bool QArith Ring Setoid Permutation.
From Verif Require Import Scalars Res Matrix ModelBase ModelSpins SpecSpins SpecPerm SpecMat OpsProofs SqMat FockProofs
  FermiOps SwapProofs Sums HamProofs HamSym Digits SpinOps.
Import ListNotations.
Local Open Scope nat_scope.
Arguments Nat.div : simpl never.
Arguments Nat.modulo : simpl never.
Arguments Nat.pow : simpl never.

Section Swap.
  Context {K : Type} {SR : StarRing K}.
  Add Ring KringSW : (@k_ring K SR).

  Lemma two_nz : 2 <> 0. Proof. discriminate. Qed.

  Lemma digit2_cases n p k : digit 2 n p k = 0 \/ digit 2 n p k = 1.
  Proof. pose proof (digit_lt 2 two_nz n p k). lia. Qed.

  Lemma exchange_l i j : exchange i j i = j.
  Proof. unfold exchange. rewrite Nat.eqb_refl. reflexivity. Qed.
  Lemma exchange_r i j : exchange i j j = i.
  Proof. unfold exchange. destruct (Nat.eqb_spec j i); [auto|]. rewrite Nat.eqb_refl. reflexivity. Qed.
  Lemma exchange_o i j x : x <> i -> x <> j -> exchange i j x = x.
  Proof. intros. unfold exchange. rewrite !(proj2 (Nat.eqb_neq _ _)) by assumption. reflexivity. Qed.
  Lemma exchange_inv i j x : exchange i j (exchange i j x) = x.
  Proof.
    destruct (Nat.eq_dec x i) as [->|Hi]; [rewrite exchange_l; apply exchange_r|].
    destruct (Nat.eq_dec x j) as [->|Hj]; [rewrite exchange_r; apply exchange_l|].
    rewrite !exchange_o by (rewrite ?exchange_o; assumption). reflexivity.
  Qed.

  Lemma carried_exchange d n i j a b : i < n -> j < n ->
    carried d n (exchange i j) a b =
    agree_off d n [i; j] a b && (digit d n j a =? digit d n i b) && (digit d n i a =? digit d n j b).
  Proof.
    intros Hi Hj. apply bool_eq_iff. rewrite !andb_true_iff, !Nat.eqb_eq, carried_spec, agree_off_spec. split.
    - intros H. splits.
      + intros p Hp Hn. specialize (H p Hp). rewrite exchange_o in H; [assumption| |];
          intros ->; apply Hn; cbn; auto.
      + rewrite <- (H i Hi), exchange_l. reflexivity.
      + rewrite <- (H j Hj), exchange_r. reflexivity.
    - intros [[H1 H2] H3] p Hp.
      destruct (Nat.eq_dec p i) as [->|Ni]; [rewrite exchange_l; assumption|].
      destruct (Nat.eq_dec p j) as [->|Nj]; [rewrite exchange_r; assumption|].
      rewrite exchange_o by assumption. apply H1; [assumption|]. cbn. intros [E|[E|[]]]; congruence.
  Qed.

  Lemma same_index n i j a b : i < n -> j < n -> a < 2 ^ n -> b < 2 ^ n ->
    (a =? b) = agree_off 2 n [i; j] a b && (digit 2 n i a =? digit 2 n i b) && (digit 2 n j a =? digit 2 n j b).
  Proof.
    intros Hi Hj Ha Hb. apply bool_eq_iff. rewrite !andb_true_iff, !Nat.eqb_eq, agree_off_spec. split.
    - intros ->. auto.
    - intros [[H1 H2] H3]. apply (digits_ext 2 two_nz n); auto. intros p Hp.
      destruct (Nat.eq_dec p i) as [->|Ni]; [assumption|].
      destruct (Nat.eq_dec p j) as [->|Nj]; [assumption|].
      apply H1; [assumption|]. cbn. intros [E|[E|[]]]; congruence.
  Qed.

  Lemma lit_sq (x y z w : K) : square 2 (mlit 2 2 [[x; y]; [z; w]]).
  Proof. split; reflexivity. Qed.

  Lemma sp_swap_entries n i j : i < n -> j < n -> i <> j ->
    exists S, sp_swap_op (K:=K) (dsys 2 n) i j 0 = Ok S /\ square (2 ^ n) S /\
      forall a b, a < 2 ^ n -> b < 2 ^ n -> ent S a b = kb (carried 2 n (exchange i j) a b).
  Proof.
    intros Hi Hj Hij. unfold sp_swap_op.
    destruct (two_elem 2 two_nz n i j (pauli_plus (K:=K)) pauli_minus) as (A & EA & SA & VA); auto; try (split; reflexivity).
    destruct (two_elem 2 two_nz n i j (pauli_minus (K:=K)) pauli_plus) as (B & EB & SB & VB); auto; try (split; reflexivity).
    destruct (two_elem 2 two_nz n i j (pauli_z (K:=K)) pauli_z) as (C & EC & SC & VC); auto; try (split; reflexivity).
    rewrite EA, EB, EC. cbn [bind]. rewrite dsys_nstates.
    rewrite (cadd_ok (2 ^ n)) by assumption. cbn [bind].
    rewrite (cadd_ok (2 ^ n)) by auto using square_add, square_scale, square_eye. cbn [bind].
    rewrite (cadd_ok (2 ^ n)) by auto using square_add, square_scale, square_eye.
    eexists. splits; [reflexivity|auto 6 using square_add, square_scale, square_eye|].
    intros a b Ha Hb. cbn [ent madd mscale meye]. rewrite VA, VB, VC by assumption.
    rewrite (same_index n i j a b) by assumption. rewrite carried_exchange by assumption. unfold pair_elem.
    pose proof (khalf2 (K:=K)) as H2.
    destruct (agree_off 2 n [i; j] a b); [|cbn; ring].
    destruct (digit2_cases n i a) as [-> | ->], (digit2_cases n i b) as [-> | ->],
      (digit2_cases n j a) as [-> | ->], (digit2_cases n j b) as [-> | ->]; cbn; try ring;
      try (rewrite <- H2; ring); try (transitivity (kadd (kQ (1#2)) (kQ (1#2))); [ring|exact H2]).
  Qed.

  (** Swapping a site with itself: twice the identity. *)
  Lemma sp_swap_self n i : i < n ->
    exists S, sp_swap_op (K:=K) (dsys 2 n) i i 0 = Ok S /\ square (2 ^ n) S /\
      meq S (mscale (kofnat 2) (meye (2 ^ n))).
  Proof.
    intros Hi. unfold sp_swap_op.
    assert (L : forall A B : mat K, square 2 A -> square 2 B ->
      exists T, two_site_op (dsys 2 n) i 0 i 0 A B Boson = Ok T /\ square (2 ^ n) T /\
        forall a b, a < 2 ^ n -> b < 2 ^ n -> ent T a b = site_elem 2 n i (ent (mmul A B)) a b).
    { intros A B SA SB. unfold two_site_op. rewrite Nat.eqb_refl. rewrite (cmul_ok 2) by assumption. cbn [bind].
      apply (single_elem 2 two_nz); auto using mul_square. }
    destruct (L pauli_plus pauli_minus) as (A & EA & SA & VA); auto; try (split; reflexivity).
    destruct (L pauli_minus pauli_plus) as (B & EB & SB & VB); auto; try (split; reflexivity).
    destruct (L pauli_z pauli_z) as (C & EC & SC & VC); auto; try (split; reflexivity).
    rewrite EA, EB, EC. cbn [bind]. rewrite dsys_nstates.
    rewrite (cadd_ok (2 ^ n)) by assumption. cbn [bind].
    rewrite (cadd_ok (2 ^ n)) by auto using square_add, square_scale, square_eye. cbn [bind].
    rewrite (cadd_ok (2 ^ n)) by auto using square_add, square_scale, square_eye.
    assert (SS : square (2 ^ n) (madd (madd (madd A B) (mscale (kQ (1 # 2)) (meye (2 ^ n)))) (mscale (kQ (1 # 2)) C)))
      by auto 6 using square_add, square_scale, square_eye.
    eexists. splits; [reflexivity|assumption|].
    apply (meq_of_seqv (2 ^ n)); [assumption|auto using square_scale, square_eye|].
    intros a b Ha Hb. cbn [ent madd mscale meye]. rewrite VA, VB, VC by assumption.
    rewrite (same_index n i i a b) by assumption.
    replace (agree_off 2 n [i; i] a b) with (agree_off 2 n [i] a b).
    2:{ apply bool_eq_iff. rewrite !agree_off_spec. cbn [In]. split; intros H p Hp Hn; apply H; auto; tauto. }
    unfold site_elem. rewrite (kofnat_S (K:=K)), (kofnat_S (K:=K)), kofnat_0.
    pose proof (khalf2 (K:=K)) as H2.
    destruct (agree_off 2 n [i] a b); [|cbn; ring].
    destruct (digit2_cases n i a) as [-> | ->], (digit2_cases n i b) as [-> | ->]; cbn; try ring;
      (transitivity (kadd k1 (kadd (kQ (1#2)) (kQ (1#2)))); [ring|rewrite H2; ring]).
  Qed.

  (** *** Permutation matrices *)
  Section Pull.
    Variable d n : nat.
    Hypothesis Hd : d <> 0.
    Definition pull (pi : nat -> nat) (a : nat) : nat := of_digits d n (fun p => digit d n (pi p) a).

    Lemma pull_lt pi a : pull pi a < d ^ n.
    Proof. apply of_digits_lt; [assumption|]. intros. apply digit_lt. assumption. Qed.
    Lemma digit_pull pi a p : p < n -> digit d n p (pull pi a) = digit d n (pi p) a.
    Proof.
      intros H. unfold pull. rewrite (digit_of_digits d Hd n (fun q => digit d n (pi q) a)); auto.
      intros. apply digit_lt. assumption.
    Qed.
    Lemma carried_pull pi a b : b < d ^ n -> carried d n pi a b = (b =? pull pi a).
    Proof.
      intros Hb. apply bool_eq_iff. rewrite carried_spec, Nat.eqb_eq. split.
      - intros H. apply (digits_ext d Hd n); auto using pull_lt. intros p Hp. rewrite digit_pull by assumption.
        symmetry. apply H, Hp.
      - intros -> p Hp. rewrite digit_pull by assumption. reflexivity.
    Qed.
    Lemma pull_pull pi1 pi2 a : (forall p, p < n -> pi2 p < n) -> pull pi2 (pull pi1 a) = pull (fun p => pi1 (pi2 p)) a.
    Proof.
      intros H. apply (digits_ext d Hd n); auto using pull_lt. intros p Hp. rewrite !digit_pull by auto. reflexivity.
    Qed.
    Lemma pull_id a : a < d ^ n -> pull (fun p => p) a = a.
    Proof. intros. apply of_digits_digit; assumption. Qed.
    Lemma pull_ext pi pi' a : (forall p, p < n -> pi p = pi' p) -> pull pi a = pull pi' a.
    Proof. intros H. apply of_digits_ext; [assumption|]. intros. rewrite H by assumption. reflexivity. Qed.

    Definition Pm (pi : nat -> nat) : mat K := Mat (d ^ n) (d ^ n) (fun a b => kb (b =? pull pi a)).
    Lemma Pm_sq pi : square (d ^ n) (Pm pi). Proof. split; reflexivity. Qed.
    Lemma Pm_carry pi : meq (carry_mat d n pi) (Pm pi).
    Proof.
      apply (meq_of_seqv (d ^ n)); [split; reflexivity|apply Pm_sq|]. intros a b Ha Hb. cbn.
      rewrite carried_pull by assumption. reflexivity.
    Qed.
    Lemma Pm_mul pi1 pi2 : (forall p, p < n -> pi2 p < n) -> meq (mmul (Pm pi1) (Pm pi2)) (Pm (fun p => pi1 (pi2 p))).
    Proof.
      intros H. apply (meq_of_seqv (d ^ n)); [apply mul_square; apply Pm_sq|apply Pm_sq|].
      intros a b Ha Hb. cbn. rewrite (ksum_single _ (pull pi1 a)).
      - rewrite Nat.eqb_refl, pull_pull by assumption. cbn. ring.
      - apply pull_lt.
      - intros c Hc Hne. rewrite (proj2 (Nat.eqb_neq c (pull pi1 a))) by assumption. cbn. ring.
    Qed.
    Lemma Pm_ext pi pi' : (forall p, p < n -> pi p = pi' p) -> meq (Pm pi) (Pm pi').
    Proof.
      intros H. apply (meq_of_seqv (d ^ n)); try apply Pm_sq. intros a b Ha Hb. cbn.
      rewrite (pull_ext pi pi') by assumption. reflexivity.
    Qed.
    Lemma Pm_id : meq (Pm (fun p => p)) (meye (d ^ n)).
    Proof.
      apply (meq_of_seqv (d ^ n)); [apply Pm_sq|apply square_eye|]. intros a b Ha Hb. cbn.
      rewrite pull_id by assumption. rewrite Nat.eqb_sym. reflexivity.
    Qed.
    Lemma Pm_adj pi rho : (forall p, p < n -> pi p < n /\ rho p < n /\ pi (rho p) = p /\ rho (pi p) = p) ->
      meq (madj (Pm pi)) (Pm rho).
    Proof.
      intros H. apply (meq_of_seqv (d ^ n)); [split; reflexivity|apply Pm_sq|]. intros a b Ha Hb. cbn. rewrite kb_conj.
      f_equal. apply bool_eq_iff. rewrite !Nat.eqb_eq. split; intros ->.
      - rewrite pull_pull by (intros; apply H; assumption).
        rewrite (pull_ext _ (fun p => p)) by (intros; apply H; assumption). rewrite pull_id by assumption. reflexivity.
      - rewrite pull_pull by (intros; apply H; assumption).
        rewrite (pull_ext _ (fun p => p)) by (intros; apply H; assumption). rewrite pull_id by assumption. reflexivity.
    Qed.
    Lemma Pm_unitary pi rho : (forall p, p < n -> pi p < n /\ rho p < n /\ pi (rho p) = p /\ rho (pi p) = p) ->
      unitary_mat (d ^ n) (Pm pi).
    Proof.
      intros H. split; [apply Pm_sq|].
      assert (E1 : meq (mmul (madj (Pm pi)) (Pm pi)) (mmul (Pm rho) (Pm pi))).
      { apply mmul_meq; [reflexivity|apply Pm_adj, H|reflexivity]. }
      assert (E2 : meq (mmul (Pm pi) (madj (Pm pi))) (mmul (Pm pi) (Pm rho))).
      { apply mmul_meq; [reflexivity|reflexivity|apply Pm_adj, H]. }
      split.
      - rewrite E1, Pm_mul by (intros; apply H; assumption). rewrite <- Pm_id. apply Pm_ext. intros. apply H. assumption.
      - rewrite E2, Pm_mul by (intros; apply H; assumption). rewrite <- Pm_id. apply Pm_ext. intros. apply H. assumption.
    Qed.
  End Pull.

  (** An injective map of [0..n-1] to itself has an inverse. *)
  Lemma inj_inverse n (pi : nat -> nat) :
    (forall p, p < n -> pi p < n) -> (forall p q, p < n -> q < n -> pi p = pi q -> p = q) ->
    exists rho, forall p, p < n -> pi p < n /\ rho p < n /\ pi (rho p) = p /\ rho (pi p) = p.
  Proof.
    intros H1 H2.
    assert (P : Permutation (map pi (seq 0 n)) (seq 0 n)).
    { apply NoDup_Permutation_bis.
      - apply NoDup_map_in; [|apply seq_NoDup]. intros x y Hx Hy. apply in_seq in Hx, Hy. apply H2; lia.
      - rewrite map_length. lia.
      - intros y Hy. apply in_map_iff in Hy as (x & <- & Hx). apply in_seq in Hx. apply in_seq. specialize (H1 x). lia. }
    exists (fun y => match find (fun x => pi x =? y) (seq 0 n) with Some x => x | None => 0 end).
    intros p Hp.
    assert (F : forall y, y < n -> exists x, find (fun x => pi x =? y) (seq 0 n) = Some x /\ x < n /\ pi x = y).
    { intros y Hy. destruct (find (fun x => pi x =? y) (seq 0 n)) as [x|] eqn:E.
      - apply find_some in E as [E1 E2]. apply in_seq in E1. apply Nat.eqb_eq in E2. exists x. splits; auto. lia.
      - exfalso. assert (I : In y (map pi (seq 0 n))) by (rewrite P; apply in_seq; lia).
        apply in_map_iff in I as (x & Ex & Hx). apply (find_none _ _ E) in Hx. apply Nat.eqb_neq in Hx. contradiction. }
    destruct (F p Hp) as (x & -> & Hx & Ex). destruct (F (pi p) (H1 p Hp)) as (z & -> & Hz & Ez).
    splits; auto.
  Qed.

  Lemma cycles_inverse n cs : valid_cycles n cs ->
    exists rho, forall p, p < n -> cycles_perm cs p < n /\ rho p < n /\ cycles_perm cs (rho p) = p /\ rho (cycles_perm cs p) = p.
  Proof.
    intros V. apply inj_inverse; [intros; apply cycles_perm_lt; assumption|].
    intros p q _ _. apply (cycles_perm_inj n cs). assumption.
  Qed.

  (** *** Site permutation operators *)
  Definition swapm (n : nat) := fun i j sp => sp_swap_op (K:=K) (dsys 2 n) i j sp.

  Lemma cycle_op_spin n c : NoDup c -> (forall x, In x c -> x < n) -> 1 < length c ->
    exists A, cycle_op (sp_swap_op (K:=K) (dsys 2 n)) c 0 = Ok (Some A) /\ meq A (Pm 2 n (next_in_cycle c)).
  Proof.
    intros ND Hc Hlen.
    set (pi := fun (pre : list (nat * nat)) (x : nat) => fold_left (fun x p => exchange (fst p) (snd p) x) pre x).
    set (I := fun (pre : list (nat * nat)) (acc : option (mat K)) =>
      match acc with None => pre = [] | Some A => meq A (Pm 2 n (pi pre)) /\ forall x, x < n -> pi pre x < n end).
    destruct (rfold_inv (fun acc p => A <- sp_swap_op (K:=K) (dsys 2 n) (fst p) (snd p) 0 ;; one_mul A acc) I (cycle_pairs c))
      with (s := @None (mat K)) as (acc & EA & HI).
    - intros pre [i j] post acc Hsplit HI. cbn [fst snd].
      assert (X : In (i, j) (cycle_pairs c)) by (rewrite Hsplit; apply in_elt).
      assert (Hne : i <> j).
      { intros ->. clear -X ND. unfold cycle_pairs in X. rewrite <- in_rev in X.
        induction c as [|a [|b t] IH]; cbn [combine tl] in X; try (destruct X; fail).
        inversion ND; subst. destruct X as [X|X].
        - injection X as -> ->. apply H1. left; reflexivity.
        - apply IH; assumption. }
      apply cycle_pairs_in in X. cbn in X. destruct X as [Xi Xj]. apply Hc in Xi, Xj.
      destruct (sp_swap_entries n i j Xi Xj Hne) as (S & ES & SS & VS). rewrite ES. cbn [bind].
      assert (MS : meq S (Pm 2 n (exchange i j))).
      { apply (meq_of_seqv (2 ^ n)); [assumption|apply Pm_sq|]. intros a b Ha Hb. cbn. rewrite VS by assumption.
        rewrite (carried_pull 2 n two_nz) by assumption. reflexivity. }
      destruct acc as [A|].
      + destruct HI as [GA HA]. unfold one_mul.
        assert (SA : square (2 ^ n) A) by (eapply square_meq; [symmetry; exact GA|apply Pm_sq]).
        rewrite (cmul_ok (2 ^ n)) by assumption. cbn [bind]. eexists. split; [reflexivity|]. split.
        * transitivity (mmul (Pm 2 n (exchange i j)) (Pm 2 n (pi pre))).
          { apply mmul_meq; auto. destruct SA, SS; congruence. }
          rewrite (Pm_mul 2 n two_nz) by assumption. apply Pm_ext; [apply two_nz|].
          intros x Hx. unfold pi. rewrite fold_left_app. reflexivity.
        * intros x Hx. specialize (HA x Hx). unfold pi in *. rewrite fold_left_app. cbn. apply tr_sites; assumption.
      + cbn in HI. subst pre. eexists. split; [reflexivity|]. split.
        * exact MS.
        * intros x Hx. cbn. apply tr_sites; assumption.
    - reflexivity.
    - unfold cycle_op. rewrite EA. destruct acc as [A|].
      + exists A. split; [reflexivity|]. destruct HI as [GA _]. rewrite GA. apply Pm_ext; [apply two_nz|].
        intros x Hx. apply cycle_pairs_perm. assumption.
      + exfalso. apply (cycle_pairs_nil c Hlen). exact HI.
  Qed.

  Lemma xform_spin n cs : valid_cycles n cs -> (exists c, In c cs /\ 1 < length c) ->
    exists T, xform_op (dsys 2 n) (sp_swap_op (K:=K) (dsys 2 n)) cs = Ok (Some T) /\ meq T (Pm 2 n (cycles_perm cs)).
  Proof.
    intros [ND Hlt] Hex.
    assert (HN : forall c, In c cs -> NoDup c /\ forall x, In x c -> x < n).
    { intros c Hc. split.
      - clear -ND Hc. induction cs as [|d cs IH]; [destruct Hc|]. cbn in ND.
        destruct Hc as [->|Hc]; [apply NoDup_app_l in ND; assumption|].
        apply IH; [apply NoDup_app_r in ND; assumption|assumption].
      - intros x Hx. apply Hlt. apply in_concat. exists c; split; assumption. }
    set (pi := fun (pre : list (list nat)) (x : nat) => fold_left (fun x c => next_in_cycle c x) pre x).
    assert (Hpi : forall pre, (forall c, In c pre -> In c cs) -> forall x, x < n -> pi pre x < n).
    { intros pre. unfold pi. intros H x Hx. revert x Hx.
      induction pre as [|c pre IH]; intros x Hx; [assumption|]. cbn [fold_left].
      apply IH; [intros; apply H; right; assumption|].
      apply next_sites; [apply HN, H; left; reflexivity|assumption]. }
    set (I := fun (pre : list (list nat)) (acc : option (mat K)) =>
      match acc with None => forall c, In c pre -> length c <= 1 | Some A => meq A (Pm 2 n (pi pre)) end).
    unfold xform_op. cbn [s_nspecies dsys seq rfold].
    match goal with |- context [rfold ?f cs None] => destruct (rfold_inv f I cs) with (s := @None (mat K)) as (acc & EA & HI) end.
    - intros pre c post acc Hsplit HI.
      assert (Hc : In c cs) by (rewrite Hsplit; apply in_elt).
      assert (Hpre : forall d, In d pre -> In d cs) by (intros d Hd; rewrite Hsplit; apply in_or_app; left; assumption).
      destruct (HN c Hc) as [NDc Hcl].
      destruct (Nat.ltb_spec 1 (length c)) as [Hlen|Hlen].
      + destruct (cycle_op_spin n c NDc Hcl Hlen) as (A & EAc & GA). rewrite EAc. cbn [bind].
        assert (SA : square (2 ^ n) A) by (eapply square_meq; [symmetry; exact GA|apply Pm_sq]).
        destruct acc as [B|]; unfold one_mul.
        * cbn in HI. assert (SB : square (2 ^ n) B) by (eapply square_meq; [symmetry; exact HI|apply Pm_sq]).
          rewrite (cmul_ok (2 ^ n)) by assumption. cbn [bind]. eexists. split; [reflexivity|]. cbn.
          transitivity (mmul (Pm 2 n (next_in_cycle c)) (Pm 2 n (pi pre))).
          { apply mmul_meq; auto. destruct SA, SB; congruence. }
          rewrite (Pm_mul 2 n two_nz) by (apply Hpi; assumption). apply Pm_ext; [apply two_nz|].
          intros x Hx. unfold pi. rewrite fold_left_app. reflexivity.
        * cbn [bind]. eexists. split; [reflexivity|]. cbn. cbn in HI. rewrite GA. apply Pm_ext; [apply two_nz|].
          intros x Hx. unfold pi. rewrite fold_left_app. cbn. f_equal. symmetry.
          clear -HI. revert x. induction pre as [|d pre IH]; intros x; [reflexivity|]. cbn [fold_left].
          rewrite next_single by (apply HI; left; reflexivity). apply IH. intros; apply HI; right; assumption.
      + exists acc. split; [reflexivity|]. destruct acc as [A|].
        * cbn in HI |- *. rewrite HI. apply Pm_ext; [apply two_nz|]. intros x Hx. unfold pi. rewrite fold_left_app. cbn.
          rewrite next_single by assumption. reflexivity.
        * cbn. intros d Hd. apply in_app_or in Hd. destruct Hd as [Hd|[->|[]]]; [apply HI, Hd|assumption].
    - cbn. intros c [].
    - rewrite EA. destruct acc as [A|].
      + exists A. split; [reflexivity|]. cbn in HI. rewrite HI. apply Pm_ext; [apply two_nz|].
        intros x Hx. unfold pi. apply fold_next_perm, ND.
      + exfalso. destruct Hex as (c & Hc & Hl). specialize (HI c Hc). lia.
  Qed.

  Lemma spin_sys s : s_nbasis s = 2 -> s_nspecies s = 1 -> s = dsys 2 (s_nsites s).
  Proof. destruct s as [n m b]. cbn. intros -> ->. reflexivity. Qed.

  (** API forms. *)
  Lemma spin_swap_api s i j : s_nbasis s = 2 -> s_nspecies s = 1 -> i < s_nsites s -> j < s_nsites s -> i <> j ->
    exists S : mat K, sp_swap_op s i j 0 = Ok S /\
      meq S (carry_mat 2 (s_nsites s) (exchange i j)) /\
      meq (madj S) S /\ meq (mmul S S) (meye (2 ^ s_nsites s)).
  Proof.
    intros Hb Hs Hi Hj Hij. rewrite (spin_sys s Hb Hs). cbn [s_nsites dsys]. set (n := s_nsites s) in *.
    destruct (sp_swap_entries n i j Hi Hj Hij) as (S & ES & SS & VS). exists S. rewrite ES.
    assert (MS : meq S (Pm 2 n (exchange i j))).
    { apply (meq_of_seqv (2 ^ n)); [assumption|apply Pm_sq|]. intros a b Ha Hb'. cbn. rewrite VS by assumption.
      rewrite (carried_pull 2 n two_nz) by assumption. reflexivity. }
    splits; auto.
    - rewrite (Pm_carry 2 n two_nz). assumption.
    - rewrite MS. apply Pm_adj; [apply two_nz|]. intros p Hp. splits; try (apply tr_sites; assumption); apply exchange_inv.
    - transitivity (mmul (Pm 2 n (exchange i j)) (Pm 2 n (exchange i j))).
      { apply mmul_meq; auto. destruct SS; congruence. }
      rewrite (Pm_mul 2 n two_nz) by (intros; apply tr_sites; assumption).
      rewrite <- (Pm_id 2 n two_nz). apply Pm_ext; [apply two_nz|]. intros. apply exchange_inv.
  Qed.

  Lemma spin_self_swap_api s i : s_nbasis s = 2 -> s_nspecies s = 1 -> i < s_nsites s ->
    exists S : mat K, sp_swap_op s i i 0 = Ok S /\ meq S (mscale (kofnat 2) (meye (2 ^ s_nsites s))) /\
      ~ meq S (meye (2 ^ s_nsites s)).
  Proof.
    intros Hb Hs Hi. rewrite (spin_sys s Hb Hs). cbn [s_nsites dsys]. set (n := s_nsites s) in *.
    destruct (sp_swap_self n i Hi) as (S & ES & SS & MS). exists S. splits; auto.
    intros M. assert (P : 0 < 2 ^ n) by (pose proof (Nat.pow_nonzero 2 n); lia).
    assert (E : ent (mscale (kofnat (K:=K) 2) (meye (2 ^ n))) 0 0 = ent (meye (K:=K) (2 ^ n)) 0 0).
    { rewrite MS in M. destruct M as (_ & _ & M). apply M; cbn; assumption. }
    cbn in E. rewrite (kofnat_S (K:=K)), (kofnat_S (K:=K)), kofnat_0 in E.
    assert (E' : k1 = k0 :> K).
    { transitivity (ksub (kmul (kadd (kadd k0 k1) k1) k1) k1); [ring|]. rewrite E. ring. }
    apply (k1_neq_0 (K:=K)). exact E'.
  Qed.

  Lemma spin_xform_api s cs : s_nbasis s = 2 -> s_nspecies s = 1 -> valid_cycles (s_nsites s) cs ->
    (exists c, In c cs /\ 1 < length c) ->
    exists T : mat K, xform_op s (sp_swap_op s) cs = Ok (Some T) /\
      meq T (carry_mat 2 (s_nsites s) (cycles_perm cs)) /\ unitary_mat (2 ^ s_nsites s) T.
  Proof.
    intros Hb Hs V Hex. rewrite (spin_sys s Hb Hs). cbn [s_nsites dsys]. set (n := s_nsites s) in *.
    destruct (xform_spin n cs V Hex) as (T & ET & MT). exists T. splits; auto.
    - rewrite (Pm_carry 2 n two_nz). assumption.
    - destruct (cycles_inverse n cs V) as (rho & Hr).
      destruct (Pm_unitary 2 n two_nz (cycles_perm cs) rho Hr) as (U1 & U2 & U3).
      assert (ST : square (2 ^ n) T) by (eapply square_meq; [symmetry; exact MT|apply Pm_sq]).
      split; [assumption|]. destruct ST. split.
      + rewrite <- U2. apply mmul_meq; [cbn; congruence|rewrite MT; reflexivity|assumption].
      + rewrite <- U3. apply mmul_meq; [cbn; congruence|assumption|rewrite MT; reflexivity].
  Qed.

  Lemma spin_xform_compose s cs1 cs2 cs3 (T1 T2 T3 : mat K) :
    s_nbasis s = 2 -> s_nspecies s = 1 ->
    valid_cycles (s_nsites s) cs1 -> valid_cycles (s_nsites s) cs2 -> valid_cycles (s_nsites s) cs3 ->
    (exists c, In c cs1 /\ 1 < length c) -> (exists c, In c cs2 /\ 1 < length c) -> (exists c, In c cs3 /\ 1 < length c) ->
    (forall x, x < s_nsites s -> cycles_perm cs3 x = cycles_perm cs1 (cycles_perm cs2 x)) ->
    xform_op s (sp_swap_op s) cs1 = Ok (Some T1) ->
    xform_op s (sp_swap_op s) cs2 = Ok (Some T2) ->
    xform_op s (sp_swap_op s) cs3 = Ok (Some T3) ->
    meq T3 (mmul T1 T2).
  Proof.
    intros Hb Hs. rewrite (spin_sys s Hb Hs). cbn [s_nsites dsys]. set (n := s_nsites s) in *.
    intros V1 V2 V3 X1 X2 X3 E F1 F2 F3.
    destruct (xform_spin n cs1 V1 X1) as (T1' & G1 & M1). destruct (xform_spin n cs2 V2 X2) as (T2' & G2 & M2).
    destruct (xform_spin n cs3 V3 X3) as (T3' & G3 & M3).
    assert (T1' = T1) by congruence. assert (T2' = T2) by congruence. assert (T3' = T3) by congruence. subst.
    rewrite M3. transitivity (mmul (Pm 2 n (cycles_perm cs1)) (Pm 2 n (cycles_perm cs2))).
    - rewrite (Pm_mul 2 n two_nz) by (intros; apply cycles_perm_lt; assumption). apply Pm_ext; [apply two_nz|assumption].
    - apply mmul_meq; [reflexivity|symmetry; assumption|symmetry; assumption].
  Qed.
End Swap.

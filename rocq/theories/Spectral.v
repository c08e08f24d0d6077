(** Every Hermitian matrix has an orthonormal basis of eigenvectors.  So the
    hypothesis [eigenbasis H V E] of the thermal theorems can always be met, and
    an exact [numpy.linalg.eigh] exists. *)
From Coq Require Import List Arith Lia Reals Lra Bool Classical.
From Verif Require Import Scalars Res Matrix ModelGeometry ModelPhase ModelSymmetry SymBase ModelBase ModelThermal SpecThermal ThermalBase ThermalSectors ThermalBasis.
Import ListNotations.
Local Open Scope R_scope.

(** ** A cluster point of a shrinking family of bounded sets *)
Lemma cluster m : forall (F : R -> (nat -> R) -> Prop) B,
  (forall eps, 0 < eps -> exists x, F eps x) ->
  (forall e e' x, e <= e' -> F e x -> F e' x) ->
  (forall e x, F e x -> forall i, (i < m)%nat -> Rabs (x i) <= B) ->
  exists l, forall eps, 0 < eps -> exists x, F eps x /\ forall i, (i < m)%nat -> Rabs (x i - l i) < eps.
Proof.
  induction m as [|m IH]; intros F B NE MO BD.
  - exists (fun _ => 0). intros eps He. destruct (NE eps He) as (x & Hx). exists x. split; [exact Hx | intros; lia].
  - set (A := fun a => forall eps, 0 < eps -> exists x, F eps x /\ a <= x m).
    assert (AB : bound A).
    { exists B. intros a Ha. destruct (Ha 1 Rlt_0_1) as (x & Fx & Hx). specialize (BD 1 x Fx m ltac:(lia)). pose proof (Rle_abs (x m)). lra. }
    assert (AN : exists a, A a).
    { exists (- B). intros eps He. destruct (NE eps He) as (x & Fx). exists x. split; [exact Fx|].
      specialize (BD eps x Fx m ltac:(lia)). pose proof (Rle_abs (- x m)). rewrite Rabs_Ropp in *. lra. }
    destruct (completeness A AB AN) as (lm & UB & LB).
    destruct (IH (fun e x => F e x /\ Rabs (x m - lm) < e) B) as (l & Hl).
    + intros eps He.
      assert (X1 : exists a, A a /\ lm - eps < a).
      { apply NNPP. intros N. assert (lm <= lm - eps); [|lra]. apply LB. intros a Ha. apply Rnot_lt_le. intros L. apply N. exists a. tauto. }
      destruct X1 as (a & Ha & La).
      assert (X2 : exists e0, 0 < e0 /\ forall x, F e0 x -> x m < lm + eps).
      { apply NNPP. intros N. assert (lm + eps / 2 <= lm); [|lra]. apply UB. intros e0 He0. apply NNPP. intros N2. apply N. exists e0. split; [exact He0|].
        intros x Fx. apply Rnot_le_lt. intros L. apply N2. exists x. split; [exact Fx | lra]. }
      destruct X2 as (e0 & P0 & H0).
      destruct (Ha (Rmin eps e0)) as (x & Fx & Hx); [apply Rmin_pos; assumption|].
      exists x. split; [apply (MO (Rmin eps e0)); [apply Rmin_l | exact Fx]|].
      assert (x m < lm + eps) by (apply H0; apply (MO (Rmin eps e0)); [apply Rmin_r | exact Fx]).
      apply Rabs_def1; lra.
    + intros e e' x Le [Fx Hx]. split; [apply (MO e); assumption | lra].
    + intros e x [Fx _] i Hi. apply (BD e x Fx i). lia.
    + exists (fun i => if (i =? m)%nat then lm else l i). intros eps He. destruct (Hl eps He) as (x & [Fx Hm] & Hx).
      exists x. split; [exact Fx|]. intros i Hi. destruct (Nat.eqb_spec i m) as [->|Ne]; [exact Hm|]. apply Hx. lia.
Qed.

(** ** Continuity of polynomials in the components *)
Section Vectors.
  Variable n : nat.
  Notation vec := (nat -> CR).
  Definition near (d : R) (l x : vec) : Prop := forall i, (i < n)%nat -> Rabs (fst (x i) - fst (l i)) < d /\ Rabs (snd (x i) - snd (l i)) < d.
  Definition cont (l : vec) (G : vec -> R) : Prop := forall eps, 0 < eps -> exists d, 0 < d /\ forall x, near d l x -> Rabs (G x - G l) < eps.
  Definition ccont (l : vec) (G : vec -> CR) : Prop := cont l (fun x => fst (G x)) /\ cont l (fun x => snd (G x)).
  Lemma near_le d d' l x : d <= d' -> near d l x -> near d' l x.
  Proof. intros L N i Hi. destruct (N i Hi). split; lra. Qed.
  Lemma cont_const l c : cont l (fun _ => c).
  Proof. intros eps He. exists 1. split; [lra|]. intros. rewrite Rminus_eq_0, Rabs_R0. exact He. Qed.
  Lemma cont_add l F G : cont l F -> cont l G -> cont l (fun x => F x + G x).
  Proof.
    intros HF HG eps He. destruct (HF (eps / 2)) as (d & D & P); [lra|]. destruct (HG (eps / 2)) as (d' & D' & P'); [lra|].
    exists (Rmin d d'). split; [apply Rmin_pos; assumption|]. intros x Hx.
    specialize (P x (near_le _ _ _ _ (Rmin_l d d') Hx)). specialize (P' x (near_le _ _ _ _ (Rmin_r d d') Hx)).
    replace (F x + G x - (F l + G l)) with ((F x - F l) + (G x - G l)) by ring. eapply Rle_lt_trans; [apply Rabs_triang|]. lra.
  Qed.
  Lemma cont_opp l F : cont l F -> cont l (fun x => - F x).
  Proof.
    intros HF eps He. destruct (HF eps He) as (d & D & P). exists d. split; [exact D|]. intros x Hx. specialize (P x Hx).
    replace (- F x - - F l) with (- (F x - F l)) by ring. rewrite Rabs_Ropp. exact P.
  Qed.
  Lemma cont_mul l F G : cont l F -> cont l G -> cont l (fun x => F x * G x).
  Proof.
    intros HF HG eps He. set (K := 1 + Rabs (F l) + Rabs (G l)).
    assert (KP : 1 <= K) by (unfold K; pose proof (Rabs_pos (F l)); pose proof (Rabs_pos (G l)); lra).
    set (e := Rmin 1 (eps / (2 * K))).
    assert (E0 : 0 < eps / (2 * K)) by (apply Rdiv_lt_0_compat; lra).
    assert (E1 : 0 < e) by (apply Rmin_pos; lra).
    destruct (HF e E1) as (d & D & P). destruct (HG e E1) as (d' & D' & P').
    exists (Rmin d d'). split; [apply Rmin_pos; assumption|]. intros x Hx.
    specialize (P x (near_le _ _ _ _ (Rmin_l d d') Hx)). specialize (P' x (near_le _ _ _ _ (Rmin_r d d') Hx)).
    replace (F x * G x - F l * G l) with ((F x - F l) * (G x - G l) + (F x - F l) * G l + F l * (G x - G l)) by ring.
    assert (B1 : e <= 1) by apply Rmin_l. assert (B2 : e <= eps / (2 * K)) by apply Rmin_r.
    assert (B3 : e * K <= eps / 2).
    { apply Rle_trans with (eps / (2 * K) * K); [apply Rmult_le_compat_r; lra|]. apply Req_le. field. lra. }
    eapply Rle_lt_trans; [eapply Rle_trans; [apply Rabs_triang|apply Rplus_le_compat_r, Rabs_triang]|]. rewrite !Rabs_mult.
    set (p := Rabs (F x - F l)) in *. set (q := Rabs (G x - G l)) in *. set (u := Rabs (F l)) in *. set (v := Rabs (G l)) in *.
    assert (0 <= p) by apply Rabs_pos. assert (0 <= q) by apply Rabs_pos. assert (0 <= u) by apply Rabs_pos. assert (0 <= v) by apply Rabs_pos.
    assert (p * q <= e * 1) by (apply Rmult_le_compat; lra). assert (p * v <= e * v) by (apply Rmult_le_compat_r; lra). assert (u * q <= u * e) by (apply Rmult_le_compat_l; lra).
    assert (e * K = e * 1 + e * v + u * e) by (unfold K; fold u; fold v; ring). lra.
  Qed.
  Lemma ccont_const l c : ccont l (fun _ => c).
  Proof. split; apply cont_const. Qed.
  Lemma ccont_at l i : (i < n)%nat -> ccont l (fun x => x i).
  Proof. intros Hi. split; intros eps He; exists eps; (split; [exact He|]); intros x Hx; apply (Hx i Hi). Qed.
  Lemma ccont_add l F G : ccont l F -> ccont l G -> ccont l (fun x => F x +c G x).
  Proof.
    intros [F1 F2] [G1 G2]. split; [apply (cont_add l (fun x => fst (F x)) (fun x => fst (G x))) | apply (cont_add l (fun x => snd (F x)) (fun x => snd (G x)))]; assumption.
  Qed.
  Lemma ccont_mul l F G : ccont l F -> ccont l G -> ccont l (fun x => F x *c G x).
  Proof.
    intros [F1 F2] [G1 G2]. split; cbn.
    - apply (cont_add l (fun x => fst (F x) * fst (G x)) (fun x => - (snd (F x) * snd (G x)))); [|apply (cont_opp l (fun x => snd (F x) * snd (G x)))];
        [apply (cont_mul l (fun x => fst (F x)) (fun x => fst (G x))) | apply (cont_mul l (fun x => snd (F x)) (fun x => snd (G x)))]; assumption.
    - apply (cont_add l (fun x => fst (F x) * snd (G x)) (fun x => snd (F x) * fst (G x)));
        [apply (cont_mul l (fun x => fst (F x)) (fun x => snd (G x))) | apply (cont_mul l (fun x => snd (F x)) (fun x => fst (G x)))]; assumption.
  Qed.
  Lemma ccont_conj l F : ccont l F -> ccont l (fun x => conj (F x)).
  Proof. intros [F1 F2]. split; [exact F1 | apply (cont_opp l (fun x => snd (F x)))]. exact F2. Qed.
  Lemma ccont_sum l k (F : nat -> vec -> CR) : (forall i, (i < k)%nat -> ccont l (F i)) -> ccont l (fun x => ksum k (fun i => F i x)).
  Proof.
    induction k as [|k IH]; intros HF; cbn [ksum]; [apply ccont_const|].
    apply (ccont_add l (fun x => ksum k (fun i => F i x)) (F k)); [apply IH; intros; apply HF; lia | apply HF; lia].
  Qed.
  Lemma ccont_inner l a : ccont l (fun x => inner n a x).
  Proof. apply (ccont_sum l n (fun i x => conj (a i) *c x i)). intros i Hi. apply (ccont_mul l (fun _ => conj (a i)) (fun x => x i)); [apply ccont_const | apply ccont_at, Hi]. Qed.
  Lemma ccont_self l : ccont l (fun x => inner n x x).
  Proof.
    apply (ccont_sum l n (fun i x => conj (x i) *c x i)). intros i Hi.
    apply (ccont_mul l (fun x => conj (x i)) (fun x => x i)); [apply (ccont_conj l (fun x => x i))|]; apply ccont_at, Hi.
  Qed.
  Lemma ccont_form l H : ccont l (fun x => inner n x (apply n H x)).
  Proof.
    apply (ccont_sum l n (fun i x => conj (x i) *c apply n H x i)). intros i Hi.
    apply (ccont_mul l (fun x => conj (x i)) (fun x => apply n H x i)); [apply (ccont_conj l (fun x => x i)), ccont_at, Hi|].
    apply (ccont_sum l n (fun j x => ent H i j *c x j)). intros j Hj. apply (ccont_mul l (fun _ => ent H i j) (fun x => x j)); [apply ccont_const | apply ccont_at, Hj].
  Qed.

  Lemma small_eq x y : (forall eps, 0 < eps -> Rabs (x - y) < eps) -> x = y.
  Proof.
    intros Hs. destruct (Req_dec x y) as [|Ne]; [assumption|]. exfalso. assert (P : 0 < Rabs (x - y)) by (apply Rabs_pos_lt; lra).
    specialize (Hs _ P). lra.
  Qed.
  Lemma inner_self x : inner n x x = real (norm2 n x).
  Proof.
    pose proof (inner_conj n x x) as X. apply (f_equal snd) in X. cbn in X. unfold norm2, real. destruct (inner n x x) as [a b]. cbn in *. f_equal. lra.
  Qed.
  Lemma norm2_rsum x : norm2 n x = rsum n (fun i => nsq (x i)).
  Proof. unfold norm2, inner. rewrite fst_ksum. apply rsum_ext. intros i _. rewrite conj_mul_self. reflexivity. Qed.
  Lemma norm2_pos x : 0 <= norm2 n x.
  Proof. rewrite norm2_rsum. apply rsum_ge. intros; apply nsq_ge. Qed.
  Lemma norm2_zero x : norm2 n x = 0 -> forall i, (i < n)%nat -> x i = c0.
  Proof. rewrite norm2_rsum. intros Z i Hi. apply nsq_0. apply (rsum_0 n (fun i => nsq (x i))); [intros; apply nsq_ge | exact Z | exact Hi]. Qed.
  Lemma rsum_term k (g : nat -> R) i : (forall i, (i < k)%nat -> 0 <= g i) -> (i < k)%nat -> g i <= rsum k g.
  Proof.
    induction k as [|k IH]; intros G Hi; [lia|]. cbn [rsum]. destruct (Nat.eq_dec i k) as [->|Ne].
    - assert (0 <= rsum k g) by (apply rsum_ge; intros; apply G; lia). lra.
    - assert (g i <= rsum k g) by (apply IH; [intros; apply G; lia | lia]). specialize (G k ltac:(lia)). lra.
  Qed.
  Lemma unit_bound x i : norm2 n x = 1 -> (i < n)%nat -> Rabs (fst (x i)) <= 1 /\ Rabs (snd (x i)) <= 1.
  Proof.
    intros U Hi. rewrite norm2_rsum in U. pose proof (rsum_term n (fun i => nsq (x i)) i (fun _ _ => nsq_ge _) Hi) as L. cbn beta in L. rewrite U in L.
    unfold nsq in L. split; apply Rabs_le; nra.
  Qed.

  (** ** The largest value of the quadratic form *)
  Variable H : mat CR.
  Hypothesis herm : hermitian n H.
  Definition form (x : vec) : R := fst (inner n x (apply n H x)).

  Section Next.
    Variables (k : nat) (W : nat -> vec) (E : nat -> R).
    Hypothesis eig : forall a, (a < k)%nat -> forall i, (i < n)%nat -> apply n H (W a) i = real (E a) *c W a i.
    Hypothesis orth : forall a b, (a < k)%nat -> (b < k)%nat -> inner n (W a) (W b) = kb (a =? b)%nat.
    Definition allowed (x : vec) : Prop := norm2 n x = 1 /\ forall a, (a < k)%nat -> inner n (W a) x = c0.

    Lemma form_bound : exists B, forall x, norm2 n x = 1 -> form x <= B.
    Proof using.
      exists (rsum n (fun i => rsum n (fun j => 4 * (Rabs (fst (ent H i j)) + Rabs (snd (ent H i j)))))). intros x U.
      unfold form, inner. rewrite fst_ksum.
      assert (LE : forall m f g, (forall i, (i < m)%nat -> f i <= g i) -> rsum m f <= rsum m g).
      { induction m as [|m IH]; intros f g L; cbn [rsum]; [lra|]. pose proof (IH f g ltac:(intros; apply L; lia)). specialize (L m ltac:(lia)). lra. }
      apply LE. intros i Hi. unfold apply. rewrite <- ksum_mul_l, fst_ksum. apply LE. intros j Hj.
      destruct (unit_bound x i U Hi) as [A1 A2]. destruct (unit_bound x j U Hj) as [B1 B2].
      destruct (x i) as [a b], (x j) as [c d], (ent H i j) as [u v]. cbn [fst snd] in *. cbn.
      assert (M : forall p q r, Rabs p <= 1 -> Rabs q <= 1 -> p * (r * q) <= Rabs r).
      { intros p q r P Q. eapply Rle_trans; [apply Rle_abs|]. rewrite !Rabs_mult. pose proof (Rabs_pos p). pose proof (Rabs_pos q). pose proof (Rabs_pos r).
        assert (Rabs p * Rabs q <= 1) by nra. nra. }
      assert (O : forall p, Rabs (- p) = Rabs p) by apply Rabs_Ropp.
      pose proof (M a c u A1 B1). pose proof (M (- a) d v ltac:(rewrite O; exact A1) B2). pose proof (M b d u A2 B2). pose proof (M b c v A2 B1).
      pose proof (Rabs_pos u). pose proof (Rabs_pos v). nra.
    Qed.

    Lemma best : (exists x, allowed x) -> exists v, allowed v /\ forall x, allowed x -> form x <= form v.
    Proof using.
      clear eig orth herm E. intros (x0 & A0). destruct form_bound as (B & HB).
      set (S := fun y => exists x, allowed x /\ y = form x).
      destruct (completeness S) as (M & UB & LB).
      { exists B. intros y (x & (U & _) & ->). apply HB. exact U. }
      { exists (form x0), x0. tauto. }
      set (vec_of := fun (r : nat -> R) (i : nat) => (r (2 * i)%nat, r (2 * i + 1)%nat) : CR).
      destruct (cluster (2 * n) (fun e r => allowed (vec_of r) /\ M - e < form (vec_of r)) 1) as (l & Hl).
      - intros eps He.
        assert (X : exists x, allowed x /\ M - eps < form x).
        { apply NNPP. intros N. assert (M <= M - eps); [|lra]. apply LB. intros y (x & Ax & ->). apply Rnot_lt_le. intros L. apply N. exists x. tauto. }
        destruct X as (x & Ax & Fx).
        assert (VX : vec_of (fun i => if Nat.even i then fst (x (i / 2)%nat) else snd (x (i / 2)%nat)) = fun i => (fst (x i), snd (x i))).
        { unfold vec_of. apply FunctionalExtensionality.functional_extensionality. intros i.
          rewrite Nat.even_mul. cbn [Nat.even orb]. rewrite Nat.even_add, Nat.even_mul. cbn [Nat.even orb Bool.eqb].
          rewrite (Nat.mul_comm 2 i), Nat.div_mul by lia. rewrite Nat.div_add_l by lia. change (1 / 2)%nat with 0%nat. rewrite Nat.add_0_r. reflexivity. }
        exists (fun i => if Nat.even i then fst (x (i / 2)%nat) else snd (x (i / 2)%nat)). rewrite VX.
        assert (XX : (fun i => (fst (x i), snd (x i))) = x) by (apply FunctionalExtensionality.functional_extensionality; intros i; destruct (x i); reflexivity).
        rewrite XX. tauto.
      - intros e e' r Le [A L]. split; [exact A | lra].
      - intros e r [(U & _) _] i Hi. destruct (Nat.even i) eqn:Ev.
        + apply Nat.even_spec in Ev as (q & ->). exact (proj1 (unit_bound (vec_of r) q U ltac:(lia))).
        + assert (Od : Nat.odd i = true) by (unfold Nat.odd; rewrite Ev; reflexivity). apply Nat.odd_spec in Od as (q & ->). exact (proj2 (unit_bound (vec_of r) q U ltac:(lia))).
      - set (v := vec_of l). exists v.
        assert (AP : forall (G : vec -> R), cont v G -> forall eps, 0 < eps -> exists x, allowed x /\ M - eps < form x /\ Rabs (G x - G v) < eps).
        { intros G CG eps He. destruct (CG eps He) as (d & D & P). destruct (Hl (Rmin d eps)) as (r & [A L] & N); [apply Rmin_pos; assumption|].
          exists (vec_of r). split; [exact A|]. split; [pose proof (Rmin_r d eps); lra|]. apply P. intros i Hi. unfold v, vec_of. cbn [fst snd].
          pose proof (Rmin_l d eps). pose proof (N (2 * i)%nat ltac:(lia)). pose proof (N (2 * i + 1)%nat ltac:(lia)). split; lra. }
        assert (AV : allowed v).
        { split.
          - apply small_eq. intros eps He. destruct (AP (fun x => fst (inner n x x)) (proj1 (ccont_self v)) eps He) as (x & (U & _) & _ & C).
            unfold norm2 in *. rewrite Rabs_minus_sym. rewrite U in C. exact C.
          - intros a Ha. apply injective_projections; apply small_eq; intros eps He; cbn [fst snd].
            + destruct (AP (fun x => fst (inner n (W a) x)) (proj1 (ccont_inner v (W a))) eps He) as (x & (_ & O) & _ & C). rewrite (O a Ha) in C. rewrite Rabs_minus_sym. exact C.
            + destruct (AP (fun x => snd (inner n (W a) x)) (proj2 (ccont_inner v (W a))) eps He) as (x & (_ & O) & _ & C). rewrite (O a Ha) in C. rewrite Rabs_minus_sym. exact C. }
        split; [exact AV|]. intros x Ax. apply Rle_trans with M; [apply UB; exists x; tauto|].
        apply Rnot_lt_le. intros L. destruct (AP form (proj1 (ccont_form v H)) ((M - form v) / 2)) as (y & _ & L2 & C); [lra|].
        apply Rabs_def2 in C. lra.
    Qed.

    Lemma inner_scale_l c x y : inner n (fun i => c *c x i) y = conj c *c inner n x y.
    Proof using. rewrite <- inner_conj, inner_scale, (@kconj_mul CR _), inner_conj. reflexivity. Qed.
    Lemma inner_add_r x y z : inner n x (fun i => y i +c z i) = inner n x y +c inner n x z.
    Proof using. unfold inner. rewrite <- ksum_add. apply ksum_ext. intros i _. ring. Qed.
    Lemma inner_add_l x y z : inner n (fun i => x i +c y i) z = inner n x z +c inner n y z.
    Proof using. rewrite <- inner_conj, inner_add_r, (@kconj_add CR _), !inner_conj. reflexivity. Qed.
    Lemma apply_add x y i : apply n H (fun i => x i +c y i) i = apply n H x i +c apply n H y i.
    Proof using. unfold apply. rewrite <- ksum_add. apply ksum_ext. intros j _. ring. Qed.
    Lemma apply_scale c x i : apply n H (fun i => c *c x i) i = c *c apply n H x i.
    Proof using. unfold apply. rewrite <- ksum_mul_l. apply ksum_ext. intros j _. ring. Qed.

    Lemma quadratic a b : (forall s, 2 * s * a + s * s * b <= 0) -> a = 0.
    Proof using.
      clear. intros Q. pose proof (Q 1) as Q1. pose proof (Q (-1)) as Q2. destruct (Req_dec a 0) as [|Ne]; [assumption|]. exfalso.
      assert (b <= 0) by lra.
      set (s := a / (1 + Rabs b)). assert (P : 0 < 1 + Rabs b) by (pose proof (Rabs_pos b); lra).
      pose proof (Q s) as Qs. assert (S1 : a = s * (1 + Rabs b)) by (unfold s; field; lra).
      rewrite (Rabs_left1 b) in S1 by assumption. assert (s <> 0) by (intros Z; rewrite Z in S1; lra).
      assert (0 < s * s) by nra. nra.
    Qed.

    (** A maximizer is an eigenvector. *)
    Lemma best_eigen v : allowed v -> (forall x, allowed x -> form x <= form v) ->
      forall i, (i < n)%nat -> apply n H v i = real (form v) *c v i.
    Proof using herm eig orth.
      intros (U & O) MX.
      assert (FV : inner n v (apply n H v) = real (form v)).
      { unfold form. pose proof (inner_conj n v (apply n H v)) as X. rewrite <- (inner_apply_herm n H v v herm) in X. apply (f_equal snd) in X. cbn in X.
        destruct (inner n v (apply n H v)) as [p q]. cbn in *. unfold real. f_equal. lra. }
      set (w := fun i => apply n H v i +c kopp (real (form v)) *c v i).
      assert (WO : forall a, (a < k)%nat -> inner n (W a) w = c0).
      { intros a Ha. unfold w. rewrite (inner_add_r (W a) (apply n H v) (fun i => kopp (real (form v)) *c v i)), inner_scale, (O a Ha).
        rewrite (inner_apply_herm n H (W a) v herm), (inner_ext n _ (fun i => real (E a) *c W a i) v v (eig a Ha)) by reflexivity.
        rewrite inner_scale_l, (O a Ha). ring. }
      assert (WV : inner n v w = c0).
      { unfold w. rewrite (inner_add_r v (apply n H v) (fun i => kopp (real (form v)) *c v i)), inner_scale, FV, inner_self, U. change (real 1) with c1. ring. }
      assert (WH : inner n w (apply n H v) = real (norm2 n w)).
      { rewrite <- inner_self. unfold w at 3. rewrite (inner_add_r w (apply n H v) (fun i => kopp (real (form v)) *c v i)), inner_scale.
        rewrite <- (inner_conj n v w), WV. change (conj c0) with (conj (real 0)). rewrite real_conj. change (real 0) with c0. ring. }
      assert (NW : norm2 n w = 0).
      { apply (quadratic _ (form w - form v * norm2 n w)). intros s.
        (* the vector v + s w *)
        set (y := fun i => v i +c real s *c w i).
        assert (NY : norm2 n y = 1 + s * s * norm2 n w).
        { apply real_inj. rewrite <- inner_self. unfold y. rewrite (inner_add_r _ v (fun i => real s *c w i)), inner_scale.
          rewrite !(inner_add_l v (fun i => real s *c w i)), !inner_scale_l, WV, <- (inner_conj n v w), WV, !inner_self, U, real_add, !real_mul, real_conj.
          change (conj c0) with (conj (real 0)). rewrite real_conj. change (real 0) with c0. change (real 1) with c1. ring. }
        assert (FY : form y = form v + 2 * s * norm2 n w + s * s * form w).
        { unfold form at 1. unfold y at 2.
          rewrite (inner_ext n y y _ (fun i => apply n H v i +c real s *c apply n H w i)) by (try reflexivity; intros i Hi; rewrite (apply_add v (fun i => real s *c w i)), apply_scale; reflexivity).
          unfold y. rewrite (inner_add_r _ (apply n H v) (fun i => real s *c apply n H w i)), inner_scale.
          rewrite !(inner_add_l v (fun i => real s *c w i)), !inner_scale_l, FV, WH, real_conj.
          rewrite (inner_apply_herm n H v w herm), <- (inner_conj n w (apply n H v)), WH, real_conj.
          unfold form at 3. destruct (inner n w (apply n H w)) as [p q]. cbn. ring. }
        assert (PY : 0 < norm2 n y) by (rewrite NY; pose proof (norm2_pos w); nra).
        assert (SQ : / sqrt (norm2 n y) * / sqrt (norm2 n y) = / norm2 n y) by (rewrite <- Rinv_mult, sqrt_sqrt by lra; reflexivity).
        set (r := / sqrt (norm2 n y)) in *.
        assert (NR : norm2 n (fun i => real r *c y i) = 1).
        { apply real_inj. rewrite <- inner_self, inner_scale, inner_scale_l, real_conj, inner_self, <- !real_mul. f_equal. rewrite <- Rmult_assoc, SQ. field. lra. }
        assert (AR : allowed (fun i => real r *c y i)).
        { split; [exact NR|]. intros a Ha. rewrite inner_scale. unfold y. rewrite (inner_add_r (W a) v (fun i => real s *c w i)), inner_scale, (O a Ha), (WO a Ha). ring. }
        pose proof (MX _ AR) as L.
        assert (FR : form (fun i => real r *c y i) = form y / norm2 n y).
        { unfold form at 1. rewrite (inner_ext n _ (fun i => real r *c y i) _ (fun i => real r *c apply n H y i)) by (try reflexivity; intros i Hi; apply apply_scale).
          rewrite inner_scale, inner_scale_l, real_conj. unfold form. destruct (inner n y (apply n H y)) as [p q]. cbn.
          transitivity (r * r * p); [ring|]. rewrite SQ. field. lra. }
        rewrite FR in L. apply (Rmult_le_compat_r (norm2 n y)) in L; [|lra].
        replace (form y / norm2 n y * norm2 n y) with (form y) in L by (field; lra). rewrite NY, FY in L. lra. }
      intros i Hi. pose proof (norm2_zero w NW i Hi) as Z. unfold w in Z.
      transitivity ((apply n H v i +c kopp (real (form v)) *c v i) +c real (form v) *c v i); [ring|]. rewrite Z. ring.
    Qed.

    (** What is left of a unit vector. *)
    Definition rest (i : nat) : vec := fun j => kb (j =? i)%nat +c kopp (ksum k (fun a => W a j *c conj (W a i))).
    Lemma inner_unit x i : (i < n)%nat -> inner n x (fun j => kb (j =? i)%nat) = conj (x i).
    Proof using.
      intros Hi. unfold inner. rewrite (ksum_single n i) by (try exact Hi; intros j Hj Ne; rewrite (proj2 (Nat.eqb_neq j i)) by exact Ne; cbn [kb]; ring).
      rewrite Nat.eqb_refl. cbn [kb]. ring.
    Qed.
    Lemma rest_orth i a : (i < n)%nat -> (a < k)%nat -> inner n (W a) (rest i) = c0.
    Proof using orth.
      intros Hi Ha. unfold rest.
      rewrite (inner_ext n _ (W a) _ (fun j => kb (j =? i)%nat +c kopp c1 *c ksum k (fun a => W a j *c conj (W a i)))) by (try reflexivity; intros; ring).
      rewrite (inner_add_r (W a) (fun j => kb (j =? i)%nat) (fun j => kopp c1 *c ksum k (fun a => W a j *c conj (W a i)))), inner_scale, inner_unit by exact Hi.
      rewrite (inner_sum n k (W a) W (fun a => conj (W a i))).
      rewrite (ksum_single k a) by (try exact Ha; intros b Hb Ne; rewrite orth by assumption; rewrite (proj2 (Nat.eqb_neq a b)) by congruence; cbn [kb]; ring).
      rewrite orth by assumption. rewrite Nat.eqb_refl. cbn [kb]. ring.
    Qed.
    Lemma rest_norm i : (i < n)%nat -> norm2 n (rest i) = 1 - rsum k (fun a => nsq (W a i)).
    Proof using orth.
      intros Hi. apply real_inj. rewrite <- inner_self.
      transitivity (inner n (rest i) (fun j => kb (j =? i)%nat)).
      - rewrite (inner_ext n _ (rest i) (rest i) (fun j => kb (j =? i)%nat +c kopp c1 *c ksum k (fun a => W a j *c conj (W a i)))) by (try reflexivity; intros; unfold rest; ring).
        rewrite (inner_add_r (rest i) (fun j => kb (j =? i)%nat) (fun j => kopp c1 *c ksum k (fun a => W a j *c conj (W a i)))), inner_scale.
        rewrite (inner_sum n k (rest i) W (fun a => conj (W a i))), ksum_zero; [ring|]. intros a Ha.
        rewrite <- inner_conj, rest_orth by assumption. change (conj c0) with (conj (real 0)). rewrite real_conj. change (real 0) with c0. ring.
      - rewrite inner_unit by exact Hi. unfold rest. rewrite Nat.eqb_refl. cbn [kb].
        rewrite (ksum_ext k _ (fun a => real (nsq (W a i)))) by (intros; apply mul_conj). rewrite ksum_real.
        apply injective_projections; cbn; ring.
    Qed.
    Lemma rest_total : rsum n (fun i => norm2 n (rest i)) = INR n - INR k.
    Proof using orth.
      rewrite (rsum_ext n _ (fun i => 1 - rsum k (fun a => nsq (W a i)))) by (intros; apply rest_norm; assumption).
      assert (S1 : forall m g, rsum m (fun i => 1 - g i) = INR m - rsum m g).
      { clear. induction m as [|m IH]; intros g; cbn [rsum]; [cbn; ring|]. rewrite IH, S_INR. ring. }
      rewrite S1. f_equal.
      assert (SW : forall p q (g : nat -> nat -> R), rsum p (fun i => rsum q (g i)) = rsum q (fun j => rsum p (fun i => g i j))).
      { clear. induction p as [|p IH]; intros q g; cbn [rsum].
        - induction q as [|q IHq]; cbn [rsum]; [reflexivity|]. rewrite <- IHq. ring.
        - rewrite IH. clear IH. induction q as [|q IHq]; cbn [rsum]; [ring|]. rewrite <- IHq. ring. }
      rewrite SW. rewrite (rsum_ext k _ (fun _ => 1)); [rewrite (rsum_const k _ 1) by reflexivity; ring|].
      intros a Ha. rewrite <- norm2_rsum. apply real_inj. rewrite <- inner_self, orth by exact Ha. rewrite Nat.eqb_refl. reflexivity.
    Qed.
    Lemma room : (k < n)%nat -> exists x, allowed x.
    Proof using orth.
      intros Hk.
      assert (X : exists i, (i < n)%nat /\ norm2 n (rest i) <> 0).
      { apply NNPP. intros N. assert (Z : rsum n (fun i => norm2 n (rest i)) = 0).
        { rewrite (rsum_const n _ 0); [ring|]. intros i Hi. apply NNPP. intros Q. apply N. exists i. tauto. }
        rewrite rest_total in Z. apply lt_INR in Hk. lra. }
      destruct X as (i & Hi & NZ). assert (P : 0 < norm2 n (rest i)) by (pose proof (norm2_pos (rest i)); lra).
      set (r := / sqrt (norm2 n (rest i))). assert (SQ : r * r = / norm2 n (rest i)) by (unfold r; rewrite <- Rinv_mult, sqrt_sqrt by lra; reflexivity).
      exists (fun j => real r *c rest i j). split.
      - apply real_inj. rewrite <- inner_self, inner_scale, inner_scale_l, real_conj, inner_self, <- !real_mul. f_equal. rewrite <- Rmult_assoc, SQ. field. lra.
      - intros a Ha. rewrite inner_scale, rest_orth by assumption. ring.
    Qed.
    Lemma full : k = n -> forall psi j, (j < n)%nat -> psi j = ksum k (fun a => W a j *c inner n (W a) psi).
    Proof using orth.
      intros Hk psi j Hj.
      assert (D : forall i, (i < n)%nat -> kb (j =? i)%nat = ksum k (fun a => W a j *c conj (W a i))).
      { intros i Hi. assert (Z : norm2 n (rest i) = 0).
        { apply (rsum_0 n (fun i => norm2 n (rest i))); [intros; apply norm2_pos | rewrite rest_total, Hk; ring | exact Hi]. }
        pose proof (norm2_zero _ Z j Hj) as R0. unfold rest in R0.
        transitivity (kb (j =? i)%nat +c kopp (ksum k (fun a => W a j *c conj (W a i))) +c ksum k (fun a => W a j *c conj (W a i))); [ring|]. rewrite R0. ring. }
      transitivity (ksum n (fun i => kb (j =? i)%nat *c psi i)).
      - rewrite (ksum_single n j) by (try exact Hj; intros i Hi Ne; rewrite (proj2 (Nat.eqb_neq j i)) by congruence; cbn [kb]; ring).
        rewrite Nat.eqb_refl. cbn [kb]. ring.
      - rewrite (ksum_ext n _ (fun i => ksum k (fun a => W a j *c (conj (W a i) *c psi i)))) by (intros i Hi; rewrite D, <- ksum_mul_r by exact Hi; apply ksum_ext; intros; ring).
        rewrite ksum_swap. apply ksum_ext. intros a Ha. apply (ksum_mul_l n).
    Qed.
  End Next.

  Lemma eigenvectors k : (k <= n)%nat -> exists W E,
    (forall a, (a < k)%nat -> forall i, (i < n)%nat -> apply n H (W a) i = real (E a) *c W a i) /\
    (forall a b, (a < k)%nat -> (b < k)%nat -> inner n (W a) (W b) = kb (a =? b)%nat).
  Proof using herm.
    induction k as [|k IH]; intros Hk.
    - exists (fun _ _ => c0), (fun _ => 0). split; intros; lia.
    - destruct IH as (W & E & EG & OR); [lia|].
      destruct (best k W (room k W OR ltac:(lia))) as (v & AV & MX).
      pose proof (best_eigen k W E EG OR v AV MX) as EV. destruct AV as (U & O).
      exists (fun a => if (a =? k)%nat then v else W a), (fun a => if (a =? k)%nat then form v else E a). split.
      + intros a Ha i Hi. destruct (Nat.eqb_spec a k) as [->|Ne]; [apply EV; exact Hi | apply EG; [lia | exact Hi]].
      + intros a b Ha Hb. destruct (Nat.eqb_spec a k) as [->|Na], (Nat.eqb_spec b k) as [->|Nb].
        * rewrite Nat.eqb_refl, inner_self, U. reflexivity.
        * rewrite (proj2 (Nat.eqb_neq k b)) by congruence. rewrite <- inner_conj, O by lia. change (conj c0) with (conj (real 0)). rewrite real_conj. reflexivity.
        * rewrite (proj2 (Nat.eqb_neq a k)) by congruence. apply O. lia.
        * apply OR; lia.
  Qed.
  Theorem spectral : nrow H = n -> ncol H = n -> exists V E, eigenbasis H V E.
  Proof using herm.
    intros R1 R2. destruct (eigenvectors n (le_n n)) as (W & E & EG & OR).
    exists (Mat n n (fun i a => W a i)), (map E (seq 0 n)). split; [|split].
    - unfold eigen. cbn [nrow ncol]. rewrite map_length, seq_length. repeat split; try assumption.
      intros i a Hi Ha. rewrite (nth_indep _ 0 (E 0%nat)) by (rewrite map_length, seq_length; exact Ha). rewrite map_nth, seq_nth by exact Ha.
      cbn [ent Nat.add]. exact (EG a Ha i Hi).
    - intros a b Ha Hb. exact (OR a b Ha Hb).
    - intros psi i Hi. exact (full n W OR eq_refl psi i Hi).
  Qed.
End Vectors.

(** Sums of operators over sites with a wave vector: proofs. *)
From Coq Require Import List Arith Lia ZArith Reals Lra Bool.
From Verif Require Import Scalars Sums Res Matrix SqMat OpsProofs FockProofs FermiOps SpecMat ModelFermions ModelGeometry ModelPhase ModelSymmetry ModelBase ModelThermal ModelRest
  SymBase SpecFermiGas SpecThermal SpecRest FermiGrid FermiModes.
Import ListNotations.
Local Open Scope R_scope.

Lemma rfold_ext {T A} (g h : T -> A -> res T) l t : (forall t a, g t a = h t a) -> rfold g l t = rfold h l t.
Proof. intros H. revert t. induction l as [|a l IH]; intros t; cbn [rfold]; [reflexivity|]. rewrite H. destruct (h t a); cbn [bind]; [apply IH|reflexivity]. Qed.
Section Fourier.
  Variable s : sys.
  Variable op : cmat.
  Variable sp : nat.
  Variable f : fmt.
  Hypothesis Hb : two_state s.
  Hypothesis Hf : f <> OtherFormat.
  Hypothesis Hsp : (sp < s_nspecies s)%nat.
  Hypothesis Hop : square 2 op.
  Notation D := (2 ^ nlog s)%nat.

  Lemma weighted_fold (step : nat -> res cmat) (w : nat -> CR) A :
    (forall i, (i < s_nsites s)%nat -> exists B, step i = Ok B /\ square D B /\ forall a b, ent B a b = w i *c ent (A i) a b) ->
    forall n, (n <= s_nsites s)%nat -> exists r, rfold (fun acc i => B <- step i ;; opt_add acc B) (seq 0 n) None = Ok r /\
      match r with None => n = 0%nat | Some M => square D M /\ forall a b, ent M a b = ksum n (fun i => w i *c ent (A i) a b) end.
  Proof using.
    clear. intros H. induction n as [|n IH]; intros Hn; [exists None; split; reflexivity|].
    destruct IH as (r & E & P); [lia|]. rewrite seq_S, rfold_app, E. cbn [bind rfold Nat.add].
    destruct (H n) as (B & EB & SB & VB); [lia|]. rewrite EB. cbn [bind]. destruct r as [M|].
    - destruct P as [SM VM]. unfold opt_add. rewrite (cadd_ok D) by assumption. cbn [bind]. eexists. split; [reflexivity|]. split; [apply square_add; assumption|].
      intros a b. cbn [madd ent ksum]. rewrite VM, VB. reflexivity.
    - subst n. eexists. split; [reflexivity|]. split; [exact SB|]. intros a b. cbn [ksum]. rewrite VB. ring.
  Qed.
  Lemma site_ops : exists A : nat -> cmat, forall i, (i < s_nsites s)%nat -> single_site_op s i sp op f = Ok (A i) /\ square D (A i).
  Proof.
    exists (fun i => match single_site_op s i sp op f with Ok B => B | Raise _ => op end). intros i Hi.
    destruct (single_ok s i sp op f Hb Hf Hi Hsp Hop) as (B & E & S & _). rewrite E. split; [reflexivity|exact S].
  Qed.
  Lemma fold_same xs ys q l (acc : option cmat) :
    rfold (fun acc ii => A <- single_site_op s ii sp op f ;; let phase := nth ii xs 0 * fst q + nth ii ys 0 * snd q in opt_add acc (mscale (cos phase, sin phase) A)) l acc =
    rfold (fun acc i => B <- (B <- single_site_op s i sp op f ;; Ok (mscale (site_wave xs ys q i) B)) ;; opt_add acc B) l acc.
  Proof using.
    clear. apply rfold_ext. intros acc0 i. destruct (single_site_op s i sp op f) as [B|e]; reflexivity.
  Qed.
  Lemma sum_q_entries xs ys q A : s_nsites s <> 0%nat -> (forall i, (i < s_nsites s)%nat -> single_site_op s i sp op f = Ok (A i)) ->
    exists M, sum_op_q s xs ys q op sp f = Ok (Some M) /\ square D M /\
      forall a b, ent M a b = ksum (s_nsites s) (fun i => site_wave xs ys q i *c ent (A i) a b).
  Proof.
    intros Hn HA.
    destruct (weighted_fold (fun i => B <- single_site_op s i sp op f ;; Ok (mscale (site_wave xs ys q i) B)) (site_wave xs ys q) A) with (n := s_nsites s) as (r & E & P); [|lia|].
    - intros i Hi. destruct (single_ok s i sp op f Hb Hf Hi Hsp Hop) as (B & E & S & _). rewrite (HA i Hi) in E. injection E as <-. rewrite (HA i Hi). cbn [bind].
      eexists. split; [reflexivity|]. split; [exact S|]. reflexivity.
    - assert (X : sum_op_q s xs ys q op sp f = Ok r).
      { rewrite <- E. clear E P. apply fold_same. }
      rewrite X. destruct r as [M|]; [|contradiction]. exists M. split; [reflexivity|exact P].
  Qed.
  Lemma sum_entries A : s_nsites s <> 0%nat -> (forall i, (i < s_nsites s)%nat -> single_site_op s i sp op f = Ok (A i)) ->
    exists M, sum_op s op sp f = Ok M /\ square D M /\ forall a b, ent M a b = ksum (s_nsites s) (fun i => ent (A i) a b).
  Proof.
    intros Hn HA.
    destruct (weighted_fold (fun i => single_site_op s i sp op f) (fun _ => c1) A) with (n := s_nsites s) as (r & E & P); [|lia|].
    - intros i Hi. destruct (single_ok s i sp op f Hb Hf Hi Hsp Hop) as (B & E & S & _). rewrite (HA i Hi) in E. injection E as <-.
      exists (A i). split; [exact (HA i Hi)|]. split; [exact S|]. intros a b. ring.
    - unfold sum_op. rewrite E. cbn [bind]. destruct r as [M|]; [|contradiction]. exists M. split; [reflexivity|]. destruct P as [SM VM]. split; [exact SM|].
      intros a b. rewrite VM. apply ksum_ext. intros i Hi. ring.
  Qed.
  Lemma sum_q_zero xs ys : s_nsites s <> 0%nat -> exists M M', sum_op_q s xs ys (0, 0) op sp f = Ok (Some M) /\ sum_op s op sp f = Ok M' /\ meq M M'.
  Proof.
    intros Hn. destruct site_ops as [A HA]. destruct (sum_q_entries xs ys (0, 0) A Hn (fun i Hi => proj1 (HA i Hi))) as (M & E & S & V).
    destruct (sum_entries A Hn (fun i Hi => proj1 (HA i Hi))) as (M' & E' & S' & V'). exists M, M'. split; [exact E|]. split; [exact E'|].
    destruct S as [S1 S2], S' as [S1' S2']. split; [congruence|]. split; [congruence|]. intros a b Ha Hb'. rewrite V, V'. apply ksum_ext. intros i Hi.
    unfold site_wave. cbn [fst snd]. rewrite !Rmult_0_r, Rplus_0_r, wave_0. ring.
  Qed.
  (** Integer locations: the wave vector counts modulo 2 pi. *)
  Lemma sum_q_period (zx zy : list Z) q m1 m2 : s_nsites s <> 0%nat -> let xs := map IZR zx in let ys := map IZR zy in
    exists M M', sum_op_q s xs ys q op sp f = Ok (Some M) /\
      sum_op_q s xs ys (fst q + 2 * PI * IZR m1, snd q + 2 * PI * IZR m2) op sp f = Ok (Some M') /\ meq M M'.
  Proof.
    intros Hn xs ys. destruct site_ops as [A HA]. destruct (sum_q_entries xs ys q A Hn (fun i Hi => proj1 (HA i Hi))) as (M & E & S & V).
    destruct (sum_q_entries xs ys (fst q + 2 * PI * IZR m1, snd q + 2 * PI * IZR m2) A Hn (fun i Hi => proj1 (HA i Hi))) as (M' & E' & S' & V').
    exists M, M'. split; [exact E|]. split; [exact E'|].
    destruct S as [S1 S2], S' as [S1' S2']. split; [congruence|]. split; [congruence|]. intros a b Ha Hb'. rewrite V, V'. apply ksum_ext. intros i Hi.
    f_equal. unfold site_wave, xs, ys. cbn [fst snd]. rewrite !(map_nth IZR _ 0%Z).
    replace (IZR (nth i zx 0%Z) * (fst q + 2 * PI * IZR m1) + IZR (nth i zy 0%Z) * (snd q + 2 * PI * IZR m2))
      with ((IZR (nth i zx 0%Z) * fst q + IZR (nth i zy 0%Z) * snd q) + 2 * PI * IZR (nth i zx 0 * m1 + nth i zy 0 * m2)%Z).
    - rewrite wave_period. reflexivity.
    - rewrite plus_IZR, !mult_IZR. ring.
  Qed.
  (** Inverse transform on a periodic lattice. *)
  Lemma sum_q_inverse (sh : shape) (n : nat) (zx zy : list Z) j :
    (1 <= n)%nat -> (j < s_nsites s)%nat ->
    (forall i, (i < s_nsites s)%nat -> i <> j -> same_site sh n (nth i zx 0 - nth j zx 0, nth i zy 0 - nth j zy 0)%Z = false) ->
    exists A M, single_site_op s j sp op f = Ok A /\
      (forall p, sum_op_q s (map IZR zx) (map IZR zy) (wave_vector sh n p) op sp f = Ok (Some (M p))) /\
      forall a b, klsum (modes sh n) (fun p => conj (plane sh n (nth j zx 0, nth j zy 0)%Z p) *c ent (M p) a b) = real (INR (length (modes sh n))) *c ent A a b.
  Proof.
    intros Hn Hj Hd. destruct site_ops as [A HA]. assert (N0 : s_nsites s <> 0%nat) by lia.
    exists (A j), (fun p => match sum_op_q s (map IZR zx) (map IZR zy) (wave_vector sh n p) op sp f with Ok (Some M) => M | _ => op end).
    split; [exact (proj1 (HA j Hj))|]. split.
    - intros p. destruct (sum_q_entries (map IZR zx) (map IZR zy) (wave_vector sh n p) A N0 (fun i Hi => proj1 (HA i Hi))) as (M & E & _). rewrite E. reflexivity.
    - intros a b.
      transitivity (klsum (modes sh n) (fun p => ksum (s_nsites s) (fun i => plane sh n (nth i zx 0 - nth j zx 0, nth i zy 0 - nth j zy 0)%Z p *c ent (A i) a b))).
      + apply klsum_ext. intros p _.
        destruct (sum_q_entries (map IZR zx) (map IZR zy) (wave_vector sh n p) A N0 (fun i Hi => proj1 (HA i Hi))) as (M & E & _ & V). rewrite E, V, <- ksum_mul_l.
        apply ksum_ext. intros i Hi. unfold site_wave, wave_vector. rewrite !(map_nth IZR _ 0%Z). cbn [fst snd].
        assert (X : plane sh n (nth i zx 0 - nth j zx 0, nth i zy 0 - nth j zy 0)%Z p =
          conj (plane sh n (nth j zx 0, nth j zy 0)%Z p) *c wave (IZR (nth i zx 0%Z) * momentum n (fst p) + IZR (nth i zy 0%Z) * match sh with Chain => 0 | Square => momentum n (snd p) end)).
        { destruct sh; unfold plane; cbn [fst snd]; rewrite wave_conj, <- wave_add, ?minus_IZR; f_equal; ring. }
        rewrite X. ring.
      + rewrite klsum_ksum. transitivity (ksum (s_nsites s) (fun i => if (i =? j)%nat then real (INR (length (modes sh n))) *c ent (A i) a b else c0)).
        * apply ksum_ext. intros i Hi. rewrite klsum_mul_r, plane_orth by exact Hn. destruct (Nat.eqb_spec i j) as [->|Ne].
          -- rewrite !Z.sub_diag. assert (same_site sh n (0, 0)%Z = true) as -> by (destruct sh; cbn [same_site fst snd]; unfold back; rewrite Z.mod_0_l by lia; reflexivity). reflexivity.
          -- rewrite Hd by assumption. ring.
        * rewrite (ksum_single _ j) by (try exact Hj; intros i Hi Ne; rewrite (proj2 (Nat.eqb_neq i j) Ne); reflexivity). rewrite Nat.eqb_refl. reflexivity.
  Qed.
  (** Adjoint operators: the opposite wave vector. *)
  Lemma site_adjoint i A B : (i < s_nsites s)%nat -> single_site_op s i sp op f = Ok A -> single_site_op s i sp (madj op) f = Ok B ->
    forall a b, (a < D)%nat -> (b < D)%nat -> ent B a b = conj (ent A b a).
  Proof.
    intros Hi EA EB a b Ha Hb'. assert (So : square 2 (madj op)) by (destruct Hop; split; assumption).
    destruct (single_ok s i sp op f Hb Hf Hi Hsp Hop) as (A' & EA' & _ & VA). rewrite EA in EA'. injection EA' as <-.
    destruct (single_ok s i sp (madj op) f Hb Hf Hi Hsp So) as (B' & EB' & _ & VB). rewrite EB in EB'. injection EB' as <-.
    rewrite (VB a b Ha Hb'), (VA b a Hb' Ha). pose proof (lsite_lt s i sp Hi Hsp) as L. destruct f; [| |contradiction]; cbn [gop].
    - apply (fop_adj (nlog s) (lsite s i sp) op L Hop a b Ha Hb').
    - apply (bop_adj (nlog s) (lsite s i sp) op L Hop a b Ha Hb').
  Qed.
End Fourier.

Lemma sum_q_adjoint s op sp f xs ys q : two_state s -> f <> OtherFormat -> (sp < s_nspecies s)%nat -> square 2 op -> s_nsites s <> 0%nat ->
  exists M M', sum_op_q s xs ys q op sp f = Ok (Some M) /\ sum_op_q s xs ys (- fst q, - snd q) (madj op) sp f = Ok (Some M') /\ meq M' (madj M).
Proof.
  intros Hb Hf Hsp Hop Hn. assert (So : square 2 (madj op)) by (destruct Hop; split; assumption).
  destruct (site_ops s op sp f Hb Hf Hsp Hop) as [A HA]. destruct (site_ops s (madj op) sp f Hb Hf Hsp So) as [B HB].
  destruct (sum_q_entries s op sp f Hb Hf Hsp Hop xs ys q A Hn (fun i Hi => proj1 (HA i Hi))) as (M & E & S & V).
  destruct (sum_q_entries s (madj op) sp f Hb Hf Hsp So xs ys (- fst q, - snd q) B Hn (fun i Hi => proj1 (HB i Hi))) as (M' & E' & S' & V').
  exists M, M'. split; [exact E|]. split; [exact E'|]. destruct S as [S1 S2], S' as [S1' S2'].
  split; [cbn; congruence|]. split; [cbn; congruence|]. intros a b Ha Hb'. cbn [madj ent]. rewrite V', V, ksum_conj. apply ksum_ext. intros i Hi. rewrite kconj_mul.
  rewrite (site_adjoint s op sp f Hb Hf Hsp Hop i (A i) (B i) Hi (proj1 (HA i Hi)) (proj1 (HB i Hi)) a b) by congruence. f_equal.
  unfold site_wave. cbn [fst snd]. rewrite wave_conj. f_equal. ring.
Qed.

(** Fermions: the sums anticommute as the site operators do. *)
Lemma anti_entries D n (w w' : nat -> CR) (A B : nat -> cmat) M M' (g : nat -> nat -> cmat) :
  square D M -> square D M' -> (forall i, (i < n)%nat -> square D (A i)) -> (forall i, (i < n)%nat -> square D (B i)) ->
  (forall a b, ent M a b = ksum n (fun i => w i *c ent (A i) a b)) -> (forall a b, ent M' a b = ksum n (fun i => w' i *c ent (B i) a b)) ->
  (forall i j, (i < n)%nat -> (j < n)%nat -> meq (anticomm (A i) (B j)) (g i j)) ->
  forall a b, (a < D)%nat -> (b < D)%nat -> ent (anticomm M M') a b = ksum n (fun i => ksum n (fun j => w i *c w' j *c ent (g i j) a b)).
Proof.
  intros [S1 S2] [S1' S2'] SA SB V V' G a b Ha Hb.
  transitivity (ksum n (fun i => ksum n (fun j => w i *c w' j *c ent (anticomm (A i) (B j)) a b))).
  2:{ apply ksum_ext. intros i Hi. apply ksum_ext. intros j Hj. f_equal. destruct (G i j Hi Hj) as (_ & _ & X). apply X; cbn; [rewrite (proj1 (SA i Hi)) | rewrite (proj2 (SB j Hj))]; assumption. }
  unfold anticomm. cbn [madd mmul ent]. rewrite S2, S2'.
  assert (P : forall (u u' : nat -> CR) (X Y : nat -> cmat), ksum D (fun k => ksum n (fun i => u i *c ent (X i) a k) *c ksum n (fun j => u' j *c ent (Y j) k b)) =
    ksum n (fun i => ksum n (fun j => u i *c u' j *c ksum D (fun k => ent (X i) a k *c ent (Y j) k b)))).
  { intros u u' X Y. transitivity (ksum D (fun k => ksum n (fun i => ksum n (fun j => u i *c u' j *c (ent (X i) a k *c ent (Y j) k b))))).
    - apply ksum_ext. intros k Hk. rewrite <- ksum_mul_r. apply ksum_ext. intros i Hi. rewrite <- ksum_mul_l. apply ksum_ext. intros j Hj. ring.
    - rewrite ksum_swap. apply ksum_ext. intros i Hi. rewrite ksum_swap. apply ksum_ext. intros j Hj. rewrite ksum_mul_l. reflexivity. }
  rewrite (ksum_ext D (fun k => ent M a k *c ent M' k b) (fun k => ksum n (fun i => w i *c ent (A i) a k) *c ksum n (fun j => w' j *c ent (B j) k b))) by (intros; rewrite V, V'; reflexivity).
  rewrite (ksum_ext D (fun k => ent M' a k *c ent M k b) (fun k => ksum n (fun i => w' i *c ent (B i) a k) *c ksum n (fun j => w j *c ent (A j) k b))) by (intros; rewrite V, V'; reflexivity).
  rewrite !P. rewrite (ksum_swap n n (fun i j => w' i *c w j *c ksum D (fun k => ent (B i) a k *c ent (A j) k b))). rewrite <- ksum_add. apply ksum_ext. intros i Hi.
  rewrite <- ksum_add. apply ksum_ext. intros j Hj. rewrite (proj2 (SA i Hi)), (proj2 (SB j Hj)). ring.
Qed.
Lemma momentum_anticommute s xs ys sp sp' q q' : two_state s -> (sp < s_nspecies s)%nat -> (sp' < s_nspecies s)%nat -> s_nsites s <> 0%nat ->
  exists a_q a_q' ad_q', sum_op_q s xs ys q c_op sp Fermion = Ok (Some a_q) /\ sum_op_q s xs ys q' c_op sp' Fermion = Ok (Some a_q') /\
    sum_op_q s xs ys (- fst q', - snd q') cdag_op sp' Fermion = Ok (Some ad_q') /\
    meq (anticomm a_q ad_q') (mscale (if (sp =? sp')%nat then overlap s xs ys q q' else c0) (meye (nstates s))) /\
    meq (anticomm a_q a_q') (mzero (nstates s) (nstates s)).
Proof.
  intros Hb Hsp Hsp' Hn. assert (HF : Fermion <> OtherFormat) by discriminate.
  destruct (site_ops s c_op sp Fermion Hb HF Hsp sq_c) as [A HA]. destruct (site_ops s c_op sp' Fermion Hb HF Hsp' sq_c) as [A' HA'].
  destruct (site_ops s cdag_op sp' Fermion Hb HF Hsp' sq_cdag) as [B HB].
  destruct (sum_q_entries s c_op sp Fermion Hb HF Hsp sq_c xs ys q A Hn (fun i Hi => proj1 (HA i Hi))) as (M & E & S & V).
  destruct (sum_q_entries s c_op sp' Fermion Hb HF Hsp' sq_c xs ys q' A' Hn (fun i Hi => proj1 (HA' i Hi))) as (M' & E' & S' & V').
  destruct (sum_q_entries s cdag_op sp' Fermion Hb HF Hsp' sq_cdag xs ys (- fst q', - snd q') B Hn (fun i Hi => proj1 (HB i Hi))) as (N & F & T & W).
  exists M, M', N. split; [exact E|]. split; [exact E'|]. split; [exact F|].
  set (D := (2 ^ nlog s)%nat) in *. assert (ND : nstates s = D) by (apply nstates2; exact Hb). rewrite ND.
  assert (G : forall i j, (i < s_nsites s)%nat -> (j < s_nsites s)%nat ->
    meq (anticomm (A i) (B j)) (if ((i =? j) && (sp =? sp'))%nat then meye D else mzero D D) /\ meq (anticomm (A i) (A' j)) (mzero D D)).
  { intros i j Hi Hj. destruct (anticommutation (K:=CR) s i sp j sp' Hb Hi Hsp Hj Hsp') as (ci & ci' & cj & cj' & E1 & E2 & E3 & E4 & _ & _ & X & Y & _).
    rewrite (proj1 (HA i Hi)) in E1. injection E1 as <-. rewrite (proj1 (HA' j Hj)) in E3. injection E3 as <-. rewrite (proj1 (HB j Hj)) in E4. injection E4 as <-.
    rewrite ND in X, Y. split; assumption. }
  split.
  - split; [cbn; exact (proj1 S)|]. split; [cbn; exact (proj2 T)|]. intros a b Ha Hb'. cbn in Ha, Hb'. rewrite (proj1 S) in Ha. rewrite (proj2 T) in Hb'.
    rewrite (anti_entries D (s_nsites s) (site_wave xs ys q) (site_wave xs ys (- fst q', - snd q')) A B M N _ S T (fun i Hi => proj2 (HA i Hi)) (fun i Hi => proj2 (HB i Hi)) V W (fun i j Hi Hj => proj1 (G i j Hi Hj)) a b Ha Hb').
    cbn [mscale ent]. transitivity (ksum (s_nsites s) (fun i => (if (sp =? sp')%nat then site_wave xs ys q i *c site_wave xs ys (- fst q', - snd q') i else c0) *c ent (meye (K:=CR) D) a b)).
    + apply ksum_ext. intros i Hi. rewrite (ksum_single _ i).
      * rewrite Nat.eqb_refl. cbn [andb]. destruct (Nat.eqb_spec sp sp'); [reflexivity|]. cbn [mzero ent]. ring.
      * exact Hi.
      * intros j Hj Ne. rewrite (proj2 (Nat.eqb_neq i j)) by congruence. cbn [andb mzero ent]. ring.
    + rewrite ksum_mul_r. f_equal. destruct (Nat.eqb_spec sp sp'); [|apply ksum_zero; reflexivity]. unfold overlap. apply ksum_ext. intros i Hi.
      unfold site_wave. cbn [fst snd]. rewrite <- wave_add. f_equal. ring.
  - split; [cbn; exact (proj1 S)|]. split; [cbn; exact (proj2 S')|]. intros a b Ha Hb'. cbn in Ha, Hb'. rewrite (proj1 S) in Ha. rewrite (proj2 S') in Hb'.
    rewrite (anti_entries D (s_nsites s) (site_wave xs ys q) (site_wave xs ys q') A A' M M' _ S S' (fun i Hi => proj2 (HA i Hi)) (fun i Hi => proj2 (HA' i Hi)) V V' (fun i j Hi Hj => proj2 (G i j Hi Hj)) a b Ha Hb').
    cbn [mzero ent]. apply ksum_zero. intros i Hi. apply ksum_zero. intros j Hj. ring.
Qed.
(** On all sites of a ring or a periodic square the sums at the momenta of the
    lattice are, up to their norm, operators of independent modes. *)
Lemma ksum_nth {A} (l : list A) d (g : A -> CR) : ksum (length l) (fun i => g (nth i l d)) = klsum l g.
Proof.
  induction l as [|a l IH] using rev_ind; [reflexivity|]. rewrite app_length, Nat.add_1_r, klsum_app. cbn [ksum klsum]. rewrite <- IH.
  rewrite app_nth2, Nat.sub_diag by lia. cbn [nth]. rewrite (ksum_ext _ _ (fun i => g (nth i l d))) by (intros; rewrite app_nth1 by assumption; reflexivity). ring.
Qed.
Lemma mode_range sh n p : In p (modes sh n) -> (fst p < n)%nat /\ match sh with Chain => snd p = 0%nat | Square => (snd p < n)%nat end.
Proof. unfold modes. destruct p as [a b]. intros H. apply in_prod_iff in H. destruct H as [H1 H2]. apply in_seq in H1. cbn [fst snd]. split; [lia|]. destruct sh; [destruct H2 as [H2|[]]; congruence | apply in_seq in H2; lia]. Qed.
Lemma back_eq n a b : (a < n)%nat -> (b < n)%nat -> back n (Z.of_nat a - Z.of_nat b) = (a =? b)%nat.
Proof.
  intros Ha Hb. unfold back. destruct (Nat.eqb_spec a b) as [->|Ne]; [rewrite Z.sub_diag, Z.mod_0_l by lia; reflexivity|].
  apply Z.eqb_neq. intros X. apply Z.mod_divide in X; [|lia]. destruct X as [k X]. assert (k = 0)%Z by nia. lia.
Qed.
Lemma overlap_modes s sh n p p' : (1 <= n)%nat -> s_nsites s = length (modes sh n) -> In p (modes sh n) -> In p' (modes sh n) ->
  overlap s (lattice_x sh n) (lattice_y sh n) (wave_vector sh n p) (wave_vector sh n p') = if ((fst p =? fst p') && (snd p =? snd p'))%nat then real (INR (s_nsites s)) else c0.
Proof.
  intros Hn Hs Hp Hp'. unfold overlap. rewrite Hs.
  transitivity (klsum (modes sh n) (plane sh n (Z.of_nat (fst p) - Z.of_nat (fst p'), Z.of_nat (snd p) - Z.of_nat (snd p'))%Z)).
  - rewrite <- (ksum_nth (modes sh n) (0%nat, 0%nat)). apply ksum_ext. intros i Hi. unfold lattice_x, lattice_y.
    rewrite (nth_indep (map (fun r => INR (fst r)) (modes sh n)) 0 (INR (fst (0%nat, 0%nat)))) by (rewrite map_length; exact Hi).
    rewrite (nth_indep (map (fun r => INR (snd r)) (modes sh n)) 0 (INR (snd (0%nat, 0%nat)))) by (rewrite map_length; exact Hi).
    rewrite (map_nth (fun r => INR (fst r))), (map_nth (fun r => INR (snd r))).
    destruct sh; unfold plane, wave_vector, momentum; cbn [fst snd]; rewrite !minus_IZR, <- !INR_IZR_INZ; f_equal; field; apply not_0_INR; lia.
  - rewrite plane_orth by exact Hn. pose proof (mode_range sh n p Hp) as [R1 R2]. pose proof (mode_range sh n p' Hp') as [R1' R2'].
    assert (X : same_site sh n (Z.of_nat (fst p) - Z.of_nat (fst p'), Z.of_nat (snd p) - Z.of_nat (snd p'))%Z = ((fst p =? fst p') && (snd p =? snd p'))%nat).
    { destruct sh; cbn [same_site fst snd]; rewrite !back_eq by assumption; [|reflexivity]. rewrite R2, R2'. cbn. rewrite andb_true_r. reflexivity. }
    rewrite X. reflexivity.
Qed.

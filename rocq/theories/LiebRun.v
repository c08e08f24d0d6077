(** Ground states of two kinds of fermions that attract each other. *)
From Coq Require Import List Arith Lia Reals Lra ZArith QArith Qabs Bool Permutation.
From Verif Require Import Scalars Res Matrix Sums SqMat SpecMat SpecFock OpsProofs FockProofs FermiOps ModelBase ModelFermions ModelSpins SpecSpins Digits SpinOps SpinAlg SpinSwap SpinJordan HamProofs FermiApi SpecPerm
  ModelGeometry ModelPhase ModelSymmetry SymBase ModelThermal SpecThermal ThermalBase ThermalFacts ThermalBasis Spectral Thermo SpecHeat SpecConvex Convex SpecSigns Signs SignsHeat SignsSpins SpecSectors Perron Sectors  HopSigns SpecShells Shells ShellsRun SpecLieb Halves Lieb.
From Verif Require FermiCorr.
Import ListNotations.
Local Open Scope R_scope.

(** Positions in a list. *)
Fixpoint posn (l : list nat) (a : nat) : nat := match l with [] => O | b :: l' => if (b =? a)%nat then O else S (posn l' a) end.
Lemma posn_spec l a : In a l -> (posn l a < length l)%nat /\ nth (posn l a) l 0%nat = a.
Proof.
  induction l as [|b l IH]; intros I; [destruct I|]. cbn [posn length]. destruct (Nat.eqb_spec b a) as [->|NE]; [split; [lia|reflexivity]|].
  destruct I as [|I]; [contradiction|]. destruct (IH I). split; [lia|]. cbn [nth]. assumption.
Qed.
Lemma posn_nth l p : NoDup l -> (p < length l)%nat -> posn l (nth p l 0%nat) = p.
Proof. intros ND Hp. destruct (posn_spec l (nth p l 0%nat) (nth_In l 0%nat Hp)) as (A & Q). apply (proj1 (NoDup_nth l 0%nat) ND); assumption. Qed.

Lemma snd_ksum_zero n (F : nat -> CR) : (forall i, (i < n)%nat -> snd (F i) = 0) -> snd (ksum n F) = 0.
Proof. induction n as [|n IH]; intros Z; [reflexivity|]. cbn [ksum]. change (snd (ksum n F +c F n)) with (snd (ksum n F) + snd (F n)). rewrite IH, (Z n) by (intros; auto with arith). ring. Qed.
Lemma real_of (z : CR) : snd z = 0 -> z = real (fst z).
Proof. intros Z. apply injective_projections; cbn; [reflexivity | exact Z]. Qed.
Lemma snd_ksign k : snd (ksign (K:=CR) k) = 0.
Proof. induction k as [|k IH]; [reflexivity|]. cbn [ksign]. change (snd (kopp (ksign (K:=CR) k))) with (- snd (ksign (K:=CR) k)). rewrite IH. ring. Qed.

Section Run.
  Variables (g : fgeom CR) (ts : nat -> nat -> nat -> CR) (us : nat -> CR) (same : nat -> nat -> nat -> CR) (mus : nat -> CR) (pot : nat -> nat -> CR) (pr : mat CR).
  Notation f := (pairsys g ts us same mus pot pr).
  Notation ns := (fg_nsites g).
  Notation B := (2 ^ ns)%nat.
  Notation gl x y := (glue ns x y).
  Notation h1 s := (HS2 (alone f s) (amplitude (alone f s))).
  Variables (M : nat) (P : mat CR) (idx : list nat) (H V : mat CR) (E : list R).
  Hypothesis att : attracting f.
  Hypothesis conn : connected_hops f.
  Hypothesis sec : shell ns 2 [M; M] P idx.
  Hypothesis made : createH f (Some P) = Ok H.
  Hypothesis basis : eigenbasis H V E.
  Notation N := (length idx).
  Notation at_ p := (nth p idx 0%nat).

  (** Configurations of one species. *)
  Definition few (x : nat) : bool := (length (filter (occ ns x) (seq 0 ns)) =? M)%nat.
  Definition idx1 : list nat := filter few (seq 0 B).
  Notation N1 := (length idx1).
  Notation at1 p := (nth p idx1 0%nat).
  Lemma idx1_in x : In x idx1 <-> config ns M x.
  Proof using. unfold idx1, config, few. rewrite filter_In, in_seq, Nat.eqb_eq. split; intros (A & Q); (split; [lia | exact Q]). Qed.
  Lemma idx1_nodup : NoDup idx1. Proof using. apply NoDup_filter, seq_NoDup. Qed.
  Lemma at1_config u : (u < N1)%nat -> config ns M (at1 u).
  Proof using. intros Hu. apply idx1_in, nth_In, Hu. Qed.
  Lemma at1_lt u : (u < N1)%nat -> (at1 u < B)%nat. Proof using. intros Hu. apply at1_config, Hu. Qed.
  Lemma at1_inj u v : (u < N1)%nat -> (v < N1)%nat -> at1 u = at1 v -> u = v.
  Proof using. intros Hu Hv Q. apply (proj1 (NoDup_nth idx1 0%nat) idx1_nodup); assumption. Qed.
  Lemma at1_eqb u v : (u < N1)%nat -> (v < N1)%nat -> (at1 u =? at1 v)%nat = (u =? v)%nat.
  Proof using. intros Hu Hv. destruct (Nat.eqb_spec u v) as [->|NE]; [apply Nat.eqb_refl|]. apply Nat.eqb_neq. intros Q. apply NE, at1_inj; assumption. Qed.

  (** The two species of a state of the shell. *)
  Lemma occ_hi x y i : (i < ns)%nat -> (x < B)%nat -> (y < B)%nat -> occ (ns * 2) (gl x y) (ns * 0 + i) = occ ns x i.
  Proof using.
    intros Hi Hx Hy. assert (Q : Nat.b2n (occ (ns * 2) (gl x y) (ns * 0 + i)) = Nat.b2n (occ ns x i)). { rewrite !occ_digit by lia. rewrite Nat.mul_0_r, Nat.add_0_l. apply digit_hi; assumption. }
    destruct (occ (ns * 2) (gl x y) (ns * 0 + i)), (occ ns x i); cbn in Q; congruence.
  Qed.
  Lemma occ_lo x y i : (i < ns)%nat -> (x < B)%nat -> (y < B)%nat -> occ (ns * 2) (gl x y) (ns * 1 + i) = occ ns y i.
  Proof using.
    intros Hi Hx Hy. assert (Q : Nat.b2n (occ (ns * 2) (gl x y) (ns * 1 + i)) = Nat.b2n (occ ns y i)). { rewrite !occ_digit by lia. rewrite Nat.mul_1_r. apply digit_lo; assumption. }
    destruct (occ (ns * 2) (gl x y) (ns * 1 + i)), (occ ns y i); cbn in Q; congruence.
  Qed.
  Lemma species_hi x y : (x < B)%nat -> (y < B)%nat -> occ_species (ns * 2) ns (gl x y) 0 = length (filter (occ ns x) (seq 0 ns)).
  Proof using. intros Hx Hy. unfold occ_species. f_equal. apply filter_ext_in. intros i Hi. apply in_seq in Hi. apply occ_hi; assumption || lia. Qed.
  Lemma species_lo x y : (x < B)%nat -> (y < B)%nat -> occ_species (ns * 2) ns (gl x y) 1 = length (filter (occ ns y) (seq 0 ns)).
  Proof using. intros Hx Hy. unfold occ_species. f_equal. apply filter_ext_in. intros i Hi. apply in_seq in Hi. apply occ_lo; assumption || lia. Qed.
  Lemma glue_in x y : config ns M x -> config ns M y -> In (gl x y) idx.
  Proof using sec.
    intros (Hx & Cx) (Hy & Cy). destruct sec as (_ & _ & I). apply I. split; [apply glue_lt; assumption|]. intros s Hs. assert (s = 0 \/ s = 1)%nat as [->| ->] by lia; cbn [nth]; [rewrite species_hi | rewrite species_lo]; assumption.
  Qed.
  Lemma at_config p : (p < N)%nat -> config ns M (at_ p / B) /\ config ns M (at_ p mod B) /\ gl (at_ p / B) (at_ p mod B) = at_ p.
  Proof using sec.
    intros Hp. destruct sec as (_ & _ & I). destruct (proj1 (I _) (nth_In idx 0%nat Hp)) as (L & C). destruct (glue_split ns _ L) as (L1 & L2 & Q). pose proof (C 0%nat ltac:(lia)) as C0. pose proof (C 1%nat ltac:(lia)) as C1. cbn [nth] in C0, C1.
    rewrite <- Q in C0, C1. rewrite species_hi in C0 by assumption. rewrite species_lo in C1 by assumption. repeat split; assumption.
  Qed.
  Definition pos (u v : nat) : nat := posn idx (gl (at1 u) (at1 v)).
  Definition hi (p : nat) : nat := posn idx1 (at_ p / B).
  Definition lo (p : nat) : nat := posn idx1 (at_ p mod B).
  Lemma pos_spec u v : (u < N1)%nat -> (v < N1)%nat -> (pos u v < N)%nat /\ at_ (pos u v) = gl (at1 u) (at1 v).
  Proof using sec. intros Hu Hv. apply posn_spec, glue_in; apply at1_config; assumption. Qed.
  Lemma hi_spec p : (p < N)%nat -> (hi p < N1)%nat /\ at1 (hi p) = (at_ p / B)%nat.
  Proof using sec. intros Hp. apply posn_spec, idx1_in, at_config, Hp. Qed.
  Lemma lo_spec p : (p < N)%nat -> (lo p < N1)%nat /\ at1 (lo p) = (at_ p mod B)%nat.
  Proof using sec. intros Hp. apply posn_spec, idx1_in, at_config, Hp. Qed.
  Lemma hi_pos u v : (u < N1)%nat -> (v < N1)%nat -> hi (pos u v) = u.
  Proof using sec. intros Hu Hv. unfold hi. rewrite (proj2 (pos_spec u v Hu Hv)), glue_hi by (apply at1_lt; exact Hv). apply posn_nth; [apply idx1_nodup | exact Hu]. Qed.
  Lemma lo_pos u v : (u < N1)%nat -> (v < N1)%nat -> lo (pos u v) = v.
  Proof using sec. intros Hu Hv. unfold lo. rewrite (proj2 (pos_spec u v Hu Hv)), glue_lo by (apply at1_lt; exact Hv). apply posn_nth; [apply idx1_nodup | exact Hv]. Qed.
  Lemma pos_back p : (p < N)%nat -> pos (hi p) (lo p) = p.
  Proof using sec.
    intros Hp. unfold pos. rewrite (proj2 (hi_spec p Hp)), (proj2 (lo_spec p Hp)), (proj2 (proj2 (at_config p Hp))). apply posn_nth; [apply sec | exact Hp].
  Qed.
  Lemma sum_pairs (F : nat -> CR) : ksum N F = ksum N1 (fun u => ksum N1 (fun v => F (pos u v))).
  Proof using sec.
    rewrite <- klsum_seq. rewrite (klsum_perm (seq 0 N) (map (fun q => pos (fst q) (snd q)) (list_prod (seq 0 N1) (seq 0 N1)))).
    - rewrite klsum_map, klsum_prod, klsum_seq. apply ksum_ext. intros u _. rewrite klsum_seq. reflexivity.
    - apply NoDup_Permutation.
      + apply seq_NoDup.
      + apply NoDup_map_in; [|apply FermiCorr.NoDup_prod; apply seq_NoDup]. intros (u, v) (u', v') I1 I2 Q. apply in_prod_iff in I1 as (A1 & A2). apply in_prod_iff in I2 as (A3 & A4). apply in_seq in A1, A2, A3, A4. cbn [fst snd] in Q.
        f_equal; [transitivity (hi (pos u v)); [symmetry; apply hi_pos; lia|]; rewrite Q; apply hi_pos; lia | transitivity (lo (pos u v)); [symmetry; apply lo_pos; lia|]; rewrite Q; apply lo_pos; lia].
      + intros p. rewrite in_seq, in_map_iff. split.
        * intros Hp. exists (hi p, lo p). split; [apply pos_back; lia|]. apply in_prod_iff. rewrite !in_seq. pose proof (hi_spec p ltac:(lia)). pose proof (lo_spec p ltac:(lia)). lia.
        * intros ((u, v) & <- & I). apply in_prod_iff in I as (A1 & A2). apply in_seq in A1, A2. pose proof (pos_spec u v ltac:(lia) ltac:(lia)). cbn [fst snd]. lia.
  Qed.

  (** Energies of one species. *)
  Lemma us_fine : us_ok f. Proof using. left. cbn. lia. Qed.
  Lemma amp_fine i j : (j < i < ns)%nat -> exists t, amplitude f i j 0 = real t /\ amplitude f i j 1 = real t.
  Proof using att. intros Hij. apply att, Hij. Qed.
  Lemma hop_alone s s' p r x y : hop (alone f s) p r x y = hop (alone f s') p r x y. Proof using. reflexivity. Qed.
  Lemma h1_same x y : (x < B)%nat -> (y < B)%nat -> h1 1 x y = h1 0 x y.
  Proof using att.
    intros Hx Hy. rewrite !alone_val by assumption. destruct att as (_ & A1 & A2 & (mu & Am0 & Am1) & A4 & _). cbn [f_geom f_mus f_pot f_same pairsys] in *.
    f_equal; [|f_equal; unfold diag; f_equal; [f_equal|]].
    - unfold hops. apply ksum_ext. intros i Hi. apply ksum_ext. intros j Hj. destruct (A1 i j ltac:(lia)) as (t & Q0 & Q1). rewrite Q0, Q1. reflexivity.
    - apply ksum_ext. intros i Hi. apply ksum_ext. intros j Hj. destruct (A2 i j ltac:(lia)) as (v & Q0 & Q1). rewrite Q0, Q1. reflexivity.
    - rewrite Am0, Am1. reflexivity.
    - apply ksum_ext. intros i Hi. destruct (A4 i Hi) as (v & Q0 & Q1). rewrite Q0, Q1. reflexivity.
  Qed.
  Lemma snd_mul_real r z : snd z = 0 -> snd ((r, 0) *c z) = 0. Proof using. intros Z. cbn. rewrite Z. ring. Qed.
  Lemma snd_kb b : snd (kb b : CR) = 0. Proof using. destruct b; reflexivity. Qed.
  Lemma snd_mul0 (z w : CR) : snd z = 0 -> snd w = 0 -> snd (z *c w) = 0. Proof using. intros Z W. cbn. rewrite Z, W. ring. Qed.
  Lemma h1_snd x y : (x < B)%nat -> (y < B)%nat -> snd (h1 0 x y) = 0.
  Proof using att.
    intros Hx Hy. rewrite alone_val by assumption. destruct att as (_ & A1 & A2 & (mu & Am0 & Am1) & A4 & _). cbn [f_geom f_mus f_pot f_same pairsys] in *.
    assert (PL : forall z w : CR, snd z = 0 -> snd w = 0 -> snd (z +c w) = 0) by (intros z w Z W; cbn; rewrite Z, W; ring).
    assert (MI : forall z w : CR, snd z = 0 -> snd w = 0 -> snd (z -c w) = 0) by (intros z w Z W; cbn; rewrite Z, W; ring).
    apply PL; [|apply snd_mul0; [apply snd_kb|]; unfold diag; apply PL; [apply MI|]].
    - unfold hops. apply snd_ksum_zero. intros i Hi. apply snd_ksum_zero. intros j Hj. destruct (A1 i j ltac:(lia)) as (t & Q0 & Q1). rewrite Q0.
      change (snd (kopp ?z)) with (- snd z). rewrite snd_mul_real; [ring|].
      rewrite (hop_values (alone f 0)) by (cbn [f_geom f_nspecies alone pairsys]; rewrite ?Nat.mul_1_r; try assumption; lia).
      match goal with |- context [if ?c then _ else _] => destruct c end; [apply snd_ksign | reflexivity].
    - apply snd_ksum_zero. intros i Hi. apply snd_ksum_zero. intros j Hj. destruct (A2 i j ltac:(lia)) as (v & Q0 & Q1). rewrite Q0. apply snd_mul_real, snd_mul0; apply snd_kb.
    - apply snd_ksum_zero. intros i Hi. rewrite Am0. apply snd_mul_real, snd_kb.
    - apply snd_ksum_zero. intros i Hi. destruct (A4 i Hi) as (v & Q0 & Q1). rewrite Q0. apply snd_mul_real, snd_kb.
  Qed.
  Definition K (u v : nat) : R := fst (h1 0 (at1 u) (at1 v)).
  Definition U (i : nat) : R := fst (us i).
  Definition o (i u : nat) : bool := (digit 2 ns i (at1 u) =? 1)%nat.
  Lemma K_val u v : (u < N1)%nat -> (v < N1)%nat -> h1 0 (at1 u) (at1 v) = real (K u v).
  Proof using att. intros Hu Hv. apply real_of, h1_snd; apply at1_lt; assumption. Qed.
  Lemma U_neg i : (i < ns)%nat -> U i < 0.
  Proof using att. intros Hi. destruct att as (_ & _ & _ & _ & _ & A). destruct (A i Hi) as (u & Q & L). cbn [f_us pairsys] in Q. unfold U. rewrite Q. exact L. Qed.
  Lemma us_real i : (i < ns)%nat -> us i = real (U i).
  Proof using att. intros Hi. destruct att as (_ & _ & _ & _ & _ & A). destruct (A i Hi) as (u & Q & L). cbn [f_us pairsys] in Q. unfold U. rewrite Q. reflexivity. Qed.
  Lemma o_apart u v : (u < N1)%nat -> (v < N1)%nat -> (forall i, (i < ns)%nat -> o i u = o i v) -> u = v.
  Proof using.
    intros Hu Hv Q. apply at1_inj; try assumption. apply (digits_ext 2 ltac:(discriminate) ns); try (apply at1_lt; assumption). intros i Hi. specialize (Q i Hi). unfold o in Q.
    destruct (digit2_cases ns i (at1 u)) as [A|A], (digit2_cases ns i (at1 v)) as [C|C]; rewrite A, C in *; cbn in Q; congruence.
  Qed.
  Lemma ent_pairs u v u' v' : (u < N1)%nat -> (v < N1)%nat -> (u' < N1)%nat -> (v' < N1)%nat ->
    ent H (pos u v) (pos u' v') = real (K u u') *c kb (v =? v')%nat +c kb (u =? u')%nat *c real (K v v') +c kb (u =? u')%nat *c kb (v =? v')%nat *c real (wgt ns U o u v).
  Proof using att sec made.
    intros Hu Hv Hu' Hv'. destruct (pos_spec u v Hu Hv) as (L1 & Q1). destruct (pos_spec u' v' Hu' Hv') as (L2 & Q2).
    destruct (shell_ent f [M; M] P idx H sec us_fine made) as (_ & _ & W). rewrite (W _ _ L1 L2), Q1, Q2, glue_ham by (apply at1_lt; assumption).
    rewrite h1_same, !K_val, !at1_eqb by (assumption || (apply at1_lt; assumption)). f_equal. f_equal.
    unfold wgt. assert (X : forall n, (n <= ns)%nat -> ksum n (fun i => us i *c (kb (digit 2 ns i (at1 u) =? 1)%nat *c kb (digit 2 ns i (at1 v) =? 1)%nat)) = real (rsum n (fun i => U i * (if o i u && o i v then 1 else 0)))); [|apply X; lia].
    induction n as [|n IH]; intros Hn; [reflexivity|]. cbn [ksum rsum]. rewrite IH, us_real, real_add, real_mul by lia. unfold o. f_equal. f_equal. destruct (digit 2 ns n (at1 u) =? 1)%nat, (digit 2 ns n (at1 v) =? 1)%nat; cbn [andb kb]; apply injective_projections; cbn; ring.
  Qed.
  Notation rows := (shell_rows f [M; M] P idx H V E us_fine sec made basis).
  Lemma K_sym u v : (u < N1)%nat -> (v < N1)%nat -> K u v = K v u.
  Proof using att sec made basis.
    intros Hu Hv. destruct (Nat.eq_dec u v) as [->|NE]; [reflexivity|].
    pose proof (H_herm H V E N basis rows (pos u u) (pos v u) ltac:(apply pos_spec; assumption) ltac:(apply pos_spec; assumption)) as Q. rewrite !ent_pairs in Q by assumption.
    rewrite !Nat.eqb_refl, (proj2 (Nat.eqb_neq u v) NE), (proj2 (Nat.eqb_neq v u)) in Q by auto. revert Q. cbn [kb]. generalize (K u v) (K v u) (K u u) (wgt ns U o u u) (wgt ns U o v u). intros a b c d d' Q. apply (f_equal fst) in Q. cbn in Q. lra.
  Qed.

  (** One species reaches all its configurations. *)
  Definition P1 : mat CR := Mat N1 (2 ^ (ns * 1)) (fun i j => if (nth i idx1 0 =? j)%nat then k1 else k0).
  Lemma sec1 : shell ns 1 [M] P1 idx1.
  Proof using.
    split; [split; [reflexivity|]; split; [reflexivity|]; intros i j _ _; reflexivity|]. split; [apply idx1_nodup|]. intros a. rewrite idx1_in. unfold config. rewrite Nat.mul_1_r. split; intros (L & C); (split; [exact L|]).
    - intros s Hs. replace s with 0%nat by lia. cbn [nth]. unfold occ_species. rewrite Nat.mul_0_r. exact C.
    - specialize (C 0%nat ltac:(lia)). cbn [nth] in C. unfold occ_species in C. rewrite Nat.mul_0_r in C. exact C.
  Qed.
  Lemma conn1 : connected_hops (alone f 0).
  Proof using att conn.
    intros s i j Hs Hi Hj. cbn in Hs. replace s with 0%nat by lia. cbn [f_geom alone pairsys] in *. pose proof (conn 0%nat i j ltac:(cbn; lia) Hi Hj) as L.
    induction L as [|j k L IH Hj' Hk HP]; [constructor|]. apply (hop_next (alone f 0) 0 i j k); [apply IH; assumption | assumption | assumption | exact HP].
  Qed.
  Lemma K_step u v : (u < N1)%nat -> (v < N1)%nat -> step N1 K u v.
  Proof using att conn sec made basis.
    intros Hu Hv.
    assert (US : us_ok (alone f 0)) by (right; reflexivity).
    destruct (createH_ok (alone f 0) (Some P1) eq_refl US) as (H1 & E1 & _).
    pose proof (shell_joined (alone f 0) [M] P1 idx1 H1 sec1 US E1 conn1 u v Hu Hv) as J.
    destruct (shell_ent (alone f 0) [M] P1 idx1 H1 sec1 US E1) as (_ & _ & W).
    clear Hv. induction J as [|b c J IH Hb Hc NZ]; [constructor|]. apply (st_go N1 K u b c); [apply IH; assumption | exact Hb | exact Hc|].
    rewrite K_sym by assumption. intros Z. apply NZ. rewrite W, K_val, Z by assumption. reflexivity.
  Qed.

  (** States as matrices. *)
  Definition back (W : nat -> nat -> CR) (p : nat) : CR := W (hi p) (lo p).
  Definition forth (psi : nat -> CR) (u v : nat) : CR := psi (pos u v).
  Lemma back_pos W u v : (u < N1)%nat -> (v < N1)%nat -> back W (pos u v) = W u v.
  Proof using sec. intros Hu Hv. unfold back. rewrite hi_pos, lo_pos by assumption. reflexivity. Qed.
  Lemma apply_pairs psi u v : (u < N1)%nat -> (v < N1)%nat -> apply N H psi (pos u v) = hm N1 ns K U o (forth psi) u v.
  Proof using att sec made.
    intros Hu Hv. unfold apply. rewrite sum_pairs.
    rewrite (ksum_ext N1 _ (fun u' => real (K u u') *c forth psi u' v +c kb (u =? u')%nat *c (ksum N1 (fun v' => real (K v v') *c forth psi u' v') +c real (wgt ns U o u v) *c forth psi u' v))).
    - rewrite ksum_add, (ksum_single N1 u (fun u' => kb (u =? u')%nat *c _) Hu).
      + rewrite Nat.eqb_refl. cbn [kb]. unfold hm. ring.
      + intros u' _ NE. rewrite (proj2 (Nat.eqb_neq u u')) by auto. cbn [kb]. ring.
    - intros u' Hu'.
      rewrite (ksum_ext N1 _ (fun v' => kb (v =? v')%nat *c ((real (K u u') +c kb (u =? u')%nat *c real (wgt ns U o u v)) *c forth psi u' v') +c kb (u =? u')%nat *c (real (K v v') *c forth psi u' v'))).
      + rewrite ksum_add, (ksum_single N1 v (fun v' => kb (v =? v')%nat *c _) Hv), ksum_mul_l.
        * rewrite Nat.eqb_refl. cbn [kb]. ring.
        * intros v' _ NE. rewrite (proj2 (Nat.eqb_neq v v')) by auto. cbn [kb]. ring.
      + intros v' Hv'. rewrite ent_pairs by assumption. unfold forth. ring.
  Qed.
  Lemma inner_pairs a b : inner N a b = ksum N1 (fun u => ksum N1 (fun v => conj (a (pos u v)) *c b (pos u v))).
  Proof using sec. unfold inner. apply sum_pairs. Qed.
  Variable e : R.
  Hypothesis sm : smallest e E.
  Lemma low_tight W : ener N1 ns K U o W <= e * nrm N1 W -> eig N1 ns K U o e W.
  Proof using att sec made basis sm.
    intros L.
    assert (FB : forall u v, (u < N1)%nat -> (v < N1)%nat -> forth (back W) u v = W u v) by (intros; apply back_pos; assumption).
    assert (ST : state_of N H e (back W)).
    { apply (lowest_state H V E N basis rows); [exact sm|]. unfold expect, norm2. rewrite !inner_pairs.
      rewrite (ksum_ext N1 _ (fun u => ksum N1 (fun v => conj (W u v) *c hm N1 ns K U o W u v))).
      - rewrite (ksum_ext N1 (fun u => ksum N1 (fun v => conj (back W (pos u v)) *c back W (pos u v))) (fun u => ksum N1 (fun v => conj (W u v) *c W u v))); [exact L|].
        intros u Hu. apply ksum_ext. intros v Hv. rewrite !back_pos by assumption. reflexivity.
      - intros u Hu. apply ksum_ext. intros v Hv. rewrite back_pos, apply_pairs by assumption. f_equal. apply hm_ext; assumption. }
    intros u v Hu Hv. specialize (ST (pos u v) (proj1 (pos_spec u v Hu Hv))). rewrite apply_pairs, back_pos in ST by assumption.
    rewrite <- (hm_ext N1 ns K U o (forth (back W)) W u v Hu Hv FB). exact ST.
  Qed.
  Lemma state_eig psi : state_of N H e psi -> eig N1 ns K U o e (forth psi).
  Proof using att sec made. intros ST u v Hu Hv. rewrite <- apply_pairs by assumption. apply ST, pos_spec; assumption. Qed.

  (** One positive matrix gives all ground states. *)
  Theorem lieb_matrix : exists G : nat -> nat -> R,
    (forall u v, (u < N1)%nat -> (v < N1)%nat -> G u v = G v u) /\ definite N1 1 (fun u v => real (G u v)) /\
    state_of N H e (fun p => real (G (hi p) (lo p))) /\
    (forall psi, state_of N H e psi -> exists z, forall p, (p < N)%nat -> psi p = z *c real (G (hi p) (lo p))).
  Proof using att conn sec made basis sm.
    destruct (attract N1 ns K U o e K_sym U_neg o_apart K_step low_tight) as (G & EG & SG & DG & UG).
    - destruct sm as (IE & _). destruct (In_nth E e 0 IE) as (k & Hk & Ek). exists (forth (col V k)).
      split; [apply state_eig; rewrite <- Ek; apply (col_state H V E N basis rows); exact Hk|]. intros Z.
      destruct basis as ((L & _) & ON & _). pose proof (ON k k ltac:(lia) ltac:(lia)) as O2. rewrite rows, Nat.eqb_refl, inner_pairs in O2.
      rewrite ksum_zero in O2; [apply (f_equal fst) in O2; cbn in O2; lra|]. intros u Hu. apply ksum_zero. intros v Hv. specialize (Z u v Hu Hv). unfold forth in Z. rewrite Z. ring.
    - exists G. split; [exact SG|]. split; [exact DG|]. split.
      + intros p Hp. rewrite <- (pos_back p Hp). destruct (hi_spec p Hp) as (L1 & _). destruct (lo_spec p Hp) as (L2 & _). rewrite apply_pairs, hi_pos, lo_pos by assumption.
        change (real (G (hi p) (lo p))) with ((fun u v => real (G u v)) (hi p) (lo p)). etransitivity; [|apply (EG (hi p) (lo p) L1 L2)]. apply hm_ext; try assumption. intros u v Hu Hv. unfold forth. rewrite hi_pos, lo_pos by assumption. reflexivity.
      + intros psi ST. destruct (UG _ (state_eig psi ST)) as (z & Q). exists z. intros p Hp. rewrite <- (pos_back p Hp) at 1. apply Q; [apply hi_spec | apply lo_spec]; exact Hp.
  Qed.
  Theorem lieb_unique k j : (k < length E)%nat -> (j < length E)%nat -> nth k E 0 = e -> nth j E 0 = e -> k = j.
  Proof using att conn sec made basis sm.
    intros Hk Hj Ek Ej. destruct (Nat.eq_dec k j) as [|NE]; [assumption|exfalso]. destruct lieb_matrix as (G & _ & _ & _ & UG).
    pose proof (col_state H V E N basis rows k Hk) as Sk. pose proof (col_state H V E N basis rows j Hj) as Sj. rewrite Ek in Sk. rewrite Ej in Sj.
    destruct (UG _ Sk) as (y & Qy). destruct (UG _ Sj) as (z & Qz).
    destruct basis as ((L & _) & ON & _). pose proof (ON k j ltac:(lia) ltac:(lia)) as O1. pose proof (ON k k ltac:(lia) ltac:(lia)) as O2. pose proof (ON j j ltac:(lia) ltac:(lia)) as O3. rewrite rows in *.
    rewrite Nat.eqb_refl in O2, O3. rewrite (proj2 (Nat.eqb_neq k j) NE) in O1. cbn [kb] in *.
    set (w := fun p => real (G (hi p) (lo p))) in *.
    rewrite (inner_ext N _ (fun p => y *c w p) _ (fun p => y *c w p)) in O2 by assumption.
    rewrite (inner_ext N _ (fun p => z *c w p) _ (fun p => z *c w p)) in O3 by assumption.
    rewrite (inner_ext N _ (fun p => y *c w p) _ (fun p => z *c w p)) in O1 by assumption.
    rewrite inner_scale, inner_scale_l in O1, O2, O3.
    assert (X : conj z *c (z *c inner N w w) *c (conj y *c (y *c inner N w w)) = (conj y *c (z *c inner N w w)) *c (conj z *c (y *c inner N w w))) by ring.
    assert (O1' : z *c (conj y *c inner N w w) = c0) by exact O1.
    assert (X1 : conj z *c (z *c inner N w w) = c1) by (rewrite <- O3; ring). assert (X2 : conj y *c (y *c inner N w w) = c1) by (rewrite <- O2; ring).
    assert (X3 : conj y *c (z *c inner N w w) = c0) by (rewrite <- O1'; ring).
    rewrite X1, X2, X3 in X. apply (f_equal fst) in X. cbn in X. lra.
  Qed.
End Run.

(** Fermions with a fixed number of particles of every species. *)
From Coq Require Import List Arith Lia Reals Lra ZArith QArith Qabs Bool Permutation.
From Verif Require Import Scalars Res Matrix Sums SqMat SpecMat SpecFock OpsProofs FockProofs FermiOps ModelBase ModelFermions ModelSpins SpecSpins Digits SpinOps SpinAlg SpinSwap SpinJordan HamProofs FermiApi SpecPerm
  ModelGeometry ModelPhase ModelSymmetry SymBase ModelThermal SpecThermal ThermalBase ThermalFacts ThermalBasis Spectral Thermo SpecHeat SpecConvex Convex SpecSigns Signs SignsHeat SignsSpins SpecSectors Perron Sectors HopSigns SpecShells.
Import ListNotations.
Local Open Scope R_scope.

(** Equal sums: where two rows of digits differ first, a later digit makes up for it. *)
Lemma later_digit (u v : nat -> nat) n k : (forall p, u p < 2)%nat -> (forall p, v p < 2)%nat -> (k < n)%nat -> (forall p, (p < k)%nat -> u p = v p) ->
  list_sum (map u (seq 0 n)) = list_sum (map v (seq 0 n)) -> u k <> v k -> exists j, (k < j < n)%nat /\ u j = v k.
Proof.
  intros Bu Bv Hk Q SS N. destruct (Exists_dec (fun j => u j = v k) (seq (S k) (n - k - 1)) ltac:(intros j; apply Nat.eq_dec)) as [X|X].
  - apply Exists_exists in X as (j & Hj & Ej). apply in_seq in Hj. exists j. split; [lia | exact Ej].
  - exfalso. assert (AW : forall j, In j (seq (S k) (n - k - 1)) -> u j = u k).
    { intros j Hj. assert (u j <> v k) by (intros W; apply X, Exists_exists; exists j; split; assumption). pose proof (Bu j). pose proof (Bu k). pose proof (Bv k). lia. }
    assert (LA : forall x y : list nat, list_sum (x ++ y) = (list_sum x + list_sum y)%nat) by apply list_sum_app.
    replace n with (k + (1 + (n - k - 1)))%nat in SS by lia. rewrite !seq_app, !map_app, !LA in SS. rewrite (map_ext_in u v (seq 0 k)) in SS by (intros p Hp; apply in_seq in Hp; apply Q; lia).
    cbn [Nat.add seq map] in SS. change (list_sum [?x]) with (x + 0)%nat in SS. rewrite (Nat.add_1_r k) in SS.
    assert (C : forall l, (forall j, In j l -> u j = u k) -> list_sum (map u l) = (u k * length l)%nat) by (induction l as [|j l IH]; intros W; [cbn; lia|]; cbn [map length]; change (list_sum (?x :: ?y)) with (x + list_sum y)%nat; rewrite IH by (intros; apply W; right; assumption); rewrite (W j) by (left; reflexivity); lia).
    assert (D : forall l, (list_sum (map v l) <= length l)%nat) by (induction l as [|j l IH]; [cbn; lia|]; cbn [map length]; change (list_sum (?x :: ?y)) with (x + list_sum y)%nat; pose proof (Bv j); lia).
    rewrite (C _ AW) in SS. pose proof (D (seq (S k) (n - k - 1))) as D'. pose proof (Bu k). pose proof (Bv k). assert (u k = 0 \/ u k = 1)%nat as [Z|Z] by lia; rewrite Z in *; lia.
Qed.
(** A permutation of the digits of a list keeps their sum. *)
Lemma swap_sum n i j a l : (i < n)%nat -> (j < n)%nat -> NoDup l -> (forall p, In p l -> (p < n)%nat) -> (In i l <-> In j l) ->
  list_sum (map (fun p => digit 2 n p (pull 2 n (exchange i j) a)) l) = list_sum (map (fun p => digit 2 n p a) l).
Proof.
  intros Hi Hj ND B CL. rewrite (map_ext_in _ (fun p => digit 2 n (exchange i j p) a)) by (intros p Hp; apply digit_pull; [discriminate | apply B, Hp]).
  rewrite <- (map_map (exchange i j) (fun p => digit 2 n p a)). apply sum_perm, Permutation_map.
  assert (ST : forall p, In p l -> In (exchange i j p) l). { intros p Hp. unfold exchange. destruct (Nat.eqb_spec p i) as [->|]; [tauto|]. destruct (Nat.eqb_spec p j) as [->|]; [tauto | exact Hp]. }
  apply NoDup_Permutation.
  - apply FinFun.Injective_map_NoDup; [|exact ND]. intros p q Q. rewrite <- (exchange_inv i j p), Q. apply exchange_inv.
  - exact ND.
  - intros p. rewrite in_map_iff. split; [intros (q & <- & Hq); apply ST, Hq|]. intros Hp. exists (exchange i j p). split; [apply exchange_inv | apply ST, Hp].
Qed.
Lemma ksum_sign_pos w (F : nat -> CR) n k : (forall d, (d < n)%nat -> snd (F d) = 0 /\ 0 <= w * fst (F d)) -> (k < n)%nat -> 0 < w * fst (F k) -> 0 < w * fst (ksum n F).
Proof.
  induction n as [|p IH]; intros T Hk Pk; [lia|]. cbn [ksum]. change (fst (ksum p F +c F p)) with (fst (ksum p F) + fst (F p)). rewrite Rmult_plus_distr_l.
  destruct (ksum_sign w F p ltac:(intros; apply T; lia)) as (_ & A). destruct (T p ltac:(lia)) as (_ & B). destruct (Nat.eq_dec k p) as [->|]; [lra|]. specialize (IH ltac:(intros; apply T; lia) ltac:(lia) Pk). lra.
Qed.
Lemma sign_even k : Nat.Even k -> ksign (K:=CR) k = c1.
Proof. intros E. apply Nat.even_spec in E. exact (ksign_same (K:=CR) k 0 E). Qed.

Section Shell.
  Variables (f : fermions CR) (part : nat -> bool) (counts : list nat) (P : mat CR) (idx : list nat) (H : mat CR).
  Notation ns := (fg_nsites (f_geom f)).
  Notation m := (f_nspecies f).
  Notation nl := (ns * m)%nat.
  Notation D := (2 ^ (ns * m))%nat.
  Notation dg p a := (digit 2 nl p a).
  Notation eps := (state_sign part nl).
  Notation N := (length idx).
  Notation at_ p := (nth p idx 0%nat).
  Notation swp i j a := (pull 2 nl (exchange i j) a).
  Notation orb s i := (ns * s + i)%nat.
  (** Configurations of the shell. *)
  Definition full (a : nat) : Prop := (a < D)%nat /\ forall s, (s < m)%nat -> list_sum (map (fun i => dg (orb s i) a) (seq 0 ns)) = nth s counts 0%nat.
  Lemma orb_lt s i : (s < m)%nat -> (i < ns)%nat -> (orb s i < nl)%nat. Proof using. intros. nia. Qed.
  Lemma species_sum a s : (s < m)%nat -> occ_species nl ns a s = list_sum (map (fun i => dg (orb s i) a) (seq 0 ns)).
  Proof using.
    intros Hs. unfold occ_species. assert (G : forall l, (forall i, In i l -> (i < ns)%nat) -> length (filter (fun i => occ nl a (orb s i)) l) = list_sum (map (fun i => dg (orb s i) a) l)).
    { induction l as [|i l IH]; intros B; [reflexivity|]. cbn [filter map]. change (list_sum (?x :: ?y)) with (x + list_sum y)%nat. rewrite <- (IH ltac:(intros; apply B; right; assumption)), <- (occ_digit nl a (orb s i)) by (apply orb_lt; [exact Hs | apply B; left; reflexivity]). destruct (occ nl a (orb s i)); reflexivity. }
    apply G. intros i Hi. apply in_seq in Hi. lia.
  Qed.
  (** Particles passed. *)
  Lemma passed a s i j : full a -> (s < m)%nat -> (j < i < ns)%nat -> passes_even ns (nth s counts 0%nat) i j -> dg (orb s i) a <> dg (orb s j) a -> Nat.Even (between nl (orb s i) (orb s j) a).
  Proof using.
    intros (Ha & C) Hs Hij PE NE. specialize (C s Hs). rewrite between_sym. unfold between. set (u := fun i => dg (orb s i) a) in *.
    assert (B : forall p, (u p < 2)%nat) by (intros p; apply bit).
    assert (LA : forall x y : list nat, list_sum (x ++ y) = (list_sum x + list_sum y)%nat) by apply list_sum_app.
    assert (SH : map (fun x => dg x a) (seq (S (orb s j)) (orb s i - orb s j - 1)) = map u (seq (S j) (i - j - 1))).
    { unfold u. replace (orb s i - orb s j - 1)%nat with (i - j - 1)%nat by lia. generalize (i - j - 1)%nat as k. intros k. replace (S (orb s j)) with (orb s (S j)) by lia. generalize (S j) as q. induction k as [|k IH]; intros q; [reflexivity|]. cbn [seq map]. f_equal. rewrite <- IH. do 2 f_equal. lia. }
    replace (Nat.min (orb s j) (orb s i)) with (orb s j) by lia. replace (Nat.max (orb s j) (orb s i)) with (orb s i) by lia. rewrite SH.
    assert (SP : list_sum (map u (seq 0 ns)) = (list_sum (map u (seq 0 j)) + (u j + (list_sum (map u (seq (S j) (i - j - 1))) + (u i + list_sum (map u (seq (S i) (ns - i - 1)))))))%nat).
    { replace ns with (j + (1 + ((i - j - 1) + (1 + (ns - i - 1)))))%nat at 1 by lia. rewrite !seq_app, !map_app, !LA. cbn [seq map Nat.add]. change (list_sum [?x]) with (x + 0)%nat. replace (j + 1)%nat with (S j) by lia. replace (S j + (i - j - 1))%nat with i by lia. replace (i + 1)%nat with (S i) by lia. lia. }
    assert (O : (u i + u j = 1)%nat) by (pose proof (B i); pose proof (B j); unfold u in *; lia).
    destruct PE as [->|[(-> & E & OD)|LE]].
    - replace (S j - j - 1)%nat with 0%nat by lia. exists 0%nat. reflexivity.
    - rewrite C in SP. replace (ns - i - 1)%nat with 0%nat in SP by lia. cbn [seq map list_sum fold_right] in SP. destruct OD as (k & OD). exists k. lia.
    - rewrite C in SP. exists 0%nat. lia.
  Qed.
  (** Exchanges of orbitals of one species stay in the shell. *)
  Lemma swap_full a s i j : full a -> (s < m)%nat -> (i < ns)%nat -> (j < ns)%nat -> full (swp (orb s i) (orb s j) a).
  Proof using.
    intros (Ha & C) Hs Hi Hj. split; [apply pull_lt; discriminate|]. intros s' Hs'. rewrite <- (C s' Hs').
    rewrite <- (map_map (fun i => orb s' i) (fun p => dg p (swp (orb s i) (orb s j) a))), <- (map_map (fun i => orb s' i) (fun p => dg p a)). apply swap_sum; try (apply orb_lt; assumption).
    - apply FinFun.Injective_map_NoDup; [|apply seq_NoDup]. intros p q Q. lia.
    - intros p Hp. apply in_map_iff in Hp as (q & <- & Hq). apply in_seq in Hq. apply orb_lt; lia.
    - rewrite !in_map_iff. split; intros (q & Q & Hq); apply in_seq in Hq; assert (s' = s) by nia; subst s'; [exists j | exists i]; (split; [reflexivity | apply in_seq; lia]).
  Qed.
  Hypothesis sec : shell ns m counts P idx.
  Lemma at_full p : (p < N)%nat -> full (at_ p).
  Proof using sec. intros Hp. destruct sec as (_ & _ & I). destruct (proj1 (I _) (nth_In idx 0%nat Hp)) as (A & B). split; [exact A|]. intros s Hs. rewrite <- species_sum by exact Hs. apply B, Hs. Qed.
  Lemma shell_inj p q : (p < N)%nat -> (q < N)%nat -> at_ p = at_ q -> p = q.
  Proof using sec. intros Hp Hq Q. destruct sec as (_ & ND & _). apply (proj1 (NoDup_nth idx 0%nat) ND); assumption. Qed.
  Lemma full_at a : full a -> exists p, (p < N)%nat /\ at_ p = a.
  Proof using sec.
    intros (Ha & C). destruct sec as (_ & _ & I). destruct (In_nth idx a 0%nat) as (p & Hp & E); [|exists p; auto]. apply I. split; [exact Ha|]. intros s Hs. rewrite species_sum by exact Hs. apply C, Hs.
  Qed.
  Lemma shell_signs : signs N (fun p => eps (at_ p)).
  Proof using sec. intros p Hp. apply (state_signs part nl). apply at_full, Hp. Qed.

  Hypothesis us : us_ok f.
  Hypothesis made : createH f (Some P) = Ok H.
  Notation F := (HS2 f (amplitude f)).
  Lemma shell_ent : nrow H = N /\ ncol H = N /\ forall a b, (a < N)%nat -> (b < N)%nat -> ent H a b = F (at_ a) (at_ b).
  Proof using sec us made.
    destruct sec as ((R1 & R2 & R3) & ND & I). destruct (createH_ok f (Some P) R2 us) as (H' & E' & (S1 & S2) & W). rewrite made in E'. injection E' as <-. cbn [the_proj] in *.
    split; [congruence|]. split; [congruence|]. intros a b Ha Hb. rewrite W. transitivity (HS f (at_ a) (at_ b)); [|exact (HS_HS2 f (at_ a) (at_ b))].
    apply (sand_rows D P idx (HS f) a b); [split; [exact R1|]; split; [exact R2 | exact R3] | intros k Hk; apply I, Hk | exact Ha | exact Hb].
  Qed.
  (** Numbers of particles do not change states. *)
  Lemma Nn_off p a b : (p < nl)%nat -> (a < D)%nat -> (b < D)%nat -> a <> b -> Nn (K:=CR) nl p a b = c0.
  Proof using. intros Hp Ha Hb NE. rewrite (n_entry nl p Hp a b Ha Hb). cbn [n_spec ent]. rewrite (proj2 (Nat.eqb_neq a b) NE). reflexivity. Qed.
  Lemma NN_off p r a b : (p < nl)%nat -> (r < nl)%nat -> (a < D)%nat -> (b < D)%nat -> a <> b -> smul (N:=D) (Nn (K:=CR) nl p) (Nn nl r) a b = c0.
  Proof using.
    intros Hp Hr Ha Hb NE. unfold smul. apply ksum_zero. intros c Hc. destruct (Nat.eq_dec a c) as [<-|NC]; [rewrite (Nn_off r a b) by assumption; ring | rewrite (Nn_off p a c) by assumption; ring].
  Qed.
  Lemma off_diagonal a b : (a < D)%nat -> (b < D)%nat -> a <> b ->
    F a b = ksum ns (fun i => ksum i (fun j => ksum m (fun s => kopp (amplitude f i j s *c hop f (orb s i) (orb s j) a b)))).
  Proof using us.
    intros Ha Hb NE. unfold HS2. change (nlog (f_sys f)) with nl. unfold lsite. change (s_nsites (f_sys f)) with ns.
    rewrite (ksum_zero ns (fun i => kmul (f_us f i) (smul (N:=D) (Nn nl (ns * 0 + i)) (Nn nl (ns * 1 + i)) a b))).
    2:{ intros i Hi. destruct us as [M|Z]; [rewrite NN_off by (assumption || nia); ring | rewrite (Z i Hi); apply injective_projections; cbn; ring]. }
    rewrite (ksum_zero ns (fun i => ksum (S i) (fun j => ksum m (fun k => kmul (f_same f i j k) (smul (N:=D) (Nn nl (orb k i)) (Nn nl (orb k j)) a b))))).
    2:{ intros i Hi. apply ksum_zero. intros j Hj. apply ksum_zero. intros k Hk. rewrite NN_off by (assumption || nia). ring. }
    rewrite (ksum_zero ns (fun i => ksum m (fun k => kmul (f_mus f k) (Nn nl (orb k i) a b)))) by (intros i Hi; apply ksum_zero; intros k Hk; rewrite Nn_off by (assumption || nia); ring).
    rewrite (ksum_zero ns (fun i => ksum m (fun k => kmul (f_pot f i k) (Nn nl (orb k i) a b)))) by (intros i Hi; apply ksum_zero; intros k Hk; rewrite Nn_off by (assumption || nia); ring).
    apply injective_projections; cbn; ring.
  Qed.
  (** Hopping between two orbitals exchanges them. *)
  Lemma one_way p r a b : p <> r -> (p < nl)%nat -> (r < nl)%nat -> (a < D)%nat -> (b < D)%nat ->
    smul (N:=D) (Cd nl p) (Ca nl r) a b = (if agree_off 2 nl [p; r] a b && ((dg p a =? 1) && (dg r a =? 0) && (dg p b =? 0) && (dg r b =? 1))%nat then ksign (between nl p r a) else c0 : CR).
  Proof using.
    intros NE Hp Hr Ha Hb. rewrite (hop_elem nl p r a b) by assumption. unfold pair_elem. destruct (agree_off 2 nl [p; r] a b); [|apply injective_projections; cbn; ring].
    destruct (digit2_cases nl p a) as [-> | ->], (digit2_cases nl p b) as [-> | ->], (digit2_cases nl r a) as [-> | ->], (digit2_cases nl r b) as [-> | ->]; cbn [Nat.eqb andb ent cdag_op c_op]; cbn; apply injective_projections; cbn; ring.
  Qed.
  Lemma hop_values p r a b : p <> r -> (p < nl)%nat -> (r < nl)%nat -> (a < D)%nat -> (b < D)%nat ->
    hop f p r a b = (if agree_off 2 nl [p; r] a b && (negb (dg p a =? dg r a) && (dg p b =? dg r a) && (dg r b =? dg p a))%nat then ksign (between nl p r a) else c0 : CR).
  Proof using.
    intros NE Hp Hr Ha Hb. unfold hop, sadd. change (nlog (f_sys f)) with nl. rewrite (one_way p r), (one_way r p) by auto. rewrite (between_sym nl r p).
    replace (agree_off 2 nl [r; p] a b) with (agree_off 2 nl [p; r] a b) by (apply bool_eq_iff; rewrite !agree_off_spec; split; intros W x Hx NI; apply W; try exact Hx; intros [X|[X|[]]]; apply NI; cbn; auto).
    destruct (agree_off 2 nl [p; r] a b); [|apply injective_projections; cbn; ring].
    destruct (digit2_cases nl p a) as [-> | ->], (digit2_cases nl p b) as [-> | ->], (digit2_cases nl r a) as [-> | ->], (digit2_cases nl r b) as [-> | ->]; cbn [Nat.eqb andb negb]; ring.
  Qed.
  Hypothesis ord : orderly part f counts.
  Lemma term_sign a b i j s : full a -> (b < D)%nat -> (j < i < ns)%nat -> (s < m)%nat ->
    snd (kopp (amplitude f i j s *c hop f (orb s i) (orb s j) a b)) = 0 /\ 0 <= (- (eps a * eps b)) * fst (kopp (amplitude f i j s *c hop f (orb s i) (orb s j) a b)).
  Proof using ord.
    clear sec us made. intros FA Hb Hij Hs. destruct FA as (Ha & C). destruct (ord i j s Hij Hs) as (t & At & Sg & PE). pose proof (orb_lt s i Hs ltac:(lia)) as Hp. pose proof (orb_lt s j Hs ltac:(lia)) as Hr.
    rewrite hop_values by (assumption || lia). destruct (agree_off 2 nl [orb s i; orb s j] a b) eqn:AG; cbn [andb].
    2:{ cbn. split; [ring|]. right. ring. }
    destruct (Nat.eqb_spec (dg (orb s i) a) (dg (orb s j) a)) as [Q|Q]; cbn [negb andb]; [cbn; split; [ring | right; ring]|].
    destruct (Nat.eqb_spec (dg (orb s i) b) (dg (orb s j) a)) as [Q1|Q1]; cbn [andb]; [|cbn; split; [ring | right; ring]].
    destruct (Nat.eqb_spec (dg (orb s j) b) (dg (orb s i) a)) as [Q2|Q2]; cbn [andb]; [|cbn; split; [ring | right; ring]].
    rewrite (sign_flips part nl (orb s i) (orb s j) a b Hp Hr ltac:(lia) AG) by congruence. rewrite At.
    destruct (Req_EM_T t 0) as [->|NT]; [|rewrite sign_even by (apply passed; auto; split; auto)].
    - destruct (ksign (K:=CR) (between nl (orb s i) (orb s j) a)) as (x, y). cbn. split; [ring | right; ring].
    - cbn. split; [ring|]. lra.
  Qed.
  Theorem shell_lowers : lowers N (fun p => eps (at_ p)) H.
  Proof using sec us made ord.
    intros a b Ha Hb NE. destruct shell_ent as (_ & _ & W). rewrite (W a b Ha Hb). pose proof (at_full a Ha) as FA. pose proof (at_full b Hb) as FB. rewrite off_diagonal by (apply FA || apply FB || (intros Q; apply NE, shell_inj; assumption)).
    set (w := - (eps (at_ a) * eps (at_ b))). match goal with |- snd ?x = 0 /\ _ => assert (G : snd x = 0 /\ 0 <= w * fst x) end; [|unfold w in G; lra].
    apply ksum_sign. intros i Hi. apply ksum_sign. intros j Hj. apply ksum_sign. intros s Hs. apply term_sign; try assumption; try lia. apply FB.
  Qed.
  Lemma swap_entry_nz a s i j : full a -> (s < m)%nat -> (j < i < ns)%nat -> amplitude f i j s <> (0, 0) -> dg (orb s i) a <> dg (orb s j) a -> F a (swp (orb s i) (orb s j) a) <> (0, 0).
  Proof using us.
    clear sec made. intros FA Hs Hij NZ NE. set (b := swp (orb s i) (orb s j) a). pose proof (orb_lt s i Hs ltac:(lia)) as Hp. pose proof (orb_lt s j Hs ltac:(lia)) as Hr. assert (Hb : (b < D)%nat) by (apply pull_lt; discriminate).
    assert (Di : dg (orb s i) b = dg (orb s j) a) by (unfold b; rewrite digit_pull by (discriminate || lia); rewrite exchange_l; reflexivity).
    assert (Dj : dg (orb s j) b = dg (orb s i) a) by (unfold b; rewrite digit_pull by (discriminate || lia); rewrite exchange_r; reflexivity).
    assert (OF : forall p, (p < nl)%nat -> p <> orb s i -> p <> orb s j -> dg p a = dg p b) by (intros p Hq N1 N2; unfold b; rewrite digit_pull by (discriminate || exact Hq); rewrite exchange_o by assumption; reflexivity).
    assert (AG : agree_off 2 nl [orb s i; orb s j] a b = true) by (rewrite agree_off_spec; intros p Hq NI; apply OF; [exact Hq | |]; intros ->; apply NI; cbn; auto).
    assert (Nab : a <> b) by (intros Q; apply NE; rewrite <- Di, <- Q; reflexivity).
    assert (EL : forall i' j' s', (j' < i' < ns)%nat -> (s' < m)%nat -> ~ (i' = i /\ j' = j /\ s' = s) -> kopp (amplitude f i' j' s' *c hop f (orb s' i') (orb s' j') a b) = c0).
    { intros i' j' s' Hij' Hs' NQ. pose proof (orb_lt s' i' Hs' ltac:(lia)) as Hp'. pose proof (orb_lt s' j' Hs' ltac:(lia)) as Hr'. rewrite hop_values by (apply FA || assumption || lia).
      destruct (agree_off 2 nl [orb s' i'; orb s' j'] a b); cbn [andb]; [|ring].
      destruct (Nat.eqb_spec (dg (orb s' i') a) (dg (orb s' j') a)) as [Q|Q]; cbn [negb andb]; [ring|].
      destruct (Nat.eqb_spec (dg (orb s' i') b) (dg (orb s' j') a)) as [Q1|Q1]; cbn [andb]; [|ring].
      destruct (Nat.eqb_spec (dg (orb s' j') b) (dg (orb s' i') a)) as [Q2|Q2]; cbn [andb]; [|ring]. exfalso.
      assert (X1 : orb s' i' = orb s i \/ orb s' i' = orb s j) by (destruct (Nat.eq_dec (orb s' i') (orb s i)); [auto|]; destruct (Nat.eq_dec (orb s' i') (orb s j)); [auto|]; pose proof (OF _ Hp' ltac:(assumption) ltac:(assumption)); congruence).
      assert (X2 : orb s' j' = orb s i \/ orb s' j' = orb s j) by (destruct (Nat.eq_dec (orb s' j') (orb s i)); [auto|]; destruct (Nat.eq_dec (orb s' j') (orb s j)); [auto|]; pose proof (OF _ Hr' ltac:(assumption) ltac:(assumption)); congruence).
      apply NQ. assert (s' = s) by nia. subst s'. lia. }
    rewrite off_diagonal by (apply FA || assumption).
    rewrite (ksum_single ns i) by (try lia; intros i' Hi' Ni'; apply ksum_zero; intros j' Hj'; apply ksum_zero; intros s' Hs'; apply EL; lia).
    rewrite (ksum_single i j) by (try lia; intros j' Hj' Nj'; apply ksum_zero; intros s' Hs'; apply EL; lia).
    rewrite (ksum_single m s) by (try lia; intros s' Hs' Ns'; apply EL; lia).
    rewrite hop_values by (apply FA || assumption || lia). rewrite AG, Di, Dj, !Nat.eqb_refl, (proj2 (Nat.eqb_neq _ _) NE). cbn [negb andb].
    assert (SG : forall k, ksign (K:=CR) k = c1 \/ ksign (K:=CR) k = kopp c1) by (induction k as [|k [IH|IH]]; [left; reflexivity | right | left]; cbn [ksign]; rewrite IH; apply injective_projections; cbn; ring).
    intros Z. apply NZ. destruct (SG (between nl (orb s i) (orb s j) a)) as [Q|Q]; rewrite Q in Z; destruct (amplitude f i j s) as (x, y); cbn in Z; injection Z as Z1 Z2; apply injective_projections; cbn; lra.
  Qed.
  (** Configurations of the shell that are joined. *)
  Definition hreaches (a b : nat) : Prop := forall p, (p < N)%nat -> at_ p = a -> exists q, (q < N)%nat /\ at_ q = b /\ joined N H p q.
  Lemma hreaches_trans a b c : hreaches a b -> hreaches b c -> hreaches a c.
  Proof using. intros R1 R2 p Hp Ep. destruct (R1 p Hp Ep) as (q & Hq & Eq & J1). destruct (R2 q Hq Eq) as (r & Hr & Er & J2). exists r. split; [exact Hr|]. split; [exact Er|]. exact (joined_trans _ _ _ _ _ J1 J2). Qed.
  Lemma hreaches_same a : hreaches a a. Proof using. intros p Hp Ep. exists p. split; [exact Hp|]. split; [exact Ep | constructor]. Qed.
  Lemma hop_reaches s i j a : (s < m)%nat -> (i < ns)%nat -> (j < ns)%nat -> hopping f s i j -> full a -> hreaches a (swp (orb s i) (orb s j) a).
  Proof using sec us made.
    assert (L : forall i j a, (s < m)%nat -> (j < i < ns)%nat -> amplitude f i j s <> (0, 0) -> full a -> hreaches a (swp (orb s i) (orb s j) a)).
    { clear i j a. intros i j a Hs Hij NZ FA. pose proof (orb_lt s i Hs ltac:(lia)) as Hp. pose proof (orb_lt s j Hs ltac:(lia)) as Hr. destruct (Nat.eq_dec (dg (orb s i) a) (dg (orb s j) a)) as [Q|Q]; [rewrite (swp_equal nl _ _ a (proj1 FA) Hp Hr Q); apply hreaches_same|].
      intros p Hp' Ep. destruct (full_at (swp (orb s i) (orb s j) a)) as (q & Hq & Eq); [apply swap_full; auto; lia|].
      exists q. split; [exact Hq|]. split; [exact Eq|]. apply (joined_step N H p p q); [constructor | exact Hp' | exact Hq|]. destruct shell_ent as (_ & _ & W). rewrite (W p q Hp' Hq), Ep, Eq. apply swap_entry_nz; assumption. }
    intros Hs Hi Hj (Nij & NZ) FA. destruct (lt_dec j i) as [O|O].
    - rewrite Nat.max_l, Nat.min_r in NZ by lia. apply L; auto.
    - rewrite Nat.max_r, Nat.min_l in NZ by lia. replace (swp (orb s i) (orb s j) a) with (swp (orb s j) (orb s i) a); [apply L; auto; lia|]. apply pull_ext; [discriminate|]. intros p _. unfold exchange. destruct (Nat.eqb_spec p (orb s i)), (Nat.eqb_spec p (orb s j)); congruence.
  Qed.
  Lemma linked_reaches s i j : (s < m)%nat -> (i < ns)%nat -> hop_linked f s i j -> (j < ns)%nat -> forall a, full a -> hreaches a (swp (orb s i) (orb s j) a).
  Proof using sec us made.
    intros Hs Hi L. induction L as [|k j L IH Hk Hj' EX]; intros Hj a FA; [rewrite (swp_same nl _ a (proj1 FA)); apply hreaches_same|].
    destruct (Nat.eq_dec i j) as [<-|Nj]; [rewrite (swp_same nl _ a (proj1 FA)); apply hreaches_same|]. destruct (Nat.eq_dec i k) as [<-|Nk]; [apply hop_reaches; assumption|].
    assert (Nkj : k <> j) by (destruct EX; assumption). rewrite <- (swp_over nl (orb s i) (orb s k) (orb s j) a (proj1 FA)) by (try (apply orb_lt; assumption); lia).
    pose proof (swap_full a s k j FA Hs Hk Hj) as F1. pose proof (swap_full _ s i k F1 Hs Hi Hk) as F2.
    apply (hreaches_trans _ (swp (orb s k) (orb s j) a)); [apply hop_reaches; assumption|]. apply (hreaches_trans _ (swp (orb s i) (orb s k) (swp (orb s k) (orb s j) a))); [apply IH; assumption | apply hop_reaches; assumption].
  Qed.
  Hypothesis conn : connected_hops f.
  Lemma shell_reaches a b : full a -> full b -> hreaches a b.
  Proof using sec us made conn.
    intros FA FB.
    assert (ST : forall x, (x <= nl)%nat -> exists c, full c /\ (forall p, (p < x)%nat -> dg p c = dg p b) /\ hreaches a c).
    { induction x as [|x IH]; intros Hx; [exists a; split; [exact FA|]; split; [intros; lia | apply hreaches_same]|].
      destruct (IH ltac:(lia)) as (c & FC & DC & RC). destruct (Nat.eq_dec (dg x c) (dg x b)) as [Q|Q].
      - exists c. split; [exact FC|]. split; [|exact RC]. intros p Hp. destruct (Nat.eq_dec p x) as [->|]; [exact Q | apply DC; lia].
      - assert (NZ : ns <> 0%nat) by nia. pose proof (Nat.div_mod x ns NZ) as X. pose proof (Nat.mod_upper_bound x ns NZ) as Hk. set (s := (x / ns)%nat) in *. set (k := (x mod ns)%nat) in *. assert (Hs : (s < m)%nat) by (apply Nat.div_lt_upper_bound; [exact NZ | lia]).
        destruct (later_digit (fun i => dg (orb s i) c) (fun i => dg (orb s i) b) ns k) as (j & Hj & Ej).
        + intros p. apply bit.
        + intros p. apply bit.
        + exact Hk.
        + intros p Hp. apply DC. lia.
        + rewrite (proj2 FC s Hs), (proj2 FB s Hs). reflexivity.
        + rewrite <- X. exact Q.
        + exists (swp (orb s k) (orb s j) c). split; [apply swap_full; auto; lia|]. split.
          * intros p Hp. rewrite digit_pull by (discriminate || lia). destruct (Nat.eq_dec p x) as [->|]; [rewrite X at 1; rewrite exchange_l; rewrite Ej, <- X; reflexivity|]. rewrite exchange_o by lia. apply DC. lia.
          * apply (hreaches_trans _ c); [exact RC|]. apply linked_reaches; try assumption; try lia. apply conn; lia. }
    destruct (ST nl (le_n nl)) as (c & FC & DC & RC). replace b with c; [exact RC|]. apply (digits_ext 2 ltac:(discriminate) nl); [apply FC | apply FB | exact DC].
  Qed.
  Theorem shell_joined p q : (p < N)%nat -> (q < N)%nat -> joined N H p q.
  Proof using sec us made conn.
    intros Hp Hq. destruct (shell_reaches _ _ (at_full p Hp) (at_full q Hq) p Hp eq_refl) as (r & Hr & Er & J). rewrite <- (shell_inj r q Hr Hq Er). exact J.
  Qed.
End Shell.

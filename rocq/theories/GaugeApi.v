(** Statements of C171 to C174 for the public functions. *)
From Coq Require Import List Arith Lia Reals Lra ZArith QArith Qabs Bool Permutation.
From Verif Require Import Scalars Res Matrix Sums SqMat SpecMat ModelBase ModelFermions HamProofs FermiApi
  ModelGeometry ModelPhase ModelSymmetry SymBase ModelThermal SpecThermal ThermalBase ThermalFacts ThermalBasis SpecFermiGas SpecHalf SpecEta SpecShells Shells Precess ModelFreeLattice SpecFreeLattice SpaceHubbard HalfLattice SpecGauge Gauge GaugeRun.
From Verif Require SymAverage ChainSpectrum.
Import ListNotations.
Local Open Scope R_scope.

(** ** C171 *)
Lemma quench_shape_ok st V E times Ms : quench st V E times = Ok Ms -> nrow V = nrow (as_columns st) /\ ncol V = length E.
Proof.
  unfold quench. intros EQ. destruct (Nat.eqb_spec (nrow V) (nrow (as_columns st))) as [A|A]; [|discriminate EQ]. destruct (Nat.eqb_spec (ncol V) (length E)) as [B|B]; [|discriminate EQ]. split; assumption.
Qed.
Theorem quench_unique H V V' E E' st times Ms : eigenbasis H V E -> eigenbasis H V' E' -> quench st V E times = Ok Ms ->
  exists Ms', quench st V' E' times = Ok Ms' /\ length Ms' = length Ms /\ forall k, (k < length Ms)%nat -> meq (nth k Ms (mzero 0 0)) (nth k Ms' (mzero 0 0)).
Proof.
  intros B B' EQ. destruct (quench_shape_ok _ _ _ _ _ EQ) as (S1 & S2). assert (same : nrow V' = nrow V) by (destruct B as ((_ & X & _) & _), B' as ((_ & X' & _) & _); congruence).
  destruct (quench_entries st V E times S1 S2) as (M0 & E0 & L0 & W0). rewrite EQ in E0. injection E0 as <-.
  destruct (quench_entries st V' E' times ltac:(congruence) ltac:(apply B')) as (Ms' & E1 & L1 & W1). exists Ms'. split; [exact E1|]. split; [congruence|]. intros k Hk.
  destruct (W0 k Hk) as (A1 & A2 & A3). destruct (W1 k ltac:(congruence)) as (C1 & C2 & C3). split; [congruence|]. split; [congruence|]. intros i a Hi Ha. rewrite A1 in Hi. rewrite A2 in Ha.
  rewrite A3, C3 by congruence. apply (evolve_unique H V V' E E'); assumption.
Qed.

(** ** C172 *)
Lemma regauged_us r w f f' : regauged r w f f' -> us_ok f -> us_ok f'.
Proof.
  intros (G & M & _ & _ & U & _) [A|Z]; [left; rewrite M; exact A|]. right. rewrite G. intros i Hi. rewrite (U i Hi), (Z i Hi). apply injective_projections; cbn; ring.
Qed.
Lemma regauged_sel r w f f' pr idx : regauged r w f f' -> selects f pr idx -> selects f' pr idx.
Proof. intros (G & M & _) S. unfold selects, f_sys in *. rewrite G, M. exact S. Qed.

Section Api.
  Variables (r : R) (w : nat -> nat -> R) (f f' : fermions CR) (pr : option (mat CR)) (idx : list nat) (H H' V V' : mat CR) (E E' : list R).
  Hypothesis rg : regauged r w f f'.
  Hypothesis us : us_ok f.
  Hypothesis sel : selects f pr idx.
  Hypothesis made : createH f pr = Ok H.
  Hypothesis made' : createH f' pr = Ok H'.
  Hypothesis basis : eigenbasis H V E.
  Hypothesis basis' : eigenbasis H' V' E'.
  Notation n := (length idx).
  Notation u p := (su f w (nth p idx 0%nat)).
  Lemma pm_of : forall i k, (i < fg_nsites (f_geom f))%nat -> (k < f_nspecies f)%nat -> w i k = 1 \/ w i k = -1. Proof using rg. apply rg. Qed.
  Lemma u_sq p : (p < n)%nat -> u p * u p = 1. Proof using rg. intros _. apply su_sq, pm_of. Qed.
  Lemma size_H : nrow H = n /\ ncol H = n. Proof using us sel made. destruct (sel_ent f pr idx sel H us made) as (A & B & _). split; assumption. Qed.
  Lemma ents' : nrow H' = n /\ ncol H' = n /\ forall p q, (p < n)%nat -> (q < n)%nat -> ent H' p q = real (r * (u p * u q)) *c ent H p q.
  Proof using rg us sel made made'.
    destruct (sel_ent f pr idx sel H us made) as (_ & _ & W). destruct (sel_ent f' pr idx (regauged_sel _ _ _ _ _ _ rg sel) H' (regauged_us _ _ _ _ rg us) made') as (A & B & W'). split; [exact A|]. split; [exact B|].
    intros p q Hp Hq. rewrite W, W' by assumption. apply (ham_gauge r w f f' _ _ rg us); apply (sel_lt f pr idx sel); assumption.
  Qed.
  Lemma rowsV : nrow V = n. Proof using us sel made basis. destruct basis as ((_ & X & _) & _). rewrite <- X. apply size_H. Qed.
  Theorem api_energies : Permutation (map (Rmult r) E) E'.
  Proof using rg us sel made made' basis basis'. destruct ents' as (A & B & C). exact (gauge_energies n (fun p => u p) r H H' V E u_sq rowsV A B C basis V' E' basis'). Qed.
  Theorem api_sorted : 0 <= r -> sorted_list E -> sorted_list E' -> E' = map (Rmult r) E.
  Proof using rg us sel made made' basis basis'.
    intros R0 S1 S2. symmetry. apply ChainSpectrum.sorted_same; [|exact S2|exact api_energies]. intros i j Hij. rewrite map_length in Hij. replace 0 with (r * 0) by ring. rewrite !(map_nth (Rmult r)). apply Rmult_le_compat_l; [exact R0|]. apply S1, Hij.
  Qed.
  Variables (A O : mat CR) (c : R).
  Hypothesis ms : measured f w A c.
  Hypothesis uo : used pr A O.
  Lemma op_ok : nrow O = n /\ ncol O = n /\ forall p q, (p < n)%nat -> (q < n)%nat -> real (u p * u q) *c ent O p q = real c *c ent O p q /\ conj (ent O p q) = ent O p q.
  Proof using rg sel ms uo.
    destruct (measured_ok f w pm_of A c ms) as (SQ & W). destruct (used_ent f pr idx sel A O SQ uo) as (O1 & O2 & Q). split; [exact O1|]. split; [exact O2|]. intros p q Hp Hq. rewrite Q by assumption. apply W; apply (sel_lt f pr idx sel); assumption.
  Qed.
  Theorem api_average T x : r <> 0 -> T <> 0 -> exp_vals_thermal V O E T = Ok x -> exp_vals_thermal V' O E' (r * T) = Ok (c * x).
  Proof using rg us sel made made' basis basis' ms uo.
    destruct ents' as (R1 & R2 & W). destruct op_ok as (O1 & O2 & WO). exact (gauge_average n (fun p => u p) r H H' V E u_sq rowsV R1 R2 W basis O c (fun p q Hp Hq => proj1 (WO p q Hp Hq)) V' E' basis' O1 O2 T x).
  Qed.
  Theorem api_cold x : r = 1 -> sorted_list E -> sorted_list E' -> apart gap13 E -> exp_vals_thermal V O E 0 = Ok x -> exp_vals_thermal V' O E' 0 = Ok (c * x).
  Proof using rg us sel made made' basis basis' ms uo.
    destruct ents' as (R1 & R2 & W). destruct op_ok as (O1 & O2 & WO). exact (gauge_cold n (fun p => u p) r H H' V E u_sq rowsV R1 R2 W basis O c (fun p q Hp Hq => proj1 (WO p q Hp Hq)) V' E' basis' O1 O2 x).
  Qed.
  Lemma rowsV' : nrow V' = n. Proof using rg us sel made made' basis'. destruct ents' as (R1 & _). destruct basis' as ((_ & X & _) & _). rewrite <- X. exact R1. Qed.
  Variables (st : states) (k : nat).
  Hypothesis Hk : (k < ncol (as_columns st))%nat.
  Hypothesis single : single_config (as_columns st) k.
  Lemma single_n times Ms F W : nrow W = n -> quench st W F times = Ok Ms -> exists p0, forall q, (q < n)%nat -> q <> p0 -> col (as_columns st) k q = c0.
  Proof using single. intros RW EQ. destruct (quench_shape_ok _ _ _ _ _ EQ) as (S1 & _). destruct single as (p0 & S). exists p0. intros q Hq NE. apply S; [rewrite <- S1, RW; exact Hq | exact NE]. Qed.
  Theorem api_motion times Ms Ms' x : quench st V E (map (Rmult r) times) = Ok Ms -> quench st V' E' times = Ok Ms' ->
    exp_vals (Columns (nth k Ms (mzero 0 0))) O = Ok x -> exp_vals (Columns (nth k Ms' (mzero 0 0))) O = Ok (map (Rmult c) x).
  Proof using rg us sel made made' basis basis' ms uo Hk single.
    intros E1 E2 EX. destruct ents' as (R1 & R2 & W). destruct op_ok as (O1 & O2 & WO). pose proof rowsV as RV. pose proof rowsV' as RV'. destruct (single_n _ _ _ _ RV' E2) as (p0 & S).
    rewrite (path_of V E st _ Ms k O E1 Hk ltac:(congruence) ltac:(congruence)) in EX. injection EX as <-. rewrite (path_of V' E' st times Ms' k O E2 Hk ltac:(congruence) ltac:(congruence)). f_equal. rewrite map_length, map_map. apply map_ext_in. intros a Ha.
    rewrite RV, RV'. rewrite (gauge_path n (fun p => u p) r H H' V E u_sq RV R1 R2 W basis O c (fun p q Hp Hq => proj1 (WO p q Hp Hq)) V' E' basis' _ p0 _ S). rewrite <- (map_nth (Rmult r)). replace (Rmult r 0) with 0 by ring. reflexivity.
  Qed.
  Theorem api_reversed times Ms Ms' x : r = -1 -> quench st V E times = Ok Ms -> quench st V' E' times = Ok Ms' ->
    exp_vals (Columns (nth k Ms (mzero 0 0))) O = Ok x -> exp_vals (Columns (nth k Ms' (mzero 0 0))) O = Ok (map (Rmult c) x).
  Proof using rg us sel made made' basis basis' ms uo Hk single.
    intros R E1 E2 EX. destruct ents' as (R1 & R2 & W). destruct op_ok as (O1 & O2 & WO). pose proof rowsV as RV. pose proof rowsV' as RV'. destruct (single_n _ _ _ _ RV' E2) as (p0 & S).
    rewrite (path_of V E st _ Ms k O E1 Hk ltac:(congruence) ltac:(congruence)) in EX. injection EX as <-. rewrite (path_of V' E' st times Ms' k O E2 Hk ltac:(congruence) ltac:(congruence)). f_equal. rewrite map_map. apply map_ext_in. intros a Ha.
    rewrite RV, RV'. rewrite (gauge_path n (fun p => u p) r H H' V E u_sq RV R1 R2 W basis O c (fun p q Hp Hq => proj1 (WO p q Hp Hq)) V' E' basis' _ p0 _ S). f_equal. rewrite R. replace (-1 * nth a times 0) with (- nth a times 0) by ring.
    apply (back_and_forth n H V O E RV) with (p0 := p0); [|intros p q Hp Hq; apply WO; assumption | exact basis | exact S].
    intros p q Hp Hq. destruct (sel_ent f pr idx sel H us made) as (_ & _ & WH). pose proof (SymAverage.eigenbasis_hermitian H V E basis) as HM. rewrite RV in HM. rewrite (HM p q Hp Hq) at 2. f_equal. rewrite !WH by assumption. apply (ham_sym f); [exact us| |]; apply (sel_lt f pr idx sel); assumption.
  Qed.
End Api.

(** ** C173 and C174 *)
Lemma opposite_regauged side f f' : two_coloured f side -> opposite_hopping f f' -> regauged 1 (fun i _ => sign side i) f f'.
Proof.
  intros TC (G & M & T & U & SM & MU & PT). assert (one : forall z : CR, z = kmul (re 1) z) by (intros z; apply injective_projections; cbn; ring). split; [exact G|]. split; [exact M|]. split; [|split; [|split; [|split; [|split]]]].
  - intros i k _ _. unfold sign. destruct (side i); auto.
  - intros i j k Hij Hk. rewrite T by assumption. destruct (Req_EM_T (nsq (f_ts f i j k)) 0) as [Z|NZ].
    + apply nsq_0 in Z. rewrite Z. apply injective_projections; cbn; ring.
    + assert (NE : f_ts f i j k <> k0) by (intros Q; apply NZ, nsq_0, Q). pose proof (TC i j k Hij Hk NE) as SD. unfold sign. destruct (side i), (side j); try congruence; apply injective_projections; cbn; ring.
  - intros i Hi. rewrite (U i Hi). apply one.
  - intros i j k Hij Hk. rewrite SM by assumption. apply one.
  - intros k Hk. rewrite MU by assumption. apply one.
  - intros i k Hi Hk. rewrite PT by assumption. apply one.
Qed.
Lemma energies_regauged side f f' : two_coloured f side -> opposite_energies f f' -> regauged (-1) (fun i _ => sign side i) f f'.
Proof.
  intros TC (G & M & T & U & SM & MU & PT). assert (one : forall z : CR, kopp z = kmul (re (-1)) z) by (intros z; apply injective_projections; cbn; ring). split; [exact G|]. split; [exact M|]. split; [|split; [|split; [|split; [|split]]]].
  - intros i k _ _. unfold sign. destruct (side i); auto.
  - intros i j k Hij Hk. rewrite T by assumption. destruct (Req_EM_T (nsq (f_ts f i j k)) 0) as [Z|NZ].
    + apply nsq_0 in Z. rewrite Z. apply injective_projections; cbn; ring.
    + assert (NE : f_ts f i j k <> k0) by (intros Q; apply NZ, nsq_0, Q). pose proof (TC i j k Hij Hk NE) as SD. unfold sign. destruct (side i), (side j); try congruence; apply injective_projections; cbn; ring.
  - intros i Hi. rewrite (U i Hi). apply one.
  - intros i j k Hij Hk. rewrite SM by assumption. apply one.
  - intros k Hk. rewrite MU by assumption. apply one.
  - intros i k Hi Hk. rewrite PT by assumption. apply one.
Qed.

Section Lattice.
  Variables (nx ny : Z) (o1 o2 : bool) (g : geometry CR) (u w : R) (t v mu : nat -> R) (m : nat) (f f' : fermions CR).
  Hypothesis X1 : (1 <= nx)%Z. Hypothesis Y1 : (1 <= ny)%Z.
  Hypothesis X2 : (2 * nx <= 100000000000000)%Z. Hypothesis Y2 : (2 * ny <= 100000000000000)%Z.
  Hypothesis LG : c_square_geometry nx ny 0 0 o1 o2 = Ok g.
  Hypothesis made : fermions_init (fgeom_of g) (number u) (numbers m t) None (numbers m mu) (number w) (numbers m v) m = Ok f.
  Hypothesis P1 : o1 = true \/ Z.even nx = true.
  Hypothesis P2 : o2 = true \/ Z.even ny = true.
  Theorem lattice_hopping : fermions_init (fgeom_of g) (number u) (numbers m (fun k => - t k)) None (numbers m mu) (number w) (numbers m v) m = Ok f' -> two_coloured f (chess ny) /\ opposite_hopping f f'.
  Proof using X1 Y1 X2 Y2 LG made P1 P2.
    intros made'. split; [exact (chess_coloured nx ny o1 o2 g u w t v mu m f X1 Y1 X2 Y2 LG made P1 P2)|].
    destruct (couplings g u w t v mu m f made) as (FG & NS & FT & FU & FV & FM & FP). destruct (couplings g u w (fun k => - t k) v mu m f' made') as (FG' & NS' & FT' & FU' & FV' & FM' & FP').
    split; [congruence|]. split; [congruence|]. rewrite NS. split; [|split; [|split; [|split]]].
    - intros i j k _ Hk. rewrite FT, FT' by exact Hk. apply injective_projections; cbn; ring.
    - intros i _. rewrite FU, FU'. reflexivity.
    - intros i j k _ Hk. rewrite FV, FV' by exact Hk. reflexivity.
    - intros k Hk. rewrite FM, FM' by exact Hk. reflexivity.
    - intros i k _ Hk. rewrite FP, FP'. reflexivity.
  Qed.
  Theorem lattice_energies : fermions_init (fgeom_of g) (number (- u)) (numbers m t) None (numbers m (fun k => - mu k)) (number (- w)) (numbers m (fun k => - v k)) m = Ok f' -> two_coloured f (chess ny) /\ opposite_energies f f'.
  Proof using X1 Y1 X2 Y2 LG made P1 P2.
    intros made'. split; [exact (chess_coloured nx ny o1 o2 g u w t v mu m f X1 Y1 X2 Y2 LG made P1 P2)|].
    destruct (couplings g u w t v mu m f made) as (FG & NS & FT & FU & FV & FM & FP). destruct (couplings g (- u) (- w) t (fun k => - v k) (fun k => - mu k) m f' made') as (FG' & NS' & FT' & FU' & FV' & FM' & FP').
    split; [congruence|]. split; [congruence|]. rewrite NS. split; [|split; [|split; [|split]]].
    - intros i j k _ Hk. rewrite FT, FT' by exact Hk. reflexivity.
    - intros i _. rewrite FU, FU'. apply injective_projections; cbn; ring.
    - intros i j k _ Hk. rewrite FV, FV' by exact Hk. apply injective_projections; cbn; ring.
    - intros k Hk. rewrite FM, FM' by exact Hk. apply injective_projections; cbn; ring.
    - intros i k _ Hk. rewrite FP, FP'. apply injective_projections; cbn; ring.
  Qed.
End Lattice.

Theorem opposite_same side f f' pr idx H H' V V' E E' : two_coloured f side -> opposite_hopping f f' -> us_ok f -> selects f pr idx -> createH f pr = Ok H -> createH f' pr = Ok H' -> eigenbasis H V E -> eigenbasis H' V' E' ->
  Permutation E E' /\ (sorted_list E -> sorted_list E' -> E' = E) /\
  forall A O c, measured f (fun i _ => sign side i) A c -> used pr A O ->
    (forall T x, T <> 0 \/ (sorted_list E /\ sorted_list E' /\ apart gap13 E) -> exp_vals_thermal V O E T = Ok x -> exp_vals_thermal V' O E' T = Ok (c * x)) /\
    (forall st k, (k < ncol (as_columns st))%nat -> single_config (as_columns st) k -> forall times Ms Ms' x, quench st V E times = Ok Ms -> quench st V' E' times = Ok Ms' ->
      exp_vals (Columns (nth k Ms (mzero 0 0))) O = Ok x -> exp_vals (Columns (nth k Ms' (mzero 0 0))) O = Ok (map (Rmult c) x)).
Proof.
  intros TC OH US SL EH EH' B B'. pose proof (opposite_regauged side f f' TC OH) as RG. assert (one : forall l, map (Rmult 1) l = l) by (intros l; transitivity (map (fun x => x) l); [apply map_ext; intros; ring | apply map_id]).
  split; [|split].
  - rewrite <- (one E). exact (api_energies _ _ _ _ _ _ _ _ _ _ _ _ RG US SL EH EH' B B').
  - intros S1 S2. rewrite <- (one E). exact (api_sorted _ _ _ _ _ _ _ _ _ _ _ _ RG US SL EH EH' B B' ltac:(lra) S1 S2).
  - intros A O c MS UO. split.
    + intros T x HT EX. destruct (Req_EM_T T 0) as [->|NT].
      * destruct HT as [HT|(S1 & S2 & AP)]; [congruence|]. exact (api_cold _ _ _ _ _ _ _ _ _ _ _ _ RG US SL EH EH' B B' A O c MS UO x eq_refl S1 S2 AP EX).
      * replace T with (1 * T) by ring. exact (api_average _ _ _ _ _ _ _ _ _ _ _ _ RG US SL EH EH' B B' A O c MS UO T x ltac:(lra) NT EX).
    + intros st k Hk SC times Ms Ms' x Q Q' EX. rewrite <- (one times) in Q. exact (api_motion _ _ _ _ _ _ _ _ _ _ _ _ RG US SL EH EH' B B' A O c MS UO st k Hk SC times Ms Ms' x Q Q' EX).
Qed.
Theorem mirrored_energies side f f' pr idx H H' V V' E E' : two_coloured f side -> opposite_energies f f' -> us_ok f -> selects f pr idx -> createH f pr = Ok H -> createH f' pr = Ok H' -> eigenbasis H V E -> eigenbasis H' V' E' ->
  Permutation (map Ropp E) E'.
Proof.
  intros TC OH US SL EH EH' B B'. pose proof (energies_regauged side f f' TC OH) as RG. rewrite (map_ext Ropp (Rmult (-1))) by (intros; ring). exact (api_energies _ _ _ _ _ _ _ _ _ _ _ _ RG US SL EH EH' B B').
Qed.
Theorem mirrored_motion side f f' pr idx H H' V V' E E' : two_coloured f side -> opposite_energies f f' -> us_ok f -> selects f pr idx -> createH f pr = Ok H -> createH f' pr = Ok H' -> eigenbasis H V E -> eigenbasis H' V' E' ->
  forall A O c, measured f (fun i _ => sign side i) A c -> used pr A O -> forall st k, (k < ncol (as_columns st))%nat -> single_config (as_columns st) k ->
  forall times Ms Ms' x, quench st V E times = Ok Ms -> quench st V' E' times = Ok Ms' ->
    exp_vals (Columns (nth k Ms (mzero 0 0))) O = Ok x -> exp_vals (Columns (nth k Ms' (mzero 0 0))) O = Ok (map (Rmult c) x).
Proof.
  intros TC OH US SL EH EH' B B' A O c MS UO st k Hk SC times Ms Ms' x. exact (api_reversed _ _ _ _ _ _ _ _ _ _ _ _ (energies_regauged side f f' TC OH) US SL EH EH' B B' A O c MS UO st k Hk SC times Ms Ms' x eq_refl).
Qed.

(** Combining symmetry sectors: proofs. *)
From Coq Require Import List Arith Lia Reals Lra Bool Sorting Permutation.
From Verif Require Import Scalars Res Matrix ModelGeometry ModelPhase ModelSymmetry SymBase ModelBase ModelThermal SpecThermal ThermalBase.
Import ListNotations.
Local Open Scope R_scope.

Lemma rmap_all {A B} (f : A -> res B) (g : A -> B) l : (forall a, In a l -> f a = Ok (g a)) -> rmap f l = Ok (map g l).
Proof.
  induction l as [|a l IH]; intros H; [reflexivity|]. cbn. rewrite H by (left; reflexivity). cbn [bind].
  rewrite IH by (intros; apply H; right; assumption). reflexivity.
Qed.

(** ** Minimum *)
Lemma list_min_ok l : l <> [] -> exists e, list_min l = Ok e /\ smallest e l.
Proof.
  destruct l as [|x t]; [congruence|]. intros _. exists (fold_right Rmin x t). split; [reflexivity|].
  induction t as [|y t IH].
  - split; [left; reflexivity|]. intros z [<-|[]]. cbn. lra.
  - destruct IH as [I L]. cbn [fold_right]. split.
    + set (m := fold_right Rmin x t) in *. unfold Rmin. destruct (Rle_dec y m); [right; left; reflexivity|].
      destruct I as [I|I]; [left; exact I | right; right; exact I].
    + intros z Hz. pose proof (Rmin_l y (fold_right Rmin x t)). pose proof (Rmin_r y (fold_right Rmin x t)).
      destruct Hz as [<-|[<-|Hz]]; [|assumption|].
      * pose proof (L x (or_introl eq_refl)). lra.
      * pose proof (L z (or_intror Hz)). lra.
Qed.
Lemma smallest_unique e e' l : smallest e l -> smallest e' l -> e = e'.
Proof. intros [I L] [I' L']. specialize (L _ I'). specialize (L' _ I). lra. Qed.

Lemma mins_ok (ls : list (list R)) : ls <> [] -> (forall l, In l ls -> l <> []) ->
  exists mins e, rmap list_min ls = Ok mins /\ list_min mins = Ok e /\ smallest e (concat ls).
Proof.
  intros H0 H.
  assert (X : exists mins, rmap list_min ls = Ok mins /\ Forall2 smallest mins ls).
  { clear H0. induction ls as [|l ls IH]; [exists []; split; [reflexivity | constructor]|].
    destruct IH as (mins & E & F); [intros; apply H; right; assumption|].
    destruct (list_min_ok l (H l (or_introl eq_refl))) as (m & Em & Sm).
    exists (m :: mins). split; [cbn; rewrite Em; cbn [bind]; rewrite E; reflexivity | constructor; assumption]. }
  destruct X as (mins & E & F).
  assert (N : mins <> []) by (intros ->; inversion F; subst; congruence).
  destruct (list_min_ok mins N) as (e & Ee & [Ie Le]). exists mins, e. split; [exact E|]. split; [exact Ee|]. split.
  - clear -Ie F. induction F as [|m l mins ls S F IH]; [destruct Ie|]. cbn. apply in_or_app.
    destruct Ie as [->|Ie]; [left; apply S | right; apply IH, Ie].
  - intros x Hx. apply in_concat in Hx as (l & Hl & Hx).
    assert (Y : exists m, In m mins /\ smallest m l).
    { clear -F Hl. induction F as [|m l' mins ls S F IH]; [destruct Hl|].
      destruct Hl as [->|Hl]; [exists m; split; [left; reflexivity | exact S]|].
      destruct (IH Hl) as (m' & I & S'). exists m'. split; [right; exact I | exact S']. }
    destruct Y as (m & Im & [_ Lm]). specialize (Le m Im). specialize (Lm x Hx). lra.
Qed.

Definition sector_avg (T : R) (s : sector) : res R := exp_vals_thermal (sV s) (sop s) (sE s) T.

Lemma energies_levels E V op : map energy (levels E V op) = E.
Proof. unfold levels. rewrite map_map. cbn [energy fst]. symmetry. apply list_seq. Qed.
Lemma sector_energies secs : map energy (concat (map sector_levels secs)) = concat (map sE secs).
Proof.
  induction secs as [|s secs IH]; [reflexivity|]. cbn. rewrite map_app, IH. f_equal. apply energies_levels.
Qed.
Lemma total_levels f E V op : total (fun p => f (energy p)) (levels E V op) = total f E.
Proof. rewrite <- (energies_levels E V op) at 2. rewrite total_map. reflexivity. Qed.

Section Combine.
  Variables (secs : list sector) (emin : R).
  Hypothesis ne : secs <> [].
  Hypothesis ok : forall s, In s secs -> sector_ok s.

  Lemma sectors_min : exists mins e, rmap list_min (map sE secs) = Ok mins /\ list_min mins = Ok e /\
    smallest e (concat (map sE secs)).
  Proof using ne ok.
    apply mins_ok.
    - destruct secs; [congruence | discriminate].
    - intros l Hl. apply in_map_iff in Hl as (s & <- & Hs). apply (ok s Hs).
  Qed.

  Lemma combine_finite T : T <> 0 ->
    (vals <- rmap (sector_avg T) secs ;; combine_sectors vals (map sE secs) T) =
    Ok (boltzmann T (concat (map sector_levels secs))).
  Proof using ne ok.
    intros HT.
    rewrite (rmap_all _ (fun s => boltzmann T (sector_levels s))) by (intros s Hs; apply thermal_finite; [apply ok, Hs | exact HT]).
    cbn [bind]. unfold combine_sectors, partition_fn_sectors.
    destruct sectors_min as (mins & e & E1 & E2 & _). rewrite E1. cbn [bind]. rewrite E2. cbn [bind].
    set (z := fun s : sector => exp (e / T) * total (fun p => exp (- energy p / T)) (sector_levels s)).
    assert (Z : rmap (fun E => wz <- thermal_weights false (map (fun x => x - e) E) T;; Ok (snd wz)) (map sE secs) = Ok (map z secs)).
    { rewrite (rmap_all _ (fun E => exp (e / T) * total (fun x => exp (- x / T)) E)).
      - rewrite map_map. f_equal. apply map_ext. intros s. unfold z. f_equal. symmetry.
        apply (total_levels (fun x => exp (- x / T))).
      - intros E _. unfold thermal_weights. cbn [bind]. rewrite is_zero_false by exact HT. cbn [bind snd]. f_equal.
        rewrite map_map, lsum_map, <- total_scale. apply total_ext. intros x _. rewrite <- exp_plus. f_equal. field. exact HT. }
    rewrite Z. cbn [bind]. rewrite !map_length, Nat.eqb_refl. f_equal.
    rewrite lmul_map, !lsum_map. unfold boltzmann at 2. rewrite !total_concat, !total_map.
    set (c := exp (e / T)). assert (Hc : 0 < c) by apply exp_pos.
    assert (N : total (fun s => boltzmann T (sector_levels s) * z s) secs =
                c * total (fun s => total (fun p => exp (- energy p / T) * value p) (sector_levels s)) secs).
    { rewrite <- total_scale. apply total_ext. intros s Hs. unfold boltzmann, z. fold c.
      assert (0 < total (fun p => exp (- energy p / T)) (sector_levels s)).
      { apply boltzmann_den_pos. destruct (ok s Hs) as (_ & _ & _ & N). unfold sector_levels, levels.
        destruct (sE s); [congruence | discriminate]. }
      field. lra. }
    rewrite N. unfold z. rewrite total_scale. fold c.
    assert (D : 0 < total (fun s => total (fun p => exp (- energy p / T)) (sector_levels s)) secs).
    { destruct secs as [|s l] eqn:Es; [congruence|]. apply total_pos.
      - intros s' _. apply total_ge0. intros; left; apply exp_pos.
      - exists s. split; [left; reflexivity|]. apply boltzmann_den_pos.
        destruct (ok s (or_introl eq_refl)) as (_ & _ & _ & N'). unfold sector_levels, levels.
        destruct (sE s); [congruence | discriminate]. }
    field. split; lra.
  Qed.

  Lemma count_at (e : R) (E : list R) : (forall x, In x E -> x = e \/ gap13 < Rabs (x - e)) ->
    INR (length (filter rounds_to_0 (map (fun x => x - e) E))) = total (fun x => if Req_EM_T x e then 1 else 0) E.
  Proof using.
    clear. induction E as [|x E IH]; intros H; [reflexivity|]. rewrite total_cons. cbn [map filter].
    assert (IH' := IH (fun y Hy => H y (or_intror Hy))).
    destruct (Req_EM_T x e) as [->|N].
    - replace (rounds_to_0 (e - e)) with true
        by (symmetry; apply rounds_to_0_true; replace (e - e) with 0 by ring; rewrite Rabs_R0; left; apply gap13_pos).
      cbn [length]. rewrite S_INR, IH'. ring.
    - destruct (rounds_to_0 (x - e)) eqn:X.
      + apply rounds_to_0_true in X. destruct (H x (or_introl eq_refl)); [contradiction | lra].
      + rewrite IH'. ring.
  Qed.

  Hypothesis least : smallest emin (concat (map sE secs)).
  Hypothesis gaps : apart gap13 (concat (map sE secs)).
  Hypothesis sorted : forall s, In s secs -> sorted_list (sE s).

  Lemma combine_zero :
    (vals <- rmap (sector_avg 0) secs ;; combine_sectors vals (map sE secs) 0) =
    Ok (average_at emin (concat (map sector_levels secs))).
  Proof using ne ok least gaps sorted.
    assert (sub : forall s x, In s secs -> In x (sE s) -> In x (concat (map sE secs))).
    { intros s x Hs Hx. apply in_concat. exists (sE s). split; [apply in_map, Hs | exact Hx]. }
    rewrite (rmap_all _ (fun s => average_at (nth 0 (sE s) 0) (sector_levels s))).
    2:{ intros s Hs. apply thermal_zero; [apply ok, Hs | apply sorted, Hs |].
        intros x y Hx Hy. apply gaps; eapply sub; eassumption. }
    cbn [bind]. unfold combine_sectors, partition_fn_sectors.
    destruct sectors_min as (mins & e & E1 & E2 & E3). rewrite E1. cbn [bind]. rewrite E2. cbn [bind].
    assert (e = emin) by (eapply smallest_unique; eassumption). subst e.
    set (z := fun s : sector => total (at_energy emin) (sector_levels s)).
    assert (Z : rmap (fun E => wz <- thermal_weights false (map (fun x => x - emin) E) 0;; Ok (snd wz)) (map sE secs) = Ok (map z secs)).
    { rewrite (rmap_all _ (fun E => total (fun x => if Req_EM_T x emin then 1 else 0) E)).
      - rewrite map_map. f_equal. apply map_ext. intros s. unfold z. symmetry.
        apply (total_levels (fun x => if Req_EM_T x emin then 1 else 0)).
      - intros E HE. unfold thermal_weights. cbn [bind]. rewrite is_zero_0. cbn [bind snd]. f_equal.
        apply in_map_iff in HE as (s & <- & Hs). apply count_at. intros x Hx. apply gaps; [eapply sub; eassumption | apply least]. }
    rewrite Z. cbn [bind]. rewrite !map_length, Nat.eqb_refl. f_equal.
    rewrite lmul_map, !lsum_map. unfold average_at at 2. rewrite !total_concat, !total_map. unfold Rdiv.
    assert (N : total (fun s => average_at (nth 0 (sE s) 0) (sector_levels s) * z s) secs =
       total (fun s => total (fun p => at_energy emin p * value p) (sector_levels s)) secs).
    { apply total_ext. intros s Hs. unfold z. destruct (Req_EM_T (nth 0 (sE s) 0) emin) as [->|Ne].
      - unfold average_at. set (d := total (at_energy emin) (sector_levels s)).
        destruct (Req_EM_T d 0) as [D|D]; [|field; exact D].
        rewrite D, Rmult_0_r. symmetry. apply total_zero. intros p Hp.
        assert (at_energy emin p = 0); [|rewrite H; ring].
        unfold at_energy. destruct (Req_EM_T (energy p) emin) as [Ep|]; [|reflexivity]. exfalso.
        assert (0 < d) by (apply average_den_pos; apply in_map_iff; eauto). lra.
      - (* no ground state in this sector *)
        assert (X : forall p, In p (sector_levels s) -> at_energy emin p = 0).
        { intros p Hp. unfold at_energy. destruct (Req_EM_T (energy p) emin) as [Ep|]; [|reflexivity]. exfalso.
          assert (Hin : In (energy p) (sE s)).
          { rewrite <- (energies_levels (sE s) (sV s) (sop s)). apply in_map, Hp. }
          apply (In_nth _ _ 0) in Hin as (k & Hk & Ek).
          assert (nth 0 (sE s) 0 <= nth k (sE s) 0) by (apply (sorted s Hs); lia).
          assert (emin <= nth 0 (sE s) 0).
          { apply least. eapply sub; [exact Hs|]. apply nth_In. lia. }
          rewrite Ek, Ep in *. lra. }
        rewrite (total_zero (at_energy emin)) by exact X.
        rewrite (total_zero (fun p => at_energy emin p * value p)) by (intros p Hp; rewrite X by exact Hp; ring). ring. }
    rewrite N. reflexivity.
  Qed.
End Combine.

(** The result for the whole system, however it was diagonalised. *)
Lemma combine_full_finite secs V op E T : secs <> [] -> (forall s, In s secs -> sector_ok s) -> fits V op E -> T <> 0 ->
  Permutation (levels E V op) (concat (map sector_levels secs)) ->
  (vals <- rmap (sector_avg T) secs ;; combine_sectors vals (map sE secs) T) = exp_vals_thermal V op E T.
Proof.
  intros Hne Hok Hf HT P. rewrite combine_finite, thermal_finite by assumption. f_equal. symmetry.
  apply boltzmann_perm, P.
Qed.
Lemma perm_energies l m : Permutation l m -> Permutation (map energy l) (map energy m).
Proof. apply Permutation_map. Qed.
Lemma sorted_least E : E <> [] -> sorted_list E -> smallest (nth 0 E 0) E.
Proof.
  intros N Hs. split.
  - apply nth_In. destruct E; [congruence | cbn; lia].
  - intros x Hx. apply (In_nth _ _ 0) in Hx as (k & Hk & <-). apply Hs. lia.
Qed.
Lemma combine_full_zero secs V op E : secs <> [] -> (forall s, In s secs -> sector_ok s) -> fits V op E ->
  Permutation (levels E V op) (concat (map sector_levels secs)) ->
  sorted_list E -> (forall s, In s secs -> sorted_list (sE s)) -> apart gap13 E ->
  (vals <- rmap (sector_avg 0) secs ;; combine_sectors vals (map sE secs) 0) = exp_vals_thermal V op E 0.
Proof.
  intros Hne Hok Hf P Hs Hss Ha. pose proof (perm_energies _ _ P) as PE. rewrite energies_levels, sector_energies in PE.
  rewrite thermal_zero by assumption.
  rewrite (combine_zero secs (nth 0 E 0)); try assumption.
  - f_equal. symmetry. apply average_at_perm, P.
  - destruct (sorted_least E) as [I L]; [apply Hf | exact Hs|]. split.
    + apply (Permutation_in _ PE), I.
    + intros x Hx. apply L, (Permutation_in _ (Permutation_sym PE)), Hx.
  - intros x y Hx Hy. apply Ha; apply (Permutation_in _ (Permutation_sym PE)); assumption.
Qed.

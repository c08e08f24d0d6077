(** The centre of mass of a geometry. *)
From Coq Require Import List Arith Lia QArith ZArith Lqa Sorting Permutation.
From Verif Require Import Res Matrix ModelGeometry SpecGeometry GeoArith GeoPerm SpecCentre.
Import ListNotations.
Local Open Scope Q_scope.

Definition qsum (l : list Q) : Q := fold_right Qplus 0 l.
Notation cnt l := (inject_Z (Z.of_nat (length l))).
Lemma cnt_cons {A} (a : A) l : cnt (a :: l) == 1 + cnt l.
Proof. cbn [length]. rewrite Nat2Z.inj_succ. unfold Z.succ. rewrite inject_Z_plus. ring. Qed.
Lemma cnt_pos {A} (l : list A) : l <> [] -> 0 < cnt l.
Proof. intros N. destruct l as [|a l]; [congruence|]. change 0 with (inject_Z 0). rewrite <- Zlt_Qlt. cbn [length]. lia. Qed.
Lemma away_sum c l : offsets c l == qsum l - cnt l * c.
Proof. unfold offsets. induction l as [|a l IH]; [cbn; ring|]. rewrite cnt_cons. cbn [map fold_right qsum]. rewrite IH. cbn [qsum fold_right]. fold (qsum l). ring. Qed.
Lemma squares_sum c l : squares c l == squares 0 l - 2 * c * qsum l + cnt l * (c * c).
Proof. unfold squares. induction l as [|a l IH]; [cbn; ring|]. rewrite cnt_cons. cbn [map fold_right qsum]. rewrite IH. cbn [qsum fold_right]. fold (qsum l). ring. Qed.
Lemma offsets_mean l : l <> [] -> offsets (qsum l / cnt l) l == 0.
Proof. intros N. rewrite away_sum. pose proof (cnt_pos l N). field. intros Z. rewrite Z in H. discriminate H. Qed.
Lemma squares_least c p l : offsets c l == 0 -> squares p l == squares c l + cnt l * ((p - c) * (p - c)).
Proof. intros Z. rewrite away_sum in Z. rewrite (squares_sum p), (squares_sum c). assert (E : qsum l == cnt l * c) by (rewrite <- (Qplus_0_l (cnt l * c)), <- Z; ring). rewrite E. ring. Qed.
Lemma offsets_unique c c' l : l <> [] -> offsets c l == 0 -> offsets c' l == 0 -> c == c'.
Proof.
  intros N Z Z'. rewrite away_sum in Z, Z'. pose proof (cnt_pos l N). assert (E : cnt l * (c - c') == 0) by (transitivity ((qsum l - cnt l * c') - (qsum l - cnt l * c)); [ring|]; rewrite Z, Z'; reflexivity).
  apply Qmult_integral in E as [E|E]; [rewrite E in H; discriminate H|]. rewrite <- (Qplus_0_r c'), <- E. ring.
Qed.
Lemma qsum_perm l l' : Permutation l l' -> qsum l == qsum l'.
Proof. induction 1; cbn; [reflexivity | rewrite IHPermutation; reflexivity | ring | etransitivity; eassumption]. Qed.
Section C.
  Context {Ph : Type}.
  Notation geometry := (geometry Ph).
  Theorem centre_ok (g : geometry) : g_x g <> [] -> g_y g <> [] -> exists c, center_of_mass g = Ok c /\ offsets (fst c) (g_x g) == 0 /\ offsets (snd c) (g_y g) == 0 /\
    (forall p, offsets (fst p) (g_x g) == 0 -> offsets (snd p) (g_y g) == 0 -> fst p == fst c /\ snd p == snd c) /\
    forall p, squares (fst c) (g_x g) + squares (snd c) (g_y g) <= squares (fst p) (g_x g) + squares (snd p) (g_y g).
  Proof.
    intros Nx Ny. exists (qsum (g_x g) / cnt (g_x g), qsum (g_y g) / cnt (g_y g)). cbn [fst snd]. pose proof (offsets_mean (g_x g) Nx) as Zx. pose proof (offsets_mean (g_y g) Ny) as Zy.
    split; [unfold center_of_mass; destruct (g_x g); [congruence|]; destruct (g_y g); [congruence | reflexivity]|]. split; [exact Zx|]. split; [exact Zy|]. split.
    - intros p Px Py. split; [exact (offsets_unique _ _ _ Nx Px Zx) | exact (offsets_unique _ _ _ Ny Py Zy)].
    - intros p. rewrite (squares_least _ (fst p) _ Zx), (squares_least _ (snd p) _ Zy). pose proof (cnt_pos _ Nx). pose proof (cnt_pos _ Ny). set (u := fst p - qsum (g_x g) / cnt (g_x g)). set (v := snd p - qsum (g_y g) / cnt (g_y g)).
      assert (Su : 0 <= u * u) by nra. assert (Sv : 0 <= v * v) by nra. assert (0 <= cnt (g_x g) * (u * u)) by (apply Qmult_le_0_compat; lra). assert (0 <= cnt (g_y g) * (v * v)) by (apply Qmult_le_0_compat; lra). lra.
  Qed.
  Lemma picked l p : Permutation (map Z.to_nat p) (seq 0 (length l)) -> Permutation (map (fun k => nth k l 0) (map Z.to_nat p)) l.
  Proof.
    intros P. rewrite (Permutation_map (fun k => nth k l 0) P). replace (map (fun k => nth k l 0) (seq 0 (length l))) with l; [reflexivity|].
    apply nth_ext with (d := 0) (d' := 0); [rewrite map_length, seq_length; reflexivity|]. intros n Hn. rewrite (nth_indep (map _ _) 0 ((fun k => nth k l 0) 0%nat)) by (rewrite map_length, seq_length; exact Hn). rewrite (map_nth (fun k => nth k l 0)), seq_nth by exact Hn. reflexivity.
  Qed.
  Theorem centre_permuted (g g' : geometry) perm c : length (g_x g) = g_n g -> length (g_y g) = g_n g -> permute_sites g perm = Ok g' -> center_of_mass g = Ok c ->
    exists c', center_of_mass g' = Ok c' /\ fst c' == fst c /\ snd c' == snd c.
  Proof.
    intros Lx Ly EP EC. unfold permute_sites in EP. destruct (zlist_eqb (zsort perm) (map Z.of_nat (seq 0 (g_n g)))) eqn:T; [|discriminate EP]. cbn [negb] in EP. injection EP as <-. apply perm_test in T. unfold is_perm in T.
    assert (P : Permutation (map Z.to_nat perm) (seq 0 (g_n g))).
    { rewrite T. rewrite map_map. rewrite (map_ext _ (fun k => k)) by (intros k; apply Nat2Z.id). rewrite map_id. reflexivity. }
    pose proof (picked (g_x g) perm ltac:(rewrite Lx; exact P)) as Px. pose proof (picked (g_y g) perm ltac:(rewrite Ly; exact P)) as Py.
    assert (Nx : g_x g <> []) by (intros Z; unfold center_of_mass in EC; rewrite Z in EC; discriminate EC). assert (Ny : g_y g <> []) by (intros Z; unfold center_of_mass in EC; rewrite Z in EC; destruct (g_x g); discriminate EC).
    assert (EC' : c = (qsum (g_x g) / cnt (g_x g), qsum (g_y g) / cnt (g_y g))) by (unfold center_of_mass in EC; destruct (g_x g); [congruence|]; destruct (g_y g); [congruence|]; injection EC as <-; reflexivity). subst c. clear EC.
    set (X := map (fun k => nth k (g_x g) 0) (map Z.to_nat perm)) in *. set (Y := map (fun k => nth k (g_y g) 0) (map Z.to_nat perm)) in *.
    assert (NX : X <> []) by (intros Z; rewrite Z in Px; apply Permutation_nil in Px; congruence). assert (NY : Y <> []) by (intros Z; rewrite Z in Py; apply Permutation_nil in Py; congruence).
    exists (qsum X / cnt X, qsum Y / cnt Y). cbn [fst snd]. split; [unfold center_of_mass; cbn [g_x g_y]; destruct X; [congruence|]; destruct Y; [congruence | reflexivity]|].
    rewrite (Permutation_length Px), (Permutation_length Py), (qsum_perm _ _ Px), (qsum_perm _ _ Py). split; reflexivity.
  Qed.
End C.

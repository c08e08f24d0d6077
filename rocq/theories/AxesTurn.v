(** The turns of the axes of one spin 1/2. *)
From Coq Require Import List Arith Lia Reals Lra Bool.
From Verif Require Import Scalars Res Matrix SpecMat ModelBase ModelSpins SpecSpins ModelGeometry ModelPhase ModelSymmetry SymBase SpecThermal SignsSpins SpecAxes Axes.
Import ListNotations.
Local Open Scope R_scope.

Section Turn.
  Variable rt : nat -> CR.
  Hypothesis root : rt 1%nat = k1.
  Notation Sm a := (ent (spin_along rt a)).
  Definition scl (x : R) (A : nat -> nat -> CR) (r c : nat) : CR := real x *c A r c.
  Definition unit2 (u : nat -> nat -> CR) : Prop := same2 (two_mul u (adj2 u)) one2 /\ same2 (two_mul (adj2 u) u) one2.
  Definition works (u : nat -> nat -> CR) (p : axis -> axis) (g : axis -> R) : Prop :=
    forall a, same2 (two_mul u (Sm a)) (two_mul (scl (g a) (Sm (p a))) u).
  Definition turn (p : axis -> axis) (g : axis -> R) : Prop := exists u, unit2 u /\ works u p g.
  Definition tab (a b c d : CR) (i j : nat) : CR := match i, j with 0, 0 => a | 0, _ => b | _, 0 => c | _, _ => d end.

  Lemma turn_ext p p' g g' : (forall a, p a = p' a) -> (forall a, g a = g' a) -> turn p g -> turn p' g'.
  Proof using. intros X Y (u & U & W). exists u. split; [exact U|]. intros a. rewrite <- X, <- Y. apply W. Qed.
  Lemma mul_same A A' B B' r c : same2 A A' -> same2 B B' -> (r < 2)%nat -> (c < 2)%nat -> two_mul A B r c = two_mul A' B' r c.
  Proof using. clear. intros X Y Hr Hc. unfold two_mul. rewrite !X, !Y by lia. reflexivity. Qed.
  Lemma mul_assoc A B C r c : two_mul (two_mul A B) C r c = two_mul A (two_mul B C) r c. Proof using. clear. unfold two_mul. ring. Qed.
  Lemma mul_one A : same2 (two_mul one2 A) A.
  Proof using. clear. intros r c Hr Hc. unfold two_mul, one2. destruct r as [|[|r]]; [cbn [Nat.eqb]; ring | cbn [Nat.eqb]; ring | lia]. Qed.
  Lemma adj_mul A B r c : adj2 (two_mul A B) r c = two_mul (adj2 B) (adj2 A) r c. Proof using. clear. unfold adj2, two_mul. apply injective_projections; cbn; ring. Qed.
  Lemma same_refl A : same2 A A. Proof using. clear. intros r c _ _. reflexivity. Qed.
  Lemma turn_after p p' g g' : turn p g -> turn p' g' -> turn (fun a => p' (p a)) (fun a => g a * g' (p a)).
  Proof using.
    intros (u & (U1 & U2) & W) (v & (V1 & V2) & X). exists (two_mul v u). split; [split|].
    - intros r c Hr Hc. transitivity (two_mul v (two_mul (two_mul u (adj2 u)) (adj2 v)) r c); [unfold two_mul, adj2; apply injective_projections; cbn; ring|].
      rewrite <- (V1 r c Hr Hc). apply mul_same; [apply same_refl | | exact Hr | exact Hc]. intros k l Hk Hl. rewrite (mul_same _ one2 _ (adj2 v) k l U1 (same_refl _) Hk Hl). apply mul_one; assumption.
    - intros r c Hr Hc. transitivity (two_mul (adj2 u) (two_mul (two_mul (adj2 v) v) u) r c); [unfold two_mul, adj2; apply injective_projections; cbn; ring|].
      rewrite <- (U2 r c Hr Hc). apply mul_same; [apply same_refl | | exact Hr | exact Hc]. intros k l Hk Hl. rewrite (mul_same _ one2 _ u k l V2 (same_refl _) Hk Hl). apply mul_one; assumption.
    - intros a r c Hr Hc. rewrite mul_assoc, (mul_same v v _ _ r c (same_refl v) (W a) Hr Hc).
      transitivity (real (g a) *c two_mul (two_mul v (Sm (p a))) u r c); [unfold two_mul, scl; ring|].
      rewrite (mul_same _ _ u u r c (X (p a)) (same_refl u) Hr Hc). unfold two_mul, scl. generalize (g a), (g' (p a)). intros x y. replace (real (x * y)) with (real x *c real y) by (apply injective_projections; cbn; ring). ring.
  Qed.
  Lemma x_at r c : (r < 2)%nat -> (c < 2)%nat -> Sm AX r c = tab (0, 0) (1 / 2, 0) (1 / 2, 0) (0, 0) r c.
  Proof using root. intros Hr Hc. cbn [spin_along]. rewrite (sx_val rt root) by assumption. destruct r as [|[|r]], c as [|[|c]]; try lia; reflexivity. Qed.
  Lemma y_at r c : (r < 2)%nat -> (c < 2)%nat -> Sm AY r c = tab (0, 0) (0, 1 / 2) (0, -1 / 2) (0, 0) r c.
  Proof using root. intros Hr Hc. cbn [spin_along]. rewrite (sy_val rt root) by assumption. destruct r as [|[|r]], c as [|[|c]]; try lia; reflexivity. Qed.
  Lemma z_at r c : (r < 2)%nat -> (c < 2)%nat -> Sm AZ r c = tab (1 / 2, 0) (0, 0) (0, 0) (-1 / 2, 0) r c.
  Proof using. intros Hr Hc. cbn [spin_along]. rewrite sz_val by assumption. destruct r as [|[|r]], c as [|[|c]]; try lia; reflexivity. Qed.
  Definition entry (a : axis) : nat -> nat -> CR := match a with AX => tab (0, 0) (1 / 2, 0) (1 / 2, 0) (0, 0) | AY => tab (0, 0) (0, 1 / 2) (0, -1 / 2) (0, 0) | AZ => tab (1 / 2, 0) (0, 0) (0, 0) (-1 / 2, 0) end.
  Lemma entry_ok a r c : (r < 2)%nat -> (c < 2)%nat -> Sm a r c = entry a r c.
  Proof using root. destruct a; [apply x_at | apply y_at | apply z_at]. Qed.
  Lemma works_tab u p g : (forall a r c, (r < 2)%nat -> (c < 2)%nat -> two_mul u (entry a) r c = real (g a) *c two_mul (entry (p a)) u r c) -> works u p g.
  Proof using root.
    intros X a r c Hr Hc. transitivity (two_mul u (entry a) r c); [unfold two_mul; rewrite !entry_ok by lia; reflexivity|]. rewrite (X a r c Hr Hc). unfold two_mul, scl. rewrite !entry_ok by lia. ring.
  Qed.
  Ltac four r c := destruct r as [|[|r]], c as [|[|c]]; try lia.
  Ltac solve_unit := split; intros r c Hr Hc; four r c; apply injective_projections; cbn; lra.
  Ltac solve_works := apply works_tab; intros a r c Hr Hc; destruct a; four r c; apply injective_projections; cbn; lra.
  Definition ident (a : axis) : axis := a.
  Definition swapxy (a : axis) : axis := match a with AX => AY | AY => AX | AZ => AZ end.
  Definition gs (x y z : R) (a : axis) : R := match a with AX => x | AY => y | AZ => z end.
  Lemma turn_id : turn ident (gs 1 1 1).
  Proof using root. exists (tab (1, 0) (0, 0) (0, 0) (1, 0)). split; [solve_unit | solve_works]. Qed.
  Lemma turn_z : turn ident (gs (-1) (-1) 1).
  Proof using root. exists (tab (1, 0) (0, 0) (0, 0) (-1, 0)). split; [solve_unit | solve_works]. Qed.
  Lemma turn_x : turn ident (gs 1 (-1) (-1)).
  Proof using root. exists (tab (0, 0) (1, 0) (1, 0) (0, 0)). split; [solve_unit | solve_works]. Qed.
  Lemma turn_next : turn next (gs 1 1 1).
  Proof using root. exists (tab (1 / 2, 1 / 2) (-1 / 2, 1 / 2) (1 / 2, 1 / 2) (1 / 2, -1 / 2)). split; [solve_unit | solve_works]. Qed.
  Lemma turn_swap : turn swapxy (gs 1 1 (-1)).
  Proof using root. exists (tab (0, 0) (0, 1) (1, 0) (0, 0)). split; [solve_unit | solve_works]. Qed.
  Lemma turn_signs g : sign_of g -> g AX * g AY * g AZ = 1 -> turn ident g.
  Proof using root.
    intros X P. destruct (X AX) as [x|x], (X AY) as [y|y], (X AZ) as [z|z]; rewrite x, y, z in P; try lra.
    - apply (turn_ext ident ident (gs 1 1 1)); [reflexivity | intros []; cbn; lra | exact turn_id].
    - apply (turn_ext ident ident (gs 1 (-1) (-1))); [reflexivity | intros []; cbn; lra | exact turn_x].
    - eapply turn_ext; [| |exact (turn_after _ _ _ _ turn_z turn_x)]; intros []; cbn; try reflexivity; lra.
    - apply (turn_ext ident ident (gs (-1) (-1) 1)); [reflexivity | intros []; cbn; lra | exact turn_z].
  Qed.
  Lemma turn_order p : in_order p -> turn p (gs 1 1 1).
  Proof using root.
    intros O. pose proof (O AX) as Y. pose proof (O AY) as Z. cbn [next] in Y, Z. rewrite Y in Z. destruct (p AX) eqn:X; cbn [next] in Y, Z.
    - apply (turn_ext ident p (gs 1 1 1)); [intros []; unfold ident; congruence | reflexivity | exact turn_id].
    - apply (turn_ext next p (gs 1 1 1)); [intros []; cbn; congruence | reflexivity | exact turn_next].
    - eapply turn_ext; [| |exact (turn_after _ _ _ _ turn_next turn_next)]; intros []; cbn; congruence || lra.
  Qed.
  Theorem turns p g : rotation p g -> turn p g.
  Proof using root.
    intros (X & [(O & P)|(O & P)]).
    - eapply turn_ext; [| |exact (turn_after _ _ _ _ (turn_signs g X P) (turn_order p O))]; intros []; unfold ident; cbn; reflexivity || lra.
    - assert (Q : turn ident (fun a => g a * gs 1 1 (-1) a)).
      { apply turn_signs; [intros a; destruct (X a) as [->| ->], a; cbn; lra | cbn; lra]. }
      assert (R' : turn (fun a => p (swapxy a)) (gs 1 1 1)).
      { apply turn_order. intros a. pose proof (O AX) as OX. pose proof (O AY) as OY. pose proof (O AZ) as OZ. cbn [next] in *. destruct a; cbn [swapxy next]; congruence. }
      eapply turn_ext; [| |exact (turn_after _ _ _ _ Q (turn_after _ _ _ _ turn_swap R'))]; intros []; unfold ident; cbn; reflexivity || lra.
  Qed.
End Turn.

(** A concrete case that meets the hypotheses of C158: three sites, and the same sites in
    another order. *)
From Coq Require Import List QArith ZArith.
From Verif Require Import Res Matrix ModelGeometry SpecCentre Centre PropertiesCentre.
Import ListNotations.
Local Open Scope Q_scope.

Definition corner3 : geometry unit :=
  Geom None [0; 1; 1] [0; 0; 1 # 2] 3 (Mat 3 3 (fun _ _ => 0)) (Mat 3 3 (fun _ _ => 0)) (Mat 3 3 (fun _ _ => 0)) (Mat 3 3 (fun _ _ => tt)).
Example ex_corner3 : exists g' c c', permute_sites corner3 [2; 0; 1]%Z = Ok g' /\ center_of_mass corner3 = Ok c /\ center_of_mass g' = Ok c' /\ g_x g' = [1; 0; 1] /\
  fst c == 2 # 3 /\ snd c == 1 # 6 /\ fst c' == fst c /\ snd c' == snd c.
Proof.
  destruct (C158_centre unit corner3 ltac:(discriminate) ltac:(discriminate)) as (c & EC & _).
  destruct (permute_sites corner3 [2; 0; 1]%Z) as [g'|] eqn:EG; [|discriminate EG].
  destruct (C158_order unit corner3 g' [2; 0; 1]%Z c eq_refl eq_refl EG EC) as (c' & EC' & A & B). exists g', c, c'. split; [reflexivity|]. split; [exact EC|]. split; [exact EC'|].
  split; [injection EG as <-; reflexivity|]. injection EC as <-. split; [reflexivity|]. split; [reflexivity|]. split; [exact A | exact B].
Qed.

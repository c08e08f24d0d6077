(** Concrete cases of the theorems about files. *)
From Coq Require Import List Arith Lia QArith Permutation Bool String Ascii.
From Verif Require Import Res Matrix ModelGeometry ModelNlce ModelStore ModelPipeline SpecStore StoreFacts PipelineFacts PropertiesFiles.
Import ListNotations.
Local Open Scope nat_scope.

(** Extensions. *)
Example extensions : map ext_of ["a.pkl"; "run.1/a.b.mat"; "run.pkl/a"; ".pkl"; "..mat"; "a.PKL"; "a"]%string =
  [".pkl"; ".mat"; ""; ""; ""; ".PKL"; ""]%string.
Proof. reflexivity. Qed.
Example dated_name : ext_of "2026-11-16_09;00;00_ed.pkl" = ".pkl"%string.
Proof. reflexivity. Qed.
Example a_pkl : has_extension ".pkl" "a.pkl".
Proof. apply (ext_iff _ _ plain_pkl). reflexivity. Qed.
Example a_mat : has_extension ".mat" "a.mat".
Proof. apply (ext_iff _ _ plain_mat). reflexivity. Qed.

(** C64: two models; one is saved, changed, and loaded by the other. *)
Definition two_models : world nat := World (fun _ => None) [[("n", 2)]; [("n", 3)]]%string [0; 1].
Example saved_and_loaded : exists w' w'' r, save (fun _ => true) Some "" two_models 0 (Some "a.pkl"%string) = (w', Ok "a.pkl"%string) /\
  load 0 (fst (set_attr w' 0 "n" 7)) 1 "a.pkl" = (w'', Ok r) /\ attrs w'' 1 = Some [("n"%string, 2)] /\ attrs w'' 0 = Some [("n"%string, 7)].
Proof. do 3 eexists. repeat split. Qed.
Example hypotheses_met : exists w', save (fun _ : nat => true) Some "" two_models 0 (Some "a.pkl"%string) = (w', Ok "a.pkl"%string).
Proof.
  destruct (C64_round_trip nat (fun _ => true) Some 0 ""%string two_models 0 "a.pkl" [("n"%string, 2)] a_pkl eq_refl ltac:(intros; reflexivity)) as (w' & E & _).
  exists w'. exact E.
Qed.
(** C114: the two models are separate. *)
Example separate_models : separate 2 two_models.
Proof.
  split; [cbn; lia|]. split.
  - intros [|[|o]] l E; cbn in E; try (injection E as <-; cbn; lia). destruct o; discriminate.
  - intros [|[|o]] [|[|o']] l Ho Ho' E E'; cbn in E, E'; try lia; congruence.
Qed.
(** C116: a name with an underscore is lost. *)
Example mat_loses : exists w' w'' r, let w := World (fun _ => None) [[("_n", 2); ("m", 3)]]%string [0] in
  save (fun _ => true) (fun v => Some (v + 10)) "" w 0 (Some "a.mat"%string) = (w', Ok "a.mat"%string) /\
  load 0 w' 0 "a.mat" = (w'', Ok r) /\ attrs w'' 0 = Some [("m"%string, 13)].
Proof. do 3 eexists. repeat split. Qed.

(** C65 and C111: three sites; files named as the scripts do. *)
Definition sub_name (c : nat) : string := match c with 0 => "subcluster1.dat" | 1 => "subcluster2.dat" | 2 => "subcluster3.dat" | _ => "subcluster4.dat" end.
Example numbers : map file_number ["subcluster1.dat"; "subcluster20.dat"; "run7/sub3.dat"; "sub.dat"]%string = [Ok 1%N; Ok 20%N; Ok 7%N; Raise AttributeError].
Proof. reflexivity. Qed.
Example count_three : snd (generate_no_subs (fun _ => None) "c.dat" 3) = Ok 4.
Proof. vm_compute. reflexivity. Qed.
Definition all_tasks (order : list nat) : disk :=
  fst (fold_left (fun st c => match snd st with Ok _ => find_subclusters (fst st) c (sub_name c) "c.dat" | Raise _ => st end) order
         (fst (generate_no_subs (fun _ => None) "c.dat" 3), Ok tt)).
Definition table_in (p : option pickled) : option table :=
  match p with Some (PList [_; _; _; _; ITable M]) => Some M | _ => None end.
Example aggregated : table_in (fst (aggregate_subclusters (all_tasks [2; 0; 3; 1]) (map sub_name [1; 3; 0; 2]) "out.dat" "c.dat") "out.dat"%string) =
  Some [[0; 0; 0; 0]; [2; 0; 0; 0]; [3; 2; 0; 0]; [3; 2; 0; 0]]%Q.
Proof. vm_compute. reflexivity. Qed.

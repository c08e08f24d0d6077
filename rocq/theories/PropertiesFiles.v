(** Property theorems C64, C65 and C111..C116: saving and loading models, and the
    scripts that enumerate clusters.  Theorems only.

    [picklable] says what pickle can write, [mat] what [savemat] makes of a value,
    [meta] stands for the header of a .mat file and [today] for the date. *)
From Coq Require Import List Arith QArith Permutation Bool String Ascii.
From Verif Require Import Res Matrix ModelGeometry ModelNlce ModelStore ModelPipeline SpecStore StoreFacts PipelineFacts.
Import ListNotations.
Local Open Scope nat_scope.

(** C64. *)
Theorem C64_round_trip : forall (V : Type) (picklable : V -> bool) mat meta today (w : world V) o n d,
  has_extension ".pkl" n -> attrs w o = Some d -> (forall k v, In (k, v) d -> picklable v = true) ->
  exists w', save picklable mat today w o (Some n) = (w', Ok n) /\ (forall i, attrs w' i = attrs w i) /\
    forall xs o', (forall x, In x xs -> saved_to today x <> Some n) -> o' < List.length (objs (session picklable mat meta today w' xs)) ->
      exists w'' r, load meta (session picklable mat meta today w' xs) o' n = (w'', Ok r) /\ attrs w'' o' = Some d.
Proof. exact @round_trip. Qed.
Print Assumptions C64_round_trip.
Theorem C64_default_name : forall (V : Type) (picklable : V -> bool) mat today (w : world V) o d,
  ~ In "/"%char (list_ascii_of_string today) -> attrs w o = Some d -> (forall k v, In (k, v) d -> picklable v = true) ->
  save picklable mat today w o None = save picklable mat today w o (Some (today ++ "_ed.pkl")%string) /\ has_extension ".pkl" (today ++ "_ed.pkl").
Proof. exact @default_name. Qed.
Print Assumptions C64_default_name.
Theorem C64_rejected : forall (V : Type) (picklable : V -> bool) mat meta today (w : world V) o n,
  attrs w o <> None -> o < List.length (objs w) -> ~ has_extension ".pkl" n -> ~ has_extension ".mat" n ->
  save picklable mat today w o (Some n) = (w, Raise ValueError) /\ load meta w o n = (w, Raise ValueError).
Proof. exact @rejected. Qed.
Print Assumptions C64_rejected.

(** C65: false for [generate_clusters]; true for [generate_clusters_no_subs]. *)
Theorem C65_rerun_refuted : forall n d name, 1 <= n -> d name = None ->
  exists cl ms M inds d', clusters_with_subclusters n e1 e2 true = Ok (cl, ms, M, inds) /\
    generate_clusters d name n = (d', Ok (List.length cl)) /\ forall m, generate_clusters d' name m = (d', Raise KeyError).
Proof. exact rerun. Qed.
Print Assumptions C65_rerun_refuted.
Theorem C65_no_subs_partial : forall n d name, 1 <= n -> d name = None ->
  exists cl ms inds d', all_clusters n e1 e2 true = Ok (cl, ms, inds) /\
    generate_no_subs d name n = (d', Ok (List.length cl)) /\ forall m, generate_no_subs d' name m = (d', Ok (List.length cl)).
Proof. exact rerun_no_subs. Qed.
Print Assumptions C65_no_subs_partial.

(** C111: processes and files in any order. *)
Theorem C111_pipeline : forall n d name in_name out_name, 1 <= n -> d in_name = None ->
  exists cl ms M inds, clusters_with_subclusters n e1 e2 true = Ok (cl, ms, M, inds) /\
  let N := List.length cl in
  exists d1, generate_no_subs d in_name n = (d1, Ok N) /\
  ((forall c, c < N -> name c <> in_name) -> (forall c c', c < N -> c' < N -> name c = name c' -> c = c') -> (forall c, c < N -> has_digit (name c)) ->
   forall tasks found, Permutation tasks (seq 0 N) -> Permutation found (map name (seq 0 N)) ->
   exists d2 M', fold_left (fun st c => match snd st with Ok _ => find_subclusters (fst st) c (name c) in_name | Raise _ => st end) tasks (d1, Ok tt) = (d2, Ok tt) /\
     aggregate_subclusters d2 found out_name in_name = (put_file d2 out_name (PList [INum n; IClusters cl; IInds inds; ITime; ITable M']), Ok tt) /\
     forall a b, a < N -> b < N -> (entry M' a b == entry M a b)%Q).
Proof. exact pipeline. Qed.
Print Assumptions C111_pipeline.

(** C112: false for both kinds of files. *)
Theorem C112_single_refuted : forall n d name, 1 <= n -> d name = None ->
  exists d' k, generate_clusters d name n = (d', Ok k) /\ expansion_data d' name = Raise KeyError.
Proof. exact unread_dict. Qed.
Print Assumptions C112_single_refuted.
Theorem C112_several_refuted : forall n d out cl inds M,
  exists e, expansion_data (put_file d out (PList [INum n; IClusters cl; IInds inds; ITime; ITable M])) out = Raise e.
Proof. exact unread_list. Qed.
Print Assumptions C112_several_refuted.

(** C113: false for names which consist of the extension; what holds. *)
Theorem C113_hidden_refuted : ends_in ".pkl" ".pkl" /\ forall V (picklable : V -> bool) mat today (w : world V) o, attrs w o <> None ->
  save picklable mat today w o (Some ".pkl"%string) = (w, Raise ValueError).
Proof. exact hidden_file. Qed.
Print Assumptions C113_hidden_refuted.
Theorem C113_names_partial : forall (V : Type) (picklable : V -> bool) mat today (w : world V) o n, attrs w o <> None ->
  (save picklable mat today w o (Some n) = (w, Raise ValueError) <-> ~ has_extension ".pkl" n /\ ~ has_extension ".mat" n).
Proof. exact names_accepted. Qed.
Print Assumptions C113_names_partial.

(** C114: false for the object returned by [load]; what holds. *)
Theorem C114_shared_refuted : exists (w w' : world bool) r d, has_extension ".pkl" "a.pkl" /\ load true w 0 "a.pkl" = (w', Ok (LoadedObject r)) /\ r <> 0 /\
  attrs w' 0 = Some d /\ attrs (fst (set_attr w' r "x" true)) 0 <> Some d.
Proof. exact shared. Qed.
Print Assumptions C114_shared_refuted.
Theorem C114_independent_partial : forall (V : Type) (picklable : V -> bool) mat meta today m (w : world V) xs x o,
  separate m w -> (forall y, In y (xs ++ [x]) -> object_of y < m) -> o < m -> o <> object_of x ->
  attrs (session picklable mat meta today w (xs ++ [x])) o = attrs (session picklable mat meta today w xs) o.
Proof. exact @independent. Qed.
Print Assumptions C114_independent_partial.

(** C115: false for saving; what holds. *)
Theorem C115_destroyed_refuted : exists (picklable : bool -> bool) (w w' : world bool) d e, has_extension ".pkl" "a.pkl" /\ files w "a.pkl" = Some (PickleFile d) /\
  save picklable Some "" w 0 (Some "a.pkl"%string) = (w', Raise e) /\ forall d', files w' "a.pkl" <> Some (PickleFile d').
Proof. exact destroyed. Qed.
Print Assumptions C115_destroyed_refuted.
Theorem C115_load_partial : forall (V : Type) (meta : V) (w : world V) o n e, snd (load meta w o n) = Raise e -> fst (load meta w o n) = w.
Proof. exact @failed_load. Qed.
Print Assumptions C115_load_partial.

(** C116. *)
Theorem C116_mat_files : forall (V : Type) (picklable : V -> bool) mat meta today (w : world V) o n d w',
  has_extension ".mat" n -> attrs w o = Some d -> NoDup (map fst d) -> save picklable mat today w o (Some n) = (w', Ok n) ->
  exists w'' r d', load meta w' o n = (w'', Ok r) /\ attrs w'' o = Some d' /\
    forall k, lookup k d' = if starts "_"%char k then None else match lookup k d with Some v => mat v | None => None end.
Proof. exact @mat_round_trip. Qed.
Print Assumptions C116_mat_files.

(** Model of the scripts in cluster/ which enumerate clusters and their parts in several
    processes that talk through files.

    Simplified: a file holds one pickled list or dictionary; printing and times are left
    out ([ITime] stands for a time); file names found by [glob] are an argument; a missing
    file raises [GenericException]; using an object of the wrong kind raises [TypeError];
    cluster indices are not negative. *)
From Coq Require Import List Arith NArith QArith Bool String Ascii.
From Verif Require Import Res Matrix ModelGeometry ModelNlce.
Import ListNotations.
Local Open Scope nat_scope.

Inductive item :=
  | INum (n : nat)
  | IClusters (l : list cluster_geom)
  | ICluster (c : cluster_geom)
  | IMults (rows : list (list nat))
  | ITable (t : table)
  | IInds (l : list nat)
  | ITime.
Inductive pickled := PList (l : list item) | PDict (l : list (string * item)).
Definition disk := string -> option pickled.
Definition put_file (d : disk) (name : string) (p : pickled) : disk := fun n => if String.eqb n name then Some p else d n.
Definition read_file (d : disk) (name : string) : res pickled :=
  match d name with Some p => Ok p | None => Raise GenericException end.
(** [data[k]] for an integer [k]; all keys of the dictionaries are strings. *)
Definition get (p : pickled) (k : nat) : res item :=
  match p with
  | PList l => match nth_error l k with Some x => Ok x | None => Raise IndexError end
  | PDict _ => Raise KeyError
  end.
(** [len(x)] *)
Definition len (x : item) : res nat :=
  match x with
  | IClusters l => Ok (List.length l)
  | IMults l => Ok (List.length l)
  | IInds l => Ok (List.length l)
  | _ => Raise TypeError
  end.
Definition as_clusters (x : item) : res (list cluster_geom) := match x with IClusters l => Ok l | _ => Raise TypeError end.
Definition as_inds (x : item) : res (list nat) := match x with IInds l => Ok l | _ => Raise TypeError end.
Definition as_table (x : item) : res table := match x with ITable t => Ok t | _ => Raise TypeError end.

(** The default lattice vectors. *)
Definition e1 : vec := (1, 0)%Q.
Definition e2 : vec := (0, 1)%Q.

(** cluster/generate_clusters.py:7-33 [generate_clusters]. *)
Definition generate_clusters (d : disk) (name : string) (max_order : nat) : disk * res nat :=
  match d name with
  | Some data => (d, x <- get data 2 ;; len x)
  | None =>
    match clusters_with_subclusters max_order e1 e2 true with
    | Raise e => (d, Raise e)
    | Ok (cl, ms, M, inds) =>
      (put_file d name (PDict [("max_cluster_order", INum max_order); ("cluster_multiplicities", IMults [ms]);
                               ("cluster_list", IClusters cl); ("sub_cluster_mult", ITable M); ("order_start_indices", IInds inds)]%string),
       Ok (List.length cl))
    end
  end.

(** cluster/generate_clusters_no_subs.py:8-27 [generate_clusters_no_subs]. *)
Definition generate_no_subs (d : disk) (name : string) (max_order : nat) : disk * res nat :=
  match d name with
  | Some data => (d, x <- get data 1 ;; len x)
  | None =>
    match all_clusters max_order e1 e2 true with
    | Raise e => (d, Raise e)
    | Ok (cl, ms, inds) =>
      (put_file d name (PList [INum max_order; IClusters cl; IInds inds; ITime]), Ok (List.length cl))
    end
  end.

(** cluster/find_subclusters.py:21-32, the table of the parts of one cluster. *)
Definition parts_table (full : list cluster_geom) (inds : list nat) (c : cluster_geom) : res table :=
  let n := List.length full in
  sub <- reduced_subclusters c ;;
  let '(subs, SM, sinds) := sub in
  ps <- map_between full inds subs sinds true ;;
  let ns := List.length subs in
  let R := pair_mat ns n ps in
  let SR := tab ns n (fun i b => qsum ns (fun j => entry SM i j * entry R j b)%Q) in
  Ok (tab n n (fun a b => qsum ns (fun i => entry R i a * entry SR i b)%Q)).
(** cluster/find_subclusters.py:11-36 [find_subclusters]. *)
Definition find_subclusters (d : disk) (index : nat) (out_name in_name : string) : disk * res unit :=
  match (data <- read_file d in_name ;;
         x2 <- get data 2 ;;
         x1 <- get data 1 ;;
         full <- as_clusters x1 ;;
         inds <- as_inds x2 ;;
         match nth_error full index with
         | None => Raise IndexError
         | Some c => T <- parts_table full inds c ;; Ok (PList [INum index; ITable T; ICluster c])
         end) with
  | Ok p => (put_file d out_name p, Ok tt)
  | Raise e => (d, Raise e)
  end.

(** The number found by the expression [^\d]*(\d+)[^\d]* at the start of a name. *)
Definition digit (c : ascii) : option N :=
  let k := N_of_ascii c in if (48 <=? k)%N && (k <=? 57)%N then Some (k - 48)%N else None.
Fixpoint digits (acc : N) (s : string) : N :=
  match s with
  | String c t => match digit c with Some v => digits (10 * acc + v)%N t | None => acc end
  | EmptyString => acc
  end.
Fixpoint file_number (s : string) : res N :=
  match s with
  | EmptyString => Raise AttributeError
  | String c t => match digit c with Some v => Ok (digits v t) | None => file_number t end
  end.
(** [sorted(..., key=...)], which keeps the order of equal keys. *)
Fixpoint insert_file (x : N * string) (l : list (N * string)) : list (N * string) :=
  match l with
  | [] => [x]
  | y :: t => if (fst x <=? fst y)%N then x :: l else y :: insert_file x t
  end.
Definition sort_files (l : list (N * string)) : list (N * string) := fold_right insert_file [] l.

(** cluster/aggregate_subclusters.py:43-47, adding the table of one file. *)
Definition add_table (n : nat) (M F : table) : table :=
  tab n n (fun a b => entry M a b + (if Qle_bool (qsum n (entry M a)) 0 then 1 else 0) * entry F a b)%Q.
(** cluster/aggregate_subclusters.py:10-53 [aggregate_subclusters]; [found] are the
    files found by [glob]. *)
Definition aggregate_subclusters (d : disk) (found : list string) (out_name in_name : string) : disk * res unit :=
  match (data <- read_file d in_name ;;
         x1 <- get data 1 ;;
         n <- len x1 ;;
         if negb (List.length found =? n) then Raise GenericException
         else
           nums <- rmap file_number found ;;
           M <- rfold (fun M nf =>
             fd <- read_file d (snd nf) ;;
             x <- get fd 1 ;;
             F <- as_table x ;;
             Ok (add_table n M F)) (sort_files (combine nums found)) (tab n n (fun _ _ => 0%Q)) ;;
           match data with
           | PList l => Ok (PList (l ++ [ITable M]))
           | PDict _ => Raise AttributeError
           end) with
  | Ok p => (put_file d out_name p, Ok tt)
  | Raise e => (d, Raise e)
  end.

(** cluster/aggregate_results.py:49-63, reading the cluster data and cutting them to the
    largest order: the number of clusters, their multiplicities, the table of parts and
    the bounds of the orders. *)
Definition expansion_data (d : disk) (name : string) : res (nat * list nat * table * list nat) :=
  data <- read_file d name ;;
  x0 <- get data 0 ;;
  x1 <- get data 1 ;;
  _ <- get data 2 ;;
  x3 <- get data 3 ;;
  x4 <- get data 4 ;;
  match x0 with
  | INum order =>
    top <- match x4 with
           | IInds l => match nth_error l order with Some t => Ok t | None => Raise IndexError end
           | ITable t => if order <? List.length t then Raise TypeError else Raise IndexError
           | _ => Raise TypeError
           end ;;
    match x3, x1, x4 with
    | ITable T, IMults (ms :: _), IInds inds =>
        Ok (top, firstn top ms, map (firstn top) (firstn top T), firstn (order + 1) inds)
    | _, _, _ => Raise TypeError
    end
  | _ => Raise TypeError
  end.

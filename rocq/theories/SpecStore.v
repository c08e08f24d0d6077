(** Vocabulary for statements about files. *)
From Coq Require Import List Bool NArith String Ascii.
From Verif Require Import ModelStore.
Import ListNotations.
Local Open Scope string_scope.

(** [name] is a path whose last component is a stem, not made of dots only, followed by
    the extension [e]. *)
Definition has_extension (e name : string) : Prop :=
  exists dir stem, name = dir ++ stem ++ e /\
    (dir = "" \/ exists d, dir = d ++ "/") /\
    ~ In "/"%char (list_ascii_of_string stem) /\ exists c, In c (list_ascii_of_string stem) /\ c <> "."%char.
(** Extensions: a dot and then neither dots nor slashes. *)
Definition plain_extension (e : string) : Prop :=
  exists t, e = "." ++ t /\ forall c, In c (list_ascii_of_string t) -> c <> "."%char /\ c <> "/"%char.
(** [name] ends in [e]. *)
Definition ends_in (e name : string) : Prop := exists p, name = p ++ e.
(** [name] contains a decimal digit. *)
Definition has_digit (name : string) : Prop :=
  exists c, In c (list_ascii_of_string name) /\ (48 <= N_of_ascii c <= 57)%N.

(** The file to which an operation of a session saves. *)
Definition saved_to {V} (today : string) (x : op V) : option string :=
  match x with Save _ (Some n) => Some n | Save _ None => Some (today ++ "_ed.pkl") | _ => None end.
(** The object an operation is called on. *)
Definition object_of {V} (x : op V) : nat := match x with SetAttr o _ _ => o | Save o _ => o | Load o _ => o end.
(** The first [m] objects have dictionaries of their own. *)
Definition separate {V} (m : nat) (w : world V) : Prop :=
  m <= List.length (objs w) /\
  (forall o l, nth_error (objs w) o = Some l -> l < List.length (dicts w)) /\
  (forall o o' l, o < m -> o' < m -> nth_error (objs w) o = Some l -> nth_error (objs w) o' = Some l -> o = o').

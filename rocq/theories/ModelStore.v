(** Model of saving and loading models, exact_diag/ed_base.py:1207-1261.

    Simplified: attribute values are an abstract type; values are not changed in
    place, only attributes are set; a file holds the attributes of a pickled object, the
    variables of a .mat file, or something which cannot be read.  Printing is left
    out.  pickle, [savemat] and [loadmat] are modelled by what they do to attributes:
    - [picklable] says whether pickle can write a value;
    - [mat] gives the array into which [savemat] turns a value, if it can;
      [savemat] skips names that begin with an underscore;
    - [loadmat] also returns the three names [__header__], [__version__] and
      [__globals__].
    Writing begins by emptying the file. *)
From Coq Require Import List Arith Bool String Ascii.
From Verif Require Import Res.
Import ListNotations.

Definition slash : ascii := "/"%char.
Definition dot : ascii := "."%char.

(** [p.rfind(c) + 1] *)
Fixpoint rfind (c : ascii) (p : list ascii) : nat :=
  match p with
  | [] => 0
  | x :: t => match rfind c t with
              | O => if Ascii.eqb x c then 1 else 0
              | S k => S (S k)
              end
  end.
(** The extension returned by [os.path.splitext]: the part from the last dot, if this
    dot is in the last component and something else than dots is before it there. *)
Definition extension (p : list ascii) : list ascii :=
  let s := rfind slash p in
  let d := rfind dot p in
  if s <? d then
    if existsb (fun c => negb (Ascii.eqb c dot)) (firstn (d - 1 - s) (skipn s p)) then skipn (d - 1) p else []
  else [].
Definition ext_of (name : string) : string := string_of_list_ascii (extension (list_ascii_of_string name)).

Section Store.
  Context {V : Type} (picklable : V -> bool) (mat : V -> option V) (meta : V).

  Definition dict := list (string * V).
  Inductive file := PickleFile (d : dict) | MatFile (d : dict) | Broken.
  (** Files; the dictionaries in memory; the dictionary of every object. *)
  Record world := World { files : string -> option file; dicts : list dict; objs : list nat }.

  Definition lookup (k : string) (d : dict) : option V :=
    option_map snd (find (fun kv => String.eqb (fst kv) k) d).
  (** [d[k] = v] *)
  Fixpoint put (k : string) (v : V) (d : dict) : dict :=
    match d with
    | [] => [(k, v)]
    | (k', v') :: t => if String.eqb k' k then (k', v) :: t else (k', v') :: put k v t
    end.
  Definition attrs (w : world) (o : nat) : option dict :=
    match nth_error (objs w) o with Some l => nth_error (dicts w) l | None => None end.
  Definition write (w : world) (name : string) (f : file) : world :=
    World (fun n => if String.eqb n name then Some f else files w n) (dicts w) (objs w).
  Fixpoint set_nth {A} (k : nat) (x : A) (l : list A) : list A :=
    match l, k with
    | [], _ => []
    | _ :: t, O => x :: t
    | y :: t, S k => y :: set_nth k x t
    end.

  Definition set_attr (w : world) (o : nat) (k : string) (v : V) : world * res unit :=
    match nth_error (objs w) o with
    | None => (w, Raise AttributeError)
    | Some l => match nth_error (dicts w) l with
                | None => (w, Raise AttributeError)
                | Some d => (World (files w) (set_nth l (put k v d) (dicts w)) (objs w), Ok tt)
                end
    end.

  Definition starts (c : ascii) (k : string) : bool :=
    match k with String x _ => Ascii.eqb x c | EmptyString => false end.
  (** The variables written by [savemat]. *)
  Definition mat_vars (d : dict) : res dict :=
    rmap (fun kv => match mat (snd kv) with Some v => Ok (fst kv, v) | None => Raise TypeError end)
         (filter (fun kv => negb (starts "_"%char (fst kv))) d).
  Definition mat_header : dict := [("__header__", meta); ("__version__", meta); ("__globals__", meta)]%string.

  (** ed_base.py:1207-1231 [save].  [today] stands for the formatted date. *)
  Definition save (today : string) (w : world) (o : nat) (file_name : option string) : world * res string :=
    let name := match file_name with Some n => n | None => (today ++ "_ed.pkl")%string end in
    match attrs w o with
    | None => (w, Raise AttributeError)
    | Some d =>
      if String.eqb (ext_of name) ".mat" then
        match mat_vars d with
        | Ok vars => (write w name (MatFile vars), Ok name)
        | Raise e => (write w name Broken, Raise e)
        end
      else if String.eqb (ext_of name) ".pkl" then
        if forallb (fun kv => picklable (snd kv)) d then (write w name (PickleFile d), Ok name)
        else (write w name Broken, Raise GenericException)
      else (w, Raise ValueError)
    end.

  (** What [load] returns: a dictionary, or an object. *)
  Inductive loaded := LoadedDict (d : dict) | LoadedObject (o : nat).
  (** ed_base.py:1233-1261 [load].  A missing or unreadable file raises. *)
  Definition load (w : world) (o : nat) (name : string) : world * res loaded :=
    if negb (o <? List.length (objs w)) then (w, Raise AttributeError)
    else if String.eqb (ext_of name) ".mat" then
      match files w name with
      | Some (MatFile vars) =>
          let got := mat_header ++ vars in
          let d := fold_left (fun d kv => if String.eqb (substring 0 2 (fst kv)) "__" then d else put (fst kv) (snd kv) d) got [] in
          (World (files w) (dicts w ++ [d]) (set_nth o (List.length (dicts w)) (objs w)), Ok (LoadedDict got))
      | _ => (w, Raise GenericException)
      end
    else if String.eqb (ext_of name) ".pkl" then
      match files w name with
      | Some (PickleFile d) =>
          let l := List.length (dicts w) in
          (World (files w) (dicts w ++ [d]) (set_nth o l (objs w) ++ [l]), Ok (LoadedObject (List.length (objs w))))
      | _ => (w, Raise GenericException)
      end
    else (w, Raise ValueError).

  (** A session: attributes are set, models are saved and loaded. *)
  Inductive op := SetAttr (o : nat) (k : string) (v : V) | Save (o : nat) (name : option string) | Load (o : nat) (name : string).
  Definition step (today : string) (w : world) (x : op) : world :=
    match x with
    | SetAttr o k v => fst (set_attr w o k v)
    | Save o name => fst (save today w o name)
    | Load o name => fst (load w o name)
    end.
  Definition session (today : string) (w : world) (xs : list op) : world := fold_left (step today) xs w.
End Store.
Arguments world : clear implicits.
Arguments file : clear implicits.
Arguments op : clear implicits.
Arguments dict : clear implicits.
Arguments loaded : clear implicits.

(** Model of the coordinate maps and site permutations of
    exact_diag/ed_symmetry.py (lines 18-213).

    The coordinate maps are stated over the reals.  The functions which look
    for the image of a site compare coordinates, so they are stated over the
    exact rational coordinates of [ModelGeometry], for an arbitrary map of the
    plane with rational values: this includes whatever rounding the map itself
    does, but the reduction to the unit cell is exact. *)
From Coq Require Import List Arith QArith Qabs Reals ZArith Bool.
From Verif Require Import Res Matrix ModelGeometry.
Import ListNotations.

Section Maps.
  Local Open Scope R_scope.
  (** A point of the plane; the python functions act on each column of the
      coordinate array separately. *)
  Definition pt : Type := (R * R)%type.

  (** [rotation_mat] of ed_symmetry.py:37 and :68. *)
  Definition rot (a : R) (v : pt) : pt :=
    (cos a * fst v - sin a * snd v, sin a * fst v + cos a * snd v).
  Definition rot_transposed (a : R) (v : pt) : pt :=
    (cos a * fst v + sin a * snd v, - sin a * fst v + cos a * snd v).
  Definition about (c : pt) (f : pt -> pt) (v : pt) : pt :=
    (fst (f (fst v - fst c, snd v - snd c)) + fst c, snd (f (fst v - fst c, snd v - snd c)) + snd c).

  (** ed_symmetry.py:22-40 [getRotFn]; division by zero is an exception. *)
  Definition rotation_map (n : Z) (c : pt) : res (pt -> pt) :=
    if (n =? 0)%Z then Raise GenericException
    else Ok (about c (rot (2 * PI / IZR n))).

  (** ed_symmetry.py:43-77 [getReflFn]. *)
  Definition reflection_map (v c : pt) : res (pt -> pt) :=
    if Req_EM_T (fst v) 0 then
      if Req_EM_T (snd v) 0 then Raise GenericException
      else let a := atan (fst v / snd v) in
           Ok (about c (fun w => rot_transposed a (let u := rot a w in (- fst u, snd u))))
    else
      let a := if Req_EM_T (snd v) 0 then PI / 2 else atan (fst v / snd v) in
      Ok (about c (fun w => rot_transposed a (let u := rot a w in (- fst u, snd u)))).

  (** ed_symmetry.py:80-90 [getInversionFn]. *)
  Definition inversion_map (c : pt) (v : pt) : pt :=
    (- (fst v - fst c) + fst c, - (snd v - snd c) + snd c).

  (** ed_symmetry.py:93-107 [getTranslFn]. *)
  Definition translation_map (t : pt) (v : pt) : pt := (fst v + fst t, snd v + snd t).
End Maps.

Section Sites.
  Local Open Scope Q_scope.

  (** ed_symmetry.py:130-137 and :143-149: coordinates reduced to the centred
      cell if there is a lattice. *)
  Definition reduced_coords (L : option lattice) (cs : list vec) : res (list vec) :=
    match L with
    | None => Ok cs
    | Some l => rs <- rmap (reduce_vector (lt_p1 l) (lt_p2 l) Centered) cs ;;
                Ok (map (fun r => fst (fst r)) rs)
    end.

  (** ed_symmetry.py:155-156. *)
  Definition within (tol : Q) (v w : vec) : bool :=
    match Qcompare (Qabs (fst v - fst w)) tol, Qcompare (Qabs (snd v - snd w)) tol with
    | Lt, Lt => true | _, _ => false
    end.

  (** ed_symmetry.py:157-161: position of the first site the condition holds for. *)
  Fixpoint first_match (tol : Q) (v : vec) (ws : list vec) (k : nat) : option nat :=
    match ws with
    | [] => None
    | w :: t => if within tol v w then Some k else first_match tol v t (S k)
    end.

  (** ed_symmetry.py:114-164 [getTransformedSites], second return value. *)
  Definition transformed_sites (L : option lattice) (coords : list vec) (f : vec -> vec) (tol : Q)
    (sites : list nat) : res (list nat) :=
    red <- reduced_coords L coords ;;
    tred <- reduced_coords L (map f coords) ;;
    rmap (fun ii =>
      match nth_error tred ii with
      | None => Raise IndexError
      | Some v =>
        match first_match tol v red 0 with
        | None => Raise GenericException
        | Some j => match nth_error sites j with None => Raise IndexError | Some s => Ok s end
        end
      end) (seq 0 (length sites)).

  Fixpoint nats_eqb (a b : list nat) : bool :=
    match a, b with
    | [], [] => true
    | x :: s, y :: t => (x =? y)%nat && nats_eqb s t
    | _, _ => false
    end.

  (** ed_symmetry.py:190-194, the while loop; [cols] holds the columns of
      [trans_sites], the last one first, [cur] is [current_sites] and the fuel is
      what is left of [max_iter] iterations. *)
  Fixpoint close_sites (step : list nat -> res (list nat)) (sites : list nat) (fuel : nat)
    (cols : list (list nat)) (cur : list nat) : res (list (list nat)) :=
    match fuel with
    | O => Ok cols
    | S k => if nats_eqb cur sites then Ok cols
             else match cols with
                  | [] => Raise IndexError
                  | c :: _ => nxt <- step c ;; close_sites step sites k (nxt :: cols) nxt
                  end
    end.

  (** ed_symmetry.py:203-209: the distinct entries of a row in the order of
      their first appearance. *)
  Fixpoint keep_first (seen l : list nat) : list nat :=
    match l with
    | [] => []
    | a :: t => if existsb (Nat.eqb a) seen then keep_first seen t else a :: keep_first (a :: seen) t
    end.

  (** ed_symmetry.py:199-211; [cols] in the order of the iterations. *)
  Definition collect_cycles (n : nat) (cols : list (list nat)) : list (list nat) :=
    fold_left (fun cs ii =>
      if existsb (Nat.eqb ii) (concat cs) then cs
      else cs ++ [keep_first [] (map (fun c => nth ii c O) cols)]) (seq 0 n) [].

  (** ed_symmetry.py:167-213 [findSiteCycles]. *)
  Definition site_cycles (L : option lattice) (coords : list vec) (f : vec -> vec) (tol : Q)
    : res (list (list nat) * nat) :=
    let n := length coords in
    let sites := seq 0 n in
    cols <- close_sites (transformed_sites L coords f tol) sites (n + 1) [sites] (repeat O n) ;;
    let m := (length cols - 1)%nat in
    if (m =? n + 1)%nat then Raise GenericException
    else Ok (collect_cycles n (rev cols), m).

  (** [findSiteCycles(transform_fn, geom_obj)] with the default tolerance. *)
  Definition find_site_cycles {Ph} (f : vec -> vec) (g : geometry Ph) : res (list (list nat) * nat) :=
    site_cycles (g_lat g) (combine (g_x g) (g_y g)) f (1 # 10000000000).
End Sites.

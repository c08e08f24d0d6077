(** Sums over the sites of distances from a point, for C158. *)
From Coq Require Import List QArith.
Import ListNotations.
Local Open Scope Q_scope.
Definition offsets (c : Q) (l : list Q) : Q := fold_right Qplus 0 (map (fun x => x - c) l).
Definition squares (c : Q) (l : list Q) : Q := fold_right Qplus 0 (map (fun x => (x - c) * (x - c)) l).

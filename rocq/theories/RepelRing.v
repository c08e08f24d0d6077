(** Products of four operators: an identity in any ring. *)
From Coq Require Import Setoid Morphisms Ring Ncring Ncring_tac.
Section AnyRing.
  Context {T : Type} `{Rr : Ring T}.
  Lemma four_apart (a b c d : T) : c * d + d * c == 0 -> b * d + d * b == 0 -> b * c + c * b == 0 -> (a * b) * (c * d) == - ((a * d) * (c * b)).
  Proof.
    intros A B C. transitivity ((a * b) * (c * d + d * c) - a * (b * d + d * b) * c + (a * d) * (b * c + c * b) - (a * d) * (c * b)); [non_commutative_ring|]. rewrite A, B, C. non_commutative_ring.
  Qed.
  Lemma four_same (a b c d : T) : c * d + d * c == 0 -> b * d + d * b == 0 -> b * c + c * b == 1 -> (a * b) * (c * d) == (a * d) - ((a * d) * (c * b)).
  Proof.
    intros A B C. transitivity ((a * b) * (c * d + d * c) - a * (b * d + d * b) * c + (a * d) * (b * c + c * b) - (a * d) * (c * b)); [non_commutative_ring|]. rewrite A, B, C. non_commutative_ring.
  Qed.
End AnyRing.

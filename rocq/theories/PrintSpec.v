(** Specification for C92: texts that can be told apart. *)
From Verif Require Export PrintModel SetSpec MapSpec ElemSpec.
From Coq Require Import ZArith DecimalString.

(** Different values have different texts, without the characters that operator << uses as separators. *)
Definition plain {A : Type} (f : A -> text) : Prop :=
  (forall x y, f x = f y -> x = y) /\ (forall x c, In c (f x) -> ~ In c (lit ",)]}> ")).
(** A text that is followed by ")" can be read back. *)
Definition readable {A : Type} (f : A -> text) : Prop :=
  forall v w r s, f v ++ lit ")" ++ r = f w ++ lit ")" ++ s -> v = w /\ r = s.
(** the same borders in the same notation *)
Definition same_borders (X : dom) (k : kind) (a b : itv (D X)) : Prop :=
  lo a = lo b /\ up a = up b /\ bounds_of X k a = bounds_of X k b.
(** decimal numbers *)
Definition show_Z (z : Z) : text := lit (NilZero.string_of_int (Z.to_int z)).
Definition show_string (s : list ascii) : text := s.

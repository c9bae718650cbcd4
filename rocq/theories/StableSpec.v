(** Specification vocabulary for iterators that stay valid. *)
From Verif Require Export LookSpec.

Section StableSpec.
Context (X : dom) (k : kind).
Notation I := (itv (D X)).

(** there is an element between a and b that belongs to neither: they do not touch *)
Definition detached (a b : I) : Prop := exists z,
  ((forall x, mem X k a x -> lt x z) /\ (forall x, mem X k b x -> lt z x)) \/
  ((forall x, mem X k b x -> lt x z) /\ (forall x, mem X k a x -> lt z x)).
(** the segment b is out of reach of an operation on a; joining containers also reach segments that touch a *)
Definition out_of_reach (joining : bool) (b a : I) : Prop := if joining then detached b a else ~ meets X k b a.
(** every iterator to a segment out of reach of a stays valid and shows the same segment *)
Definition stable {V} (joining : bool) (a : I) (t t' : tree (D X) V) : Prop :=
  forall j s, at_seg X t j s -> out_of_reach joining (fst s) a -> at_seg X t' j s.
End StableSpec.

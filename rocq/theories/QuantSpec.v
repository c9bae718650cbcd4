(** Specification for C89 and C90: interval maps of numbers ("quantifiers") and of monoids. *)
From Verif Require Export MapSpec DistinctModel CollSpec ElemModel.
From Coq Require Import ZArith Eqdep_dec.
Open Scope nat_scope.

Section Algebra.
Context (CC : codomain).
Notation V := (C CC).
(** the combiner is associative and has the identity element as neutral element; it need not be
    commutative *)
Definition monoid (f : functor) : Prop :=
  (forall v : V, first_value CC f v = v) /\ (forall v : V, combine CC f cc_zero v = v) /\ (forall v : V, combine CC f v cc_zero = v) /\
  (forall u v w : V, combine CC f (combine CC f u v) w = combine CC f u (combine CC f v w)).
(** a sum of values is the identity element only if both are: numbers without negatives and without
    overflow *)
Definition no_cancellation (f : functor) : Prop := forall v w : V, combine CC f v w = cc_zero -> v = cc_zero /\ w = cc_zero.
End Algebra.

(** std::string: += appends, there is no -= (has_inverse is false, inplace_minus is not used) *)
Definition string_co (A : Type) (eqA : forall a b : A, {a = b} + {a <> b}) : codomain :=
  Codomain (list A) (fun v w => if list_eq_dec eqA v w then true else false) (fun _ _ => false) [] (@app A)
    (fun v _ => v) (fun v _ => v) (fun v _ => v) (fun v _ => v) (fun v _ => v) (fun v _ => v) (fun v => v) (fun v _ => v) (fun v _ => v) false false.

(** unsigned integers with w bits: arithmetic modulo 2^w; has_inverse<unsigned> is false
    (type_traits/has_inverse.hpp 17-24) *)
Definition uint (w : N) : Type := { v : N | (v <? 2 ^ w)%N = true }.
Definition to_uint (w v : N) : uint w.
Proof. exists (v mod 2 ^ w)%N. apply N.ltb_lt. apply N.mod_lt. apply N.pow_nonzero. discriminate. Defined.
Definition unsigned_co (w : N) : codomain :=
  let n := fun v : uint w => proj1_sig v in
  Codomain (uint w) (fun v u => (n v =? n u)%N) (fun v u => (n v <? n u)%N) (to_uint w 0)
    (fun v u => to_uint w (n v + n u)) (fun v u => to_uint w (n v + (2 ^ w - n u))) (fun v u => to_uint w (n v * n u)) (fun v u => to_uint w (n v / n u))
    (fun v u => to_uint w (N.land (n v) (n u))) (fun v u => to_uint w (N.lor (n v) (n u))) (fun v u => to_uint w (N.lxor (n v) (n u)))
    (fun v => to_uint w (2 ^ w - 1 - n v)) (fun v _ => v) (fun v _ => v) false false.

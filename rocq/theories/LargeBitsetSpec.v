(** What a large_bitset represents: the set of numbers n whose bit n mod digits is set in the word
    stored for the chunk n / digits; and the large_bitsets a program can construct. *)
From Verif Require Export LargeBitsetModel.
From Coq Require Import ZArith.
Open Scope Z_scope.

Section Spec.
Context (w : N) (digits : positive).
Notation imap := (tree (uwt w) (C (bits digits))).

Definition has (t : imap) (n : uwt w) : bool :=
  match at_ (udom w) DD (bits digits) t (uof w (uz n / Z.pos digits)) with
  | Some v => bits_contains digits v (uz n mod Z.pos digits)
  | None => false
  end.

(** the word type has 2, 4, 8, ... bits, and DomainT can count the bits of a word *)
Definition sizes_ok : Prop := exists s, 1 <= s <= Z.of_N w /\ Z.pos digits = 2 ^ s.

Inductive lreach : imap -> Prop :=
| L_empty : lreach (lb_empty w digits)
| L_add t a t' : lreach t -> lb_add w digits t a = Ok t' -> lreach t'
| L_subtract t a t' : lreach t -> lb_subtract w digits t a = Ok t' -> lreach t'
| L_intersect t a t' : lreach t -> lb_intersect w digits t a = Ok t' -> lreach t'
| L_flip t a t' : lreach t -> lb_flip w digits t a = Ok t' -> lreach t'
| L_or t o t' : lreach t -> lreach o -> lb_or w digits t o = Ok t' -> lreach t'
| L_minus t o t' : lreach t -> lreach o -> lb_minus w digits t o = Ok t' -> lreach t'
| L_and t o t' : lreach t -> lreach o -> lb_and w digits t o = Ok t' -> lreach t'
| L_xor t o t' : lreach t -> lreach o -> lb_xor w digits t o = Ok t' -> lreach t'.

(** the first and the last number of the operand lie in one chunk *)
Definition one_chunk (a : itv (uwt w)) : Prop :=
  exists c, forall n, mem (udom w) DD a n -> uz n / Z.pos digits = c.
End Spec.

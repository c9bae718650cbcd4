(** Specification vocabulary for operations on interval maps whose combiner throws. *)
From Verif Require Export CrashMapSpec.

Section ThrowSpec.
Context (X : dom) (k : kind) (CC : codomain).
Notation I := (itv (D X)).
Notation V := (C CC).
Notation imap := (tree (D X) V).
Notation at_ := (at_ X k CC).
Notation mem := (mem X k).

(** The keys of a had no value in t.  In t' they form a new segment with the identity element; the other
    segments are those of t. *)
Definition identity_left (t : imap) (a : I) (t' : imap) : Prop :=
  (forall x, mem a x -> at_ t x = None /\ at_ t' x = Some cc_zero) /\
  exists l r, segs X CC t = l ++ r /\ segs X CC t' = l ++ (a, cc_zero) :: r.

(** Every key has its old value or the value it would have got from o. *)
Definition old_or_new (t o : imap) (g : V -> option V -> option V) (t' : imap) : Prop :=
  forall x, at_ t' x = at_ t x \/ exists w, at_ o x = Some w /\ at_ t' x = g w (at_ t x).
(** The same, but the keys of one segment of o, which had no value in t, have got the identity element. *)
Definition old_new_identity (t o : imap) (g : V -> option V -> option V) (t' : imap) : Prop :=
  exists a, In a (keys X o) /\ (exists z, mem a z) /\
    (forall x, mem a x -> at_ t x = None /\ at_ t' x = Some cc_zero) /\
    forall x, ~ mem a x -> at_ t' x = at_ t x \/ exists w, at_ o x = Some w /\ at_ t' x = g w (at_ t x).
End ThrowSpec.

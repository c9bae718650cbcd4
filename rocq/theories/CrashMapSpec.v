(** Specification vocabulary for operations on interval maps that run out of memory. *)
From Verif Require Export CrashSpec MapSpec.

Section CrashMapSpec.
Context (X : dom) (k : kind) (CC : codomain).
Notation I := (itv (D X)).
Notation V := (C CC).
Notation imap := (tree (D X) V).
Notation at_ := (at_ X k CC).
Notation mem := (mem X k).

(** Inside a, the values up to some point are those of t changed by g; the others are changed by g'. *)
Definition up_to_point (t : imap) (a : I) (g g' : option V -> option V) (t' : imap) : Prop :=
  exists reached : D X -> bool,
    (forall x y, mem a x -> mem a y -> lt x y -> reached y = true -> reached x = true) /\
    forall x, mem a x -> at_ t' x = if reached x then g (at_ t x) else g' (at_ t x).
(** Outside a, nothing has changed, except that keys of segments that meet a may have been lost. *)
Definition lost_around (t : imap) (a : I) (t' : imap) : Prop :=
  forall x, ~ mem a x -> at_ t' x = at_ t x \/ at_ t' x = None /\ affected X k t a x.
(** Outside a, nothing has changed. *)
Definition same_outside (t : imap) (a : I) (t' : imap) : Prop :=
  forall x, ~ mem a x -> at_ t' x = at_ t x.
(** the map joins touching segments with equal values *)
Definition joins (p : mpar) : bool := match mp_style p with MJoin => true | MSplit => false end.

(** The map t' left behind can be used further.  Its segments are in order; a split_interval_map is as
    constructible as before; an interval_map becomes so by icl::join, which keeps the function. *)
Definition usable (p : mpar) (t' : imap) : Prop :=
  ascending X k (map fst (segs X CC t')) /\
  (mp_style p = MSplit -> mreach X k CC p t') /\
  exists t'', join X k cc_eq t' = Ok t'' /\ mreach X k CC p t'' /\ forall x, at_ t'' x = at_ t' x.

(** Every key has its old value, the value it would have got from o, or none. *)
Definition old_new_none (t o : imap) (g : V -> option V -> option V) (t' : imap) : Prop :=
  forall x, at_ t' x = at_ t x \/ (exists w, at_ o x = Some w /\ at_ t' x = g w (at_ t x)) \/ at_ t' x = None.
End CrashMapSpec.

(** Specification vocabulary for operations that run out of memory. *)
From Verif Require Export SetSpec StableSpec.

(** m succeeds exactly if at least c segments can be allocated, and then with the result a
    of the ordinary operation r; otherwise an exception leaves a container with P. *)
Definition survives {T A} (m : cm T A) (r : res A) (P : T -> Prop) : Prop :=
  exists c a, r = Ok a /\ forall n,
    (c <= n -> m n = Fine (n - c) a) /\ (n < c -> exists t', m n = Thrown t' /\ P t').

Section CrashSpec.
Context (X : dom) (k : kind).
Notation I := (itv (D X)).
Notation sset := (tree (D X) unit).

(** x lies in a segment of t that shares an element with a *)
Definition affected {V} (t : tree (D X) V) (a : I) (x : D X) : Prop :=
  exists b, In b (keys X t) /\ mem X k b x /\ meets X k b a.

(** What an interrupted addition of a leaves of t: nothing new outside a; nothing lost inside a,
    and elsewhere only elements of segments that meet a; iterators to other segments are still valid. *)
Definition add_interrupted (t : sset) (a : I) (t' : sset) : Prop :=
  (forall x, cmem X k t' x -> cmem X k t x \/ mem X k a x) /\
  (forall x, cmem X k t x -> mem X k a x -> cmem X k t' x) /\
  (forall x, cmem X k t x -> ~ affected t a x -> cmem X k t' x) /\
  stable X k false a t t'.
(** What an interrupted subtraction of a leaves of t: a is removed, nothing is added, and
    outside a only elements of segments that meet a are lost. *)
Definition sub_interrupted (t : sset) (a : I) (t' : sset) : Prop :=
  (forall x, cmem X k t' x -> cmem X k t x /\ ~ mem X k a x) /\
  (forall x, cmem X k t x -> ~ affected t a x -> cmem X k t' x) /\
  stable X k false a t t'.
End CrashSpec.

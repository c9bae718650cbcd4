(** Specification vocabulary for iterators that stay valid in operations with whole containers. *)
From Verif Require Export CrashSpec.

Section StableAllSpec.
Context (X : dom) (k : kind).
Notation I := (itv (D X)).

(** every iterator to a segment out of reach of each of the intervals o stays valid and shows the same segment *)
Definition stable_all {V} (joining : bool) (o : list I) (t t' : tree (D X) V) : Prop :=
  forall i s, at_seg X t i s -> (forall b, In b o -> out_of_reach X k joining (fst s) b) -> at_seg X t' i s.
End StableAllSpec.
(** The operation r, with m its variant that can run out of memory: P holds of the container
    left behind if memory runs out, wherever that happens, and of the result otherwise. *)
Definition in_any_case {T} (m : cm T T) (r : res T) (P : T -> Prop) : Prop :=
  survives m r P /\ forall t', r = Ok t' -> P t'.

(** Vocabulary of C75-C77. *)
From Verif Require Export CompareModel SetSpec MapSpec.

(** The six operators describe one total order on the values satisfying P, whose equivalence is == . *)
Definition total_order {T} (P : T -> Prop) (c : comparison T) : Prop :=
  (* == is an equivalence relation *)
  (forall a, P a -> c_eq c a a = true) /\
  (forall a b, P a -> P b -> c_eq c a b = true -> c_eq c b a = true) /\
  (forall a b d, P a -> P b -> P d -> c_eq c a b = true -> c_eq c b d = true -> c_eq c a d = true) /\
  (* exactly one of a < b, a == b, a > b *)
  (forall a b, P a -> P b ->
     (c_lt c a b = true /\ c_eq c a b = false /\ c_gt c a b = false) \/
     (c_lt c a b = false /\ c_eq c a b = true /\ c_gt c a b = false) \/
     (c_lt c a b = false /\ c_eq c a b = false /\ c_gt c a b = true)) /\
  (* < is transitive *)
  (forall a b d, P a -> P b -> P d -> c_lt c a b = true -> c_lt c b d = true -> c_lt c a d = true) /\
  (* equal values are interchangeable *)
  (forall a b d, P a -> P b -> P d -> c_eq c a b = true -> c_lt c a d = c_lt c b d /\ c_lt c d a = c_lt c d b) /\
  (* the remaining operators *)
  (forall a b, P a -> P b ->
     c_ne c a b = negb (c_eq c a b) /\ c_gt c a b = c_lt c b a /\
     (c_le c a b = true <-> c_lt c a b = true \/ c_eq c a b = true) /\
     (c_ge c a b = true <-> c_gt c a b = true \/ c_eq c a b = true)).

(** l comes before r in the dictionary order: behind a common prefix (up to [same]) l ends and r does not, or
    the next item of l is [less] than the next item of r. *)
Definition dictionary {A} (same less : A -> A -> Prop) (l r : list A) : Prop :=
  exists p l' q r', l = p ++ l' /\ r = q ++ r' /\ Forall2 same p q /\
    ((l' = [] /\ r' <> []) \/ exists a l'' b r'', l' = a :: l'' /\ r' = b :: r'' /\ less a b).

Section Spec.
Context (X : dom) (k : kind).
Notation mem := (mem X k).
(** two intervals with the same elements *)
Definition same_points (a b : itv (D X)) : Prop := forall x, mem a x <-> mem b x.
(** a begins before b, or they begin together and b goes on longer *)
Definition itv_before (a b : itv (D X)) : Prop :=
  (exists x, mem a x /\ forall y, mem b y -> lt x y) \/
  (~ (exists x, mem b x /\ forall y, mem a y -> lt x y) /\ exists y, mem b y /\ forall x, mem a x -> lt x y).
(** some history of operations of a set, of a map constructs t *)
Definition some_set (t : tree (D X) unit) : Prop := exists st, reach X k st t.
Context (CC : codomain).
Definition some_map (t : tree (D X) CC) : Prop := exists p, mreach X k CC p t.
(** segments of maps: the interval decides, then the value *)
Definition seg_same (a b : itv (D X) * CC) : Prop := same_points (fst a) (fst b) /\ snd a = snd b.
Definition seg_before (a b : itv (D X) * CC) : Prop :=
  itv_before (fst a) (fst b) \/ (same_points (fst a) (fst b) /\ cc_lt (snd a) (snd b) = true).
End Spec.

(** Specification vocabulary for interval sets: what a container contains, what its
    traversal looks like, and which sets a program can construct. *)
From Verif Require Export SetModel CrashModel ContModel Spec.
From Coq Require Import Sorted.

Section SetSpec.
Context (X : dom) (k : kind).
Notation I := (itv (D X)).
Notation sset := (tree (D X) unit).
Notation iter := (option nat).

(** The element x is contained in t: one of the intervals a traversal shows contains it. *)
Definition cmem {V} (t : tree (D X) V) (x : D X) : Prop := exists a, In a (keys X t) /\ mem X k a x.

(** for(it = t.begin(); it != t.end(); ++it) show( *it ) *)
Fixpoint traverse {V} (fuel : nat) (t : tree (D X) V) (it : iter) : res (list I) :=
  match fuel with
  | 0 => Err Fuel
  | S fuel =>
      if iter_eqb it (end_ t) then Ok []
      else a <- key t it ;; it <- incr_it t it ;; l <- traverse fuel t it ;; Ok (a :: l)
  end.

(** every interval of the list has an element, and every element of an earlier interval
    precedes every element of a later one *)
Definition ascending (l : list I) : Prop :=
  (forall a, In a l -> exists x, mem X k a x) /\
  StronglySorted (fun a b => forall x y, mem X k a x -> mem X k b y -> lt x y) l.

(** every run of contained elements lies in one stored interval *)
Definition maximal (t : sset) : Prop :=
  forall x y, le x y -> (forall z, le x z -> le z y -> cmem t z) -> same_seg X k (keys X t) x y.

(** no element of the predicate lies between x and y, both included *)
Definition clear_of (P : D X -> Prop) (x y : D X) : Prop := forall z, le x z -> le z y -> ~ P z.

(** z lies in the interval a or in a stored interval that shares an element with a *)
Definition reaches (t : sset) (a : I) (z : D X) : Prop :=
  mem X k a z \/ exists b, In b (keys X t) /\ mem X k b z /\ exists w, mem X k b w /\ mem X k a w.

(** a valid hint: end() or an iterator to a stored interval *)
Definition hint_ok (t : sset) (h : iter) : Prop :=
  match h with None => True | Some i => exists n, In n (nodes t) /\ nid n = i end.

(** The sets a program can construct: the results of every finite history of public
    operations with arbitrary arguments.  Operands that are sets are themselves results of
    such histories, of any style.  Copy construction and operator = of the same style
    copy the value.  Adding or subtracting an interval may also have run out of memory after
    allocating n segments (CrashModel.v); the set is used further all the same.  Element forms of insert and erase are those of add and subtract
    (concept/interval_set.hpp 103-108, 157-163). *)
Inductive reach : style -> sset -> Prop :=
| R_clear st : reach st t_empty
| R_add st t a t' it : reach st t -> s_add X k st t a = Ok (t', it) -> reach st t'
| R_add_hint st t h a t' it : reach st t -> hint_ok t h -> s_add_hint X k st t h a = Ok (t', it) -> reach st t'
| R_add_elem st t x t' it : reach st t -> s_add_elem X k st t x = Ok (t', it) -> reach st t'
| R_subtract st t a t' : reach st t -> s_subtract X k t a = Ok t' -> reach st t'
| R_subtract_elem st t x t' : reach st t -> s_subtract_elem X k t x = Ok t' -> reach st t'
| R_flip st t a t' : reach st t -> s_flip_seg X k st t a = Ok t' -> reach st t'
| R_flip_elem st t x t' : reach st t -> s_flip_elem X k st t x = Ok t' -> reach st t'
| R_and_seg st t a t' : reach st t -> s_and_seg X k st t a = Ok t' -> reach st t'
| R_and_elem st t x t' : reach st t -> s_and_elem X k st t x = Ok t' -> reach st t'
| R_add_set st st' t o t' : reach st t -> reach st' o -> s_add_set X k st t o = Ok t' -> reach st t'
| R_insert_set st st' t o t' : reach st t -> reach st' o -> s_insert_set X k st t o = Ok t' -> reach st t'
| R_subtract_set st st' t o t' : reach st t -> reach st' o -> s_subtract_set X k t o = Ok t' -> reach st t'
| R_and_set st st' t o t' : reach st t -> reach st' o -> s_and_set X k st t o = Ok t' -> reach st t'
| R_flip_set st st' t o t' : reach st t -> reach st' o -> s_flip_set X k st t o = Ok t' -> reach st t'
| R_assign st st' o t' : reach st' o -> s_assign X k st o = Ok t' -> reach st t'
| R_join st t t' : reach st t -> join X k s_coeq t = Ok t' -> reach st t'
| R_domain st st' o t' : reach st' o -> s_domain X k st o = Ok t' -> reach st t'
| R_between st st' o t' : reach st' o -> s_between X k st o = Ok t' -> reach st t'
| R_erase_it st t it t' : reach st t -> erase_it t it = Ok t' -> reach st t'
| R_erase_range st t first past t' : reach st t -> erase_range t first past = Ok t' -> reach st t'
| R_add_thrown st t a n t' : reach st t -> c_add X k st t a n = Thrown t' -> reach st t'
| R_add_hint_thrown st t h a n t' : reach st t -> hint_ok t h -> c_add_hint X k st t h a n = Thrown t' -> reach st t'
| R_subtract_thrown st t a n t' : reach st t -> c_subtract X k t a n = Thrown t' -> reach st t'.

(** the operation neither runs into undefined behaviour nor an assertion, and returns *)
Definition safe {A} (r : res A) : Prop := exists a, r = Ok a.

(** An element the container can store: the interval the library builds from x is {x}. *)
Definition storable (x : D X) : Prop :=
  has_room X k x /\ (dynamic k = true \/ disc X = true).

(** two computations of sets succeed and the results compare equal with operator ==
    (eq_seg) or with is_element_equal (eq_elem) *)
Definition eq_seg (r s : res sset) : Prop :=
  exists a b, r = Ok a /\ s = Ok b /\ s_eqb X k a b = true.
Definition eq_elem (r s : res sset) : Prop :=
  exists a b, r = Ok a /\ s = Ok b /\ is_element_equal X k None a b = Ok true.

(** operators + - & ^ on sets: the left operand is copied and assigned to,
    concept/interval_associator.hpp 407-441, 717-737, 846-880, 1081-1115.  (The overloads
    for a right operand that is an rvalue assign to that operand instead: see the
    commutativity laws.) *)
Definition op2 (f : sset -> sset -> res sset) (a b : res sset) : res sset :=
  a <- a ;; b <- b ;; f a b.
Definition plus_ (st : style) := op2 (s_add_set X k st).
Definition minus_ := op2 (s_subtract_set X k).
Definition and_ (st : style) := op2 (s_and_set X k st).
Definition xor_ (st : style) := op2 (s_flip_set X k st).

End SetSpec.

(** A right-closed stored interval leaves room for the element after its last one: sizes are
    computed with succ(last) (concept/interval.hpp 1012-1105), which overflows at the
    greatest element of a bounded domain. *)
Definition headroom (X : dom) (k : kind) {V} (t : tree (D X) V) : Prop :=
  forall a, In a (keys X t) -> open_right k a = false -> exists y, forall x, mem X k a x -> lt x y.

(** t has an element before and after x but not x itself *)
Definition hole (X : dom) (k : kind) {V} (t : tree (D X) V) (x : D X) : Prop :=
  ~ cmem X k t x /\ (exists y, cmem X k t y /\ lt y x) /\ (exists z, cmem X k t z /\ lt x z).

(** a dereferenceable element iterator: a stored interval and an offset into it *)
Definition eiter_ok (X : dom) (k : kind) (sub : D X -> D X -> Z) {V} (t : tree (D X) V) (e : eiter) : Prop :=
  exists n, In n (nodes t) /\ fst e = Some (nid n) /\ (0 <= snd e < length_ X k sub (nkey n))%Z.

(** repeated addition to an empty set, to build examples *)
Definition build (X : dom) (k : kind) (st : style) (l : list (itv (D X))) : res (tree (D X) unit) :=
  foldM (fun t a => ' (t, _) <- s_add X k st t a ;; Ok t) t_empty l.

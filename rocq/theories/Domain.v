(** Element domains of intervals. *)
From Verif Require Export Order.

(** A domain type together with its [Compare] functor.
    - [ltb]   : [domain_compare()(x,y)]   (concept/interval.hpp 41-47)
    - [next]  : [domain_next]  (concept/interval.hpp 66-74; type_traits/succ_pred.hpp:
                [++] for an increasing, [--] for a decreasing [Compare])
    - [prior] : [domain_prior] (concept/interval.hpp 76-84)
    - [zero]  : [identity_element<domain_type>::value()] (type_traits/identity_element.hpp)
    - [one]   : [unit_element<domain_type>::value()]     (type_traits/unit_element.hpp)
    - [disc]  : [is_discrete<domain_type>::value]        (type_traits/is_discrete.hpp)
    - [incr]  : [is_increasing<domain_type,Compare>::value] (type_traits/is_increasing.hpp),
                false for [std::greater]

    [next] and [prior] are total functions.  For machine integers the value at the
    extreme elements is the wrapped one; no law below mentions it. *)
Record dom := Dom {
  D : Type;
  ltb : D -> D -> bool;
  next : D -> D;
  prior : D -> D;
  zero : D;
  one : D;
  disc : bool;
  incr : bool
}.
Arguments ltb {_}. Arguments next {_}. Arguments prior {_}.
Arguments zero {_}. Arguments one {_}.

(** icl::succ / icl::pred, type_traits/succ_pred.hpp: plain [++]/[--], which ignore
    the direction of [Compare]. *)
Definition succ {X : dom} (x : D X) : D X := if incr X then next x else prior x.
Definition pred {X : dom} (x : D X) : D X := if incr X then prior x else next x.

(** domain_less_equal, concept/interval.hpp 49-55 *)
Definition leb {X : dom} (x y : D X) : bool := negb (ltb y x).

(** domain_equal, concept/interval.hpp 57-64 *)
Definition eqb {X : dom} (x y : D X) : bool := negb (ltb x y) && negb (ltb y x).

(** The interval class templates.
    RO right_open_interval, LO left_open_interval, CL closed_interval,
    OP open_interval, DD discrete_interval, DC continuous_interval.
    (interval_bounds.hpp 22-26 and the [interval_bound_type] specialisations) *)
Inductive kind := RO | LO | CL | OP | DD | DC.

(** has_dynamic_bounds (interval_traits.hpp) *)
Definition dynamic (k : kind) : bool :=
  match k with DD | DC => true | _ => false end.

(** Laws.  They are hypotheses of theorems, never axioms. *)
Definition strict_total (X : dom) : Prop :=
  (forall x : D X, ltb x x = false) /\
  (forall x y z : D X, ltb x y = true -> ltb y z = true -> ltb x z = true) /\
  (forall x y : D X, ltb x y = true \/ x = y \/ ltb y x = true).

(** Steps are exact wherever there is room; nothing is said at the extremes. *)
Definition discrete_ok (X : dom) : Prop :=
  (forall x y : D X, ltb x y = true -> ltb x (next x) = true /\ ltb y (next x) = false) /\
  (forall x y : D X, ltb y x = true -> ltb (prior x) x = true /\ ltb (prior x) y = false).

Definition dense_ok (X : dom) : Prop :=
  forall x y : D X, ltb x y = true -> exists z, ltb x z = true /\ ltb z y = true.

(** What a domain must satisfy to be used with interval kind [k].
    CL: the default interval is [unit_element, identity_element]
    (closed_interval.hpp 37-43), which must be empty. *)
Definition dom_ok (X : dom) (k : kind) : Prop :=
  strict_total X /\
  (disc X = true -> discrete_ok X) /\
  match k with
  | RO | LO => True
  | CL => disc X = true /\ @ltb X zero one = true
  | OP | DD => disc X = true
  | DC => disc X = false /\ dense_ok X
  end.

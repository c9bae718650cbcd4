(** The interval class templates and the functions of concept/interval.hpp.

    All six class templates share the record [itv].  For the four statically bounded
    kinds the field [bd] does not exist in C++; the model never reads it for them
    (see [bounds_of]).  Every function dispatches on [kind] (and on [disc X], i.e.
    is_discrete<domain_type>) exactly where the C++ overload set dispatches by
    enable_if.  Overloads that do not exist for a kind (e.g. [first] for a continuous
    left-open interval) are given the value of the nearest formula; no other function
    of the model calls them at such a kind.

    Line numbers below refer to /repo/include/boost/icl/concept/interval.hpp unless
    another file is named. *)
From Verif Require Export Bounds.

Record itv (A : Type) := Itv { lo : A; up : A; bd : bounds }.
Arguments Itv {A}. Arguments lo {A}. Arguments up {A}. Arguments bd {A}.

Section Interval.
Context (X : dom) (k : kind).
Notation T := (D X).
Notation I := (itv (D X)).

(** interval_bound_type<...>::value of the static class templates:
    right_open_interval.hpp, left_open_interval.hpp, closed_interval.hpp,
    open_interval.hpp; for the dynamic ones: the default argument right_open() of
    construct (248-255). *)
Definition static_bounds : bounds :=
  match k with
  | RO => b_right_open | LO => b_left_open | CL => b_closed | OP => b_open
  | DD | DC => b_right_open
  end.

(** bounds(object), 531-543 *)
Definition bounds_of (a : I) : bounds := if dynamic k then bd a else static_bounds.
(** is_left_closed / is_right_closed (concept/interval_bounds.hpp 71-75) of bounds(object) *)
Definition left_closed (a : I) : bool := bl (bounds_of a).
Definition right_closed (a : I) : bool := br (bounds_of a).

(** construct(low, up), 240-255 *)
Definition construct (l u : T) : I := Itv l u static_bounds.
(** construct(low, up, bounds) for dynamic intervals, 248-255;
    discrete_interval.hpp 118-121, continuous_interval.hpp 120-124 *)
Definition constructb (l u : T) (b : bounds) : I := Itv l u b.

(** bounded_value<DomainT>, interval_bounds.hpp 59-75 *)
Definition bval : Type := (T * bounds)%type.
(** construct_bounded, discrete_interval.hpp 123-132, continuous_interval.hpp 126-135 *)
Definition construct_bounded (l u : bval) : I :=
  Itv (fst l) (fst u) (b_or (b_left (snd l)) (b_right (snd u))).

(** identity_element<Type>::value() = Type(), the default constructors:
    right_open_interval.hpp, left_open_interval.hpp, open_interval.hpp: (0,0);
    closed_interval.hpp 37-43: [1,0]; discrete_interval.hpp 41-43 and
    continuous_interval.hpp 41-43: [0,0). *)
Definition empty_itv : I :=
  match k with
  | CL => construct one zero
  | _ => construct zero zero
  end.

(** singleton, 89-149.  (The overloads for right and left open static intervals exist
    for discrete domains only.)  The BOOST_ASSERTs on numeric_minimum are the
    precondition "value is not the least element". *)
Definition singleton (v : T) : I :=
  match k with
  | RO => construct v (next v)
  | LO => construct (prior v) v
  | OP => construct (prior v) (next v)
  | CL => construct v v
  | DD | DC => constructb v v b_closed
  end.

(** detail::unit_trail, 162-233 *)
Definition unit_trail (v : T) : I :=
  match k with
  | RO => construct v (next v)
  | LO => construct (prior v) v
  | OP => construct (prior v) (next v)
  | CL => construct v v
  | DD | DC => constructb v v b_closed
  end.

(** span, 267-277 *)
Definition span (l r : T) : I := if ltb l r then construct l r else construct r l.

(** hull(domain,domain), 281-363 *)
Definition hull_points (l r : T) : I :=
  match k with
  | RO => if ltb l r then construct l (next r) else construct r (next l)
  | LO => if ltb l r then construct (prior l) r else construct (prior r) l
  | CL => if ltb l r then construct l r else construct r l
  | OP => if ltb l r then construct (prior l) (next r) else construct (prior r) (next l)
  | DD | DC => if ltb l r then constructb l r b_closed else constructb r l b_closed
  end.

(** interval<DomainT,Compare>::open/left_open/right_open/closed under
    BOOST_ICL_USE_STATIC_BOUNDED_INTERVALS: static_interval::construct with pretended
    bounds [decl], interval.hpp 29-75, 99-111 *)
Definition static_interval (decl : bounds) (l u : T) : I :=
  construct (shift_lower decl static_bounds l) (shift_upper decl static_bounds u).

(** lower / upper, 369-383 *)
Definition lower (a : I) : T := lo a.
Definition upper (a : I) : T := up a.

(** first, 387-414 *)
Definition first (a : I) : T :=
  match k with
  | RO | CL => lower a
  | LO | OP => next (lower a)
  | DD | DC => if left_closed a then lower a else next (lower a)
  end.

(** last, 417-456.  BOOST_ASSERT(numeric_minimum::is_less_than(upper)) is the
    precondition "upper is not the least element" of the right open cases. *)
Definition last (a : I) : T :=
  match k with
  | LO | CL => upper a
  | RO | OP => prior (upper a)
  | DD | DC => if right_closed a then upper a else prior (upper a)
  end.

(** last_next, 459-488 *)
Definition last_next (a : I) : T :=
  match k with
  | LO | CL => next (upper a)
  | RO | OP => upper a
  | DD | DC => if right_closed a then next (upper a) else upper a
  end.

(** bounded_lower, reverse_bounded_lower, bounded_upper, reverse_bounded_upper, 491-528 *)
Definition bounded_lower (a : I) : bval := (lower a, b_left (bounds_of a)).
Definition reverse_bounded_lower (a : I) : bval := (lower a, b_reverse_left (bounds_of a)).
Definition bounded_upper (a : I) : bval := (upper a, b_right (bounds_of a)).
Definition reverse_bounded_upper (a : I) : bval := (upper a, b_reverse_right (bounds_of a)).

(** is_empty, 550-592 *)
Definition is_empty (a : I) : bool :=
  match k with
  | RO | LO => leb (upper a) (lower a)
  | CL => ltb (upper a) (lower a)
  | OP => leb (upper a) (lower a) || leb (upper a) (next (lower a))
  | DD =>
      if b_eqb (bounds_of a) b_closed then ltb (upper a) (lower a)
      else if b_eqb (bounds_of a) b_open
           then leb (upper a) (lower a) || leb (upper a) (next (lower a))
           else leb (upper a) (lower a)
  | DC =>
      ltb (upper a) (lower a)
      || (eqb (upper a) (lower a) && negb (b_eqb (bounds_of a) b_closed))
  end.

(** The kind-specific comparison shared by exclusive_less (600-633) and
    non_empty::exclusive_less (806-839) *)
Definition excl_core (l r : I) : bool :=
  match k with
  | RO | LO => leb (upper l) (lower r)
  | CL | OP | DD => ltb (last l) (first r)
  | DC => ltb (upper l) (lower r)
          || (eqb (upper l) (lower r)
              && negb (b_eqb (inner_bounds (bounds_of l) (bounds_of r)) b_open))
  end.

(** exclusive_less, 600-633 *)
Definition exclusive_less (l r : I) : bool :=
  is_empty l || is_empty r || excl_core l r.

(** non_empty::exclusive_less, 806-839, without the BOOST_ASSERT on emptiness.  The
    assertion is modelled where it can be violated: in the tree operations (Tree.v). *)
Definition ne_exclusive_less (l r : I) : bool := excl_core l r.

(** lower_less, 637-659 *)
Definition lower_less (l r : I) : bool :=
  match k with
  | RO | LO | CL | OP => ltb (lower l) (lower r)
  | DD => ltb (first l) (first r)
  | DC => if b_eqb (left_bounds (bounds_of l) (bounds_of r)) b_right_open
          then leb (lower l) (lower r) else ltb (lower l) (lower r)
  end.

(** upper_less, 663-685 *)
Definition upper_less (l r : I) : bool :=
  match k with
  | RO | LO | CL | OP => ltb (upper l) (upper r)
  | DD => ltb (last l) (last r)
  | DC => if b_eqb (right_bounds (bounds_of l) (bounds_of r)) b_left_open
          then leb (upper l) (upper r) else ltb (upper l) (upper r)
  end.

(** lower_min, lower_max, upper_max, upper_min, 688-721 *)
Definition lower_min (l r : I) : bval := if lower_less l r then bounded_lower l else bounded_lower r.
Definition lower_max (l r : I) : bval := if lower_less l r then bounded_lower r else bounded_lower l.
Definition upper_max (l r : I) : bval := if upper_less l r then bounded_upper r else bounded_upper l.
Definition upper_min (l r : I) : bval := if upper_less l r then bounded_upper l else bounded_upper r.

(** lower_equal, 725-752 *)
Definition lower_equal (l r : I) : bool :=
  match k with
  | RO | LO => eqb (lower l) (lower r)
  | CL | OP | DD => eqb (first l) (first r)
  | DC => b_eqb (b_left (bounds_of l)) (b_left (bounds_of r)) && eqb (lower l) (lower r)
  end.

(** upper_equal, 756-783 *)
Definition upper_equal (l r : I) : bool :=
  match k with
  | RO | LO => eqb (upper l) (upper r)
  | CL | OP | DD => eqb (last l) (last r)
  | DC => b_eqb (b_right (bounds_of l)) (b_right (bounds_of r)) && eqb (upper l) (upper r)
  end.

(** lower_less_equal, upper_less_equal, 786-798 *)
Definition lower_less_equal (l r : I) : bool := lower_less l r || lower_equal l r.
Definition upper_less_equal (l r : I) : bool := upper_less l r || upper_equal l r.

(** contains(interval,interval), 841-846 and 851-856 *)
Definition contains_itv (super sub : I) : bool :=
  is_empty sub || (lower_less_equal super sub && upper_less_equal sub super).

(** contains(interval,element), 858-894 *)
Definition contains (a : I) (x : T) : bool :=
  match k with
  | DD | DC =>
      (if left_closed a then leb (lower a) x else ltb (lower a) x)
      && (if right_closed a then leb x (upper a) else ltb x (upper a))
  | _ =>
      if disc X then leb (first a) x && leb x (last a)
      else match k with
           | LO => ltb (lower a) x && leb x (upper a)
           | _ => leb (lower a) x && ltb x (upper a)
           end
  end.

(** within, 897-902 *)
Definition within (sub super : I) : bool := contains_itv super sub.

(** operator ==, 905-911 *)
Definition itv_eqb (l r : I) : bool :=
  (is_empty l && is_empty r) || (lower_equal l r && upper_equal l r).

(** operator <, 921-928 *)
Definition itv_ltb (l r : I) : bool :=
  (negb (is_empty l) && negb (is_empty r))
  && (lower_less l r || (lower_equal l r && upper_less l r)).

(** operator >, <=, >=, 930-956 *)
Definition itv_gtb (l r : I) : bool := itv_ltb r l.
Definition itv_leb (l r : I) : bool :=
  if is_empty l || is_empty r then false else negb (itv_gtb l r).
Definition itv_geb (l r : I) : bool :=
  if is_empty l || is_empty r then false else negb (itv_ltb l r).

(** touches, 961-988 *)
Definition touches (l r : I) : bool :=
  match k with
  | RO | LO => eqb (upper l) (lower r)
  | CL | OP => eqb (last_next l) (first r)
  | DD => eqb (next (last l)) (first r)
  | DC => is_complementary (inner_bounds (bounds_of l) (bounds_of r))
          && eqb (upper l) (lower r)
  end.

(** std::min / std::max with a comparator *)
Definition min_c (x y : T) : T := if ltb y x then y else x.
Definition max_c (x y : T) : T := if ltb x y then y else x.

(** hull(interval,interval), 1120-1153 *)
Definition hull (l r : I) : I :=
  if is_empty r then l
  else if is_empty l then r
  else if dynamic k then construct_bounded (lower_min l r) (upper_max l r)
  else construct (min_c (lower l) (lower r)) (max_c (upper l) (upper r)).

(** left_subtract, 1168-1208 *)
Definition left_subtract (right left_minuend : I) : I :=
  if exclusive_less left_minuend right then right
  else match k with
       | RO | LO => construct (upper left_minuend) (upper right)
       | CL => if upper_less_equal right left_minuend then empty_itv
               else construct (next (upper left_minuend)) (upper right)
       | OP => construct (prior (upper left_minuend)) (upper right)
       | DD | DC => construct_bounded (reverse_bounded_upper left_minuend) (bounded_upper right)
       end.

(** right_subtract, 1221-1261 *)
Definition right_subtract (left right_minuend : I) : I :=
  if exclusive_less left right_minuend then left
  else match k with
       | RO | LO => construct (lower left) (lower right_minuend)
       | CL => if lower_less_equal right_minuend left then empty_itv
               else construct (lower left) (prior (lower right_minuend))
       | OP => construct (lower left) (next (lower right_minuend))
       | DD | DC => construct_bounded (bounded_lower left) (reverse_bounded_lower right_minuend)
       end.

(** operator &, 1268-1314 *)
Definition inter (l r : I) : I :=
  if is_empty l || is_empty r then empty_itv
  else if dynamic k then construct_bounded (lower_max l r) (upper_min l r)
  else construct (max_c (lower l) (lower r)) (min_c (upper l) (upper r)).

(** intersects, disjoint, 1318-1333 *)
Definition intersects (l r : I) : bool :=
  negb (is_empty l || is_empty r || exclusive_less l r || exclusive_less r l).
Definition disjoint (l r : I) : bool :=
  is_empty l || is_empty r || exclusive_less l r || exclusive_less r l.

(** inner_complement, 1339-1393 *)
Definition inner_complement (l r : I) : I :=
  if is_empty l || is_empty r then empty_itv
  else match k with
       | RO | LO =>
           if exclusive_less l r then construct (upper l) (lower r)
           else if exclusive_less r l then construct (upper r) (lower l)
           else empty_itv
       | CL =>
           if exclusive_less l r then construct (next (upper l)) (prior (lower r))
           else if exclusive_less r l then construct (next (upper r)) (prior (lower l))
           else empty_itv
       | OP =>
           if exclusive_less l r then construct (last l) (first r)
           else if exclusive_less r l then construct (last r) (first l)
           else empty_itv
       | DD | DC =>
           if exclusive_less l r then right_subtract (left_subtract (hull l r) l) r
           else if exclusive_less r l then right_subtract (left_subtract (hull r l) r) l
           else empty_itv
       end.

(** between, 1395-1400 *)
Definition between (l r : I) : I := inner_complement l r.

End Interval.

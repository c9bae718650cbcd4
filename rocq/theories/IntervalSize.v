(** Sizes and distances of intervals over domains with subtraction. *)
From Verif Require Export Interval.

(** Value of a size_type: a number, or icl::infinity<SizeT>::value(). *)
Inductive size_t := Fin (z : Z) | Infinite.

Section Size.
Context (X : dom) (k : kind).
(** [sub y x] is the built-in difference [y - x] of domain values, as a mathematical
    integer (the conversion to size_type/difference_type is not modelled). *)
Context (sub : D X -> D X -> Z).
Notation I := (itv (D X)).

(** is_continuous_interval, is_continuous_asymmetric vs the discrete overloads:
    cardinality, concept/interval.hpp 996-1051 *)
Definition cardinality (a : I) : size_t :=
  match k with
  | DC =>
      if is_empty X k a then Fin 0
      else if b_eqb (bounds_of X k a) b_closed && eqb (lower X a) (upper X a) then Fin 1
      else Infinite
  | RO | LO =>
      if disc X
      then if is_empty X k a then Fin 0 else Fin (sub (last_next X k a) (first X k a))
      else if is_empty X k a then Fin 0 else Infinite
  | CL | OP | DD =>
      if is_empty X k a then Fin 0 else Fin (sub (last_next X k a) (first X k a))
  end.

(** size, concept/interval.hpp 1056-1062 *)
Definition size (a : I) : size_t := cardinality a.

(** length, concept/interval.hpp 1065-1103 *)
Definition length_ (a : I) : Z :=
  match k with
  | DC => if is_empty X k a then 0%Z else sub (upper X a) (lower X a)
  | RO | LO =>
      if disc X
      then if is_empty X k a then 0%Z else sub (last_next X k a) (first X k a)
      else if is_empty X k a then 0%Z else sub (upper X a) (lower X a)
  | CL | OP | DD =>
      if is_empty X k a then 0%Z else sub (last_next X k a) (first X k a)
  end.

(** distance of discrete intervals, concept/interval.hpp 1407-1426; [icl::pred] of the
    difference is [-1] *)
Definition distance (a b : I) : Z :=
  if is_empty X k a || is_empty X k b then 0%Z
  else if ltb (last X k a) (first X k b) then (sub (first X k b) (last X k a) - 1)%Z
  else if ltb (last X k b) (first X k a) then (sub (first X k a) (last X k b) - 1)%Z
  else 0%Z.

(** distance of continuous intervals, concept/interval.hpp 1428-1447 *)
Definition distance_cont (a b : I) : Z :=
  if is_empty X k a || is_empty X k b then 0%Z
  else if ltb (upper X a) (lower X b) then sub (lower X b) (upper X a)
  else if ltb (upper X b) (lower X a) then sub (lower X a) (upper X b)
  else 0%Z.
End Size.

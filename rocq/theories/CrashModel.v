(** Adding to and subtracting from an interval set when memory can run out.

    The only operations of the set algorithms that allocate are the insertions into the
    underlying std::set.  An insertion that throws has no effect (exception guarantee of
    the associative containers), and no function of interval_base_set.hpp catches it: the
    exception leaves the container as it is at that moment.  The functions are those of
    SetModel.v, statement by statement, in a monad that carries the number of segments
    that can still be allocated.  Not modelled: exceptions thrown by the domain type (its copy
    operations, comparison) and the allocation of temporaries outside the tree.
    File names are relative to /repo/include/boost/icl. *)
From Verif Require Export SetModel.

(** the outcome: done, with n segments left; an exception, leaving the container as t;
    or an error of the original function *)
Inductive out (T A : Type) := Fine (n : nat) (a : A) | Thrown (t : T) | Bad (e : err).
Arguments Fine {T A}. Arguments Thrown {T A}. Arguments Bad {T A}.
(** a computation, given the number of segments that can be allocated *)
Definition cm (T A : Type) : Type := nat -> out T A.
Definition cret {T A} (a : A) : cm T A := fun n => Fine n a.
Definition cbind {T A B} (m : cm T A) (f : A -> cm T B) : cm T B := fun n =>
  match m n with Fine n a => f a n | Thrown t => Thrown t | Bad e => Bad e end.
(** a step that does not allocate *)
Definition lift {T A} (r : res A) : cm T A := fun n => match r with Ok a => Fine n a | Err e => Bad e end.
Declare Scope cm_scope.
Notation "x <~ e ;; f" := (cbind e (fun x => f)) (at level 61, e at next level, right associativity) : cm_scope.
Notation "' p <~ e ;; f" := (cbind e (fun p => f)) (at level 61, p pattern, e at next level, right associativity) : cm_scope.

(** A function that works on a local container and swaps it with t at the end: an exception
    before the swap leaves t as it was, the local container is destroyed. *)
Definition unwind {T A} (t : T) (m : cm T A) : cm T A := fun n =>
  match m n with Fine n a => Fine n a | Thrown _ => Thrown t | Bad e => Bad e end.
(** a loop *)
Fixpoint cfold {T A B} (f : A -> B -> cm T A) (a : A) (l : list B) : cm T A :=
  match l with [] => cret a | b :: l' => cbind (f a b) (fun a => cfold f a l') end.

Section CrashModel.
Context (X : dom) (k : kind).
Notation I := (itv (D X)).
Local Open Scope cm_scope.

Section Prim.
Context {V : Type}.
Notation tree := (tree (D X) V).
(** insert(value): finds the position first and allocates only if nothing equivalent is stored *)
Definition c_insert (t : tree) (a : I) (v : V) : cm tree (tree * iter * bool) := fun n =>
  match insert X k t a v with
  | Err e => Bad e
  | Ok (t', it, true) => match n with 0 => Thrown t | S n => Fine n (t', it, true) end
  | Ok r => Fine n r
  end.
(** insert(hint, value) *)
Definition c_insert_hint (t : tree) (hint : iter) (a : I) (v : V) : cm tree (tree * iter) :=
  _ <~ lift (check_it t hint) ;; ' (t', it, _) <~ c_insert t a v ;; cret (t', it).
End Prim.

Notation sset := (tree (D X) unit).
(** add_front, interval_base_set.hpp 408-430 *)
Definition c_add_front (t : sset) (inter_val : I) (first_ : iter) : cm sset sset :=
  kf <~ lift (key t first_) ;;
  let left_resid := right_subtract X k kf inter_val in
  if negb (is_empty X k left_resid) then
    prior_ <~ lift (cyclic_prior t first_) ;;
    t <~ lift (set_key t first_ (left_subtract X k kf left_resid)) ;;
    ' (t, _) <~ c_insert_hint t prior_ left_resid tt ;;
    cret t
  else cret t.

(** add_segment, interval_base_set.hpp 432-445 *)
Definition c_add_segment (t : sset) (inter_val : I) (it_ : iter) : cm sset (sset * iter) :=
  ki <~ lift (key t it_) ;;
  let lead_gap := right_subtract X k inter_val ki in
  t <~ (if negb (is_empty X k lead_gap) then
          p <~ lift (cyclic_prior t it_) ;;
          ' (t, _) <~ c_insert_hint t p lead_gap tt ;;
          cret t
        else cret t) ;;
  it_ <~ lift (incr_it t it_) ;;
  cret (t, it_).

(** add_main, interval_base_set.hpp 447-459 *)
Fixpoint c_add_main (fuel : nat) (t : sset) (rest_interval : I) (it_ last_ : iter) : cm sset (sset * I * iter) :=
  match fuel with
  | 0 => lift (Err Fuel)
  | S fuel =>
      if negb (iter_eqb it_ last_) then
        cur_interval <~ lift (key t it_) ;;
        ' (t, it_) <~ c_add_segment t rest_interval it_ ;;
        c_add_main fuel t (left_subtract X k rest_interval cur_interval) it_ last_
      else cret (t, rest_interval, it_)
  end.

(** add_rear, interval_base_set.hpp 461-492 *)
Definition c_add_rear (t : sset) (inter_val : I) (it_ : iter) : cm sset (sset * iter) :=
  prior_ <~ lift (cyclic_prior t it_) ;;
  cur_itv <~ lift (key t it_) ;;
  let lead_gap := right_subtract X k inter_val cur_itv in
  t <~ (if negb (is_empty X k lead_gap) then
          ' (t, _) <~ c_insert_hint t prior_ lead_gap tt ;; cret t
        else cret t) ;;
  let end_gap := left_subtract X k inter_val cur_itv in
  if negb (is_empty X k end_gap) then c_insert_hint t it_ end_gap tt
  else
    let right_resid := left_subtract X k cur_itv inter_val in
    if negb (is_empty X k right_resid) then
      ki <~ lift (key t it_) ;;
      t <~ lift (set_key t it_ (right_subtract X k ki right_resid)) ;;
      c_insert_hint t it_ right_resid tt
    else cret (t, it_).

(** add_over(addend, last_): interval_set.hpp 178-182, separate_interval_set.hpp 165-168,
    split_interval_set.hpp 163-175 *)
Definition c_add_over (st : style) (t : sset) (addend : I) (last_ : iter) : cm sset (sset * iter) :=
  match st with
  | Joining | Separating => lift (s_add_over X k st t addend last_) (* allocates nothing *)
  | Splitting =>
      first_ <~ lift (lower_bound X k t addend) ;;
      t <~ c_add_front t addend first_ ;;
      ' (t, rest_interval, it_) <~ c_add_main (S (length (nodes t))) t addend first_ last_ ;;
      c_add_rear t rest_interval it_
  end.

(** _add(addend), interval_base_set.hpp 497-514 *)
Definition c_add (st : style) (t : sset) (addend : I) : cm sset (sset * iter) :=
  if is_empty X k addend then cret (t, end_ t)
  else
    ' (t, it, inserted) <~ c_insert t addend tt ;;
    if inserted : bool then lift (s_handle_inserted X k st t it) (* allocates nothing *)
    else u <~ lift (upper_bound X k t addend) ;;
         last_ <~ lift (decr_it t u) ;;
         c_add_over st t addend last_.

(** _add(prior_, addend), interval_base_set.hpp 516-535 *)
Definition c_add_hint (st : style) (t : sset) (prior_ : iter) (addend : I) : cm sset (sset * iter) :=
  if is_empty X k addend then cret (t, prior_)
  else
    ' (t, insertion) <~ c_insert_hint t prior_ addend tt ;;
    ki <~ lift (key t insertion) ;;
    if itv_eqb X k ki addend then lift (s_handle_inserted X k st t insertion)
    else u <~ lift (upper_bound X k t addend) ;;
         last_ <~ lift (decr_it t u) ;;
         c_add_over st t addend last_.

(** subtract(minuend), interval_base_set.hpp 540-569 (also erase(interval)) *)
Definition c_subtract (t : sset) (minuend : I) : cm sset sset :=
  if is_empty X k minuend then cret t
  else
    ' (first_, end_) <~ lift (equal_range X k t minuend) ;;
    if iter_eqb first_ end_ then cret t
    else
      last_ <~ lift (decr_it t end_) ;;
      kf <~ lift (key t first_) ;;
      let left_resid := right_subtract X k kf minuend in
      right_resid <~ (if negb (iter_eqb first_ end_)
                      then kl <~ lift (key t last_) ;; cret (left_subtract X k kl minuend)
                      else cret (empty_itv X k)) ;;
      t <~ lift (erase_range t first_ end_) ;;
      t <~ (if negb (is_empty X k left_resid)
            then ' (t, _, _) <~ c_insert t left_resid tt ;; cret t else cret t) ;;
      (if negb (is_empty X k right_resid)
       then ' (t, _, _) <~ c_insert t right_resid tt ;; cret t else cret t).

(* ---------------------------------------------------------------- containers *)
(** operator += (container), concept/interval_associator.hpp 317-326 (also |=) *)
Definition c_add_set (st : style) (t operand : sset) : cm sset sset :=
  ' (t, _) <~ cfold (fun '(t, prior_) n => c_add_hint st t prior_ (nkey n)) (t, end_ t) (nodes operand) ;;
  cret t.
(** insert(container), concept/interval_associator.hpp 603-612 *)
Definition c_insert_set (st : style) (t operand : sset) : cm sset sset :=
  cfold (fun t n => ' (t, _) <~ c_add_hint st t None (nkey n) ;; cret t) t (nodes operand).
(** erase(container), concept/interval_associator.hpp 620-639; operator -=, 703-709 *)
Definition c_subtract_set (t operand : sset) : cm sset sset :=
  match nodes operand with
  | [] => cret t
  | _ =>
      cr <~ lift (common_range X k operand t) ;;
      match cr with
      | None => cret t
      | Some (lwb, upb) =>
          l <~ lift (range X operand lwb upb) ;;
          cfold (fun t n => c_subtract t (nkey n)) t l
      end
  end.

(** add_intersection(section, object, segment), concept/interval_set.hpp 184-207 *)
Definition c_add_intersection_seg (st : style) (section object : sset) (segment : I) : cm sset sset :=
  if is_empty X k segment then cret section
  else
    ' (first_, past_) <~ lift (equal_range X k object segment) ;;
    if iter_eqb first_ past_ then cret section
    else
      l <~ lift (range X object first_ past_) ;;
      ' (s, _) <~ cfold (fun '(s, prior_) n =>
                  let common_interval := inter X k (nkey n) segment in
                  if negb (is_empty X k common_interval)
                  then c_add_hint st s prior_ common_interval else cret (s, prior_))
               (section, end_ section) l ;;
      cret s.
(** add_intersection(section, object, container), concept/interval_associator.hpp 747-765 *)
Definition c_add_intersection (st : style) (section object operand : sset) : cm sset sset :=
  match nodes operand with
  | [] => cret section
  | _ =>
      cr <~ lift (common_range X k operand object) ;;
      match cr with
      | None => cret section
      | Some (lwb, upb) =>
          l <~ lift (range X operand lwb upb) ;;
          cfold (fun s n => c_add_intersection_seg st s object (nkey n)) section l
      end
  end.
(** operator &=, concept/interval_associator.hpp 770-778, for segments and sets *)
Definition c_and_seg (st : style) (t : sset) (a : I) : cm sset sset := unwind t (c_add_intersection_seg st t_empty t a).
Definition c_and_set (st : style) (t operand : sset) : cm sset sset := unwind t (c_add_intersection st t_empty t operand).
End CrashModel.

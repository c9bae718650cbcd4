(** interval_map and split_interval_map.

    A map is a tree whose nodes carry associated values.  File names without a directory
    are relative to /repo/include/boost/icl. *)
From Verif Require Export ContModel.

(* ------------------------------------------------------------------ codomain *)
(** A codomain type with the operators the combining functors use.  [cc_zero] is
    identity_element<CodomainT>::value() (type_traits/identity_element.hpp 15-26),
    [cc_set_sem] is has_set_semantics<CodomainT> (type_traits/has_set_semantics.hpp 19-29),
    [cc_invertible] is has_inverse<CodomainT> (type_traits/has_inverse.hpp 17-24). *)
Record codomain := Codomain {
  C :> Type;
  cc_eq : C -> C -> bool;         (* operator == *)
  cc_lt : C -> C -> bool;         (* operator < *)
  cc_zero : C;
  cc_add : C -> C -> C;           (* operator += *)
  cc_sub : C -> C -> C;           (* operator -= *)
  cc_mul : C -> C -> C;           (* operator *= *)
  cc_div : C -> C -> C;           (* operator /= *)
  cc_and : C -> C -> C;           (* operator &= *)
  cc_or : C -> C -> C;            (* operator |= *)
  cc_xor : C -> C -> C;           (* operator ^= *)
  cc_not : C -> C;                (* operator ~ *)
  cc_insert : C -> C -> C;        (* icl::insert *)
  cc_erase : C -> C -> C;         (* icl::erase *)
  cc_set_sem : bool;
  cc_invertible : bool
}.
Arguments cc_eq {_}. Arguments cc_lt {_}. Arguments cc_zero {_}. Arguments cc_add {_}.
Arguments cc_sub {_}. Arguments cc_mul {_}. Arguments cc_div {_}. Arguments cc_and {_}.
Arguments cc_or {_}. Arguments cc_xor {_}. Arguments cc_not {_}. Arguments cc_insert {_}.
Arguments cc_erase {_}.

(** the inplace functors of functors.hpp 37-268 *)
Inductive functor :=
  | F_identity | F_erasure | F_plus | F_minus | F_bit_add | F_bit_subtract | F_bit_and
  | F_bit_xor | F_et | F_caret | F_insert | F_erase | F_star | F_slash | F_max | F_min
  | F_inter_section.

Section Functors.
Context (CC : codomain).

(** Functor()(object, operand): the new value of object.  Lines of functors.hpp:
    inplace_identity 39-44, inplace_erasure 51-63, inplace_plus 70-79, inplace_minus 85-92,
    inplace_bit_add 98-107, inplace_bit_subtract 113-120, inplace_bit_and 126-133,
    inplace_bit_xor 139-146, inplace_et 149-156, inplace_caret 162-169, inplace_insert
    175-182, inplace_erase 188-195, inplace_star 201-208, inplace_slash 214-221,
    inplace_max 227-237, inplace_min 243-253, inter_section 261-276. *)
Definition combine (f : functor) (object operand : CC) : CC :=
  match f with
  | F_identity => object
  | F_erasure => if cc_eq object operand then cc_zero else object
  | F_plus => cc_add object operand
  | F_minus => cc_sub object operand
  | F_bit_add => cc_or object operand
  | F_bit_subtract => cc_and object (cc_not operand)
  | F_bit_and => cc_and object operand
  | F_bit_xor => cc_xor object operand
  | F_et => cc_and object operand
  | F_caret => cc_xor object operand
  | F_insert => cc_insert object operand
  | F_erase => cc_erase object operand
  | F_star => cc_mul object operand
  | F_slash => cc_div object operand
  | F_max => if cc_lt object operand then operand else object
  | F_min => if cc_lt operand object then operand else object
  | F_inter_section => if cc_set_sem CC then cc_and object operand else cc_add object operand
  end.

(** inverse<Functor>::type, functors.hpp 280-364 *)
Definition inverse (f : functor) : functor :=
  match f with
  | F_plus => F_minus
  | F_minus => F_plus
  | F_bit_add => F_bit_subtract
  | F_bit_subtract => F_bit_add
  | F_et => F_caret
  | F_caret => F_et
  | F_bit_and => F_bit_xor
  | F_bit_xor => F_bit_and
  | F_star => F_slash
  | F_slash => F_star
  | F_max => F_min
  | F_min => F_max
  | F_identity => F_erasure
  | F_inter_section => if cc_set_sem CC then F_caret else F_minus
  | F_erasure | F_insert | F_erase => F_erasure
  end.

(** version<Combiner>()(value), functors.hpp 406-467: the value itself except for
    inplace_minus, where it is 0 - value.  The specialisations for the built-in types
    (448-454) return -value, which is the same value. *)
Definition version (f : functor) (value : CC) : CC :=
  match f with F_minus => cc_sub cc_zero value | _ => value end.

End Functors.

(** The class templates interval_map and split_interval_map with their parameters:
    Traits::absorbs_identities and Traits::is_total (map.hpp 42-77), Combine, Section. *)
Inductive mstyle := MJoin | MSplit.
Record mtype := MType {
  mt_co : codomain;
  mt_style : mstyle;
  mt_absorbs : bool;
  mt_total : bool;
  mt_combine : functor;
  mt_section : functor
}.

Section MapModel.
Context (X : dom) (k : kind) (M : mtype).
Notation I := (itv (D X)).
Notation CC := (mt_co M).
Notation imap := (tree (D X) (C CC)).
Notation iset := (tree (D X) unit).
Notation iter := Tree.iter.
Notation length := List.length.

(** codomain_combine, inverse_codomain_combine, codomain_intersect,
    inverse_codomain_intersect: interval_base_map.hpp 118-132 *)
Definition codomain_combine : functor := mt_combine M.
Definition inverse_codomain_combine : functor := inverse CC codomain_combine.
Definition codomain_intersect : functor :=
  if cc_set_sem CC then mt_section M else codomain_combine.
Definition inverse_codomain_intersect : functor := inverse CC codomain_intersect.
(** is_total_invertible, interval_base_map.hpp 188-191 *)
Definition is_total_invertible : bool := mt_total M && cc_invertible CC.

(** on_absorbtion<Type,Combiner,absorbs>::is_absorbable, detail/on_absorbtion.hpp 17-42.
    Combiner::identity_element() is identity_element<CodomainT>::value() for every functor
    of functors.hpp (20-27). *)
Definition is_absorbable (v : CC) : bool := mt_absorbs M && cc_eq v cc_zero.

(* ------------------------------------------------------------------ handlers *)
(** handle_inserted(it_): interval_map.hpp 154-157, split_interval_map.hpp 135 *)
Definition m_handle_inserted (t : imap) (it_ : iter) : res (imap * iter) :=
  match mt_style M with
  | MJoin => join_neighbours X k cc_eq t it_
  | MSplit => Ok (t, it_)
  end.

(** handle_inserted(prior_, it_): interval_map.hpp 159-163, split_interval_map.hpp 136 *)
Definition m_handle_inserted2 (t : imap) (prior_ it_ : iter) : res imap :=
  match mt_style M with
  | MJoin =>
      if negb (iter_eqb prior_ (end_ t)) then
        j <- joinable X k cc_eq t prior_ it_ ;;
        if j : bool then ' (t, _) <- join_on_right X k cc_eq t prior_ it_ ;; Ok t else Ok t
      else Ok t
  | MSplit => Ok t
  end.

(** handle_left_combined: interval_map.hpp 165-172, split_interval_map.hpp 138-143 *)
Definition m_handle_left_combined (t : imap) (it_ : iter) : res imap :=
  v <- val t it_ ;;
  if is_absorbable v then erase_it t it_
  else match mt_style M with
       | MJoin => ' (t, _) <- join_left X k cc_eq t it_ ;; Ok t
       | MSplit => Ok t
       end.

(** handle_combined: interval_map.hpp 174-181, split_interval_map.hpp 145-150 *)
Definition m_handle_combined (t : imap) (it_ : iter) : res imap :=
  v <- val t it_ ;;
  if is_absorbable v then erase_it t it_
  else match mt_style M with
       | MJoin => ' (t, _) <- join_neighbours X k cc_eq t it_ ;; Ok t
       | MSplit => Ok t
       end.

(** handle_preceeded_combined: interval_map.hpp 183-193, split_interval_map.hpp 152-160;
    returns the new it_ *)
Definition m_handle_preceeded_combined (t : imap) (prior_ it_ : iter) : res (imap * iter) :=
  v <- val t it_ ;;
  if is_absorbable v then t <- erase_it t it_ ;; Ok (t, prior_)
  else match mt_style M with
       | MJoin => join_neighbours X k cc_eq t it_
       | MSplit => Ok (t, it_)
       end.

(** handle_succeeded_combined: interval_map.hpp 195-208, split_interval_map.hpp 162-167 *)
Definition m_handle_succeeded_combined (t : imap) (it_ next_ : iter) : res imap :=
  v <- val t it_ ;;
  if is_absorbable v then
    t <- erase_it t it_ ;;
    match mt_style M with
    | MJoin => ' (t, _) <- join_right X k cc_eq t next_ ;; Ok t
    | MSplit => Ok t
    end
  else
    match mt_style M with
    | MJoin =>
        ' (t, _) <- join_left X k cc_eq t it_ ;;
        ' (t, _) <- join_neighbours X k cc_eq t next_ ;;
        Ok t
    | MSplit => Ok t
    end.

(** handle_reinserted: interval_map.hpp 212-215, split_interval_map.hpp 169 *)
Definition m_handle_reinserted (t : imap) (insertion_ : iter) : res imap :=
  match mt_style M with
  | MJoin => ' (t, _) <- join_right X k cc_eq t insertion_ ;; Ok t
  | MSplit => Ok t
  end.

(* ---------------------------------------------------------- node-level updates *)
(** Combiner()(( *it_).second, co_val) *)
Definition combine_at (f : functor) (t : imap) (it_ : iter) (co_val : CC) : res imap :=
  v <- val t it_ ;; set_val t it_ (combine CC f v co_val).

(** gap_insert, interval_base_map.hpp 552-560 *)
Definition gap_insert (f : functor) (t : imap) (prior_ : iter) (inter_val : I) (co_val : CC)
    : res (imap * iter) :=
  found <- tfind X k t inter_val ;;
  _ <- assert (iter_eqb found (end_ t)) ;;
  _ <- assert (negb (is_absorbable co_val)) ;;
  insert_hint X k t prior_ inter_val (version CC f co_val).

(** add_at, interval_base_map.hpp 562-580 *)
Definition add_at (f : functor) (t : imap) (prior_ : iter) (inter_val : I) (co_val : CC)
    : res (imap * iter * bool) :=
  _ <- assert (negb (is_absorbable co_val)) ;;
  ' (t, inserted_) <- insert_hint X k t prior_ inter_val cc_zero ;;
  n <- deref t inserted_ ;;
  if itv_eqb X k (nkey n) inter_val && cc_eq (nval n) cc_zero then
    t <- combine_at f t inserted_ co_val ;; Ok (t, inserted_, true)
  else Ok (t, inserted_, false).

(** insert_at, interval_base_map.hpp 582-595 *)
Definition insert_at (t : imap) (prior_ : iter) (inter_val : I) (co_val : CC)
    : res (imap * iter * bool) :=
  ' (t, inserted_) <- insert_hint X k t prior_ inter_val co_val ;;
  if iter_eqb inserted_ prior_ then Ok (t, inserted_, false)
  else
    ki <- key t inserted_ ;;
    Ok (t, inserted_, itv_eqb X k ki inter_val).

(* ------------------------------------------------------------------ addition *)
(** add_front, interval_base_map.hpp 815-838; subtract_front, 1015-1029, is the same code *)
Definition m_add_front (t : imap) (inter_val : I) (first_ : iter) : res imap :=
  kf <- key t first_ ;;
  let left_resid := right_subtract X k kf inter_val in
  if negb (is_empty X k left_resid) then
    prior_ <- cyclic_prior t first_ ;;
    t <- set_key t first_ (left_subtract X k kf left_resid) ;;
    v <- val t first_ ;;
    ' (t, _) <- insert_hint X k t prior_ left_resid v ;;
    Ok t
  else Ok t.

(** add_segment, interval_base_map.hpp 840-859; returns the advanced it_ *)
Definition m_add_segment (f : functor) (t : imap) (inter_val : I) (co_val : CC) (it_ : iter)
    : res (imap * iter) :=
  ki <- key t it_ ;;
  let lead_gap := right_subtract X k inter_val ki in
  t <- (if negb (is_empty X k lead_gap) then
          prior_ <- (if iter_eqb it_ (begin_ t) then Ok it_ else decr_it t it_) ;;
          ' (t, inserted_) <- gap_insert f t prior_ lead_gap co_val ;;
          m_handle_inserted2 t prior_ inserted_
        else Ok t) ;;
  t <- combine_at f t it_ co_val ;;
  next_ <- incr_it t it_ ;;
  t <- m_handle_left_combined t it_ ;;
  Ok (t, next_).

(** add_main, interval_base_map.hpp 862-876; returns the remaining interval *)
Fixpoint m_add_main (fuel : nat) (f : functor) (t : imap) (inter_val : I) (co_val : CC)
    (it_ last_ : iter) : res (imap * I * iter) :=
  match fuel with
  | 0 => Err Fuel
  | S fuel =>
      if negb (iter_eqb it_ last_) then
        cur_interval <- key t it_ ;;
        ' (t, it_) <- m_add_segment f t inter_val co_val it_ ;;
        m_add_main fuel f t (left_subtract X k inter_val cur_interval) co_val it_ last_
      else Ok (t, inter_val, it_)
  end.

(** gap_insert_at: interval_map.hpp 218-234, split_interval_map.hpp 171-182 *)
Definition m_gap_insert_at (f : functor) (t : imap) (it_ prior_ : iter) (end_gap : I) (co_val : CC)
    : res (imap * iter) :=
  v <- val t it_ ;;
  if is_absorbable v then
    t <- erase_it t it_ ;;
    ' (t, it_) <- gap_insert f t prior_ end_gap co_val ;;
    match mt_style M with
    | MJoin => join_right X k cc_eq t it_
    | MSplit => Ok (t, it_)
    end
  else
    match mt_style M with
    | MJoin =>
        ' (t, it_) <- join_left X k cc_eq t it_ ;;
        ' (t, inserted_) <- gap_insert f t it_ end_gap co_val ;;
        join_neighbours X k cc_eq t inserted_
    | MSplit => gap_insert f t it_ end_gap co_val
    end.

(** add_rear, interval_base_map.hpp 878-930; returns the new it_ *)
Definition m_add_rear (f : functor) (t : imap) (inter_val : I) (co_val : CC) (it_ : iter)
    : res (imap * iter) :=
  prior_ <- cyclic_prior t it_ ;;
  cur_itv <- key t it_ ;;
  let lead_gap := right_subtract X k inter_val cur_itv in
  t <- (if negb (is_empty X k lead_gap) then
          ' (t, inserted_) <- gap_insert f t prior_ lead_gap co_val ;;
          m_handle_inserted2 t prior_ inserted_
        else Ok t) ;;
  let end_gap := left_subtract X k inter_val cur_itv in
  if negb (is_empty X k end_gap) then
    t <- combine_at f t it_ co_val ;;
    m_gap_insert_at f t it_ prior_ end_gap co_val
  else
    let right_resid := left_subtract X k cur_itv inter_val in
    if is_empty X k right_resid then
      t <- combine_at f t it_ co_val ;;
      m_handle_preceeded_combined t prior_ it_
    else
      ki <- key t it_ ;;
      t <- set_key t it_ (right_subtract X k ki right_resid) ;;
      v <- val t it_ ;;
      ' (t, insertion_) <- insert_hint X k t it_ right_resid v ;;
      t <- m_handle_reinserted t insertion_ ;;
      t <- combine_at f t it_ co_val ;;
      m_handle_preceeded_combined t insertion_ it_.

(** the part of _add after a collision, interval_base_map.hpp 960-970 and 999-1007 *)
Definition m_add_over (f : functor) (t : imap) (inter_val : I) (co_val : CC) : res (imap * iter) :=
  it_ <- lower_bound X k t inter_val ;;
  u <- upper_bound X k t inter_val ;;
  last_ <- decr_it t u ;;
  t <- m_add_front t inter_val it_ ;;
  ' (t, rest_interval, it_) <- m_add_main (S (length (nodes t))) f t inter_val co_val it_ last_ ;;
  m_add_rear f t rest_interval co_val it_.

(** _add<Combiner>(addend), interval_base_map.hpp 936-972 *)
Definition m_add_ (f : functor) (t : imap) (inter_val : I) (co_val : CC) : res (imap * iter) :=
  if is_empty X k inter_val then Ok (t, end_ t)
  else if is_absorbable co_val then Ok (t, end_ t)
  else
    ' (t, it, inserted) <- insert X k t inter_val (version CC f co_val) ;;
    if inserted : bool then m_handle_inserted t it
    else m_add_over f t inter_val co_val.

(** _add<Combiner>(prior_, addend), interval_base_map.hpp 974-1009 *)
Definition m_add_hint_ (f : functor) (t : imap) (prior_ : iter) (inter_val : I) (co_val : CC)
    : res (imap * iter) :=
  if is_empty X k inter_val then Ok (t, prior_)
  else if is_absorbable co_val then Ok (t, prior_)
  else
    ' (t, it, inserted) <- add_at f t prior_ inter_val co_val ;;
    if inserted : bool then m_handle_inserted t it
    else m_add_over f t inter_val co_val.

(** add(segment), interval_base_map.hpp 314-318, also icl::add, +=, |= *)
Definition m_add (t : imap) (a : I) (v : CC) : res imap :=
  ' (t, _) <- m_add_ codomain_combine t a v ;; Ok t.
(** add(prior_, segment), interval_base_map.hpp 323-326 *)
Definition m_add_hint (t : imap) (prior_ : iter) (a : I) (v : CC) : res (imap * iter) :=
  m_add_hint_ codomain_combine t prior_ a v.
(** add(element), concept/interval_map.hpp 152-157 with make_segment, 25-32 *)
Definition m_add_elem (t : imap) (x : D X) (v : CC) : res imap := m_add t (singleton X k x) v.

(* --------------------------------------------------------------- subtraction *)
(** subtract_main, interval_base_map.hpp 1032-1042 *)
Fixpoint m_subtract_main (fuel : nat) (f : functor) (t : imap) (co_val : CC) (it_ last_ : iter)
    : res (imap * iter) :=
  match fuel with
  | 0 => Err Fuel
  | S fuel =>
      if negb (iter_eqb it_ last_) then
        t <- combine_at f t it_ co_val ;;
        next_ <- incr_it t it_ ;;
        t <- m_handle_left_combined t it_ ;;
        m_subtract_main fuel f t co_val next_ last_
      else Ok (t, it_)
  end.

(** subtract_rear, interval_base_map.hpp 1044-1063 *)
Definition m_subtract_rear (f : functor) (t : imap) (inter_val : I) (co_val : CC) (it_ : iter)
    : res imap :=
  ki <- key t it_ ;;
  let right_resid := left_subtract X k ki inter_val in
  if is_empty X k right_resid then
    t <- combine_at f t it_ co_val ;;
    m_handle_combined t it_
  else
    t <- set_key t it_ (right_subtract X k ki right_resid) ;;
    v <- val t it_ ;;
    ' (t, next_) <- insert_hint X k t it_ right_resid v ;;
    t <- combine_at f t it_ co_val ;;
    m_handle_succeeded_combined t it_ next_.

(** _subtract<Combiner>, interval_base_map.hpp 1068-1090 *)
Definition m_subtract_ (f : functor) (t : imap) (inter_val : I) (co_val : CC) : res imap :=
  if is_empty X k inter_val then Ok t
  else if is_absorbable co_val then Ok t
  else
    ' (first_, past_) <- equal_range X k t inter_val ;;
    if iter_eqb first_ past_ then Ok t
    else
      last_ <- decr_it t past_ ;;
      t <- m_add_front t inter_val first_ ;;
      ' (t, it_) <- m_subtract_main (S (length (nodes t))) f t co_val first_ last_ ;;
      m_subtract_rear f t inter_val co_val it_.

(** subtract(segment), interval_base_map.hpp 338-343 with on_invertible, 607-629; also -= *)
Definition m_subtract (t : imap) (a : I) (v : CC) : res imap :=
  if is_total_invertible
  then ' (t, _) <- m_add_ inverse_codomain_combine t a v ;; Ok t
  else m_subtract_ inverse_codomain_combine t a v.
(** subtract(element), concept/interval_map.hpp 253-258 *)
Definition m_subtract_elem (t : imap) (x : D X) (v : CC) : res imap :=
  m_subtract t (singleton X k x) v.

(* ----------------------------------------------------------------- insertion *)
(** the loop of insert_main, interval_base_map.hpp 1105-1121 *)
Fixpoint m_insert_loop (fuel : nat) (t : imap) (rest_interval : I) (co_val : CC)
    (prior_ it_ past_ : iter) : res (imap * I * iter) :=
  match fuel with
  | 0 => Err Fuel
  | S fuel =>
      if negb (iter_eqb it_ past_) then
        cur_itv <- key t it_ ;;
        let left_gap := right_subtract X k rest_interval cur_itv in
        ' (t, it_) <- (if negb (is_empty X k left_gap) then
                         ' (t, inserted_) <- insert_hint X k t prior_ left_gap co_val ;;
                         m_handle_inserted t inserted_
                       else Ok (t, it_)) ;;
        let rest_interval := left_subtract X k rest_interval cur_itv in
        next_ <- incr_it t it_ ;;
        m_insert_loop fuel t rest_interval co_val it_ next_ past_
      else Ok (t, rest_interval, prior_)
  end.
(** insert_main, interval_base_map.hpp 1095-1131; returns the new it_.  A node can be
    visited twice: once before and once after a gap is filled in front of it. *)
Definition m_insert_main (t : imap) (inter_val : I) (co_val : CC) (it_ last_ : iter)
    : res (imap * iter) :=
  past_ <- incr_it t last_ ;;
  prior_ <- cyclic_prior t it_ ;;
  last_interval <- key t last_ ;;
  ' (t, rest_interval, prior_) <-
     m_insert_loop (S (2 * length (nodes t))) t inter_val co_val prior_ it_ past_ ;;
  let end_gap := left_subtract X k rest_interval last_interval in
  if negb (is_empty X k end_gap) then
    ' (t, inserted_) <- insert_hint X k t prior_ end_gap co_val ;;
    m_handle_inserted t inserted_
  else Ok (t, prior_).

(** _insert(addend), interval_base_map.hpp 1134-1161 *)
Definition m_insert_ (t : imap) (inter_val : I) (co_val : CC) : res (imap * iter) :=
  if is_empty X k inter_val then Ok (t, end_ t)
  else if is_absorbable co_val then Ok (t, end_ t)
  else
    ' (t, it, inserted) <- insert X k t inter_val co_val ;;
    if inserted : bool then m_handle_inserted t it
    else
      first_ <- lower_bound X k t inter_val ;;
      u <- upper_bound X k t inter_val ;;
      last_ <- decr_it t u ;;
      m_insert_main t inter_val co_val first_ last_.

(** _insert(prior_, addend), interval_base_map.hpp 1164-1189 *)
Definition m_insert_hint (t : imap) (prior_ : iter) (inter_val : I) (co_val : CC)
    : res (imap * iter) :=
  if is_empty X k inter_val then Ok (t, prior_)
  else if is_absorbable co_val then Ok (t, prior_)
  else
    ' (t, it, inserted) <- insert_at t prior_ inter_val co_val ;;
    if inserted : bool then m_handle_inserted t it
    else
      ' (it_, u) <- equal_range X k t inter_val ;;
      last_ <- decr_it t u ;;
      m_insert_main t inter_val co_val it_ last_.

(** insert(segment), interval_base_map.hpp 355-359; icl::insert *)
Definition m_insert (t : imap) (a : I) (v : CC) : res imap :=
  ' (t, _) <- m_insert_ t a v ;; Ok t.
(** insert(element), concept/interval_map.hpp 183-188 *)
Definition m_insert_elem (t : imap) (x : D X) (v : CC) : res imap := m_insert t (singleton X k x) v.

(* ------------------------------------------------------------------- erasure *)
(** the loop of erase_rest, interval_base_map.hpp 1199-1202 *)
Fixpoint m_erase_loop (fuel : nat) (t : imap) (co_val : CC) (it_ last_ : iter) : res (imap * iter) :=
  match fuel with
  | 0 => Err Fuel
  | S fuel =>
      if negb (iter_eqb it_ last_) then
        v <- val t it_ ;;
        next_ <- incr_it t it_ ;;
        t <- (if cc_eq v co_val then erase_it t it_ else Ok t) ;;
        m_erase_loop fuel t co_val next_ last_
      else Ok (t, it_)
  end.
(** erase_rest, interval_base_map.hpp 1194-1214 *)
Definition m_erase_rest (t : imap) (inter_val : I) (co_val : CC) (it_ last_ : iter) : res imap :=
  ' (t, it_) <- m_erase_loop (S (length (nodes t))) t co_val it_ last_ ;;
  n <- deref t it_ ;;
  if cc_eq (nval n) co_val then
    let right_resid := left_subtract X k (nkey n) inter_val in
    if is_empty X k right_resid then erase_it t it_ else set_key t it_ right_resid
  else Ok t.

(** erase(segment), interval_base_map.hpp 1216-1273 *)
Definition m_erase_seg (t : imap) (inter_val : I) (co_val : CC) : res imap :=
  if is_empty X k inter_val then Ok t
  else if is_absorbable co_val then Ok t
  else
    ' (first_, past_) <- equal_range X k t inter_val ;;
    if iter_eqb first_ past_ then Ok t
    else
      last_ <- cyclic_prior t past_ ;;
      second_ <- incr_it t first_ ;;
      n <- deref t first_ ;;
      let left_resid := right_subtract X k (nkey n) inter_val in
      if iter_eqb first_ last_ then
        let right_resid := left_subtract X k (nkey n) inter_val in
        if cc_eq (nval n) co_val then
          if negb (is_empty X k left_resid) then
            t <- set_key t first_ left_resid ;;
            if negb (is_empty X k right_resid)
            then ' (t, _) <- insert_hint X k t first_ right_resid co_val ;; Ok t else Ok t
          else if negb (is_empty X k right_resid) then set_key t first_ right_resid
          else erase_it t first_
        else Ok t
      else
        t <- (if cc_eq (nval n) co_val then
                if is_empty X k left_resid then erase_it t first_
                else set_key t first_ left_resid
              else Ok t) ;;
        m_erase_rest t inter_val co_val second_ last_.
(** erase(element), concept/interval_map.hpp 233-238 *)
Definition m_erase_pair (t : imap) (x : D X) (v : CC) : res imap := m_erase_seg t (singleton X k x) v.

(** erase(interval), interval_base_map.hpp 1278-1324; icl::subtract(map, interval) *)
Definition m_erase (t : imap) (minuend : I) : res imap :=
  if is_empty X k minuend then Ok t
  else
    ' (first_, past_) <- equal_range X k t minuend ;;
    if iter_eqb first_ past_ then Ok t
    else
      last_ <- decr_it t past_ ;;
      n <- deref t first_ ;;
      kl <- key t last_ ;;
      let left_resid := right_subtract X k (nkey n) minuend in
      let right_resid := left_subtract X k kl minuend in
      if iter_eqb first_ last_ then
        if negb (is_empty X k left_resid) then
          t <- set_key t first_ left_resid ;;
          if negb (is_empty X k right_resid)
          then ' (t, _) <- insert_hint X k t first_ right_resid (nval n) ;; Ok t else Ok t
        else if negb (is_empty X k right_resid)
        then set_key t first_ (left_subtract X k (nkey n) minuend)
        else erase_it t first_
      else
        second_ <- incr_it t first_ ;;
        let start_ := if is_empty X k left_resid then first_ else second_ in
        let stop_ := if is_empty X k right_resid then past_ else last_ in
        t <- erase_range t start_ stop_ ;;
        t <- (if negb (is_empty X k left_resid) then set_key t first_ left_resid else Ok t) ;;
        if negb (is_empty X k right_resid) then set_key t last_ right_resid else Ok t.
(** erase(domain_type), concept/interval_map.hpp 214-221 *)
Definition m_erase_key (t : imap) (x : D X) : res imap := m_erase t (singleton X k x).

(** set_at, concept/interval_map.hpp 283-296; the member functions set, 369-380 *)
Definition m_set (t : imap) (a : I) (v : CC) : res imap :=
  t <- m_erase t a ;; m_insert t a v.
Definition m_set_elem (t : imap) (x : D X) (v : CC) : res imap := m_set t (singleton X k x) v.

(* ------------------------------------------------------------------ queries *)
(** operator()(key), interval_base_map.hpp 296-301 *)
Definition m_lookup (t : imap) (x : D X) : res CC :=
  it_ <- find_elem X k t x ;;
  if iter_eqb it_ (end_ t) then Ok cc_zero else val t it_.

(** contains(map, domain_type), concept/interval_map.hpp 85-95 and 99-106 *)
Definition m_contains_key (t : imap) (x : D X) : res bool :=
  if mt_total M then Ok true
  else it <- find_elem X k t x ;; Ok (negb (iter_eqb it (end_ t))).
(** contains(map, interval_type), concept/interval_map.hpp 85-95 and 108-128 *)
Definition m_contains_itv (t : imap) (a : I) : res bool :=
  if mt_total M then Ok true
  else if is_empty X k a then Ok true
  else
    ' (first_, past_) <- equal_range X k t a ;;
    if iter_eqb first_ past_ then Ok false
    else
      last_overlap <- decr_it t past_ ;;
      kf <- key t first_ ;; kl <- key t last_overlap ;;
      if contains_itv X k (hull X k kf kl) a then is_joinable X k t first_ last_overlap
      else Ok false.
(** contains(map, element_type), concept/interval_map.hpp 41-48 *)
Definition m_contains_pair (t : imap) (x : D X) (v : CC) : res bool :=
  it_ <- find_elem X k t x ;;
  if iter_eqb it_ (end_ t) then Ok false else w <- val t it_ ;; Ok (cc_eq w v).

(** Interval_Map::is_joinable, detail/interval_map_algo.hpp 31-54 *)
Fixpoint m_is_joinable_loop (fuel : nat) (t : imap) (co_value : CC) (it_ next_ past : iter) : res bool :=
  match fuel with
  | 0 => Err Fuel
  | S fuel =>
      if negb (iter_eqb it_ past) then
        v <- val t next_ ;;
        if negb (cc_eq v co_value) then Ok false
        else
          a <- key t it_ ;; b <- key t next_ ;;
          it_ <- incr_it t it_ ;; next_ <- incr_it t next_ ;;
          if negb (touches X k a b) then Ok false
          else m_is_joinable_loop fuel t co_value it_ next_ past
      else Ok true
  end.
Definition m_is_joinable (t : imap) (first past : iter) : res bool :=
  if iter_eqb first (end_ t) then Ok true
  else
    next_ <- incr_it t first ;;
    co_value <- val t first ;;
    m_is_joinable_loop (S (length (nodes t))) t co_value first next_ past.
(** contains(map, segment_type), concept/interval_map.hpp 50-71 *)
Definition m_contains_seg (t : imap) (a : I) (v : CC) : res bool :=
  if is_empty X k a then Ok true
  else
    ' (first_, past_) <- equal_range X k t a ;;
    if iter_eqb first_ past_ then Ok false
    else
      last_overlap <- decr_it t past_ ;;
      n <- deref t first_ ;;
      if negb (cc_eq v (nval n)) then Ok false
      else
        kl <- key t last_overlap ;;
        if contains_itv X k (hull X k (nkey n) kl) a then m_is_joinable t first_ last_overlap
        else Ok false.

(** operator ==, concept/interval_associator.hpp 40-45 with Set::lexicographical_equal,
    detail/set_algo.hpp 112-119: the segments are compared as pairs *)
Fixpoint segs_eqb (l r : list (node (D X) CC)) : bool :=
  match l, r with
  | [], [] => true
  | a :: l, b :: r => itv_eqb X k (nkey a) (nkey b) && cc_eq (nval a) (nval b) && segs_eqb l r
  | _, _ => false
  end.
Definition m_eqb (l r : imap) : bool := segs_eqb (nodes l) (nodes r).
(** operator <, concept/interval_associator.hpp 47-56: std::lexicographical_compare with
    segment_compare = std::less<std::pair<interval,CodomainT>> (interval_base_map.hpp 117) *)
Definition seg_ltb (a b : node (D X) CC) : bool :=
  itv_ltb X k (nkey a) (nkey b)
  || (negb (itv_ltb X k (nkey b) (nkey a)) && cc_lt (nval a) (nval b)).
Fixpoint segs_ltb (l r : list (node (D X) CC)) : bool :=
  match l, r with
  | _, [] => false
  | [], _ :: _ => true
  | a :: l, b :: r => if seg_ltb a b then true else if seg_ltb b a then false else segs_ltb l r
  end.
Definition m_ltb (l r : imap) : bool := segs_ltb (nodes l) (nodes r).

(* ------------------------------------------------------------ container operands *)
(** operator += (map), concept/interval_associator.hpp 317-326 (also |=, and the const&
    overloads of + and |, 339-441).  The operand is only read. *)
Definition m_add_map (t operand : imap) : res imap :=
  ' (t, _) <- foldM (fun '(t, prior_) n => m_add_hint t prior_ (nkey n) (nval n))
                    (t, end_ t) (nodes operand) ;;
  Ok t.
(** operator + (const Type& operand, Type&& object), concept/interval_associator.hpp
    429-434: the left operand is added to the right one *)
Definition m_plus_rvalue (operand object : imap) : res imap := m_add_map object operand.
(** insert(container), concept/interval_associator.hpp 603-612: the hint stays at end() *)
Definition m_insert_map (t operand : imap) : res imap :=
  foldM (fun t n => ' (t, _) <- m_insert_hint t None (nkey n) (nval n) ;; Ok t) t (nodes operand).
(** operator -= (map), concept/interval_associator.hpp 669-680 *)
Definition m_subtract_map (t operand : imap) : res imap :=
  foldM (fun t n => m_subtract t (nkey n) (nval n)) t (nodes operand).
(** erase(container), concept/interval_associator.hpp 620-639, for maps and for sets;
    operator -= (set), 703-709 *)
Definition m_erase_map (t operand : imap) : res imap :=
  match nodes operand with
  | [] => Ok t
  | _ =>
      cr <- common_range X k operand t ;;
      match cr with
      | None => Ok t
      | Some (lwb, upb) =>
          l <- range X operand lwb upb ;;
          foldM (fun t n => m_erase_seg t (nkey n) (nval n)) t l
      end
  end.
Definition m_erase_set (t : imap) (operand : iset) : res imap :=
  match nodes operand with
  | [] => Ok t
  | _ =>
      cr <- common_range X k operand t ;;
      match cr with
      | None => Ok t
      | Some (lwb, upb) =>
          l <- range X operand lwb upb ;;
          foldM (fun t n => m_erase t (nkey n)) t l
      end
  end.

(* -------------------------------------------------------------- intersection *)
(** partial_add_intersection, interval_base_map.hpp 523-547 *)
Definition m_partial_add_intersection (section object : imap) (a : I) (v : CC) : res imap :=
  if is_empty X k a then Ok section
  else
    ' (first_, past_) <- equal_range X k object a ;;
    if iter_eqb first_ past_ then Ok section
    else
      l <- range X object first_ past_ ;;
      foldM (fun s n =>
        let common_interval := inter X k (nkey n) a in
        if negb (is_empty X k common_interval) then
          ' (s, _) <- m_add_ codomain_combine s common_interval (nval n) ;;
          ' (s, _) <- m_add_ codomain_intersect s common_interval v ;;
          Ok s
        else Ok s) section l.
(** total_add_intersection, interval_base_map.hpp 516-521 *)
Definition m_total_add_intersection (section object : imap) (a : I) (v : CC) : res imap :=
  s <- m_add_map section object ;; m_add s a v.
(** add_intersection(section, segment), interval_base_map.hpp 416-420 with on_definedness,
    635-653; concept/interval_map.hpp 304-321 *)
Definition m_add_intersection_seg (section object : imap) (a : I) (v : CC) : res imap :=
  if mt_total M then m_total_add_intersection section object a v
  else m_partial_add_intersection section object a v.
(** add_intersection(section, object, map): total 326-335, partial 340-362 of
    concept/interval_map.hpp *)
Definition m_add_intersection_map (section object operand : imap) : res imap :=
  if mt_total M then
    s <- m_add_map section object ;; m_add_map s operand
  else
    match nodes operand with
    | [] => Ok section
    | _ =>
        cr <- common_range X k operand object ;;
        match cr with
        | None => Ok section
        | Some (lwb, upb) =>
            l <- range X operand lwb upb ;;
            foldM (fun s n => m_add_intersection_seg s object (nkey n) (nval n)) section l
        end
    end.
(** add_intersection(section, object, domain_type), concept/interval_map.hpp 366-378;
    interval_type(key) is the singleton *)
Definition m_add_intersection_key (section object : imap) (x : D X) : res imap :=
  it_ <- find_elem X k object x ;;
  if negb (iter_eqb it_ (end_ object))
  then v <- val object it_ ;; m_add section (singleton X k x) v else Ok section.
(** add_intersection(section, object, interval_type), concept/interval_map.hpp 380-404 *)
Definition m_add_intersection_itv (section object : imap) (a : I) : res imap :=
  if is_empty X k a then Ok section
  else
    ' (first_, past_) <- equal_range X k object a ;;
    if iter_eqb first_ past_ then Ok section
    else
      l <- range X object first_ past_ ;;
      ' (s, _) <- foldM (fun '(s, prior_) n =>
                  let common_interval := inter X k (nkey n) a in
                  if negb (is_empty X k common_interval)
                  then m_add_hint s prior_ common_interval (nval n) else Ok (s, prior_))
               (section, end_ section) l ;;
      Ok s.
(** add_intersection(section, object, key_set), concept/interval_map.hpp 408-426 *)
Definition m_add_intersection_set (section object : imap) (key_set : iset) : res imap :=
  match nodes key_set with
  | [] => Ok section
  | _ =>
      cr <- common_range X k key_set object ;;
      match cr with
      | None => Ok section
      | Some (lwb, upb) =>
          l <- range X key_set lwb upb ;;
          foldM (fun s n => m_add_intersection_itv s object (nkey n)) section l
      end
  end.
(** operator &=, concept/interval_associator.hpp 770-778 *)
Definition m_and_seg (t : imap) (a : I) (v : CC) : res imap := m_add_intersection_seg t_empty t a v.
Definition m_and_pair (t : imap) (x : D X) (v : CC) : res imap := m_and_seg t (singleton X k x) v.
Definition m_and_map (t operand : imap) : res imap := m_add_intersection_map t_empty t operand.
Definition m_and_key (t : imap) (x : D X) : res imap := m_add_intersection_key t_empty t x.
Definition m_and_itv (t : imap) (a : I) : res imap := m_add_intersection_itv t_empty t a.
Definition m_and_set (t : imap) (s : iset) : res imap := m_add_intersection_set t_empty t s.

(** intersects(map, segment), concept/interval_map.hpp 429-449; element 451-459 *)
Definition m_intersects_seg (t : imap) (a : I) (v : CC) : res bool :=
  if mt_total M then Ok true
  else s <- m_add_intersection_seg t_empty t a v ;;
       Ok (match nodes s with [] => false | _ => true end).
Definition m_intersects_pair (t : imap) (x : D X) (v : CC) : res bool :=
  m_intersects_seg t (singleton X k x) v.
(** intersects(map, domain_type) and intersects(map, interval_type),
    concept/interval_associator.hpp 890-906 *)
Definition m_intersects_key (t : imap) (x : D X) : res bool := m_contains_key t x.
Definition m_intersects_itv (t : imap) (a : I) : res bool :=
  if is_empty X k a then Ok false
  else it <- tfind X k t a ;; Ok (negb (iter_eqb it (end_ t))).
(** intersects(map, map), concept/interval_associator.hpp 909-939 *)
Fixpoint m_intersects_loop (isec left : imap) (l : list (node (D X) CC)) : res bool :=
  match l with
  | [] => Ok false
  | n :: l =>
      isec <- m_add_intersection_seg isec left (nkey n) (nval n) ;;
      match nodes isec with [] => m_intersects_loop isec left l | _ => Ok true end
  end.
Definition m_intersects_map (left right : imap) : res bool :=
  if mt_total M then Ok true
  else
    cr <- common_range X k right left ;;
    match cr with
    | None => Ok false
    | Some (lwb, upb) => l <- range X right lwb upb ;; m_intersects_loop t_empty left l
    end.
(** intersects(map, set), concept/interval_associator.hpp 941-964 *)
Fixpoint m_intersects_set_loop (isec left : imap) (l : list (node (D X) unit)) : res bool :=
  match l with
  | [] => Ok false
  | n :: l =>
      isec <- m_add_intersection_itv isec left (nkey n) ;;
      match nodes isec with [] => m_intersects_set_loop isec left l | _ => Ok true end
  end.
Definition m_intersects_set (left : imap) (right : iset) : res bool :=
  match nodes left, nodes right with
  | [], _ | _, [] => Ok false
  | _, _ =>
      cr <- common_range X k right left ;;
      match cr with
      | None => Ok false
      | Some (lwb, upb) => l <- range X right lwb upb ;; m_intersects_set_loop t_empty left l
      end
  end.
(** disjoint, concept/interval_associator.hpp 966-986 *)
Definition m_disjoint_map (left right : imap) : res bool :=
  b <- m_intersects_map left right ;; Ok (negb b).

(* ------------------------------------------------------- symmetric difference *)
(** the loop of flip for partial maps, interval_base_map.hpp 763-797; [eraser] is a
    set_type (interval_set for interval_map, split_interval_set for split_interval_map),
    [isec] is the local map [intersection].  on_codomain_model, 659-697. *)
Definition m_set_style : style := match mt_style M with MJoin => Joining | MSplit => Splitting end.
Fixpoint m_flip_loop (fuel : nat) (t : imap) (eraser : iset) (isec : imap) (span : I) (x_value : CC)
    (it_ past_ : iter) : res (imap * iset * imap * I) :=
  match fuel with
  | 0 => Err Fuel
  | S fuel =>
      if negb (iter_eqb it_ past_) then
        n <- deref t it_ ;;
        let covered := nkey n in
        it_ <- incr_it t it_ ;;
        let left_over := right_subtract X k span covered in
        let common_interval := inter X k span covered in
        ' (eraser, isec) <-
          (if negb (is_empty X k common_interval) then
             ' (eraser, _) <- s_add X k m_set_style eraser common_interval ;;
             isec <- m_add isec common_interval
                       (if cc_set_sem CC
                        then combine CC inverse_codomain_intersect x_value (nval n)
                        else cc_zero) ;;
             Ok (eraser, isec)
           else Ok (eraser, isec)) ;;
        t <- m_add t left_over x_value ;;
        m_flip_loop fuel t eraser isec (left_subtract X k span covered) x_value it_ past_
      else Ok (t, eraser, isec, span)
  end.
(** ( *it_).second = identity_element for all segments, then join unless splitting:
    interval_base_map.hpp 724-733, concept/interval_map.hpp 519-525 *)
Definition m_reset_values (t : imap) : res imap :=
  let t := Tree (map (fun n => Node (nid n) (nkey n) cc_zero) (nodes t)) (fresh t) in
  match mt_style M with MJoin => join X k cc_eq t | MSplit => Ok t end.
(** flip(segment), interval_base_map.hpp 432-437 with on_total_absorbable, 704-807 *)
Definition m_flip_seg (t : imap) (a : I) (v : CC) : res imap :=
  if mt_total M then
    if mt_absorbs M then Ok t_empty
    else t <- m_add t a v ;; m_reset_values t
  else
    ' (first_, past_) <- equal_range X k t a ;;
    ' (t, eraser, isec, span) <-
       m_flip_loop (S (length (nodes t))) t t_empty t_empty a v first_ past_ ;;
    t <- m_add t span v ;;
    t <- m_erase_set t eraser ;;
    m_add_map t isec.
Definition m_flip_elem (t : imap) (x : D X) (v : CC) : res imap := m_flip_seg t (singleton X k x) v.
(** flip(map, map), concept/interval_map.hpp 484-561; operator ^= *)
Definition m_flip_map (t operand : imap) : res imap :=
  if mt_total M then
    if mt_absorbs M then Ok t_empty
    else t <- m_add_map t operand ;; m_reset_values t
  else
    cr <- common_range X k operand t ;;
    match cr with
    | None => m_add_map t operand
    | Some (common_lwb, common_upb) =>
        l1 <- range X operand (begin_ operand) common_lwb ;;
        t <- foldM (fun t n => m_add t (nkey n) (nval n)) t l1 ;;
        l2 <- range X operand common_lwb common_upb ;;
        t <- foldM (fun t n => m_flip_seg t (nkey n) (nval n)) t l2 ;;
        l3 <- range X operand common_upb (end_ operand) ;;
        foldM (fun t n => m_add t (nkey n) (nval n)) t l3
    end.

(* ----------------------------------------------------------------- morphisms *)
(** domain(result, map), concept/interval_map.hpp 566-578; [st] is the style of the set *)
Definition m_domain (st : style) (object : imap) : res iset :=
  ' (s, _) <- foldM (fun '(s, prior_) n => s_add_hint X k st s prior_ (nkey n))
                    (t_empty, None) (nodes object) ;;
  Ok s.
(** between(in_between, map), concept/interval_map.hpp 580-599 *)
Definition m_between (st : style) (object : imap) : res iset :=
  ' (s, _) <- foldM (fun '(s, prior_) '(p, n) =>
                       s_add_hint X k st s prior_ (between X k (nkey p) (nkey n)))
                    (t_empty, None) (pairs (nodes object)) ;;
  Ok s.
(** erase_if, concept/interval_map.hpp 604-614 *)
Fixpoint m_erase_if_loop (fuel : nat) (pred : I -> CC -> bool) (t : imap) (it_ : iter) : res imap :=
  match fuel with
  | 0 => Err Fuel
  | S fuel =>
      if negb (iter_eqb it_ (end_ t)) then
        n <- deref t it_ ;;
        next_ <- incr_it t it_ ;;
        t <- (if pred (nkey n) (nval n) then erase_it t it_ else Ok t) ;;
        m_erase_if_loop fuel pred t next_
      else Ok t
  end.
Definition m_erase_if (pred : I -> CC -> bool) (t : imap) : res imap :=
  m_erase_if_loop (S (length (nodes t))) pred t (begin_ t).
(** absorb_identities, concept/interval_map.hpp 640-655 *)
Definition m_absorb_identities (t : imap) : res imap :=
  if mt_absorbs M then Ok t else m_erase_if (fun _ v => cc_eq v cc_zero) t.
(** assign from another map class: interval_map.hpp 96-107 (hinted add),
    split_interval_map.hpp 81-88 (range insert into the tree) *)
Definition m_assign (src : imap) : res imap :=
  match mt_style M with
  | MJoin => m_add_map t_empty src
  | MSplit => foldM (fun t n => ' (t, _, _) <- insert X k t (nkey n) (nval n) ;; Ok t)
                    t_empty (nodes src)
  end.

End MapModel.

(** The operations on interval maps when combining two values of the codomain type can throw.

    The functions of MapModel.v statement by statement, in the monad of CrashModel.v, where the number
    now counts the calls of the combining functor that will still succeed.  A call that throws leaves
    the value it was called on as it was (for a codomain with a weaker guarantee the value in question
    is unspecified; that is not modelled).  No function catches the exception, so it leaves the map as
    it is at that moment.  Insertions into the underlying std::map succeed; that they throw is the
    subject of CrashMapModel.v.  Operations of the codomain other than the combining functors
    (copying, ==, the version of a value that is inserted into a gap) are taken not to throw here; where
    the last one throws, the state is that of an insertion that throws.  File names are relative to
    /repo/include/boost/icl. *)
From Verif Require Export CrashModel MapModel.

Section ThrowModel.
Context (X : dom) (k : kind) (M : mtype).
Notation I := (itv (D X)).
Notation CC := (mt_co M).
Notation imap := (tree (D X) (C CC)).
Notation iter := Tree.iter.
Notation length := List.length.
Local Open Scope cm_scope.

(** Combiner()(( *it_).second, co_val), which may throw *)
Definition x_combine_at (f : functor) (t : imap) (it_ : iter) (co_val : CC) : cm imap imap := fun n =>
  match combine_at X M f t it_ co_val with
  | Err e => Bad e
  | Ok t' => match n with 0 => Thrown t | S n => Fine n t' end
  end.

(* ------------------------------------------------------------------ addition *)
(** add_segment, interval_base_map.hpp 840-859 *)
Definition xm_add_segment (f : functor) (t : imap) (inter_val : I) (co_val : CC) (it_ : iter) : cm imap (imap * iter) :=
  ki <~ lift (key t it_) ;;
  let lead_gap := right_subtract X k inter_val ki in
  t <~ (if negb (is_empty X k lead_gap) then
          prior_ <~ lift (if iter_eqb it_ (begin_ t) then Ok it_ else decr_it t it_) ;;
          ' (t, inserted_) <~ lift (gap_insert X k M f t prior_ lead_gap co_val) ;;
          lift (m_handle_inserted2 X k M t prior_ inserted_)
        else cret t) ;;
  t <~ x_combine_at f t it_ co_val ;;
  next_ <~ lift (incr_it t it_) ;;
  t <~ lift (m_handle_left_combined X k M t it_) ;;
  cret (t, next_).
(** add_main, interval_base_map.hpp 862-876 *)
Fixpoint xm_add_main (fuel : nat) (f : functor) (t : imap) (inter_val : I) (co_val : CC)
    (it_ last_ : iter) : cm imap (imap * I * iter) :=
  match fuel with
  | 0 => lift (Err Fuel)
  | S fuel =>
      if negb (iter_eqb it_ last_) then
        cur_interval <~ lift (key t it_) ;;
        ' (t, it_) <~ xm_add_segment f t inter_val co_val it_ ;;
        xm_add_main fuel f t (left_subtract X k inter_val cur_interval) co_val it_ last_
      else cret (t, inter_val, it_)
  end.
(** add_rear, interval_base_map.hpp 878-930 *)
Definition xm_add_rear (f : functor) (t : imap) (inter_val : I) (co_val : CC) (it_ : iter) : cm imap (imap * iter) :=
  prior_ <~ lift (cyclic_prior t it_) ;;
  cur_itv <~ lift (key t it_) ;;
  let lead_gap := right_subtract X k inter_val cur_itv in
  t <~ (if negb (is_empty X k lead_gap) then
          ' (t, inserted_) <~ lift (gap_insert X k M f t prior_ lead_gap co_val) ;;
          lift (m_handle_inserted2 X k M t prior_ inserted_)
        else cret t) ;;
  let end_gap := left_subtract X k inter_val cur_itv in
  if negb (is_empty X k end_gap) then
    t <~ x_combine_at f t it_ co_val ;;
    lift (m_gap_insert_at X k M f t it_ prior_ end_gap co_val)
  else
    let right_resid := left_subtract X k cur_itv inter_val in
    if is_empty X k right_resid then
      t <~ x_combine_at f t it_ co_val ;;
      lift (m_handle_preceeded_combined X k M t prior_ it_)
    else
      ki <~ lift (key t it_) ;;
      t <~ lift (set_key t it_ (right_subtract X k ki right_resid)) ;;
      v <~ lift (val t it_) ;;
      ' (t, insertion_) <~ lift (insert_hint X k t it_ right_resid v) ;;
      t <~ lift (m_handle_reinserted X k M t insertion_) ;;
      t <~ x_combine_at f t it_ co_val ;;
      lift (m_handle_preceeded_combined X k M t insertion_ it_).
(** the part of _add after a collision, interval_base_map.hpp 960-970 and 999-1007 *)
Definition xm_add_over (f : functor) (t : imap) (inter_val : I) (co_val : CC) : cm imap (imap * iter) :=
  it_ <~ lift (lower_bound X k t inter_val) ;;
  u <~ lift (upper_bound X k t inter_val) ;;
  last_ <~ lift (decr_it t u) ;;
  t <~ lift (m_add_front X k M t inter_val it_) ;;
  ' (t, rest_interval, it_) <~ xm_add_main (S (length (nodes t))) f t inter_val co_val it_ last_ ;;
  xm_add_rear f t rest_interval co_val it_.
(** _add<Combiner>(addend), interval_base_map.hpp 936-972 *)
Definition xm_add_ (f : functor) (t : imap) (inter_val : I) (co_val : CC) : cm imap (imap * iter) :=
  if is_empty X k inter_val then cret (t, end_ t)
  else if is_absorbable M co_val then cret (t, end_ t)
  else
    ' (t, it, inserted) <~ lift (insert X k t inter_val (version CC f co_val)) ;;
    if inserted : bool then lift (m_handle_inserted X k M t it)
    else xm_add_over f t inter_val co_val.
(** add_at, interval_base_map.hpp 562-580 *)
Definition xm_add_at (f : functor) (t : imap) (prior_ : iter) (inter_val : I) (co_val : CC) : cm imap (imap * iter * bool) :=
  _ <~ lift (assert (negb (is_absorbable M co_val))) ;;
  ' (t, inserted_) <~ lift (insert_hint X k t prior_ inter_val cc_zero) ;;
  n <~ lift (deref t inserted_) ;;
  if itv_eqb X k (nkey n) inter_val && cc_eq (nval n) cc_zero then
    t <~ x_combine_at f t inserted_ co_val ;; cret (t, inserted_, true)
  else cret (t, inserted_, false).
(** _add<Combiner>(prior_, addend), interval_base_map.hpp 977-1010 *)
Definition xm_add_hint_ (f : functor) (t : imap) (prior_ : iter) (inter_val : I) (co_val : CC) : cm imap (imap * iter) :=
  if is_empty X k inter_val then cret (t, prior_)
  else if is_absorbable M co_val then cret (t, prior_)
  else
    ' (t, it, inserted) <~ xm_add_at f t prior_ inter_val co_val ;;
    if inserted : bool then lift (m_handle_inserted X k M t it)
    else xm_add_over f t inter_val co_val.
(** add(prior_, segment), interval_base_map.hpp 323-326 *)
Definition xm_add_hint (t : imap) (prior_ : iter) (a : I) (v : CC) : cm imap (imap * iter) :=
  xm_add_hint_ (codomain_combine M) t prior_ a v.
(** add(segment), interval_base_map.hpp 314-318 *)
Definition xm_add (t : imap) (a : I) (v : CC) : cm imap imap :=
  ' (t, _) <~ xm_add_ (codomain_combine M) t a v ;; cret t.

(* --------------------------------------------------------------- subtraction *)
(** subtract_main, interval_base_map.hpp 1032-1042 *)
Fixpoint xm_subtract_main (fuel : nat) (f : functor) (t : imap) (co_val : CC) (it_ last_ : iter) : cm imap (imap * iter) :=
  match fuel with
  | 0 => lift (Err Fuel)
  | S fuel =>
      if negb (iter_eqb it_ last_) then
        t <~ x_combine_at f t it_ co_val ;;
        next_ <~ lift (incr_it t it_) ;;
        t <~ lift (m_handle_left_combined X k M t it_) ;;
        xm_subtract_main fuel f t co_val next_ last_
      else cret (t, it_)
  end.
(** subtract_rear, interval_base_map.hpp 1044-1063 *)
Definition xm_subtract_rear (f : functor) (t : imap) (inter_val : I) (co_val : CC) (it_ : iter) : cm imap imap :=
  ki <~ lift (key t it_) ;;
  let right_resid := left_subtract X k ki inter_val in
  if is_empty X k right_resid then
    t <~ x_combine_at f t it_ co_val ;;
    lift (m_handle_combined X k M t it_)
  else
    t <~ lift (set_key t it_ (right_subtract X k ki right_resid)) ;;
    v <~ lift (val t it_) ;;
    ' (t, next_) <~ lift (insert_hint X k t it_ right_resid v) ;;
    t <~ x_combine_at f t it_ co_val ;;
    lift (m_handle_succeeded_combined X k M t it_ next_).
(** _subtract<Combiner>, interval_base_map.hpp 1068-1090 *)
Definition xm_subtract_ (f : functor) (t : imap) (inter_val : I) (co_val : CC) : cm imap imap :=
  if is_empty X k inter_val then cret t
  else if is_absorbable M co_val then cret t
  else
    ' (first_, past_) <~ lift (equal_range X k t inter_val) ;;
    if iter_eqb first_ past_ then cret t
    else
      last_ <~ lift (decr_it t past_) ;;
      t <~ lift (m_add_front X k M t inter_val first_) ;;
      ' (t, it_) <~ xm_subtract_main (S (length (nodes t))) f t co_val first_ last_ ;;
      xm_subtract_rear f t inter_val co_val it_.
(** subtract(segment), interval_base_map.hpp 338-343 *)
Definition xm_subtract (t : imap) (a : I) (v : CC) : cm imap imap :=
  if is_total_invertible M
  then ' (t, _) <~ xm_add_ (inverse_codomain_combine M) t a v ;; cret t
  else xm_subtract_ (inverse_codomain_combine M) t a v.

(* ---------------------------------------------------------------- containers *)
(** operator += (map), concept/interval_associator.hpp 317-326 *)
Definition xm_add_map (t operand : imap) : cm imap imap :=
  ' (t, _) <~ cfold (fun '(t, prior_) n => xm_add_hint t prior_ (nkey n) (nval n)) (t, end_ t) (nodes operand) ;;
  cret t.
(** operator -= (map), concept/interval_associator.hpp 669-680 *)
Definition xm_subtract_map (t operand : imap) : cm imap imap :=
  cfold (fun t n => xm_subtract t (nkey n) (nval n)) t (nodes operand).

(* -------------------------------------------------------------- intersection *)
(** partial_add_intersection, interval_base_map.hpp 523-547 *)
Definition xm_partial_add_intersection (section object : imap) (a : I) (v : CC) : cm imap imap :=
  if is_empty X k a then cret section
  else
    ' (first_, past_) <~ lift (equal_range X k object a) ;;
    if iter_eqb first_ past_ then cret section
    else
      l <~ lift (range X object first_ past_) ;;
      cfold (fun s n =>
        let common_interval := inter X k (nkey n) a in
        if negb (is_empty X k common_interval) then
          ' (s, _) <~ xm_add_ (codomain_combine M) s common_interval (nval n) ;;
          ' (s, _) <~ xm_add_ (codomain_intersect M) s common_interval v ;;
          cret s
        else cret s) section l.
(** add_intersection(section, segment), interval_base_map.hpp 416-420 with total_add_intersection, 516-521 *)
Definition xm_add_intersection_seg (section object : imap) (a : I) (v : CC) : cm imap imap :=
  if mt_total M then s <~ xm_add_map section object ;; xm_add s a v
  else xm_partial_add_intersection section object a v.
(** add_intersection(section, object, map), concept/interval_map.hpp 326-362 *)
Definition xm_add_intersection_map (section object operand : imap) : cm imap imap :=
  if mt_total M then s <~ xm_add_map section object ;; xm_add_map s operand
  else
    match nodes operand with
    | [] => cret section
    | _ =>
        cr <~ lift (common_range X k operand object) ;;
        match cr with
        | None => cret section
        | Some (lwb, upb) =>
            l <~ lift (range X operand lwb upb) ;;
            cfold (fun s n => xm_add_intersection_seg s object (nkey n) (nval n)) section l
        end
    end.
(** add_intersection(section, object, interval_type), concept/interval_map.hpp 380-404 *)
Definition xm_add_intersection_itv (section object : imap) (a : I) : cm imap imap :=
  if is_empty X k a then cret section
  else
    ' (first_, past_) <~ lift (equal_range X k object a) ;;
    if iter_eqb first_ past_ then cret section
    else
      l <~ lift (range X object first_ past_) ;;
      ' (s, _) <~ cfold (fun '(s, prior_) n =>
                  let common_interval := inter X k (nkey n) a in
                  if negb (is_empty X k common_interval)
                  then xm_add_hint s prior_ common_interval (nval n) else cret (s, prior_))
               (section, end_ section) l ;;
      cret s.
(** add_intersection(section, object, key_set), concept/interval_map.hpp 408-426 *)
Definition xm_add_intersection_set (section object : imap) (key_set : tree (D X) unit) : cm imap imap :=
  match nodes key_set with
  | [] => cret section
  | _ =>
      cr <~ lift (common_range X k key_set object) ;;
      match cr with
      | None => cret section
      | Some (lwb, upb) =>
          l <~ lift (range X key_set lwb upb) ;;
          cfold (fun s n => xm_add_intersection_itv s object (nkey n)) section l
      end
  end.
(** operator &=, concept/interval_associator.hpp 770-778: the section is local and swapped in *)
Definition xm_and_seg (t : imap) (a : I) (v : CC) : cm imap imap := unwind t (xm_add_intersection_seg t_empty t a v).
Definition xm_and_map (t operand : imap) : cm imap imap := unwind t (xm_add_intersection_map t_empty t operand).
Definition xm_and_itv (t : imap) (a : I) : cm imap imap := unwind t (xm_add_intersection_itv t_empty t a).
Definition xm_and_set (t : imap) (s : tree (D X) unit) : cm imap imap := unwind t (xm_add_intersection_set t_empty t s).
End ThrowModel.

(** The operations on interval maps when memory can run out.

    As in CrashModel.v: the functions of MapModel.v statement by statement, with the number of
    segments that can still be allocated.  Only insertions into the underlying std::map allocate;
    operations of the codomain type are taken not to throw.  File names are relative to
    /repo/include/boost/icl. *)
From Verif Require Export CrashModel MapModel.

Section CrashMapModel.
Context (X : dom) (k : kind) (M : mtype).
Notation I := (itv (D X)).
Notation CC := (mt_co M).
Notation imap := (tree (D X) (C CC)).
Notation iter := Tree.iter.
Notation length := List.length.
Local Open Scope cm_scope.
Notation ins_hint := (c_insert_hint X k).

(* ----------------------------------------------------------------- insertion *)
(** the loop of insert_main, interval_base_map.hpp 1105-1121 *)
Fixpoint cm_insert_loop (fuel : nat) (t : imap) (rest_interval : I) (co_val : CC)
    (prior_ it_ past_ : iter) : cm imap (imap * I * iter) :=
  match fuel with
  | 0 => lift (Err Fuel)
  | S fuel =>
      if negb (iter_eqb it_ past_) then
        cur_itv <~ lift (key t it_) ;;
        let left_gap := right_subtract X k rest_interval cur_itv in
        ' (t, it_) <~ (if negb (is_empty X k left_gap) then
                         ' (t, inserted_) <~ ins_hint t prior_ left_gap co_val ;;
                         lift (m_handle_inserted X k M t inserted_)
                       else cret (t, it_)) ;;
        let rest_interval := left_subtract X k rest_interval cur_itv in
        next_ <~ lift (incr_it t it_) ;;
        cm_insert_loop fuel t rest_interval co_val it_ next_ past_
      else cret (t, rest_interval, prior_)
  end.
(** insert_main, interval_base_map.hpp 1095-1131 *)
Definition cm_insert_main (t : imap) (inter_val : I) (co_val : CC) (it_ last_ : iter) : cm imap (imap * iter) :=
  past_ <~ lift (incr_it t last_) ;;
  prior_ <~ lift (cyclic_prior t it_) ;;
  last_interval <~ lift (key t last_) ;;
  ' (t, rest_interval, prior_) <~
     cm_insert_loop (S (2 * length (nodes t))) t inter_val co_val prior_ it_ past_ ;;
  let end_gap := left_subtract X k rest_interval last_interval in
  if negb (is_empty X k end_gap) then
    ' (t, inserted_) <~ ins_hint t prior_ end_gap co_val ;;
    lift (m_handle_inserted X k M t inserted_)
  else cret (t, prior_).
(** _insert(addend), interval_base_map.hpp 1134-1161 *)
Definition cm_insert_ (t : imap) (inter_val : I) (co_val : CC) : cm imap (imap * iter) :=
  if is_empty X k inter_val then cret (t, end_ t)
  else if is_absorbable M co_val then cret (t, end_ t)
  else
    ' (t, it, inserted) <~ c_insert X k t inter_val co_val ;;
    if inserted : bool then lift (m_handle_inserted X k M t it)
    else
      first_ <~ lift (lower_bound X k t inter_val) ;;
      u <~ lift (upper_bound X k t inter_val) ;;
      last_ <~ lift (decr_it t u) ;;
      cm_insert_main t inter_val co_val first_ last_.
(** insert_at, interval_base_map.hpp 582-595 *)
Definition cm_insert_at (t : imap) (prior_ : iter) (inter_val : I) (co_val : CC) : cm imap (imap * iter * bool) :=
  ' (t, inserted_) <~ ins_hint t prior_ inter_val co_val ;;
  if iter_eqb inserted_ prior_ then cret (t, inserted_, false)
  else ki <~ lift (key t inserted_) ;; cret (t, inserted_, itv_eqb X k ki inter_val).
(** _insert(prior_, addend), interval_base_map.hpp 1164-1189 *)
Definition cm_insert_hint (t : imap) (prior_ : iter) (inter_val : I) (co_val : CC) : cm imap (imap * iter) :=
  if is_empty X k inter_val then cret (t, prior_)
  else if is_absorbable M co_val then cret (t, prior_)
  else
    ' (t, it, inserted) <~ cm_insert_at t prior_ inter_val co_val ;;
    if inserted : bool then lift (m_handle_inserted X k M t it)
    else
      ' (it_, u) <~ lift (equal_range X k t inter_val) ;;
      last_ <~ lift (decr_it t u) ;;
      cm_insert_main t inter_val co_val it_ last_.
(** insert(segment), interval_base_map.hpp 355-359 *)
Definition cm_insert (t : imap) (a : I) (v : CC) : cm imap imap :=
  ' (t, _) <~ cm_insert_ t a v ;; cret t.

(* ------------------------------------------------------------------- erasure *)
(** erase(segment), interval_base_map.hpp 1216-1273; erase_rest does not allocate *)
Definition cm_erase_seg (t : imap) (inter_val : I) (co_val : CC) : cm imap imap :=
  if is_empty X k inter_val then cret t
  else if is_absorbable M co_val then cret t
  else
    ' (first_, past_) <~ lift (equal_range X k t inter_val) ;;
    if iter_eqb first_ past_ then cret t
    else
      last_ <~ lift (cyclic_prior t past_) ;;
      second_ <~ lift (incr_it t first_) ;;
      n <~ lift (deref t first_) ;;
      let left_resid := right_subtract X k (nkey n) inter_val in
      if iter_eqb first_ last_ then
        let right_resid := left_subtract X k (nkey n) inter_val in
        if cc_eq (nval n) co_val then
          if negb (is_empty X k left_resid) then
            t <~ lift (set_key t first_ left_resid) ;;
            if negb (is_empty X k right_resid)
            then ' (t, _) <~ ins_hint t first_ right_resid co_val ;; cret t else cret t
          else if negb (is_empty X k right_resid) then lift (set_key t first_ right_resid)
          else lift (erase_it t first_)
        else cret t
      else
        t <~ lift (if cc_eq (nval n) co_val then
                if is_empty X k left_resid then erase_it t first_
                else set_key t first_ left_resid
              else Ok t) ;;
        lift (m_erase_rest X k M t inter_val co_val second_ last_).
(** erase(interval), interval_base_map.hpp 1278-1324 *)
Definition cm_erase (t : imap) (minuend : I) : cm imap imap :=
  if is_empty X k minuend then cret t
  else
    ' (first_, past_) <~ lift (equal_range X k t minuend) ;;
    if iter_eqb first_ past_ then cret t
    else
      last_ <~ lift (decr_it t past_) ;;
      n <~ lift (deref t first_) ;;
      kl <~ lift (key t last_) ;;
      let left_resid := right_subtract X k (nkey n) minuend in
      let right_resid := left_subtract X k kl minuend in
      if iter_eqb first_ last_ then
        if negb (is_empty X k left_resid) then
          t <~ lift (set_key t first_ left_resid) ;;
          if negb (is_empty X k right_resid)
          then ' (t, _) <~ ins_hint t first_ right_resid (nval n) ;; cret t else cret t
        else if negb (is_empty X k right_resid)
        then lift (set_key t first_ (left_subtract X k (nkey n) minuend))
        else lift (erase_it t first_)
      else
        second_ <~ lift (incr_it t first_) ;;
        let start_ := if is_empty X k left_resid then first_ else second_ in
        let stop_ := if is_empty X k right_resid then past_ else last_ in
        t <~ lift (erase_range t start_ stop_) ;;
        t <~ lift (if negb (is_empty X k left_resid) then set_key t first_ left_resid else Ok t) ;;
        lift (if negb (is_empty X k right_resid) then set_key t last_ right_resid else Ok t).
(** set_at, concept/interval_map.hpp 283-296 *)
Definition cm_set (t : imap) (a : I) (v : CC) : cm imap imap :=
  t <~ cm_erase t a ;; cm_insert t a v.

(* ------------------------------------------------------------------ addition *)
(** gap_insert, interval_base_map.hpp 552-560 *)
Definition cm_gap_insert (f : functor) (t : imap) (prior_ : iter) (inter_val : I) (co_val : CC) : cm imap (imap * iter) :=
  found <~ lift (tfind X k t inter_val) ;;
  _ <~ lift (assert (iter_eqb found (end_ t))) ;;
  _ <~ lift (assert (negb (is_absorbable M co_val))) ;;
  ins_hint t prior_ inter_val (version CC f co_val).
(** add_front, interval_base_map.hpp 815-838; subtract_front, 1015-1029 *)
Definition cm_add_front (t : imap) (inter_val : I) (first_ : iter) : cm imap imap :=
  kf <~ lift (key t first_) ;;
  let left_resid := right_subtract X k kf inter_val in
  if negb (is_empty X k left_resid) then
    prior_ <~ lift (cyclic_prior t first_) ;;
    t <~ lift (set_key t first_ (left_subtract X k kf left_resid)) ;;
    v <~ lift (val t first_) ;;
    ' (t, _) <~ ins_hint t prior_ left_resid v ;;
    cret t
  else cret t.
(** add_segment, interval_base_map.hpp 840-859 *)
Definition cm_add_segment (f : functor) (t : imap) (inter_val : I) (co_val : CC) (it_ : iter) : cm imap (imap * iter) :=
  ki <~ lift (key t it_) ;;
  let lead_gap := right_subtract X k inter_val ki in
  t <~ (if negb (is_empty X k lead_gap) then
          prior_ <~ lift (if iter_eqb it_ (begin_ t) then Ok it_ else decr_it t it_) ;;
          ' (t, inserted_) <~ cm_gap_insert f t prior_ lead_gap co_val ;;
          lift (m_handle_inserted2 X k M t prior_ inserted_)
        else cret t) ;;
  t <~ lift (combine_at X M f t it_ co_val) ;;
  next_ <~ lift (incr_it t it_) ;;
  t <~ lift (m_handle_left_combined X k M t it_) ;;
  cret (t, next_).
(** add_main, interval_base_map.hpp 862-876 *)
Fixpoint cm_add_main (fuel : nat) (f : functor) (t : imap) (inter_val : I) (co_val : CC)
    (it_ last_ : iter) : cm imap (imap * I * iter) :=
  match fuel with
  | 0 => lift (Err Fuel)
  | S fuel =>
      if negb (iter_eqb it_ last_) then
        cur_interval <~ lift (key t it_) ;;
        ' (t, it_) <~ cm_add_segment f t inter_val co_val it_ ;;
        cm_add_main fuel f t (left_subtract X k inter_val cur_interval) co_val it_ last_
      else cret (t, inter_val, it_)
  end.
(** gap_insert_at: interval_map.hpp 218-234, split_interval_map.hpp 171-182 *)
Definition cm_gap_insert_at (f : functor) (t : imap) (it_ prior_ : iter) (end_gap : I) (co_val : CC) : cm imap (imap * iter) :=
  v <~ lift (val t it_) ;;
  if is_absorbable M v then
    t <~ lift (erase_it t it_) ;;
    ' (t, it_) <~ cm_gap_insert f t prior_ end_gap co_val ;;
    match mt_style M with
    | MJoin => lift (join_right X k cc_eq t it_)
    | MSplit => cret (t, it_)
    end
  else
    match mt_style M with
    | MJoin =>
        ' (t, it_) <~ lift (join_left X k cc_eq t it_) ;;
        ' (t, inserted_) <~ cm_gap_insert f t it_ end_gap co_val ;;
        lift (join_neighbours X k cc_eq t inserted_)
    | MSplit => cm_gap_insert f t it_ end_gap co_val
    end.
(** add_rear, interval_base_map.hpp 878-930 *)
Definition cm_add_rear (f : functor) (t : imap) (inter_val : I) (co_val : CC) (it_ : iter) : cm imap (imap * iter) :=
  prior_ <~ lift (cyclic_prior t it_) ;;
  cur_itv <~ lift (key t it_) ;;
  let lead_gap := right_subtract X k inter_val cur_itv in
  t <~ (if negb (is_empty X k lead_gap) then
          ' (t, inserted_) <~ cm_gap_insert f t prior_ lead_gap co_val ;;
          lift (m_handle_inserted2 X k M t prior_ inserted_)
        else cret t) ;;
  let end_gap := left_subtract X k inter_val cur_itv in
  if negb (is_empty X k end_gap) then
    t <~ lift (combine_at X M f t it_ co_val) ;;
    cm_gap_insert_at f t it_ prior_ end_gap co_val
  else
    let right_resid := left_subtract X k cur_itv inter_val in
    if is_empty X k right_resid then
      t <~ lift (combine_at X M f t it_ co_val) ;;
      lift (m_handle_preceeded_combined X k M t prior_ it_)
    else
      ki <~ lift (key t it_) ;;
      t <~ lift (set_key t it_ (right_subtract X k ki right_resid)) ;;
      v <~ lift (val t it_) ;;
      ' (t, insertion_) <~ ins_hint t it_ right_resid v ;;
      t <~ lift (m_handle_reinserted X k M t insertion_) ;;
      t <~ lift (combine_at X M f t it_ co_val) ;;
      lift (m_handle_preceeded_combined X k M t insertion_ it_).
(** the part of _add after a collision, interval_base_map.hpp 960-970 and 999-1007 *)
Definition cm_add_over (f : functor) (t : imap) (inter_val : I) (co_val : CC) : cm imap (imap * iter) :=
  it_ <~ lift (lower_bound X k t inter_val) ;;
  u <~ lift (upper_bound X k t inter_val) ;;
  last_ <~ lift (decr_it t u) ;;
  t <~ cm_add_front t inter_val it_ ;;
  ' (t, rest_interval, it_) <~ cm_add_main (S (length (nodes t))) f t inter_val co_val it_ last_ ;;
  cm_add_rear f t rest_interval co_val it_.
(** _add<Combiner>(addend), interval_base_map.hpp 936-972 *)
Definition cm_add_ (f : functor) (t : imap) (inter_val : I) (co_val : CC) : cm imap (imap * iter) :=
  if is_empty X k inter_val then cret (t, end_ t)
  else if is_absorbable M co_val then cret (t, end_ t)
  else
    ' (t, it, inserted) <~ c_insert X k t inter_val (version CC f co_val) ;;
    if inserted : bool then lift (m_handle_inserted X k M t it)
    else cm_add_over f t inter_val co_val.
(** add_at, interval_base_map.hpp 562-580 *)
Definition cm_add_at (f : functor) (t : imap) (prior_ : iter) (inter_val : I) (co_val : CC) : cm imap (imap * iter * bool) :=
  _ <~ lift (assert (negb (is_absorbable M co_val))) ;;
  ' (t, inserted_) <~ ins_hint t prior_ inter_val cc_zero ;;
  n <~ lift (deref t inserted_) ;;
  if itv_eqb X k (nkey n) inter_val && cc_eq (nval n) cc_zero then
    t <~ lift (combine_at X M f t inserted_ co_val) ;; cret (t, inserted_, true)
  else cret (t, inserted_, false).
(** _add<Combiner>(prior_, addend), interval_base_map.hpp 977-1010 *)
Definition cm_add_hint_ (f : functor) (t : imap) (prior_ : iter) (inter_val : I) (co_val : CC) : cm imap (imap * iter) :=
  if is_empty X k inter_val then cret (t, prior_)
  else if is_absorbable M co_val then cret (t, prior_)
  else
    ' (t, it, inserted) <~ cm_add_at f t prior_ inter_val co_val ;;
    if inserted : bool then lift (m_handle_inserted X k M t it)
    else cm_add_over f t inter_val co_val.
(** add(prior_, segment), interval_base_map.hpp 323-326 *)
Definition cm_add_hint (t : imap) (prior_ : iter) (a : I) (v : CC) : cm imap (imap * iter) :=
  cm_add_hint_ (codomain_combine M) t prior_ a v.
(** add(segment), interval_base_map.hpp 314-318 *)
Definition cm_add (t : imap) (a : I) (v : CC) : cm imap imap :=
  ' (t, _) <~ cm_add_ (codomain_combine M) t a v ;; cret t.

(* --------------------------------------------------------------- subtraction *)
(** subtract_rear, interval_base_map.hpp 1044-1063 *)
Definition cm_subtract_rear (f : functor) (t : imap) (inter_val : I) (co_val : CC) (it_ : iter) : cm imap imap :=
  ki <~ lift (key t it_) ;;
  let right_resid := left_subtract X k ki inter_val in
  if is_empty X k right_resid then
    t <~ lift (combine_at X M f t it_ co_val) ;;
    lift (m_handle_combined X k M t it_)
  else
    t <~ lift (set_key t it_ (right_subtract X k ki right_resid)) ;;
    v <~ lift (val t it_) ;;
    ' (t, next_) <~ ins_hint t it_ right_resid v ;;
    t <~ lift (combine_at X M f t it_ co_val) ;;
    lift (m_handle_succeeded_combined X k M t it_ next_).
(** _subtract<Combiner>, interval_base_map.hpp 1068-1090; subtract_main does not allocate *)
Definition cm_subtract_ (f : functor) (t : imap) (inter_val : I) (co_val : CC) : cm imap imap :=
  if is_empty X k inter_val then cret t
  else if is_absorbable M co_val then cret t
  else
    ' (first_, past_) <~ lift (equal_range X k t inter_val) ;;
    if iter_eqb first_ past_ then cret t
    else
      last_ <~ lift (decr_it t past_) ;;
      t <~ cm_add_front t inter_val first_ ;;
      ' (t, it_) <~ lift (m_subtract_main X k M (S (length (nodes t))) f t co_val first_ last_) ;;
      cm_subtract_rear f t inter_val co_val it_.
(** subtract(segment), interval_base_map.hpp 338-343 *)
Definition cm_subtract (t : imap) (a : I) (v : CC) : cm imap imap :=
  if is_total_invertible M
  then ' (t, _) <~ cm_add_ (inverse_codomain_combine M) t a v ;; cret t
  else cm_subtract_ (inverse_codomain_combine M) t a v.

(* ---------------------------------------------------------------- containers *)
(** operator += (map), concept/interval_associator.hpp 317-326 *)
Definition cm_add_map (t operand : imap) : cm imap imap :=
  ' (t, _) <~ cfold (fun '(t, prior_) n => cm_add_hint t prior_ (nkey n) (nval n)) (t, end_ t) (nodes operand) ;;
  cret t.
(** insert(container), concept/interval_associator.hpp 603-612 *)
Definition cm_insert_map (t operand : imap) : cm imap imap :=
  cfold (fun t n => ' (t, _) <~ cm_insert_hint t None (nkey n) (nval n) ;; cret t) t (nodes operand).
(** operator -= (map), concept/interval_associator.hpp 669-680 *)
Definition cm_subtract_map (t operand : imap) : cm imap imap :=
  cfold (fun t n => cm_subtract t (nkey n) (nval n)) t (nodes operand).
(** erase(container), concept/interval_associator.hpp 620-639, for maps and for sets *)
Definition cm_erase_map (t operand : imap) : cm imap imap :=
  match nodes operand with
  | [] => cret t
  | _ =>
      cr <~ lift (common_range X k operand t) ;;
      match cr with
      | None => cret t
      | Some (lwb, upb) =>
          l <~ lift (range X operand lwb upb) ;;
          cfold (fun t n => cm_erase_seg t (nkey n) (nval n)) t l
      end
  end.
Definition cm_erase_set (t : imap) (operand : tree (D X) unit) : cm imap imap :=
  match nodes operand with
  | [] => cret t
  | _ =>
      cr <~ lift (common_range X k operand t) ;;
      match cr with
      | None => cret t
      | Some (lwb, upb) =>
          l <~ lift (range X operand lwb upb) ;;
          cfold (fun t n => cm_erase t (nkey n)) t l
      end
  end.

(* -------------------------------------------------------------- intersection *)
(** partial_add_intersection, interval_base_map.hpp 523-547 *)
Definition cm_partial_add_intersection (section object : imap) (a : I) (v : CC) : cm imap imap :=
  if is_empty X k a then cret section
  else
    ' (first_, past_) <~ lift (equal_range X k object a) ;;
    if iter_eqb first_ past_ then cret section
    else
      l <~ lift (range X object first_ past_) ;;
      cfold (fun s n =>
        let common_interval := inter X k (nkey n) a in
        if negb (is_empty X k common_interval) then
          ' (s, _) <~ cm_add_ (codomain_combine M) s common_interval (nval n) ;;
          ' (s, _) <~ cm_add_ (codomain_intersect M) s common_interval v ;;
          cret s
        else cret s) section l.
(** add_intersection(section, segment), interval_base_map.hpp 416-420 with total_add_intersection, 516-521 *)
Definition cm_add_intersection_seg (section object : imap) (a : I) (v : CC) : cm imap imap :=
  if mt_total M then s <~ cm_add_map section object ;; cm_add s a v
  else cm_partial_add_intersection section object a v.
(** add_intersection(section, object, map), concept/interval_map.hpp 326-362 *)
Definition cm_add_intersection_map (section object operand : imap) : cm imap imap :=
  if mt_total M then s <~ cm_add_map section object ;; cm_add_map s operand
  else
    match nodes operand with
    | [] => cret section
    | _ =>
        cr <~ lift (common_range X k operand object) ;;
        match cr with
        | None => cret section
        | Some (lwb, upb) =>
            l <~ lift (range X operand lwb upb) ;;
            cfold (fun s n => cm_add_intersection_seg s object (nkey n) (nval n)) section l
        end
    end.
(** add_intersection(section, object, interval_type), concept/interval_map.hpp 380-404 *)
Definition cm_add_intersection_itv (section object : imap) (a : I) : cm imap imap :=
  if is_empty X k a then cret section
  else
    ' (first_, past_) <~ lift (equal_range X k object a) ;;
    if iter_eqb first_ past_ then cret section
    else
      l <~ lift (range X object first_ past_) ;;
      ' (s, _) <~ cfold (fun '(s, prior_) n =>
                  let common_interval := inter X k (nkey n) a in
                  if negb (is_empty X k common_interval)
                  then cm_add_hint s prior_ common_interval (nval n) else cret (s, prior_))
               (section, end_ section) l ;;
      cret s.
(** add_intersection(section, object, key_set), concept/interval_map.hpp 408-426 *)
Definition cm_add_intersection_set (section object : imap) (key_set : tree (D X) unit) : cm imap imap :=
  match nodes key_set with
  | [] => cret section
  | _ =>
      cr <~ lift (common_range X k key_set object) ;;
      match cr with
      | None => cret section
      | Some (lwb, upb) =>
          l <~ lift (range X key_set lwb upb) ;;
          cfold (fun s n => cm_add_intersection_itv s object (nkey n)) section l
      end
  end.
(** operator &=, concept/interval_associator.hpp 770-778: the section is local and swapped in *)
Definition cm_and_seg (t : imap) (a : I) (v : CC) : cm imap imap := unwind t (cm_add_intersection_seg t_empty t a v).
Definition cm_and_map (t operand : imap) : cm imap imap := unwind t (cm_add_intersection_map t_empty t operand).
Definition cm_and_itv (t : imap) (a : I) : cm imap imap := unwind t (cm_add_intersection_itv t_empty t a).
Definition cm_and_set (t : imap) (s : tree (D X) unit) : cm imap imap := unwind t (cm_add_intersection_set t_empty t s).
End CrashMapModel.

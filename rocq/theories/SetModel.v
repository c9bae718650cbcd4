(** interval_set, separate_interval_set, split_interval_set.

    A set is a tree with values in [unit]; [style] selects the class template.
    File names without a directory are relative to /repo/include/boost/icl. *)
From Verif Require Export Tree.

(** the three class templates: interval_set.hpp, separate_interval_set.hpp,
    split_interval_set.hpp *)
Inductive style := Joining | Separating | Splitting.

Section SetModel.
Context (X : dom) (k : kind).
Notation I := (itv (D X)).
Notation sset := (tree (D X) unit).
Notation snode := (node (D X) unit).

(** co_equal for sets, detail/associated_value.hpp 31-41 *)
Definition s_coeq (_ _ : unit) : bool := true.

(* ------------------------------------------------------------------ addition *)
(** add_front, interval_base_set.hpp 408-430.  The iterator first_ is not changed. *)
Definition s_add_front (t : sset) (inter_val : I) (first_ : iter) : res sset :=
  kf <- key t first_ ;;
  let left_resid := right_subtract X k kf inter_val in
  if negb (is_empty X k left_resid) then
    prior_ <- cyclic_prior t first_ ;;
    t <- set_key t first_ (left_subtract X k kf left_resid) ;;
    ' (t, _) <- insert_hint X k t prior_ left_resid tt ;;
    Ok t
  else Ok t.

(** add_segment, interval_base_set.hpp 432-445; returns the advanced it_ *)
Definition s_add_segment (t : sset) (inter_val : I) (it_ : iter) : res (sset * iter) :=
  ki <- key t it_ ;;
  let lead_gap := right_subtract X k inter_val ki in
  t <- (if negb (is_empty X k lead_gap) then
          p <- cyclic_prior t it_ ;;
          ' (t, _) <- insert_hint X k t p lead_gap tt ;;
          Ok t
        else Ok t) ;;
  it_ <- incr_it t it_ ;;
  Ok (t, it_).

(** add_main, interval_base_set.hpp 447-459; returns the remaining rest_interval *)
Fixpoint s_add_main (fuel : nat) (t : sset) (rest_interval : I) (it_ last_ : iter) : res (sset * I * iter) :=
  match fuel with
  | 0 => Err Fuel
  | S fuel =>
      if negb (iter_eqb it_ last_) then
        cur_interval <- key t it_ ;;
        ' (t, it_) <- s_add_segment t rest_interval it_ ;;
        s_add_main fuel t (left_subtract X k rest_interval cur_interval) it_ last_
      else Ok (t, rest_interval, it_)
  end.

(** add_rear, interval_base_set.hpp 461-492 *)
Definition s_add_rear (t : sset) (inter_val : I) (it_ : iter) : res (sset * iter) :=
  prior_ <- cyclic_prior t it_ ;;
  cur_itv <- key t it_ ;;
  let lead_gap := right_subtract X k inter_val cur_itv in
  t <- (if negb (is_empty X k lead_gap) then
          ' (t, _) <- insert_hint X k t prior_ lead_gap tt ;; Ok t
        else Ok t) ;;
  let end_gap := left_subtract X k inter_val cur_itv in
  if negb (is_empty X k end_gap) then insert_hint X k t it_ end_gap tt
  else
    let right_resid := left_subtract X k cur_itv inter_val in
    if negb (is_empty X k right_resid) then
      ki <- key t it_ ;;
      t <- set_key t it_ (right_subtract X k ki right_resid) ;;
      insert_hint X k t it_ right_resid tt
    else Ok (t, it_).

(** handle_inserted: interval_set.hpp 173-176, separate_interval_set.hpp 160-163,
    split_interval_set.hpp 158-161 *)
Definition s_handle_inserted (st : style) (t : sset) (it_ : iter) : res (sset * iter) :=
  match st with
  | Joining => join_neighbours X k s_coeq t it_
  | Separating | Splitting => Ok (t, it_)
  end.

(** add_over(addend, last_): interval_set.hpp 178-182, separate_interval_set.hpp 165-168,
    split_interval_set.hpp 163-175.  (The one-argument overloads are not called.) *)
Definition s_add_over (st : style) (t : sset) (addend : I) (last_ : iter) : res (sset * iter) :=
  match st with
  | Joining => ' (t, joined_) <- join_under X k t addend last_ ;; join_neighbours X k s_coeq t joined_
  | Separating => join_under X k t addend last_
  | Splitting =>
      first_ <- lower_bound X k t addend ;;
      t <- s_add_front t addend first_ ;;
      ' (t, rest_interval, it_) <- s_add_main (S (length (nodes t))) t addend first_ last_ ;;
      s_add_rear t rest_interval it_
  end.

(** _add(addend), interval_base_set.hpp 497-514 *)
Definition s_add (st : style) (t : sset) (addend : I) : res (sset * iter) :=
  if is_empty X k addend then Ok (t, end_ t)
  else
    ' (t, it, inserted) <- insert X k t addend tt ;;
    if inserted : bool then s_handle_inserted st t it
    else u <- upper_bound X k t addend ;;
         last_ <- decr_it t u ;;
         s_add_over st t addend last_.

(** _add(prior_, addend), interval_base_set.hpp 516-535: the hinted version *)
Definition s_add_hint (st : style) (t : sset) (prior_ : iter) (addend : I) : res (sset * iter) :=
  if is_empty X k addend then Ok (t, prior_)
  else
    ' (t, insertion) <- insert_hint X k t prior_ addend tt ;;
    ki <- key t insertion ;;
    if itv_eqb X k ki addend then s_handle_inserted st t insertion
    else u <- upper_bound X k t addend ;;
         last_ <- decr_it t u ;;
         s_add_over st t addend last_.

(* --------------------------------------------------------------- subtraction *)
(** subtract(minuend), interval_base_set.hpp 540-569; also erase(interval), 309-312,
    and icl::subtract / icl::erase, concept/interval_set.hpp 124-163.
    [if(first_ != end_)] is always true there; right_resid is default constructed before. *)
Definition s_subtract (t : sset) (minuend : I) : res sset :=
  if is_empty X k minuend then Ok t
  else
    ' (first_, end_) <- equal_range X k t minuend ;;
    if iter_eqb first_ end_ then Ok t
    else
      last_ <- decr_it t end_ ;;
      kf <- key t first_ ;;
      let left_resid := right_subtract X k kf minuend in
      right_resid <- (if negb (iter_eqb first_ end_)
                      then kl <- key t last_ ;; Ok (left_subtract X k kl minuend)
                      else Ok (empty_itv X k)) ;;
      t <- erase_range t first_ end_ ;;
      t <- (if negb (is_empty X k left_resid)
            then ' (t, _, _) <- insert X k t left_resid tt ;; Ok t else Ok t) ;;
      (if negb (is_empty X k right_resid)
       then ' (t, _, _) <- insert X k t right_resid tt ;; Ok t else Ok t).

(* ------------------------------------------------------------------ elements *)
(** icl::add(object, element), concept/interval_set.hpp 74-80 (also insert, 103-108) *)
Definition s_add_elem (st : style) (t : sset) (x : D X) : res (sset * iter) :=
  s_add st t (singleton X k x).
(** icl::subtract(object, element), concept/interval_set.hpp 131-137 (also erase, 157-163) *)
Definition s_subtract_elem (t : sset) (x : D X) : res sset := s_subtract t (singleton X k x).

(** icl::find(object, element), concept/interval_associator_base.hpp 24-93 *)
Definition find_elem {V} (t : tree (D X) V) (x : D X) : res iter :=
  if disc X then tfind X k t (unit_trail X k x)
  else match k with
       | DC | DD => tfind X k t (singleton X k x)
       | LO =>
           last_collision <- upper_bound X k t (unit_trail X k x) ;;
           last_collision <- (if negb (iter_eqb last_collision (begin_ t))
                              then decr_it t last_collision else Ok last_collision) ;;
           if iter_eqb last_collision (end_ t) then Ok last_collision
           else kc <- key t last_collision ;;
                Ok (if contains X k kc x then last_collision else end_ t)
       | _ =>
           first_collision <- lower_bound X k t (unit_trail X k x) ;;
           if iter_eqb first_collision (end_ t) then Ok first_collision
           else kc <- key t first_collision ;;
                Ok (if contains X k kc x then first_collision else end_ t)
       end.

(** contains(super, element), concept/interval_set.hpp 26-31 *)
Definition s_contains_elem (t : sset) (x : D X) : res bool :=
  it <- find_elem t x ;; Ok (negb (iter_eqb it (end_ t))).

(** Interval_Set::is_joinable, detail/interval_set_algo.hpp 72-89 *)
Fixpoint is_joinable_loop {V} (fuel : nat) (t : tree (D X) V) (it_ next_ past : iter) : res bool :=
  match fuel with
  | 0 => Err Fuel
  | S fuel =>
      if negb (iter_eqb next_ (end_ t)) && negb (iter_eqb it_ past) then
        a <- key t it_ ;; b <- key t next_ ;;
        it_ <- incr_it t it_ ;; next_ <- incr_it t next_ ;;
        if touches X k a b then is_joinable_loop fuel t it_ next_ past else Ok false
      else Ok true
  end.
Definition is_joinable {V} (t : tree (D X) V) (first past : iter) : res bool :=
  if iter_eqb first (end_ t) then Ok true
  else next_ <- incr_it t first ;; is_joinable_loop (S (length (nodes t))) t first next_ past.

(** contains(super, segment), concept/interval_set.hpp 33-51 *)
Definition s_contains_seg (t : sset) (inter_val : I) : res bool :=
  if is_empty X k inter_val then Ok true
  else
    ' (first_, past_) <- equal_range X k t inter_val ;;
    if iter_eqb first_ past_ then Ok false
    else
      last_overlap <- cyclic_prior t past_ ;;
      kf <- key t first_ ;; kl <- key t last_overlap ;;
      if contains_itv X k (hull X k kf kl) inter_val
      then is_joinable t first_ last_overlap else Ok false.

(* ---------------------------------------------------------------- containers *)
(** The nodes of [first, past) of a container that is only read: what
    [while(it_ != past) f( *it_++ )] visits. *)
Definition range {V} (t : tree (D X) V) (first past : iter) : res (list (node (D X) V)) :=
  match first with
  | None => match past with None => Ok [] | Some _ => Err Deref_end end
  | Some i =>
      match split_at i (nodes t) with
      | None => Err Dangling
      | Some (_, n, r) =>
          match past with
          | None => Ok (n :: r)
          | Some j => match split_at j (n :: r) with
                      | Some (l, _, _) => Ok l
                      | None => Err Deref_end
                      end
          end
      end
  end.

Fixpoint foldM {A B} (f : A -> B -> res A) (a : A) (l : list B) : res A :=
  match l with [] => Ok a | b :: l' => a <- f a b ;; foldM f a l' end.

(** key_compare()(a,b) called directly *)
Definition key_less (a b : I) : res bool :=
  if is_empty X k a || is_empty X k b then Err Empty_key else Ok (less X k a b).

(** Set::common_range(lwb, upb, x1, x2), detail/set_algo.hpp 26-60.  None: no common range. *)
Definition common_range {V W} (x1 : tree (D X) V) (x2 : tree (D X) W) : res (option (iter * iter)) :=
  match nodes x1, nodes x2 with
  | [], _ | _, [] => Ok None
  | _, _ =>
      let x1_fst_ := begin_ x1 in
      x1_lst_ <- decr_it x1 (end_ x1) ;;
      let x2_fst_ := begin_ x2 in
      x2_lst_ <- decr_it x2 (end_ x2) ;;
      k1l <- key x1 x1_lst_ ;; k2f <- key x2 x2_fst_ ;;
      c1 <- key_less k1l k2f ;;
      if c1 : bool then Ok None
      else
        k2l <- key x2 x2_lst_ ;; k1f <- key x1 x1_fst_ ;;
        c2 <- key_less k2l k1f ;;
        if c2 : bool then Ok None
        else
          lwb <- lower_bound X k x1 k2f ;;
          upb <- upper_bound X k x1 k2l ;;
          Ok (Some (lwb, upb))
  end.

(** operator += (container), concept/interval_associator.hpp 317-326 (also |=, +, |).
    The operand is only read. *)
Definition s_add_set (st : style) (t : sset) (operand : sset) : res sset :=
  ' (t, _) <- foldM (fun '(t, prior_) n => s_add_hint st t prior_ (nkey n)) (t, end_ t) (nodes operand) ;;
  Ok t.

(** insert(container), concept/interval_associator.hpp 603-612: the hint stays at end() *)
Definition s_insert_set (st : style) (t : sset) (operand : sset) : res sset :=
  foldM (fun t n => ' (t, _) <- s_add_hint st t None (nkey n) ;; Ok t) t (nodes operand).

(** erase(container), concept/interval_associator.hpp 620-639; operator -=, 703-709 *)
Definition s_subtract_set (t : sset) (operand : sset) : res sset :=
  match nodes operand with
  | [] => Ok t
  | _ =>
      cr <- common_range operand t ;;
      match cr with
      | None => Ok t
      | Some (lwb, upb) =>
          l <- range operand lwb upb ;;
          foldM (fun t n => s_subtract t (nkey n)) t l
      end
  end.

(** add_intersection(section, object, element), concept/interval_set.hpp 171-181 *)
Definition s_add_intersection_elem (st : style) (section object : sset) (x : D X) : res sset :=
  found <- find_elem object x ;;
  if negb (iter_eqb found (end_ object))
  then ' (s, _) <- s_add_elem st section x ;; Ok s else Ok section.

(** add_intersection(section, object, segment), concept/interval_set.hpp 184-207 *)
Definition s_add_intersection_seg (st : style) (section object : sset) (segment : I) : res sset :=
  if is_empty X k segment then Ok section
  else
    ' (first_, past_) <- equal_range X k object segment ;;
    if iter_eqb first_ past_ then Ok section
    else
      l <- range object first_ past_ ;;
      ' (s, _) <- foldM (fun '(s, prior_) n =>
                  let common_interval := inter X k (nkey n) segment in
                  if negb (is_empty X k common_interval)
                  then s_add_hint st s prior_ common_interval else Ok (s, prior_))
               (section, end_ section) l ;;
      Ok s.

(** add_intersection(section, object, container), concept/interval_associator.hpp 747-765 *)
Definition s_add_intersection (st : style) (section object operand : sset) : res sset :=
  match nodes operand with
  | [] => Ok section
  | _ =>
      cr <- common_range operand object ;;
      match cr with
      | None => Ok section
      | Some (lwb, upb) =>
          l <- range operand lwb upb ;;
          foldM (fun s n => s_add_intersection_seg st s object (nkey n)) section l
      end
  end.

(** operator &=, concept/interval_associator.hpp 770-778, for elements, segments, sets *)
Definition s_and_elem (st : style) (t : sset) (x : D X) : res sset :=
  s_add_intersection_elem st t_empty t x.
Definition s_and_seg (st : style) (t : sset) (a : I) : res sset :=
  s_add_intersection_seg st t_empty t a.
Definition s_and_set (st : style) (t operand : sset) : res sset :=
  s_add_intersection st t_empty t operand.

(** intersects(container, element), concept/interval_associator.hpp 897-905 *)
Definition s_intersects_elem (t : sset) (x : D X) : res bool := s_contains_elem t x.
(** intersects(container, interval), concept/interval_associator.hpp 907-914 *)
Definition s_intersects_seg (t : sset) (a : I) : res bool :=
  if is_empty X k a then Ok false
  else it <- tfind X k t a ;; Ok (negb (iter_eqb it (end_ t))).

(** intersects(left, right), concept/interval_associator.hpp 926-951: the accumulated
    intersection is only tested for emptiness *)
Fixpoint s_intersects_loop (st : style) (isec left : sset) (l : list snode) : res bool :=
  match l with
  | [] => Ok false
  | n :: l =>
      isec <- s_add_intersection_seg st isec left (nkey n) ;;
      match nodes isec with [] => s_intersects_loop st isec left l | _ => Ok true end
  end.
Definition s_intersects (st : style) (left right : sset) : res bool :=
  cr <- common_range right left ;;
  match cr with
  | None => Ok false
  | Some (lwb, upb) => l <- range right lwb upb ;; s_intersects_loop st t_empty left l
  end.
(** disjoint, concept/interval_associator.hpp 970-986 *)
Definition s_disjoint (st : style) (left right : sset) : res bool :=
  b <- s_intersects st left right ;; Ok (negb b).

(* ------------------------------------------------------- symmetric difference *)
(** flip(object, element), concept/interval_set.hpp 215-223 *)
Definition s_flip_elem (st : style) (t : sset) (x : D X) : res sset :=
  c <- s_contains_elem t x ;;
  if c : bool then s_subtract_elem t x else ' (t, _) <- s_add_elem st t x ;; Ok t.

(** the loop of flip(object, segment), concept/interval_set.hpp 242-258 *)
Fixpoint s_flip_loop (fuel : nat) (st : style) (t : sset) (span_ : I) (it_ end_ : iter) : res (sset * I) :=
  match fuel with
  | 0 => Err Fuel
  | S fuel =>
      if negb (iter_eqb it_ end_) then
        covered <- key t it_ ;;
        it_ <- incr_it t it_ ;;
        let left_over := right_subtract X k span_ covered in
        t <- s_subtract t (inter X k span_ covered) ;;
        ' (t, _) <- s_add st t left_over ;;
        s_flip_loop fuel st t (left_subtract X k span_ covered) it_ end_
      else Ok (t, span_)
  end.
(** flip(object, segment), concept/interval_set.hpp 225-263 *)
Definition s_flip_seg (st : style) (t : sset) (segment : I) : res sset :=
  ' (fst_, end_) <- equal_range X k t segment ;;
  ' (t, span_) <- s_flip_loop (S (length (nodes t))) st t segment fst_ end_ ;;
  ' (t, _) <- s_add st t span_ ;;
  Ok t.

(** flip(object, container), concept/interval_set.hpp 266-292; operator ^=,
    concept/interval_associator.hpp 998-1013 *)
Definition s_flip_set (st : style) (t operand : sset) : res sset :=
  match nodes operand with
  | [] => Ok t
  | _ =>
      cr <- common_range operand t ;;
      match cr with
      | None => s_add_set st t operand
      | Some (common_lwb, common_upb) =>
          l1 <- range operand (begin_ operand) common_lwb ;;
          t <- foldM (fun t n => ' (t, _) <- s_add st t (nkey n) ;; Ok t) t l1 ;;
          l2 <- range operand common_lwb common_upb ;;
          t <- foldM (fun t n => s_flip_seg st t (nkey n)) t l2 ;;
          l3 <- range operand common_upb (end_ operand) ;;
          foldM (fun t n => ' (t, _) <- s_add st t (nkey n) ;; Ok t) t l3
      end
  end.

(* ----------------------------------------------------------------- morphisms *)
(** domain(dom, object), concept/interval_set.hpp 297-311 *)
Definition s_domain (st : style) (object : sset) : res sset :=
  ' (s, _) <- foldM (fun '(s, prior_) n => s_add_hint st s prior_ (nkey n))
                    (t_empty, None) (nodes object) ;;
  Ok s.

(** adjacent pairs of nodes *)
Fixpoint pairs {A} (l : list A) : list (A * A) :=
  match l with
  | a :: (b :: _) as l' => (a, b) :: pairs l'
  | _ => []
  end.

(** between(in_between, object), concept/interval_set.hpp 313-331 *)
Definition s_between (st : style) (object : sset) : res sset :=
  ' (s, _) <- foldM (fun '(s, prior_) '(p, n) => s_add_hint st s prior_ (between X k (nkey p) (nkey n)))
                    (t_empty, None) (pairs (nodes object)) ;;
  Ok s.

(** assign from another interval set type: interval_set.hpp 118-128 (via hinted add),
    separate_interval_set.hpp 109-115 and split_interval_set.hpp 107-113 (range insert) *)
Definition s_assign (st : style) (src : sset) : res sset :=
  match st with
  | Joining => s_add_set Joining t_empty src
  | _ => foldM (fun t n => ' (t, _, _) <- insert X k t (nkey n) tt ;; Ok t) t_empty (nodes src)
  end.

(* ------------------------------------------------------------------- queries *)
(** operator ==, concept/interval_associator.hpp 40-45 with Set::lexicographical_equal,
    detail/set_algo.hpp 112-119 *)
Fixpoint keys_eqb (l r : list I) : bool :=
  match l, r with
  | [], [] => true
  | a :: l, b :: r => itv_eqb X k a b && keys_eqb l r
  | _, _ => false
  end.
Definition keys {V} (t : tree (D X) V) : list I := map nkey (nodes t).
Definition s_eqb (l r : sset) : bool := keys_eqb (keys l) (keys r).

(** operator <, concept/interval_associator.hpp 47-56: std::lexicographical_compare with
    segment_compare = std::less<interval> (interval_base_set.hpp 97) *)
Fixpoint keys_ltb (l r : list I) : bool :=
  match l, r with
  | _, [] => false
  | [], _ :: _ => true
  | a :: l, b :: r => if itv_ltb X k a b then true else if itv_ltb X k b a then false else keys_ltb l r
  end.
Definition s_ltb (l r : sset) : bool := keys_ltb (keys l) (keys r).

(** iterative_size / interval_count, concept/interval_associator.hpp 109-113, 179-183 *)
Definition interval_count {V} (t : tree (D X) V) : nat := length (nodes t).

(** hull(object), concept/interval_associator.hpp 209-219 *)
Definition c_hull {V} (t : tree (D X) V) : res I :=
  match nodes t with
  | [] => Ok (empty_itv X k)
  | _ => l <- decr_it t (end_ t) ;; kf <- key t (begin_ t) ;; kl <- key t l ;; Ok (hull X k kf kl)
  end.
(** lower, upper, first, last of a container, concept/interval_associator.hpp 221-272 *)
Definition c_lower {V} (t : tree (D X) V) : res (D X) :=
  match nodes t with [] => Ok one | _ => kf <- key t (begin_ t) ;; Ok (lower X kf) end.
Definition c_upper {V} (t : tree (D X) V) : res (D X) :=
  match nodes t with
  | [] => Ok zero
  | _ => l <- decr_it t (end_ t) ;; kl <- key t l ;; Ok (upper X kl)
  end.
Definition c_first {V} (t : tree (D X) V) : res (D X) :=
  match nodes t with [] => Ok one | _ => kf <- key t (begin_ t) ;; Ok (first X k kf) end.
Definition c_last {V} (t : tree (D X) V) : res (D X) :=
  match nodes t with
  | [] => Ok zero
  | _ => l <- decr_it t (end_ t) ;; kl <- key t l ;; Ok (Interval.last X k kl)
  end.

End SetModel.

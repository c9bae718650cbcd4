(** Functions of concept/interval_associator.hpp and its detail headers that work on
    interval sets and interval maps alike. *)
From Verif Require Export SetModel IntervalSize.

Section ContModel.
Context (X : dom) (k : kind).
Notation I := (itv (D X)).
Notation iter := Tree.iter.
Notation length := List.length.

(* ---------------------------------------------------------------------- join *)
Section Join.
Context {V : Type} (coeq : V -> V -> bool).
Notation tree := (tree (D X) V).

(** segmental::is_joinable, concept/joinable.hpp 19-33.  [coeq] is [==] on the associated
    values of a map, [true] for sets; it is the function [joinable] of Tree.v. *)
(** the inner loop of join, concept/interval_associator_base.hpp 124-128 *)
Fixpoint join_run (fuel : nat) (t : tree) (it_ next_ : iter) : res (Tree.iter * Tree.iter) :=
  match fuel with
  | 0 => Err Fuel
  | S fuel =>
      if negb (iter_eqb next_ (end_ t)) then
        j <- joinable X k coeq t it_ next_ ;;
        if j : bool then
          it_ <- incr_it t it_ ;; next_ <- incr_it t next_ ;; join_run fuel t it_ next_
        else Ok (it_, next_)
      else Ok (it_, next_)
  end.
(** the outer loop, concept/interval_associator_base.hpp 116-141 *)
Fixpoint join_loop (fuel : nat) (t : tree) (it_ next_ : iter) : res tree :=
  match fuel with
  | 0 => Err Fuel
  | S fuel =>
      if negb (iter_eqb next_ (end_ t)) then
        j <- joinable X k coeq t it_ next_ ;;
        if j : bool then
          let fst_mem := it_ in
          it_ <- incr_it t it_ ;; next_ <- incr_it t next_ ;;
          ' (it_, next_) <- join_run (S (length (nodes t))) t it_ next_ ;;
          a <- key t it_ ;; b <- key t fst_mem ;;
          t <- set_key t it_ (hull X k a b) ;;
          t <- erase_range t fst_mem it_ ;;
          it_ <- incr_it t it_ ;;
          next_ <- (if negb (iter_eqb it_ (end_ t)) then incr_it t it_ else Ok it_) ;;
          join_loop fuel t it_ next_
        else it_ <- incr_it t it_ ;; next_ <- incr_it t next_ ;; join_loop fuel t it_ next_
      else Ok t
  end.
(** join, concept/interval_associator_base.hpp 105-143 *)
Definition join (t : tree) : res tree :=
  if iter_eqb (begin_ t) (end_ t) then Ok t
  else next_ <- incr_it t (begin_ t) ;; join_loop (S (length (nodes t))) t (begin_ t) next_.
End Join.

(* ------------------------------------------------------------- subset_compare *)
(** detail/interval_subset_comparer.hpp.  The int result is the pair of its bits
    (subset, superset): unrelated 0 = (false,false), subset 1 = (true,false),
    superset 2 = (false,true), equal 3 = (true,true) (detail/relation_state.hpp 25-31). *)
Section Compare.
Context {V W : Type}.
Notation ltree := (tree (D X) V).
Notation rtree := (tree (D X) W).
Definition incl : Type := (bool * bool)%type.
Definition r_equal : incl := (true, true).
Definition r_subset : incl := (true, false).
Definition r_superset : incl := (false, true).
Definition r_unrelated : incl := (false, false).
Definition is_unrelated (r : incl) : bool := negb (fst r) && negb (snd r).
(** restrict_result, 132: _result &= state *)
Definition restrict (r s : incl) : incl := (fst r && fst s, snd r && snd s).

(** [co] is co_compare (118-130) when _compare_codomain (91) holds, i.e. when both
    containers are maps; None otherwise. *)
Context (co : option (V -> W -> incl)).

Inductive cstate := Nextboth | Nextleft | Nextright | Stop.
Record cmp := Cmp { c_left : iter; c_right : iter; c_pl : iter; c_pr : iter; c_result : incl }.

(** proceed, 134-157 *)
Definition c_proceed (l : ltree) (r : rtree) (c : cmp) : res (cmp * cstate) :=
  kl <- key l (c_left c) ;; kr <- key r (c_right c) ;;
  if upper_less X k kl kr then
    left <- incr_it l (c_left c) ;; Ok (Cmp left (c_right c) (c_left c) (c_pr c) (c_result c), Nextleft)
  else if upper_less X k kr kl then
    right <- incr_it r (c_right c) ;; Ok (Cmp (c_left c) right (c_pl c) (c_right c) (c_result c), Nextright)
  else
    left <- incr_it l (c_left c) ;; right <- incr_it r (c_right c) ;;
    Ok (Cmp left right (c_pl c) (c_pr c) (c_result c), Nextboth).

Definition c_with (c : cmp) (r : incl) : cmp := Cmp (c_left c) (c_right c) (c_pl c) (c_pr c) r.
(** [if(unrelated == restrict_result(s)) return stop; ... f] *)
Definition c_restrict (c : cmp) (s : incl) (f : cmp -> res (cmp * cstate)) : res (cmp * cstate) :=
  let c := c_with c (restrict (c_result c) s) in
  if is_unrelated (c_result c) then Ok (c, Stop) else f c.

(** [if(_compare_codomain && cond) if(unrelated == restrict_result(co_compare(left,right))) return stop;] *)
Definition c_codomain (l : ltree) (r : rtree) (cond : I -> I -> bool) (c : cmp)
    (f : cmp -> res (cmp * cstate)) : res (cmp * cstate) :=
  match co with
  | None => f c
  | Some co =>
      a <- deref l (c_left c) ;; b <- deref r (c_right c) ;;
      if cond (nkey a) (nkey b) then c_restrict c (co (nval a) (nval b)) f else f c
  end.

(** next_both, 159-242 *)
Definition c_next_both (l : ltree) (r : rtree) (c : cmp) : res (cmp * cstate) :=
  if iter_eqb (c_left c) (end_ l) && iter_eqb (c_right c) (end_ r) then Ok (c, Stop)
  else if iter_eqb (c_left c) (end_ l) then Ok (c_with c (restrict (c_result c) r_subset), Stop)
  else if iter_eqb (c_right c) (end_ r) then Ok (c_with c (restrict (c_result c) r_superset), Stop)
  else
    kl <- key l (c_left c) ;; kr <- key r (c_right c) ;;
    if exclusive_less X k kl kr then
      c_restrict c r_superset (fun c =>
        joint_ <- lower_bound X k l kr ;;
        if iter_eqb joint_ (end_ l) then Ok (c_with c r_unrelated, Stop)
        else Ok (Cmp joint_ (c_right c) (c_pl c) (c_pr c) (c_result c), Nextboth))
    else if exclusive_less X k kr kl then
      c_restrict c r_subset (fun c =>
        joint_ <- lower_bound X k r kl ;;
        if iter_eqb joint_ (end_ r) then Ok (c_with c r_unrelated, Stop)
        else Ok (Cmp (c_left c) joint_ (c_pl c) (c_pr c) (c_result c), Nextboth))
    else
      c_codomain l r (fun _ _ => true) c (fun c =>
        if lower_less X k kl kr then c_restrict c r_superset (c_proceed l r)
        else if lower_less X k kr kl then c_restrict c r_subset (c_proceed l r)
        else c_proceed l r c).

(** next_left, 244-276 *)
Definition c_next_left (l : ltree) (r : rtree) (c : cmp) : res (cmp * cstate) :=
  if iter_eqb (c_left c) (end_ l) then Ok (c_with c (restrict (c_result c) r_subset), Stop)
  else
    kp <- key l (c_pl c) ;; kl <- key l (c_left c) ;; kr <- key r (c_right c) ;;
    if negb (touches X k kp kl) then
      (if lower_less X k kr kl then c_restrict c r_subset else fun f => f c)
        (fun c => c_codomain l r (intersects X k) c (c_proceed l r))
    else c_codomain l r (intersects X k) c (c_proceed l r).

(** next_right, 279-310 *)
Definition c_next_right (l : ltree) (r : rtree) (c : cmp) : res (cmp * cstate) :=
  if iter_eqb (c_right c) (end_ r) then Ok (c_with c (restrict (c_result c) r_superset), Stop)
  else
    kp <- key r (c_pr c) ;; kl <- key l (c_left c) ;; kr <- key r (c_right c) ;;
    if negb (touches X k kp kr) then
      (if lower_less X k kl kr then c_restrict c r_superset else fun f => f c)
        (fun c => c_codomain l r (intersects X k) c (c_proceed l r))
    else c_codomain l r (intersects X k) c (c_proceed l r).

(** subset_compare, 329-356 *)
Fixpoint c_loop (fuel : nat) (l : ltree) (r : rtree) (c : cmp) (s : cstate) : res incl :=
  match s with
  | Stop => Ok (c_result c)
  | _ =>
    match fuel with
    | 0 => Err Fuel
    | S fuel =>
        ' (c, s) <- match s with
                    | Nextboth => c_next_both l r c
                    | Nextleft => c_next_left l r c
                    | _ => c_next_right l r c
                    end ;;
        c_loop fuel l r c s
    end
  end.
Definition subset_compare (l : ltree) (r : rtree) : res incl :=
  c_loop (S (2 * (length (nodes l) + length (nodes r)))) l r
         (Cmp (begin_ l) (begin_ r) (end_ l) (end_ r) r_equal) Nextboth.

(** inclusion_compare, concept/interval_associator.hpp 87-95;
    within, detail/interval_set_algo.hpp 110-160; contains(super,sub), 165-200;
    is_element_equal, 35-44 *)
Definition c_within (sub : ltree) (super : rtree) : res bool :=
  r <- subset_compare sub super ;; Ok (fst r).
Definition c_contains (super : ltree) (sub : rtree) : res bool :=
  r <- subset_compare super sub ;; Ok (snd r).
Definition is_element_equal (l : ltree) (r : rtree) : res bool :=
  x <- subset_compare l r ;; Ok (fst x && snd x).
End Compare.

(* ---------------------------------------------------------------------- sizes *)
Section Sizes.
Context {V : Type}.
Notation tree := (tree (D X) V).
Context (sub : D X -> D X -> Z).

(** cardinality, concept/interval_associator.hpp 116-131 (discrete) and 133-156
    (continuous: stops at the first infinite interval) *)
Fixpoint card_nodes (l : list (node (D X) V)) (acc : Z) : size_t :=
  match l with
  | [] => Fin acc
  | n :: l =>
      match cardinality X k sub (nkey n) with
      | Fin z => card_nodes l (acc + z)%Z
      | Infinite => Infinite
      end
  end.
Definition c_cardinality (t : tree) : size_t := card_nodes (nodes t) 0%Z.
(** size, concept/interval_associator.hpp 158-163 *)
Definition c_size (t : tree) : size_t := c_cardinality t.
(** length, concept/interval_associator.hpp 165-177 *)
Definition c_length (t : tree) : Z :=
  fold_left (fun acc n => acc + length_ X k sub (nkey n))%Z (nodes t) 0%Z.
(** distance(object), concept/interval_associator.hpp 187-204, discrete domains *)
Definition c_distance (t : tree) : Z :=
  fold_left (fun acc '(p, n) => acc + distance X k sub (nkey p) (nkey n))%Z (pairs (nodes t)) 0%Z.
End Sizes.

(* ---------------------------------------------------------- element iteration *)
(** detail/element_iterator.hpp 235-327.  An element iterator is the segment iterator
    _saltator and the offset _reptator.  [plus]/[minus] are the built-in [x + n], [x - n]
    of segment_adapter::transient_element (172-178, 199-206). *)
Section Elements.
Context {V : Type}.
Notation tree := (tree (D X) V).
Context (sub : D X -> D X -> Z) (plus minus : D X -> Z -> D X).
Definition eiter : Type := (iter * Z)%type.
(** equal, 282-287 *)
Definition e_eqb (a b : eiter) : bool := iter_eqb (fst a) (fst b) && Z.eqb (snd a) (snd b).
(** elements_begin / elements_end, concept/interval_associator.hpp 1125-1162 *)
Definition elements_begin (t : tree) : eiter := (begin_ t, 0%Z).
Definition elements_end (t : tree) : eiter := (end_ t, 0%Z).
(** dereference, 313-316 *)
Definition e_deref (t : tree) (e : eiter) : res (D X * V) :=
  n <- deref t (fst e) ;; Ok (plus (first X k (nkey n)) (snd e), nval n).
(** increment, 289-298 *)
Definition e_incr (t : tree) (e : eiter) : res eiter :=
  a <- key t (fst e) ;;
  if (snd e <? length_ X k sub a - 1)%Z then Ok (fst e, snd e + 1)%Z
  else it <- incr_it t (fst e) ;; Ok (it, 0%Z).
(** decrement, 300-310 *)
Definition e_decr (t : tree) (e : eiter) : res eiter :=
  if (0 <? snd e)%Z then Ok (fst e, snd e - 1)%Z
  else it <- decr_it t (fst e) ;; a <- key t it ;; Ok (it, length_ X k sub a - 1)%Z.
(** for(it = elements_begin(o); it != elements_end(o); ++it) use( *it ) *)
Fixpoint e_walk (fuel : nat) (t : tree) (e : eiter) : res (list (D X * V)) :=
  match fuel with
  | 0 => Err Fuel
  | S fuel =>
      if e_eqb e (elements_end t) then Ok []
      else x <- e_deref t e ;; e <- e_incr t e ;; l <- e_walk fuel t e ;; Ok (x :: l)
  end.
(** for(it = elements_end(o); it != elements_begin(o);) use( *--it ) *)
Fixpoint e_walk_back (fuel : nat) (t : tree) (e : eiter) : res (list (D X * V)) :=
  match fuel with
  | 0 => Err Fuel
  | S fuel =>
      if e_eqb e (elements_begin t) then Ok []
      else e <- e_decr t e ;; x <- e_deref t e ;; l <- e_walk_back fuel t e ;; Ok (x :: l)
  end.
(** element_iterator over std::reverse_iterator: [fst] is base(); elements_rbegin /
    elements_rend, concept/interval_associator.hpp 1192-1228 *)
Definition r_deref (t : tree) (e : eiter) : res (D X * V) :=
  it <- decr_it t (fst e) ;; n <- deref t it ;; Ok (minus (Interval.last X k (nkey n)) (snd e), nval n).
Definition r_incr (t : tree) (e : eiter) : res eiter :=
  it <- decr_it t (fst e) ;; a <- key t it ;;
  if (snd e <? length_ X k sub a - 1)%Z then Ok (fst e, snd e + 1)%Z else Ok (it, 0%Z).
Fixpoint r_walk (fuel : nat) (t : tree) (e : eiter) : res (list (D X * V)) :=
  match fuel with
  | 0 => Err Fuel
  | S fuel =>
      if e_eqb e (begin_ t, 0%Z) then Ok []
      else x <- r_deref t e ;; e <- r_incr t e ;; l <- r_walk fuel t e ;; Ok (x :: l)
  end.
End Elements.
End ContModel.

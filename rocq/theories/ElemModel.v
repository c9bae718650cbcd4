(** Element containers: std::set with the functions icl adds to it, icl::map, and the
    conversions between element containers and interval containers.

    An element container is the sequence of its (key, value) pairs in the order of
    Compare; a std::set has values in [unit].  Modelled of std::set / std::map is their
    specification: lookups by the comparator, an iterator is a position or end().  No
    iterator except a hint outlives a modification in the code below, and a hint does not
    influence what is inserted.  Self assignment (&object == &operand, a shortcut of
    operator += and lexicographical_distinct_equal) is not modelled: operands are copies.
    File names without a directory are relative to /repo/include/boost/icl. *)
From Verif Require Export MapModel.

Section Std.
Context (X : dom) {V : Type}.
Notation K := (D X).
Notation elems := (list (K * V)).
Notation iter := (option nat).

(** lower_bound and upper_bound: position of the first key that is not less than x, or
    greater than x *)
Fixpoint e_lower (l : elems) (x : K) : nat :=
  match l with [] => 0 | n :: l' => if ltb (fst n) x then S (e_lower l' x) else 0 end.
Fixpoint e_upper (l : elems) (x : K) : nat :=
  match l with [] => 0 | n :: l' => if ltb x (fst n) then 0 else S (e_upper l' x) end.
(** find *)
Definition e_find (l : elems) (x : K) : iter :=
  let p := e_lower l x in
  match nth_error l p with
  | Some n => if ltb x (fst n) then None else Some p
  | None => None
  end.
(** ( *it).second, an assignment to it, erase(it) *)
Definition e_value (l : elems) (it : nat) : res V :=
  match nth_error l it with Some n => Ok (snd n) | None => Err Deref_end end.
Definition e_assign (l : elems) (it : nat) (v : V) : res elems :=
  match nth_error l it with
  | Some n => Ok (firstn it l ++ (fst n, v) :: skipn (S it) l)
  | None => Err Deref_end
  end.
Definition e_erase_at (l : elems) (it : nat) : res elems :=
  match nth_error l it with
  | Some _ => Ok (firstn it l ++ skipn (S it) l)
  | None => Err Deref_end
  end.
(** insert(value) of the base container; the flag says whether it was inserted.  The hinted
    insert does the same. *)
Definition e_insert (l : elems) (x : K) (v : V) : elems * nat * bool :=
  let p := e_lower l x in
  match nth_error l p with
  | Some n => if ltb x (fst n) then (firstn p l ++ (x, v) :: skipn p l, p, true) else (l, p, false)
  | None => (l ++ [(x, v)], p, true)
  end.
(** the elements in [lwb, upb) *)
Definition e_range (l : elems) (lwb upb : nat) : res elems :=
  if (lwb <=? upb)%nat then Ok (firstn (upb - lwb) (skipn lwb l)) else Err Bad_range.
End Std.

(* ------------------------------------------------------------- both container kinds *)
Section Assoc.
Context (X : dom).
Notation K := (D X).

(** Set::common_range, detail/set_algo.hpp 26-60 *)
Definition e_common_range {V W} (x1 : list (K * V)) (x2 : list (K * W)) : option (nat * nat) :=
  match x1, x2 with
  | x1_fst :: _, x2_fst :: _ =>
      let x1_lst := List.last x1 x1_fst in
      let x2_lst := List.last x2 x2_fst in
      if ltb (fst x1_lst) (fst x2_fst) then None
      else if ltb (fst x2_lst) (fst x1_fst) then None
      else Some (e_lower X x1 (fst x2_fst), e_upper X x1 (fst x2_lst))
  | _, _ => None
  end.

(** within(key, super) and contains(super, key), concept/element_associator.hpp 53-59, 97-102 *)
Definition e_contains_key {V} (super : list (K * V)) (x : K) : bool :=
  match e_find X super x with Some _ => true | None => false end.

(** within(sub, super) and contains(super, sub), concept/element_associator.hpp 64-92,
    107-114; [co] is co_equal (detail/associated_value.hpp 19-37): equality of the values
    if both are maps, true otherwise *)
Fixpoint e_within_loop {V W} (co : V -> W -> bool) (sub : list (K * V)) (super : list (K * W)) : res bool :=
  match sub with
  | [] => Ok true
  | s :: sub =>
      match e_find X super (fst s) with
      | None => Ok false
      | Some p =>
          w <- e_value X super p ;;
          if co (snd s) w then e_within_loop co sub super else Ok false
      end
  end.
Definition e_within {V W} (co : V -> W -> bool) (sub : list (K * V)) (super : list (K * W)) : res bool :=
  match sub, super with
  | [], _ => Ok true
  | _, [] => Ok false
  | _, _ =>
      if (length super <? length sub)%nat then Ok false
      else match e_common_range sub super with
           | None => Ok false
           | Some _ => e_within_loop co sub super
           end
  end.

(** operator ==, concept/element_associator.hpp 127-133.  Keys are compared with operator ==
    of the domain type, which is taken to agree with Compare. *)
Fixpoint e_equal {V} (veq : V -> V -> bool) (l r : list (K * V)) : bool :=
  match l, r with
  | [], _ => true
  | a :: l, b :: r => eqb (fst a) (fst b) && veq (snd a) (snd b) && e_equal veq l r
  | _ :: _, [] => false
  end.
Definition e_equals {V} (veq : V -> V -> bool) (l r : list (K * V)) : bool :=
  (length l =? length r)%nat && e_equal veq l r.
(** operator <, concept/element_associator.hpp 146-154: std::lexicographical_compare with
    element_compare, which is Compare for sets and the order of std::pair for maps with
    Compare = std::less (map.hpp 117) *)
Fixpoint e_lex {A} (less : A -> A -> bool) (l r : list A) : bool :=
  match l, r with
  | _, [] => false
  | [], _ :: _ => true
  | a :: l, b :: r => if less a b then true else if less b a then false else e_lex less l r
  end.
Definition e_pair_less {V} (vlt : V -> V -> bool) (a b : K * V) : bool :=
  ltb (fst a) (fst b) || (negb (ltb (fst b) (fst a)) && vlt (snd a) (snd b)).
Definition e_ltb {V} (vlt : V -> V -> bool) (l r : list (K * V)) : bool := e_lex (e_pair_less vlt) l r.

(** subset_comparer::next_both, detail/subset_comparer.hpp 136-197.  [co] is co_compare
    (119-132) if both containers are maps, None otherwise.  [None] is [stop]. *)
Section Subset.
Context {V W : Type} (co : option (V -> W -> incl)) (left : list (K * V)) (right : list (K * W)).
(** left =key= right, 189-196 *)
Definition sc_joint (l r : nat) (result : incl) : res (option (nat * nat) * incl) :=
  v <- e_value X left l ;; w <- e_value X right r ;;
  let result := match co with Some co => restrict result (co v w) | None => result end in
  match co with
  | Some _ => if is_unrelated result then Ok (None, result) else Ok (Some (S l, S r), result)
  | None => Ok (Some (S l, S r), result)
  end.
Definition sc_next_both (l r : nat) (result : incl) : res (option (nat * nat) * incl) :=
  match nth_error left l, nth_error right r with
  | None, None => Ok (None, result)
  | None, Some _ => Ok (None, restrict result r_subset)
  | Some _, None => Ok (None, restrict result r_superset)
  | Some a, Some b =>
      if ltb (fst a) (fst b) then
        let result := restrict result r_superset in
        if is_unrelated result then Ok (None, result)
        else
          let joint_ := e_lower X left (fst b) in
          match nth_error left joint_ with
          | None => Ok (None, r_unrelated)
          | Some j => if ltb (fst b) (fst j) then Ok (None, r_unrelated) else sc_joint joint_ r result
          end
      else if ltb (fst b) (fst a) then
        let result := restrict result r_subset in
        if is_unrelated result then Ok (None, result)
        else
          let joint_ := e_lower X right (fst a) in
          match nth_error right joint_ with
          | None => Ok (None, r_unrelated)
          | Some j => if ltb (fst a) (fst j) then Ok (None, r_unrelated) else sc_joint l joint_ result
          end
      else sc_joint l r result
  end.
(** subset_compare, 214-236 *)
Fixpoint sc_loop (fuel : nat) (l r : nat) (result : incl) : res incl :=
  match fuel with
  | 0 => Err Fuel
  | S fuel =>
      ' (state, result) <- sc_next_both l r result ;;
      match state with None => Ok result | Some (l, r) => sc_loop fuel l r result end
  end.
(** inclusion_compare, concept/element_associator.hpp 156-164 *)
Definition e_inclusion_compare : res incl := sc_loop (S (length left)) 0 0 r_equal.
End Subset.

(** Map::intersects, detail/map_algo.hpp 27-41, and Set::intersects, detail/set_algo.hpp
    86-102, which does the same for sets *)
Fixpoint e_any_found {V W} (left : list (K * V)) (right : list (K * W)) : bool :=
  match right with
  | nil => false
  | n :: rest => match e_find X left (fst n) with Some _ => true | None => e_any_found left rest end
  end.
Definition e_intersects1 {V W} (left : list (K * V)) (right : list (K * W)) : res bool :=
  match e_common_range right left with
  | None => Ok false
  | Some (lwb, upb) => l <- e_range X right lwb upb ;; Ok (e_any_found left l)
  end.
(** intersects(c, c), concept/element_set.hpp 69-77, concept/element_map.hpp 325-331, 344-354
    for partial maps *)
Definition e_intersects {V W} (object : list (K * V)) (operand : list (K * W)) : res bool :=
  if (length object <? length operand)%nat then e_intersects1 object operand
  else e_intersects1 operand object.

(** size, cardinality, iterative_size, concept/element_associator.hpp 25-44 *)
Definition e_size {V} (l : list (K * V)) : nat := length l.
(** erase(object, key), concept/element_associator.hpp 291-303: the container and the
    returned count *)
Definition e_erase_key {V} (l : list (K * V)) (x : K) : res (list (K * V) * nat) :=
  match e_find X l x with
  | Some p => l <- e_erase_at X l p ;; Ok (l, 1)
  | None => Ok (l, 0)
  end.
End Assoc.

(* ------------------------------------------------------------------------- sets *)
Section Sets.
Context (X : dom).
Notation K := (D X).
Notation eset := (list (K * unit)).

(** add and the hinted add, concept/element_set.hpp 27-43; insert of std::set *)
Definition es_add (s : eset) (x : K) : eset := fst (fst (e_insert X s x tt)).
(** subtract, concept/element_set.hpp 50-56: std::set::erase(key) *)
Definition es_subtract (s : eset) (x : K) : res eset := ' (s, _) <- e_erase_key X s x ;; Ok s.
(** flip, concept/element_set.hpp 82-92 *)
Definition es_flip (s : eset) (x : K) : res eset :=
  let '(s, it, inserted) := e_insert X s x tt in
  if inserted then Ok s else e_erase_at X s it.
(** operator += and insert(set, set), concept/element_associator.hpp 190-202, 274-285 *)
Definition es_add_set (s o : eset) : eset := fold_left (fun s n => es_add s (fst n)) o s.
(** operator -=, erase(set, set), operator ^=: concept/element_associator.hpp 305-313,
    334-342, concept/element_set.hpp 103-113 *)
Definition es_subtract_set (s o : eset) : res eset := foldM (fun s n => es_subtract s (fst n)) s o.
Definition es_flip_set (s o : eset) : res eset := foldM (fun s n => es_flip s (fst n)) s o.
(** add_intersection(section, set, key), (section, set, set), operator &=:
    concept/element_associator.hpp 358-386, 391-399, 415-423 *)
Definition es_add_intersection_key (sec s : eset) (x : K) : eset :=
  match e_find X s x with Some _ => es_add sec x | None => sec end.
Definition es_add_intersection (sec s o : eset) : res eset :=
  match e_common_range X o s with
  | None => Ok sec
  | Some (lwb, upb) =>
      l <- e_range X o lwb upb ;; Ok (fold_left (fun sec n => es_add_intersection_key sec s (fst n)) l sec)
  end.
Definition es_and_key (s : eset) (x : K) : eset := es_add_intersection_key [] s x.
Definition es_and_set (s o : eset) : res eset := es_add_intersection [] s o.
(** operator ==, operator < *)
Definition es_eqb (s o : eset) : bool := e_equals X (fun _ _ => true) s o.
Definition es_ltb (s o : eset) : bool := e_ltb X (fun _ _ => false) s o.
End Sets.

(* ------------------------------------------------------------------------- maps *)
Section Maps.
Context (X : dom) (M : mtype).
Notation K := (D X).
Notation CC := (mt_co M).
Notation emap := (list (K * C CC)).
Notation eset := (list (K * unit)).

(** the part of _add after a key is found: Combiner()(( *it).second, value), erase if
    absorbable.  map.hpp 596-600, 622-630, 648-650 *)
Definition em_combine_at (f : functor) (m : emap) (it : nat) (v : CC) : res emap :=
  w <- e_value X m it ;;
  m <- e_assign X m it (combine CC f w v) ;;
  w <- e_value X m it ;;
  if is_absorbable M w then e_erase_at X m it else Ok m.
(** _add<Combiner>(element), map.hpp 578-603 *)
Definition em_add_ (f : functor) (m : emap) (x : K) (v : CC) : res emap :=
  if is_absorbable M v then Ok m
  else
    let '(m, it, inserted) := e_insert X m x (version CC f v) in
    if inserted then Ok m else em_combine_at f m it v.
(** _add<Combiner>(prior, element), map.hpp 606-631 *)
Definition em_add_hint_ (f : functor) (m : emap) (x : K) (v : CC) : res emap :=
  if is_absorbable M v then Ok m
  else
    let '(m, it, _) := e_insert X m x cc_zero in
    em_combine_at f m it v.
(** _subtract<Combiner>, map.hpp 637-653 *)
Definition em_subtract_ (f : functor) (m : emap) (x : K) (v : CC) : res emap :=
  match e_find X m x with
  | Some it => em_combine_at f m it v
  | None => Ok m
  end.
(** add, hinted add: map.hpp 290-300; subtract, 307-312 with on_invertible 410-431;
    subtract(key), 314-318 *)
Definition em_add (m : emap) (x : K) (v : CC) : res emap := em_add_ (codomain_combine M) m x v.
Definition em_add_hint (m : emap) (x : K) (v : CC) : res emap := em_add_hint_ (codomain_combine M) m x v.
Definition em_subtract (m : emap) (x : K) (v : CC) : res emap :=
  if is_total_invertible M then em_add_ (inverse_codomain_combine M) m x v
  else em_subtract_ (inverse_codomain_combine M) m x v.
(** insert, map.hpp 323-337: the map, and the flag that is returned; the iterator is end()
    for an absorbed value *)
Definition em_insert (m : emap) (x : K) (v : CC) : emap * option nat * bool :=
  if is_absorbable M v then (m, None, true)
  else let '(m, it, b) := e_insert X m x v in (m, Some it, b).
(** erase(pair), concept/element_map.hpp 101-120 *)
Definition em_erase_pair (m : emap) (x : K) (v : CC) : res (emap * nat) :=
  if is_absorbable M v then Ok (m, 0)
  else match e_find X m x with
       | Some it =>
           w <- e_value X m it ;;
           if cc_eq v w then m <- e_erase_at X m it ;; Ok (m, 1) else Ok (m, 0)
       | None => Ok (m, 0)
       end.
(** operator(), map.hpp 276-281 *)
Definition em_lookup (m : emap) (x : K) : res CC :=
  match e_find X m x with Some it => e_value X m it | None => Ok cc_zero end.
(** within(pair, map) and contains(map, pair), concept/element_map.hpp 40-57 *)
Definition em_contains_pair (m : emap) (x : K) (v : CC) : res bool :=
  match e_find X m x with Some it => w <- e_value X m it ;; Ok (cc_eq w v) | None => Ok false end.

(** operator += (map), concept/element_associator.hpp 190-202 *)
Definition em_add_map (m o : emap) : res emap := foldM (fun m n => em_add_hint m (fst n) (snd n)) m o.
(** insert(map, map), concept/element_associator.hpp 274-285 *)
Definition em_insert_map (m o : emap) : emap :=
  fold_left (fun m n => fst (fst (em_insert m (fst n) (snd n)))) o m.
(** erase(map, map), concept/element_associator.hpp 305-313 *)
Definition em_erase_map (m o : emap) : res emap :=
  foldM (fun m n => ' (m, _) <- em_erase_pair m (fst n) (snd n) ;; Ok m) m o.
(** erase(map, set), concept/element_map.hpp 122-131 *)
Definition em_erase_set (m : emap) (o : eset) : res emap :=
  foldM (fun m n => ' (m, _) <- e_erase_key X m (fst n) ;; Ok m) m o.
(** operator -= (map), concept/element_associator.hpp 334-342 *)
Definition em_subtract_map (m o : emap) : res emap := foldM (fun m n => em_subtract m (fst n) (snd n)) m o.
(** operator -= (set), concept/element_map.hpp 159-178 *)
Definition em_subtract_set (m : emap) (o : eset) : res emap :=
  match e_common_range X o m with
  | None => Ok m
  | Some (lwb, upb) =>
      l <- e_range X o lwb upb ;; foldM (fun m n => ' (m, _) <- e_erase_key X m (fst n) ;; Ok m) m l
  end.

(** add_intersection(section, pair), map.hpp 364-368 with on_definedness 438-455,
    total_add_intersection 390-395, partial_add_intersection 397-405 *)
Definition em_add_intersection_pair (sec m : emap) (x : K) (v : CC) : res emap :=
  if mt_total M then sec <- em_add_map sec m ;; em_add sec x v
  else match e_find X m x with
       | Some it =>
           w <- e_value X m it ;;
           sec <- em_add_ (codomain_combine M) sec x w ;;
           em_add_ (codomain_intersect M) sec x v
       | None => Ok sec
       end.
(** add_intersection(section, map, map), concept/element_map.hpp 223-229 *)
Definition em_add_intersection_map (sec m o : emap) : res emap :=
  foldM (fun sec n => em_add_intersection_pair sec m (fst n) (snd n)) sec o.
(** operator &= (pair) and (map), concept/element_map.hpp 235-251, 268-284 *)
Definition em_and_pair (m : emap) (x : K) (v : CC) : res emap :=
  if mt_total M then em_add m x v else em_add_intersection_pair [] m x v.
Definition em_and_map (m o : emap) : res emap :=
  if mt_total M then em_add_map m o else em_add_intersection_map [] m o.
(** add_intersection(section, map, key) and (section, map, set), operator &= (key) and (set):
    concept/element_associator.hpp 358-386, 391-399, 415-423 *)
Definition em_add_intersection_key (sec m : emap) (x : K) : res emap :=
  match e_find X m x with
  | Some it => w <- e_value X m it ;; em_add sec x w
  | None => Ok sec
  end.
Definition em_add_intersection_set (sec m : emap) (o : eset) : res emap :=
  match e_common_range X o m with
  | None => Ok sec
  | Some (lwb, upb) =>
      l <- e_range X o lwb upb ;; foldM (fun sec n => em_add_intersection_key sec m (fst n)) sec l
  end.
Definition em_and_key (m : emap) (x : K) : res emap := em_add_intersection_key [] m x.
Definition em_and_set (m : emap) (o : eset) : res emap := em_add_intersection_set [] m o.
(** intersects, concept/element_map.hpp 303-354 *)
Definition em_intersects_pair (m : emap) (x : K) (v : CC) : res bool :=
  if mt_total M then Ok true
  else s <- em_add_intersection_pair [] m x v ;; Ok (match s with [] => false | _ => true end).
Definition em_intersects_key (m : emap) (x : K) : bool :=
  if mt_total M then true else e_contains_key X m x.
Definition em_intersects_set (m : emap) (o : eset) : res bool :=
  if mt_total M then Ok true else e_intersects X m o.
Definition em_intersects_map (m o : emap) : res bool :=
  if mt_total M then Ok true else e_intersects X m o.

(** on_codomain_model::subtract, map.hpp 462-503 *)
Definition em_codomain_subtract (m : emap) (it : nat) (v : CC) : res emap :=
  if cc_set_sem CC then
    w <- e_value X m it ;;
    m <- e_assign X m it (combine CC (inverse_codomain_intersect M) w v) ;;
    if mt_absorbs M then
      w <- e_value X m it ;; if cc_eq w cc_zero then e_erase_at X m it else Ok m
    else Ok m
  else if mt_absorbs M then e_erase_at X m it
  else e_assign X m it cc_zero.
(** ( *it_).second = identity_element for all elements: map.hpp 526-528,
    concept/element_map.hpp 397-398 *)
Definition em_reset (m : emap) : emap := map (fun n => (fst n, cc_zero)) m.
(** flip(pair), map.hpp 374-378 with on_total_absorbable, 507-564 *)
Definition em_flip (m : emap) (x : K) (v : CC) : res emap :=
  if mt_total M then
    if mt_absorbs M then Ok [] else m <- em_add m x v ;; Ok (em_reset m)
  else
    let '(m, it, inserted) := em_insert m x v in
    if inserted then Ok m
    else match it with Some it => em_codomain_subtract m it v | None => Err Deref_end end.
(** operator ^= (map), concept/element_map.hpp 366-425 *)
Definition em_flip_map (m o : emap) : res emap :=
  if mt_total M then
    if mt_absorbs M then Ok []
    else m <- foldM (fun m n => em_flip m (fst n) (snd n)) m o ;; Ok (em_reset m)
  else foldM (fun m n => em_flip m (fst n) (snd n)) m o.

(** domain(set, map), concept/element_map.hpp 431-442 *)
Definition em_domain (s : eset) (m : emap) : eset := fold_left (fun s n => es_add X s (fst n)) m s.

(** operator ==, operator <, within/contains(map, map) *)
Definition em_eqb (l r : emap) : bool := e_equals X cc_eq l r.
Definition em_ltb (l r : emap) : bool := e_ltb X cc_lt l r.
Definition em_within (sub super : emap) : res bool := e_within X cc_eq sub super.
(** is_distinct_equal, concept/element_map.hpp 64-69: lexicographical_distinct_equal and
    next_proton, detail/map_algo.hpp 44-80.  The iterators are the remaining sequences. *)
Fixpoint em_next_proton (m : emap) : emap :=
  match m with
  | [] => []
  | n :: m' => if cc_eq (snd n) cc_zero then em_next_proton m' else m
  end.
Fixpoint em_distinct_loop (fuel : nat) (l r : emap) : res bool :=
  match fuel with
  | 0 => Err Fuel
  | S fuel =>
      match l, r with
      | a :: l, b :: r =>
          if negb (eqb (fst a) (fst b) && cc_eq (snd a) (snd b)) then Ok false
          else em_distinct_loop fuel (em_next_proton l) (em_next_proton r)
      | [], [] => Ok true
      | _, _ => Ok false
      end
  end.
Definition em_distinct_eqb (l r : emap) : res bool :=
  em_distinct_loop (S (length l)) (em_next_proton l) (em_next_proton r).

(** add_if(pred, object, src), concept/element_associator.hpp 480-490: the iterator advances
    only where the predicate holds *)
Fixpoint em_add_if (fuel : nat) (pred : K -> CC -> bool) (m src : emap) : res emap :=
  match fuel with
  | 0 => Err Fuel
  | S fuel =>
      match src with
      | [] => Ok m
      | n :: src' =>
          if pred (fst n) (snd n)
          then m <- em_add m (fst n) (snd n) ;; em_add_if fuel pred m src'
          else em_add_if fuel pred m src
      end
  end.
End Maps.

(* ----------------------------------------------------------------- conversions *)
Section Morphism.
Context (X : dom) (k : kind).
Notation K := (D X).

(** the constructor of an interval from one value: right_open_interval.hpp 47-55,
    left_open_interval.hpp 47-58, open_interval.hpp 47-60, closed_interval.hpp 48-54,
    discrete_interval.hpp 53-59, continuous_interval.hpp 53-59.  open_interval uses plain --
    and ++; its assertions are preconditions. *)
Definition of_value (v : K) : itv K :=
  match k with
  | OP => construct X k (pred v) (succ v)
  | _ => singleton X k v
  end.

(** the loop of segmental::atomize over the elements of one interval,
    detail/interval_morphism.hpp 31-32: operator <= and ++ of the domain type, whatever
    Compare is *)
Definition raw_le (x y : K) : bool := if incr X then leb x y else leb y x.
Fixpoint atomize_loop {A} (fuel : nat) (ins : A -> K -> A) (r : A) (x last_ : K) : res A :=
  match fuel with
  | 0 => Err Fuel
  | S fuel => if raw_le x last_ then atomize_loop fuel ins (ins r x) (succ x) last_ else Ok r
  end.
(** segmental::atomize, detail/interval_morphism.hpp 23-34, into a std::set and an icl::map;
    icl::insert is std::set::insert or icl::map::insert *)
Definition atomize_set {V} (fuel : nat) (result : list (K * unit)) (src : tree K V) : res (list (K * unit)) :=
  foldM (fun r n => atomize_loop fuel (fun r x => es_add X r x) r (first X k (nkey n)) (last X k (nkey n)))
        result (nodes src).
Definition atomize_map (M : mtype) (fuel : nat) (result : list (K * C (mt_co M))) (src : tree K (C (mt_co M)))
  : res (list (K * C (mt_co M))) :=
  foldM (fun r n => atomize_loop fuel (fun r x => fst (fst (em_insert X M r x (nval n)))) r
                      (first X k (nkey n)) (last X k (nkey n)))
        result (nodes src).
(** segmental::cluster, detail/interval_morphism.hpp 36-49 *)
Definition cluster_set (st : style) (result : tree K unit) (src : list (K * unit)) : res (tree K unit) :=
  foldM (fun t n => ' (t, _) <- s_add X k st t (of_value (fst n)) ;; Ok t) result src.
Definition cluster_map (M : mtype) (result : tree K (C (mt_co M))) (src : list (K * C (mt_co M)))
  : res (tree K (C (mt_co M))) :=
  foldM (fun t n => m_add X k M t (of_value (fst n)) (snd n)) result src.
End Morphism.

(** std::set / std::map keyed by intervals, as a sequence of nodes with identity.

    The containers of the library store their segments in
      ICL_IMPL_SPACE::set<interval_type, exclusive_less_than<interval_type>>
      (interval_base_set.hpp 122) and
      ICL_IMPL_SPACE::map<interval_type, CodomainT, exclusive_less_than<interval_type>>
      (interval_base_map.hpp 150),
    where exclusive_less_than (detail/exclusive_less_than.hpp 18-25) calls
    non_empty::exclusive_less, which asserts that both arguments are non-empty.

    What is modelled of the standard containers is their specification:
    - a node keeps its identity [nid] until it is erased; an iterator is the identity of
      a node or end() ([None]);
    - every lookup needs the sequence to be strictly ordered by the comparator;
      looking up in a sequence that is not ordered is undefined behaviour ([Unsorted]);
    - the comparator's assertion is [Empty_key];
    - dereferencing/incrementing end(), decrementing begin(), using the iterator of an
      erased node, erasing an ill-formed range are errors;
    - a hint does not influence what is inserted, but it must be a valid iterator.
    Allocation failure is modelled separately (CrashModel.v).  A set is a tree with values in [unit]. *)
From Verif Require Export Interval.

Inductive err :=
  | Deref_end     (* operator* / operator++ on end() *)
  | Dangling      (* use of an iterator whose node was erased *)
  | Decr_begin    (* operator-- on begin() *)
  | Empty_key     (* BOOST_ASSERT in non_empty::exclusive_less *)
  | Unsorted      (* lookup in an unordered tree *)
  | Bad_range     (* erase(first,last) with last not reachable from first *)
  | Assertion     (* another BOOST_ASSERT *)
  | Fuel.         (* a loop did not finish within its bound *)

Inductive res (A : Type) := Ok (a : A) | Err (e : err).
Arguments Ok {A}. Arguments Err {A}.
Definition bind {A B} (x : res A) (f : A -> res B) : res B :=
  match x with Ok a => f a | Err e => Err e end.
Declare Scope res_scope.
Delimit Scope res_scope with res.
Open Scope res_scope.
Notation "x <- e ;; f" := (bind e (fun x => f)) (at level 61, e at next level, right associativity) : res_scope.
Notation "' p <- e ;; f" := (bind e (fun p => f)) (at level 61, p pattern, e at next level, right associativity) : res_scope.

Definition iter : Type := option nat.
Definition iter_eqb (a b : iter) : bool :=
  match a, b with
  | Some i, Some j => Nat.eqb i j
  | None, None => true
  | _, _ => false
  end.

Record node (A V : Type) := Node { nid : nat; nkey : itv A; nval : V }.
Arguments Node {A V}. Arguments nid {A V}. Arguments nkey {A V}. Arguments nval {A V}.
Record tree (A V : Type) := Tree { nodes : list (node A V); fresh : nat }.
Arguments Tree {A V}. Arguments nodes {A V}. Arguments fresh {A V}.

Section Tree.
Context (X : dom) (k : kind) {V : Type}.
Notation I := (itv (D X)).
Notation node := (node (D X) V).
Notation tree := (tree (D X) V).

(** default construction *)
Definition t_empty : tree := Tree [] 0.

(** key_compare()(a,b) for non-empty arguments *)
Definition less (a b : I) : bool := ne_exclusive_less X k a b.

(** the sequence is ordered by the comparator and no comparison asserts *)
Fixpoint ordered (l : list node) : bool :=
  match l with
  | [] => true
  | n :: l' =>
      negb (is_empty X k (nkey n))
      && match l' with [] => true | m :: _ => less (nkey n) (nkey m) end
      && ordered l'
  end.

(** precondition of every lookup with key [a] *)
Definition look_ok (t : tree) (a : I) : res unit :=
  match nodes t with
  | [] => Ok tt
  | _ => if ordered (nodes t)
         then if is_empty X k a then Err Empty_key else Ok tt
         else Err Unsorted
  end.

(** iterators *)
Definition hd_it (l : list node) : iter := match l with [] => None | n :: _ => Some (nid n) end.
Fixpoint last_it (l : list node) : iter :=
  match l with [] => None | [n] => Some (nid n) | _ :: l' => last_it l' end.
Definition begin_ (t : tree) : iter := hd_it (nodes t).
Definition end_ (t : tree) : iter := None.

(** position of node [i] *)
Fixpoint split_at (i : nat) (l : list node) : option (list node * node * list node) :=
  match l with
  | [] => None
  | n :: l' => if Nat.eqb (nid n) i then Some ([], n, l')
               else match split_at i l' with
                    | Some (a, m, b) => Some (n :: a, m, b)
                    | None => None
                    end
  end.

Definition valid (t : tree) (it : iter) : bool :=
  match it with
  | None => true
  | Some i => match split_at i (nodes t) with Some _ => true | None => false end
  end.
Definition check_it (t : tree) (it : iter) : res unit := if valid t it then Ok tt else Err Dangling.

(** operator* *)
Definition deref (t : tree) (it : iter) : res node :=
  match it with
  | None => Err Deref_end
  | Some i => match split_at i (nodes t) with Some (_, n, _) => Ok n | None => Err Dangling end
  end.
Definition key (t : tree) (it : iter) : res I := n <- deref t it ;; Ok (nkey n).
Definition val (t : tree) (it : iter) : res V := n <- deref t it ;; Ok (nval n).

(** operator++ / boost::next *)
Definition incr_it (t : tree) (it : iter) : res iter :=
  match it with
  | None => Err Deref_end
  | Some i => match split_at i (nodes t) with Some (_, _, r) => Ok (hd_it r) | None => Err Dangling end
  end.

(** operator-- / boost::prior *)
Definition decr_it (t : tree) (it : iter) : res iter :=
  match it with
  | None => match last_it (nodes t) with Some j => Ok (Some j) | None => Err Decr_begin end
  | Some i => match split_at i (nodes t) with
              | Some (l, _, _) => match last_it l with Some j => Ok (Some j) | None => Err Decr_begin end
              | None => Err Dangling
              end
  end.

(** icl::cyclic_prior, concept/container.hpp 70-77 *)
Definition cyclic_prior (t : tree) (it : iter) : res iter :=
  if iter_eqb it (begin_ t) then Ok (end_ t) else decr_it t it.

(** the maximal prefix of nodes before key [a], and the rest *)
Fixpoint split_lb (a : I) (l : list node) : list node * list node :=
  match l with
  | [] => ([], [])
  | n :: l' => if less (nkey n) a then let '(p, q) := split_lb a l' in (n :: p, q) else ([], l)
  end.
(** the maximal prefix of nodes not after key [a], and the rest *)
Fixpoint split_ub (a : I) (l : list node) : list node * list node :=
  match l with
  | [] => ([], [])
  | n :: l' => if less a (nkey n) then ([], l) else let '(p, q) := split_ub a l' in (n :: p, q)
  end.

(** lower_bound, upper_bound: interval_base_set.hpp 361-371, interval_base_map.hpp 443-453 *)
Definition lower_bound (t : tree) (a : I) : res iter :=
  _ <- look_ok t a ;; Ok (hd_it (snd (split_lb a (nodes t)))).
Definition upper_bound (t : tree) (a : I) : res iter :=
  _ <- look_ok t a ;; Ok (hd_it (snd (split_ub a (nodes t)))).
(** equal_range: interval_base_set.hpp 373-384, interval_base_map.hpp 455-466 *)
Definition equal_range (t : tree) (a : I) : res (iter * iter) :=
  l <- lower_bound t a ;; u <- upper_bound t a ;; Ok (l, u).

(** std::set::find / std::map::find; find(interval): interval_base_set.hpp 238-241,
    interval_base_map.hpp 290-293 *)
Definition tfind (t : tree) (a : I) : res iter :=
  _ <- look_ok t a ;;
  Ok (match snd (split_lb a (nodes t)) with
      | [] => None
      | n :: _ => if less a (nkey n) then None else Some (nid n)
      end).

(** insert(value): pair of iterator and "inserted" *)
Definition insert (t : tree) (a : I) (v : V) : res (tree * iter * bool) :=
  _ <- look_ok t a ;;
  let '(p, q) := split_lb a (nodes t) in
  let new := (Tree (p ++ Node (fresh t) a v :: q) (S (fresh t)), Some (fresh t), true) in
  Ok (match q with
      | [] => new
      | n :: _ => if less a (nkey n) then new else (t, Some (nid n), false)
      end).

(** insert(hint, value) *)
Definition insert_hint (t : tree) (hint : iter) (a : I) (v : V) : res (tree * iter) :=
  _ <- check_it t hint ;; ' (t', it, _) <- insert t a v ;; Ok (t', it).

(** erase(iterator): also the public erase(position), interval_base_set.hpp 323-326,
    interval_base_map.hpp 407 *)
Definition erase_it (t : tree) (it : iter) : res tree :=
  match it with
  | None => Err Deref_end
  | Some i => match split_at i (nodes t) with
              | Some (l, _, r) => Ok (Tree (l ++ r) (fresh t))
              | None => Err Dangling
              end
  end.

(** the part of [l] from the node that [it] refers to; None if there is no such node *)
Definition from_it (it : iter) (l : list node) : option (list node) :=
  match it with
  | None => Some []
  | Some i => match split_at i l with Some (_, n, r) => Some (n :: r) | None => None end
  end.
(** erase(first, past): also the public one, interval_base_set.hpp 329-332,
    interval_base_map.hpp 410 *)
Definition erase_range (t : tree) (first past : iter) : res tree :=
  match first with
  | None => match past with None => Ok t | Some _ => Err Bad_range end
  | Some i =>
      match split_at i (nodes t) with
      | None => Err Dangling
      | Some (l, n, r) =>
          match from_it past (n :: r) with
          | Some rest => Ok (Tree (l ++ rest) (fresh t))
          | None => Err Bad_range
          end
      end
  end.

(** const_cast<interval_type&>(key_value<Type>(it)) = a *)
Definition set_key (t : tree) (it : iter) (a : I) : res tree :=
  match it with
  | None => Err Deref_end
  | Some i => match split_at i (nodes t) with
              | Some (l, n, r) => Ok (Tree (l ++ Node (nid n) a (nval n) :: r) (fresh t))
              | None => Err Dangling
              end
  end.

(** it->second = v *)
Definition set_val (t : tree) (it : iter) (v : V) : res tree :=
  match it with
  | None => Err Deref_end
  | Some i => match split_at i (nodes t) with
              | Some (l, n, r) => Ok (Tree (l ++ Node (nid n) (nkey n) v :: r) (fresh t))
              | None => Err Dangling
              end
  end.

Definition assert (b : bool) : res unit := if b then Ok tt else Err Assertion.

(* ------------------------------------------------------------------------- *)
(** namespace segmental of detail/interval_set_algo.hpp.  [coeq] is co_equal
    (detail/associated_value.hpp 21-41): equality of the associated values of a map,
    [true] for sets. *)
Context (coeq : V -> V -> bool).

(** joinable, 225-231 *)
Definition joinable (t : tree) (some next_ : iter) : res bool :=
  a <- deref t some ;; b <- deref t next_ ;;
  Ok (touches X k (nkey a) (nkey b) && coeq (nval a) (nval b)).

(** join_nodes, 233-242 *)
Definition join_nodes (t : tree) (left_ right_ : iter) : res tree :=
  right_interval <- key t right_ ;;
  t <- erase_it t right_ ;;
  l <- key t left_ ;;
  set_key t left_ (hull X k l right_interval).

(** the BOOST_ASSERTs of join_on_left / join_on_right *)
Definition join_asserts (t : tree) (left_ right_ : iter) : res unit :=
  a <- key t left_ ;; b <- key t right_ ;;
  _ <- assert (exclusive_less X k a b) ;;
  j <- joinable t left_ right_ ;;
  assert j.

(** join_on_left, 244-256: returns left_ *)
Definition join_on_left (t : tree) (left_ right_ : iter) : res (tree * iter) :=
  _ <- join_asserts t left_ right_ ;; t <- join_nodes t left_ right_ ;; Ok (t, left_).

(** join_on_right, 258-271: right_ is set to left_ and returned *)
Definition join_on_right (t : tree) (left_ right_ : iter) : res (tree * iter) :=
  _ <- join_asserts t left_ right_ ;; t <- join_nodes t left_ right_ ;; Ok (t, left_).

(** join_left, 273-287: the reference parameter it_ and the result coincide *)
Definition join_left (t : tree) (it_ : iter) : res (tree * iter) :=
  if iter_eqb it_ (begin_ t) then Ok (t, it_)
  else pred_ <- decr_it t it_ ;;
       j <- joinable t pred_ it_ ;;
       if j then join_on_right t pred_ it_ else Ok (t, it_).

(** join_right, 289-304 *)
Definition join_right (t : tree) (it_ : iter) : res (tree * iter) :=
  if iter_eqb it_ (end_ t) then Ok (t, it_)
  else succ_ <- incr_it t it_ ;;
       if iter_eqb succ_ (end_ t) then Ok (t, it_)
       else j <- joinable t it_ succ_ ;;
            if j then join_on_left t it_ succ_ else Ok (t, it_).

(** join_neighbours, 306-311 *)
Definition join_neighbours (t : tree) (it_ : iter) : res (tree * iter) :=
  ' (t, it_) <- join_left t it_ ;; join_right t it_.

(** join_under(object, addend, last_), 338-361 *)
Definition join_under (t : tree) (addend : I) (last_ : iter) : res (tree * iter) :=
  first_ <- lower_bound t addend ;;
  second_ <- incr_it t first_ ;;
  end_ <- incr_it t last_ ;;
  kf <- key t first_ ;;
  kl <- key t last_ ;;
  let left_resid := right_subtract X k kf addend in
  let right_resid := left_subtract X k kl addend in
  t <- erase_range t second_ end_ ;;
  t <- set_key t first_ (hull X k (hull X k left_resid addend) right_resid) ;;
  Ok (t, first_).

End Tree.

Arguments t_empty {X V}.
Arguments hd_it {X V}. Arguments last_it {X V}. Arguments begin_ {X V}. Arguments end_ {X V}.
Arguments split_at {X V}. Arguments valid {X V}. Arguments check_it {X V}.
Arguments deref {X V}. Arguments key {X V}. Arguments val {X V}.
Arguments incr_it {X V}. Arguments decr_it {X V}. Arguments cyclic_prior {X V}.
Arguments erase_it {X V}. Arguments from_it {X V}. Arguments erase_range {X V}.
Arguments set_key {X V}. Arguments set_val {X V}.

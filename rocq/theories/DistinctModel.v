(** is_distinct_equal on interval maps.  File names without a directory are relative to
    /repo/include/boost/icl. *)
From Verif Require Export MapModel.

Section Distinct.
Context (X : dom) (k : kind) (M : mtype).
Notation CC := (mt_co M).
Notation imap := (tree (D X) (C CC)).
Notation iter := (option nat).

(** Map::next_proton(iter_, object), detail/map_algo.hpp 44-52 *)
Fixpoint m_next_proton (fuel : nat) (object : imap) (iter_ : iter) : res iter :=
  match fuel with
  | 0 => Err Fuel
  | S fuel =>
      if negb (iter_eqb iter_ (end_ object)) then
        v <- val object iter_ ;;
        if cc_eq v cc_zero
        then iter_ <- incr_it object iter_ ;; m_next_proton fuel object iter_
        else Ok iter_
      else Ok iter_
  end.
(** the loop of Map::lexicographical_distinct_equal, detail/map_algo.hpp 68-79 *)
Fixpoint m_distinct_loop (fuel : nat) (left right : imap) (left_ right_ : iter) : res bool :=
  match fuel with
  | 0 => Err Fuel
  | S fuel =>
      if negb (iter_eqb left_ (end_ left)) && negb (iter_eqb right_ (end_ right)) then
        n <- deref left left_ ;;
        m <- deref right right_ ;;
        if negb (itv_eqb X k (nkey n) (nkey m) && cc_eq (nval n) (nval m)) then Ok false
        else
          left_ <- incr_it left left_ ;;
          right_ <- incr_it right right_ ;;
          left_ <- m_next_proton (S (length (nodes left))) left left_ ;;
          right_ <- m_next_proton (S (length (nodes right))) right right_ ;;
          m_distinct_loop fuel left right left_ right_
      else Ok (iter_eqb left_ (end_ left) && iter_eqb right_ (end_ right))
  end.
(** is_distinct_equal(left, right), concept/interval_associator.hpp 98-104, and
    Map::lexicographical_distinct_equal, detail/map_algo.hpp 56-80.  The shortcut for one object
    compared with itself (59-60) is not modelled: operands are copies. *)
Definition m_distinct_eqb (left right : imap) : res bool :=
  left_ <- m_next_proton (S (length (nodes left))) left (begin_ left) ;;
  right_ <- m_next_proton (S (length (nodes right))) right (begin_ right) ;;
  m_distinct_loop (S (length (nodes left))) left right left_ right_.
End Distinct.

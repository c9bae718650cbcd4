(** Operators applied to one container twice (x += x, x -= x, ...).  Both operands are the same
    object, so the iterator over the operand walks through the tree that the operator changes.
    Here a cursor is an iterator of the changing tree: it is dangling once its node is erased.
    The segment that the cursor shows is passed by value here.  For maps that is exact: *elem_
    is a pair<const interval, codomain> and the callees take a const segment_type&, that is a
    pair<interval, codomain> (interval_base_map.hpp 102), so a temporary is made.  For sets
    the interval is passed by reference, but _add reads it only before it changes a node
    (interval_base_set.hpp 516-535), subtract only before it erases nodes (540-569) and flip
    copies it first (concept/interval_set.hpp 234). *)
From Verif Require Export MapModel2.
From Verif Require Import MapModel SetModel.

Section Alias.
Context (X : dom) (k : kind).
Notation K := (D X).
Notation I := (itv K).

(** for(elem_ = object.begin(); elem_ != object.end(); ++elem_) step(object, state, *elem_) *)
Fixpoint self_for {V S} (step : tree K V -> S -> node K V -> res (tree K V * S)) (fuel : nat) (t : tree K V) (s : S) (elem_ : iter) : res (tree K V) :=
  match fuel with
  | 0 => Err Fuel
  | Datatypes.S fuel =>
      if iter_eqb elem_ (end_ t) then Ok t
      else n <- deref t elem_ ;; ' (t, s) <- step t s n ;; elem_ <- incr_it t elem_ ;; self_for step fuel t s elem_
  end.
(** while(it_ != upb) step(object, *it_++) *)
Fixpoint self_while {V} (step : tree K V -> node K V -> res (tree K V)) (fuel : nat) (t : tree K V) (it_ upb : iter) : res (tree K V * iter) :=
  match fuel with
  | 0 => Err Fuel
  | Datatypes.S fuel =>
      if iter_eqb it_ upb then Ok (t, it_)
      else n <- deref t it_ ;; it_ <- incr_it t it_ ;; t <- step t n ;; self_while step fuel t it_ upb
  end.
Notation fuel_of t := (Datatypes.S (length (nodes t))).

(* ------------------------------------------------------------------------ sets *)
Section Sets.
Context (st : style).
(** x += x, concept/interval_associator.hpp 317-326 (also |=) *)
Definition s_self_add (t : tree K unit) : res (tree K unit) :=
  self_for (fun t prior_ n => s_add_hint X k st t prior_ (nkey n)) (fuel_of t) t (end_ t) (begin_ t).
(** x -= x, concept/interval_associator.hpp 703-709 and erase, 620-639 *)
Definition s_self_subtract (t : tree K unit) : res (tree K unit) :=
  match nodes t with
  | [] => Ok t
  | _ =>
      cr <- common_range X k t t ;;
      match cr with
      | None => Ok t
      | Some (lwb, upb) => ' (t, _) <- self_while (fun t n => s_subtract X k t (nkey n)) (fuel_of t) t lwb upb ;; Ok t
      end
  end.
(** x ^= x, concept/interval_set.hpp 266-292 *)
Definition s_self_flip (t : tree K unit) : res (tree K unit) :=
  match nodes t with
  | [] => Ok t
  | _ =>
      cr <- common_range X k t t ;;
      match cr with
      | None => s_self_add t
      | Some (lwb, upb) =>
          let add t n := ' (t, _) <- s_add X k st t (nkey n) ;; Ok t in
          ' (t, it_) <- self_while add (fuel_of t) t (begin_ t) lwb ;;
          ' (t, it_) <- self_while (fun t n => s_flip_seg X k st t (nkey n)) (fuel_of t) t it_ upb ;;
          ' (t, _) <- self_while add (fuel_of t) t it_ (end_ t) ;;
          Ok t
      end
  end.
End Sets.

(* ------------------------------------------------------------------------ maps *)
Section Map.
Context (M : mtype).
Notation V := (C (mt_co M)).
(** x += x, concept/interval_associator.hpp 317-326 *)
Definition m_self_add (t : tree K V) : res (tree K V) :=
  self_for (fun t prior_ n => m_add_hint X k M t prior_ (nkey n) (nval n)) (fuel_of t) t (end_ t) (begin_ t).
(** insert(x, x), concept/interval_associator.hpp 603-612 *)
Definition m_self_insert (t : tree K V) : res (tree K V) :=
  self_for (fun t prior_ n => ' (t, _) <- m_insert_hint X k M t prior_ (nkey n) (nval n) ;; Ok (t, prior_)) (fuel_of t) t (end_ t) (begin_ t).
(** x -= x, concept/interval_associator.hpp 669-678 *)
Definition m_self_subtract (t : tree K V) : res (tree K V) :=
  self_for (fun t s n => t <- m_subtract X k M t (nkey n) (nval n) ;; Ok (t, s)) (fuel_of t) t tt (begin_ t).
(** erase(x, x), concept/interval_associator.hpp 620-639 *)
Definition m_self_erase (t : tree K V) : res (tree K V) :=
  match nodes t with
  | [] => Ok t
  | _ =>
      cr <- common_range X k t t ;;
      match cr with
      | None => Ok t
      | Some (lwb, upb) => ' (t, _) <- self_while (fun t n => m_erase_seg X k M t (nkey n) (nval n)) (fuel_of t) t lwb upb ;; Ok t
      end
  end.
(** x ^= x, concept/interval_map.hpp 484-561 *)
Definition m_self_flip (t : tree K V) : res (tree K V) :=
  if mt_total M then
    if mt_absorbs M then Ok t_empty
    else t <- m_self_add t ;; m_reset_values X k M t
  else
    cr <- common_range X k t t ;;
    match cr with
    | None => m_self_add t
    | Some (lwb, upb) =>
        let add t n := m_add X k M t (nkey n) (nval n) in
        ' (t, it_) <- self_while add (fuel_of t) t (begin_ t) lwb ;;
        ' (t, it_) <- self_while (fun t n => m_flip_seg X k M t (nkey n) (nval n)) (fuel_of t) t it_ upb ;;
        ' (t, _) <- self_while add (fuel_of t) t it_ (end_ t) ;;
        Ok t
    end.
End Map.
End Alias.

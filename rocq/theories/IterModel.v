(** Output iterators (iterator.hpp), add_if on interval containers and the remaining morphisms
    of detail/interval_morphism.hpp. *)
From Verif Require Export MapModel2 ContModel.
From Verif Require Import MapModel SetModel.

Section Iter.
Context (X : dom) (k : kind).
Notation K := (D X).
Notation I := (itv K).

(** "if(_iter != _cont->end()) ++_iter;" in add_iterator::operator= and
    insert_iterator::operator=, iterator.hpp 34-40, 74-80 *)
Definition step_it {V} (t : tree K V) (it : iter) : res (tree K V * iter) :=
  if iter_eqb it (end_ t) then Ok (t, it) else it <- incr_it t it ;; Ok (t, it).
(** add_iterator::operator=, iterator.hpp 34-40, on an interval set;
    icl::add(set, prior, interval) is [s_add_hint], and so is insert(prior, interval)
    (interval_base_set.hpp 301-302), so insert_iterator does the same *)
Definition s_out (st : style) (c : tree K unit * iter) (a : I) : res (tree K unit * iter) :=
  ' (t, it) <- s_add_hint X k st (fst c) (snd c) a ;; step_it t it.
(** std::copy(l.begin(), l.end(), icl::adder(t, it)) *)
Definition s_copy_add (st : style) (t : tree K unit) (it : iter) (l : list I) : res (tree K unit) :=
  ' (t, _) <- foldM (s_out st) (t, it) l ;; Ok t.

Section Map.
Context (M : mtype).
Notation V := (C (mt_co M)).
(** the same with icl::adder and with icl::inserter for an interval map, iterator.hpp 34-40, 74-80 *)
Definition m_out_add (c : tree K V * iter) (s : I * V) : res (tree K V * iter) :=
  ' (t, it) <- m_add_hint X k M (fst c) (snd c) (fst s) (snd s) ;; step_it t it.
Definition m_out_insert (c : tree K V * iter) (s : I * V) : res (tree K V * iter) :=
  ' (t, it) <- m_insert_hint X k M (fst c) (snd c) (fst s) (snd s) ;; step_it t it.
Definition m_copy_add (t : tree K V) (it : iter) (l : list (I * V)) : res (tree K V) :=
  ' (t, _) <- foldM m_out_add (t, it) l ;; Ok t.
Definition m_copy_insert (t : tree K V) (it : iter) (l : list (I * V)) : res (tree K V) :=
  ' (t, _) <- foldM m_out_insert (t, it) l ;; Ok t.

(** add_if(pred, object, src), concept/interval_map.hpp 616-626: "it_++" is evaluated only
    where the predicate holds *)
Fixpoint m_add_if (fuel : nat) (pred : I -> V -> bool) (t : tree K V) (src : list (node K V)) : res (tree K V) :=
  match fuel with
  | 0 => Err Fuel
  | S fuel =>
      match src with
      | [] => Ok t
      | n :: src' =>
          if pred (nkey n) (nval n) then t <- m_add X k M t (nkey n) (nval n) ;; m_add_if fuel pred t src'
          else m_add_if fuel pred t src
      end
  end.

(** segmental::joiner, detail/interval_morphism.hpp 69-78: joint.insert of every segment of
    the joined split container *)
Definition m_joiner (joint split : tree K V) : res (tree K V) :=
  split <- join X k cc_eq split ;; foldM (fun t n => m_insert X k M t (nkey n) (nval n)) joint (nodes split).
(** segmental::identity_absorber, detail/interval_morphism.hpp 80-89: M is the type of the
    absorber; absorb_identities of the enricher erases its identity elements (concept/interval_map.hpp
    648-655) *)
Definition m_identity_absorber (absorber enricher : tree K V) : res (tree K V) :=
  enricher <- m_erase_if X M (fun _ v => cc_eq v cc_zero) enricher ;;
  foldM (fun t n => m_insert X k M t (nkey n) (nval n)) absorber (nodes enricher).
End Map.
(** the same for sets: insert(interval) is add(interval), interval_base_set.hpp 293-296 *)
Definition s_joiner (st : style) (joint split : tree K unit) : res (tree K unit) :=
  split <- join X k s_coeq split ;;
  foldM (fun t n => ' (t, _) <- s_add X k st t (nkey n) ;; Ok t) joint (nodes split).
End Iter.

(** Symmetric difference of interval sets when memory can run out: the functions of SetModel.v,
    statement by statement, in the monad of CrashModel.v (same simplifications).
    File names are relative to /repo/include/boost/icl. *)
From Verif Require Export CrashModel.

Section CrashFlipModel.
Context (X : dom) (k : kind).
Notation I := (itv (D X)).
Notation sset := (tree (D X) unit).
Local Open Scope cm_scope.

(** add(element) and subtract(element), concept/interval_set.hpp 74-80 and 131-137:
    through the interval that contains just the element *)
Definition c_add_elem (st : style) (t : sset) (x : D X) : cm sset (sset * iter) := c_add X k st t (singleton X k x).
Definition c_subtract_elem (t : sset) (x : D X) : cm sset sset := c_subtract X k t (singleton X k x).
(** flip(object, element), concept/interval_set.hpp 215-223 *)
Definition c_flip_elem (st : style) (t : sset) (x : D X) : cm sset sset :=
  c <~ lift (s_contains_elem X k t x) ;;
  if c : bool then c_subtract_elem t x else ' (t, _) <~ c_add_elem st t x ;; cret t.

(** the loop of flip(object, segment), concept/interval_set.hpp 242-258 *)
Fixpoint c_flip_loop (fuel : nat) (st : style) (t : sset) (span_ : I) (it_ end_ : iter) : cm sset (sset * I) :=
  match fuel with
  | 0 => lift (Err Fuel)
  | S fuel =>
      if negb (iter_eqb it_ end_) then
        covered <~ lift (key t it_) ;;
        it_ <~ lift (incr_it t it_) ;;
        let left_over := right_subtract X k span_ covered in
        t <~ c_subtract X k t (inter X k span_ covered) ;;
        ' (t, _) <~ c_add X k st t left_over ;;
        c_flip_loop fuel st t (left_subtract X k span_ covered) it_ end_
      else cret (t, span_)
  end.
(** flip(object, segment), concept/interval_set.hpp 225-263 *)
Definition c_flip_seg (st : style) (t : sset) (segment : I) : cm sset sset :=
  ' (fst_, end_) <~ lift (equal_range X k t segment) ;;
  ' (t, span_) <~ c_flip_loop (S (length (nodes t))) st t segment fst_ end_ ;;
  ' (t, _) <~ c_add X k st t span_ ;;
  cret t.

(** flip(object, container), concept/interval_set.hpp 266-292; operator ^=,
    concept/interval_associator.hpp 998-1013 *)
Definition c_flip_set (st : style) (t operand : sset) : cm sset sset :=
  match nodes operand with
  | [] => cret t
  | _ =>
      cr <~ lift (common_range X k operand t) ;;
      match cr with
      | None => c_add_set X k st t operand
      | Some (common_lwb, common_upb) =>
          l1 <~ lift (range X operand (begin_ operand) common_lwb) ;;
          t <~ cfold (fun t n => ' (t, _) <~ c_add X k st t (nkey n) ;; cret t) t l1 ;;
          l2 <~ lift (range X operand common_lwb common_upb) ;;
          t <~ cfold (fun t n => c_flip_seg st t (nkey n)) t l2 ;;
          l3 <~ lift (range X operand common_upb (end_ operand)) ;;
          cfold (fun t n => ' (t, _) <~ c_add X k st t (nkey n) ;; cret t) t l3
      end
  end.
End CrashFlipModel.

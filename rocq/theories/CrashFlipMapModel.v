(** Symmetric difference of interval maps when memory can run out: the functions of MapModel.v,
    statement by statement, in the monad of CrashModel.v (same simplifications as CrashMapModel.v).
    File names are relative to /repo/include/boost/icl. *)
From Verif Require Export CrashMapModel.

(** An operation on a local container of another type: the exception destroys the local container
    and leaves t, the container operated on, as it is at that moment. *)
Definition locally {T T' A} (t : T) (m : cm T' A) : cm T A := fun n =>
  match m n with Fine n a => Fine n a | Thrown _ => Thrown t | Bad e => Bad e end.

Section CrashFlipMapModel.
Context (X : dom) (k : kind) (M : mtype).
Notation I := (itv (D X)).
Notation CC := (mt_co M).
Notation imap := (tree (D X) (C CC)).
Notation iset := (tree (D X) unit).
Notation iter := Tree.iter.
Local Open Scope cm_scope.

(** the loop of flip for partial maps, interval_base_map.hpp 763-797 with on_codomain_model,
    659-697; [eraser] and [isec] (the variable [intersection]) are local *)
Fixpoint cm_flip_loop (fuel : nat) (t : imap) (eraser : iset) (isec : imap) (span : I) (x_value : CC)
    (it_ past_ : iter) : cm imap (imap * iset * imap * I) :=
  match fuel with
  | 0 => lift (Err Fuel)
  | S fuel =>
      if negb (iter_eqb it_ past_) then
        n <~ lift (deref t it_) ;;
        let covered := nkey n in
        it_ <~ lift (incr_it t it_) ;;
        let left_over := right_subtract X k span covered in
        let common_interval := inter X k span covered in
        ' (eraser, isec) <~
          (if negb (is_empty X k common_interval) then
             ' (eraser, _) <~ locally t (c_add X k (m_set_style M) eraser common_interval) ;;
             isec <~ locally t (cm_add X k M isec common_interval
                       (if cc_set_sem CC
                        then combine CC (inverse_codomain_intersect M) x_value (nval n)
                        else cc_zero)) ;;
             cret (eraser, isec)
           else cret (eraser, isec)) ;;
        t <~ cm_add X k M t left_over x_value ;;
        cm_flip_loop fuel t eraser isec (left_subtract X k span covered) x_value it_ past_
      else cret (t, eraser, isec, span)
  end.
(** flip(segment), interval_base_map.hpp 432-437 with on_total_absorbable, 704-807; clearing a map,
    assigning values and joining do not allocate *)
Definition cm_flip_seg (t : imap) (a : I) (v : CC) : cm imap imap :=
  if mt_total M then
    if mt_absorbs M then cret t_empty
    else t <~ cm_add X k M t a v ;; lift (m_reset_values X k M t)
  else
    ' (first_, past_) <~ lift (equal_range X k t a) ;;
    ' (t, eraser, isec, span) <~
       cm_flip_loop (S (length (nodes t))) t t_empty t_empty a v first_ past_ ;;
    t <~ cm_add X k M t span v ;;
    t <~ cm_erase_set X k M t eraser ;;
    cm_add_map X k M t isec.
(** flip(element), interval_base_map.hpp 425-429: through the segment of just the key *)
Definition cm_flip_elem (t : imap) (x : D X) (v : CC) : cm imap imap := cm_flip_seg t (singleton X k x) v.
(** flip(map, map), concept/interval_map.hpp 484-561; operator ^= *)
Definition cm_flip_map (t operand : imap) : cm imap imap :=
  if mt_total M then
    if mt_absorbs M then cret t_empty
    else t <~ cm_add_map X k M t operand ;; lift (m_reset_values X k M t)
  else
    cr <~ lift (common_range X k operand t) ;;
    match cr with
    | None => cm_add_map X k M t operand
    | Some (common_lwb, common_upb) =>
        l1 <~ lift (range X operand (begin_ operand) common_lwb) ;;
        t <~ cfold (fun t n => cm_add X k M t (nkey n) (nval n)) t l1 ;;
        l2 <~ lift (range X operand common_lwb common_upb) ;;
        t <~ cfold (fun t n => cm_flip_seg t (nkey n) (nval n)) t l2 ;;
        l3 <~ lift (range X operand common_upb (end_ operand)) ;;
        cfold (fun t n => cm_add X k M t (nkey n) (nval n)) t l3
    end.
End CrashFlipMapModel.

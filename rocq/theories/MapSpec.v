(** Specification vocabulary for interval maps: the function a map represents, what the
    operations do to a value, and which maps a program can construct. *)
From Verif Require Export SetSpec MapModel2 CrashMapModel ThrowModel.
From Verif Require Export MapModel.

(** The parameters of interval_map / split_interval_map besides the domain and the codomain. *)
Record mpar := MPar {
  mp_style : mstyle;
  mp_absorbs : bool;
  mp_total : bool;
  mp_combine : functor;
  mp_section : functor
}.
Definition mt (CC : codomain) (p : mpar) : mtype :=
  MType CC (mp_style p) (mp_absorbs p) (mp_total p) (mp_combine p) (mp_section p).
Definition restyle (p : mpar) (s : mstyle) : mpar :=
  MPar s (mp_absorbs p) (mp_total p) (mp_combine p) (mp_section p).

(** operator == of the codomain is equality *)
Definition eq_ok (CC : codomain) : Prop := forall v w : CC, cc_eq v w = true <-> v = w.

(* ------------------------------------------------------------ the represented function *)
(** x lies in a, as a test (compare [mem]) *)
Definition memb (X : dom) (k : kind) (a : itv (D X)) (x : D X) : bool :=
  let le x y := negb (ltb y x) in let lt x y := ltb x y in
  match k with
  | RO => le (lo a) x && lt x (up a)
  | LO => lt (lo a) x && le x (up a)
  | CL => le (lo a) x && le x (up a)
  | OP => lt (lo a) x && lt x (up a)
  | DD | DC =>
      (if bl (bd a) then le (lo a) x else lt (lo a) x) &&
      (if br (bd a) then le x (up a) else lt x (up a))
  end.

Section MapSpec.
Context (X : dom) (k : kind) (CC : codomain).
Notation I := (itv (D X)).
Notation V := (C CC).
Notation imap := (tree (D X) V).
Notation iset := (tree (D X) unit).
Notation iter := (option nat).

(** for(it = t.begin(); it != t.end(); ++it) show(it->first, it->second) *)
Fixpoint mtraverse (fuel : nat) (t : imap) (it : iter) : res (list (I * V)) :=
  match fuel with
  | 0 => Err Fuel
  | S fuel =>
      if iter_eqb it (end_ t) then Ok []
      else a <- key t it ;; v <- val t it ;; it <- incr_it t it ;; l <- mtraverse fuel t it ;; Ok ((a, v) :: l)
  end.
(** the segments of a map in order *)
Definition segs (t : imap) : list (I * V) := map (fun n => (nkey n, nval n)) (nodes t).
(** the value of the first segment that contains x *)
Definition at_ (t : imap) (x : D X) : option V :=
  match find (fun s => memb X k (fst s) x) (segs t) with Some s => Some (snd s) | None => None end.

(** the function of t' is that of t, changed by g on the elements satisfying P *)
Definition changed (t t' : imap) (P : D X -> Prop) (g : option V -> option V) : Prop :=
  forall x, (P x -> at_ t' x = g (at_ t x)) /\ (~ P x -> at_ t' x = at_ t x).
(** the function of t' is that of t, changed by g v where the operand has the value v *)
Definition combined (t o t' : imap) (g : V -> option V -> option V) : Prop :=
  forall x, at_ t' x = match at_ o x with Some v => g v (at_ t x) | None => at_ t x end.

(** every run of keys with one value lies in one segment *)
Definition equal_joined (t : imap) : Prop :=
  forall x y v, le x y -> (forall z, le x z -> le z y -> at_ t z = Some v) -> same_seg X k (keys X t) x y.

(** a valid hint: end() or an iterator to a stored segment *)
Definition mhint_ok (t : imap) (h : iter) : Prop :=
  match h with None => True | Some i => exists n, In n (nodes t) /\ nid n = i end.

(* ------------------------------------------------------------------- values *)
Section Values.
Context (p : mpar).
Notation comb := (mp_combine p).

(** an absorber does not store the identity element *)
Definition absorbed (v : V) : bool := mp_absorbs p && cc_eq v cc_zero.
Definition store (v : V) : option V := if absorbed v then None else Some v.
(** The value stored for a key without a value.  It is v itself except for the combiner
    inplace_minus, which stores 0 - v. *)
Definition first_value (f : functor) (v : V) : V := match f with F_minus => cc_sub cc_zero v | _ => v end.

(** A functor whose first value agrees with combining into the identity element, and which
    does not turn another value into the identity element on first insertion. *)
Definition neutral_ok (f : functor) : Prop := forall v : V, combine CC f cc_zero v = first_value f v.
Definition first_ok (f : functor) : Prop := forall v : V, first_value f v = cc_zero -> v = cc_zero.
Definition section : functor := if cc_set_sem CC then mp_section p else comb.
(** the combiners of the map suit its codomain *)
Definition proper : Prop :=
  neutral_ok comb /\ first_ok comb /\
  (mp_total p && cc_invertible CC = true -> first_ok (inverse CC comb)) /\ first_ok section.

(** addition: aggregate with a present value, start with the first value otherwise; in an
    absorber the identity element is ignored *)
Definition plus_val (f : functor) (v : V) (o : option V) : option V :=
  if absorbed v then o
  else match o with
       | Some w => store (combine CC f w v)
       | None => Some (first_value f v)
       end.
Definition add_val (v : V) (o : option V) : option V := plus_val comb v o.
(** subtraction: apply the inverse combiner to present values; a total map whose codomain
    has inverses also gives the others a value *)
Definition sub_val (v : V) (o : option V) : option V :=
  let inv := inverse CC comb in
  if mp_total p && cc_invertible CC then plus_val inv v o
  else if absorbed v then o
  else match o with Some w => store (combine CC inv w v) | None => None end.
(** insertion keeps present values *)
Definition ins_val (v : V) (o : option V) : option V := match o with Some w => Some w | None => store v end.
Definition put_val (v : V) (o : option V) : option V := store v.
(** erasure of a segment removes the value only where it is v *)
Definition erase_val (v : V) (o : option V) : option V :=
  match o with Some w => if cc_eq w v then None else Some w | None => None end.
(** a value copied into a fresh map by addition *)
Definition copy_val (o : option V) : option V := match o with Some w => add_val w None | None => None end.
(** intersection of a value with a key: the value is copied *)
Definition and_val (v : V) (o : option V) : option V :=
  match o with Some w => plus_val section v (add_val w None) | None => None end.
(** symmetric difference: for set codomains the values are combined with the inverse of
    the codomain intersection, for others the common values become the identity element *)
Definition flip_val (v : V) (o : option V) : option V :=
  match o with
  | None => add_val v None
  | Some w => copy_val (add_val (if cc_set_sem CC then combine CC (inverse CC section) v w else cc_zero) None)
  end.
(** the same without the first-value conversion, for combiners other than inplace_minus *)
Definition and_plain (v : V) (o : option V) : option V :=
  match o with
  | Some w => if absorbed v then Some w else store (combine CC section w v)
  | None => None
  end.
Definition flip_plain (v : V) (o : option V) : option V :=
  match o with
  | None => store v
  | Some w => store (if cc_set_sem CC then combine CC (inverse CC section) v w else cc_zero)
  end.
End Values.

(** the combiner is a commutative monoid operation with the identity element *)
Definition cmonoid (f : functor) : Prop :=
  (forall v : V, first_value f v = v) /\ (forall v : V, combine CC f cc_zero v = v) /\
  (forall v w : V, combine CC f v w = combine CC f w v) /\
  (forall u v w : V, combine CC f (combine CC f u v) w = combine CC f u (combine CC f v w)).
(** the inverse of the combiner undoes it *)
Definition cgroup (f : functor) : Prop :=
  (forall v w : V, combine CC (inverse CC f) (combine CC f w v) v = w) /\
  (forall v w : V, combine CC f (combine CC (inverse CC f) w v) v = w) /\
  (forall v : V, first_value (inverse CC f) v = combine CC (inverse CC f) cc_zero v).
(** operator < of the codomain is a strict total order *)
Definition co_order : Prop :=
  (forall v : V, cc_lt v v = false) /\
  (forall u v w : V, cc_lt u v = true -> cc_lt v w = true -> cc_lt u w = true) /\
  (forall v w : V, v = w \/ cc_lt v w = true \/ cc_lt w v = true).
(** every value of t is R-related to a value o has for the same key *)
Definition below_at (R : V -> V -> Prop) (t o : imap) : Prop :=
  forall x v, at_ t x = Some v -> exists w, at_ o x = Some w /\ R v w.

(* ------------------------------------------------------------------- histories *)
(** The maps a program can construct: the results of every finite history of public
    operations with arbitrary arguments.  Operand maps may differ in style, traits and
    combiners; assignment converts between styles only (interval_map.hpp 96-107,
    split_interval_map.hpp 81-88).  object &= operand is add_intersection into an empty
    map, which is included.  Sets used as operands are the sets of [reach]. *)
Inductive mreach : mpar -> imap -> Prop :=
| M_clear p : mreach p t_empty
| M_add p t a v t' : mreach p t -> m_add X k (mt CC p) t a v = Ok t' -> mreach p t'
| M_add_hint p t h a v t' it : mreach p t -> mhint_ok t h -> m_add_hint X k (mt CC p) t h a v = Ok (t', it) -> mreach p t'
| M_add_elem p t x v t' : mreach p t -> m_add_elem X k (mt CC p) t x v = Ok t' -> mreach p t'
| M_subtract p t a v t' : mreach p t -> m_subtract X k (mt CC p) t a v = Ok t' -> mreach p t'
| M_subtract_elem p t x v t' : mreach p t -> m_subtract_elem X k (mt CC p) t x v = Ok t' -> mreach p t'
| M_insert p t a v t' : mreach p t -> m_insert X k (mt CC p) t a v = Ok t' -> mreach p t'
| M_insert_hint p t h a v t' it : mreach p t -> mhint_ok t h -> m_insert_hint X k (mt CC p) t h a v = Ok (t', it) -> mreach p t'
| M_insert_elem p t x v t' : mreach p t -> m_insert_elem X k (mt CC p) t x v = Ok t' -> mreach p t'
| M_erase_seg p t a v t' : mreach p t -> m_erase_seg X k (mt CC p) t a v = Ok t' -> mreach p t'
| M_erase_pair p t x v t' : mreach p t -> m_erase_pair X k (mt CC p) t x v = Ok t' -> mreach p t'
| M_erase p t a t' : mreach p t -> m_erase X k (mt CC p) t a = Ok t' -> mreach p t'
| M_erase_key p t x t' : mreach p t -> m_erase_key X k (mt CC p) t x = Ok t' -> mreach p t'
| M_set p t a v t' : mreach p t -> m_set X k (mt CC p) t a v = Ok t' -> mreach p t'
| M_set_elem p t x v t' : mreach p t -> m_set_elem X k (mt CC p) t x v = Ok t' -> mreach p t'
| M_flip p t a v t' : mreach p t -> m_flip_seg X k (mt CC p) t a v = Ok t' -> mreach p t'
| M_flip_elem p t x v t' : mreach p t -> m_flip_elem X k (mt CC p) t x v = Ok t' -> mreach p t'
| M_add_map p p' t o t' : mreach p t -> mreach p' o -> m_add_map X k (mt CC p) t o = Ok t' -> mreach p t'
| M_insert_map p p' t o t' : mreach p t -> mreach p' o -> m_insert_map X k (mt CC p) t o = Ok t' -> mreach p t'
| M_subtract_map p p' t o t' : mreach p t -> mreach p' o -> m_subtract_map X k (mt CC p) t o = Ok t' -> mreach p t'
| M_erase_map p p' t o t' : mreach p t -> mreach p' o -> m_erase_map X k (mt CC p) t o = Ok t' -> mreach p t'
| M_erase_set p st t o t' : mreach p t -> reach X k st o -> m_erase_set X k (mt CC p) t o = Ok t' -> mreach p t'
| M_flip_map p p' t o t' : mreach p t -> mreach p' o -> m_flip_map X k (mt CC p) t o = Ok t' -> mreach p t'
| M_isec_seg p s t a v s' : mreach p s -> mreach p t -> m_add_intersection_seg X k (mt CC p) s t a v = Ok s' -> mreach p s'
| M_isec_key p s t x s' : mreach p s -> mreach p t -> m_add_intersection_key X k (mt CC p) s t x = Ok s' -> mreach p s'
| M_isec_itv p s t a s' : mreach p s -> mreach p t -> m_add_intersection_itv X k (mt CC p) s t a = Ok s' -> mreach p s'
| M_isec_set p st s t o s' : mreach p s -> mreach p t -> reach X k st o -> m_add_intersection_set X k (mt CC p) s t o = Ok s' -> mreach p s'
| M_isec_map p p' s t o s' : mreach p s -> mreach p t -> mreach p' o -> m_add_intersection_map X k (mt CC p) s t o = Ok s' -> mreach p s'
| M_erase_if p t q t' : mreach p t -> m_erase_if X (mt CC p) q t = Ok t' -> mreach p t'
| M_absorb_identities p t t' : mreach p t -> m_absorb_identities X (mt CC p) t = Ok t' -> mreach p t'
| M_join p t t' : mreach p t -> join X k cc_eq t = Ok t' -> mreach p t'
| M_assign p s o t' : mreach (restyle p s) o -> m_assign X k (mt CC p) o = Ok t' -> mreach p t'
| M_erase_it p t it t' : mreach p t -> erase_it t it = Ok t' -> mreach p t'
| M_erase_range p t first past t' : mreach p t -> erase_range t first past = Ok t' -> mreach p t'
(** maps left behind by an exception, CrashMapModel.v; an interval_map whose addition or subtraction
    was interrupted may have to be joined *)
| M_insert_thrown p t a v n t' : mreach p t -> cm_insert X k (mt CC p) t a v n = Thrown t' -> mreach p t'
| M_insert_hint_thrown p t h a v n t' : mreach p t -> mhint_ok t h -> cm_insert_hint X k (mt CC p) t h a v n = Thrown t' -> mreach p t'
| M_erase_seg_thrown p t a v n t' : mreach p t -> cm_erase_seg X k (mt CC p) t a v n = Thrown t' -> mreach p t'
| M_erase_thrown p t a n t' : mreach p t -> cm_erase X k (mt CC p) t a n = Thrown t' -> mreach p t'
| M_add_thrown p t a v n t' : mreach p t -> mp_style p = MSplit -> cm_add X k (mt CC p) t a v n = Thrown t' -> mreach p t'
| M_add_hint_thrown p t h a v n t' : mreach p t -> mp_style p = MSplit -> mhint_ok t h -> cm_add_hint X k (mt CC p) t h a v n = Thrown t' -> mreach p t'
| M_subtract_thrown p t a v n t' : mreach p t -> mp_style p = MSplit -> cm_subtract X k (mt CC p) t a v n = Thrown t' -> mreach p t'
| M_add_thrown_join p t a v n (t1 : imap) t' : mreach p t -> cm_add X k (mt CC p) t a v n = Thrown t1 -> join X k cc_eq t1 = Ok t' -> mreach p t'
| M_add_hint_thrown_join p t h a v n (t1 : imap) t' : mreach p t -> mhint_ok t h -> cm_add_hint X k (mt CC p) t h a v n = Thrown t1 -> join X k cc_eq t1 = Ok t' -> mreach p t'
| M_subtract_thrown_join p t a v n (t1 : imap) t' : mreach p t -> cm_subtract X k (mt CC p) t a v n = Thrown t1 -> join X k cc_eq t1 = Ok t' -> mreach p t'
(** maps left behind by an exception of the combiner, ThrowModel.v *)
| M_add_aborted p t a v n t' : mreach p t -> mp_style p = MSplit -> xm_add X k (mt CC p) t a v n = Thrown t' -> mreach p t'
| M_subtract_aborted p t a v n t' : mreach p t -> mp_style p = MSplit -> xm_subtract X k (mt CC p) t a v n = Thrown t' -> mreach p t'
| M_add_aborted_join p t a v n (t1 : imap) t' : mreach p t -> xm_add X k (mt CC p) t a v n = Thrown t1 -> join X k cc_eq t1 = Ok t' -> mreach p t'
| M_subtract_aborted_join p t a v n (t1 : imap) t' : mreach p t -> xm_subtract X k (mt CC p) t a v n = Thrown t1 -> join X k cc_eq t1 = Ok t' -> mreach p t'
| M_add_hint_aborted p t h a v n t' : mreach p t -> mp_absorbs p = false -> mp_style p = MSplit -> mhint_ok t h -> xm_add_hint X k (mt CC p) t h a v n = Thrown t' -> mreach p t'
| M_add_hint_aborted_join p t h a v n (t1 : imap) t' : mreach p t -> mp_absorbs p = false -> mhint_ok t h -> xm_add_hint X k (mt CC p) t h a v n = Thrown t1 -> join X k cc_eq t1 = Ok t' -> mreach p t'.

(* ------------------------------------------------------------------- operators *)
(** two computations of maps succeed and the results compare equal with operator ==, or
    represent the same function *)
Definition meq_seg (p : mpar) (r s : res imap) : Prop :=
  exists a b, r = Ok a /\ s = Ok b /\ m_eqb X k (mt CC p) a b = true.
Definition meq_fun (r s : res imap) : Prop :=
  exists a b, r = Ok a /\ s = Ok b /\ forall x, at_ a x = at_ b x.
(** the same function; for interval_map also operator == *)
Definition law (p : mpar) (r s : res imap) : Prop :=
  meq_fun r s /\ (mp_style p = MJoin -> meq_seg p r s).
(** operators + - & ^ copy the left operand and assign to it,
    concept/interval_associator.hpp 407-441, 717-737, 846-880, 1081-1115 *)
Definition mop2 (f : imap -> imap -> res imap) (a b : res imap) : res imap :=
  a <- a ;; b <- b ;; f a b.
Definition mplus_ (p : mpar) := mop2 (m_add_map X k (mt CC p)).
Definition mminus_ (p : mpar) := mop2 (m_subtract_map X k (mt CC p)).
Definition mand_ (p : mpar) := mop2 (m_and_map X k (mt CC p)).
Definition mxor_ (p : mpar) := mop2 (m_flip_map X k (mt CC p)).

(** repeated addition to an empty map, to build examples *)
Definition mbuild (p : mpar) (l : list (I * V)) : res imap :=
  foldM (fun t s => m_add X k (mt CC p) t (fst s) (snd s)) t_empty l.
End MapSpec.

(** Specification for C91: interval containers as associated values of interval maps. *)
From Verif Require Export NestSpec SetSpec.
From Coq Require Bool.

Section Norm.
Context (Y : dom) (k : kind).
Notation I := (itv (D Y)).
(** One representative for the intervals that compare equal with ==: the bounds of static intervals
    are those of the class template, a discrete_interval is represented by [first, last]. *)
Definition norm (a : I) : I :=
  match k with
  | DD => Itv (first Y k a) (last Y k a) b_closed
  | DC => a
  | _ => construct Y k (lo a) (up a)
  end.
Definition raw_eqb (a b : I) : bool := eqb (lo a) (lo b) && eqb (up a) (up b) && b_eqb (bd a) (bd b).
End Norm.

(** interval_set<Y> as a type of associated values.  The C++ value is a tree; == does not see its
    shape, so a value of the model is the sequence of intervals of a joining set, and the operators
    are run on the tree that adding these intervals one by one builds. *)
Section ISet.
Context (Y : dom) (k : kind).
Notation I := (itv (D Y)).
Notation sset := (tree (D Y) unit).
Definition iset_build (l : list I) : res sset := foldM (fun t a => r <- s_add Y k Joining t a ;; Ok (fst r)) t_empty l.
Definition iset_keys (t : sset) : list I := map (norm Y k) (keys Y t).
Fixpoint raws_eqb (l r : list I) : bool :=
  match l, r with
  | [], [] => true
  | a :: l, b :: r => raw_eqb Y a b && raws_eqb l r
  | _, _ => false
  end.
Definition iset_ok (l : list I) : bool := match iset_build l with Ok t => raws_eqb (iset_keys t) l | Err _ => false end.
Definition isett : Type := { l : list I | iset_ok l = true }.
Definition iset_itvs (s : isett) : list I := proj1_sig s.
Definition iset_none : isett := exist _ [] eq_refl.
Definition iset_tree (s : isett) : sset := match iset_build (iset_itvs s) with Ok t => t | Err _ => t_empty end.
(** results of the operators are joining sets, the other cases do not occur (NestIThms.v) *)
Definition to_iset (r : res sset) : isett :=
  match r with
  | Ok t => match Bool.bool_dec (iset_ok (iset_keys t)) true with left e => exist _ (iset_keys t) e | right _ => iset_none end
  | Err _ => iset_none
  end.
(** has_set_semantics holds for sets (type_traits/has_set_semantics.hpp 20-32), has_inverse does not
    (type_traits/has_inverse.hpp 17-24) *)
Definition iset : codomain :=
  let op := fun (f : sset -> sset -> res sset) (s o : isett) => to_iset (f (iset_tree s) (iset_tree o)) in
  Codomain isett (fun s o => s_eqb Y k (iset_tree s) (iset_tree o)) (fun s o => s_ltb Y k (iset_tree s) (iset_tree o)) iset_none
    (op (s_add_set Y k Joining)) (op (s_subtract_set Y k)) (fun s _ => s) (fun s _ => s)
    (op (s_and_set Y k Joining)) (op (s_add_set Y k Joining)) (op (s_flip_set Y k Joining)) (fun s => s)
    (op (s_insert_set Y k Joining)) (op (s_subtract_set Y k)) true false.
(** x is in one of the intervals *)
Definition iset_has (s : C iset) (x : D Y) : bool := existsb (fun a => memb Y k a x) (iset_itvs s).
(** the set that is built by adding the given intervals *)
Definition iset_of (l : list I) : isett := to_iset (iset_build l).
End ISet.

(** interval_map<Y, CC, Traits> with the default combiner and section *)
Section IMap.
Context (Y : dom) (k : kind) (CC : codomain) (absorbs total : bool).
Notation I := (itv (D Y)).
Notation imap := (tree (D Y) (C CC)).
Notation M := (mt CC (icl_par absorbs total)).
Definition imap_build (l : list (I * CC)) : res imap := foldM (fun (t : imap) (s : I * CC) => m_add Y k M t (fst s) (snd s)) t_empty l.
Definition imap_segs (t : imap) : list (I * CC) := map (fun s => (norm Y k (fst s), snd s)) (segs Y CC t).
Fixpoint segs_same (l r : list (I * CC)) : bool :=
  match l, r with
  | [], [] => true
  | a :: l, b :: r => raw_eqb Y (fst a) (fst b) && cc_eq (snd a) (snd b) && segs_same l r
  | _, _ => false
  end.
Definition imap_ok (l : list (I * CC)) : bool := match imap_build l with Ok t => segs_same (imap_segs t) l | Err _ => false end.
Definition imapt : Type := { l : list (I * CC) | imap_ok l = true }.
Definition imap_list (m : imapt) : list (I * CC) := proj1_sig m.
Definition imap_none : imapt := exist _ [] eq_refl.
Definition imap_tree (m : imapt) : imap := match imap_build (imap_list m) with Ok t => t | Err _ => t_empty end.
Definition to_imap (r : res imap) : imapt :=
  match r with
  | Ok t => match Bool.bool_dec (imap_ok (imap_segs t)) true with left e => exist _ (imap_segs t) e | right _ => imap_none end
  | Err _ => imap_none
  end.
(** set semantics and inverse as the codomain has them (type_traits/has_set_semantics.hpp 20-32,
    interval_map.hpp 249-254) *)
Definition icl_imap : codomain :=
  let op := fun (f : imap -> imap -> res imap) (m o : imapt) => to_imap (f (imap_tree m) (imap_tree o)) in
  Codomain imapt (fun m o => m_eqb Y k M (imap_tree m) (imap_tree o)) (fun m o => m_ltb Y k M (imap_tree m) (imap_tree o)) imap_none
    (op (m_add_map Y k M)) (op (m_subtract_map Y k M)) (fun m _ => m) (fun m _ => m)
    (op (m_and_map Y k M)) (op (m_add_map Y k M)) (op (m_flip_map Y k M)) (fun m => m)
    (op (m_insert_map Y k M)) (op (m_erase_map Y k M)) (cc_set_sem CC) (cc_invertible CC).
(** the value of y *)
Definition ival (m : C icl_imap) (y : D Y) : option CC :=
  match find (fun s => memb Y k (fst s) y) (imap_list m) with Some s => Some (snd s) | None => None end.
(** the map that is built by adding the given segments *)
Definition imap_of (l : list (I * CC)) : imapt := to_imap (imap_build l).
End IMap.
(** pairs (y, u) of an interval map of sets *)
Definition imap_has {U : Type} (Y : dom) (k : kind) (CC : codomain) (has : CC -> U -> bool) (absorbs total : bool)
    (m : C (icl_imap Y k CC absorbs total)) (yu : D Y * U) : bool :=
  match ival Y k CC absorbs total m (fst yu) with Some v => has v (snd yu) | None => false end.

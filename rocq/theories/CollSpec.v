(** Specification vocabulary for collectors: interval maps whose associated values are sets
    (doc/semantics.qbk, "Collectors: Maps of Sets"). *)
From Verif Require Export MapSpec ElemModel DistinctSpec.
From Verif Require Export MapModel.
From Coq Require Bool.

(** CC is a type of finite sets over U: [has v u] says that u is in v; +=, -=, &= and ^= are union,
    difference, intersection and symmetric difference; a set is determined by its elements. *)
Record set_type {U : Type} (CC : codomain) (has : CC -> U -> bool) : Prop := SetType {
  st_sem : cc_set_sem CC = true;
  st_eq : eq_ok CC;
  st_ext : forall v w : CC, (forall u, has v u = has w u) -> v = w;
  st_zero : forall u, has cc_zero u = false;
  st_add : forall v w u, has (cc_add v w) u = has v u || has w u;
  st_sub : forall v w u, has (cc_sub v w) u = has v u && negb (has w u);
  st_and : forall v w u, has (cc_and v w) u = has v u && has w u;
  st_xor : forall v w u, has (cc_xor v w) u = xorb (has v u) (has w u)
}.

(** The partial maps with the default combiner inplace_plus and the default section
    inter_section: [coll s true] is interval_map (or split_interval_map) with the default traits
    partial_absorber, [coll s false] is the same with partial_enricher. *)
Definition coll (s : mstyle) (absorbs : bool) : mpar := MPar s absorbs false F_plus F_inter_section.

Section Pairs.
Context (X : dom) (k : kind) {U : Type} (CC : codomain) (has : CC -> U -> bool).
Notation imap := (tree (D X) (C CC)).
Notation at_ := (at_ X k CC).
(** the set of pairs a map of sets represents *)
Definition pair_in (t : imap) (x : D X) (u : U) : Prop :=
  exists v, at_ t x = Some v /\ has v u = true.
(** the set of pairs of one segment *)
Definition seg_pair (a : itv (D X)) (v : CC) (x : D X) (u : U) : Prop := mem X k a x /\ has v u = true.

(** Expressions a program can write over maps: variables, C(), and a map made of one segment,
    combined with + - & ^. *)
Inductive expr :=
| Var (i : nat) | Empty | Segment (a : itv (D X)) (v : CC)
| Plus (e f : expr) | Minus (e f : expr) | And (e f : expr) | Xor (e f : expr).

(** their value as maps *)
Fixpoint value (p : mpar) (env : nat -> imap) (e : expr) : res imap :=
  match e with
  | Var i => Ok (env i)
  | Empty => Ok t_empty
  | Segment a v => m_add X k (mt CC p) t_empty a v
  | Plus e f => mplus_ X k CC p (value p env e) (value p env f)
  | Minus e f => mminus_ X k CC p (value p env e) (value p env f)
  | And e f => mand_ X k CC p (value p env e) (value p env f)
  | Xor e f => mxor_ X k CC p (value p env e) (value p env f)
  end.
(** their value as sets of pairs *)
Fixpoint pairs_of (env : nat -> D X -> U -> Prop) (e : expr) (x : D X) (u : U) : Prop :=
  match e with
  | Var i => env i x u
  | Empty => False
  | Segment a v => seg_pair a v x u
  | Plus e f => pairs_of env e x u \/ pairs_of env f x u
  | Minus e f => pairs_of env e x u /\ ~ pairs_of env f x u
  | And e f => pairs_of env e x u /\ pairs_of env f x u
  | Xor e f => (pairs_of env e x u /\ ~ pairs_of env f x u) \/ (~ pairs_of env e x u /\ pairs_of env f x u)
  end.
(** the keys an enricher maps, also to the empty set: subtraction keeps the keys *)
Fixpoint keys_of (env : nat -> D X -> Prop) (e : expr) (x : D X) : Prop :=
  match e with
  | Var i => env i x
  | Empty => False
  | Segment a v => mem X k a x
  | Plus e f | Xor e f => keys_of env e x \/ keys_of env f x
  | Minus e f => keys_of env e x
  | And e f => keys_of env e x /\ keys_of env f x
  end.
(** two expressions return and the results are distinct-equal *)
Definition meq_distinct (p : mpar) (r s : res imap) : Prop :=
  exists a b, r = Ok a /\ s = Ok b /\ m_distinct_eqb X k (mt CC p) a b = Ok true.
End Pairs.
Arguments Var {X CC}. Arguments Empty {X CC}. Arguments Segment {X CC}. Arguments Plus {X CC}.
Arguments Minus {X CC}. Arguments And {X CC}. Arguments Xor {X CC}.

(* ------------------------------------------------------------------ std::set as a codomain *)
(** A std::set<D Y> is the ascending sequence of its elements (ElemModel.v).  Its operators +=, -=,
    &=, ^= and == are those icl provides for element sets. *)
Section StdSet.
Context (Y : dom).
Fixpoint set_sorted (l : list (D Y * unit)) : bool :=
  match l with
  | n :: ((m :: _) as l') => ltb (fst n) (fst m) && set_sorted l'
  | _ => true
  end.
Definition sset : Type := { l : list (D Y * unit) | set_sorted l = true }.
Definition elems (s : sset) : list (D Y * unit) := proj1_sig s.
Definition sset_empty : sset := exist _ [] eq_refl.
(** a std::set is ascending by construction; other sequences do not occur ([std_set_type]) *)
Definition to_sset (l : list (D Y * unit)) : sset :=
  match Bool.bool_dec (set_sorted l) true with left e => exist _ l e | right _ => sset_empty end.
Definition ok_sset (r : res (list (D Y * unit))) : sset := match r with Ok l => to_sset l | Err _ => sset_empty end.
(** u is an element *)
Definition sset_has (s : sset) (u : D Y) : bool := existsb (fun n => eqb (fst n) u) (elems s).
Definition std_set : codomain :=
  Codomain sset (fun s o => es_eqb Y (elems s) (elems o)) (fun s o => es_ltb Y (elems s) (elems o)) sset_empty
    (fun s o => to_sset (es_add_set Y (elems s) (elems o)))
    (fun s o => ok_sset (es_subtract_set Y (elems s) (elems o)))
    (fun s _ => s) (fun s _ => s)
    (fun s o => ok_sset (es_and_set Y (elems s) (elems o)))
    (fun s o => to_sset (es_add_set Y (elems s) (elems o)))
    (fun s o => ok_sset (es_flip_set Y (elems s) (elems o)))
    (fun s => s)
    (fun s o => to_sset (es_add_set Y (elems s) (elems o)))
    (fun s o => ok_sset (es_subtract_set Y (elems s) (elems o)))
    true false.
(** a std::set with the given elements *)
Definition set_of (l : list (D Y)) : sset := to_sset (fold_left (fun s x => es_add Y s x) l []).
End StdSet.

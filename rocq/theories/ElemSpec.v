(** Specification vocabulary for element containers: the function an icl::map represents, the
    elements of a std::set, and which containers a program can construct. *)
From Verif Require Export ElemModel MapSpec.
From Coq Require Import Sorted.

Section ElemSpec.
Context (X : dom).
Notation K := (D X).

(** the value of the first pair whose key is x *)
Definition eat {V} (l : list (K * V)) (x : K) : option V :=
  match find (fun n => eqb (fst n) x) l with Some n => Some (snd n) | None => None end.
(** x is an element of the set *)
Definition has_elem (s : list (K * unit)) (x : K) : Prop := In x (map fst s).
(** the keys are strictly ascending *)
Definition esorted {V} (l : list (K * V)) : Prop := StronglySorted (fun a b => lt (fst a) (fst b)) l.

(** the function of m' is that of m, changed by g on the elements satisfying P *)
Definition echanged {V} (m m' : list (K * V)) (P : K -> Prop) (g : option V -> option V) : Prop :=
  forall x, (P x -> eat m' x = g (eat m x)) /\ (~ P x -> eat m' x = eat m x).
(** the function of m' is that of m, changed by g v where the operand has the value v *)
Definition ecombined {V} (m o m' : list (K * V)) (g : V -> option V -> option V) : Prop :=
  forall x, eat m' x = match eat o x with Some v => g v (eat m x) | None => eat m x end.

(** The std::sets a program can construct with the functions icl provides for them. *)
Inductive sreach : list (K * unit) -> Prop :=
| S_empty : sreach []
| S_add s x : sreach s -> sreach (es_add X s x)
| S_subtract s x s' : sreach s -> es_subtract X s x = Ok s' -> sreach s'
| S_flip s x s' : sreach s -> es_flip X s x = Ok s' -> sreach s'
| S_and_key s x : sreach s -> sreach (es_and_key X s x)
| S_add_set s o : sreach s -> sreach o -> sreach (es_add_set X s o)
| S_subtract_set s o s' : sreach s -> sreach o -> es_subtract_set X s o = Ok s' -> sreach s'
| S_flip_set s o s' : sreach s -> sreach o -> es_flip_set X s o = Ok s' -> sreach s'
| S_and_set s o s' : sreach s -> sreach o -> es_and_set X s o = Ok s' -> sreach s'
| S_isec_key s' s x : sreach s' -> sreach s -> sreach (es_add_intersection_key X s' s x)
| S_isec_set s s1 s2 s' : sreach s -> sreach s1 -> sreach s2 -> es_add_intersection X s s1 s2 = Ok s' -> sreach s'.

Section Maps.
Context (CC : codomain) (p : mpar).
Notation V := (C CC).
Notation emap := (list (K * V)).
Notation M := (mt CC p).

(** subtraction from an icl::map.  In contrast to interval maps ([sub_val]) the identity
    element is not ignored as an operand. *)
Definition esub_val (v : V) (o : option V) : option V :=
  let inv := inverse CC (mp_combine p) in
  if mp_total p && cc_invertible CC then plus_val CC p inv v o
  else match o with Some w => store CC p (combine CC inv w v) | None => None end.
(** symmetric difference.  In contrast to interval maps ([flip_val]) an absorber ignores an
    identity element as an operand. *)
Definition eflip_val (v : V) (o : option V) : option V :=
  match o with
  | None => store CC p v
  | Some w =>
      if absorbed CC p v then Some w
      else store CC p (if cc_set_sem CC then combine CC (inverse CC (section CC p)) w v else cc_zero)
  end.

(** The icl::maps a program can construct: results of every finite history of operations
    with arbitrary arguments.  With [raw], also by the range constructors and operator[],
    which are those of std::map (map.hpp 163-170, 249) and store any value. *)
Inductive ereach (raw : bool) : emap -> Prop :=
| E_empty : ereach raw []
| E_raw m x v : raw = true -> ereach raw m -> ereach raw (fst (fst (e_insert X m x v)))
| E_assign m x v m' : raw = true -> ereach raw m ->
    (exists it, e_find X m x = Some it /\ e_assign X m it v = Ok m') -> ereach raw m'
| E_add m x v m' : ereach raw m -> em_add X M m x v = Ok m' -> ereach raw m'
| E_add_hint m x v m' : ereach raw m -> em_add_hint X M m x v = Ok m' -> ereach raw m'
| E_subtract m x v m' : ereach raw m -> em_subtract X M m x v = Ok m' -> ereach raw m'
| E_insert m x v : ereach raw m -> ereach raw (fst (fst (em_insert X M m x v)))
| E_erase_pair m x v m' c : ereach raw m -> em_erase_pair X M m x v = Ok (m', c) -> ereach raw m'
| E_erase_key m x m' c : ereach raw m -> e_erase_key X m x = Ok (m', c) -> ereach raw m'
| E_flip m x v m' : ereach raw m -> em_flip X M m x v = Ok m' -> ereach raw m'
| E_add_map m o m' : ereach raw m -> ereach raw o -> em_add_map X M m o = Ok m' -> ereach raw m'
| E_insert_map m o : ereach raw m -> ereach raw o -> ereach raw (em_insert_map X M m o)
| E_subtract_map m o m' : ereach raw m -> ereach raw o -> em_subtract_map X M m o = Ok m' -> ereach raw m'
| E_erase_map m o m' : ereach raw m -> ereach raw o -> em_erase_map X M m o = Ok m' -> ereach raw m'
| E_erase_set m o m' : ereach raw m -> sreach o -> em_erase_set X M m o = Ok m' -> ereach raw m'
| E_subtract_set m o m' : ereach raw m -> sreach o -> em_subtract_set X M m o = Ok m' -> ereach raw m'
| E_flip_map m o m' : ereach raw m -> ereach raw o -> em_flip_map X M m o = Ok m' -> ereach raw m'
| E_isec_pair s m x v s' : ereach raw s -> ereach raw m -> em_add_intersection_pair X M s m x v = Ok s' -> ereach raw s'
| E_isec_key s m x s' : ereach raw s -> ereach raw m -> em_add_intersection_key X M s m x = Ok s' -> ereach raw s'
| E_isec_set s m o s' : ereach raw s -> ereach raw m -> sreach o -> em_add_intersection_set X M s m o = Ok s' -> ereach raw s'
| E_isec_map s m o s' : ereach raw s -> ereach raw m -> ereach raw o -> em_add_intersection_map X M s m o = Ok s' -> ereach raw s'.
(** object &= operand is add_intersection into an empty map, or addition if the map is total. *)
End Maps.
End ElemSpec.

(* ------------------------------------------- interval containers and element containers *)
Section Agree.
Context (X : dom) (k : kind).

(** an interval set and a std::set have the same elements *)
Definition sagrees (t : tree (D X) unit) (s : list (D X * unit)) : Prop := forall x, cmem X k t x <-> has_elem X s x.
(** an interval map and an icl::map represent the same function *)
Definition agrees (CC : codomain) (t : tree (D X) (C CC)) (m : list (D X * C CC)) : Prop := forall x, at_ X k CC t x = eat X m x.

(** the same operation on every element of a list *)
Definition each {A} (op : A -> D X -> res A) (m : A) (e : list (D X)) : res A := foldM op m e.

(** Two programs run side by side, one with interval sets and one with std::sets: where the
    first one uses an interval, the second one uses all elements of the interval in turn. *)
Inductive smirror : style -> tree (D X) unit -> list (D X * unit) -> Prop :=
| SR_empty st : smirror st t_empty []
| SR_add st t s a e t' it : smirror st t s -> enumerates X (mem X k a) e ->
    s_add X k st t a = Ok (t', it) -> smirror st t' (fold_left (es_add X) e s)
| SR_subtract st t s a e t' s' : smirror st t s -> enumerates X (mem X k a) e ->
    s_subtract X k t a = Ok t' -> each (es_subtract X) s e = Ok s' -> smirror st t' s'
| SR_flip st t s a e t' s' : smirror st t s -> enumerates X (mem X k a) e -> e <> [] ->
    s_flip_seg X k st t a = Ok t' -> each (es_flip X) s e = Ok s' -> smirror st t' s'
| SR_and st t s a e t' : smirror st t s -> enumerates X (mem X k a) e ->
    s_and_seg X k st t a = Ok t' -> smirror st t' (fold_left (fun r x => es_add_intersection_key X r s x) e [])
| SR_add_set st st' t s o so t' : smirror st t s -> smirror st' o so ->
    s_add_set X k st t o = Ok t' -> smirror st t' (es_add_set X s so)
| SR_subtract_set st st' t s o so t' s' : smirror st t s -> smirror st' o so ->
    s_subtract_set X k t o = Ok t' -> es_subtract_set X s so = Ok s' -> smirror st t' s'
| SR_and_set st st' t s o so t' s' : smirror st t s -> smirror st' o so ->
    s_and_set X k st t o = Ok t' -> es_and_set X s so = Ok s' -> smirror st t' s'
| SR_flip_set st st' t s o so t' s' : smirror st t s -> smirror st' o so ->
    s_flip_set X k st t o = Ok t' -> es_flip_set X s so = Ok s' -> smirror st t' s'.

(** The same for interval maps and icl::maps with equal traits and combiners. *)
Section Mirror.
Context (CC : codomain) (p : mpar).
Notation MI := (fun st => mt CC (restyle p st)).
Notation ME := (mt CC p).
Inductive mirror : mstyle -> tree (D X) (C CC) -> list (D X * C CC) -> Prop :=
| MR_empty st : mirror st t_empty []
| MR_add st t m a v e t' m' : mirror st t m -> enumerates X (mem X k a) e ->
    m_add X k (MI st) t a v = Ok t' -> each (fun m x => em_add X ME m x v) m e = Ok m' -> mirror st t' m'
| MR_subtract st t m a v e t' m' : mirror st t m -> enumerates X (mem X k a) e ->
    m_subtract X k (MI st) t a v = Ok t' -> each (fun m x => em_subtract X ME m x v) m e = Ok m' -> mirror st t' m'
| MR_insert st t m a v e t' : mirror st t m -> enumerates X (mem X k a) e ->
    m_insert X k (MI st) t a v = Ok t' -> mirror st t' (fold_left (fun m x => fst (fst (em_insert X ME m x v))) e m)
| MR_erase st t m a e t' m' : mirror st t m -> enumerates X (mem X k a) e ->
    m_erase X k (MI st) t a = Ok t' -> each (fun m x => ' (m, _) <- e_erase_key X m x ;; Ok m) m e = Ok m' -> mirror st t' m'
| MR_erase_seg st t m a v e t' m' : mirror st t m -> enumerates X (mem X k a) e ->
    m_erase_seg X k (MI st) t a v = Ok t' ->
    each (fun m x => ' (m, _) <- em_erase_pair X ME m x v ;; Ok m) m e = Ok m' -> mirror st t' m'
| MR_flip st t m a v e t' m' : mirror st t m -> enumerates X (mem X k a) e -> e <> [] -> absorbed CC p v = false ->
    m_flip_seg X k (MI st) t a v = Ok t' -> each (fun m x => em_flip X ME m x v) m e = Ok m' -> mirror st t' m'
| MR_and st t m a v e t' m' : mirror st t m -> enumerates X (mem X k a) e -> mp_total p = false ->
    m_and_seg X k (MI st) t a v = Ok t' ->
    each (fun s x => em_add_intersection_pair X ME s m x v) [] e = Ok m' -> mirror st t' m'
| MR_restrict st t m a e t' m' : mirror st t m -> enumerates X (mem X k a) e ->
    m_and_itv X k (MI st) t a = Ok t' ->
    each (fun s x => em_add_intersection_key X ME s m x) [] e = Ok m' -> mirror st t' m'
| MR_add_map st st' t m o mo t' m' : mirror st t m -> mirror st' o mo ->
    m_add_map X k (MI st) t o = Ok t' -> em_add_map X ME m mo = Ok m' -> mirror st t' m'
| MR_subtract_map st st' t m o mo t' m' : mirror st t m -> mirror st' o mo ->
    m_subtract_map X k (MI st) t o = Ok t' -> em_subtract_map X ME m mo = Ok m' -> mirror st t' m'
| MR_insert_map st st' t m o mo t' : mirror st t m -> mirror st' o mo ->
    m_insert_map X k (MI st) t o = Ok t' -> mirror st t' (em_insert_map X ME m mo)
| MR_erase_map st st' t m o mo t' m' : mirror st t m -> mirror st' o mo ->
    m_erase_map X k (MI st) t o = Ok t' -> em_erase_map X ME m mo = Ok m' -> mirror st t' m'
| MR_erase_set st st' t m o so t' m' : mirror st t m -> smirror st' o so ->
    m_erase_set X k (MI st) t o = Ok t' -> em_erase_set X ME m so = Ok m' -> mirror st t' m'
| MR_and_map st st' t m o mo t' m' : mirror st t m -> mirror st' o mo ->
    m_and_map X k (MI st) t o = Ok t' -> em_and_map X ME m mo = Ok m' -> mirror st t' m'
| MR_and_set st st' t m o so t' m' : mirror st t m -> smirror st' o so ->
    m_and_set X k (MI st) t o = Ok t' -> em_and_set X ME m so = Ok m' -> mirror st t' m'
| MR_flip_map st st' t m o mo t' m' : mirror st t m -> mirror st' o mo ->
    m_flip_map X k (MI st) t o = Ok t' -> em_flip_map X ME m mo = Ok m' -> mirror st t' m'.
(** The two kinds of maps agree for traits and combiners that satisfy:
    - a value is stored as given on first insertion (every combiner but inplace_minus), and
      the combiners suit the codomain (compare [proper]);
    - subtracting the identity element changes nothing;
    - for set codomains, the symmetric difference of values is commutative. *)
Definition mirrored : Prop :=
  proper CC p /\ mp_combine p <> F_minus /\
  (forall w : CC, combine CC (inverse CC (mp_combine p)) w cc_zero = w) /\
  (cc_set_sem CC = true -> forall v w : CC,
     combine CC (inverse CC (section CC p)) v w = combine CC (inverse CC (section CC p)) w v).
End Mirror.
End Agree.

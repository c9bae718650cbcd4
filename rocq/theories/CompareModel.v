(** The derived comparison operators: concept/comparable.hpp, detail/mapped_reference.hpp and the predicate
    objects of predicates/*.hpp. *)
From Verif Require Export SetModel MapModel MapModel2 ElemModel.

(** The six comparison operators of a type, in the order  == != < > <= >= . *)
Record comparison (T : Type) := Comparison {
  c_eq : T -> T -> bool; c_ne : T -> T -> bool; c_lt : T -> T -> bool;
  c_gt : T -> T -> bool; c_le : T -> T -> bool; c_ge : T -> T -> bool }.
Arguments Comparison {T}.
Arguments c_eq {T}. Arguments c_ne {T}. Arguments c_lt {T}. Arguments c_gt {T}. Arguments c_le {T}. Arguments c_ge {T}.

(** concept/comparable.hpp 20-39: operators != > <= >= of every icl container (is_icl_container), made from its
    own == and < *)
Section Comparable.
Context {T : Type} (eq lt : T -> T -> bool).
Definition cmp_ne (l r : T) : bool := negb (eq l r).
Definition cmp_gt (l r : T) : bool := lt r l.
Definition cmp_le (l r : T) : bool := negb (cmp_gt l r).
Definition cmp_ge (l r : T) : bool := negb (lt l r).
Definition comparable : comparison T := Comparison eq cmp_ne lt cmp_gt cmp_le cmp_ge.
End Comparable.

(** interval sets, interval maps, icl::map and std::set used as icl containers *)
Definition s_cmp (X : dom) (k : kind) : comparison (tree (D X) unit) := comparable (s_eqb X k) (s_ltb X k).
Definition m_cmp (X : dom) (k : kind) (M : mtype) : comparison (tree (D X) (mt_co M)) := comparable (m_eqb X k M) (m_ltb X k M).
Definition em_cmp (X : dom) (M : mtype) : comparison (list (D X * mt_co M)) := comparable (em_eqb X M) (em_ltb X M).
Definition es_cmp (X : dom) : comparison (list (D X * unit)) := comparable (es_eqb X) (es_ltb X).

(** predicates/element_equal.hpp 17-24, std_equal.hpp 17-24, distinct_equal.hpp 15-24 only forward to
    is_element_equal, == and is_distinct_equal.  predicates/sub_super_set.hpp 18-28 and 35-45 for sets: *)
Definition sub_super_set (X : dom) (k : kind) (sub super : tree (D X) unit) : res bool := c_contains X k None super sub.
Definition super_sub_set (X : dom) (k : kind) (super sub : tree (D X) unit) : res bool := c_contains X k None super sub.
(** and for maps; [co] compares two codomain values (detail/subset_comparer.hpp 119-132) *)
Definition sub_super_map (X : dom) (k : kind) (M : mtype) (co : mt_co M -> mt_co M -> incl) (sub super : tree (D X) (mt_co M)) : res bool :=
  m_contains_map X k M co super sub.
Definition super_sub_map (X : dom) (k : kind) (M : mtype) (co : mt_co M -> mt_co M -> incl) (super sub : tree (D X) (mt_co M)) : res bool :=
  m_contains_map X k M co super sub.

(** detail/mapped_reference.hpp 59-129: mapped_reference<FirstT,SecondT>, a pair of references, which element
    iterators of interval maps dereference to.  The referents are modelled by their values.
    [kc] and [vc] are the operators of FirstT and SecondT; the comparand is another mapped_reference or a std::pair,
    whose members are read. *)
Section MappedReference.
Context {K V : Type} (kc : comparison K) (vc : comparison V).
(** 89-92 *)
Definition mr_eq (l r : K * V) : bool := c_eq kc (fst l) (fst r) && c_eq vc (snd l) (snd r).
(** 94-97 *)
Definition mr_ne (l r : K * V) : bool := negb (mr_eq l r).
(** 99-105 *)
Definition mr_lt (l r : K * V) : bool :=
  c_lt kc (fst l) (fst r) || (negb (c_lt kc (fst r) (fst l)) && c_lt vc (snd l) (snd r)).
(** 107-113 *)
Definition mr_gt (l r : K * V) : bool :=
  c_gt kc (fst l) (fst r) || (negb (c_gt kc (fst r) (fst l)) && c_gt vc (snd l) (snd r)).
(** 115-120 *)
Definition mr_le (l r : K * V) : bool := negb (mr_gt l r).
(** 122-127 *)
Definition mr_ge (l r : K * V) : bool := negb (mr_lt l r).
Definition mr_cmp : comparison (K * V) := Comparison mr_eq mr_ne mr_lt mr_gt mr_le mr_ge.

(** 131-182: the free operators with a std::pair on the left and a mapped_reference on the right *)
Definition pr_eq (l r : K * V) : bool := mr_eq r l.
Definition pr_ne (l r : K * V) : bool := negb (mr_eq r l).
Definition pr_lt (l r : K * V) : bool := mr_gt r l.
Definition pr_gt (l r : K * V) : bool := mr_lt r l.
Definition pr_le (l r : K * V) : bool := negb (mr_lt r l).
Definition pr_ge (l r : K * V) : bool := negb (pr_lt l r).
Definition pr_cmp : comparison (K * V) := Comparison pr_eq pr_ne pr_lt pr_gt pr_le pr_ge.
End MappedReference.

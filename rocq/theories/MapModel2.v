(** Inclusion between interval maps (model). *)
From Verif Require Export ContModel.
From Verif Require Export MapModel.

Section MapModel2.
Context (X : dom) (k : kind) (M : mtype).
Notation CC := (mt_co M).
Notation imap := (tree (D X) CC).
Notation iset := (tree (D X) unit).

(** atomic_codomain_compare, detail/interval_subset_comparer.hpp 41-52 *)
Definition co_atomic (v w : CC) : incl := if cc_eq v w then r_equal else r_unrelated.
(** map_codomain_compare, 63-81: [settic] holds when the codomain type is a set type; its
    inclusion_compare is the parameter [icmp] (settic_codomain_compare, 31-39) *)
Definition co_map (settic : bool) (icmp : CC -> CC -> incl) : CC -> CC -> incl :=
  if settic then icmp else co_atomic.

(** contains(super, sub) for two maps, concept/interval_map.hpp 73-78, and within, with
    Interval_Set::within, detail/interval_set_algo.hpp 110-127 *)
Definition m_contains_map (co : CC -> CC -> incl) (super sub : imap) : res bool :=
  c_within X k (Some co) sub super.
(** contains(super, sub) for a map and a set of keys: total 84-93, partial 130-137 of
    concept/interval_map.hpp; values are not compared (empty_codomain_compare) *)
Definition m_contains_set (super : imap) (sub : iset) : res bool :=
  if mt_total M then Ok true else c_within X k None sub super.
(** inclusion_compare, concept/interval_associator.hpp 87-95 *)
Definition m_inclusion_compare (co : CC -> CC -> incl) (l r : imap) : res incl :=
  subset_compare X k (Some co) l r.
(** is_element_equal, concept/interval_associator.hpp 68-76 with
    detail/interval_set_algo.hpp 35-44 *)
Definition m_element_equal (co : CC -> CC -> incl) (l r : imap) : res bool :=
  is_element_equal X k (Some co) l r.
End MapModel2.

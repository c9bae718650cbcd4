(** Property theorems C86-C88: interval maps of sets ("collectors") and distinct equality.
    [coll s true] is interval_map / split_interval_map with the default traits, combiner and section,
    [coll s false] the same as partial_enricher; [set_type CC has]: the associated values are sets,
    [has v u] says that u is an element of v; [pair_in t x u]: u is in the set that t associates
    with x; [seg_pair a v x u]: x is in the interval a and u in the set v.  See CollSpec.v. *)
From Verif Require Import MapSpec MapReach MapThms MapThms2 MapThms3 MapThms4 SetSpec Instances MapInst PropMap.
From Verif Require Import CollSpec CollThms CollInst DistinctThms.
From Verif Require Import MapModel.
From Coq Require Import ZArith.
Open Scope nat_scope.

(* ------------------------------------------------------------------ C86 *)
Theorem C86_add : forall X k, dom_ok X k -> forall U CC (has : C CC -> U -> bool), set_type CC has ->
  forall s b t a v, mreach X k CC (coll s b) t -> exists t', m_add X k (mt CC (coll s b)) t a v = Ok t' /\
  forall x u, pair_in X k CC has t' x u <-> pair_in X k CC has t x u \/ seg_pair X k CC has a v x u.
Proof. exact coll_add. Qed.
Theorem C86_subtract : forall X k, dom_ok X k -> forall U CC (has : C CC -> U -> bool), set_type CC has ->
  forall s b t a v, mreach X k CC (coll s b) t -> exists t', m_subtract X k (mt CC (coll s b)) t a v = Ok t' /\
  forall x u, pair_in X k CC has t' x u <-> pair_in X k CC has t x u /\ ~ seg_pair X k CC has a v x u.
Proof. exact coll_subtract. Qed.
Theorem C86_flip : forall X k, dom_ok X k -> forall U CC (has : C CC -> U -> bool), set_type CC has ->
  forall s b t a v, mreach X k CC (coll s b) t -> (exists x, mem X k a x) -> exists t', m_flip_seg X k (mt CC (coll s b)) t a v = Ok t' /\
  forall x u, pair_in X k CC has t' x u <->
    (pair_in X k CC has t x u /\ ~ seg_pair X k CC has a v x u) \/ (~ pair_in X k CC has t x u /\ seg_pair X k CC has a v x u).
Proof. exact coll_flip. Qed.
(** an absorber must not be intersected with a segment that carries the empty set, see the finding below *)
Theorem C86_intersect_segment : forall X k, dom_ok X k -> forall U CC (has : C CC -> U -> bool), set_type CC has ->
  forall s b t a v, mreach X k CC (coll s b) t -> b = false \/ v <> cc_zero -> exists t', m_and_seg X k (mt CC (coll s b)) t a v = Ok t' /\
  forall x u, pair_in X k CC has t' x u <-> pair_in X k CC has t x u /\ seg_pair X k CC has a v x u.
Proof. exact coll_and_seg. Qed.
(** m -= i (erasure of keys) and m &= i *)
Theorem C86_erase : forall X k, dom_ok X k -> forall U CC (has : C CC -> U -> bool), set_type CC has ->
  forall s b t a, mreach X k CC (coll s b) t -> exists t', m_erase X k (mt CC (coll s b)) t a = Ok t' /\
  forall x u, pair_in X k CC has t' x u <-> pair_in X k CC has t x u /\ ~ mem X k a x.
Proof. exact coll_erase. Qed.
Theorem C86_restrict : forall X k, dom_ok X k -> forall U CC (has : C CC -> U -> bool), set_type CC has ->
  forall s b t a, mreach X k CC (coll s b) t -> exists t', m_and_itv X k (mt CC (coll s b)) t a = Ok t' /\
  forall x u, pair_in X k CC has t' x u <-> pair_in X k CC has t x u /\ mem X k a x.
Proof. exact coll_restrict. Qed.
(** whole maps; the operand may be a map of any style and traits, an operand of & only an absorber
    if the object is one *)
Theorem C86_add_map : forall X k, dom_ok X k -> forall U CC (has : C CC -> U -> bool), set_type CC has ->
  forall s b p' t o, mreach X k CC (coll s b) t -> mreach X k CC p' o -> exists t', m_add_map X k (mt CC (coll s b)) t o = Ok t' /\
  forall x u, pair_in X k CC has t' x u <-> pair_in X k CC has t x u \/ pair_in X k CC has o x u.
Proof. exact coll_add_map. Qed.
Theorem C86_subtract_map : forall X k, dom_ok X k -> forall U CC (has : C CC -> U -> bool), set_type CC has ->
  forall s b p' t o, mreach X k CC (coll s b) t -> mreach X k CC p' o -> exists t', m_subtract_map X k (mt CC (coll s b)) t o = Ok t' /\
  forall x u, pair_in X k CC has t' x u <-> pair_in X k CC has t x u /\ ~ pair_in X k CC has o x u.
Proof. exact coll_subtract_map. Qed.
Theorem C86_flip_map : forall X k, dom_ok X k -> forall U CC (has : C CC -> U -> bool), set_type CC has ->
  forall s b p' t o, mreach X k CC (coll s b) t -> mreach X k CC p' o -> exists t', m_flip_map X k (mt CC (coll s b)) t o = Ok t' /\
  forall x u, pair_in X k CC has t' x u <->
    (pair_in X k CC has t x u /\ ~ pair_in X k CC has o x u) \/ (~ pair_in X k CC has t x u /\ pair_in X k CC has o x u).
Proof. exact coll_flip_map. Qed.
Theorem C86_intersect_map : forall X k, dom_ok X k -> forall U CC (has : C CC -> U -> bool), set_type CC has ->
  forall s b s' b' t o, mreach X k CC (coll s b) t -> mreach X k CC (coll s' b') o -> b = false \/ b' = true ->
  exists t', m_and_map X k (mt CC (coll s b)) t o = Ok t' /\
  forall x u, pair_in X k CC has t' x u <-> pair_in X k CC has t x u /\ pair_in X k CC has o x u.
Proof. exact coll_and_map. Qed.
(** comparisons of absorbers: == of interval_maps, is_element_equal across styles, contains(o, t) with
    the inclusion of the associated sets as comparison of values *)
Theorem C86_equal : forall X k, dom_ok X k -> forall U CC (has : C CC -> U -> bool), set_type CC has ->
  forall s b t o, s = MJoin -> b = true -> mreach X k CC (coll s b) t -> mreach X k CC (coll s b) o ->
  (m_eqb X k (mt CC (coll s b)) t o = true <-> forall x u, pair_in X k CC has t x u <-> pair_in X k CC has o x u).
Proof. exact coll_equal. Qed.
Theorem C86_element_equal : forall X k, dom_ok X k -> forall U CC (has : C CC -> U -> bool), set_type CC has ->
  forall s b s' t o, b = true -> mreach X k CC (coll s b) t -> mreach X k CC (coll s' true) o ->
  exists r, m_element_equal X k (mt CC (coll s b)) (co_atomic (mt CC (coll s b))) t o = Ok r /\
    (r = true <-> forall x u, pair_in X k CC has t x u <-> pair_in X k CC has o x u).
Proof. exact coll_element_equal. Qed.
Theorem C86_contains : forall X k, dom_ok X k -> forall U CC (has : C CC -> U -> bool), set_type CC has ->
  forall s b s' b' (co : C CC -> C CC -> incl) t o,
  (forall v w, (fst (co v w) = true <-> forall u, has v u = true -> has w u = true) /\
               (snd (co v w) = true <-> forall u, has w u = true -> has v u = true)) ->
  b = true -> mreach X k CC (coll s b) t -> mreach X k CC (coll s' b') o ->
  m_contains_map X k (mt CC (coll s b)) co o t = Ok true <-> forall x u, pair_in X k CC has t x u -> pair_in X k CC has o x u.
Proof. exact coll_inclusion. Qed.
(** Every expression over maps made of variables, C(), segments and + - & ^ returns a map that
    represents the value of the expression as sets of pairs. *)
Theorem C86_expressions : forall X k, dom_ok X k -> forall U CC (has : C CC -> U -> bool), set_type CC has ->
  forall s b (env : nat -> tree (D X) (C CC)), (forall i, mreach X k CC (coll s b) (env i)) -> forall e,
  exists t, value X k CC (coll s b) env e = Ok t /\ mreach X k CC (coll s b) t /\
    (forall x u, pair_in X k CC has t x u <-> pairs_of X k CC has (fun i => pair_in X k CC has (env i)) e x u) /\
    (b = false -> forall x, at_ X k CC t x <> None <-> keys_of X k CC (fun i x => at_ X k CC (env i) x <> None) e x).
Proof. exact value_ok. Qed.
(** std::set with the operators icl provides for it, and bit vectors, are set types *)
Theorem C86_std_set : forall Y, strict_total Y -> set_type (std_set Y) (sset_has Y).
Proof. exact std_set_type. Qed.
Theorem C86_bit_vectors : set_type Bco bit_has.
Proof. exact bits_set_type. Qed.

(** Finding: an absorber ignores an operand that carries the empty set, also in an intersection, so
    m &= (i, {}) keeps pairs although no pair is in the segment. *)
Theorem C86_intersect_empty_set_refuted : exists t, breach (coll MJoin true) t /\
  exists t', m_and_seg Zdom RO (mt Bco (coll MJoin true)) t (zi 0 9) 0%Z = Ok t' /\ segs Zdom Bco t' = [sg 1 4 6] /\
  pair_in Zdom RO Bco bit_has t' 2%Z 1%N /\ forall x u, ~ seg_pair Zdom RO Bco bit_has (zi 0 9) 0%Z x u.
Proof.
  mbuilt Bco (coll MJoin true) [sg 1 4 6]. eexists. split; [vm_compute; reflexivity|]. split; [reflexivity|]. split.
  - exists 6%Z. split; vm_compute; reflexivity.
  - intros x u [_ H]. unfold bit_has in H. rewrite Z.bits_0 in H. discriminate.
Qed.
(** ... and an absorber that is intersected with an enricher meets such operands *)
Theorem C86_intersect_enricher_refuted : exists t, breach (coll MJoin true) t /\ exists o, breach (coll MJoin false) o /\
  segs Zdom Bco t = [sg 1 4 6] /\ segs Zdom Bco o = [sg 0 9 0] /\
  exists t', m_and_map Zdom RO (mt Bco (coll MJoin true)) t o = Ok t' /\ segs Zdom Bco t' = [sg 1 4 6].
Proof.
  mbuilt Bco (coll MJoin true) [sg 1 4 6]. mbuilt Bco (coll MJoin false) [sg 0 9 0].
  split; [reflexivity|]. split; [reflexivity|]. eexists. split; vm_compute; reflexivity.
Qed.

(** example/party_/party.cpp with minutes for times and numbers for guests in alphabetical order *)
Notation guests := (set_of Zdom).
Definition names (t : tree Z (C (std_set Zdom))) : list (itv Z * list Z) :=
  map (fun s => (fst s, map fst (elems Zdom (snd s)))) (segs Zdom (std_set Zdom) t).
Example C86_ex : strict_total Zdom /\
  exists t, mreach Zdom RO (std_set Zdom) (coll MJoin true) t /\
  names t = [(zi 1170 1210, [2; 3]); (zi 1210 1335, [1; 2; 3; 5]); (zi 1335 1380, [1; 2; 3; 4; 5]);
             (zi 1380 1440, [1; 4; 5]); (zi 1440 1470, [4])]%Z /\
  (exists t', m_subtract Zdom RO (mt (std_set Zdom) (coll MJoin true)) t (zi 1300 1400) (guests [1; 2; 3; 5]%Z) = Ok t' /\
     names t' = [(zi 1170 1210, [2; 3]); (zi 1210 1300, [1; 2; 3; 5]); (zi 1335 1400, [4]); (zi 1400 1440, [1; 4; 5]); (zi 1440 1470, [4])]%Z).
Proof.
  split. { apply (Zdom_ok RO ltac:(discriminate)). }
  mbuilt (std_set Zdom) (coll MJoin true) [(zi 1170 1380, guests [3; 2]%Z); (zi 1210 1440, guests [1; 5]%Z); (zi 1335 1470, guests [4]%Z)].
  split; [vm_compute; reflexivity|]. eexists. split; vm_compute; reflexivity.
Qed.
Example C86_expressions_ex : exists t, mreach Zdom RO (std_set Zdom) (coll MJoin true) t /\
  exists r, value Zdom RO (std_set Zdom) (coll MJoin true) (fun _ => t)
      (Xor (And (Var 0) (@Segment Zdom (std_set Zdom) (zi 2 6) (guests [1; 3]%Z))) (Minus (@Segment Zdom (std_set Zdom) (zi 4 8) (guests [3; 4]%Z)) (Var 1))) = Ok r /\
    names r = [(zi 2 4, [1]); (zi 4 5, [1; 3; 4]); (zi 5 8, [3; 4])]%Z.
Proof.
  mbuilt (std_set Zdom) (coll MJoin true) [(zi 0 5, guests [1; 2]%Z)]. eexists. split; vm_compute; reflexivity.
Qed.

(* ------------------------------------------------------------------ C87 *)
(** Every identity of sets is a law of collectors: if two expressions have the same value as sets of
    pairs (and, for enrichers, the same keys) then the maps they return represent the same function,
    and two interval_maps compare equal with ==.  [law] is defined in MapSpec.v. *)
Theorem C87_every_set_law : forall X k, dom_ok X k -> forall U CC (has : C CC -> U -> bool), set_type CC has ->
  forall s b (env : nat -> tree (D X) (C CC)) e f, (forall i, mreach X k CC (coll s b) (env i)) ->
  (forall x u, pairs_of X k CC has (fun i => pair_in X k CC has (env i)) e x u <-> pairs_of X k CC has (fun i => pair_in X k CC has (env i)) f x u) ->
  b = true \/ (forall x, keys_of X k CC (fun i x => at_ X k CC (env i) x <> None) e x <-> keys_of X k CC (fun i x => at_ X k CC (env i) x <> None) f x) ->
  law X k CC (coll s b) (value X k CC (coll s b) env e) (value X k CC (coll s b) env f).
Proof. exact coll_law. Qed.
(** without the condition on keys the results are distinct-equal *)
Theorem C87_every_set_law_distinct : forall X k, dom_ok X k -> forall U CC (has : C CC -> U -> bool), set_type CC has ->
  forall s b (env : nat -> tree (D X) (C CC)) e f, s = MJoin -> (forall i, mreach X k CC (coll s b) (env i)) ->
  (forall x u, pairs_of X k CC has (fun i => pair_in X k CC has (env i)) e x u <-> pairs_of X k CC has (fun i => pair_in X k CC has (env i)) f x u) ->
  meq_distinct X k CC (coll s b) (value X k CC (coll s b) env e) (value X k CC (coll s b) env f).
Proof. exact coll_law_distinct. Qed.
(** The tables of doc/semantics.qbk, "Collectors: Maps of Sets".  For interval_map all entries but
    Inversion of enrichers hold with ==, for split_interval_map with is_element_equal. *)
Theorem C87_fundamental : forall X k, dom_ok X k -> forall U CC (has : C CC -> U -> bool), set_type CC has ->
  forall s absorbs, let p := coll s absorbs in forall a b c, mreach X k CC p a -> mreach X k CC p b -> mreach X k CC p c ->
  let plus := mplus_ X k CC p in let minus := mminus_ X k CC p in let and := mand_ X k CC p in let law := law X k CC p in
  let A := Ok a in let B := Ok b in let C := Ok c in let none := Ok t_empty in
  law (plus A (plus B C)) (plus (plus A B) C) /\ law (plus A none) A /\ law (plus A B) (plus B A) /\
  law (and A (and B C)) (and (and A B) C) /\ law (and A B) (and B A) /\
  law (minus A none) A /\ (absorbs = true -> law (minus A A) none) /\ (s = MJoin -> meq_distinct X k CC p (minus A A) none).
Proof.
  intros X k HX U CC has HS s absorbs p a b c Ha Hb Hc. cbv zeta.
  refine (conj _ (conj _ (conj _ (conj _ (conj _ (conj _ (conj _ _))))))).
  - exact (law_add_assoc X k HX CC has HS s absorbs a b c Ha Hb Hc).
  - exact (law_add_neutral X k HX CC has HS s absorbs a b c Ha Hb Hc).
  - exact (law_add_comm X k HX CC has HS s absorbs a b c Ha Hb Hc).
  - exact (law_and_assoc X k HX CC has HS s absorbs a b c Ha Hb Hc).
  - exact (law_and_comm X k HX CC has HS s absorbs a b c Ha Hb Hc).
  - exact (law_sub_neutral X k HX CC has HS s absorbs a b c Ha Hb Hc).
  - exact (law_inverse X k HX CC has HS s absorbs a b c Ha Hb Hc).
  - exact (law_inverse_distinct X k HX CC has HS s absorbs a b c Ha Hb Hc).
Qed.
Theorem C87_distributivity : forall X k, dom_ok X k -> forall U CC (has : C CC -> U -> bool), set_type CC has ->
  forall s absorbs, let p := coll s absorbs in forall a b c, mreach X k CC p a -> mreach X k CC p b -> mreach X k CC p c ->
  let plus := mplus_ X k CC p in let minus := mminus_ X k CC p in let and := mand_ X k CC p in let law := law X k CC p in
  let A := Ok a in let B := Ok b in let C := Ok c in
  law (plus A (and B C)) (and (plus A B) (plus A C)) /\ law (and A (plus B C)) (plus (and A B) (and A C)) /\
  law (minus (plus A B) C) (plus (minus A C) (minus B C)) /\ law (minus (and A B) C) (and (minus A C) (minus B C)).
Proof.
  intros X k HX U CC has HS s absorbs p a b c Ha Hb Hc. cbv zeta.
  refine (conj _ (conj _ (conj _ _))).
  - exact (law_distr_add_and X k HX CC has HS s absorbs a b c Ha Hb Hc).
  - exact (law_distr_and_add X k HX CC has HS s absorbs a b c Ha Hb Hc).
  - exact (law_rdistr_add_sub X k HX CC has HS s absorbs a b c Ha Hb Hc).
  - exact (law_rdistr_and_sub X k HX CC has HS s absorbs a b c Ha Hb Hc).
Qed.
Theorem C87_de_morgan_symmetric_difference : forall X k, dom_ok X k -> forall U CC (has : C CC -> U -> bool), set_type CC has ->
  forall s absorbs, let p := coll s absorbs in forall a b c, mreach X k CC p a -> mreach X k CC p b -> mreach X k CC p c ->
  let plus := mplus_ X k CC p in let minus := mminus_ X k CC p in let and := mand_ X k CC p in let xor := mxor_ X k CC p in let law := law X k CC p in
  let A := Ok a in let B := Ok b in let C := Ok c in
  law (minus A (plus B C)) (and (minus A B) (minus A C)) /\ law (minus A (and B C)) (plus (minus A B) (minus A C)) /\
  law (minus (plus A B) (and A B)) (plus (minus A B) (minus B A)) /\ law (xor A B) (plus (minus A B) (minus B A)) /\
  law (xor A (xor B C)) (xor (xor A B) C) /\ law (xor A B) (xor B A).
Proof.
  intros X k HX U CC has HS s absorbs p a b c Ha Hb Hc. cbv zeta.
  refine (conj _ (conj _ (conj _ (conj _ (conj _ _))))).
  - exact (law_demorgan_add X k HX CC has HS s absorbs a b c Ha Hb Hc).
  - exact (law_demorgan_and X k HX CC has HS s absorbs a b c Ha Hb Hc).
  - exact (law_symdiff X k HX CC has HS s absorbs a b c Ha Hb Hc).
  - exact (law_xor X k HX CC has HS s absorbs a b c Ha Hb Hc).
  - exact (law_xor_assoc X k HX CC has HS s absorbs a b c Ha Hb Hc).
  - exact (law_xor_comm X k HX CC has HS s absorbs a b c Ha Hb Hc).
Qed.
(** The weaker entries cannot be strengthened: an enricher keeps the keys of a - a with the empty
    set, and the distributivity laws do not hold with == for split_interval_map. *)
Theorem C87_inversion_enricher_refuted : exists a, breach (coll MJoin false) a /\
  exists r, mminus_ Zdom RO Bco (coll MJoin false) (Ok a) (Ok a) = Ok r /\ segs Zdom Bco r = [sg 0 4 0] /\
    m_eqb Zdom RO (mt Bco (coll MJoin false)) r t_empty = false.
Proof. mbuilt Bco (coll MJoin false) [sg 0 4 6]. eexists. split; [vm_compute; reflexivity|]. split; reflexivity. Qed.
Theorem C87_split_distributivity_refuted : exists a, breach (coll MSplit true) a /\ exists b, breach (coll MSplit true) b /\
  let plus := mplus_ Zdom RO Bco (coll MSplit true) in let and := mand_ Zdom RO Bco (coll MSplit true) in let none := Ok t_empty in
  exists l r, plus (Ok a) (and (Ok b) none) = Ok l /\ and (plus (Ok a) (Ok b)) (plus (Ok a) none) = Ok r /\
    m_eqb Zdom RO (mt Bco (coll MSplit true)) l r = false.
Proof.
  mbuilt Bco (coll MSplit true) [sg 0 4 1]. mbuilt Bco (coll MSplit true) [sg 2 3 1]. cbv zeta.
  eexists. eexists. split; [vm_compute; reflexivity|]. split; [vm_compute; reflexivity|]. reflexivity.
Qed.
Example C87_ex : exists a, mreach Zdom RO (std_set Zdom) (coll MJoin true) a /\ exists b, mreach Zdom RO (std_set Zdom) (coll MJoin true) b /\
  let minus := mminus_ Zdom RO (std_set Zdom) (coll MJoin true) in let plus := mplus_ Zdom RO (std_set Zdom) (coll MJoin true) in
  exists r, plus (minus (Ok a) (Ok b)) (minus (Ok b) (Ok a)) = Ok r /\ names r = [(zi 0 2, [1; 2]); (zi 2 4, [1; 3]); (zi 4 6, [2; 3])]%Z /\
  exists r', mxor_ Zdom RO (std_set Zdom) (coll MJoin true) (Ok a) (Ok b) = Ok r' /\ names r' = names r.
Proof.
  mbuilt (std_set Zdom) (coll MJoin true) [(zi 0 4, guests [1; 2]%Z)]. mbuilt (std_set Zdom) (coll MJoin true) [(zi 2 6, guests [2; 3]%Z)]. cbv zeta.
  eexists. split; [vm_compute; reflexivity|]. split; [vm_compute; reflexivity|]. eexists. split; vm_compute; reflexivity.
Qed.

(* ------------------------------------------------------------------ C88 *)
(** is_distinct_equal returns true iff the functions agree except for identity elements and the
    segments that carry other values have the same borders. *)
Theorem C88_distinct : forall X k, dom_ok X k -> forall CC, eq_ok CC -> forall p t o, mreach X k CC p t -> mreach X k CC p o ->
  exists b, m_distinct_eqb X k (mt CC p) t o = Ok b /\
  (b = true <-> (forall x v, v <> cc_zero -> (at_ X k CC t x = Some v <-> at_ X k CC o x = Some v)) /\
     forall x y, same_seg X k (proton_keys X CC t) x y <-> same_seg X k (proton_keys X CC o) x y).
Proof. exact thm_distinct. Qed.
(** for interval_map the borders follow from the function *)
Theorem C88_distinct_joined : forall X k, dom_ok X k -> forall CC, eq_ok CC -> forall p t o, mp_style p = MJoin -> mreach X k CC p t -> mreach X k CC p o ->
  exists b, m_distinct_eqb X k (mt CC p) t o = Ok b /\
  (b = true <-> forall x v, v <> cc_zero -> (at_ X k CC t x = Some v <-> at_ X k CC o x = Some v)).
Proof. exact thm_distinct_joined. Qed.
(** for absorbers it is == *)
Theorem C88_distinct_absorber : forall X k, dom_ok X k -> forall CC, eq_ok CC -> forall p t o, proper CC p -> mp_absorbs p = true ->
  mreach X k CC p t -> mreach X k CC p o -> m_distinct_eqb X k (mt CC p) t o = Ok (m_eqb X k (mt CC p) t o).
Proof. exact thm_distinct_absorber. Qed.
(** Finding: for split_interval_map "equality on all elements that do not carry an identity element"
    (concept/element_map.hpp 63) is not what is_distinct_equal decides. *)
Theorem C88_split_refuted : exists t, zreach (enricher MSplit) t /\ exists o, zreach (enricher MSplit) o /\
  (forall x, at_ Zdom RO Zco t x = at_ Zdom RO Zco o x) /\ m_distinct_eqb Zdom RO (mt Zco (enricher MSplit)) t o = Ok false.
Proof.
  mbuilt Zco (enricher MSplit) [sg 0 4 1]. mbuilt Zco (enricher MSplit) [sg 0 2 1; sg 2 4 1]. split; [|vm_compute; reflexivity].
  intros x. unfold MapSpec.at_. cbn. destruct (Z.ltb_spec x 0), (Z.ltb_spec x 2), (Z.ltb_spec x 4); cbn; try reflexivity; try lia.
Qed.
Example C88_ex : exists t, zreach (enricher MJoin) t /\ exists o, zreach (enricher MJoin) o /\
  segs Zdom Zco t = [sg 0 2 1; sg 2 4 0; sg 4 6 3] /\ segs Zdom Zco o = [sg 0 2 1; sg 4 6 3; sg 7 8 0] /\
  m_distinct_eqb Zdom RO (mt Zco (enricher MJoin)) t o = Ok true /\ m_eqb Zdom RO (mt Zco (enricher MJoin)) t o = false.
Proof.
  mbuilt Zco (enricher MJoin) [sg 0 2 1; sg 2 4 0; sg 4 6 3]. mbuilt Zco (enricher MJoin) [sg 0 2 1; sg 4 6 3; sg 7 8 0].
  repeat split.
Qed.

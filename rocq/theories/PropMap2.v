(** Property theorems C41-C45, C47-C49, C51, C54-C57: whole maps, hints, queries, equality,
    inclusion, safety and laws of interval_map and split_interval_map.  Reading guide: see
    PropMap.v. *)
From Verif Require Import MapSpec MapReach MapThms MapThms2 MapThms3 MapThms4 SetSpec SetThms Instances MapInst PropMap.
From Verif Require Import MapModel.
From Coq Require Import Sorted ZArith.
Open Scope nat_scope.

(* ------------------------------------------------------------------ C41 *)
Theorem C41_add_map : forall X k, dom_ok X k -> forall CC, eq_ok CC -> forall p p' t o, mreach X k CC p t -> mreach X k CC p' o ->
  proper CC p -> exists t', m_add_map X k (mt CC p) t o = Ok t' /\ combined X k CC t o t' (add_val CC p).
Proof. exact thm_madd_map. Qed.
Theorem C41_subtract_map : forall X k, dom_ok X k -> forall CC, eq_ok CC -> forall p p' t o, mreach X k CC p t -> mreach X k CC p' o ->
  exists t', m_subtract_map X k (mt CC p) t o = Ok t' /\ combined X k CC t o t' (sub_val CC p).
Proof. exact thm_msub_map. Qed.
Theorem C41_insert_map : forall X k, dom_ok X k -> forall CC, eq_ok CC -> forall p p' t o, mreach X k CC p t -> mreach X k CC p' o ->
  exists t', m_insert_map X k (mt CC p) t o = Ok t' /\ combined X k CC t o t' (ins_val CC p).
Proof. exact thm_mins_map. Qed.
Theorem C41_erase_map : forall X k, dom_ok X k -> forall CC, eq_ok CC -> forall p p' t o, mreach X k CC p t -> mreach X k CC p' o ->
  mp_absorbs p = false \/ proper CC p -> exists t', m_erase_map X k (mt CC p) t o = Ok t' /\ combined X k CC t o t' (erase_val CC).
Proof. exact thm_merase_map. Qed.
Theorem C41_erase_set : forall X k, dom_ok X k -> forall CC, eq_ok CC -> forall p st t s, mreach X k CC p t -> reach X k st s ->
  exists t', m_erase_set X k (mt CC p) t s = Ok t' /\ changed X k CC t t' (cmem X k s) (fun _ => None).
Proof. exact thm_merase_set. Qed.
(** Finding: the overload of operator + for a right operand that is an rvalue computes
    right += left.  For a combiner that is not commutative the result differs from
    left += right. *)
Theorem C41_plus_rvalue_refuted : exists a b, let p := with_ F_minus (absorber MJoin) in zreach p a /\ zreach p b /\
  (exists r, m_add_map Zdom RO (mt Zco p) a b = Ok r /\ segs Zdom Zco r = [sg 0 1 (-2)]) /\
  (exists r, m_plus_rvalue Zdom RO (mt Zco p) a b = Ok r /\ segs Zdom Zco r = [sg 0 1 2]).
Proof.
  let r := eval vm_compute in (zmap (with_ F_minus (absorber MJoin)) [sg 0 1 5]) in match r with Ok ?t => exists t end.
  let r := eval vm_compute in (zmap (with_ F_minus (absorber MJoin)) [sg 0 1 3]) in match r with Ok ?t => exists t end.
  split; [apply (mbuild_reach Zdom RO Zco _ [sg 0 1 5]); vm_compute; reflexivity|].
  split; [apply (mbuild_reach Zdom RO Zco _ [sg 0 1 3]); vm_compute; reflexivity|].
  split; eexists; split; vm_compute; reflexivity.
Qed.

Example C41_ex : exists a, zreach (absorber MJoin) a /\ exists b, zreach (absorber MSplit) b /\
  (exists r, m_add_map Zdom RO (mt Zco (absorber MJoin)) a b = Ok r /\ segs Zdom Zco r = [sg 0 2 1; sg 6 8 4]) /\
  (exists r, m_subtract_map Zdom RO (mt Zco (absorber MJoin)) a b = Ok r /\ segs Zdom Zco r = [sg 0 2 1; sg 2 4 2]) /\
  (exists r, m_insert_map Zdom RO (mt Zco (absorber MJoin)) a b = Ok r /\ segs Zdom Zco r = [sg 0 4 1; sg 6 8 4]) /\
  (exists r, m_erase_map Zdom RO (mt Zco (absorber MJoin)) a b = Ok r /\ segs Zdom Zco r = [sg 0 4 1]).
Proof.
  mbuilt Zco (absorber MJoin) [sg 0 4 1]. mbuilt Zco (absorber MSplit) [sg 2 4 (-1); sg 6 8 4].
  repeat split; eexists; split; vm_compute; reflexivity.
Qed.

(* ------------------------------------------------------------------ C42 *)
Theorem C42_add_hint : forall X k, dom_ok X k -> forall CC, eq_ok CC -> forall p t h a v, mreach X k CC p t -> mhint_ok X CC t h ->
  proper CC p -> exists t1 t2 it, m_add X k (mt CC p) t a v = Ok t1 /\ m_add_hint X k (mt CC p) t h a v = Ok (t2, it) /\
    m_eqb X k (mt CC p) t1 t2 = true.
Proof. exact thm_madd_hint. Qed.
Theorem C42_insert_hint : forall X k, dom_ok X k -> forall CC, eq_ok CC -> forall p t h a v, mreach X k CC p t -> mhint_ok X CC t h ->
  exists t1 t2 it, m_insert X k (mt CC p) t a v = Ok t1 /\ m_insert_hint X k (mt CC p) t h a v = Ok (t2, it) /\
    m_eqb X k (mt CC p) t1 t2 = true.
Proof. exact thm_mins_hint. Qed.
(** Finding: with inplace_max over the integers adding a negative value with a hint stores
    the identity element, without a hint the value. *)
Theorem C42_add_hint_max_refuted : let p := with_ F_max (enricher MJoin) in
  (exists r, m_add Zdom RO (mt Zco p) t_empty (zi 0 2) (-3)%Z = Ok r /\ segs Zdom Zco r = [sg 0 2 (-3)]) /\
  (exists r it, m_add_hint Zdom RO (mt Zco p) t_empty None (zi 0 2) (-3)%Z = Ok (r, it) /\ segs Zdom Zco r = [sg 0 2 0]).
Proof. split; [eexists|eexists _, _]; split; vm_compute; reflexivity. Qed.

Example C42_ex : exists t, zreach (absorber MSplit) t /\ mhint_ok Zdom Zco t (begin_ t) /\
  exists r it, m_add_hint Zdom RO (mt Zco (absorber MSplit)) t (begin_ t) (zi 3 5) 1%Z = Ok (r, it) /\
    segs Zdom Zco r = [sg 0 2 1; sg 3 4 1; sg 4 5 3; sg 5 6 2].
Proof.
  mbuilt Zco (absorber MSplit) [sg 0 2 1; sg 4 6 2]. split. { eexists. split; [left|]; reflexivity. }
  eexists _, _. split; vm_compute; reflexivity.
Qed.

(* ------------------------------------------------------------------ C43 *)
Theorem C43_lookup : forall X k, dom_ok X k -> forall CC, eq_ok CC -> forall p t, mreach X k CC p t -> forall x, has_room X k x ->
  m_lookup X k (mt CC p) t x = Ok (match at_ X k CC t x with Some v => v | None => cc_zero end).
Proof. exact thm_lookup. Qed.
Theorem C43_find : forall X k, dom_ok X k -> forall CC, eq_ok CC -> forall p t, mreach X k CC p t -> forall x, has_room X k x ->
  (exists n, In n (nodes t) /\ mem X k (nkey n) x /\ find_elem X k t x = Ok (Some (nid n)) /\ at_ X k CC t x = Some (nval n)) \/
  (at_ X k CC t x = None /\ find_elem X k t x = Ok (end_ t)).
Proof. exact thm_mfind. Qed.
Theorem C43_contains_key : forall X k, dom_ok X k -> forall CC, eq_ok CC -> forall p t, mreach X k CC p t -> forall x, has_room X k x ->
  exists b, m_contains_key X k (mt CC p) t x = Ok b /\ (b = true <-> mp_total p = true \/ at_ X k CC t x <> None).
Proof. exact thm_contains_key. Qed.
Theorem C43_contains_pair : forall X k, dom_ok X k -> forall CC, eq_ok CC -> forall p t, mreach X k CC p t -> forall x v, has_room X k x ->
  exists b, m_contains_pair X k (mt CC p) t x v = Ok b /\ (b = true <-> at_ X k CC t x = Some v).
Proof. exact thm_contains_pair. Qed.
Theorem C43_contains_interval : forall X k, dom_ok X k -> forall CC, eq_ok CC -> forall p t, mreach X k CC p t -> forall a,
  exists b, m_contains_itv X k (mt CC p) t a = Ok b /\ (b = true <-> mp_total p = true \/ forall x, mem X k a x -> at_ X k CC t x <> None).
Proof. exact thm_contains_itv. Qed.
Theorem C43_contains_segment : forall X k, dom_ok X k -> forall CC, eq_ok CC -> forall p t, mreach X k CC p t -> forall a v,
  exists b, m_contains_seg X k (mt CC p) t a v = Ok b /\ (b = true <-> forall x, mem X k a x -> at_ X k CC t x = Some v).
Proof. exact MapThms2.thm_contains_seg. Qed.
Theorem C43_contains_set : forall X k, dom_ok X k -> forall CC, eq_ok CC -> forall p st t s, mreach X k CC p t -> reach X k st s ->
  exists b, m_contains_set X k (mt CC p) t s = Ok b /\ (b = true <-> mp_total p = true \/ forall x, cmem X k s x -> at_ X k CC t x <> None).
Proof. exact thm_mcontains_set. Qed.

Example C43_ex : exists t, zreach (absorber MSplit) t /\ has_room Zdom RO 3%Z /\
  m_lookup Zdom RO (mt Zco (absorber MSplit)) t 3%Z = Ok 3%Z /\ m_lookup Zdom RO (mt Zco (absorber MSplit)) t 7%Z = Ok 0%Z /\
  m_contains_seg Zdom RO (mt Zco (absorber MSplit)) t (zi 1 5) 3%Z = Ok false /\
  m_contains_seg Zdom RO (mt Zco (absorber MSplit)) t (zi 2 5) 3%Z = Ok true.
Proof.
  mbuilt Zco (absorber MSplit) [sg 0 4 1; sg 2 4 2; sg 4 6 3]. split; [split; cbn; eauto; exists 4%Z; reflexivity|]. repeat split; vm_compute; reflexivity.
Qed.

(* ------------------------------------------------------------------ C44 *)
Theorem C44_domain : forall X k, dom_ok X k -> forall CC, eq_ok CC -> forall p t, mreach X k CC p t -> forall st,
  exists s, m_domain X k (mt CC p) st t = Ok s /\ reach X k st s /\ forall x, cmem X k s x <-> at_ X k CC t x <> None.
Proof. intros X k HX CC Hco p t Ht st. exact (thm_mdomain X k HX CC p t st). Qed.
Theorem C44_between : forall X k, dom_ok X k -> forall CC, eq_ok CC -> forall p t, mreach X k CC p t -> forall st,
  exists s, m_between X k (mt CC p) st t = Ok s /\
  forall x, cmem X k s x <-> at_ X k CC t x = None /\ (exists y, at_ X k CC t y <> None /\ lt y x) /\ (exists z, at_ X k CC t z <> None /\ lt x z).
Proof. exact thm_mbetween. Qed.

Example C44_ex : exists t, zreach (absorber MSplit) t /\
  (exists s, m_domain Zdom RO (mt Zco (absorber MSplit)) Joining t = Ok s /\ keys Zdom s = [zi 0 4; zi 6 8]) /\
  (exists s, m_between Zdom RO (mt Zco (absorber MSplit)) Joining t = Ok s /\ keys Zdom s = [zi 4 6]).
Proof. mbuilt Zco (absorber MSplit) [sg 0 2 1; sg 2 4 2; sg 6 8 1]. split; eexists; split; vm_compute; reflexivity. Qed.

(* ------------------------------------------------------------------ C45 *)
Theorem C45_canonical : forall X k, dom_ok X k -> forall CC, eq_ok CC -> forall p p' t o,
  mp_style p = MJoin -> mp_style p' = MJoin -> mreach X k CC p t -> mreach X k CC p' o ->
  (m_eqb X k (mt CC p) t o = true <-> forall x, at_ X k CC t x = at_ X k CC o x).
Proof. exact thm_meqb_joined. Qed.
(** in general == compares the represented functions and the segmentations *)
Theorem C45_equal_segments : forall X k, dom_ok X k -> forall CC, eq_ok CC -> forall p p' t o, mreach X k CC p t -> mreach X k CC p' o ->
  (m_eqb X k (mt CC p) t o = true <-> (forall x, at_ X k CC t x = at_ X k CC o x) /\
     forall x y, same_seg X k (map fst (segs X CC t)) x y <-> same_seg X k (map fst (segs X CC o)) x y).
Proof. exact thm_meqb. Qed.

Example C45_ex : exists t, zreach (absorber MJoin) t /\ exists u, zreach (absorber MJoin) u /\
  m_eqb Zdom RO (mt Zco (absorber MJoin)) t u = true /\ t <> u.
Proof.
  mbuilt Zco (absorber MJoin) [sg 0 2 1; sg 2 4 1; sg 4 6 2]. mbuilt Zco (absorber MJoin) [sg 3 6 2; sg 0 3 1; sg 3 4 (-1)].
  split; [vm_compute; reflexivity|discriminate].
Qed.

(* ------------------------------------------------------------------ C47 *)
Theorem C47_element_equal : forall X k, dom_ok X k -> forall CC, eq_ok CC -> forall p p' t o, mreach X k CC p t -> mreach X k CC p' o ->
  exists b, m_element_equal X k (mt CC p) (co_atomic (mt CC p)) t o = Ok b /\ (b = true <-> forall x, at_ X k CC t x = at_ X k CC o x).
Proof. exact thm_melement_equal. Qed.
(** Inclusion of graphs; R is equality for atomic codomains ([C47_atomic]) and inclusion for
    set codomains.  The two components of the result are "is subset" and "is superset". *)
Theorem C47_inclusion : forall X k, dom_ok X k -> forall CC, eq_ok CC -> forall p p' t o (co : C CC -> C CC -> incl) (R : C CC -> C CC -> Prop),
  mreach X k CC p t -> mreach X k CC p' o -> (forall v w, (fst (co v w) = true <-> R v w) /\ (snd (co v w) = true <-> R w v)) ->
  exists b, m_inclusion_compare X k (mt CC p) co t o = Ok b /\ (fst b = true <-> below_at X k CC R t o) /\ (snd b = true <-> below_at X k CC R o t) /\
    m_contains_map X k (mt CC p) co o t = Ok (fst b) /\ m_element_equal X k (mt CC p) co t o = Ok (fst b && snd b).
Proof. exact thm_minclusion. Qed.
Theorem C47_atomic : forall CC, eq_ok CC -> forall p (v w : C CC),
  (fst (co_atomic (mt CC p) v w) = true <-> v = w) /\ (snd (co_atomic (mt CC p) v w) = true <-> w = v).
Proof. exact atomic_eq. Qed.

Example C47_ex : exists t, zreach (absorber MJoin) t /\ exists u, zreach (absorber MSplit) u /\
  m_inclusion_compare Zdom RO (mt Zco (absorber MJoin)) (co_atomic (mt Zco (absorber MJoin))) t u = Ok r_subset /\
  m_contains_map Zdom RO (mt Zco (absorber MJoin)) (co_atomic (mt Zco (absorber MJoin))) u t = Ok true.
Proof.
  mbuilt Zco (absorber MJoin) [sg 0 4 1; sg 6 8 2]. mbuilt Zco (absorber MSplit) [sg 0 2 1; sg 2 4 1; sg 5 9 2]. split; vm_compute; reflexivity.
Qed.

(* ------------------------------------------------------------------ C48 *)
(** Every operation returns.  Preconditions: hints are valid, flip of a partial map has a
    non-empty argument (or the map is empty), looked-up elements are not the extreme ones
    a static interval type would have to step over.  No condition on the combiners. *)
Theorem C48_no_undefined_behaviour : forall X k, dom_ok X k -> forall CC, eq_ok CC -> forall p p' st t o s,
  mreach X k CC p t -> mreach X k CC p' o -> reach X k st s ->
  let M := mt CC p in
  (forall a v, safe (m_add X k M t a v) /\ safe (m_subtract X k M t a v) /\ safe (m_insert X k M t a v) /\
     safe (m_set X k M t a v) /\ safe (m_erase_seg X k M t a v) /\ safe (m_and_seg X k M t a v) /\
     safe (m_contains_seg X k M t a v) /\ safe (m_intersects_seg X k M t a v)) /\
  (forall h a v, mhint_ok X CC t h -> safe (m_add_hint X k M t h a v) /\ safe (m_insert_hint X k M t h a v)) /\
  (forall a, safe (m_erase X k M t a) /\ safe (m_and_itv X k M t a) /\ safe (m_contains_itv X k M t a) /\ safe (m_intersects_itv X k M t a)) /\
  (forall a v, mp_total p = true \/ (exists x, mem X k a x) \/ nodes t = [] -> safe (m_flip_seg X k M t a v)) /\
  (forall x v, safe (m_add_elem X k M t x v) /\ safe (m_subtract_elem X k M t x v) /\ safe (m_insert_elem X k M t x v) /\
     safe (m_set_elem X k M t x v) /\ safe (m_erase_pair X k M t x v) /\ safe (m_erase_key X k M t x)) /\
  (forall x v, has_room X k x -> safe (m_lookup X k M t x) /\ safe (m_contains_key X k M t x) /\ safe (m_contains_pair X k M t x v) /\
     safe (m_and_key X k M t x) /\ safe (find_elem X k t x)) /\
  (safe (m_add_map X k M t o) /\ safe (m_subtract_map X k M t o) /\ safe (m_insert_map X k M t o) /\ safe (m_erase_map X k M t o) /\
   safe (m_and_map X k M t o) /\ safe (m_flip_map X k M t o) /\ safe (m_intersects_map X k M t o) /\ safe (m_disjoint_map X k M t o)) /\
  (safe (m_erase_set X k M t s) /\ safe (m_and_set X k M t s) /\ safe (m_intersects_set X k M t s) /\ safe (m_contains_set X k M t s)) /\
  (forall st', safe (m_domain X k M st' t) /\ safe (m_between X k M st' t)) /\
  (forall q, safe (m_erase_if X M q t)) /\
  (safe (m_absorb_identities X M t) /\ safe (join X k cc_eq t)) /\
  (forall co, safe (m_contains_map X k M co t o) /\ safe (m_inclusion_compare X k M co t o) /\ safe (m_element_equal X k M co t o)) /\
  (forall s', p' = restyle p s' -> safe (m_assign X k M o)) /\
  (exists fuel, safe (mtraverse X CC fuel t (begin_ t))).
Proof. exact thm_msafe. Qed.

Example C48_ex : exists t, zreach (absorber MSplit) t /\ mhint_ok Zdom Zco t (begin_ t) /\ nodes t <> [].
Proof. mbuilt Zco (absorber MSplit) [sg 0 2 1; sg 1 4 1]. split; [|discriminate]. eexists. split; [left|]; reflexivity. Qed.

(* ------------------------------------------------------------------ C49 *)
(** [law p r s]: both sides return and represent the same function; for interval_map they
    also compare equal with ==. *)
Theorem C49_commutative_monoid : forall X k, dom_ok X k -> forall CC, eq_ok CC -> forall p a b c, proper CC p -> cmonoid CC (mp_combine p) ->
  mreach X k CC p a -> mreach X k CC p b -> mreach X k CC p c -> let add := mplus_ X k CC p in
  law X k CC p (add (add (Ok a) (Ok b)) (Ok c)) (add (Ok a) (add (Ok b) (Ok c))) /\
  law X k CC p (add (Ok a) (Ok b)) (add (Ok b) (Ok a)) /\
  law X k CC p (add (Ok a) (Ok t_empty)) (Ok a) /\ law X k CC p (add (Ok t_empty) (Ok a)) (Ok a).
Proof. exact thm_monoid. Qed.
Theorem C49_minus_self : forall X k, dom_ok X k -> forall CC, eq_ok CC -> forall p a, proper CC p -> mp_absorbs p = true ->
  (forall v : C CC, combine CC (inverse CC (mp_combine p)) v v = cc_zero) -> mreach X k CC p a ->
  exists r, mminus_ X k CC p (Ok a) (Ok a) = Ok r /\ segs X CC r = [].
Proof. exact thm_minus_self. Qed.
Theorem C49_group : forall X k, dom_ok X k -> forall CC, eq_ok CC -> forall p a b, proper CC p -> cmonoid CC (mp_combine p) -> cgroup CC (mp_combine p) ->
  mp_absorbs p = true -> mp_total p = true -> cc_invertible CC = true -> mreach X k CC p a -> mreach X k CC p b ->
  (exists r, mplus_ X k CC p (mminus_ X k CC p (Ok t_empty) (Ok a)) (Ok a) = Ok r /\ segs X CC r = []) /\
  law X k CC p (mminus_ X k CC p (mplus_ X k CC p (Ok a) (Ok b)) (Ok b)) (Ok a) /\
  law X k CC p (mplus_ X k CC p (mminus_ X k CC p (Ok a) (Ok b)) (Ok b)) (Ok a).
Proof. exact thm_group. Qed.
(** Finding: for split_interval_map the laws do not hold for operator ==: the sum splits
    segments whose values cancel or agree, depending on the order of the operands. *)
Theorem C49_split_equality_refuted : exists a b c, let p := absorber MSplit in let add := mplus_ Zdom RO Zco p in
  zreach p a /\ zreach p b /\ zreach p c /\
  exists l r, add (add (Ok a) (Ok b)) (Ok c) = Ok l /\ add (Ok a) (add (Ok b) (Ok c)) = Ok r /\ m_eqb Zdom RO (mt Zco p) l r = false.
Proof.
  let r := eval vm_compute in (zmap (absorber MSplit) [sg 0 4 1]) in match r with Ok ?t => exists t end.
  let r := eval vm_compute in (zmap (absorber MSplit) [sg 1 2 1]) in match r with Ok ?t => exists t end.
  let r := eval vm_compute in (zmap (absorber MSplit) [sg 1 2 (-1)]) in match r with Ok ?t => exists t end.
  split; [apply (mbuild_reach Zdom RO Zco _ [sg 0 4 1]); vm_compute; reflexivity|].
  split; [apply (mbuild_reach Zdom RO Zco _ [sg 1 2 1]); vm_compute; reflexivity|].
  split; [apply (mbuild_reach Zdom RO Zco _ [sg 1 2 (-1)]); vm_compute; reflexivity|].
  eexists _, _. split; [vm_compute; reflexivity|]. split; vm_compute; reflexivity.
Qed.

Example C49_ex : proper Zco (tabsorber MJoin) /\ cmonoid Zco F_plus /\ cgroup Zco F_plus /\ cc_invertible Zco = true /\
  cmonoid Bco F_plus /\ cmonoid Nco F_max /\ (forall v : C Bco, combine Bco (inverse Bco F_plus) v v = cc_zero) /\
  exists a, zreach (tabsorber MJoin) a /\ segs Zdom Zco a = [sg 0 2 1; sg 4 6 (-1)].
Proof.
  split; [apply Z_proper|]. split; [apply Z_monoid|]. split; [apply Z_group|]. split; [reflexivity|]. split; [apply B_monoid|]. split; [apply N_max_monoid|].
  split; [exact Z.ldiff_diag|]. mbuilt Zco (tabsorber MJoin) [sg 0 4 1; sg 2 6 (-1)]. reflexivity.
Qed.

(* ------------------------------------------------------------------ C51 *)
(** inplace_plus / inplace_minus over the integers are inverse to each other *)
Theorem C51_plus_minus_inverse : forall f, f = F_plus \/ f = F_minus -> cgroup Zco f.
Proof. intros f [->| ->]; [exact Z_group|]. repeat split; cbn; intros; lia. Qed.
(** over sets (bit i of v: i is an element of v) the inverses are difference and symmetric
    difference *)
Theorem C51_set_combiners : forall (v w : C Bco) i, (0 <= i)%Z ->
  Z.testbit (combine Bco F_plus v w) i = Z.testbit v i || Z.testbit w i /\
  Z.testbit (combine Bco (inverse Bco F_plus) v w) i = Z.testbit v i && negb (Z.testbit w i) /\
  Z.testbit (combine Bco F_bit_add v w) i = Z.testbit v i || Z.testbit w i /\
  Z.testbit (combine Bco (inverse Bco F_bit_add) v w) i = Z.testbit v i && negb (Z.testbit w i) /\
  Z.testbit (combine Bco F_inter_section v w) i = Z.testbit v i && Z.testbit w i /\
  Z.testbit (combine Bco (inverse Bco F_inter_section) v w) i = xorb (Z.testbit v i) (Z.testbit w i) /\
  Z.testbit (combine Bco (inverse Bco F_et) v w) i = xorb (Z.testbit v i) (Z.testbit w i) /\
  Z.testbit (combine Bco (inverse Bco F_bit_and) v w) i = xorb (Z.testbit v i) (Z.testbit w i).
Proof.
  intros v w i Hi. cbn [combine inverse Bco cc_add cc_sub cc_and cc_or cc_xor cc_not cc_set_sem].
  rewrite ?Z.lor_spec, ?Z.ldiff_spec, ?Z.land_spec, ?Z.lxor_spec, ?Z.lnot_spec by auto. repeat split; auto.
Qed.
Theorem C51_star_slash_inverse : forall v w : C Zco, v <> 0%Z -> combine Zco (inverse Zco F_star) (combine Zco F_star w v) v = w.
Proof. intros v w Hv. cbn. apply Z.quot_mul; auto. Qed.
(** max and min: the inverse combiner restores w only if combining changed nothing *)
Theorem C51_max_min : forall v w : C Zco, combine Zco (inverse Zco F_max) (combine Zco F_max w v) v = v /\
  combine Zco (inverse Zco F_min) (combine Zco F_min w v) v = v.
Proof. intros v w. cbn. repeat match goal with |- context [(?a <? ?b)%Z] => destruct (Z.ltb_spec a b); cbn end; split; lia. Qed.
(** the inverse of the inverse *)
Theorem C51_inverse_involutive : forall CC f, In f [F_plus; F_minus; F_bit_add; F_bit_subtract; F_et; F_caret; F_bit_and; F_bit_xor; F_star; F_slash; F_max; F_min] ->
  inverse CC (inverse CC f) = f.
Proof. intros CC f H. cbn in H. repeat destruct H as [<-|H]; try reflexivity. destruct H. Qed.
(** the value stored on first insertion is the one combining into the identity element gives *)
Theorem C51_first_insertion : forall CC,
  neutral_ok CC F_minus /\
  ((forall v : C CC, cc_add cc_zero v = v) -> neutral_ok CC F_plus) /\
  ((forall v : C CC, cc_or cc_zero v = v) -> neutral_ok CC F_bit_add) /\
  ((forall v : C CC, cc_xor cc_zero v = v) -> neutral_ok CC F_caret /\ neutral_ok CC F_bit_xor) /\
  ((forall v : C CC, cc_lt cc_zero v = false -> v = cc_zero) -> neutral_ok CC F_max) /\
  ((forall v : C CC, cc_insert cc_zero v = v) -> neutral_ok CC F_insert).
Proof.
  intros CC. unfold neutral_ok. repeat split; cbn; auto. intros H v. destruct (cc_lt cc_zero v) eqn:E; auto. symmetry; auto.
Qed.
(** Finding: it is not for inplace_bit_subtract, inplace_star and inplace_et. *)
Theorem C51_first_insertion_refuted : ~ neutral_ok Zco F_bit_subtract /\ ~ neutral_ok Zco F_star /\ ~ neutral_ok Zco F_et.
Proof. repeat split; intros H; specialize (H 1%Z); vm_compute in H; discriminate. Qed.

Example C51_ex : combine Zco (inverse Zco F_plus) (combine Zco F_plus 5 3)%Z 3%Z = 5%Z /\
  combine Bco (inverse Bco F_inter_section) 6%Z 3%Z = 5%Z /\ (forall v : C Zco, cc_add cc_zero v = v) /\
  (forall v : C Nco, cc_lt cc_zero v = false -> v = cc_zero).
Proof.
  split; [reflexivity|]. split; [reflexivity|]. split; [reflexivity|]. intros v H. cbn in *. apply N.ltb_ge in H. lia.
Qed.

(* ------------------------------------------------------------------ C54 *)
Theorem C54_less : forall X k, dom_ok X k -> forall CC, eq_ok CC -> forall p1 p2 p3 t u w, co_order CC ->
  mreach X k CC p1 t -> mreach X k CC p2 u -> mreach X k CC p3 w -> let lt_ := m_ltb X k (mt CC p1) in
  lt_ t t = false /\ (lt_ t u = true -> lt_ u t = false) /\ (lt_ t u = true -> lt_ u w = true -> lt_ t w = true) /\
  (m_eqb X k (mt CC p1) t u = true <-> lt_ t u = false /\ lt_ u t = false).
Proof. exact thm_morder. Qed.

Example C54_ex : co_order Zco /\ exists t, zreach (absorber MJoin) t /\ exists u, zreach (absorber MSplit) u /\
  m_ltb Zdom RO (mt Zco (absorber MJoin)) t u = true.
Proof.
  split; [apply Zco_order|]. mbuilt Zco (absorber MJoin) [sg 0 4 1; sg 6 8 2]. mbuilt Zco (absorber MSplit) [sg 0 4 1; sg 6 8 3]. vm_compute; reflexivity.
Qed.

(* ------------------------------------------------------------------ C55 *)
Theorem C55_intersects_interval : forall X k, dom_ok X k -> forall CC, eq_ok CC -> forall p t, mreach X k CC p t -> forall a,
  exists b, m_intersects_itv X k (mt CC p) t a = Ok b /\ (b = true <-> exists x v, mem X k a x /\ at_ X k CC t x = Some v).
Proof. exact thm_mint_itv. Qed.
Theorem C55_intersects_segment : forall X k, dom_ok X k -> forall CC, eq_ok CC -> forall p t, mreach X k CC p t -> forall a v,
  exists b, m_intersects_seg X k (mt CC p) t a v = Ok b /\
    (b = true <-> mp_total p = true \/ exists x, mem X k a x /\ and_val CC p v (at_ X k CC t x) <> None).
Proof. exact thm_mint_seg. Qed.
Theorem C55_intersects_map : forall X k, dom_ok X k -> forall CC, eq_ok CC -> forall p t, mreach X k CC p t -> forall p' o, mreach X k CC p' o ->
  exists b, m_intersects_map X k (mt CC p) t o = Ok b /\ m_disjoint_map X k (mt CC p) t o = Ok (negb b) /\
    (b = true <-> mp_total p = true \/ exists x v, at_ X k CC o x = Some v /\ and_val CC p v (at_ X k CC t x) <> None).
Proof. exact thm_mint_map. Qed.
Theorem C55_intersects_set : forall X k, dom_ok X k -> forall CC, eq_ok CC -> forall p st t s, mreach X k CC p t -> reach X k st s ->
  proper CC p -> exists b, m_intersects_set X k (mt CC p) t s = Ok b /\ (b = true <-> exists x v, at_ X k CC t x = Some v /\ cmem X k s x).
Proof. exact thm_mint_set. Qed.
(** Finding: two maps that share keys are reported as disjoint if the combined values are
    the identity element and the map absorbs. *)
Theorem C55_shared_keys_disjoint_refuted : exists t u, let p := absorber MJoin in zreach p t /\ zreach p u /\
  segs Zdom Zco t = [sg 0 4 1] /\ segs Zdom Zco u = [sg 2 6 (-1)] /\ m_disjoint_map Zdom RO (mt Zco p) t u = Ok true.
Proof.
  let r := eval vm_compute in (zmap (absorber MJoin) [sg 0 4 1]) in match r with Ok ?t => exists t end.
  let r := eval vm_compute in (zmap (absorber MJoin) [sg 2 6 (-1)]) in match r with Ok ?t => exists t end.
  split; [apply (mbuild_reach Zdom RO Zco _ [sg 0 4 1]); vm_compute; reflexivity|].
  split; [apply (mbuild_reach Zdom RO Zco _ [sg 2 6 (-1)]); vm_compute; reflexivity|].
  repeat split; vm_compute; reflexivity.
Qed.

Example C55_ex : exists t, zreach (absorber MSplit) t /\ proper Zco (absorber MSplit) /\
  m_intersects_itv Zdom RO (mt Zco (absorber MSplit)) t (zi 4 6) = Ok false /\ m_intersects_seg Zdom RO (mt Zco (absorber MSplit)) t (zi 3 6) 4%Z = Ok true.
Proof. mbuilt Zco (absorber MSplit) [sg 0 2 1; sg 2 4 2; sg 6 8 1]. split; [apply Z_proper|]. split; vm_compute; reflexivity. Qed.

(* ------------------------------------------------------------------ C56 *)
Theorem C56_erase_if : forall X k, dom_ok X k -> forall CC, eq_ok CC -> forall p t, mreach X k CC p t -> forall q,
  exists t', m_erase_if X (mt CC p) q t = Ok t' /\ segs X CC t' = filter (fun s => negb (q (fst s) (snd s))) (segs X CC t).
Proof. exact thm_merase_if. Qed.
Theorem C56_absorb_identities : forall X k, dom_ok X k -> forall CC, eq_ok CC -> forall p t, mreach X k CC p t ->
  exists t', m_absorb_identities X (mt CC p) t = Ok t' /\
  forall x, at_ X k CC t' x = if mp_absorbs p then at_ X k CC t x else match at_ X k CC t x with Some v => if cc_eq v cc_zero then None else Some v | None => None end.
Proof. exact thm_mabsorb. Qed.

Example C56_ex : exists t, zreach (enricher MSplit) t /\
  exists t', m_absorb_identities Zdom (mt Zco (enricher MSplit)) t = Ok t' /\ segs Zdom Zco t' = [sg 0 2 1; sg 4 6 (-1)].
Proof. mbuilt Zco (enricher MSplit) [sg 0 4 1; sg 2 6 (-1)]. eexists; split; vm_compute; reflexivity. Qed.

(* ------------------------------------------------------------------ C57 *)
(** assignment between split_interval_map and interval_map, and join *)
Theorem C57_assign : forall X k, dom_ok X k -> forall CC, eq_ok CC -> forall p s o, mp_combine p <> F_minus -> proper CC p ->
  mreach X k CC (restyle p s) o ->
  exists t', m_assign X k (mt CC p) o = Ok t' /\ (forall x, at_ X k CC t' x = at_ X k CC o x) /\
  (mp_style p = MSplit -> segs X CC t' = segs X CC o) /\ (mp_style p = MJoin -> equal_joined X k CC t').
Proof.
  intros X k HX CC Hco p s o Hf P Ho. destruct (thm_massign X k HX CC Hco p s o Ho) as (t' & E & R & Q1 & Q2). exists t'. split; auto.
  split; [|split; [exact Q1|intros ES; apply Q2; exact ES]]. intros x. destruct (mp_style p) eqn:ES.
  - destruct (Q2 eq_refl) as [_ Q]. rewrite (Q P). assert (C : copy_val CC p (at_ X k CC o x) = copy_val CC (restyle p s) (at_ X k CC o x)) by reflexivity.
    rewrite C. apply (copy_plain X k HX CC Hco); auto.
  - unfold at_. rewrite (Q1 eq_refl). reflexivity.
Qed.
Theorem C57_join : forall X k, dom_ok X k -> forall CC, eq_ok CC -> forall p t, mreach X k CC p t ->
  exists t', join X k cc_eq t = Ok t' /\ equal_joined X k CC t' /\ forall x, at_ X k CC t' x = at_ X k CC t x.
Proof. exact thm_mjoin. Qed.
(** Finding: with inplace_minus, assigning a split_interval_map to an interval_map negates
    the values. *)
Theorem C57_assign_minus_refuted : exists t, zreach (with_ F_minus (absorber MSplit)) t /\ segs Zdom Zco t = [sg 0 4 (-3)] /\
  exists t', m_assign Zdom RO (mt Zco (with_ F_minus (absorber MJoin))) t = Ok t' /\ segs Zdom Zco t' = [sg 0 4 3].
Proof. mbuilt Zco (with_ F_minus (absorber MSplit)) [sg 0 4 3]. split; [reflexivity|]. eexists; split; vm_compute; reflexivity. Qed.

Example C57_ex : exists t, zreach (restyle (absorber MJoin) MSplit) t /\ segs Zdom Zco t = [sg 0 2 1; sg 2 4 1; sg 4 5 2] /\
  exists t', m_assign Zdom RO (mt Zco (absorber MJoin)) t = Ok t' /\ segs Zdom Zco t' = [sg 0 4 1; sg 4 5 2].
Proof. mbuilt Zco (restyle (absorber MJoin) MSplit) [sg 0 2 1; sg 2 4 1; sg 4 5 2]. split; [reflexivity|]. eexists; split; vm_compute; reflexivity. Qed.

(* ------------------------------------------------------------------ C58 *)
Theorem C58_cardinality : forall X k, dom_ok X k -> forall CC, eq_ok CC -> forall p t phi sub, integral X phi sub -> disc X = true ->
  mreach X k CC p t -> headroom X k t ->
  exists e, enumerates X (fun x => at_ X k CC t x <> None) e /\ c_cardinality X k sub t = Fin (Z.of_nat (List.length e)) /\
    c_size X k sub t = Fin (Z.of_nat (List.length e)) /\ c_length X k sub t = Z.of_nat (List.length e).
Proof. exact thm_mcardinality. Qed.
Theorem C58_cardinality_dense : forall X k, dom_ok X k -> forall CC, eq_ok CC -> forall p t sub, disc X = false -> dense_ok X ->
  mreach X k CC p t ->
  match c_cardinality X k sub t with
  | Fin z => exists e, enumerates X (fun x => at_ X k CC t x <> None) e /\ z = Z.of_nat (List.length e)
  | Infinite => forall n, exists l, NoDup l /\ List.length l = n /\ forall x, In x l -> at_ X k CC t x <> None
  end.
Proof. exact thm_mcardinality_dense. Qed.
Theorem C58_distance : forall X k, dom_ok X k -> forall CC, eq_ok CC -> forall p t phi sub, integral X phi sub -> disc X = true ->
  mreach X k CC p t ->
  exists e, enumerates X (fun x => at_ X k CC t x = None /\ (exists y, at_ X k CC t y <> None /\ lt y x) /\ (exists z, at_ X k CC t z <> None /\ lt x z)) e /\
    c_distance X k sub t = Z.of_nat (List.length e).
Proof. exact thm_mdistance. Qed.
Theorem C58_iterative_size : forall X k CC p t, mreach X k CC p t -> interval_count X t = List.length (segs X CC t).
Proof. intros X k CC p t _. unfold interval_count, segs. symmetry. apply map_length. Qed.
Theorem C58_hull : forall X k, dom_ok X k -> forall CC, eq_ok CC -> forall p t, mreach X k CC p t ->
  exists h, c_hull X k t = Ok h /\ forall x, mem X k h x <-> exists y z, at_ X k CC t y <> None /\ at_ X k CC t z <> None /\ le y x /\ le x z.
Proof. exact thm_mhull. Qed.
Theorem C58_first : forall X k, dom_ok X k -> forall CC, eq_ok CC -> forall p t, mreach X k CC p t -> has_first X k = true ->
  (exists x, at_ X k CC t x <> None) -> exists x, c_first X k t = Ok x /\ at_ X k CC t x <> None /\ forall y, at_ X k CC t y <> None -> le x y.
Proof. exact thm_mfirst. Qed.
Theorem C58_last : forall X k, dom_ok X k -> forall CC, eq_ok CC -> forall p t, mreach X k CC p t -> has_last X k = true ->
  (exists x, at_ X k CC t x <> None) -> exists x, c_last X k t = Ok x /\ at_ X k CC t x <> None /\ forall y, at_ X k CC t y <> None -> le y x.
Proof. exact thm_mlast. Qed.
Theorem C58_elements : forall X k, dom_ok X k -> forall CC, eq_ok CC -> forall p t phi sub plus minus, integral X phi sub -> disc X = true ->
  (forall x y z, phi y = (phi x + z)%Z -> plus x z = y) -> (forall x y z, phi y = (phi x - z)%Z -> minus x z = y) ->
  mreach X k CC p t -> headroom X k t ->
  exists w, StronglySorted (fun p q => lt (fst p) (fst q)) w /\ (forall x v, In (x, v) w <-> at_ X k CC t x = Some v) /\
    (exists fuel, e_walk X k sub plus fuel t (elements_begin X t) = Ok w) /\
    (exists fuel, e_walk_back X k sub plus fuel t (elements_end X t) = Ok (rev w)) /\
    (exists fuel, r_walk X k sub minus fuel t (elements_end X t) = Ok (rev w)).
Proof. exact thm_melements. Qed.

Example C58_ex : exists t, zreach (absorber MSplit) t /\ headroom Zdom RO t /\ c_cardinality Zdom RO Z.sub t = Fin 5%Z /\
  c_distance Zdom RO Z.sub t = 2%Z /\ c_hull Zdom RO t = Ok (zi 0 7) /\
  e_walk Zdom RO Z.sub Z.add 10 t (elements_begin Zdom t) = Ok [(0, 1); (1, 1); (2, 2); (3, 2); (6, 1)]%Z.
Proof.
  mbuilt Zco (absorber MSplit) [sg 0 2 1; sg 2 4 2; sg 6 7 1]. split. { intros a Ha Hc. discriminate. } repeat split; vm_compute; reflexivity.
Qed.

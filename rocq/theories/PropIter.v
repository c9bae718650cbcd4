(** Property theorems C67: output iterators into interval containers; additions to C64 (joiner,
    identity_absorber) and C66 (add_if on interval maps).  Reading guide: see PropSet.v, PropMap.v.
    [in_turn X k g l x o]: start with o and apply g v for every segment (a, v) of the list l
    whose interval a contains x, in the order of the list. *)
From Verif Require Import IterSpec IterModel IterThms MapSpec MapReach MapInst SetSpec Instances PropInterval PropSet PropMap.
From Verif Require Import MapModel.
From Coq Require Import ZArith.
Open Scope nat_scope.

(* ------------------------------------------------------------------ C67 *)
(** std::copy through icl::adder (or icl::inserter) into an interval set yields the union,
    whatever the order of the source and whatever valid iterator is given as the position *)
Theorem C67_adder_set : forall X k, dom_ok X k -> forall st t it l, reach X k st t -> hint_ok X t it ->
  exists t', s_copy_add X k st t it l = Ok t' /\ reach X k st t' /\
    forall x, cmem X k t' x <-> cmem X k t x \/ exists a, In a l /\ mem X k a x.
Proof. exact copy_add_ok. Qed.
(** through icl::adder into an interval map: every segment is added in turn *)
Theorem C67_adder_map : forall X k, dom_ok X k -> forall CC, eq_ok CC -> forall p t it l, proper CC p -> mreach X k CC p t -> mhint_ok X CC t it ->
  exists t', m_copy_add X k (mt CC p) t it l = Ok t' /\ mreach X k CC p t' /\
    forall x, at_ X k CC t' x = in_turn X k (add_val CC p) l x (at_ X k CC t x).
Proof. exact mcopy_add_ok. Qed.
(** through icl::inserter: every segment is inserted in turn *)
Theorem C67_inserter_map : forall X k, dom_ok X k -> forall CC, eq_ok CC -> forall p t it l, mreach X k CC p t -> mhint_ok X CC t it ->
  exists t', m_copy_insert X k (mt CC p) t it l = Ok t' /\ mreach X k CC p t' /\
    forall x, at_ X k CC t' x = in_turn X k (ins_val CC p) l x (at_ X k CC t x).
Proof. exact mcopy_ins_ok. Qed.
Example C67_ex : (exists t, zreach (absorber MJoin) t /\ proper Zco (absorber MJoin) /\ mhint_ok Zdom Zco t (begin_ t) /\
    (exists t', m_copy_add Zdom RO (mt Zco (absorber MJoin)) t (begin_ t) [sg 8 9 3; sg 0 6 2; sg 1 2 (-3)] = Ok t' /\
      segs Zdom Zco t' = [sg 0 1 3; sg 2 4 3; sg 4 6 2; sg 8 9 3]) /\
    (exists t', m_copy_insert Zdom RO (mt Zco (absorber MJoin)) t (begin_ t) [sg 8 9 3; sg 0 6 2; sg 1 2 (-3)] = Ok t' /\
      segs Zdom Zco t' = [sg 0 4 1; sg 4 6 2; sg 8 9 3])) /\
  (exists t, reach Zdom RO Splitting t /\ exists t', s_copy_add Zdom RO Splitting t (begin_ t) [zi 2 6; zi 8 9] = Ok t' /\
      keys Zdom t' = [zi 0 2; zi 2 4; zi 4 6; zi 8 9]).
Proof.
  split.
  - mbuilt Zco (absorber MJoin) [sg 0 4 1]. split; [apply Z_proper|]. split; [eexists; split; [left; reflexivity|reflexivity]|].
    split; eexists; split; vm_compute; reflexivity.
  - built Splitting [zi 0 4]. eexists. split; vm_compute; reflexivity.
Qed.

(* ------------------------------------------------------------------ C64, continued *)
(** segmental::joiner inserts a split container into a joining one *)
Theorem C64_joiner_set : forall X k, dom_ok X k -> forall st st' joint split, reach X k st joint -> reach X k st' split ->
  exists t', s_joiner X k st joint split = Ok t' /\ reach X k st t' /\ forall x, cmem X k t' x <-> cmem X k joint x \/ cmem X k split x.
Proof. exact sjoiner_ok. Qed.
Theorem C64_joiner_map : forall X k, dom_ok X k -> forall CC, eq_ok CC -> forall p p' joint split, mreach X k CC p joint -> mreach X k CC p' split ->
  exists t', m_joiner X k (mt CC p) joint split = Ok t' /\ mreach X k CC p t' /\ combined X k CC joint split t' (ins_val CC p).
Proof. exact joiner_ok. Qed.
(** segmental::identity_absorber inserts what an enricher maps to other values than the
    identity element *)
Theorem C64_identity_absorber : forall X k, dom_ok X k -> forall CC, eq_ok CC -> forall p p' absorber enricher,
  mreach X k CC p absorber -> mreach X k CC p' enricher ->
  exists t', m_identity_absorber X k (mt CC p) absorber enricher = Ok t' /\ mreach X k CC p t' /\
  forall x, at_ X k CC t' x = match at_ X k CC absorber x with Some v => Some v | None =>
    match at_ X k CC enricher x with Some v => if cc_eq v cc_zero then None else Some v | None => None end end.
Proof. exact identity_absorber_ok. Qed.
Example C64_joiner_ex : (exists s, zreach (absorber MSplit) s /\ segs Zdom Zco s = [sg 0 2 1; sg 2 4 1; sg 4 6 3] /\
    exists t', m_joiner Zdom RO (mt Zco (absorber MJoin)) t_empty s = Ok t' /\ segs Zdom Zco t' = [sg 0 4 1; sg 4 6 3]) /\
  (exists e, zreach (enricher MJoin) e /\ segs Zdom Zco e = [sg 0 2 1; sg 2 4 0; sg 4 6 3] /\
    exists t', m_identity_absorber Zdom RO (mt Zco (absorber MJoin)) t_empty e = Ok t' /\ segs Zdom Zco t' = [sg 0 2 1; sg 4 6 3]) /\
  (exists s, reach Zdom RO Splitting s /\ keys Zdom s = [zi 0 2; zi 2 4] /\
    exists t', s_joiner Zdom RO Joining t_empty s = Ok t' /\ keys Zdom t' = [zi 0 4]).
Proof.
  split; [mbuilt Zco (absorber MSplit) [sg 4 6 3; sg 0 2 1; sg 2 4 1]|split; [mbuilt Zco (enricher MJoin) [sg 4 6 3; sg 0 2 1; sg 2 4 0]|built Splitting [zi 0 2; zi 2 4]]];
    (split; [reflexivity|]; eexists; split; vm_compute; reflexivity).
Qed.

(* ------------------------------------------------------------------ C66, continued *)
(** add_if(predicate, object, source) on interval maps adds the source if all its segments
    satisfy the predicate ... *)
Theorem C66_add_if_interval_map_partial : forall X k, dom_ok X k -> forall CC, eq_ok CC -> forall p t o (pred : itv (D X) -> C CC -> bool) p',
  mreach X k CC p t -> mreach X k CC p' o -> (forall a v, In (a, v) (segs X CC o) -> pred a v = true) ->
  exists t', m_add_if X k (mt CC p) (S (length (nodes o))) pred t (nodes o) = Ok t' /\ mreach X k CC p t' /\ combined X k CC t o t' (add_val CC p).
Proof. exact madd_if_ok. Qed.
(** ... and finding: it never ends if one of them does not. *)
Theorem C66_add_if_interval_map_endless_refuted : forall X k, dom_ok X k -> forall CC, eq_ok CC -> forall p t (o : tree (D X) (C CC)) (pred : itv (D X) -> C CC -> bool),
  mreach X k CC p t -> (exists a v, In (a, v) (segs X CC o) /\ pred a v = false) ->
  forall fuel, m_add_if X k (mt CC p) fuel pred t (nodes o) = Err Fuel.
Proof. exact madd_if_endless. Qed.
Example C66_interval_map_ex : exists o, zreach (absorber MJoin) o /\ segs Zdom Zco o = [sg 0 2 1; sg 4 6 3] /\
  (forall a v, In (a, v) (segs Zdom Zco o) -> (0 <? v)%Z = true) /\
  exists t', m_add_if Zdom RO (mt Zco (absorber MJoin)) 3 (fun _ v => (0 <? v)%Z) t_empty (nodes o) = Ok t' /\ segs Zdom Zco t' = segs Zdom Zco o.
Proof.
  mbuilt Zco (absorber MJoin) [sg 4 6 3; sg 0 2 1]. split; [reflexivity|]. split.
  { intros a v [E|[E|[]]]; injection E as _ <-; reflexivity. }
  eexists. split; vm_compute; reflexivity.
Qed.

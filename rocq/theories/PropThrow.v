(** Property theorems C85 (a combiner that throws).
    Reading guide (ThrowModel.v, ThrowSpec.v, CrashMapSpec.v): [xm_add], [xm_subtract], ... are the operations
    with a bound n on the number of combinations of two values that still succeed; the next one throws and
    leaves the value it was to change as it was: [Fine n' r] is success with n' left, [Thrown t'] is an
    exception that leaves the map as t'.  [survives m r P]: if enough combinations succeed m does what the
    ordinary operation r does; otherwise it throws and leaves a map with P.
    [up_to_point t a g (fun o => o) t']: inside a, t' has the values of t changed by g up to some point, and the
    values of t behind it.  [same_outside t a t']: outside a nothing has changed.  [stable]: iterators to
    segments that do not meet a (nor touch it, in joining maps) are valid.
    [usable p t']: a split_interval_map left behind is again constructible, so that every theorem about
    constructible maps applies to it; an interval_map is after a call of icl::join.
    [identity_left t a t']: the only change is a new segment a with the identity element. *)
From Verif Require Import ThrowSpec ThrowThms MapReach MapInst SetProps SetSpec MapSpec Instances PropInterval PropSet PropMap.
From Coq Require Import ZArith Lia.
Open Scope nat_scope.

(* ------------------------------------------------------------------ C85 *)
Theorem C85_add : forall X k, dom_ok X k -> forall CC, eq_ok CC -> forall p t, mreach X k CC p t -> forall a v,
  survives (xm_add X k (mt CC p) t a v) (m_add X k (mt CC p) t a v)
    (fun t' => usable X k CC p t' /\ up_to_point X k CC t a (add_val CC p v) (fun o => o) t' /\ same_outside X k CC t a t' /\
               stable X k (joins p) a t t').
Proof. exact throw_add. Qed.
Theorem C85_subtract : forall X k, dom_ok X k -> forall CC, eq_ok CC -> forall p t, mreach X k CC p t -> forall a v,
  survives (xm_subtract X k (mt CC p) t a v) (m_subtract X k (mt CC p) t a v)
    (fun t' => usable X k CC p t' /\ up_to_point X k CC t a (sub_val CC p v) (fun o => o) t' /\ same_outside X k CC t a t' /\
               stable X k (joins p) a t t').
Proof. exact throw_subtract. Qed.
(** with a hint, the identity element may be left *)
Theorem C85_add_hint : forall X k, dom_ok X k -> forall CC, eq_ok CC -> forall p t, mreach X k CC p t -> forall h a v, mhint_ok X CC t h ->
  survives (xm_add_hint X k (mt CC p) t h a v) (m_add_hint X k (mt CC p) t h a v)
    (fun t' => ascending X k (map fst (segs X CC t')) /\ same_outside X k CC t a t' /\ stable X k (joins p) a t t' /\
       (usable X k CC p t' /\ up_to_point X k CC t a (add_val CC p v) (fun o => o) t' \/ identity_left X k CC t a t') /\
       (mp_absorbs p = false -> usable X k CC p t')).
Proof. exact throw_add_hint. Qed.
Theorem C85_add_map : forall X k, dom_ok X k -> forall CC, eq_ok CC -> forall p p' t o, mreach X k CC p t -> mreach X k CC p' o -> proper CC p ->
  survives (xm_add_map X k (mt CC p) t o) (m_add_map X k (mt CC p) t o)
    (fun t' => ascending X k (map fst (segs X CC t')) /\
       (usable X k CC p t' /\ old_or_new X k CC t o (add_val CC p) t' \/ old_new_identity X k CC t o (add_val CC p) t') /\
       (mp_absorbs p = false -> usable X k CC p t')).
Proof. exact throw_add_map. Qed.
Theorem C85_subtract_map : forall X k, dom_ok X k -> forall CC, eq_ok CC -> forall p p' t o, mreach X k CC p t -> mreach X k CC p' o ->
  survives (xm_subtract_map X k (mt CC p) t o) (m_subtract_map X k (mt CC p) t o)
    (fun t' => usable X k CC p t' /\ old_or_new X k CC t o (sub_val CC p) t').
Proof. exact throw_subtract_map. Qed.
(** intersection gives the strong guarantee *)
Theorem C85_and_itv : forall X k, dom_ok X k -> forall CC, eq_ok CC -> forall p t, mreach X k CC p t -> forall a,
  survives (xm_and_itv X k (mt CC p) t a) (m_and_itv X k (mt CC p) t a) (fun t' => t' = t).
Proof. exact throw_and_itv. Qed.
Theorem C85_and_seg : forall X k, dom_ok X k -> forall CC, eq_ok CC -> forall p t, mreach X k CC p t -> forall a v,
  survives (xm_and_seg X k (mt CC p) t a v) (m_and_seg X k (mt CC p) t a v) (fun t' => t' = t).
Proof. exact throw_and_seg. Qed.
Theorem C85_and_map : forall X k, dom_ok X k -> forall CC, eq_ok CC -> forall p t, mreach X k CC p t -> forall p' o, mreach X k CC p' o ->
  survives (xm_and_map X k (mt CC p) t o) (m_and_map X k (mt CC p) t o) (fun t' => t' = t).
Proof. exact throw_and_map. Qed.
Theorem C85_and_set : forall X k, dom_ok X k -> forall CC, eq_ok CC -> forall p t, mreach X k CC p t -> forall st o, reach X k st o ->
  survives (xm_and_set X k (mt CC p) t o) (m_and_set X k (mt CC p) t o) (fun t' => t' = t).
Proof. exact throw_and_set. Qed.

(** an addition that combines twice, interrupted at the first and at the second combination *)
Example C85_add_ex : exists t, zreach (absorber MJoin) t /\ segs Zdom Zco t = [sg 0 4 1; sg 6 8 2] /\
  (exists t', xm_add Zdom RO (mt Zco (absorber MJoin)) t (zi 2 7) 5%Z 0 = Thrown t' /\ segs Zdom Zco t' = [sg 0 2 1; sg 2 4 1; sg 6 8 2]) /\
  (exists t', xm_add Zdom RO (mt Zco (absorber MJoin)) t (zi 2 7) 5%Z 1 = Thrown t' /\ segs Zdom Zco t' = [sg 0 2 1; sg 2 4 6; sg 4 6 5; sg 6 7 2; sg 7 8 2]) /\
  (exists t', xm_add Zdom RO (mt Zco (absorber MJoin)) t (zi 2 7) 5%Z 2 = Fine 0 t' /\ segs Zdom Zco t' = [sg 0 2 1; sg 2 4 6; sg 4 6 5; sg 6 7 7; sg 7 8 2]).
Proof.
  mbuilt Zco (absorber MJoin) [sg 0 4 1; sg 6 8 2]. split; [reflexivity|]. split; [|split]; eexists; split; vm_compute; reflexivity.
Qed.
Example C85_other_ex : exists t, zreach (absorber MSplit) t /\ segs Zdom Zco t = [sg 0 4 1; sg 6 8 2] /\
  (exists t', xm_subtract Zdom RO (mt Zco (absorber MSplit)) t (zi 2 7) 5%Z 1 = Thrown t' /\ segs Zdom Zco t' = [sg 0 2 1; sg 2 4 (-4); sg 6 7 2; sg 7 8 2]) /\
  (exists t', xm_add_hint Zdom RO (mt Zco (absorber MSplit)) t None (zi 3 5) 5%Z 0 = Thrown t' /\ segs Zdom Zco t' = [sg 0 3 1; sg 3 4 1; sg 6 8 2]) /\
  (exists t', xm_add_hint Zdom RO (mt Zco (absorber MSplit)) t None (zi 4 5) 5%Z 0 = Thrown t' /\ segs Zdom Zco t' = [sg 0 4 1; sg 4 5 0; sg 6 8 2]) /\
  xm_and_itv Zdom RO (mt Zco (absorber MSplit)) t (zi 1 7) 1 = Thrown t /\
  xm_and_seg Zdom RO (mt Zco (absorber MSplit)) t (zi 1 7) 3%Z 1 = Thrown t.
Proof.
  mbuilt Zco (absorber MSplit) [sg 0 4 1; sg 6 8 2]. split; [reflexivity|].
  do 3 (split; [eexists; split; vm_compute; reflexivity|]). split; vm_compute; reflexivity.
Qed.
Example C85_map_ex : exists t, zreach (absorber MSplit) t /\ segs Zdom Zco t = [sg 0 4 1; sg 10 12 2] /\
  exists o, zreach (absorber MJoin) o /\ segs Zdom Zco o = [sg 1 2 1; sg 6 8 3; sg 11 22 4] /\
  (exists t', xm_add_map Zdom RO (mt Zco (absorber MSplit)) t o 1 = Thrown t' /\ segs Zdom Zco t' = [sg 0 1 1; sg 1 2 2; sg 2 4 1; sg 6 8 0; sg 10 12 2]) /\
  (exists t', xm_add_map Zdom RO (mt Zco (absorber MSplit)) t o 2 = Thrown t' /\ segs Zdom Zco t' = [sg 0 1 1; sg 1 2 2; sg 2 4 1; sg 6 8 3; sg 10 11 2; sg 11 12 2]) /\
  (exists t', xm_subtract_map Zdom RO (mt Zco (absorber MSplit)) t o 1 = Thrown t' /\ segs Zdom Zco t' = [sg 0 1 1; sg 2 4 1; sg 10 11 2; sg 11 12 2]) /\
  xm_and_map Zdom RO (mt Zco (absorber MSplit)) t o 1 = Thrown t.
Proof.
  mbuilt Zco (absorber MSplit) [sg 0 4 1; sg 10 12 2]. split; [reflexivity|]. mbuilt Zco (absorber MJoin) [sg 1 2 1; sg 6 8 3; sg 11 22 4]. split; [reflexivity|].
  do 3 (split; [eexists; split; vm_compute; reflexivity|]). vm_compute; reflexivity.
Qed.

(** That the map left behind can be used like any other is false of += with an identity-absorbing map: it may hold
    the identity element, which no sequence of other operations leaves (C33). *)
Theorem C85_usable_add_map_refuted : forall s, exists t, zreach (absorber s) t /\ segs Zdom Zco t = [sg 0 4 1] /\
  exists o, zreach (absorber s) o /\ segs Zdom Zco o = [sg 6 8 3] /\
  exists t', xm_add_map Zdom RO (mt Zco (absorber s)) t o 0 = Thrown t' /\ segs Zdom Zco t' = [sg 0 4 1; sg 6 8 0] /\
  ~ zreach (absorber s) t'.
Proof.
  intros s. assert (K : dom_ok Zdom RO) by (apply Zdom_ok; discriminate).
  destruct s.
  - mbuilt Zco (absorber MJoin) [sg 0 4 1]. split; [reflexivity|]. mbuilt Zco (absorber MJoin) [sg 6 8 3]. split; [reflexivity|].
    eexists. split; [vm_compute; reflexivity|]. split; [reflexivity|]. intros H.
    exact (C33_no_identity_stored Zdom RO K Zco Zco_ok (absorber MJoin) _ (zi 6 8) 0%Z H (Z_proper _ true false) eq_refl (or_intror (or_introl eq_refl)) eq_refl).
  - mbuilt Zco (absorber MSplit) [sg 0 4 1]. split; [reflexivity|]. mbuilt Zco (absorber MSplit) [sg 6 8 3]. split; [reflexivity|].
    eexists. split; [vm_compute; reflexivity|]. split; [reflexivity|]. intros H.
    exact (C33_no_identity_stored Zdom RO K Zco Zco_ok (absorber MSplit) _ (zi 6 8) 0%Z H (Z_proper _ true false) eq_refl (or_intror (or_introl eq_refl)) eq_refl).
Qed.

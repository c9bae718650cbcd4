(** Property theorems C74 (running out of memory in interval maps).
    Reading guide (CrashMapModel.v, CrashSpec.v, CrashMapSpec.v): [cm_add], [cm_subtract], ... are the
    operations with a bound n on the number of segments that can still be allocated: [Fine n' r] is success
    with n' left, [Thrown t'] is an exception that leaves the map as t'.  [survives m r P]: with enough memory
    m does what the ordinary operation r does, and with too little it throws and leaves a map with P.
    [up_to_point t a g g' t']: inside a, t' has the values of t changed by g up to some point and by g' behind it.
    [lost_around t a t']: outside a, only keys of segments that meet a may have lost their value.
    [usable p t']: a split_interval_map left behind is again constructible, so that every theorem about
    constructible maps applies to it; an interval_map is after a call of icl::join. *)
From Verif Require Import CrashMapSpec CrashMapThms MapReach MapInst SetProps SetSpec MapSpec Instances PropInterval PropSet PropMap.
From Coq Require Import ZArith Lia.
Open Scope nat_scope.

(* ------------------------------------------------------------------ C74 *)
Theorem C74_insert : forall X k, dom_ok X k -> forall CC, eq_ok CC -> forall p t, mreach X k CC p t -> forall a v,
  survives (cm_insert X k (mt CC p) t a v) (m_insert X k (mt CC p) t a v)
    (fun t' => mreach X k CC p t' /\ up_to_point X k CC t a (ins_val CC p v) (fun o => o) t' /\ same_outside X k CC t a t' /\
               stable X k (joins p) a t t').
Proof. exact crash_m_insert. Qed.
Theorem C74_insert_hint : forall X k, dom_ok X k -> forall CC, eq_ok CC -> forall p t, mreach X k CC p t -> forall h a v, mhint_ok X CC t h ->
  survives (cm_insert_hint X k (mt CC p) t h a v) (m_insert_hint X k (mt CC p) t h a v)
    (fun t' => mreach X k CC p t' /\ up_to_point X k CC t a (ins_val CC p v) (fun o => o) t' /\ same_outside X k CC t a t' /\
               stable X k (joins p) a t t').
Proof. exact crash_m_insert_hint. Qed.
Theorem C74_erase : forall X k, dom_ok X k -> forall CC, eq_ok CC -> forall p t, mreach X k CC p t -> forall a,
  survives (cm_erase X k (mt CC p) t a) (m_erase X k (mt CC p) t a)
    (fun t' => mreach X k CC p t' /\ (forall x, mem X k a x -> at_ X k CC t' x = None) /\ lost_around X k CC t a t' /\
               stable X k false a t t').
Proof. exact crash_m_erase. Qed.
Theorem C74_erase_seg : forall X k, dom_ok X k -> forall CC, eq_ok CC -> forall p t, mreach X k CC p t -> forall a v,
  survives (cm_erase_seg X k (mt CC p) t a v) (m_erase_seg X k (mt CC p) t a v)
    (fun t' => mreach X k CC p t' /\ (forall x, mem X k a x -> at_ X k CC t' x = erase_val CC v (at_ X k CC t x)) /\
               lost_around X k CC t a t' /\ stable X k false a t t').
Proof. exact crash_m_erase_seg. Qed.
Theorem C74_set : forall X k, dom_ok X k -> forall CC, eq_ok CC -> forall p t a v, mreach X k CC p t ->
  survives (cm_set X k (mt CC p) t a v) (m_set X k (mt CC p) t a v)
    (fun t' => mreach X k CC p t' /\ up_to_point X k CC t a (put_val CC p v) (fun _ => None) t' /\ lost_around X k CC t a t').
Proof. exact crash_m_set. Qed.
Theorem C74_add : forall X k, dom_ok X k -> forall CC, eq_ok CC -> forall p t, mreach X k CC p t -> forall a v,
  survives (cm_add X k (mt CC p) t a v) (m_add X k (mt CC p) t a v)
    (fun t' => usable X k CC p t' /\ up_to_point X k CC t a (add_val CC p v) (fun o => o) t' /\ lost_around X k CC t a t' /\
               stable X k (joins p) a t t').
Proof. exact crash_m_add. Qed.
Theorem C74_add_hint : forall X k, dom_ok X k -> forall CC, eq_ok CC -> forall p t, mreach X k CC p t -> forall h a v, mhint_ok X CC t h ->
  survives (cm_add_hint X k (mt CC p) t h a v) (m_add_hint X k (mt CC p) t h a v)
    (fun t' => usable X k CC p t' /\ up_to_point X k CC t a (add_val CC p v) (fun o => o) t' /\ lost_around X k CC t a t' /\
               stable X k (joins p) a t t').
Proof. exact crash_m_add_hint. Qed.
Theorem C74_subtract : forall X k, dom_ok X k -> forall CC, eq_ok CC -> forall p t, mreach X k CC p t -> forall a v,
  survives (cm_subtract X k (mt CC p) t a v) (m_subtract X k (mt CC p) t a v)
    (fun t' => usable X k CC p t' /\ up_to_point X k CC t a (sub_val CC p v) (fun o => o) t' /\ lost_around X k CC t a t' /\
               stable X k (joins p) a t t').
Proof. exact crash_m_subtract. Qed.
Theorem C74_add_map : forall X k, dom_ok X k -> forall CC, eq_ok CC -> forall p p' t o, mreach X k CC p t -> mreach X k CC p' o -> proper CC p ->
  survives (cm_add_map X k (mt CC p) t o) (m_add_map X k (mt CC p) t o)
    (fun t' => usable X k CC p t' /\ old_new_none X k CC t o (add_val CC p) t').
Proof. exact crash_add_map. Qed.
Theorem C74_insert_map : forall X k, dom_ok X k -> forall CC, eq_ok CC -> forall p p' t o, mreach X k CC p t -> mreach X k CC p' o ->
  survives (cm_insert_map X k (mt CC p) t o) (m_insert_map X k (mt CC p) t o)
    (fun t' => mreach X k CC p t' /\
       forall x, at_ X k CC t' x = at_ X k CC t x \/ exists w, at_ X k CC o x = Some w /\ at_ X k CC t' x = ins_val CC p w (at_ X k CC t x)).
Proof. exact crash_insert_map. Qed.
Theorem C74_subtract_map : forall X k, dom_ok X k -> forall CC, eq_ok CC -> forall p p' t o, mreach X k CC p t -> mreach X k CC p' o ->
  survives (cm_subtract_map X k (mt CC p) t o) (m_subtract_map X k (mt CC p) t o)
    (fun t' => usable X k CC p t' /\ old_new_none X k CC t o (sub_val CC p) t').
Proof. exact crash_subtract_map. Qed.
Theorem C74_erase_map : forall X k, dom_ok X k -> forall CC, eq_ok CC -> forall p p' t o, mreach X k CC p t -> mreach X k CC p' o ->
  survives (cm_erase_map X k (mt CC p) t o) (m_erase_map X k (mt CC p) t o)
    (fun t' => mreach X k CC p t' /\ forall x, at_ X k CC t' x = at_ X k CC t x \/ at_ X k CC t' x = None).
Proof. exact crash_erase_map. Qed.
Theorem C74_erase_set : forall X k, dom_ok X k -> forall CC, eq_ok CC -> forall p st t o, mreach X k CC p t -> reach X k st o ->
  survives (cm_erase_set X k (mt CC p) t o) (m_erase_set X k (mt CC p) t o)
    (fun t' => mreach X k CC p t' /\ forall x, at_ X k CC t' x = at_ X k CC t x \/ at_ X k CC t' x = None).
Proof. exact crash_erase_set. Qed.
(** intersection gives the strong guarantee *)
Theorem C74_and_itv : forall X k, dom_ok X k -> forall CC, eq_ok CC -> forall p t, mreach X k CC p t -> forall a,
  survives (cm_and_itv X k (mt CC p) t a) (m_and_itv X k (mt CC p) t a) (fun t' => t' = t).
Proof. exact crash_m_and_itv. Qed.
Theorem C74_and_seg : forall X k, dom_ok X k -> forall CC, eq_ok CC -> forall p t, mreach X k CC p t -> forall a v,
  survives (cm_and_seg X k (mt CC p) t a v) (m_and_seg X k (mt CC p) t a v) (fun t' => t' = t).
Proof. exact crash_m_and_seg. Qed.
Theorem C74_and_map : forall X k, dom_ok X k -> forall CC, eq_ok CC -> forall p t, mreach X k CC p t -> forall p' o, mreach X k CC p' o ->
  survives (cm_and_map X k (mt CC p) t o) (m_and_map X k (mt CC p) t o) (fun t' => t' = t).
Proof. exact crash_m_and_map. Qed.
Theorem C74_and_set : forall X k, dom_ok X k -> forall CC, eq_ok CC -> forall p t, mreach X k CC p t -> forall st o, reach X k st o ->
  survives (cm_and_set X k (mt CC p) t o) (m_and_set X k (mt CC p) t o) (fun t' => t' = t).
Proof. exact crash_m_and_set. Qed.

(** an addition that needs four segments, interrupted after each smaller number *)
Example C74_add_ex : exists t, zreach (absorber MJoin) t /\ segs Zdom Zco t = [sg 0 4 1; sg 6 8 2] /\
  (exists t', cm_add Zdom RO (mt Zco (absorber MJoin)) t (zi 2 7) 5%Z 0 = Thrown t' /\ segs Zdom Zco t' = [sg 2 4 1; sg 6 8 2]) /\
  (exists t', cm_add Zdom RO (mt Zco (absorber MJoin)) t (zi 2 7) 5%Z 1 = Thrown t' /\ segs Zdom Zco t' = [sg 0 2 1; sg 2 4 6; sg 6 8 2]) /\
  (exists t', cm_add Zdom RO (mt Zco (absorber MJoin)) t (zi 2 7) 5%Z 2 = Thrown t' /\ segs Zdom Zco t' = [sg 0 2 1; sg 2 4 6; sg 4 6 5; sg 6 7 2]) /\
  (exists t', cm_add Zdom RO (mt Zco (absorber MJoin)) t (zi 2 7) 5%Z 3 = Fine 0 t' /\ segs Zdom Zco t' = [sg 0 2 1; sg 2 4 6; sg 4 6 5; sg 6 7 7; sg 7 8 2]).
Proof.
  mbuilt Zco (absorber MJoin) [sg 0 4 1; sg 6 8 2]. split; [reflexivity|]. split; [|split; [|split]]; eexists; split; vm_compute; reflexivity.
Qed.
Example C74_other_ex : exists t, zreach (absorber MSplit) t /\ segs Zdom Zco t = [sg 0 4 1; sg 6 8 2] /\
  (exists t', cm_insert Zdom RO (mt Zco (absorber MSplit)) t (zi 3 9) 5%Z 1 = Thrown t' /\ segs Zdom Zco t' = [sg 0 4 1; sg 4 6 5; sg 6 8 2]) /\
  (exists t', cm_erase Zdom RO (mt Zco (absorber MSplit)) t (zi 1 2) 0 = Thrown t' /\ segs Zdom Zco t' = [sg 0 1 1; sg 6 8 2]) /\
  (exists t', cm_erase_seg Zdom RO (mt Zco (absorber MSplit)) t (zi 1 2) 1%Z 0 = Thrown t' /\ segs Zdom Zco t' = [sg 0 1 1; sg 6 8 2]) /\
  (exists t', cm_set Zdom RO (mt Zco (absorber MSplit)) t (zi 1 2) 7%Z 1 = Thrown t' /\ segs Zdom Zco t' = [sg 0 1 1; sg 2 4 1; sg 6 8 2]) /\
  (exists t', cm_subtract Zdom RO (mt Zco (absorber MSplit)) t (zi 1 2) 1%Z 1 = Thrown t' /\ segs Zdom Zco t' = [sg 0 1 1; sg 1 2 1; sg 6 8 2]) /\
  cm_and_itv Zdom RO (mt Zco (absorber MSplit)) t (zi 1 7) 1 = Thrown t /\
  cm_and_seg Zdom RO (mt Zco (absorber MSplit)) t (zi 1 7) 3%Z 1 = Thrown t.
Proof.
  mbuilt Zco (absorber MSplit) [sg 0 4 1; sg 6 8 2]. split; [reflexivity|].
  do 5 (split; [eexists; split; vm_compute; reflexivity|]). split; vm_compute; reflexivity.
Qed.
Example C74_map_ex : exists t, zreach (absorber MSplit) t /\ segs Zdom Zco t = [sg 0 4 1; sg 10 12 2] /\
  exists o, zreach (absorber MJoin) o /\ segs Zdom Zco o = [sg 1 2 1; sg 6 8 3; sg 20 22 4] /\
  (exists t', cm_add_map Zdom RO (mt Zco (absorber MSplit)) t o 3 = Thrown t' /\ segs Zdom Zco t' = [sg 0 1 1; sg 1 2 2; sg 2 4 1; sg 6 8 3; sg 10 12 2]) /\
  (exists t', cm_insert_map Zdom RO (mt Zco (absorber MSplit)) t o 1 = Thrown t' /\ segs Zdom Zco t' = [sg 0 4 1; sg 6 8 3; sg 10 12 2]) /\
  (exists t', cm_subtract_map Zdom RO (mt Zco (absorber MSplit)) t o 1 = Thrown t' /\ segs Zdom Zco t' = [sg 0 1 1; sg 1 2 1; sg 10 12 2]) /\
  (exists t', cm_erase_map Zdom RO (mt Zco (absorber MSplit)) t o 0 = Thrown t' /\ segs Zdom Zco t' = [sg 0 1 1; sg 10 12 2]) /\
  cm_and_map Zdom RO (mt Zco (absorber MSplit)) t o 0 = Thrown t.
Proof.
  mbuilt Zco (absorber MSplit) [sg 0 4 1; sg 10 12 2]. split; [reflexivity|]. mbuilt Zco (absorber MJoin) [sg 1 2 1; sg 6 8 3; sg 20 22 4]. split; [reflexivity|].
  do 4 (split; [eexists; split; vm_compute; reflexivity|]). vm_compute; reflexivity.
Qed.
Example C74_proper_ex : proper Zco (absorber MSplit) /\ proper Zco (absorber MJoin).
Proof. split; apply Z_proper. Qed.

(** Addition to interval maps does not give the strong exception guarantee: keys outside the argument may
    lose their values. *)
Theorem C74_strong_add_refuted : forall s, exists t, zreach (absorber s) t /\ segs Zdom Zco t = [sg 0 10 1] /\
  exists t', cm_add Zdom RO (mt Zco (absorber s)) t (zi 2 4) 1%Z 0 = Thrown t' /\ segs Zdom Zco t' = [sg 2 10 1].
Proof.
  intros s. destruct s.
  - mbuilt Zco (absorber MJoin) [sg 0 10 1]. split; [reflexivity|]. eexists. split; vm_compute; reflexivity.
  - mbuilt Zco (absorber MSplit) [sg 0 10 1]. split; [reflexivity|]. eexists. split; vm_compute; reflexivity.
Qed.
(** An interval_map that was left by an exception need not be joined: it may hold touching segments with equal
    values, which no sequence of successful operations leaves (C32). *)
Theorem C74_joined_refuted : exists t, zreach (absorber MJoin) t /\ segs Zdom Zco t = [sg 0 10 1] /\
  exists t', cm_add Zdom RO (mt Zco (absorber MJoin)) t (zi 2 4) 1%Z 1 = Thrown t' /\ segs Zdom Zco t' = [sg 0 2 1; sg 2 4 1] /\
  ~ zreach (absorber MJoin) t'.
Proof.
  mbuilt Zco (absorber MJoin) [sg 0 10 1]. split; [reflexivity|]. eexists. split; [vm_compute; reflexivity|]. split; [reflexivity|].
  intros H. assert (K : dom_ok Zdom RO) by (apply Zdom_ok; discriminate).
  exact (C32_no_equal_neighbours_touch Zdom RO K Zco Zco_ok (absorber MJoin) _ eq_refl H [] (zi 0 2) 1%Z (zi 2 4) 1%Z [] eq_refl eq_refl eq_refl).
Qed.

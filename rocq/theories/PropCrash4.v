(** Property theorems C82 (running out of memory in symmetric differences of interval maps).
    Reading guide: see PropCrash2.v; [cm_flip_seg], [cm_flip_elem], [cm_flip_map] are the operations of
    MapModel.v with a bound on the number of segments that can still be allocated (CrashFlipMapModel.v).
    [stable X k joining a t t'] (StableSpec.v): every iterator to a segment out of reach of a still shows the
    same segment, so that no such segment is lost or changed; [stable_all X k joining l t t']
    (StableAllSpec.v): the same for segments out of reach of every interval in l. *)
From Verif Require Import CrashFlipMap PropCrash MapReach MapInst SetProps SetSpec MapSpec Instances PropInterval PropSet PropMap PropStable.
From Coq Require Import ZArith Lia.
Open Scope nat_scope.

(* ------------------------------------------------------------------ C82 *)
(** t ^= (a, v), partial maps *)
Theorem C82_flip : forall X k, dom_ok X k -> forall CC, eq_ok CC -> forall p t a v, mp_total p = false -> proper CC p ->
  mreach X k CC p t -> (exists x, mem X k a x) ->
  survives (cm_flip_seg X k (mt CC p) t a v) (m_flip_seg X k (mt CC p) t a v)
    (fun t' => usable X k CC p t' /\ stable X k (joins p) a t t' /\
       forall x, at_ X k CC t' x = at_ X k CC t x \/
                 (mem X k a x /\ at_ X k CC t' x = flip_val CC p v (at_ X k CC t x)) \/
                 at_ X k CC t' x = None).
Proof. exact crash_mflip. Qed.
(** t ^= (x, v), partial maps *)
Theorem C82_flip_elem : forall X k, dom_ok X k -> forall CC, eq_ok CC -> forall p t x v, mp_total p = false -> proper CC p ->
  mreach X k CC p t -> storable X k x ->
  survives (cm_flip_elem X k (mt CC p) t x v) (m_flip_elem X k (mt CC p) t x v)
    (fun t' => usable X k CC p t' /\ stable X k (joins p) (singleton X k x) t t' /\
       forall z, at_ X k CC t' z = at_ X k CC t z \/
                 (z = x /\ at_ X k CC t' z = flip_val CC p v (at_ X k CC t x)) \/
                 at_ X k CC t' z = None).
Proof. exact crash_mflip_elem. Qed.
(** t ^= o, partial maps *)
Theorem C82_flip_map : forall X k, dom_ok X k -> forall CC, eq_ok CC -> forall p p' t o, mp_total p = false -> proper CC p ->
  mreach X k CC p t -> mreach X k CC p' o ->
  survives (cm_flip_map X k (mt CC p) t o) (m_flip_map X k (mt CC p) t o)
    (fun t' => usable X k CC p t' /\ stable_all X k (joins p) (keys X o) t t' /\ old_new_none X k CC t o (flip_val CC p) t').
Proof. exact crash_mflip_map. Qed.
(** total maps that store neutral values: what was being added when memory ran out *)
Theorem C82_flip_enricher : forall X k, dom_ok X k -> forall CC, eq_ok CC -> forall p t a v, mp_total p = true -> mp_absorbs p = false ->
  mreach X k CC p t ->
  survives (cm_flip_seg X k (mt CC p) t a v) (m_flip_seg X k (mt CC p) t a v)
    (fun t' => usable X k CC p t' /\ stable X k (joins p) a t t' /\
       forall x, at_ X k CC t' x = at_ X k CC t x \/
                 (mem X k a x /\ at_ X k CC t' x = add_val CC p v (at_ X k CC t x)) \/
                 at_ X k CC t' x = None).
Proof. exact crash_mflip_enricher. Qed.
Theorem C82_flip_map_enricher : forall X k, dom_ok X k -> forall CC, eq_ok CC -> forall p p' t o, mp_total p = true -> mp_absorbs p = false ->
  proper CC p -> mreach X k CC p t -> mreach X k CC p' o ->
  survives (cm_flip_map X k (mt CC p) t o) (m_flip_map X k (mt CC p) t o)
    (fun t' => usable X k CC p t' /\ stable_all X k (joins p) (keys X o) t t' /\ old_new_none X k CC t o (add_val CC p) t').
Proof. exact crash_mflip_map_enricher. Qed.
(** total maps that absorb neutral values: nothing is allocated and nothing can fail *)
Theorem C82_flip_total_absorber : forall X k, dom_ok X k -> forall CC, eq_ok CC -> forall p t a v, mp_total p = true -> mp_absorbs p = true ->
  survives (cm_flip_seg X k (mt CC p) t a v) (m_flip_seg X k (mt CC p) t a v) (fun _ => False).
Proof. intros X k _ CC _. exact (crash_mflip_absorber X k CC). Qed.
Theorem C82_flip_map_total_absorber : forall X k, dom_ok X k -> forall CC, eq_ok CC -> forall p t o, mp_total p = true -> mp_absorbs p = true ->
  survives (cm_flip_map X k (mt CC p) t o) (m_flip_map X k (mt CC p) t o) (fun _ => False).
Proof. intros X k _ CC _. exact (crash_mflip_map_absorber X k CC). Qed.

(** the allocations of a flip: 0 to 2 fail in local variables, 3 when the last gap is filled *)
Example C82_flip_ex : exists t, zreach (absorber MJoin) t /\ segs Zdom Zco t = [sg 0 4 1; sg 6 8 1; sg 20 21 1] /\ proper Zco (absorber MJoin) /\ mem Zdom RO (zi 2 10) 2%Z /\
  cm_flip_seg Zdom RO (mt Zco (absorber MJoin)) t (zi 2 10) 5%Z 2 = Thrown t /\
  (exists t', cm_flip_seg Zdom RO (mt Zco (absorber MJoin)) t (zi 2 10) 5%Z 3 = Thrown t' /\ segs Zdom Zco t' = [sg 0 4 1; sg 4 6 5; sg 6 8 1; sg 20 21 1]) /\
  (exists t', cm_flip_seg Zdom RO (mt Zco (absorber MJoin)) t (zi 2 10) 5%Z 4 = Fine 0 t' /\ segs Zdom Zco t' = [sg 0 2 1; sg 4 6 5; sg 8 10 5; sg 20 21 1]).
Proof.
  mbuilt Zco (absorber MJoin) [sg 0 4 1; sg 6 8 1; sg 20 21 1]. split; [reflexivity|]. split; [apply Z_proper|]. split; [unfold mem, lt, le; cbn; lia|].
  split; [vm_compute; reflexivity|]. split; eexists; split; vm_compute; reflexivity.
Qed.
Example C82_elem_ex : exists t, zreach (absorber MJoin) t /\ segs Zdom Zco t = [sg 0 4 1; sg 6 8 1] /\ storable Zdom RO 2%Z /\
  (exists t', cm_flip_elem Zdom RO (mt Zco (absorber MJoin)) t 2%Z 5%Z 1 = Thrown t' /\ segs Zdom Zco t' = [sg 0 2 1; sg 6 8 1]).
Proof.
  mbuilt Zco (absorber MJoin) [sg 0 4 1; sg 6 8 1]. split; [reflexivity|]. split; [split; [split; cbn; auto; exists 3%Z; reflexivity|right; reflexivity]|].
  eexists; split; vm_compute; reflexivity.
Qed.
Example C82_map_ex : exists t, zreach (absorber MJoin) t /\ segs Zdom Zco t = [sg 0 2 1; sg 4 6 1; sg 6 8 3] /\
  exists o, zreach (absorber MJoin) o /\ segs Zdom Zco o = [sg 2 4 1; sg 5 6 1; sg 10 12 4] /\
  (exists t', cm_flip_map Zdom RO (mt Zco (absorber MJoin)) t o 1 = Thrown t' /\ segs Zdom Zco t' = [sg 0 6 1; sg 6 8 3]) /\
  (exists t', cm_flip_map Zdom RO (mt Zco (absorber MJoin)) t o 2 = Thrown t' /\ segs Zdom Zco t' = [sg 0 5 1; sg 6 8 3]).
Proof.
  mbuilt Zco (absorber MJoin) [sg 0 2 1; sg 4 6 1; sg 6 8 3]. split; [reflexivity|]. mbuilt Zco (absorber MJoin) [sg 2 4 1; sg 5 6 1; sg 10 12 4]. split; [reflexivity|].
  split; eexists; split; vm_compute; reflexivity.
Qed.
Example C82_enricher_ex : exists t, zreach (tenricher MSplit) t /\ segs Zdom Zco t = [sg 0 4 1] /\
  (exists t', cm_flip_seg Zdom RO (mt Zco (tenricher MSplit)) t (zi 2 6) 5%Z 1 = Thrown t' /\ segs Zdom Zco t' = [sg 0 2 1; sg 2 4 6]).
Proof.
  mbuilt Zco (tenricher MSplit) [sg 0 4 1]. split; [reflexivity|]. eexists; split; vm_compute; reflexivity.
Qed.

(** In an interval_map t ^= (a, v) can lose a segment of t that shares no key with a: filling a gap joins it
    with a segment that is lost when the common part is erased.  So [stable] cannot be asked for segments
    that touch a. *)
Theorem C82_neighbour_refuted : exists t t' : tree Z Z, zreach (absorber MJoin) t /\ segs Zdom Zco t = [sg 4 6 1; sg 8 10 1] /\
  ~ meets Zdom RO (zi 8 10) (zi 5 8) /\
  cm_flip_seg Zdom RO (mt Zco (absorber MJoin)) t (zi 5 8) 1%Z 2 = Thrown t' /\ segs Zdom Zco t' = [sg 4 5 1].
Proof.
  destruct (mbuild Zdom RO Zco (absorber MJoin) [sg 4 6 1; sg 8 10 1]) as [t|] eqn:B; [|discriminate B]. pose proof (mbuild_reach Zdom RO Zco (absorber MJoin) _ _ B) as R. vm_compute in B. injection B as B. subst t.
  eexists _, _. split; [exact R|]. split; [reflexivity|]. split; [intros (x & M1 & M2); unfold mem, lt, le in *; cbn in *; lia|]. split; vm_compute; reflexivity.
Qed.

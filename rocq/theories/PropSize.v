(** C78: how many segments an operation can add.  [interval_count X t] is the number of segments;
    [ms] is any list that contains every segment of [t] with an element in common with [a], so
    [length ms] can be taken to be the number of segments the operand overlaps. *)
From Verif Require Import LookSpec SizeThms SizeAnd SizeFlip MapThms MapReach MapInst SetProps SetSpec MapSpec Instances PropInterval PropSet PropMap.
From Verif Require Import MapModel.
From Coq Require Import ZArith Lia.
Open Scope nat_scope.

Theorem C78_set_add : forall X k, dom_ok X k -> forall st t a, reach X k st t ->
  exists t' it, s_add X k st t a = Ok (t', it) /\
  (st <> Splitting -> interval_count X t' <= interval_count X t + 1) /\
  forall ms, (forall b, In b (keys X t) -> meets X k b a -> In b ms) -> interval_count X t' <= interval_count X t + length ms + 1.
Proof. exact size_add. Qed.
Theorem C78_set_add_hint : forall X k, dom_ok X k -> forall st t h a, reach X k st t -> hint_ok X t h ->
  exists t' it, s_add_hint X k st t h a = Ok (t', it) /\
  (st <> Splitting -> interval_count X t' <= interval_count X t + 1) /\
  forall ms, (forall b, In b (keys X t) -> meets X k b a -> In b ms) -> interval_count X t' <= interval_count X t + length ms + 1.
Proof. exact size_add_hint. Qed.
Theorem C78_set_subtract : forall X k, dom_ok X k -> forall st t a, reach X k st t ->
  exists t', s_subtract X k t a = Ok t' /\ interval_count X t' <= interval_count X t + 1.
Proof. exact size_subtract. Qed.
Theorem C78_set_flip : forall X k, dom_ok X k -> forall st t a, reach X k st t -> (exists x, mem X k a x) ->
  exists t', s_flip_seg X k st t a = Ok t' /\
  forall ms, (forall b, In b (keys X t) -> meets X k b a -> In b ms) -> interval_count X t' <= interval_count X t + length ms + 1.
Proof. exact size_flip. Qed.
Theorem C78_set_plus : forall X k, dom_ok X k -> forall st st' t o, reach X k st t -> reach X k st' o ->
  exists t', s_add_set X k st t o = Ok t' /\
  (st <> Splitting -> interval_count X t' <= interval_count X t + interval_count X o) /\
  interval_count X t' <= 2 * interval_count X t + 2 * interval_count X o.
Proof. exact size_add_set. Qed.
Theorem C78_set_insert : forall X k, dom_ok X k -> forall st st' t o, reach X k st t -> reach X k st' o ->
  exists t', s_insert_set X k st t o = Ok t' /\
  (st <> Splitting -> interval_count X t' <= interval_count X t + interval_count X o) /\
  interval_count X t' <= 2 * interval_count X t + 2 * interval_count X o.
Proof. exact size_insert_set. Qed.
Theorem C78_set_minus : forall X k, dom_ok X k -> forall st st' t o, reach X k st t -> reach X k st' o ->
  exists t', s_subtract_set X k t o = Ok t' /\ interval_count X t' <= interval_count X t + interval_count X o.
Proof. exact size_subtract_set. Qed.
Theorem C78_set_and : forall X k, dom_ok X k -> forall st st1 st2 t o, reach X k st1 t -> reach X k st2 o ->
  exists t', s_and_set X k st t o = Ok t' /\ interval_count X t' <= interval_count X t + interval_count X o.
Proof. exact size_and_set. Qed.
Theorem C78_set_xor : forall X k, dom_ok X k -> forall st st' t o, reach X k st t -> reach X k st' o ->
  exists t', s_flip_set X k st t o = Ok t' /\ interval_count X t' <= 2 * interval_count X t + 2 * interval_count X o.
Proof. exact size_flip_set. Qed.

Theorem C78_map_add : forall X k, dom_ok X k -> forall CC, eq_ok CC -> forall p t, mreach X k CC p t -> forall a v,
  exists t', m_add X k (mt CC p) t a v = Ok t' /\
  forall ms, (forall b, In b (keys X t) -> meets X k b a -> In b ms) -> interval_count X t' <= interval_count X t + length ms + 1.
Proof. exact msize_add. Qed.
Theorem C78_map_add_hint : forall X k, dom_ok X k -> forall CC, eq_ok CC -> forall p t, mreach X k CC p t -> forall h a v, mhint_ok X CC t h ->
  exists t' it, m_add_hint X k (mt CC p) t h a v = Ok (t', it) /\
  forall ms, (forall b, In b (keys X t) -> meets X k b a -> In b ms) -> interval_count X t' <= interval_count X t + length ms + 1.
Proof. exact msize_add_hint. Qed.
Theorem C78_map_insert : forall X k, dom_ok X k -> forall CC, eq_ok CC -> forall p t, mreach X k CC p t -> forall a v,
  exists t', m_insert X k (mt CC p) t a v = Ok t' /\
  forall ms, (forall b, In b (keys X t) -> meets X k b a -> In b ms) -> interval_count X t' <= interval_count X t + length ms + 1.
Proof. exact msize_insert. Qed.
Theorem C78_map_insert_hint : forall X k, dom_ok X k -> forall CC, eq_ok CC -> forall p t, mreach X k CC p t -> forall h a v, mhint_ok X CC t h ->
  exists t' it, m_insert_hint X k (mt CC p) t h a v = Ok (t', it) /\
  forall ms, (forall b, In b (keys X t) -> meets X k b a -> In b ms) -> interval_count X t' <= interval_count X t + length ms + 1.
Proof. exact msize_insert_hint. Qed.
(** subtracting adds at most two, unless the map is total and subtraction is addition of the inverse *)
Theorem C78_map_subtract : forall X k, dom_ok X k -> forall CC, eq_ok CC -> forall p t, mreach X k CC p t -> forall a v,
  exists t', m_subtract X k (mt CC p) t a v = Ok t' /\
  (forall ms, (forall b, In b (keys X t) -> meets X k b a -> In b ms) -> interval_count X t' <= interval_count X t + length ms + 1) /\
  (is_total_invertible (mt CC p) = false -> interval_count X t' <= interval_count X t + 2).
Proof. exact msize_subtract. Qed.
Theorem C78_map_erase : forall X k, dom_ok X k -> forall CC, eq_ok CC -> forall p t, mreach X k CC p t -> forall a,
  exists t', m_erase X k (mt CC p) t a = Ok t' /\ interval_count X t' <= interval_count X t + 1.
Proof. exact msize_erase. Qed.
Theorem C78_map_erase_seg : forall X k, dom_ok X k -> forall CC, eq_ok CC -> forall p t, mreach X k CC p t -> forall a v,
  exists t', m_erase_seg X k (mt CC p) t a v = Ok t' /\ interval_count X t' <= interval_count X t + 1.
Proof. exact msize_erase_seg. Qed.
Theorem C78_map_set : forall X k, dom_ok X k -> forall CC, eq_ok CC -> forall p t, mreach X k CC p t -> forall a v,
  exists t', m_set X k (mt CC p) t a v = Ok t' /\ interval_count X t' <= interval_count X t + 2.
Proof. exact msize_set. Qed.
Theorem C78_map_plus : forall X k, dom_ok X k -> forall CC, eq_ok CC -> forall p p' t o, mreach X k CC p t -> mreach X k CC p' o ->
  exists t', m_add_map X k (mt CC p) t o = Ok t' /\ interval_count X t' <= 2 * interval_count X t + 2 * interval_count X o.
Proof. exact msize_add_map. Qed.
Theorem C78_map_insert_map : forall X k, dom_ok X k -> forall CC, eq_ok CC -> forall p p' t o, mreach X k CC p t -> mreach X k CC p' o ->
  exists t', m_insert_map X k (mt CC p) t o = Ok t' /\ interval_count X t' <= 2 * interval_count X t + 2 * interval_count X o.
Proof. exact msize_insert_map. Qed.
Theorem C78_map_minus : forall X k, dom_ok X k -> forall CC, eq_ok CC -> forall p p' t o, mreach X k CC p t -> mreach X k CC p' o ->
  exists t', m_subtract_map X k (mt CC p) t o = Ok t' /\ interval_count X t' <= 2 * interval_count X t + 2 * interval_count X o /\
  (is_total_invertible (mt CC p) = false -> interval_count X t' <= interval_count X t + 2 * interval_count X o).
Proof. exact msize_subtract_map. Qed.
Theorem C78_map_erase_map : forall X k, dom_ok X k -> forall CC, eq_ok CC -> forall p p' t o, mreach X k CC p t -> mreach X k CC p' o ->
  exists t', m_erase_map X k (mt CC p) t o = Ok t' /\ interval_count X t' <= interval_count X t + interval_count X o.
Proof. exact msize_erase_map. Qed.
Theorem C78_map_erase_set : forall X k, dom_ok X k -> forall CC, eq_ok CC -> forall p st t o, mreach X k CC p t -> reach X k st o ->
  exists t', m_erase_set X k (mt CC p) t o = Ok t' /\ interval_count X t' <= interval_count X t + interval_count X o.
Proof. exact msize_erase_set. Qed.
(** & never has more segments than both operands together, unless the map is total (then & is +) *)
Theorem C78_map_and_interval : forall X k, dom_ok X k -> forall CC, eq_ok CC -> forall p t a, mreach X k CC p t ->
  exists t', m_and_itv X k (mt CC p) t a = Ok t' /\ interval_count X t' <= interval_count X t + 1.
Proof. exact msize_and_itv. Qed.
Theorem C78_map_and_segment : forall X k, dom_ok X k -> forall CC, eq_ok CC -> forall p t a v, mreach X k CC p t ->
  exists t', m_and_seg X k (mt CC p) t a v = Ok t' /\ (mt_total (mt CC p) = false -> interval_count X t' <= interval_count X t + 1) /\
  interval_count X t' <= 2 * interval_count X t + 2.
Proof. exact msize_and_seg. Qed.
Theorem C78_map_and_set : forall X k, dom_ok X k -> forall CC, eq_ok CC -> forall p st t o, mreach X k CC p t -> reach X k st o ->
  exists t', m_and_set X k (mt CC p) t o = Ok t' /\ interval_count X t' <= interval_count X t + interval_count X o.
Proof. exact msize_and_set. Qed.
Theorem C78_map_and : forall X k, dom_ok X k -> forall CC, eq_ok CC -> forall p p' t o, mreach X k CC p t -> mreach X k CC p' o ->
  exists t', m_and_map X k (mt CC p) t o = Ok t' /\ (mt_total (mt CC p) = false -> interval_count X t' <= interval_count X t + interval_count X o) /\
  interval_count X t' <= 2 * interval_count X t + 2 * interval_count X o.
Proof. exact msize_and_map. Qed.
Theorem C78_map_flip : forall X k, dom_ok X k -> forall CC, eq_ok CC -> forall p t a v, mreach X k CC p t -> (exists x, mem X k a x) ->
  exists t', m_flip_seg X k (mt CC p) t a v = Ok t' /\ interval_count X t' <= 2 * interval_count X t + 2.
Proof. exact msize_flip_seg. Qed.
Theorem C78_map_xor : forall X k, dom_ok X k -> forall CC, eq_ok CC -> forall p p' t o, mreach X k CC p t -> mreach X k CC p' o ->
  exists t', m_flip_map X k (mt CC p) t o = Ok t' /\ interval_count X t' <= 2 * interval_count X t + 2 * interval_count X o.
Proof. exact msize_flip_map. Qed.

(** the bounds are attained: a joining set grows by one, a splitting set by one more than it has segments in the way *)
Example C78_ex_sets : (exists t, reach Zdom RO Joining t /\ keys Zdom t = [zi 0 2; zi 6 8] /\
    exists t' it, s_add Zdom RO Joining t (zi 3 5) = Ok (t', it) /\ interval_count Zdom t' = interval_count Zdom t + 1) /\
  (exists t, reach Zdom RO Splitting t /\ keys Zdom t = [zi 2 4; zi 6 8] /\
    (forall b, In b (keys Zdom t) -> meets Zdom RO b (zi 0 10) -> In b [zi 2 4; zi 6 8]) /\
    exists t' it, s_add Zdom RO Splitting t (zi 0 10) = Ok (t', it) /\ interval_count Zdom t' = interval_count Zdom t + 2 + 1) /\
  (exists t, reach Zdom RO Joining t /\ keys Zdom t = [zi 0 10] /\
    exists t', s_subtract Zdom RO t (zi 4 6) = Ok t' /\ interval_count Zdom t' = interval_count Zdom t + 1).
Proof.
  split; [|split].
  - built Joining [zi 0 2; zi 6 8]. split; [reflexivity|]. eexists _, _. split; [vm_compute; reflexivity|reflexivity].
  - built Splitting [zi 2 4; zi 6 8]. split; [reflexivity|]. split; [intros b Hb _; exact Hb|]. eexists _, _. split; [vm_compute; reflexivity|reflexivity].
  - built Joining [zi 0 10]. split; [reflexivity|]. eexists. split; [vm_compute; reflexivity|reflexivity].
Qed.
Example C78_ex_maps : (exists t, zreach (absorber MJoin) t /\ segs Zdom Zco t = [sg 2 4 1; sg 6 8 1] /\
    exists t', m_add Zdom RO (mt Zco (absorber MJoin)) t (zi 0 10) 1%Z = Ok t' /\ interval_count Zdom t' = interval_count Zdom t + 2 + 1) /\
  (exists t, zreach (absorber MJoin) t /\ segs Zdom Zco t = [sg 0 10 5] /\ is_total_invertible (mt Zco (absorber MJoin)) = false /\
    (exists t', m_subtract Zdom RO (mt Zco (absorber MJoin)) t (zi 4 6) 1%Z = Ok t' /\ interval_count Zdom t' = interval_count Zdom t + 2) /\
    (exists t', m_erase Zdom RO (mt Zco (absorber MJoin)) t (zi 4 6) = Ok t' /\ interval_count Zdom t' = interval_count Zdom t + 1) /\
    (exists t', m_set Zdom RO (mt Zco (absorber MJoin)) t (zi 4 6) 1%Z = Ok t' /\ interval_count Zdom t' = interval_count Zdom t + 2)) /\
  (exists t o t', zreach (absorber MJoin) t /\ zreach (absorber MJoin) o /\ segs Zdom Zco t = [sg 0 4 1] /\ segs Zdom Zco o = [sg 2 6 1] /\
    m_add_map Zdom RO (mt Zco (absorber MJoin)) t o = Ok t' /\ interval_count Zdom t' = 3).
Proof.
  split; [|split].
  - mbuilt Zco (absorber MJoin) [sg 2 4 1; sg 6 8 1]. split; [reflexivity|]. eexists. split; [vm_compute; reflexivity|reflexivity].
  - mbuilt Zco (absorber MJoin) [sg 0 10 5]. split; [reflexivity|]. split; [reflexivity|]. split; [|split]; eexists; (split; [vm_compute; reflexivity|reflexivity]).
  - eexists _, _, _. split; [eapply mbuild_reach with (l := [sg 0 4 1]); vm_compute; reflexivity|].
    split; [eapply mbuild_reach with (l := [sg 2 6 1]); vm_compute; reflexivity|]. split; [reflexivity|]. split; [reflexivity|]. split; [vm_compute; reflexivity|reflexivity].
Qed.
Example C78_ex_and : exists t o t', zreach (absorber MSplit) t /\ zreach (absorber MSplit) o /\ segs Zdom Zco t = [sg 0 4 1; sg 4 9 2] /\ segs Zdom Zco o = [sg 1 3 1; sg 3 5 1; sg 6 8 3] /\
    mt_total (mt Zco (absorber MSplit)) = false /\ m_and_map Zdom RO (mt Zco (absorber MSplit)) t o = Ok t' /\ segs Zdom Zco t' = [sg 1 3 2; sg 3 4 2; sg 4 5 3; sg 6 8 5].
Proof.
  eexists _, _, _. split; [eapply mbuild_reach with (l := [sg 0 4 1; sg 4 9 2]); vm_compute; reflexivity|].
  split; [eapply mbuild_reach with (l := [sg 1 3 1; sg 3 5 1; sg 6 8 3]); vm_compute; reflexivity|]. split; [reflexivity|]. split; [reflexivity|]. split; [reflexivity|]. split; [vm_compute; reflexivity|reflexivity].
Qed.
Example C78_ex_xor : exists t o t', zreach (enricher MSplit) t /\ zreach (enricher MSplit) o /\ segs Zdom Zco t = [sg 0 4 1] /\ segs Zdom Zco o = [sg 2 6 1; sg 7 9 2] /\
    m_flip_map Zdom RO (mt Zco (enricher MSplit)) t o = Ok t' /\ segs Zdom Zco t' = [sg 0 2 1; sg 2 4 0; sg 4 6 1; sg 7 9 2].
Proof.
  eexists _, _, _. split; [eapply mbuild_reach with (l := [sg 0 4 1]); vm_compute; reflexivity|].
  split; [eapply mbuild_reach with (l := [sg 2 6 1; sg 7 9 2]); vm_compute; reflexivity|]. split; [reflexivity|]. split; [reflexivity|]. split; [vm_compute; reflexivity|reflexivity].
Qed.

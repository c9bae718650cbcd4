(** Property theorems C83 (iterators stay valid in operations with whole containers).
    Reading guide: [stable_all X k joining l t t'] (StableAllSpec.v): every iterator into t whose segment is out of
    reach of every interval in l shows the same segment in t'.  A segment is out of reach of an interval if they
    have no element in common; in containers that join, if they do not touch either.
    [in_any_case m r P]: m is the operation with a bound on allocations and r the ordinary one; P holds for what is
    left whether r completes or memory runs out at any point. *)
From Verif Require Import StableAllSpec StableAll CrashFlipMap PropCrash MapReach MapInst SetProps SetSpec MapSpec Instances PropInterval PropSet PropMap PropStable.
From Coq Require Import ZArith Lia.
Open Scope nat_scope.

(* ------------------------------------------------------------------ C83 *)
Theorem C83_set_add_set : forall X k, dom_ok X k -> forall st st' t o, reach X k st t -> reach X k st' o ->
  in_any_case (c_add_set X k st t o) (s_add_set X k st t o) (stable_all X k (match st with Joining => true | _ => false end) (keys X o) t).
Proof. exact any_add_set. Qed.
Theorem C83_set_insert_set : forall X k, dom_ok X k -> forall st st' t o, reach X k st t -> reach X k st' o ->
  in_any_case (c_insert_set X k st t o) (s_insert_set X k st t o) (stable_all X k (match st with Joining => true | _ => false end) (keys X o) t).
Proof. exact any_insert_set. Qed.
Theorem C83_set_subtract_set : forall X k, dom_ok X k -> forall st st' t o, reach X k st t -> reach X k st' o ->
  in_any_case (c_subtract_set X k t o) (s_subtract_set X k t o) (stable_all X k false (keys X o) t).
Proof. exact any_subtract_set. Qed.
Theorem C83_set_flip : forall X k, dom_ok X k -> forall st t a, reach X k st t -> (exists x, mem X k a x) ->
  in_any_case (c_flip_seg X k st t a) (s_flip_seg X k st t a) (stable X k (match st with Joining => true | _ => false end) a t).
Proof. exact any_flip. Qed.
Theorem C83_set_flip_set : forall X k, dom_ok X k -> forall st st' t o, reach X k st t -> reach X k st' o ->
  in_any_case (c_flip_set X k st t o) (s_flip_set X k st t o) (stable_all X k (match st with Joining => true | _ => false end) (keys X o) t).
Proof. exact any_flip_set. Qed.
Theorem C83_map_add_map : forall X k, dom_ok X k -> forall CC, eq_ok CC -> forall p p' t o, mreach X k CC p t -> mreach X k CC p' o -> proper CC p ->
  in_any_case (cm_add_map X k (mt CC p) t o) (m_add_map X k (mt CC p) t o) (stable_all X k (joins p) (keys X o) t).
Proof. exact any_add_map. Qed.
Theorem C83_map_insert_map : forall X k, dom_ok X k -> forall CC, eq_ok CC -> forall p p' t o, mreach X k CC p t -> mreach X k CC p' o ->
  in_any_case (cm_insert_map X k (mt CC p) t o) (m_insert_map X k (mt CC p) t o) (stable_all X k (joins p) (keys X o) t).
Proof. exact any_insert_map. Qed.
Theorem C83_map_subtract_map : forall X k, dom_ok X k -> forall CC, eq_ok CC -> forall p p' t o, mreach X k CC p t -> mreach X k CC p' o ->
  in_any_case (cm_subtract_map X k (mt CC p) t o) (m_subtract_map X k (mt CC p) t o) (stable_all X k (joins p) (keys X o) t).
Proof. exact any_subtract_map. Qed.
Theorem C83_map_erase_map : forall X k, dom_ok X k -> forall CC, eq_ok CC -> forall p p' t o, mreach X k CC p t -> mreach X k CC p' o ->
  in_any_case (cm_erase_map X k (mt CC p) t o) (m_erase_map X k (mt CC p) t o) (stable_all X k false (keys X o) t).
Proof. exact any_erase_map. Qed.
Theorem C83_map_erase_set : forall X k, dom_ok X k -> forall CC, eq_ok CC -> forall p st t o, mreach X k CC p t -> reach X k st o ->
  in_any_case (cm_erase_set X k (mt CC p) t o) (m_erase_set X k (mt CC p) t o) (stable_all X k false (keys X o) t).
Proof. exact any_erase_set. Qed.
Theorem C83_map_flip : forall X k, dom_ok X k -> forall CC, eq_ok CC -> forall p t a v, mp_total p = false -> proper CC p ->
  mreach X k CC p t -> (exists x, mem X k a x) ->
  in_any_case (cm_flip_seg X k (mt CC p) t a v) (m_flip_seg X k (mt CC p) t a v) (stable X k (joins p) a t).
Proof. exact any_mflip. Qed.
Theorem C83_map_flip_map : forall X k, dom_ok X k -> forall CC, eq_ok CC -> forall p p' t o, mp_total p = false -> proper CC p ->
  mreach X k CC p t -> mreach X k CC p' o ->
  in_any_case (cm_flip_map X k (mt CC p) t o) (m_flip_map X k (mt CC p) t o) (stable_all X k (joins p) (keys X o) t).
Proof. exact any_mflip_map. Qed.

(** an iterator to [20,24) through t += o and t ^= o, completed and interrupted *)
Example C83_ex : exists t, reach Zdom RO Joining t /\ keys Zdom t = [zi 0 4; zi 6 10; zi 20 24] /\
  exists o, reach Zdom RO Separating o /\ keys Zdom o = [zi 2 6; zi 8 12; zi 30 31] /\
  exists j, at_seg Zdom t j (zi 20 24, tt) /\ (forall b, In b (keys Zdom o) -> out_of_reach Zdom RO true (zi 20 24) b) /\
  (exists t', s_add_set Zdom RO Joining t o = Ok t' /\ keys Zdom t' = [zi 0 12; zi 20 24; zi 30 31] /\ at_seg Zdom t' j (zi 20 24, tt)) /\
  (exists t', c_flip_set Zdom RO Joining t o 0 = Thrown t' /\ at_seg Zdom t' j (zi 20 24, tt)).
Proof.
  built Joining [zi 0 4; zi 6 10; zi 20 24]. split; [reflexivity|]. built Separating [zi 2 6; zi 8 12; zi 30 31]. split; [reflexivity|]. exists (Some 2).
  split; [split; vm_compute; reflexivity|]. split; [|split].
  - intros b [<-|[<-|[<-|[]]]]; [exists 19%Z; right|exists 19%Z; right|exists 26%Z; left]; split; intros x Mx; unfold mem, lt, le in *; cbn in *; lia.
  - eexists. split; [vm_compute; reflexivity|]. split; [reflexivity|]. split; vm_compute; reflexivity.
  - eexists. split; [vm_compute; reflexivity|]. split; vm_compute; reflexivity.
Qed.
Example C83_map_ex : exists t, zreach (absorber MSplit) t /\ segs Zdom Zco t = [sg 0 4 1; sg 6 10 2; sg 12 14 3] /\
  exists o, zreach (absorber MSplit) o /\ segs Zdom Zco o = [sg 2 6 5; sg 8 12 5] /\ proper Zco (absorber MSplit) /\
  exists j, at_seg Zdom t j (zi 12 14, 3%Z) /\ (forall b, In b (keys Zdom o) -> out_of_reach Zdom RO false (zi 12 14) b) /\
  (exists t', m_add_map Zdom RO (mt Zco (absorber MSplit)) t o = Ok t' /\ at_seg Zdom t' j (zi 12 14, 3%Z)) /\
  (exists t', cm_add_map Zdom RO (mt Zco (absorber MSplit)) t o 2 = Thrown t' /\ at_seg Zdom t' j (zi 12 14, 3%Z)) /\
  (exists t', m_flip_map Zdom RO (mt Zco (absorber MSplit)) t o = Ok t' /\ at_seg Zdom t' j (zi 12 14, 3%Z)).
Proof.
  mbuilt Zco (absorber MSplit) [sg 0 4 1; sg 6 10 2; sg 12 14 3]. split; [reflexivity|]. mbuilt Zco (absorber MSplit) [sg 2 6 5; sg 8 12 5]. split; [reflexivity|]. split; [apply Z_proper|]. exists (Some 2).
  split; [split; vm_compute; reflexivity|]. split.
  - intros b [<-|[<-|[]]] (x & M1 & M2); unfold mem, lt, le in *; cbn in *; lia.
  - split; [|split]; eexists; (split; [vm_compute; reflexivity|]); split; vm_compute; reflexivity.
Qed.

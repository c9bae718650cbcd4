(** Property theorems C72 (iterators stay valid).
    Reading guide (StableSpec.v): [stable X k joining a t t']: every iterator into t whose segment
    is out of reach of a shows the same segment in t'.  A segment is out of reach of a if it has no
    element in common with a; in containers that join, if it does not touch a either ([detached]). *)
From Verif Require Import StableSpec StableThms MapReach MapInst SetProps SetSpec MapSpec Instances PropInterval PropSet PropMap.
From Verif Require Import MapModel.
From Coq Require Import ZArith Lia.
Open Scope nat_scope.

(* ------------------------------------------------------------------ C72 *)
Theorem C72_set_add : forall X k, dom_ok X k -> forall st t a, reach X k st t ->
  exists t' it, s_add X k st t a = Ok (t', it) /\ stable X k (match st with Joining => true | _ => false end) a t t'.
Proof. exact thm_s_add. Qed.
Theorem C72_set_add_hint : forall X k, dom_ok X k -> forall st t h a, reach X k st t -> hint_ok X t h ->
  exists t' it, s_add_hint X k st t h a = Ok (t', it) /\ stable X k (match st with Joining => true | _ => false end) a t t'.
Proof. exact thm_s_add_hint. Qed.
Theorem C72_set_subtract : forall X k, dom_ok X k -> forall st t a, reach X k st t ->
  exists t', s_subtract X k t a = Ok t' /\ stable X k false a t t'.
Proof. exact thm_s_subtract. Qed.
Definition joins (p : mpar) : bool := match mp_style p with MJoin => true | MSplit => false end.
Theorem C72_map_add : forall X k, dom_ok X k -> forall CC, eq_ok CC -> forall p t, mreach X k CC p t -> forall a v,
  exists t', m_add X k (mt CC p) t a v = Ok t' /\ stable X k (joins p) a t t'.
Proof. exact thm_m_add. Qed.
Theorem C72_map_add_hint : forall X k, dom_ok X k -> forall CC, eq_ok CC -> forall p t, mreach X k CC p t -> forall h a v,
  mhint_ok X CC t h -> proper CC p ->
  exists t' it, m_add_hint X k (mt CC p) t h a v = Ok (t', it) /\ stable X k (joins p) a t t'.
Proof. exact thm_m_add_hint. Qed.
Theorem C72_map_subtract : forall X k, dom_ok X k -> forall CC, eq_ok CC -> forall p t, mreach X k CC p t -> forall a v,
  exists t', m_subtract X k (mt CC p) t a v = Ok t' /\ stable X k (joins p) a t t'.
Proof. exact thm_m_subtract. Qed.
Theorem C72_map_insert : forall X k, dom_ok X k -> forall CC, eq_ok CC -> forall p t, mreach X k CC p t -> forall a v,
  exists t', m_insert X k (mt CC p) t a v = Ok t' /\ stable X k (joins p) a t t'.
Proof. exact thm_m_insert. Qed.
Theorem C72_map_insert_hint : forall X k, dom_ok X k -> forall CC, eq_ok CC -> forall p t, mreach X k CC p t -> forall h a v,
  mhint_ok X CC t h ->
  exists t' it, m_insert_hint X k (mt CC p) t h a v = Ok (t', it) /\ stable X k (joins p) a t t'.
Proof. exact thm_m_insert_hint. Qed.
Theorem C72_map_set : forall X k, dom_ok X k -> forall CC, eq_ok CC -> forall p t, mreach X k CC p t -> forall a v,
  exists t', m_set X k (mt CC p) t a v = Ok t' /\ stable X k (joins p) a t t'.
Proof. exact thm_m_set. Qed.
Theorem C72_map_erase : forall X k, dom_ok X k -> forall CC, eq_ok CC -> forall p t, mreach X k CC p t -> forall a,
  exists t', m_erase X k (mt CC p) t a = Ok t' /\ stable X k false a t t'.
Proof. intros X k HX CC Hco p t R a. destruct (thm_m_erase X k HX CC Hco p t R a) as (t' & E & _ & S). eauto. Qed.
Theorem C72_map_erase_seg : forall X k, dom_ok X k -> forall CC, eq_ok CC -> forall p t, mreach X k CC p t -> forall a v,
  exists t', m_erase_seg X k (mt CC p) t a v = Ok t' /\ stable X k false a t t'.
Proof. exact thm_m_erase_seg. Qed.
(** an iterator to [8,10) survives joining [0,2), [2,4) and [4,6) *)
Example C72_ex : exists t, reach Zdom RO Joining t /\ keys Zdom t = [zi 0 2; zi 4 6; zi 8 10] /\
  exists j, at_seg Zdom t j (zi 8 10, tt) /\ out_of_reach Zdom RO true (zi 8 10) (zi 2 4) /\
  exists t' it, s_add Zdom RO Joining t (zi 2 4) = Ok (t', it) /\ keys Zdom t' = [zi 0 6; zi 8 10] /\ at_seg Zdom t' j (zi 8 10, tt).
Proof.
  built Joining [zi 0 2; zi 4 6; zi 8 10]. split; [reflexivity|]. exists (Some 2). split; [split; vm_compute; reflexivity|]. split.
  - exists 6%Z. right. split; intros x Mx; unfold mem, lt, le in *; cbn in *; lia.
  - eexists _, _. split; [vm_compute; reflexivity|]. split; [reflexivity|]. split; vm_compute; reflexivity.
Qed.
Example C72_map_ex : exists t, zreach (absorber MJoin) t /\ segs Zdom Zco t = [sg 0 2 1; sg 3 5 1; sg 6 8 3] /\
  exists j, at_seg Zdom t j (zi 6 8, 3%Z) /\ detached Zdom RO (zi 6 8) (zi 2 4) /\
  exists t', m_add Zdom RO (mt Zco (absorber MJoin)) t (zi 2 4) 1%Z = Ok t' /\ segs Zdom Zco t' = [sg 0 3 1; sg 3 4 2; sg 4 5 1; sg 6 8 3] /\ at_seg Zdom t' j (zi 6 8, 3%Z).
Proof.
  mbuilt Zco (absorber MJoin) [sg 0 2 1; sg 3 5 1; sg 6 8 3]. split; [reflexivity|]. exists (Some 2). split; [split; vm_compute; reflexivity|]. split.
  - exists 5%Z. right. split; intros x Mx; unfold mem, lt, le in *; cbn in *; lia.
  - eexists. split; [vm_compute; reflexivity|]. split; [reflexivity|]. split; vm_compute; reflexivity.
Qed.

(** In joining containers the condition cannot be weakened to segments that have no element in
    common with a: a segment that touches a may be merged and its iterator becomes dangling. *)
Theorem C72_touching_refuted : exists t j t' it, reach Zdom RO Joining t /\ at_seg Zdom t j (zi 4 6, tt) /\
  ~ meets Zdom RO (zi 4 6) (zi 2 4) /\ s_add Zdom RO Joining t (zi 2 4) = Ok (t', it) /\ deref t' j = Err Dangling.
Proof.
  destruct (build Zdom RO Joining [zi 0 2; zi 4 6]) as [t|] eqn:B; [|discriminate B]. pose proof (build_reach Zdom RO Joining _ _ B) as R. vm_compute in B. injection B as B. subst t.
  eexists _, (Some 1), _, _. split; [exact R|]. split; [split; vm_compute; reflexivity|]. split.
  - intros (x & M1 & M2). unfold mem, lt, le in *; cbn in *; lia.
  - split; vm_compute; reflexivity.
Qed.

(** Property theorems C73 (running out of memory in interval sets).
    Reading guide (CrashModel.v, CrashSpec.v): [c_add], [c_subtract], ... are the operations with a
    bound n on the number of segments that can still be allocated: [Fine n' r] is success with n' left,
    [Thrown t'] is an exception that leaves the set as t'.  [survives m r P]: with enough memory m does
    what the ordinary operation r does, and with too little it throws and leaves a set with P.
    That the set left behind is again in [reach] means that every theorem about constructible sets
    applies to it: it is well-formed, and can be used further. *)
From Verif Require Import CrashSpec CrashThms MapReach MapInst SetProps SetSpec MapSpec Instances PropInterval PropSet.
From Coq Require Import ZArith Lia.
Open Scope nat_scope.

(* ------------------------------------------------------------------ C73 *)
Theorem C73_add : forall X k, dom_ok X k -> forall st t a, reach X k st t ->
  survives (c_add X k st t a) (s_add X k st t a)
    (fun t' => reach X k st t' /\ (st <> Splitting -> t' = t) /\ add_interrupted X k t a t').
Proof. exact crash_add. Qed.
Theorem C73_add_hint : forall X k, dom_ok X k -> forall st t h a, reach X k st t -> hint_ok X t h ->
  survives (c_add_hint X k st t h a) (s_add_hint X k st t h a)
    (fun t' => reach X k st t' /\ (st <> Splitting -> t' = t) /\ add_interrupted X k t a t').
Proof. exact crash_add_hint. Qed.
Theorem C73_subtract : forall X k, dom_ok X k -> forall st t a, reach X k st t ->
  survives (c_subtract X k t a) (s_subtract X k t a) (fun t' => reach X k st t' /\ sub_interrupted X k t a t').
Proof. exact crash_subtract. Qed.
Theorem C73_add_set : forall X k, dom_ok X k -> forall st st' t o, reach X k st t -> reach X k st' o ->
  survives (c_add_set X k st t o) (s_add_set X k st t o)
    (fun t' => reach X k st t' /\ (st <> Splitting -> forall x, cmem X k t x -> cmem X k t' x) /\
               forall x, cmem X k t' x -> cmem X k t x \/ cmem X k o x).
Proof. exact crash_add_set. Qed.
Theorem C73_insert_set : forall X k, dom_ok X k -> forall st st' t o, reach X k st t -> reach X k st' o ->
  survives (c_insert_set X k st t o) (s_insert_set X k st t o)
    (fun t' => reach X k st t' /\ (st <> Splitting -> forall x, cmem X k t x -> cmem X k t' x) /\
               forall x, cmem X k t' x -> cmem X k t x \/ cmem X k o x).
Proof. exact crash_insert_set. Qed.
Theorem C73_subtract_set : forall X k, dom_ok X k -> forall st st' t o, reach X k st t -> reach X k st' o ->
  survives (c_subtract_set X k t o) (s_subtract_set X k t o)
    (fun t' => reach X k st t' /\ (forall x, cmem X k t' x -> cmem X k t x) /\
               forall x, cmem X k t x -> ~ (exists b, In b (keys X o) /\ affected X k t b x) -> cmem X k t' x).
Proof. exact crash_subtract_set. Qed.
Theorem C73_and_seg : forall X k, dom_ok X k -> forall st t a, reach X k st t ->
  survives (c_and_seg X k st t a) (s_and_seg X k st t a) (fun t' => t' = t).
Proof. exact crash_and_seg. Qed.
Theorem C73_and_set : forall X k, dom_ok X k -> forall st st' t o, reach X k st t -> reach X k st' o ->
  survives (c_and_set X k st t o) (s_and_set X k st t o) (fun t' => t' = t).
Proof. exact crash_and_set. Qed.

(** an addition that needs three segments, interrupted after each smaller number *)
Example C73_add_ex : exists t, reach Zdom RO Splitting t /\ keys Zdom t = [zi 0 4; zi 6 8] /\
  (exists t', c_add Zdom RO Splitting t (zi 2 9) 0 = Thrown t' /\ keys Zdom t' = [zi 2 4; zi 6 8]) /\
  (exists t', c_add Zdom RO Splitting t (zi 2 9) 1 = Thrown t' /\ keys Zdom t' = [zi 0 2; zi 2 4; zi 6 8]) /\
  (exists t', c_add Zdom RO Splitting t (zi 2 9) 2 = Thrown t' /\ keys Zdom t' = [zi 0 2; zi 2 4; zi 4 6; zi 6 8]) /\
  (exists t' it, c_add Zdom RO Splitting t (zi 2 9) 3 = Fine 0 (t', it) /\ keys Zdom t' = [zi 0 2; zi 2 4; zi 4 6; zi 6 8; zi 8 9]).
Proof.
  built Splitting [zi 0 4; zi 6 8]. split; [reflexivity|]. split; [|split; [|split]].
  - eexists. split; vm_compute; reflexivity.
  - eexists. split; vm_compute; reflexivity.
  - eexists. split; vm_compute; reflexivity.
  - eexists _, _. split; vm_compute; reflexivity.
Qed.
Example C73_join_ex : exists t, reach Zdom RO Joining t /\ keys Zdom t = [zi 0 4; zi 6 8] /\
  c_add Zdom RO Joining t (zi 4 6) 0 = Thrown t /\
  exists t' it, c_add Zdom RO Joining t (zi 4 6) 1 = Fine 0 (t', it) /\ keys Zdom t' = [zi 0 8].
Proof.
  built Joining [zi 0 4; zi 6 8]. split; [reflexivity|]. split; [vm_compute; reflexivity|]. eexists _, _. split; vm_compute; reflexivity.
Qed.
Example C73_set_ex : exists t, reach Zdom RO Joining t /\ keys Zdom t = [zi 0 4; zi 10 12] /\
  exists o, reach Zdom RO Separating o /\ keys Zdom o = [zi 1 2; zi 6 8; zi 20 22] /\
  (exists t', c_add_set Zdom RO Joining t o 1 = Thrown t' /\ keys Zdom t' = [zi 0 4; zi 6 8; zi 10 12]) /\
  (exists t', c_insert_set Zdom RO Joining t o 1 = Thrown t' /\ keys Zdom t' = [zi 0 4; zi 6 8; zi 10 12]) /\
  (exists t', c_subtract_set Zdom RO t o 1 = Thrown t' /\ keys Zdom t' = [zi 0 1; zi 10 12]) /\
  c_and_set Zdom RO Joining t o 0 = Thrown t /\ c_and_seg Zdom RO Joining t (zi 3 20) 1 = Thrown t.
Proof.
  built Joining [zi 0 4; zi 10 12]. split; [reflexivity|]. built Separating [zi 1 2; zi 6 8; zi 20 22]. split; [reflexivity|].
  split; [eexists; split; vm_compute; reflexivity|]. split; [eexists; split; vm_compute; reflexivity|]. split; [eexists; split; vm_compute; reflexivity|].
  split; vm_compute; reflexivity.
Qed.

(** Adding to a split_interval_set and subtracting from any interval set do not give the strong
    exception guarantee: elements outside the argument may be lost. *)
Theorem C73_strong_add_refuted : exists t t', reach Zdom RO Splitting t /\
  c_add Zdom RO Splitting t (zi 2 4) 0 = Thrown t' /\ cmem Zdom RO t 0%Z /\ ~ mem Zdom RO (zi 2 4) 0%Z /\ ~ cmem Zdom RO t' 0%Z.
Proof.
  destruct (build Zdom RO Splitting [zi 0 10]) as [t|] eqn:B; [|discriminate B]. pose proof (build_reach Zdom RO Splitting _ _ B) as R. vm_compute in B. injection B as B. subst t.
  eexists _, _. split; [exact R|]. split; [vm_compute; reflexivity|]. split; [|split].
  - exists (zi 0 10). split; [cbn; auto|]. unfold mem, lt, le; cbn; lia.
  - unfold mem, lt, le; cbn; lia.
  - intros (a & [<-|[]] & M). unfold mem, lt, le in M; cbn in M; lia.
Qed.
Theorem C73_strong_subtract_refuted : forall st, exists t t', reach Zdom RO st t /\
  c_subtract Zdom RO t (zi 2 4) 0 = Thrown t' /\ keys Zdom t = [zi 0 10] /\ keys Zdom t' = [].
Proof.
  intros st. destruct (build Zdom RO st [zi 0 10]) as [t|] eqn:B; [|destruct st; discriminate B]. pose proof (build_reach Zdom RO st _ _ B) as R.
  destruct st; vm_compute in B; injection B as B; subst t; (eexists _, _; split; [exact R|]); split; [vm_compute; reflexivity|split; reflexivity|vm_compute; reflexivity|split; reflexivity|vm_compute; reflexivity|split; reflexivity].
Qed.

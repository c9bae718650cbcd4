(** Property theorems C81 (running out of memory in symmetric differences of interval sets).
    Reading guide: see PropCrash.v; [c_flip_seg], [c_flip_elem], [c_flip_set] are the operations of
    SetModel.v with a bound on the number of segments that can still be allocated (CrashFlipModel.v).
    [affected X k t a x]: x lies in a segment of t that shares an element with a. *)
From Verif Require Import CrashFlip PropCrash MapReach MapInst SetProps SetSpec MapSpec Instances PropInterval PropSet.
From Coq Require Import ZArith Lia.
Open Scope nat_scope.

(* ------------------------------------------------------------------ C81 *)
(** t ^= segment *)
Theorem C81_flip : forall X k, dom_ok X k -> forall st t a, reach X k st t -> (exists x, mem X k a x) ->
  survives (c_flip_seg X k st t a) (s_flip_seg X k st t a)
    (fun t' => reach X k st t' /\ (forall x, cmem X k t' x -> cmem X k t x \/ mem X k a x) /\
               forall x, cmem X k t x -> ~ mem X k a x -> ~ affected X k t a x -> cmem X k t' x).
Proof. exact crash_flip. Qed.
(** t ^= element *)
Theorem C81_flip_elem : forall X k, dom_ok X k -> forall st t x, reach X k st t -> storable X k x ->
  survives (c_flip_elem X k st t x) (s_flip_elem X k st t x)
    (fun t' => reach X k st t' /\ (forall z, cmem X k t' z -> cmem X k t z \/ z = x) /\
               forall z, cmem X k t z -> z <> x -> ~ same_seg X k (keys X t) z x -> cmem X k t' z).
Proof. exact crash_flip_elem. Qed.
(** t ^= o *)
Theorem C81_flip_set : forall X k, dom_ok X k -> forall st st' t o, reach X k st t -> reach X k st' o ->
  survives (c_flip_set X k st t o) (s_flip_set X k st t o)
    (fun t' => reach X k st t' /\ (forall x, cmem X k t' x -> cmem X k t x \/ cmem X k o x) /\
               (st <> Joining -> forall x, cmem X k t x -> ~ cmem X k o x ->
                  ~ (exists b, In b (keys X o) /\ affected X k t b x) -> cmem X k t' x)).
Proof. exact crash_flip_set. Qed.

(** a segment flip that needs three allocations, interrupted after each smaller number *)
Example C81_flip_ex : exists t, reach Zdom RO Separating t /\ keys Zdom t = [zi 0 4; zi 6 8; zi 20 21] /\ mem Zdom RO (zi 2 10) 2%Z /\
  (exists t', c_flip_seg Zdom RO Separating t (zi 2 10) 0 = Thrown t' /\ keys Zdom t' = [zi 6 8; zi 20 21]) /\
  (exists t', c_flip_seg Zdom RO Separating t (zi 2 10) 1 = Thrown t' /\ keys Zdom t' = [zi 0 2; zi 20 21]) /\
  (exists t', c_flip_seg Zdom RO Separating t (zi 2 10) 2 = Thrown t' /\ keys Zdom t' = [zi 0 2; zi 4 6; zi 20 21]) /\
  (exists t', c_flip_seg Zdom RO Separating t (zi 2 10) 3 = Fine 0 t' /\ keys Zdom t' = [zi 0 2; zi 4 6; zi 8 10; zi 20 21]).
Proof.
  built Separating [zi 0 4; zi 6 8; zi 20 21]. split; [reflexivity|]. split; [unfold mem, lt, le; cbn; lia|]. split; [|split; [|split]]; eexists; split; vm_compute; reflexivity.
Qed.
Example C81_elem_ex : exists t, reach Zdom RO Joining t /\ keys Zdom t = [zi 0 4; zi 6 8] /\ storable Zdom RO 2%Z /\
  (exists t', c_flip_elem Zdom RO Joining t 2%Z 1 = Thrown t' /\ keys Zdom t' = [zi 0 2; zi 6 8]) /\
  c_flip_elem Zdom RO Joining t 5%Z 0 = Thrown t.
Proof.
  built Joining [zi 0 4; zi 6 8]. split; [reflexivity|]. split; [split; [split; cbn; auto; exists 3%Z; reflexivity|right; reflexivity]|]. split; [eexists; split; vm_compute; reflexivity|vm_compute; reflexivity].
Qed.
Example C81_set_ex : exists t, reach Zdom RO Splitting t /\ keys Zdom t = [zi 4 8; zi 12 14] /\
  exists o, reach Zdom RO Separating o /\ keys Zdom o = [zi 0 2; zi 6 10; zi 20 22] /\
  (exists t', c_flip_set Zdom RO Splitting t o 1 = Thrown t' /\ keys Zdom t' = [zi 0 2; zi 12 14]) /\
  (exists t', c_flip_set Zdom RO Splitting t o 2 = Thrown t' /\ keys Zdom t' = [zi 0 2; zi 4 6; zi 12 14]) /\
  (exists t', c_flip_set Zdom RO Splitting t o 3 = Thrown t' /\ keys Zdom t' = [zi 0 2; zi 4 6; zi 8 10; zi 12 14]).
Proof.
  built Splitting [zi 4 8; zi 12 14]. split; [reflexivity|]. built Separating [zi 0 2; zi 6 10; zi 20 22]. split; [reflexivity|].
  split; [|split]; eexists; split; vm_compute; reflexivity.
Qed.

(** In an interval_set, t ^= o can lose segments of t that share no element with o: a flipped segment joins
    them with a segment that a later step loses. *)
Theorem C81_join_refuted : exists t o t', reach Zdom RO Joining t /\ reach Zdom RO Separating o /\
  keys Zdom t = [zi 0 2; zi 4 6] /\ keys Zdom o = [zi 2 4; zi 5 7] /\
  c_flip_set Zdom RO Joining t o 1 = Thrown t' /\ keys Zdom t' = [].
Proof.
  destruct (build Zdom RO Joining [zi 0 2; zi 4 6]) as [t|] eqn:B; [|discriminate B]. pose proof (build_reach Zdom RO Joining _ _ B) as R.
  destruct (build Zdom RO Separating [zi 2 4; zi 5 7]) as [o|] eqn:B'; [|discriminate B']. pose proof (build_reach Zdom RO Separating _ _ B') as R'.
  vm_compute in B, B'. injection B as B. injection B' as B'. subst t o. eexists _, _, _. split; [exact R|]. split; [exact R'|].
  split; [reflexivity|]. split; [reflexivity|]. split; vm_compute; reflexivity.
Qed.

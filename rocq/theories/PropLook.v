(** Property theorems C70 (lookup by interval) and C71 (erasure through iterators).
    Reading guide (LookSpec.v): [shows t first past l]: iterating from first to past shows the
    segments l, in this order; [at_seg t it s]: the iterator it shows the segment s;
    [meets a b]: a and b have a common element; [before a b]: every element of a precedes every
    element of b.  A segment of a set is a pair of an interval and [tt].  See also PropSet.v, PropMap.v. *)
From Verif Require Import LookSpec LookThms MapReach MapInst SetProps SetSpec MapSpec Instances PropInterval PropSet PropMap.
From Verif Require Import MapModel.
From Coq Require Import ZArith.
Open Scope nat_scope.

(* ------------------------------------------------------------------ C70 *)
(** equal_range(a) delimits the segments that have an element in common with a: those in front
    of it lie before a, those behind it lie after a *)
Definition delimits (X : dom) (k : kind) {V} (t : tree (D X) V) (a : itv (D X)) : Prop :=
  exists f p A B C, equal_range X k t a = Ok (f, p) /\ lower_bound X k t a = Ok f /\ upper_bound X k t a = Ok p /\
    shows X t (begin_ t) f A /\ shows X t f p B /\ shows X t p (end_ t) C /\ shows X t (begin_ t) (end_ t) (A ++ B ++ C) /\
    (forall s, In s A -> before X k (fst s) a) /\ (forall s, In s B -> meets X k (fst s) a) /\ (forall s, In s C -> before X k a (fst s)).
Theorem C70_equal_range_set : forall X k, dom_ok X k -> forall st t a, reach X k st t -> (exists x, mem X k a x) -> delimits X k t a.
Proof. intros X k HX st t a R Ha. apply (equal_range_ok X k HX); [eapply reach_inv|]; eauto. Qed.
Theorem C70_equal_range_map : forall X k, dom_ok X k -> forall CC, eq_ok CC -> forall p t a, mreach X k CC p t -> (exists x, mem X k a x) -> delimits X k t a.
Proof. intros X k HX CC Hco p t a R Ha. apply (equal_range_ok X k HX); [eapply mreach_inv|]; eauto. Qed.
(** find(a) is end() if no segment has an element in common with a, and an iterator to the
    first such segment otherwise *)
Definition finds_first (X : dom) (k : kind) {V} (t : tree (D X) V) (a : itv (D X)) : Prop :=
  exists it, tfind X k t a = Ok it /\
    ((it = end_ t /\ forall b, In b (keys X t) -> ~ meets X k b a) \/
     (exists A s C, shows X t (begin_ t) it A /\ shows X t it (end_ t) (s :: C) /\
        (forall r, In r A -> before X k (fst r) a) /\ meets X k (fst s) a)).
Theorem C70_find_set : forall X k, dom_ok X k -> forall st t a, reach X k st t -> (exists x, mem X k a x) -> finds_first X k t a.
Proof. intros X k HX st t a R Ha. apply (find_ok X k HX); [eapply reach_inv|]; eauto. Qed.
Theorem C70_find_map : forall X k, dom_ok X k -> forall CC, eq_ok CC -> forall p t a, mreach X k CC p t -> (exists x, mem X k a x) -> finds_first X k t a.
Proof. intros X k HX CC Hco p t a R Ha. apply (find_ok X k HX); [eapply mreach_inv|]; eauto. Qed.
Example C70_ex : exists t, reach Zdom RO Joining t /\ keys Zdom t = [zi 0 2; zi 4 6; zi 8 10] /\ (exists x, mem Zdom RO (zi 5 9) x) /\
  (exists f p, equal_range Zdom RO t (zi 5 9) = Ok (f, p) /\ shows Zdom t f p [(zi 4 6, tt); (zi 8 10, tt)] /\ tfind Zdom RO t (zi 5 9) = Ok f) /\
  tfind Zdom RO t (zi 6 8) = Ok (end_ t).
Proof.
  built Joining [zi 0 2; zi 4 6; zi 8 10]. split; [reflexivity|]. split; [exists 5%Z; vm_compute; split; reflexivity|].
  split; [|vm_compute; reflexivity]. eexists _, _. split; [vm_compute; reflexivity|]. split; [exists 2; vm_compute; reflexivity|vm_compute; reflexivity].
Qed.

(** The full claim, for every interval, fails: looking up an empty interval in a container that
    is not empty violates the precondition of the comparison (BOOST_ASSERT in
    non_empty::exclusive_less). *)
Theorem C70_empty_refuted : forall X k, dom_ok X k -> forall st t a, reach X k st t -> keys X t <> [] -> is_empty X k a = true ->
  equal_range X k t a = Err Empty_key /\ tfind X k t a = Err Empty_key.
Proof.
  intros X k HX st t a R Nt Ea. pose proof (reach_inv X k HX st t R) as Hi. assert (N : nodes t <> []) by (intros Q; apply Nt; unfold keys; rewrite Q; auto).
  split; [apply look_empty; auto|]. destruct Hi as [W S]. unfold tfind, look_ok. rewrite (proj2 (ordered_srt X k HX _) S), Ea. destruct (nodes t) as [|n l]; [destruct (N eq_refl)|]. auto.
Qed.
Example C70_empty_ex : exists t, reach Zdom RO Joining t /\ keys Zdom t <> [] /\ is_empty Zdom RO (zi 5 5) = true /\ tfind Zdom RO t (zi 5 5) = Err Empty_key.
Proof. built Joining [zi 0 2]. split; [discriminate|]. split; vm_compute; reflexivity. Qed.

(* ------------------------------------------------------------------ C71 *)
(** erase(position): the traversal shows the same segments without the one at the position, the
    other iterators keep showing their segments, and exactly the elements of the segment are gone *)
Theorem C71_erase_position_set : forall X k, dom_ok X k -> forall st t it A s C, reach X k st t ->
  shows X t (begin_ t) it A -> shows X t it (end_ t) (s :: C) ->
  exists t', erase_it t it = Ok t' /\ reach X k st t' /\ shows X t' (begin_ t') (end_ t') (A ++ C) /\
    (forall j r, at_seg X t j r -> j <> it -> at_seg X t' j r) /\
    forall x, cmem X k t' x <-> cmem X k t x /\ ~ mem X k (fst s) x.
Proof.
  intros X k HX st t it A s C R H1 H2. destruct (erase_it_spec X k HX t it A s C (reach_inv X k HX st t R) H1 H2) as (t' & E & P & Q & S).
  exists t'. split; auto. split; [eapply R_erase_it; eauto|auto].
Qed.
Theorem C71_erase_position_map : forall X k, dom_ok X k -> forall CC, eq_ok CC -> forall p t it A s C, mreach X k CC p t ->
  shows X t (begin_ t) it A -> shows X t it (end_ t) (s :: C) ->
  exists t', erase_it t it = Ok t' /\ mreach X k CC p t' /\ shows X t' (begin_ t') (end_ t') (A ++ C) /\
    (forall j r, at_seg X t j r -> j <> it -> at_seg X t' j r) /\
    changed X k CC t t' (mem X k (fst s)) (fun _ => None).
Proof.
  intros X k HX CC Hco p t it A s C R H1 H2. pose proof (mreach_inv X k HX CC Hco p t R) as Hi.
  destruct (erase_it_spec X k HX t it A s C Hi H1 H2) as (t' & E & P & Q & S).
  exists t'. split; auto. assert (R' : mreach X k CC p t') by (eapply M_erase_it; eauto). split; auto. split; auto. split; auto.
  apply (erased_changed X k HX); auto; [eapply mreach_inv; eauto|]. apply (proj2 (erase_it_inv X k t t' it Hi E)).
Qed.
(** erase(first, past) removes exactly the segments of the range *)
Theorem C71_erase_range_set : forall X k, dom_ok X k -> forall st t first past A B C, reach X k st t ->
  shows X t (begin_ t) first A -> shows X t first past B -> shows X t past (end_ t) C ->
  exists t', erase_range t first past = Ok t' /\ reach X k st t' /\ shows X t' (begin_ t') (end_ t') (A ++ C) /\ shows X t' (begin_ t') past A /\
    (forall j r, at_seg X t j r -> In r A \/ In r C -> at_seg X t' j r) /\
    forall x, cmem X k t' x <-> cmem X k t x /\ ~ exists s, In s B /\ mem X k (fst s) x.
Proof.
  intros X k HX st t first past A B C R H1 H2 H3.
  destruct (erase_range_spec X k HX t first past A B C (reach_inv X k HX st t R) H1 H2 H3) as (t' & E & P & Q & S & U).
  exists t'. split; auto. split; [eapply R_erase_range; eauto|auto].
Qed.
Theorem C71_erase_range_map : forall X k, dom_ok X k -> forall CC, eq_ok CC -> forall p t first past A B C, mreach X k CC p t ->
  shows X t (begin_ t) first A -> shows X t first past B -> shows X t past (end_ t) C ->
  exists t', erase_range t first past = Ok t' /\ mreach X k CC p t' /\ shows X t' (begin_ t') (end_ t') (A ++ C) /\ shows X t' (begin_ t') past A /\
    (forall j r, at_seg X t j r -> In r A \/ In r C -> at_seg X t' j r) /\
    changed X k CC t t' (fun x => exists s, In s B /\ mem X k (fst s) x) (fun _ => None).
Proof.
  intros X k HX CC Hco p t first past A B C R H1 H2 H3. pose proof (mreach_inv X k HX CC Hco p t R) as Hi.
  destruct (erase_range_spec X k HX t first past A B C Hi H1 H2 H3) as (t' & E & P & Q & S & U).
  exists t'. split; auto. assert (R' : mreach X k CC p t') by (eapply M_erase_range; eauto). split; auto. split; auto. split; auto. split; auto.
  apply (erased_changed X k HX); auto; [eapply mreach_inv; eauto|]. apply (proj2 (erase_range_inv X k t t' first past Hi E)).
Qed.
(** erasing the range equal_range(a) delimits removes the segments that meet a as a whole *)
Example C71_ex : exists t, zreach (absorber MJoin) t /\ segs Zdom Zco t = [sg 0 2 1; sg 2 4 2; sg 6 8 3] /\
  (exists f p, equal_range Zdom RO t (zi 3 7) = Ok (f, p) /\ shows Zdom t (begin_ t) f [sg 0 2 1] /\ shows Zdom t f p [sg 2 4 2; sg 6 8 3] /\ shows Zdom t p (end_ t) [] /\
    exists t', erase_range t f p = Ok t' /\ segs Zdom Zco t' = [sg 0 2 1]) /\
  exists it, incr_it t (begin_ t) = Ok it /\ shows Zdom t (begin_ t) it [sg 0 2 1] /\ shows Zdom t it (end_ t) [sg 2 4 2; sg 6 8 3] /\
    exists t', erase_it t it = Ok t' /\ segs Zdom Zco t' = [sg 0 2 1; sg 6 8 3].
Proof.
  mbuilt Zco (absorber MJoin) [sg 0 2 1; sg 2 4 2; sg 6 8 3]. split; [reflexivity|]. split.
  - eexists _, _. split; [vm_compute; reflexivity|]. split; [exists 3; vm_compute; reflexivity|]. split; [exists 3; vm_compute; reflexivity|].
    split; [exists 3; vm_compute; reflexivity|]. eexists. split; vm_compute; reflexivity.
  - eexists. split; [vm_compute; reflexivity|]. split; [exists 3; vm_compute; reflexivity|]. split; [exists 3; vm_compute; reflexivity|]. eexists. split; vm_compute; reflexivity.
Qed.

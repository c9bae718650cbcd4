(** Property theorems C68, C69: operators applied to one container twice (x += x, ...).
    Reading guide: see PropSet.v, PropMap.v.  In AliasModel.v the loop over the operand runs on
    the container that is being changed; in the other files the operand is a separate container. *)
From Verif Require Import AliasModel AliasThms MapSpec MapReach MapInst SetSpec SetThms Instances PropInterval PropSet PropMap.
From Verif Require Import MapModel.
From Coq Require Import ZArith.
Open Scope nat_scope.

(* ------------------------------------------------------------------ C68 *)
(** x += x leaves an interval set as it is *)
Theorem C68_add : forall X k, dom_ok X k -> forall st t, reach X k st t -> s_self_add X k st t = Ok t.
Proof. exact thm_self_add. Qed.
(** x -= x and x ^= x empty it *)
Theorem C68_subtract : forall X k, dom_ok X k -> forall st t, reach X k st t ->
  exists t', s_self_subtract X k t = Ok t' /\ keys X t' = [].
Proof. intros X k HX st t R. destruct (thm_self_subtract X k HX st t R) as (t' & E & Z). exists t'. split; [exact E|]. unfold keys. rewrite Z. reflexivity. Qed.
Theorem C68_flip : forall X k, dom_ok X k -> forall st t, reach X k st t ->
  exists t', s_self_flip X k st t = Ok t' /\ keys X t' = [].
Proof. intros X k HX st t R. destruct (thm_self_flip X k HX st t R) as (t' & E & Z). exists t'. split; [exact E|]. unfold keys. rewrite Z. reflexivity. Qed.
(** x &= x keeps its elements (the result is built in a third set) *)
Theorem C68_and : forall X k, dom_ok X k -> forall st t, reach X k st t ->
  exists t', s_and_set X k st t t = Ok t' /\ forall x, cmem X k t' x <-> cmem X k t x.
Proof. intros X k HX st t R. destruct (thm_and_set X k HX st st t t R R) as (t' & E & Z). exists t'. split; [exact E|]. intros x. rewrite Z. tauto. Qed.
Example C68_ex : (exists t, reach Zdom RO Splitting t /\ keys Zdom t = [zi 0 2; zi 2 4; zi 8 9]) /\
  (exists t, reach Zdom RO Joining t /\ keys Zdom t = [zi 0 4; zi 8 9]).
Proof. split; [built Splitting [zi 0 2; zi 2 4; zi 8 9]|built Joining [zi 0 2; zi 2 4; zi 8 9]]; reflexivity. Qed.

(* ------------------------------------------------------------------ C69 *)
(** insert(x, x) leaves an interval map as it is *)
Theorem C69_insert : forall X k, dom_ok X k -> forall CC, eq_ok CC -> forall p t, mreach X k CC p t -> m_self_insert X k (mt CC p) t = Ok t.
Proof. exact thm_mself_insert. Qed.
(** erase(x, x) empties it *)
Theorem C69_erase : forall X k, dom_ok X k -> forall CC, eq_ok CC -> forall p t, proper CC p -> mreach X k CC p t ->
  exists t', m_self_erase X k (mt CC p) t = Ok t' /\ segs X CC t' = [].
Proof. exact thm_mself_erase. Qed.
(** x ^= x empties an absorber, if equal sets have an empty symmetric difference *)
Theorem C69_flip_absorber : forall X k, dom_ok X k -> forall CC, eq_ok CC -> forall p t, mreach X k CC p t -> mp_absorbs p = true ->
  (mp_total p = false -> cc_set_sem CC = true -> forall v : C CC, combine CC (inverse CC (mp_section p)) v v = cc_zero) ->
  exists t', m_self_flip X k (mt CC p) t = Ok t' /\ segs X CC t' = [].
Proof. exact thm_mself_flip. Qed.
(** x += x combines every value with itself, provided that no result is absorbed and, in a
    joining map, that no combined value equals the old or the combined value of a touching
    neighbour.  The full claim, without the provisos, is refuted below. *)
Theorem C69_add_partial : forall X k, dom_ok X k -> forall CC, eq_ok CC -> forall p t, proper CC p -> mreach X k CC p t ->
  (forall a v, In (a, v) (segs X CC t) -> absorbed CC p (combine CC (mp_combine p) v v) = false) ->
  (mp_style p = MJoin -> forall l a v b w r, segs X CC t = l ++ (a, v) :: (b, w) :: r -> touches X k a b = true ->
     combine CC (mp_combine p) v v <> w /\ combine CC (mp_combine p) v v <> combine CC (mp_combine p) w w) ->
  exists t', m_self_add X k (mt CC p) t = Ok t' /\
    segs X CC t' = map (fun s => (fst s, combine CC (mp_combine p) (snd s) (snd s))) (segs X CC t) /\
    forall x, at_ X k CC t' x = option_map (fun v => combine CC (mp_combine p) v v) (at_ X k CC t x).
Proof. exact thm_mself_add. Qed.
(** x -= x under the same provisos, for the inverse combiner *)
Theorem C69_subtract_partial : forall X k, dom_ok X k -> forall CC, eq_ok CC -> forall p t, proper CC p -> mreach X k CC p t ->
  let inv := inverse CC (mp_combine p) in
  (forall a v, In (a, v) (segs X CC t) -> absorbed CC p (combine CC inv v v) = false) ->
  (mp_style p = MJoin -> forall l a v b w r, segs X CC t = l ++ (a, v) :: (b, w) :: r -> touches X k a b = true ->
     combine CC inv v v <> w /\ combine CC inv v v <> combine CC inv w w) ->
  exists t', m_self_subtract X k (mt CC p) t = Ok t' /\
    segs X CC t' = map (fun s => (fst s, combine CC inv (snd s) (snd s))) (segs X CC t) /\
    forall x, at_ X k CC t' x = option_map (fun v => combine CC inv v v) (at_ X k CC t x).
Proof. exact thm_mself_subtract. Qed.
Example C69_ex : (exists t, zreach (absorber MSplit) t /\ proper Zco (absorber MSplit) /\ segs Zdom Zco t = [sg 0 4 1; sg 4 8 2] /\
    (forall a v, In (a, v) (segs Zdom Zco t) -> absorbed Zco (absorber MSplit) (combine Zco F_plus v v) = false)) /\
  (exists t, zreach (absorber MJoin) t /\ proper Zco (absorber MJoin) /\ segs Zdom Zco t = [sg 0 4 1; sg 4 8 3; sg 9 10 6] /\
    (forall a v, In (a, v) (segs Zdom Zco t) -> absorbed Zco (absorber MJoin) (combine Zco F_plus v v) = false) /\
    (forall l a v b w r, segs Zdom Zco t = l ++ (a, v) :: (b, w) :: r -> touches Zdom RO a b = true ->
       combine Zco F_plus v v <> w /\ combine Zco F_plus v v <> combine Zco F_plus w w)) /\
  (exists t, zreach (enricher MSplit) t /\ proper Zco (enricher MSplit) /\ segs Zdom Zco t = [sg 0 4 1; sg 4 8 2] /\
    exists t', m_self_subtract Zdom RO (mt Zco (enricher MSplit)) t = Ok t' /\ segs Zdom Zco t' = [sg 0 4 0; sg 4 8 0]).
Proof.
  split; [|split].
  - mbuilt Zco (absorber MSplit) [sg 0 4 1; sg 4 8 2]. split; [apply Z_proper|]. split; [reflexivity|].
    intros a v [E|[E|[]]]; injection E as _ <-; reflexivity.
  - mbuilt Zco (absorber MJoin) [sg 0 4 1; sg 4 8 3; sg 9 10 6]. split; [apply Z_proper|]. split; [reflexivity|]. split.
    + intros a v [E|[E|[E|[]]]]; injection E as _ <-; reflexivity.
    + intros l a v b w r E HT. cbn in E. destruct l as [|x1 [|x2 [|x3 l]]]; cbn in E.
      * injection E as <- <- <- <- <-. split; discriminate.
      * injection E as _ <- <- <- <- <-. discriminate HT.
      * discriminate E.
      * destruct l; discriminate E.
  - mbuilt Zco (enricher MSplit) [sg 0 4 1; sg 4 8 2]. split; [apply Z_proper|]. split; [reflexivity|]. eexists. split; vm_compute; reflexivity.
Qed.
(** finding: x += x on a joining map gives a wrong result, when a doubled segment joins its
    unchanged successor *)
Theorem C69_add_refuted : exists t t', zreach (absorber MJoin) t /\ segs Zdom Zco t = [sg 0 4 1; sg 4 8 2] /\
  m_self_add Zdom RO (mt Zco (absorber MJoin)) t = Ok t' /\ segs Zdom Zco t' = [sg 0 8 2] /\
  exists x, at_ Zdom RO Zco t' x <> option_map (fun v => combine Zco F_plus v v) (at_ Zdom RO Zco t x).
Proof.
  assert (H : exists t, zreach (absorber MJoin) t /\ segs Zdom Zco t = [sg 0 4 1; sg 4 8 2] /\ exists t', m_self_add Zdom RO (mt Zco (absorber MJoin)) t = Ok t' /\ segs Zdom Zco t' = [sg 0 8 2]).
  { mbuilt Zco (absorber MJoin) [sg 0 4 1; sg 4 8 2]. split; [reflexivity|]. eexists. split; vm_compute; reflexivity. }
  destruct H as (t & R & S & t' & E & S'). exists t, t'. split; [exact R|]. split; [exact S|]. split; [exact E|]. split; [exact S'|].
  exists 4%Z. unfold at_. rewrite S, S'. vm_compute. discriminate.
Qed.
(** finding: x -= x uses an iterator to an erased segment, for every non-empty absorber over a
    codomain with v - v = 0 *)
Theorem C69_subtract_refuted : forall X k, dom_ok X k -> forall CC, eq_ok CC -> forall p t, proper CC p -> mreach X k CC p t ->
  mp_absorbs p = true -> (forall v : C CC, combine CC (inverse CC (mp_combine p)) v v = cc_zero) -> segs X CC t <> [] ->
  m_self_subtract X k (mt CC p) t = Err Dangling.
Proof. exact thm_mself_subtract_dead. Qed.
(** finding: so does x ^= x on some joining enrichers *)
Theorem C69_flip_refuted : exists t, zreach (enricher MJoin) t /\ segs Zdom Zco t = [sg 0 4 1; sg 4 8 0] /\
  m_self_flip Zdom RO (mt Zco (enricher MJoin)) t = Err Dangling.
Proof. mbuilt Zco (enricher MJoin) [sg 0 4 1; sg 4 8 0]. split; vm_compute; reflexivity. Qed.
Example C69_refuted_ex : exists t, zreach (absorber MJoin) t /\ proper Zco (absorber MJoin) /\ segs Zdom Zco t = [sg 0 4 1] /\
  (forall v : C Zco, combine Zco (inverse Zco (mp_combine (absorber MJoin))) v v = cc_zero).
Proof. mbuilt Zco (absorber MJoin) [sg 0 4 1]. split; [apply Z_proper|]. split; [reflexivity|]. intros v. cbn. apply Z.sub_diag. Qed.

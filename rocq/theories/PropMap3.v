(** Property theorems C59: segment borders of maps.  Reading guide: see PropMap.v.
    [same_seg X k (keys X t) x y]: one stored segment of t contains both x and y;
    [clear_of X P x y]: no element from x to y satisfies P; [cmem X k t x]: t maps x. *)
From Verif Require Import MapSpec MapReach MapThms MapThms2 MapThms3 MapThms4 MapBorders SetSpec SetThms Instances MapInst PropMap.
From Verif Require Import MapModel.
From Coq Require Import ZArith.
Open Scope nat_scope.

(* ------------------------------------------------------------------ C59 *)
(** After addition to (or subtraction from) a split_interval_map, x <= y share a segment iff
    they are mapped, the old segments do not separate them (they shared one, or nothing was
    mapped between them) and the borders of the operand do not separate them either. *)
Theorem C59_add_borders : forall X k, dom_ok X k -> forall CC, eq_ok CC -> forall p t, mreach X k CC p t -> mp_style p = MSplit ->
  forall a v, (exists x, mem X k a x) -> absorbed CC p v = false ->
  exists t', m_add X k (mt CC p) t a v = Ok t' /\
    forall x y, le x y -> (same_seg X k (keys X t') x y <->
      cmem X k t' x /\
      (same_seg X k (keys X t) x y \/ clear_of X (cmem X k t) x y) /\
      ((mem X k a x /\ mem X k a y) \/ clear_of X (mem X k a) x y)).
Proof. exact thm_add_borders. Qed.
Theorem C59_subtract_borders : forall X k, dom_ok X k -> forall CC, eq_ok CC -> forall p t, mreach X k CC p t -> mp_style p = MSplit ->
  forall a v, (exists x, mem X k a x) -> absorbed CC p v = false ->
  exists t', m_subtract X k (mt CC p) t a v = Ok t' /\
    forall x y, le x y -> (same_seg X k (keys X t') x y <->
      cmem X k t' x /\
      (same_seg X k (keys X t) x y \/ clear_of X (cmem X k t) x y) /\
      ((mem X k a x /\ mem X k a y) \/ clear_of X (mem X k a) x y)).
Proof. exact thm_subtract_borders. Qed.
(** insertion keeps every old segment and fills each gap of the operand with one segment *)
Theorem C59_insert_borders : forall X k, dom_ok X k -> forall CC, eq_ok CC -> forall p t, mreach X k CC p t -> mp_style p = MSplit ->
  forall a v, absorbed CC p v = false ->
  exists t', m_insert X k (mt CC p) t a v = Ok t' /\
    forall x y, le x y -> (same_seg X k (keys X t') x y <->
      same_seg X k (keys X t) x y \/ (mem X k a x /\ mem X k a y /\ clear_of X (cmem X k t) x y)).
Proof. exact thm_insert_borders. Qed.
(** set makes the operand one segment and keeps the other borders *)
Theorem C59_set_borders : forall X k, dom_ok X k -> forall CC, eq_ok CC -> forall p t a v, mreach X k CC p t -> mp_style p = MSplit ->
  exists t', m_set X k (mt CC p) t a v = Ok t' /\
    forall x y, le x y -> (same_seg X k (keys X t') x y <->
      (mem X k a x /\ mem X k a y /\ absorbed CC p v = false) \/ (same_seg X k (keys X t) x y /\ clear_of X (mem X k a) x y)).
Proof. exact thm_set_borders. Qed.
(** erasure keeps the borders of what remains, in both styles *)
Theorem C59_erase_borders : forall X k, dom_ok X k -> forall CC, eq_ok CC -> forall p t, mreach X k CC p t ->
  forall a, exists t', m_erase X k (mt CC p) t a = Ok t' /\
    forall x y, le x y -> (same_seg X k (keys X t') x y <-> same_seg X k (keys X t) x y /\ clear_of X (mem X k a) x y).
Proof. exact thm_merase_borders. Qed.
Theorem C59_erase_segment_borders : forall X k, dom_ok X k -> forall CC, eq_ok CC -> forall p t, mreach X k CC p t ->
  forall a v, absorbed CC p v = false -> exists t', m_erase_seg X k (mt CC p) t a v = Ok t' /\
    forall x y, le x y -> (same_seg X k (keys X t') x y <->
      same_seg X k (keys X t) x y /\ (at_ X k CC t x <> Some v \/ clear_of X (mem X k a) x y)).
Proof. exact thm_merase_seg_borders. Qed.

Example C59_ex : exists t, zreach (absorber MSplit) t /\ segs Zdom Zco t = [sg 0 2 1; sg 2 4 3; sg 4 6 2] /\
  (exists t', m_subtract Zdom RO (mt Zco (absorber MSplit)) t (zi 2 4) 2%Z = Ok t' /\ segs Zdom Zco t' = [sg 0 2 1; sg 2 4 1; sg 4 6 2]) /\
  (exists t', m_insert Zdom RO (mt Zco (absorber MSplit)) t (zi 1 9) 2%Z = Ok t' /\ segs Zdom Zco t' = [sg 0 2 1; sg 2 4 3; sg 4 6 2; sg 6 9 2]) /\
  (exists t', m_set Zdom RO (mt Zco (absorber MSplit)) t (zi 1 5) 2%Z = Ok t' /\ segs Zdom Zco t' = [sg 0 1 1; sg 1 5 2; sg 5 6 2]).
Proof. mbuilt Zco (absorber MSplit) [sg 0 4 1; sg 2 6 2]. repeat split; try (eexists; split; vm_compute; reflexivity). Qed.

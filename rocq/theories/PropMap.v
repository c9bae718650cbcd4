(** Property theorems C31-C45, C47-C49, C51, C54-C58: interval_map and split_interval_map.
    Vocabulary: Spec.v, SetSpec.v and MapSpec.v.  [at_ X k CC t x] is the value the map t
    associates with the element x; [changed t t' P g]: t' is t with every association
    o of an element satisfying P replaced by g o; [combined t o t' g]: the same with g v
    wherever the operand map associates v.  add_val, sub_val, ... of MapSpec.v say what an
    operation does to one association.  Every theorem holds for every ordered domain and
    interval kind satisfying [dom_ok], every codomain whose operator == is equality, every
    style, traits and combiners p, and every map a finite history of operations produces
    ([mreach]); [proper CC p] says that the combiners suit the codomain and is required
    only where named. *)
From Verif Require Import MapSpec MapReach MapThms MapThms2 MapThms3 MapThms4 SetSpec SetThms Instances MapInst.
From Verif Require Import MapModel.
From Coq Require Import Sorted ZArith.
Open Scope nat_scope.

(** concrete maps for the examples: integers to integers or bit sets, right-open intervals *)
Notation zi a b := (construct Zdom RO a%Z b%Z).
Notation sg a b v := (construct Zdom RO a%Z b%Z, v%Z).
Notation zmap := (mbuild Zdom RO Zco).
Notation bmap := (mbuild Zdom RO Bco).
Notation zreach := (mreach Zdom RO Zco).
Notation breach := (mreach Zdom RO Bco).
Ltac mbuilt CC p l := (* the map [mbuild p l] exists and is reachable *)
  let r := eval vm_compute in (mbuild Zdom RO CC p l) in
  match r with Ok ?t => exists t; split; [apply (mbuild_reach Zdom RO CC p l); vm_compute; reflexivity|] end.

(* ------------------------------------------------------------------ C31 *)
(** Iterating from begin() to end() shows the list [segs X CC t] of (interval, value). *)
Theorem C31_ascending : forall X k, dom_ok X k -> forall CC, eq_ok CC -> forall p t, mreach X k CC p t ->
  (exists fuel, mtraverse X CC fuel t (begin_ t) = Ok (segs X CC t)) /\ ascending X k (map fst (segs X CC t)).
Proof.
  intros X k HX CC Hco p t H. pose proof (mreach_inv X k HX CC Hco p t H) as I. split; [exact (mtraverse_at X k CC t I)|].
  pose proof (inv_ascending X k HX t I) as A. unfold segs. rewrite map_map. exact A.
Qed.
Theorem C31_one_value : forall X k, dom_ok X k -> forall CC, eq_ok CC -> forall p t, mreach X k CC p t ->
  forall x v, at_ X k CC t x = Some v <-> exists a, In (a, v) (segs X CC t) /\ mem X k a x.
Proof. intros X k HX CC Hco p t H x v. apply (at_some X k HX CC). exact (mreach_inv X k HX CC Hco p t H). Qed.

Example C31_ex : exists t, zreach (absorber MSplit) t /\
  segs Zdom Zco t = [sg 0 2 1; sg 2 4 4; sg 4 6 3; sg 8 9 7].
Proof. mbuilt Zco (absorber MSplit) [sg 8 9 7; sg 0 4 1; sg 2 6 3]. reflexivity. Qed.

(* ------------------------------------------------------------------ C32 *)
Theorem C32_equal_neighbours_joined : forall X k, dom_ok X k -> forall CC, eq_ok CC -> forall p t,
  mp_style p = MJoin -> mreach X k CC p t -> equal_joined X k CC t.
Proof. exact thm_joined. Qed.
Theorem C32_no_equal_neighbours_touch : forall X k, dom_ok X k -> forall CC, eq_ok CC -> forall p t,
  mp_style p = MJoin -> mreach X k CC p t ->
  forall l a v b w r, segs X CC t = l ++ (a, v) :: (b, w) :: r -> touches X k a b = true -> v <> w.
Proof. exact thm_untouched. Qed.

Example C32_ex : exists t, zreach (absorber MJoin) t /\ segs Zdom Zco t = [sg 0 4 1; sg 4 6 3; sg 8 9 3].
Proof. mbuilt Zco (absorber MJoin) [sg 0 2 1; sg 8 9 3; sg 2 4 1; sg 4 6 3]. reflexivity. Qed.

(* ------------------------------------------------------------------ C33 *)
Theorem C33_no_identity_stored : forall X k, dom_ok X k -> forall CC, eq_ok CC -> forall p t a v,
  mreach X k CC p t -> proper CC p -> mp_absorbs p = true -> In (a, v) (segs X CC t) -> v <> cc_zero.
Proof. exact thm_absorber. Qed.

(** Finding: [proper] cannot be dropped.  With inplace_max over the integers the += of a map
    stores max(0, v) for a new key, so adding a negative value stores the identity element
    in an absorber. *)
Theorem C33_improper_combiner_refuted : exists t, zreach (with_ F_max (absorber MJoin)) t /\ segs Zdom Zco t = [sg 0 2 0].
Proof.
  let r := eval vm_compute in (o <- zmap (with_ F_max (absorber MJoin)) [sg 0 2 (-3)] ;; m_add_map Zdom RO (mt Zco (with_ F_max (absorber MJoin))) t_empty o) in
  match r with Ok ?t => exists t; split; [|reflexivity] end.
  eapply (M_add_map Zdom RO Zco _ (with_ F_max (absorber MJoin))).
  - apply M_clear.
  - eapply (mbuild_reach Zdom RO Zco _ [sg 0 2 (-3)]). vm_compute. reflexivity.
  - vm_compute. reflexivity.
Qed.

Example C33_ex : proper Zco (absorber MJoin) /\ proper Bco (absorber MSplit) /\ proper Nco (with_ F_max (absorber MJoin)) /\
  exists t, zreach (absorber MJoin) t /\ segs Zdom Zco t = [sg 0 2 1; sg 4 6 (-1)].
Proof.
  split; [apply Z_proper|]. split; [apply B_proper|]. split; [apply N_max_proper|].
  mbuilt Zco (absorber MJoin) [sg 0 4 1; sg 2 6 (-1); sg 7 9 0]. reflexivity.
Qed.

(* ------------------------------------------------------------------ C34 *)
Theorem C34_add : forall X k, dom_ok X k -> forall CC, eq_ok CC -> forall p t, mreach X k CC p t -> forall a v,
  exists t', m_add X k (mt CC p) t a v = Ok t' /\ changed X k CC t t' (mem X k a) (add_val CC p v).
Proof. exact thm_madd. Qed.
Theorem C34_add_element : forall X k, dom_ok X k -> forall CC, eq_ok CC -> forall p t, mreach X k CC p t -> forall x v,
  storable X k x -> exists t', m_add_elem X k (mt CC p) t x v = Ok t' /\ changed X k CC t t' (eq x) (add_val CC p v).
Proof. exact thm_madd_elem. Qed.
(** what addition does to one association, spelled out *)
Theorem C34_add_value : forall CC p (v : C CC) o, mp_combine p <> F_minus ->
  add_val CC p v o = match o with
    | Some w => if absorbed CC p v then Some w else store CC p (combine CC (mp_combine p) w v)
    | None => store CC p v
    end.
Proof. exact add_plain. Qed.

Example C34_ex : exists t, zreach (absorber MJoin) t /\ segs Zdom Zco t = [sg 0 4 1] /\
  exists t', m_add Zdom RO (mt Zco (absorber MJoin)) t (zi 2 6) (-1)%Z = Ok t' /\ segs Zdom Zco t' = [sg 0 2 1; sg 4 6 (-1)].
Proof. mbuilt Zco (absorber MJoin) [sg 0 4 1]. split; [reflexivity|]. eexists. split; vm_compute; reflexivity. Qed.

(* ------------------------------------------------------------------ C35 *)
Theorem C35_subtract : forall X k, dom_ok X k -> forall CC, eq_ok CC -> forall p t, mreach X k CC p t -> forall a v,
  exists t', m_subtract X k (mt CC p) t a v = Ok t' /\ changed X k CC t t' (mem X k a) (sub_val CC p v).
Proof. exact thm_msub. Qed.
Theorem C35_subtract_element : forall X k, dom_ok X k -> forall CC, eq_ok CC -> forall p t, mreach X k CC p t -> forall x v,
  storable X k x -> exists t', m_subtract_elem X k (mt CC p) t x v = Ok t' /\ changed X k CC t t' (eq x) (sub_val CC p v).
Proof. exact thm_msub_elem. Qed.

Example C35_ex : exists t, zreach (enricher MJoin) t /\ segs Zdom Zco t = [sg 0 4 1] /\
  (exists t', m_subtract Zdom RO (mt Zco (enricher MJoin)) t (zi 2 6) 1%Z = Ok t' /\ segs Zdom Zco t' = [sg 0 2 1; sg 2 4 0]) /\
  exists u, zreach (tabsorber MJoin) u /\
  exists u', m_subtract Zdom RO (mt Zco (tabsorber MJoin)) u (zi 2 6) 1%Z = Ok u' /\ segs Zdom Zco u' = [sg 0 2 1; sg 4 6 (-1)].
Proof.
  mbuilt Zco (enricher MJoin) [sg 0 4 1]. split; [reflexivity|]. split. { eexists. split; vm_compute; reflexivity. }
  mbuilt Zco (tabsorber MJoin) [sg 0 4 1]. eexists. split; vm_compute; reflexivity.
Qed.

(* ------------------------------------------------------------------ C36 *)
Theorem C36_insert : forall X k, dom_ok X k -> forall CC, eq_ok CC -> forall p t, mreach X k CC p t -> forall a v,
  exists t', m_insert X k (mt CC p) t a v = Ok t' /\ changed X k CC t t' (mem X k a) (ins_val CC p v).
Proof. exact thm_mins. Qed.
Theorem C36_insert_element : forall X k, dom_ok X k -> forall CC, eq_ok CC -> forall p t, mreach X k CC p t -> forall x v,
  storable X k x -> exists t', m_insert_elem X k (mt CC p) t x v = Ok t' /\ changed X k CC t t' (eq x) (ins_val CC p v).
Proof. exact thm_mins_elem. Qed.

Example C36_ex : exists t, zreach (absorber MJoin) t /\
  exists t', m_insert Zdom RO (mt Zco (absorber MJoin)) t (zi (-1) 9) 5%Z = Ok t' /\
    segs Zdom Zco t' = [sg (-1) 0 5; sg 0 2 1; sg 2 4 5; sg 4 6 2; sg 6 9 5].
Proof. mbuilt Zco (absorber MJoin) [sg 0 2 1; sg 4 6 2]. eexists. split; vm_compute; reflexivity. Qed.

(* ------------------------------------------------------------------ C37 *)
Theorem C37_set : forall X k, dom_ok X k -> forall CC, eq_ok CC -> forall p t, mreach X k CC p t -> forall a v,
  exists t', m_set X k (mt CC p) t a v = Ok t' /\ changed X k CC t t' (mem X k a) (put_val CC p v).
Proof. exact thm_mset. Qed.
Theorem C37_set_element : forall X k, dom_ok X k -> forall CC, eq_ok CC -> forall p t, mreach X k CC p t -> forall x v,
  storable X k x -> exists t', m_set_elem X k (mt CC p) t x v = Ok t' /\ changed X k CC t t' (eq x) (put_val CC p v).
Proof. exact thm_mset_elem. Qed.

Example C37_ex : exists t, zreach (absorber MJoin) t /\
  exists t', m_set Zdom RO (mt Zco (absorber MJoin)) t (zi 1 5) 2%Z = Ok t' /\ segs Zdom Zco t' = [sg 0 1 1; sg 1 6 2].
Proof. mbuilt Zco (absorber MJoin) [sg 0 2 1; sg 4 6 2]. eexists. split; vm_compute; reflexivity. Qed.

(* ------------------------------------------------------------------ C38 *)
Theorem C38_erase : forall X k, dom_ok X k -> forall CC, eq_ok CC -> forall p t, mreach X k CC p t -> forall a,
  exists t', m_erase X k (mt CC p) t a = Ok t' /\ changed X k CC t t' (mem X k a) (fun _ => None).
Proof. exact thm_merase. Qed.
Theorem C38_erase_element : forall X k, dom_ok X k -> forall CC, eq_ok CC -> forall p t, mreach X k CC p t -> forall x,
  storable X k x -> exists t', m_erase_key X k (mt CC p) t x = Ok t' /\ changed X k CC t t' (eq x) (fun _ => None).
Proof. exact thm_merase_key. Qed.
(** In an absorber whose combiners are not proper, identity elements that are stored after
    all are not erased by erase((i, 0)). *)
Theorem C38_erase_segment : forall X k, dom_ok X k -> forall CC, eq_ok CC -> forall p t, mreach X k CC p t -> forall a v,
  absorbed CC p v = false \/ proper CC p ->
  exists t', m_erase_seg X k (mt CC p) t a v = Ok t' /\ changed X k CC t t' (mem X k a) (erase_val CC v).
Proof. exact thm_merase_seg. Qed.
Theorem C38_erase_pair : forall X k, dom_ok X k -> forall CC, eq_ok CC -> forall p t, mreach X k CC p t -> forall x v,
  storable X k x -> absorbed CC p v = false \/ proper CC p ->
  exists t', m_erase_pair X k (mt CC p) t x v = Ok t' /\ changed X k CC t t' (eq x) (erase_val CC v).
Proof. exact thm_merase_pair. Qed.

Example C38_ex : exists t, zreach (absorber MSplit) t /\
  (exists t', m_erase Zdom RO (mt Zco (absorber MSplit)) t (zi 1 7) = Ok t' /\ segs Zdom Zco t' = [sg 0 1 1; sg 7 9 1]) /\
  (exists t', m_erase_seg Zdom RO (mt Zco (absorber MSplit)) t (zi 1 8) 1%Z = Ok t' /\ segs Zdom Zco t' = [sg 0 1 1; sg 4 6 2; sg 8 9 1]).
Proof. mbuilt Zco (absorber MSplit) [sg 0 2 1; sg 4 6 2; sg 6 9 1]. split; eexists; split; vm_compute; reflexivity. Qed.

(* ------------------------------------------------------------------ C39 *)
(** m &= (i,v) for partial maps: only keys of i survive; each surviving value is combined
    with v by the section functor ([section]: the codomain's intersection for set types,
    the codomain combiner otherwise).  An absorber ignores the identity element as
    operand. *)
Theorem C39_intersect_segment : forall X k, dom_ok X k -> forall CC, eq_ok CC -> forall p t a v, mreach X k CC p t ->
  mp_combine p <> F_minus -> proper CC p -> mp_total p = false ->
  exists t', m_and_seg X k (mt CC p) t a v = Ok t' /\
    forall x, (mem X k a x -> at_ X k CC t' x = and_plain CC p v (at_ X k CC t x)) /\ (~ mem X k a x -> at_ X k CC t' x = None).
Proof.
  intros X k HX CC Hco p t a v Ht Hf P Et. destruct (thm_mand_seg X k HX CC Hco p t Ht a v Et) as (t' & E & Q). exists t'. split; auto.
  intros x. destruct (Q x) as [Q1 Q2]. split; auto. intros Hx. rewrite Q1 by auto. apply (and_plain_eq X k HX CC Hco); auto.
Qed.
(** the same for every combiner, including inplace_minus *)
Theorem C39_intersect_segment_any_combiner : forall X k, dom_ok X k -> forall CC, eq_ok CC -> forall p t, mreach X k CC p t -> forall a v,
  mp_total p = false -> exists t', m_and_seg X k (mt CC p) t a v = Ok t' /\
    forall x, (mem X k a x -> at_ X k CC t' x = and_val CC p v (at_ X k CC t x)) /\ (~ mem X k a x -> at_ X k CC t' x = None).
Proof. exact thm_mand_seg. Qed.
Theorem C39_intersect_map : forall X k, dom_ok X k -> forall CC, eq_ok CC -> forall p p' t o, mreach X k CC p t -> mreach X k CC p' o ->
  mp_combine p <> F_minus -> proper CC p -> mp_total p = false ->
  exists t', m_and_map X k (mt CC p) t o = Ok t' /\
    forall x, at_ X k CC t' x = match at_ X k CC o x with Some v => and_plain CC p v (at_ X k CC t x) | None => None end.
Proof.
  intros X k HX CC Hco p p' t o Ht Ho Hf P Et. destruct (thm_mand_map X k HX CC Hco p p' t o Ht Ho Et) as (t' & E & Q). exists t'. split; auto.
  intros x. rewrite Q. destruct (at_ X k CC o x); auto. apply (and_plain_eq X k HX CC Hco); auto.
Qed.
Theorem C39_intersect_map_any_combiner : forall X k, dom_ok X k -> forall CC, eq_ok CC -> forall p p' t o, mreach X k CC p t -> mreach X k CC p' o ->
  mp_total p = false -> exists t', m_and_map X k (mt CC p) t o = Ok t' /\
    forall x, at_ X k CC t' x = match at_ X k CC o x with Some v => and_val CC p v (at_ X k CC t x) | None => None end.
Proof. exact thm_mand_map. Qed.
(** m &= i, m &= s, m &= x restrict the map to the keys *)
Theorem C39_restrict_interval : forall X k, dom_ok X k -> forall CC, eq_ok CC -> forall p t a, mreach X k CC p t ->
  mp_combine p <> F_minus -> proper CC p -> exists t', m_and_itv X k (mt CC p) t a = Ok t' /\
    forall x, (mem X k a x -> at_ X k CC t' x = at_ X k CC t x) /\ (~ mem X k a x -> at_ X k CC t' x = None).
Proof.
  intros X k HX CC Hco p t a Ht Hf P. destruct (thm_mand_itv X k HX CC Hco p t Ht a P) as (t' & E & Q). exists t'. split; auto.
  intros x. rewrite <- (copy_plain X k HX CC Hco p t x Hf P Ht). exact (Q x).
Qed.
Theorem C39_restrict_set : forall X k, dom_ok X k -> forall CC, eq_ok CC -> forall p st t s, mreach X k CC p t -> reach X k st s ->
  mp_combine p <> F_minus -> proper CC p -> exists t', m_and_set X k (mt CC p) t s = Ok t' /\
    forall x, (cmem X k s x -> at_ X k CC t' x = at_ X k CC t x) /\ (~ cmem X k s x -> at_ X k CC t' x = None).
Proof.
  intros X k HX CC Hco p st t s Ht Hs Hf P. destruct (thm_mand_set X k HX CC Hco p st t s Ht Hs P) as (t' & E & Q). exists t'. split; auto.
  intros x. rewrite <- (copy_plain X k HX CC Hco p t x Hf P Ht). exact (Q x).
Qed.
Theorem C39_restrict_element : forall X k, dom_ok X k -> forall CC, eq_ok CC -> forall p t x, mreach X k CC p t ->
  mp_combine p <> F_minus -> proper CC p -> storable X k x -> exists t', m_and_key X k (mt CC p) t x = Ok t' /\
    at_ X k CC t' x = at_ X k CC t x /\ forall z, z <> x -> at_ X k CC t' z = None.
Proof.
  intros X k HX CC Hco p t x Ht Hf P Sx. destruct (thm_mand_key X k HX CC Hco p t Ht x Sx) as (t' & E & Q). exists t'. split; auto.
  rewrite <- (copy_plain X k HX CC Hco p t x Hf P Ht). exact Q.
Qed.
(** for total maps intersection is addition *)
Theorem C39_total_segment : forall X k, dom_ok X k -> forall CC, eq_ok CC -> forall p t a v, mreach X k CC p t ->
  mp_combine p <> F_minus -> proper CC p -> mp_total p = true ->
  exists t', m_and_seg X k (mt CC p) t a v = Ok t' /\ changed X k CC t t' (mem X k a) (add_val CC p v).
Proof.
  intros X k HX CC Hco p t a v Ht Hf P Et. destruct (thm_mand_seg_total X k HX CC Hco p t Ht a v Et P) as (t' & E & Q). exists t'. split; auto.
  intros x. specialize (Q x). rewrite (copy_plain X k HX CC Hco p t x Hf P Ht) in Q. exact Q.
Qed.
Theorem C39_total_map : forall X k, dom_ok X k -> forall CC, eq_ok CC -> forall p p' t o, mreach X k CC p t -> mreach X k CC p' o ->
  mp_combine p <> F_minus -> proper CC p -> mp_total p = true ->
  exists t', m_and_map X k (mt CC p) t o = Ok t' /\ combined X k CC t o t' (add_val CC p).
Proof.
  intros X k HX CC Hco p p' t o Ht Ho Hf P Et. destruct (thm_mand_map_total X k HX CC Hco p p' t o Ht Ho Et P) as (t' & E & Q). exists t'. split; auto.
  intros x. specialize (Q x). rewrite (copy_plain X k HX CC Hco p t x Hf P Ht) in Q. exact Q.
Qed.
(** Finding: with the combiner inplace_minus, m &= i does not restrict the map but negates
    the values, because each segment is added to an empty map as 0 - value. *)
Theorem C39_restrict_minus_refuted : exists t, zreach (with_ F_minus (absorber MJoin)) t /\ segs Zdom Zco t = [sg 0 4 (-3)] /\
  exists t', m_and_itv Zdom RO (mt Zco (with_ F_minus (absorber MJoin))) t (zi 1 9) = Ok t' /\ segs Zdom Zco t' = [sg 1 4 3].
Proof.
  mbuilt Zco (with_ F_minus (absorber MJoin)) [sg 0 4 3]. split; [reflexivity|]. eexists. split; vm_compute; reflexivity.
Qed.

Example C39_ex :
  (exists t, breach (absorber MJoin) t /\ mp_combine (absorber MJoin) <> F_minus /\ proper Bco (absorber MJoin) /\
   exists t', m_and_seg Zdom RO (mt Bco (absorber MJoin)) t (zi 1 9) 6%Z = Ok t' /\ segs Zdom Bco t' = [sg 1 4 2; sg 6 8 4]) /\
  (exists t, zreach (absorber MJoin) t /\
   exists t', m_and_seg Zdom RO (mt Zco (absorber MJoin)) t (zi 1 9) 6%Z = Ok t' /\ segs Zdom Zco t' = [sg 1 4 9]).
Proof.
  split.
  - mbuilt Bco (absorber MJoin) [sg 0 4 3; sg 4 6 8; sg 6 8 12]. split; [discriminate|]. split; [apply B_proper|]. eexists. split; vm_compute; reflexivity.
  - mbuilt Zco (absorber MJoin) [sg 0 4 3; sg 4 6 (-6)]. eexists. split; vm_compute; reflexivity.
Qed.

(* ------------------------------------------------------------------ C40 *)
Theorem C40_flip : forall X k, dom_ok X k -> forall CC, eq_ok CC -> forall p t a v, mreach X k CC p t ->
  mp_combine p <> F_minus -> proper CC p -> mp_total p = false -> (exists x, mem X k a x) ->
  exists t', m_flip_seg X k (mt CC p) t a v = Ok t' /\ changed X k CC t t' (mem X k a) (flip_plain CC p v).
Proof.
  intros X k HX CC Hco p t a v Ht Hf P Et Na. destruct (thm_mflip X k HX CC Hco p t Ht a v Et P Na) as (t' & E & Q). exists t'. split; auto.
  intros x. rewrite <- flip_plain_eq by auto. exact (Q x).
Qed.
Theorem C40_flip_element : forall X k, dom_ok X k -> forall CC, eq_ok CC -> forall p t x v, mreach X k CC p t ->
  mp_combine p <> F_minus -> proper CC p -> mp_total p = false -> storable X k x ->
  exists t', m_flip_elem X k (mt CC p) t x v = Ok t' /\ changed X k CC t t' (eq x) (flip_plain CC p v).
Proof.
  intros X k HX CC Hco p t x v Ht Hf P Et Sx. destruct (thm_mflip_elem X k HX CC Hco p t Ht x v Et P Sx) as (t' & E & Q). exists t'. split; auto.
  intros z. rewrite <- flip_plain_eq by auto. exact (Q z).
Qed.
Theorem C40_flip_any_combiner : forall X k, dom_ok X k -> forall CC, eq_ok CC -> forall p t, mreach X k CC p t -> forall a v,
  mp_total p = false -> proper CC p -> (exists x, mem X k a x) ->
  exists t', m_flip_seg X k (mt CC p) t a v = Ok t' /\ changed X k CC t t' (mem X k a) (flip_val CC p v).
Proof. exact thm_mflip. Qed.
Theorem C40_flip_map : forall X k, dom_ok X k -> forall CC, eq_ok CC -> forall p p' t o, mreach X k CC p t -> mreach X k CC p' o ->
  mp_combine p <> F_minus -> proper CC p -> mp_total p = false ->
  exists t', m_flip_map X k (mt CC p) t o = Ok t' /\ combined X k CC t o t' (flip_plain CC p).
Proof.
  intros X k HX CC Hco p p' t o Ht Ho Hf P Et. destruct (thm_mflip_map X k HX CC Hco p p' t o Ht Ho Et P) as (t' & E & Q). exists t'. split; auto.
  intros x. rewrite Q. destruct (at_ X k CC o x); auto. apply flip_plain_eq; auto.
Qed.
Theorem C40_flip_total_absorber : forall X k, dom_ok X k -> forall CC, eq_ok CC -> forall p t, mreach X k CC p t -> forall a v,
  mp_total p = true -> mp_absorbs p = true -> exists t', m_flip_seg X k (mt CC p) t a v = Ok t' /\ segs X CC t' = [].
Proof. exact thm_mflip_absorber. Qed.
Theorem C40_flip_map_total_absorber : forall X k, dom_ok X k -> forall CC, eq_ok CC -> forall p p' t o, mreach X k CC p t -> mreach X k CC p' o ->
  mp_total p = true -> mp_absorbs p = true -> exists t', m_flip_map X k (mt CC p) t o = Ok t' /\ segs X CC t' = [].
Proof. exact thm_mflip_map_absorber. Qed.
(** a total enricher keeps the keys and resets all values, also outside of the operand *)
Theorem C40_flip_total_enricher : forall X k, dom_ok X k -> forall CC, eq_ok CC -> forall p t, mreach X k CC p t -> forall a v,
  mp_total p = true -> mp_absorbs p = false -> exists t', m_flip_seg X k (mt CC p) t a v = Ok t' /\
  forall x, at_ X k CC t' x = match at_ X k CC t x with Some _ => Some cc_zero | None => if memb X k a x then Some cc_zero else None end.
Proof. exact thm_mflip_enricher. Qed.
Theorem C40_flip_map_total_enricher : forall X k, dom_ok X k -> forall CC, eq_ok CC -> forall p p' t o, mreach X k CC p t -> mreach X k CC p' o ->
  mp_total p = true -> mp_absorbs p = false -> proper CC p -> exists t', m_flip_map X k (mt CC p) t o = Ok t' /\
  forall x, at_ X k CC t' x = match at_ X k CC t x, at_ X k CC o x with None, None => None | _, _ => Some cc_zero end.
Proof. exact thm_mflip_map_enricher. Qed.
(** Finding: flip with an empty interval on a non-empty partial map runs into the
    comparator's assertion, as for sets. *)
Theorem C40_flip_empty_refuted : exists t, zreach (absorber MJoin) t /\
  m_flip_seg Zdom RO (mt Zco (absorber MJoin)) t (zi 3 3) 1%Z = Err Empty_key.
Proof. mbuilt Zco (absorber MJoin) [sg 0 4 3]. vm_compute. reflexivity. Qed.

Example C40_ex :
  (exists t, breach (absorber MJoin) t /\
   exists t', m_flip_seg Zdom RO (mt Bco (absorber MJoin)) t (zi 1 9) 6%Z = Ok t' /\ segs Zdom Bco t' = [sg 0 1 3; sg 1 4 5; sg 6 9 6]) /\
  (exists t, zreach (enricher MSplit) t /\
   exists t', m_flip_seg Zdom RO (mt Zco (enricher MSplit)) t (zi 1 9) 6%Z = Ok t' /\ segs Zdom Zco t' = [sg 0 1 3; sg 1 4 0; sg 4 9 6]) /\
  (exists x, mem Zdom RO (zi 1 9) x).
Proof.
  split; [|split].
  - mbuilt Bco (absorber MJoin) [sg 0 4 3; sg 4 6 6]. eexists. split; vm_compute; reflexivity.
  - mbuilt Zco (enricher MSplit) [sg 0 4 3]. eexists. split; vm_compute; reflexivity.
  - exists 3%Z. split; reflexivity.
Qed.

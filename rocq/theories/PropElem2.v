(** Property theorem C46: interval containers refine element containers.
    [sagrees X k t s]: the interval set t and the std::set s have the same elements;
    [agrees X k CC t m]: the interval map t and the icl::map m represent the same function;
    [enumerates X P e]: e lists the elements satisfying P once each, in any order;
    [each X op m e]: the element operation op performed for every element of e in turn;
    [restyle p st]: the traits and combiners p with the style st.
    First single operations, then ([C46_sets], [C46_maps]) all histories of operations: two
    programs run side by side ([smirror], [mirror] in ElemSpec.v), then the queries. *)
From Verif Require Import ElemSpec ElemFacts ElemOps ElemThms ElemThms2 ElemConv ElemRefine ElemRefine2 ElemTop.
From Verif Require Import MapSpec MapReach MapThms MapThms2 MapThms3 MapThms4 SetSpec SetThms Instances MapInst PropInterval PropSet PropMap PropElem.
From Verif Require Import MapModel ElemModel.
From Coq Require Import Sorted ZArith.
Open Scope nat_scope.

(* ------------------------------------------------------------------ C46 *)
Theorem C46_set_add : forall X k, dom_ok X k -> forall st t s a e, reach X k st t -> esorted X s -> sagrees X k t s -> enumerates X (mem X k a) e ->
  exists t' it, s_add X k st t a = Ok (t', it) /\ sagrees X k t' (fold_left (es_add X) e s).
Proof. exact ref_add. Qed.
Theorem C46_set_subtract : forall X k, dom_ok X k -> forall st t s a e, reach X k st t -> esorted X s -> sagrees X k t s -> enumerates X (mem X k a) e ->
  exists t' s', s_subtract X k t a = Ok t' /\ each X (es_subtract X) s e = Ok s' /\ sagrees X k t' s'.
Proof. exact ref_subtract. Qed.
Theorem C46_set_flip : forall X k, dom_ok X k -> forall st t s a e, reach X k st t -> esorted X s -> sagrees X k t s -> enumerates X (mem X k a) e ->
  e <> [] -> exists t' s', s_flip_seg X k st t a = Ok t' /\ each X (es_flip X) s e = Ok s' /\ sagrees X k t' s'.
Proof. exact ref_flip. Qed.
(** histories of operations on sets: +=, -=, ^=, &= with intervals and with whole sets *)
Theorem C46_sets : forall X k, dom_ok X k -> forall st t s, smirror X k st t s -> reach X k st t /\ sreach X s /\ sagrees X k t s.
Proof. exact smirror_ok. Qed.

Theorem C46_map_add : forall X k, dom_ok X k -> forall CC, eq_ok CC -> forall p st t m, mreach X k CC (restyle p st) t -> esorted X m -> agrees X k CC t m ->
  forall a e, enumerates X (mem X k a) e ->
  forall v, exists t' m', m_add X k (mt CC (restyle p st)) t a v = Ok t' /\
  each X (fun m x => em_add X (mt CC p) m x v) m e = Ok m' /\ agrees X k CC t' m'.
Proof. exact mref_add. Qed.
Theorem C46_map_subtract : forall X k, dom_ok X k -> forall CC, eq_ok CC -> forall p st t m, mreach X k CC (restyle p st) t -> esorted X m -> agrees X k CC t m ->
  forall a e, enumerates X (mem X k a) e ->
  forall v, proper CC p ->
  (absorbed CC p v = false \/ forall w : C CC, combine CC (inverse CC (mp_combine p)) w cc_zero = w) ->
  exists t' m', m_subtract X k (mt CC (restyle p st)) t a v = Ok t' /\ each X (fun m x => em_subtract X (mt CC p) m x v) m e = Ok m' /\ agrees X k CC t' m'.
Proof. exact mref_subtract. Qed.
Theorem C46_map_insert : forall X k, dom_ok X k -> forall CC, eq_ok CC -> forall p st t m, mreach X k CC (restyle p st) t -> esorted X m -> agrees X k CC t m ->
  forall a e, enumerates X (mem X k a) e ->
  forall v, exists t', m_insert X k (mt CC (restyle p st)) t a v = Ok t' /\
  agrees X k CC t' (fold_left (fun m x => fst (fst (em_insert X (mt CC p) m x v))) e m).
Proof. exact mref_insert. Qed.
Theorem C46_map_erase : forall X k, dom_ok X k -> forall CC, eq_ok CC -> forall p st t m, mreach X k CC (restyle p st) t -> esorted X m -> agrees X k CC t m ->
  forall a e, enumerates X (mem X k a) e ->
  exists t' m', m_erase X k (mt CC (restyle p st)) t a = Ok t' /\
  each X (fun m x => ' (m, _) <- e_erase_key X m x ;; Ok m) m e = Ok m' /\ agrees X k CC t' m'.
Proof. exact mref_erase. Qed.
Theorem C46_map_erase_segment : forall X k, dom_ok X k -> forall CC, eq_ok CC -> forall p st t m, mreach X k CC (restyle p st) t -> esorted X m -> agrees X k CC t m ->
  forall a e, enumerates X (mem X k a) e ->
  forall v, proper CC p -> exists t' m', m_erase_seg X k (mt CC (restyle p st)) t a v = Ok t' /\
  each X (fun m x => ' (m, _) <- em_erase_pair X (mt CC p) m x v ;; Ok m) m e = Ok m' /\ agrees X k CC t' m'.
Proof. exact mref_erase_seg. Qed.
Theorem C46_map_flip : forall X k, dom_ok X k -> forall CC, eq_ok CC -> forall p st t m, mreach X k CC (restyle p st) t -> esorted X m -> agrees X k CC t m ->
  forall a e, enumerates X (mem X k a) e ->
  forall v, mirrored CC p -> e <> [] -> absorbed CC p v = false ->
  exists t' m', m_flip_seg X k (mt CC (restyle p st)) t a v = Ok t' /\ each X (fun m x => em_flip X (mt CC p) m x v) m e = Ok m' /\ agrees X k CC t' m'.
Proof. exact mref_flip. Qed.
(** histories of operations on maps: 16 operations with segments, intervals, maps and sets *)
Theorem C46_maps : forall X k, dom_ok X k -> forall CC, eq_ok CC -> forall p st t m, mirrored CC p -> mirror X k CC p st t m ->
  mreach X k CC (restyle p st) t /\ ereach X CC p false m /\ agrees X k CC t m.
Proof. exact mirror_ok. Qed.

(** Queries give the same answers on both. *)
Theorem C46_lookup : forall X k, dom_ok X k -> forall CC, eq_ok CC -> forall p st t m, mreach X k CC (restyle p st) t -> ereach X CC p false m -> agrees X k CC t m ->
  forall x, has_room X k x -> exists v, m_lookup X k (mt CC (restyle p st)) t x = Ok v /\ em_lookup X (mt CC p) m x = Ok v.
Proof. exact agree_lookup. Qed.
Theorem C46_contains_pair : forall X k, dom_ok X k -> forall CC, eq_ok CC -> forall p st t m, mreach X k CC (restyle p st) t -> ereach X CC p false m -> agrees X k CC t m ->
  forall x v, has_room X k x -> exists b, m_contains_pair X k (mt CC (restyle p st)) t x v = Ok b /\ em_contains_pair X (mt CC p) m x v = Ok b.
Proof. exact agree_contains_pair. Qed.
Theorem C46_contains : forall X k, dom_ok X k -> forall CC, eq_ok CC -> forall p st t m, mreach X k CC (restyle p st) t -> ereach X CC p false m -> agrees X k CC t m ->
  forall x, mp_total p = false -> has_room X k x -> m_contains_key X k (mt CC (restyle p st)) t x = Ok (e_contains_key X m x).
Proof. exact agree_contains. Qed.
Theorem C46_size : forall X k, dom_ok X k -> forall CC, eq_ok CC -> forall p st t m, mreach X k CC (restyle p st) t -> ereach X CC p false m -> agrees X k CC t m ->
  forall phi sub, integral X phi sub -> disc X = true -> headroom X k t -> c_cardinality X k sub t = Fin (Z.of_nat (e_size X m)).
Proof. exact agree_size'. Qed.
Theorem C46_equal : forall X k, dom_ok X k -> forall CC, eq_ok CC -> forall p st t m, mreach X k CC (restyle p st) t -> ereach X CC p false m -> agrees X k CC t m ->
  forall st' t' m', mreach X k CC (restyle p st') t' -> ereach X CC p false m' -> agrees X k CC t' m' ->
  m_element_equal X k (mt CC (restyle p st)) (co_atomic (mt CC (restyle p st))) t t' = Ok (em_eqb X (mt CC p) m m').
Proof. exact agree_equal. Qed.
Theorem C46_domain : forall X k, dom_ok X k -> forall CC, eq_ok CC -> forall p st t m, mreach X k CC (restyle p st) t -> ereach X CC p false m -> agrees X k CC t m ->
  forall st', exists s, m_domain X k (mt CC (restyle p st)) st' t = Ok s /\ reach X k st' s /\ sagrees X k s (em_domain X (mt CC p) [] m).
Proof. intros X k HX CC _ p st t m R _ A. exact (agree_domain X k HX CC p st t m A). Qed.

Lemma Z_mirrored s a b : mirrored Zco (MPar s a b F_plus F_inter_section).
Proof. split; [apply Z_proper|]. split; [discriminate|]. split; [intros w; cbn; lia|]. cbn. discriminate. Qed.
Lemma B_mirrored s a b : mirrored Bco (MPar s a b F_plus F_inter_section).
Proof.
  split; [apply B_proper|]. split; [discriminate|]. split; [intros w; cbn; apply Z.ldiff_0_r|]. intros _ v w. cbn. apply Z.lxor_comm.
Qed.
Lemma zi_enum : enumerates Zdom (mem Zdom RO (zi 1 4)) [1; 2; 3]%Z.
Proof.
  split; [repeat constructor; cbn; intuition discriminate|]. intros x. unfold mem. cbn. split.
  - intros [<-|[<-|[<-|[]]]]; vm_compute; auto.
  - intros H. assert (1 <= x < 4)%Z; [|lia]. unfold lt, le in H. cbn in H. lia.
Qed.
Example C46_ex : mirrored Zco (absorber MJoin) /\ mirrored Bco (absorber MJoin) /\ enumerates Zdom (mem Zdom RO (zi 1 4)) [1; 2; 3]%Z /\
  exists t, segs Zdom Zco t = [sg 1 4 7] /\ mirror Zdom RO Zco (absorber MJoin) MJoin t [(1, 7); (2, 7); (3, 7)]%Z.
Proof.
  split; [apply Z_mirrored|]. split; [apply B_mirrored|]. split; [apply zi_enum|].
  let r := eval vm_compute in (m_add Zdom RO (mt Zco (absorber MJoin)) t_empty (zi 1 4) 7%Z) in
  match r with Ok ?t => exists t; split; [reflexivity|]; apply (MR_add Zdom RO Zco (absorber MJoin) MJoin t_empty [] (zi 1 4) 7%Z [1; 2; 3]%Z t) end.
  - constructor.
  - apply zi_enum.
  - vm_compute. reflexivity.
  - vm_compute. reflexivity.
Qed.

(** Findings: where the two kinds of maps differ. *)
Notation ztree p a b v := (m_add Zdom RO (mt Zco p) t_empty (zi a b) v).
Ltac zmap_of p a b v := let r := eval vm_compute in (ztree p a b v) in
  match r with Ok ?t => exists t; split; [apply (M_add Zdom RO Zco p t_empty (zi a b) v t); [constructor|vm_compute; reflexivity]|] end.
(** Subtracting the identity element with inplace_max: no effect on the interval map, while the
    icl::map computes min(5, 0) and drops the key. *)
Theorem C46_subtract_identity_refuted : let p := with_ F_max (absorber MJoin) in exists t, zreach p t /\
  agrees Zdom RO Zco t [(1, 5)]%Z /\
  (exists t', m_subtract Zdom RO (mt Zco p) t (zi 1 2) 0%Z = Ok t' /\ at_ Zdom RO Zco t' 1%Z = Some 5%Z) /\
  em_subtract Zdom (mt Zco p) [(1, 5)]%Z 1%Z 0%Z = Ok [].
Proof.
  cbv zeta. zmap_of (with_ F_max (absorber MJoin)) 1%Z 2%Z 5%Z. split; [|split; [eexists; split; vm_compute; reflexivity|vm_compute; reflexivity]].
  intros x. unfold at_, eat. cbn. unfold memb, eqb. cbn. destruct (Z.ltb_spec x 1), (Z.ltb_spec 1 x), (Z.ltb_spec x 2); cbn; try reflexivity; lia.
Qed.
(** Symmetric difference with (k, identity element) in an absorber: the interval map erases the
    key, the icl::map keeps it. *)
Theorem C46_flip_identity_refuted : let p := absorber MJoin in exists t, zreach p t /\ agrees Zdom RO Zco t [(1, 5)]%Z /\
  (exists t', m_flip_seg Zdom RO (mt Zco p) t (zi 1 2) 0%Z = Ok t' /\ segs Zdom Zco t' = []) /\
  em_flip Zdom (mt Zco p) [(1, 5)]%Z 1%Z 0%Z = Ok [(1, 5)]%Z.
Proof.
  cbv zeta. zmap_of (absorber MJoin) 1%Z 2%Z 5%Z. split; [|split; [eexists; split; vm_compute; reflexivity|vm_compute; reflexivity]].
  intros x. unfold at_, eat. cbn. unfold memb, eqb. cbn. destruct (Z.ltb_spec x 1), (Z.ltb_spec 1 x), (Z.ltb_spec x 2); cbn; try reflexivity; lia.
Qed.
(** intersects(map, map): the interval maps do not intersect if the combined values vanish, the
    icl::maps do as soon as they have a common key. *)
Theorem C46_intersects_refuted : let p := absorber MJoin in exists t, zreach p t /\ agrees Zdom RO Zco t [(1, 5)]%Z /\
  exists o, zreach p o /\ agrees Zdom RO Zco o [(1, -5)]%Z /\
  m_intersects_map Zdom RO (mt Zco p) t o = Ok false /\ em_intersects_map Zdom (mt Zco p) [(1, 5)]%Z [(1, -5)]%Z = Ok true.
Proof.
  cbv zeta. zmap_of (absorber MJoin) 1%Z 2%Z 5%Z. split.
  { intros x. unfold at_, eat. cbn. unfold memb, eqb. cbn. destruct (Z.ltb_spec x 1), (Z.ltb_spec 1 x), (Z.ltb_spec x 2); cbn; try reflexivity; lia. }
  zmap_of (absorber MJoin) 1%Z 2%Z (-5)%Z. split; [|split; vm_compute; reflexivity].
  intros x. unfold at_, eat. cbn. unfold memb, eqb. cbn. destruct (Z.ltb_spec x 1), (Z.ltb_spec 1 x), (Z.ltb_spec x 2); cbn; try reflexivity; lia.
Qed.

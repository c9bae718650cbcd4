(** Property theorem C93: segment borders after operations with whole containers.  [same_seg X k (keys X t) x y]: one stored
    interval (segment) of t contains both x and y; [clear_of X P x y]: no element from x to y satisfies P; [cmem X k t x]: t contains x. *)
From Verif Require Import WholeBorders SizeAnd FlipBorders MapSpec MapReach MapThms MapThms2 MapThms3 SetSpec SetThms Instances MapInst PropSet PropMap.
From Verif Require Import MapModel.
From Coq Require Import ZArith Relations.

(* ------------------------------------------------------------------ C93 *)
(** split_interval_map: x and y share a segment of t += o (t -= o) iff x is mapped and neither the segments of t nor those of o separate them *)
Theorem C93_map_add : forall X k, dom_ok X k -> forall CC, eq_ok CC -> forall p p' t o, mreach X k CC p t -> mreach X k CC p' o -> mp_style p = MSplit -> proper CC p ->
  (forall s, In s (segs X CC o) -> absorbed CC p (snd s) = false) ->
  exists t', m_add_map X k (mt CC p) t o = Ok t' /\ forall x y, le x y -> (same_seg X k (keys X t') x y <->
    cmem X k t' x /\ (same_seg X k (keys X t) x y \/ clear_of X (cmem X k t) x y) /\ (same_seg X k (keys X o) x y \/ clear_of X (cmem X k o) x y)).
Proof. exact whole_add. Qed.
Theorem C93_map_subtract : forall X k, dom_ok X k -> forall CC, eq_ok CC -> forall p p' t o, mreach X k CC p t -> mreach X k CC p' o -> mp_style p = MSplit ->
  (forall s, In s (segs X CC o) -> absorbed CC p (snd s) = false) ->
  exists t', m_subtract_map X k (mt CC p) t o = Ok t' /\ forall x y, le x y -> (same_seg X k (keys X t') x y <->
    cmem X k t' x /\ (same_seg X k (keys X t) x y \/ clear_of X (cmem X k t) x y) /\ (same_seg X k (keys X o) x y \/ clear_of X (cmem X k o) x y)).
Proof. exact whole_subtract. Qed.
(** insert keeps the segments of t and fills the gaps with the segments of o *)
Theorem C93_map_insert : forall X k, dom_ok X k -> forall CC, eq_ok CC -> forall p p' t o, mreach X k CC p t -> mreach X k CC p' o -> mp_style p = MSplit ->
  (forall s, In s (segs X CC o) -> absorbed CC p (snd s) = false) ->
  exists t', m_insert_map X k (mt CC p) t o = Ok t' /\ forall x y, le x y -> (same_seg X k (keys X t') x y <->
    same_seg X k (keys X t) x y \/ (same_seg X k (keys X o) x y /\ clear_of X (cmem X k t) x y)).
Proof. exact whole_insert. Qed.
(** erase of a set (also -= of a set), and erase of a map, keep the borders of what remains, in both styles *)
Theorem C93_map_erase_set : forall X k, dom_ok X k -> forall CC, eq_ok CC -> forall p st t o, mreach X k CC p t -> reach X k st o ->
  exists t', m_erase_set X k (mt CC p) t o = Ok t' /\ forall x y, le x y -> (same_seg X k (keys X t') x y <->
    same_seg X k (keys X t) x y /\ clear_of X (cmem X k o) x y).
Proof. exact whole_erase_set. Qed.
Theorem C93_map_erase_map : forall X k, dom_ok X k -> forall CC, eq_ok CC -> forall p p' t o, mreach X k CC p t -> mreach X k CC p' o ->
  (forall s, In s (segs X CC o) -> absorbed CC p (snd s) = false) ->
  exists t', m_erase_map X k (mt CC p) t o = Ok t' /\ forall x y, le x y -> (same_seg X k (keys X t') x y <->
    same_seg X k (keys X t) x y /\ forall z, le x z -> le z y -> at_ X k CC o z <> at_ X k CC t x).
Proof. exact whole_erase_map. Qed.
(** t & o of a split map keeps the borders of both; o is an interval, a set, and for partial maps also a segment or a map *)
Theorem C93_map_and_interval : forall X k, dom_ok X k -> forall CC, eq_ok CC -> forall p t a, mreach X k CC p t -> mp_style p = MSplit ->
  exists r, m_and_itv X k (mt CC p) t a = Ok r /\ forall x y, le x y -> (same_seg X k (keys X r) x y <->
    cmem X k r x /\ same_seg X k (keys X t) x y /\ mem X k a x /\ mem X k a y).
Proof. exact whole_and_itv. Qed.
Theorem C93_map_and_set : forall X k, dom_ok X k -> forall CC, eq_ok CC -> forall p st t o, mreach X k CC p t -> reach X k st o -> mp_style p = MSplit ->
  exists r, m_and_set X k (mt CC p) t o = Ok r /\ forall x y, le x y -> (same_seg X k (keys X r) x y <->
    cmem X k r x /\ same_seg X k (keys X t) x y /\ same_seg X k (keys X o) x y).
Proof. exact whole_and_set. Qed.
Theorem C93_map_and_segment : forall X k, dom_ok X k -> forall CC, eq_ok CC -> forall p t a v, mreach X k CC p t -> mp_style p = MSplit -> mt_total (mt CC p) = false ->
  exists r, m_and_seg X k (mt CC p) t a v = Ok r /\ forall x y, le x y -> (same_seg X k (keys X r) x y <->
    cmem X k r x /\ same_seg X k (keys X t) x y /\ mem X k a x /\ mem X k a y).
Proof. exact whole_and_seg. Qed.
Theorem C93_map_and : forall X k, dom_ok X k -> forall CC, eq_ok CC -> forall p p' t o, mreach X k CC p t -> mreach X k CC p' o -> mp_style p = MSplit -> mt_total (mt CC p) = false ->
  exists r, m_and_map X k (mt CC p) t o = Ok r /\ forall x y, le x y -> (same_seg X k (keys X r) x y <->
    cmem X k r x /\ same_seg X k (keys X t) x y /\ same_seg X k (keys X o) x y).
Proof. exact whole_and_map. Qed.
(** ^ of partial split maps, with a segment and with a map: the borders of the result are those of both operands *)
Theorem C93_map_xor_segment : forall X k, dom_ok X k -> forall CC, eq_ok CC -> forall p t a v, mreach X k CC p t -> mp_style p = MSplit -> mt_total (mt CC p) = false -> (exists x, mem X k a x) ->
  exists r, m_flip_seg X k (mt CC p) t a v = Ok r /\ forall x y, le x y -> (same_seg X k (keys X r) x y <->
    cmem X k r x /\ (same_seg X k (keys X t) x y \/ clear_of X (cmem X k t) x y) /\ ((mem X k a x /\ mem X k a y) \/ clear_of X (mem X k a) x y)).
Proof. exact whole_flip_seg. Qed.
Theorem C93_map_xor : forall X k, dom_ok X k -> forall CC, eq_ok CC -> forall p p' t o, mreach X k CC p t -> mreach X k CC p' o -> mp_style p = MSplit -> mt_total (mt CC p) = false ->
  (forall s, In s (segs X CC o) -> absorbed CC p (snd s) = false) ->
  exists r, m_flip_map X k (mt CC p) t o = Ok r /\ forall x y, le x y -> (same_seg X k (keys X r) x y <->
    cmem X k r x /\ (same_seg X k (keys X t) x y \/ clear_of X (cmem X k t) x y) /\ (same_seg X k (keys X o) x y \/ clear_of X (cmem X k o) x y)).
Proof. exact whole_flip_part. Qed.
Example C93_ex_xor : exists t o r r', let p := enricher MSplit in zreach p t /\ zreach p o /\ mt_total (mt Zco p) = false /\
  segs Zdom Zco t = [sg 0 4 1; sg 4 6 1] /\ segs Zdom Zco o = [sg 2 5 2; sg 6 9 2] /\
  m_flip_map Zdom RO (mt Zco p) t o = Ok r /\ segs Zdom Zco r = [sg 0 2 1; sg 2 4 0; sg 4 5 0; sg 5 6 1; sg 6 9 2] /\
  m_flip_seg Zdom RO (mt Zco p) t (zi 2 8) 7%Z = Ok r' /\ segs Zdom Zco r' = [sg 0 2 1; sg 2 4 0; sg 4 6 0; sg 6 8 7].
Proof.
  eexists _, _, _, _. split; [eapply mbuild_reach with (l := [sg 0 4 1; sg 4 6 1]); vm_compute; reflexivity|].
  split; [eapply mbuild_reach with (l := [sg 2 5 2; sg 6 9 2]); vm_compute; reflexivity|]. split; [reflexivity|]. split; [reflexivity|]. split; [reflexivity|].
  split; [vm_compute; reflexivity|]. split; [reflexivity|]. split; [vm_compute; reflexivity|reflexivity].
Qed.
(** total split maps: & adds both operands; ^ of an enricher adds the operand and sets all values to the identity element *)
Theorem C93_map_and_total : forall X k, dom_ok X k -> forall CC, eq_ok CC -> forall p p' t o, mreach X k CC p t -> mreach X k CC p' o -> mp_style p = MSplit -> mt_total (mt CC p) = true -> proper CC p ->
  (forall s, In s (segs X CC o) -> absorbed CC p (snd s) = false) ->
  exists r, m_and_map X k (mt CC p) t o = Ok r /\ forall x y, le x y -> (same_seg X k (keys X r) x y <->
    cmem X k r x /\ (same_seg X k (keys X t) x y \/ clear_of X (cmem X k t) x y) /\ (same_seg X k (keys X o) x y \/ clear_of X (cmem X k o) x y)).
Proof. exact whole_and_total. Qed.
Theorem C93_map_xor_total : forall X k, dom_ok X k -> forall CC, eq_ok CC -> forall p p' t o, mreach X k CC p t -> mreach X k CC p' o -> mp_style p = MSplit -> mt_total (mt CC p) = true -> mt_absorbs (mt CC p) = false -> proper CC p ->
  exists r, m_flip_map X k (mt CC p) t o = Ok r /\ forall x y, le x y -> (same_seg X k (keys X r) x y <->
    cmem X k r x /\ (same_seg X k (keys X t) x y \/ clear_of X (cmem X k t) x y) /\ (same_seg X k (keys X o) x y \/ clear_of X (cmem X k o) x y)).
Proof. exact whole_flip_total. Qed.
Example C93_ex_total : exists t o r r', let p := tenricher MSplit in
  proper Zco p /\ zreach p t /\ zreach p o /\ segs Zdom Zco t = [sg 0 4 1; sg 4 6 1] /\ segs Zdom Zco o = [sg 2 5 2; sg 7 9 2] /\
  m_and_map Zdom RO (mt Zco p) t o = Ok r /\ segs Zdom Zco r = [sg 0 2 1; sg 2 4 3; sg 4 5 3; sg 5 6 1; sg 7 9 2] /\
  m_flip_map Zdom RO (mt Zco p) t o = Ok r' /\ segs Zdom Zco r' = [sg 0 2 0; sg 2 4 0; sg 4 5 0; sg 5 6 0; sg 7 9 0].
Proof.
  eexists _, _, _, _. split; [apply Z_proper|]. split; [eapply mbuild_reach with (l := [sg 0 4 1; sg 4 6 1]); vm_compute; reflexivity|].
  split; [eapply mbuild_reach with (l := [sg 2 5 2; sg 7 9 2]); vm_compute; reflexivity|]. split; [reflexivity|]. split; [reflexivity|].
  split; [vm_compute; reflexivity|]. split; [reflexivity|]. split; [vm_compute; reflexivity|reflexivity].
Qed.
(** split_interval_set *)
Theorem C93_split_add : forall X k, dom_ok X k -> forall st' t o, reach X k Splitting t -> reach X k st' o ->
  exists r, s_add_set X k Splitting t o = Ok r /\ forall x y, le x y -> (same_seg X k (keys X r) x y <-> (cmem X k t x \/ cmem X k o x) /\
    (same_seg X k (keys X t) x y \/ clear_of X (cmem X k t) x y) /\ (same_seg X k (keys X o) x y \/ clear_of X (cmem X k o) x y)).
Proof. exact whole_s_split. Qed.
(** separate_interval_set: x and y are linked by a chain of stored intervals of t and o, each sharing an element with the next *)
Theorem C93_separate_add : forall X k, dom_ok X k -> forall st' t o, reach X k Separating t -> reach X k st' o ->
  exists r, s_add_set X k Separating t o = Ok r /\ forall x y, same_seg X k (keys X r) x y <->
    clos_trans (D X) (fun x y => same_seg X k (keys X t) x y \/ same_seg X k (keys X o) x y) x y.
Proof. exact whole_s_sep. Qed.
Theorem C93_insert_is_add : forall X k, dom_ok X k -> forall st st' t o, reach X k st t -> reach X k st' o ->
  exists r r', s_insert_set X k st t o = Ok r /\ s_add_set X k st t o = Ok r' /\ s_eqb X k r r' = true.
Proof. exact whole_s_insert. Qed.
(** both: & keeps the borders of both operands, ^ those of the parts that remain; -= as for maps, in every style *)
Theorem C93_set_and : forall X k, dom_ok X k -> forall st st' t o, reach X k st t -> reach X k st' o -> st <> Joining ->
  exists r, s_and_set X k st t o = Ok r /\ forall x y, same_seg X k (keys X r) x y <-> same_seg X k (keys X t) x y /\ same_seg X k (keys X o) x y.
Proof. exact whole_s_and. Qed.
Theorem C93_set_xor : forall X k, dom_ok X k -> forall st st' t o, reach X k st t -> reach X k st' o -> st <> Joining ->
  exists r, s_flip_set X k st t o = Ok r /\ forall x y, le x y -> (same_seg X k (keys X r) x y <->
    (same_seg X k (keys X t) x y /\ clear_of X (cmem X k o) x y) \/ (same_seg X k (keys X o) x y /\ clear_of X (cmem X k t) x y)).
Proof. exact whole_s_xor. Qed.
Theorem C93_set_subtract : forall X k, dom_ok X k -> forall st st' t o, reach X k st t -> reach X k st' o ->
  exists r, s_subtract_set X k t o = Ok r /\ forall x y, le x y -> (same_seg X k (keys X r) x y <-> same_seg X k (keys X t) x y /\ clear_of X (cmem X k o) x y).
Proof. exact whole_s_sub. Qed.
(** the values of an absorbing map are never identity elements: the hypothesis holds for all operands with the same traits *)
Theorem C93_absorber_operand : forall X k, dom_ok X k -> forall CC, eq_ok CC -> forall p o, mreach X k CC p o -> proper CC p ->
  forall s, In s (segs X CC o) -> absorbed CC p (snd s) = false.
Proof. exact operand_stored. Qed.

Example C93_ex : proper Zco (absorber MSplit) /\
  (exists t, zreach (absorber MSplit) t /\ segs Zdom Zco t = [sg 0 4 1; sg 4 6 1] /\
   exists o, zreach (absorber MSplit) o /\ segs Zdom Zco o = [sg 2 5 2; sg 7 9 2] /\
   (exists r, m_add_map Zdom RO (mt Zco (absorber MSplit)) t o = Ok r /\ segs Zdom Zco r = [sg 0 2 1; sg 2 4 3; sg 4 5 3; sg 5 6 1; sg 7 9 2]) /\
   (exists r, m_insert_map Zdom RO (mt Zco (absorber MSplit)) t o = Ok r /\ segs Zdom Zco r = [sg 0 4 1; sg 4 6 1; sg 7 9 2]) /\
   (exists r, m_erase_map Zdom RO (mt Zco (absorber MSplit)) t o = Ok r /\ segs Zdom Zco r = [sg 0 4 1; sg 4 6 1]) /\
   (exists r, m_and_map Zdom RO (mt Zco (absorber MSplit)) t o = Ok r /\ segs Zdom Zco r = [sg 2 4 3; sg 4 5 3]) /\
   (exists r, m_and_itv Zdom RO (mt Zco (absorber MSplit)) t (zi 2 5) = Ok r /\ segs Zdom Zco r = [sg 2 4 1; sg 4 5 1]) /\
   exists u, reach Zdom RO Separating u /\ keys Zdom u = [zi 1 3; zi 3 5] /\
   exists r, m_and_set Zdom RO (mt Zco (absorber MSplit)) t u = Ok r /\ segs Zdom Zco r = [sg 1 3 1; sg 3 4 1; sg 4 5 1]) /\
  (exists t, reach Zdom RO Separating t /\ keys Zdom t = [zi 0 2; zi 2 4; zi 6 8] /\
   exists o, reach Zdom RO Separating o /\ keys Zdom o = [zi 1 3; zi 8 9] /\
   (exists r, s_add_set Zdom RO Separating t o = Ok r /\ keys Zdom r = [zi 0 4; zi 6 8; zi 8 9]) /\
   (exists r, s_and_set Zdom RO Separating t o = Ok r /\ keys Zdom r = [zi 1 2; zi 2 3]) /\
   (exists r, s_flip_set Zdom RO Separating t o = Ok r /\ keys Zdom r = [zi 0 1; zi 3 4; zi 6 8; zi 8 9])).
Proof.
  split; [apply Z_proper|]. split.
  - mbuilt Zco (absorber MSplit) [sg 0 4 1; sg 4 6 1]. split; [reflexivity|]. mbuilt Zco (absorber MSplit) [sg 2 5 2; sg 7 9 2].
    do 6 (split; [first [reflexivity|eexists; split; vm_compute; reflexivity]|]). built Separating [zi 1 3; zi 3 5].
    split; [reflexivity|]. eexists; split; vm_compute; reflexivity.
  - built Separating [zi 0 2; zi 2 4; zi 6 8]. split; [reflexivity|]. built Separating [zi 1 3; zi 8 9]. split; [reflexivity|].
    repeat split; eexists; split; vm_compute; reflexivity.
Qed.

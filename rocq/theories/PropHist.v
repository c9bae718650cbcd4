(** C79, C80: what a history of additions and subtractions leaves, and that its order does not matter.
    [m_history p t l] performs the actions of l on t: (true, (a, v)) is t += (a, v), (false, (a, v)) is t -= (a, v).
    [adds l] is the history that adds the segments of l. *)
From Verif Require Import HistSpec HistThms MapThms MapReach MapInst SetProps SetSpec MapSpec Instances PropInterval PropSet PropMap.
From Verif Require Import MapModel.
From Coq Require Import ZArith Lia.

(* ------------------------------------------------------------------ C79 *)
(** an element is contained iff the last action that concerns it added it *)
Theorem C79_set_history : forall X k, dom_ok X k -> forall st l t, reach X k st t ->
  exists t', s_history X k st t l = Ok t' /\ reach X k st t' /\
  forall x, cmem X k t' x <-> match last_at X k l x with Some b => b = true | None => cmem X k t x end.
Proof. exact hist_set. Qed.
(** a map built by additions associates x with the combination of all values added at x *)
Theorem C79_sum : forall X k, dom_ok X k -> forall CC, eq_ok CC -> forall p l, cmonoid CC (mp_combine p) ->
  exists t, mbuild X k CC p l = Ok t /\
  forall x, at_ X k CC t x = match values_at X k CC l x with
    | [] => None
    | vs => store CC p (fold_left (combine CC (mp_combine p)) vs cc_zero)
    end.
Proof. exact hist_sum. Qed.
(** the overlap counter: the number of intervals that contain x *)
Theorem C79_count_overlaps : forall X k, dom_ok X k -> forall s l, exists t,
  mbuild X k Zco (absorber s) (map (fun a => (a, 1%Z)) l) = Ok t /\
  forall x, at_ X k Zco t x = match length (filter (fun a => memb X k a x) l) with 0 => None | n => Some (Z.of_nat n) end.
Proof. exact count_overlaps. Qed.
(** total maps: the balance of the values added and subtracted at x *)
Theorem C79_balance : forall X k, dom_ok X k -> forall CC, eq_ok CC -> forall p l, cmonoid CC (mp_combine p) -> cgroup CC (mp_combine p) ->
  mp_total p = true -> cc_invertible CC = true ->
  exists t, m_history X k CC p t_empty l = Ok t /\ mreach X k CC p t /\
  forall x, at_ X k CC t x = match at_x X k CC l x with [] => None | vs => store CC p (balance CC (mp_combine p) vs) end.
Proof. exact hist_balance. Qed.
(** absorbing maps, also partial ones: if nothing is subtracted where the balance is the identity element *)
Theorem C79_covered_balance : forall X k, dom_ok X k -> forall CC, eq_ok CC -> forall p l, cmonoid CC (mp_combine p) -> cgroup CC (mp_combine p) ->
  mp_absorbs p = true -> covered X k CC (mp_combine p) l ->
  exists t, m_history X k CC p t_empty l = Ok t /\ mreach X k CC p t /\
  forall x, at_ X k CC t x = store CC p (balance CC (mp_combine p) (at_x X k CC l x)).
Proof. exact hist_covered. Qed.
(** without [covered] a partial map ignores what is subtracted from absent values *)
Theorem C79_uncovered_refuted : exists l t, m_history Zdom RO Zco (absorber MJoin) t_empty l = Ok t /\
  at_ Zdom RO Zco t 1%Z = Some 1%Z /\ balance Zco F_plus (at_x Zdom RO Zco l 1%Z) = 0%Z.
Proof. exists [(false, sg 0 2 1); (true, sg 0 2 1)]. eexists. repeat split; vm_compute; reflexivity. Qed.

Example C79_ex : cmonoid Zco F_plus /\ cgroup Zco F_plus /\ cc_invertible Zco = true /\ cmonoid Nco F_max /\ cmonoid Bco F_plus /\
  (exists t, s_history Zdom RO Joining t_empty [(true, zi 0 9); (false, zi 2 6); (true, zi 4 5)] = Ok t /\ keys Zdom t = [zi 0 2; zi 4 5; zi 6 9]) /\
  last_at Zdom RO [(true, zi 0 9); (false, zi 2 6); (true, zi 4 5)] 3%Z = Some false /\
  covered Zdom RO Zco F_plus [(true, sg 0 9 2); (false, sg 2 6 1)] /\
  (exists t, m_history Zdom RO Zco (absorber MJoin) t_empty [(true, sg 0 9 2); (false, sg 2 6 1)] = Ok t /\ segs Zdom Zco t = [sg 0 2 2; sg 2 6 1; sg 6 9 2]) /\
  values_at Zdom RO Zco [sg 0 4 1; sg 2 6 3; sg 5 9 2] 3%Z = [1%Z; 3%Z].
Proof.
  split; [apply Z_monoid|]. split; [apply Z_group|]. split; [reflexivity|]. split; [apply N_max_monoid|]. split; [apply B_monoid|].
  split. { eexists. split; vm_compute; reflexivity. }
  split; [reflexivity|]. split.
  { intros l1 a v l2 x E M. destruct l1 as [|s1 [|s2 l1]]; cbn [app] in E; [discriminate| |destruct l1; discriminate].
    injection E as <- <- <- _. destruct M as [M1 M2]. unfold le, lt in M1, M2. cbn in M1, M2. apply Z.ltb_ge in M1. apply Z.ltb_lt in M2.
    assert (Mb : memb Zdom RO (zi 0 9) x = true).
    { apply (memb_mem Zdom RO). split; unfold le, lt; cbn; [apply Z.ltb_ge|apply Z.ltb_lt]; lia. }
    unfold at_x. cbn [filter fst snd]. rewrite Mb. discriminate. }
  split. { eexists. split; vm_compute; reflexivity. } reflexivity.
Qed.

(* ------------------------------------------------------------------ C80 *)
(** adding intervals in another order gives an equal set, in every style *)
Theorem C80_set_additions : forall X k, dom_ok X k -> forall st l l' t, Permutation l l' -> reach X k st t ->
  eq_seg X k (foldM (fun t a => ' (t, _) <- s_add X k st t a ;; Ok t) t l)
             (foldM (fun t a => ' (t, _) <- s_add X k st t a ;; Ok t) t l').
Proof. exact set_perm. Qed.
Theorem C80_set_subtractions : forall X k, dom_ok X k -> forall st l l' t, Permutation l l' -> reach X k st t ->
  eq_seg X k (foldM (s_subtract X k) t l) (foldM (s_subtract X k) t l').
Proof. exact sub_perm. Qed.
(** adding segments in another order gives the same function, and for interval_map an equal map *)
Theorem C80_map_additions : forall X k, dom_ok X k -> forall CC, eq_ok CC -> forall p l l' t, proper CC p -> cmonoid CC (mp_combine p) ->
  Permutation l l' -> mreach X k CC p t ->
  law X k CC p (m_history X k CC p t (adds X CC l)) (m_history X k CC p t (adds X CC l')).
Proof.
  intros X k HX CC Hco p l l' t Pp Hm Hp Ht. apply map_law; auto. { apply Permutation_map. exact Hp. }
  left. intros s Hi. apply in_map_iff in Hi. destruct Hi as (w & <- & _). reflexivity.
Qed.
(** the same for additions and subtractions mixed, on total maps *)
Theorem C80_map_history : forall X k, dom_ok X k -> forall CC, eq_ok CC -> forall p l l' t, proper CC p -> cmonoid CC (mp_combine p) -> cgroup CC (mp_combine p) ->
  mp_total p = true -> cc_invertible CC = true -> Permutation l l' -> mreach X k CC p t ->
  law X k CC p (m_history X k CC p t l) (m_history X k CC p t l').
Proof. intros X k HX CC Hco p l l' t Pp Hm Hg Ht Hi Hp Hr. apply map_law; auto. Qed.
(** split_interval_map with an enricher: equal maps *)
Theorem C80_split_enricher_additions : forall X k, dom_ok X k -> forall CC, eq_ok CC -> forall p, mp_style p = MSplit -> mp_absorbs p = false ->
  forall l l' t, proper CC p -> cmonoid CC (mp_combine p) -> Permutation l l' -> mreach X k CC p t ->
  meq_seg X k CC p (m_history X k CC p t (adds X CC l)) (m_history X k CC p t (adds X CC l')).
Proof. exact esplit_law. Qed.
(** ... but not with an absorber: a border survives only if its values were not absorbed *)
Theorem C80_split_absorber_refuted : exists l l' t u, Permutation l l' /\
  m_history Zdom RO Zco (absorber MSplit) t_empty (adds Zdom Zco l) = Ok t /\ m_history Zdom RO Zco (absorber MSplit) t_empty (adds Zdom Zco l') = Ok u /\
  m_eqb Zdom RO (mt Zco (absorber MSplit)) t u = false.
Proof.
  exists [sg 0 2 1; sg 0 2 (-1); sg 1 4 5], [sg 0 2 1; sg 1 4 5; sg 0 2 (-1)]. eexists _, _.
  split. { apply perm_skip. apply perm_swap. } split; [vm_compute; reflexivity|]. split; vm_compute; reflexivity.
Qed.
(** and mixing additions and subtractions on partial maps or sets depends on the order *)
Theorem C80_mixed_order_refuted : exists l l' t u, Permutation l l' /\
  s_history Zdom RO Joining t_empty l = Ok t /\ s_history Zdom RO Joining t_empty l' = Ok u /\ s_eqb Zdom RO t u = false.
Proof.
  exists [(true, zi 0 2); (false, zi 0 2)], [(false, zi 0 2); (true, zi 0 2)]. eexists _, _. split. { apply perm_swap. }
  split; [vm_compute; reflexivity|]. split; vm_compute; reflexivity.
Qed.

Example C80_ex : proper Zco (tabsorber MJoin) /\ proper Zco (enricher MSplit) /\
  (let l := [zi 0 2; zi 2 4; zi 6 8; zi 1 3] in let l' := [zi 1 3; zi 6 8; zi 0 2; zi 2 4] in Permutation l l' /\
   exists t, build Zdom RO Separating l = Ok t /\ keys Zdom t = [zi 0 4; zi 6 8]) /\
  (exists t, m_history Zdom RO Zco (enricher MSplit) t_empty (adds Zdom Zco [sg 0 4 1; sg 2 6 1]) = Ok t /\ segs Zdom Zco t = [sg 0 2 1; sg 2 4 2; sg 4 6 1]).
Proof.
  split; [apply Z_proper|]. split; [apply Z_proper|]. split.
  { split. - apply Permutation_sym. apply (Permutation_cons_app [zi 0 2; zi 2 4; zi 6 8] []). cbn [app]. apply (Permutation_cons_app [zi 0 2; zi 2 4] []). apply Permutation_refl.
    - eexists. split; vm_compute; reflexivity. }
  eexists. split; vm_compute; reflexivity.
Qed.

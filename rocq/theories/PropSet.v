(** Property theorems C13-C30: interval_set, separate_interval_set, split_interval_set.
    Vocabulary: Spec.v (elements and intervals) and SetSpec.v (contents of a container
    [cmem], reachable sets [reach], ...).  Every theorem holds for every ordered domain X
    and interval kind k satisfying [dom_ok], for every style, and for every set a finite
    history of operations can produce.  [exists t', op = Ok t' /\ ...] says that the
    operation terminates without undefined behaviour and yields t'. *)
From Verif Require Import SetSpec SetThms Instances PropInterval.
From Coq Require Import Sorted QArith Qcanon.
Open Scope nat_scope.

(** concrete sets for the examples: integers, right-open intervals *)
Notation zi a b := (construct Zdom RO a%Z b%Z).
Notation zset st l := (build Zdom RO st l).
Ltac built st l := (* the set [build st l] exists and is reachable *)
  let r := eval vm_compute in (build Zdom RO st l) in
  match r with Ok ?t => exists t; split; [apply (build_reach Zdom RO st l); vm_compute; reflexivity|] end.

(* ------------------------------------------------------------------ C13 *)
(** Iterating from begin() to end() shows the list [keys X t]; its intervals have elements
    and every element of an earlier one precedes every element of a later one. *)
Theorem C13_ascending : forall X k, dom_ok X k -> forall st t, reach X k st t ->
  (exists fuel, traverse X fuel t (begin_ t) = Ok (keys X t)) /\ ascending X k (keys X t).
Proof. intros X k HX st t H. split; [apply (traverse_at X k)|apply (inv_ascending X k HX)]; exact (reach_inv X k HX st t H). Qed.

Example C13_ex : exists t, reach Zdom RO Splitting t /\ keys Zdom t = [zi 1 3; zi 3 5; zi 5 7; zi 9 10].
Proof. built Splitting [zi 9 10; zi 1 5; zi 3 7; zi 4 4]. reflexivity. Qed.

(* ------------------------------------------------------------------ C14 *)
Theorem C14_maximal : forall X k, dom_ok X k -> forall t, reach X k Joining t -> maximal X k t.
Proof. intros X k HX t H. destruct (reach_sinv X k HX _ t H). apply (joined_maximal X k HX); assumption. Qed.

Theorem C14_no_neighbours_touch : forall X k, dom_ok X k -> forall t l a b r, reach X k Joining t ->
  keys X t = l ++ a :: b :: r -> touches X k a b = false.
Proof. exact no_touch. Qed.

Example C14_ex : exists t, reach Zdom RO Joining t /\ keys Zdom t = [zi 1 7; zi 9 10].
Proof. built Joining [zi 9 10; zi 1 3; zi 5 7; zi 3 5]. reflexivity. Qed.

(* ------------------------------------------------------------------ C15 *)
Theorem C15_add : forall X k, dom_ok X k -> forall st t a, reach X k st t ->
  exists t' it, s_add X k st t a = Ok (t', it) /\ forall x, cmem X k t' x <-> cmem X k t x \/ mem X k a x.
Proof. exact thm_add. Qed.

Theorem C15_add_element : forall X k, dom_ok X k -> forall st t x, reach X k st t -> storable X k x ->
  exists t' it, s_add_elem X k st t x = Ok (t', it) /\ forall z, cmem X k t' z <-> cmem X k t z \/ z = x.
Proof. exact thm_add_elem. Qed.

Theorem C15_add_empty : forall X k, dom_ok X k -> forall st t a, (forall x, ~ mem X k a x) ->
  s_add X k st t a = Ok (t, None).
Proof. intros X k HX st t a H. apply s_add_empty. exact (em_ex X k HX a H). Qed.

(** Finding: [storable] cannot be dropped.  Adding the greatest element to a set of static
    right-open intervals over a bounded type does nothing, because the interval built from
    it wraps around and is empty. *)
Theorem C15_add_greatest_element_refuted : exists t x,
  reach u8dom RO Joining t /\ s_add_elem u8dom RO Joining t x = Ok (t, None) /\ ~ cmem u8dom RO t x.
Proof.
  exists t_empty, (u8of 255). split; [constructor|]. split; [vm_compute; reflexivity|]. intros (a & [] & _).
Qed.

Example C15_ex : (exists t, reach Zdom RO Separating t /\ keys Zdom t = [zi 1 3; zi 3 5]) /\ storable Zdom RO 4%Z /\
  (exists y : D u8dom, storable u8dom CL (u8of 255)).
Proof.
  split. { built Separating [zi 1 3; zi 3 5]. reflexivity. }
  split. { split; [|right; reflexivity]. split; cbn; auto. exists 5%Z. reflexivity. }
  exists (u8of 0). split; [|right; reflexivity]. split; exact I.
Qed.

(* ------------------------------------------------------------------ C16 *)
Theorem C16_subtract : forall X k, dom_ok X k -> forall st t a, reach X k st t ->
  exists t', s_subtract X k t a = Ok t' /\ forall x, cmem X k t' x <-> cmem X k t x /\ ~ mem X k a x.
Proof. exact thm_subtract. Qed.

Theorem C16_subtract_element : forall X k, dom_ok X k -> forall st t x, reach X k st t -> storable X k x ->
  exists t', s_subtract_elem X k t x = Ok t' /\ forall z, cmem X k t' z <-> cmem X k t z /\ z <> x.
Proof. exact thm_subtract_elem. Qed.

Example C16_ex : exists t, reach Zdom RO Separating t /\ keys Zdom t = [zi 0 2; zi 6 9].
Proof.
  let r := eval vm_compute in (t <- build Zdom RO Separating [zi 0 4; zi 4 9] ;; s_subtract Zdom RO t (zi 2 6)) in
  match r with Ok ?t => exists t; split; [|reflexivity] end.
  eapply (R_subtract Zdom RO Separating _ (zi 2 6)).
  - apply (build_reach Zdom RO Separating [zi 0 4; zi 4 9]). vm_compute. reflexivity.
  - vm_compute. reflexivity.
Qed.

(* ------------------------------------------------------------------ C17 *)
Theorem C17_flip : forall X k, dom_ok X k -> forall st t a, reach X k st t -> (exists x, mem X k a x) ->
  exists t', s_flip_seg X k st t a = Ok t' /\
    forall x, cmem X k t' x <-> (cmem X k t x /\ ~ mem X k a x) \/ (~ cmem X k t x /\ mem X k a x).
Proof. exact thm_flip. Qed.

Theorem C17_flip_element : forall X k, dom_ok X k -> forall st t x, reach X k st t -> storable X k x ->
  exists t', s_flip_elem X k st t x = Ok t' /\
    forall z, cmem X k t' z <-> (cmem X k t z /\ z <> x) \/ (~ cmem X k t z /\ z = x).
Proof. exact thm_flip_elem. Qed.

(** Finding: flip, unlike add and subtract, does not test for an empty argument and runs
    into the comparator's assertion. *)
Theorem C17_flip_empty_refuted : exists t a,
  reach Zdom RO Joining t /\ (forall x, ~ mem Zdom RO a x) /\ s_flip_seg Zdom RO Joining t a = Err Empty_key.
Proof.
  let r := eval vm_compute in (build Zdom RO Joining [zi 0 4]) in match r with Ok ?t => exists t end.
  exists (zi 2 2). split; [apply (build_reach Zdom RO Joining [zi 0 4]); vm_compute; reflexivity|].
  split; [|vm_compute; reflexivity]. intros x [A B]. unfold le, lt in *. cbn in *. lia.
Qed.

Example C17_ex : exists t, reach Zdom RO Joining t /\ keys Zdom t = [zi 0 1; zi 2 4] /\
  exists x, mem Zdom RO (zi 1 3) x.
Proof. built Joining [zi 0 1; zi 2 4]. split; [reflexivity|]. exists 2%Z. split; reflexivity. Qed.

(* ------------------------------------------------------------------ C18 *)
Theorem C18_add_set : forall X k, dom_ok X k -> forall st st' t o, reach X k st t -> reach X k st' o ->
  exists r, s_add_set X k st t o = Ok r /\ forall x, cmem X k r x <-> cmem X k t x \/ cmem X k o x.
Proof. exact thm_add_set. Qed.
Theorem C18_insert_set : forall X k, dom_ok X k -> forall st st' t o, reach X k st t -> reach X k st' o ->
  exists r, s_insert_set X k st t o = Ok r /\ forall x, cmem X k r x <-> cmem X k t x \/ cmem X k o x.
Proof. intros X k HX st st' t o Ht _. exact (thm_insert_set X k HX st t o Ht). Qed.
Theorem C18_subtract_set : forall X k, dom_ok X k -> forall st st' t o, reach X k st t -> reach X k st' o ->
  exists r, s_subtract_set X k t o = Ok r /\ forall x, cmem X k r x <-> cmem X k t x /\ ~ cmem X k o x.
Proof. exact thm_subtract_set. Qed.
Theorem C18_intersect_set : forall X k, dom_ok X k -> forall st st' t o, reach X k st t -> reach X k st' o ->
  exists r, s_and_set X k st t o = Ok r /\ forall x, cmem X k r x <-> cmem X k t x /\ cmem X k o x.
Proof. exact thm_and_set. Qed.
Theorem C18_flip_set : forall X k, dom_ok X k -> forall st st' t o, reach X k st t -> reach X k st' o ->
  exists r, s_flip_set X k st t o = Ok r /\
    forall x, cmem X k r x <-> (cmem X k t x /\ ~ cmem X k o x) \/ (~ cmem X k t x /\ cmem X k o x).
Proof. exact thm_flip_set. Qed.
Theorem C18_intersect_segment : forall X k, dom_ok X k -> forall st t a, reach X k st t ->
  exists r, s_and_seg X k st t a = Ok r /\ forall x, cmem X k r x <-> cmem X k t x /\ mem X k a x.
Proof. exact thm_and_seg. Qed.
Theorem C18_intersect_element : forall X k, dom_ok X k -> forall st t x, reach X k st t -> storable X k x ->
  exists r, s_and_elem X k st t x = Ok r /\ forall z, cmem X k r z <-> cmem X k t z /\ z = x.
Proof. exact thm_and_elem. Qed.

Example C18_ex : exists t, reach Zdom RO Splitting t /\ exists o, reach Zdom RO Separating o /\
  keys Zdom t = [zi 0 2; zi 2 4; zi 4 6] /\ keys Zdom o = [zi 1 3; zi 3 8].
Proof. built Splitting [zi 0 4; zi 2 6]. built Separating [zi 1 3; zi 3 8]. split; reflexivity. Qed.

(* ------------------------------------------------------------------ C19 *)
Theorem C19_hint_irrelevant : forall X k, dom_ok X k -> forall st t h a, reach X k st t -> hint_ok X t h ->
  exists t1 t2 it1 it2, s_add X k st t a = Ok (t1, it1) /\ s_add_hint X k st t h a = Ok (t2, it2) /\ s_eqb X k t1 t2 = true.
Proof. exact thm_hint. Qed.

Example C19_ex : exists t, reach Zdom RO Splitting t /\ keys Zdom t = [zi 0 2; zi 2 4; zi 4 6] /\
  hint_ok Zdom t (begin_ t) /\ begin_ t <> None.
Proof.
  built Splitting [zi 0 4; zi 2 6]. split; [reflexivity|]. split; [|discriminate].
  cbn. eexists. split; [left; reflexivity|reflexivity].
Qed.

(* ------------------------------------------------------------------ C20 *)
Theorem C20_canonical : forall X k, dom_ok X k -> forall t u, reach X k Joining t -> reach X k Joining u ->
  (s_eqb X k t u = true <-> forall x, cmem X k t x <-> cmem X k u x).
Proof. exact thm_canonical. Qed.

(** what operator == means for every style: the same elements share an interval *)
Theorem C20_equal_segments : forall X k, dom_ok X k -> forall st st' t u, reach X k st t -> reach X k st' u ->
  (s_eqb X k t u = true <-> forall x y, same_seg X k (keys X t) x y <-> same_seg X k (keys X u) x y).
Proof. exact thm_equal_segs. Qed.

Example C20_ex : exists t, reach Zdom RO Joining t /\ exists u, reach Zdom RO Joining u /\
  s_eqb Zdom RO t u = true /\ t <> u.
Proof. built Joining [zi 0 4; zi 2 6]. built Joining [zi 2 6; zi 0 1; zi 1 3]. split; [reflexivity|discriminate]. Qed.

(* ------------------------------------------------------------------ C21 *)
Theorem C21_separate_borders : forall X k, dom_ok X k -> forall t a, reach X k Separating t -> (exists x, mem X k a x) ->
  exists t' it, s_add X k Separating t a = Ok (t', it) /\
    forall x y, same_seg X k (keys X t') x y <->
                same_seg X k (keys X t) x y \/ (reaches X k t a x /\ reaches X k t a y).
Proof. exact thm_sep_borders. Qed.

(** x <= y share an interval after the addition iff they are contained, the old
    segmentation does not separate them (they shared an interval, or the old set has no
    element between them) and neither do the borders of a. *)
Theorem C21_split_borders : forall X k, dom_ok X k -> forall t a, reach X k Splitting t -> (exists x, mem X k a x) ->
  exists t' it, s_add X k Splitting t a = Ok (t', it) /\
    forall x y, le x y -> (same_seg X k (keys X t') x y <->
      (cmem X k t x \/ mem X k a x) /\
      (same_seg X k (keys X t) x y \/ clear_of X (cmem X k t) x y) /\
      ((mem X k a x /\ mem X k a y) \/ clear_of X (mem X k a) x y)).
Proof. exact thm_split_borders. Qed.

(** subtraction keeps the borders of what remains, in every style *)
Theorem C21_subtract_borders : forall X k, dom_ok X k -> forall st t a, reach X k st t ->
  exists t', s_subtract X k t a = Ok t' /\
    forall x y, le x y -> (same_seg X k (keys X t') x y <-> same_seg X k (keys X t) x y /\ clear_of X (mem X k a) x y).
Proof. exact thm_sub_borders. Qed.

Example C21_ex : (exists t, reach Zdom RO Separating t /\ keys Zdom t = [zi 0 2; zi 2 9; zi 9 10]) /\
  (exists t, reach Zdom RO Splitting t /\ keys Zdom t = [zi 0 2; zi 2 4; zi 4 6; zi 6 8; zi 8 9; zi 9 10]).
Proof.
  split. { built Separating [zi 0 2; zi 2 4; zi 6 8; zi 9 10; zi 3 9]. reflexivity. }
  built Splitting [zi 0 2; zi 2 4; zi 6 8; zi 9 10; zi 4 9]. reflexivity.
Qed.

(* ------------------------------------------------------------------ C22 *)
Theorem C22_contains_element : forall X k, dom_ok X k -> forall st t x, reach X k st t -> has_room X k x ->
  exists b, s_contains_elem X k t x = Ok b /\ (b = true <-> cmem X k t x).
Proof. exact thm_contains_elem. Qed.
Theorem C22_contains_interval : forall X k, dom_ok X k -> forall st t a, reach X k st t ->
  exists b, s_contains_seg X k t a = Ok b /\ (b = true <-> forall x, mem X k a x -> cmem X k t x).
Proof. exact thm_contains_seg. Qed.
Theorem C22_contains_set : forall X k, dom_ok X k -> forall st st' t o, reach X k st t -> reach X k st' o ->
  exists b, c_contains X k None t o = Ok b /\ (b = true <-> forall x, cmem X k o x -> cmem X k t x).
Proof.
  intros X k HX st st' t o Ht Ho. destruct (thm_compare X k HX st st' t o Ht Ho) as (b & E & _ & B).
  exists (snd b). unfold c_contains. rewrite E. auto.
Qed.
Theorem C22_within_set : forall X k, dom_ok X k -> forall st st' t o, reach X k st t -> reach X k st' o ->
  exists b, c_within X k None t o = Ok b /\ (b = true <-> forall x, cmem X k t x -> cmem X k o x).
Proof.
  intros X k HX st st' t o Ht Ho. destruct (thm_compare X k HX st st' t o Ht Ho) as (b & E & B & _).
  exists (fst b). unfold c_within. rewrite E. auto.
Qed.
Theorem C22_find : forall X k, dom_ok X k -> forall st t x, reach X k st t -> has_room X k x ->
  (exists n, In n (nodes t) /\ mem X k (nkey n) x /\ find_elem X k t x = Ok (Some (nid n))) \/
  (~ cmem X k t x /\ find_elem X k t x = Ok None).
Proof. intros X k HX st t x H. exact (thm_find X k HX t x (reach_inv X k HX st t H)). Qed.

(** Finding: looking up the greatest element of a bounded type in a set of static
    right-open intervals hits the comparator's assertion: [has_room] cannot be dropped. *)
Theorem C22_find_greatest_element_refuted : exists t x,
  reach u8dom RO Joining t /\ s_contains_elem u8dom RO t x = Err Empty_key.
Proof.
  let r := eval vm_compute in (build u8dom RO Joining [construct u8dom RO (u8of 3) (u8of 7)]) in
  match r with Ok ?t => exists t end.
  exists (u8of 255). split; [|vm_compute; reflexivity].
  apply (build_reach u8dom RO Joining [construct u8dom RO (u8of 3) (u8of 7)]). vm_compute. reflexivity.
Qed.

Example C22_ex : exists t, reach Zdom RO Separating t /\
  s_contains_seg Zdom RO t (zi 1 5) = Ok true /\ s_contains_seg Zdom RO t (zi 1 7) = Ok false /\
  s_contains_elem Zdom RO t 4%Z = Ok true /\ s_contains_elem Zdom RO t 6%Z = Ok false /\ has_room Zdom RO 4%Z.
Proof.
  built Separating [zi 0 3; zi 3 6; zi 8 9]. repeat (split; [vm_compute; reflexivity|]).
  split; cbn; auto. exists 5%Z. reflexivity.
Qed.

(* ------------------------------------------------------------------ C23 *)
Theorem C23_intersects_interval : forall X k, dom_ok X k -> forall st t a, reach X k st t ->
  exists b, s_intersects_seg X k t a = Ok b /\ (b = true <-> exists x, cmem X k t x /\ mem X k a x).
Proof. exact thm_intersects_seg. Qed.
Theorem C23_intersects_element : forall X k, dom_ok X k -> forall st t x, reach X k st t -> has_room X k x ->
  exists b, s_intersects_elem X k t x = Ok b /\ (b = true <-> cmem X k t x).
Proof. exact thm_contains_elem. Qed.
Theorem C23_intersects_set : forall X k, dom_ok X k -> forall st st' t o, reach X k st t -> reach X k st' o ->
  exists b, s_intersects X k st t o = Ok b /\ s_disjoint X k st t o = Ok (negb b) /\
    (b = true <-> exists x, cmem X k t x /\ cmem X k o x).
Proof. exact thm_intersects. Qed.

Example C23_ex : exists t, reach Zdom RO Separating t /\ exists o, reach Zdom RO Joining o /\
  s_intersects Zdom RO Separating t o = Ok true /\ s_intersects_seg Zdom RO t (zi 6 8) = Ok false.
Proof. built Separating [zi 0 3; zi 3 6; zi 8 9]. built Joining [zi 6 8; zi 5 6]. split; vm_compute; reflexivity. Qed.

(* ------------------------------------------------------------------ C24 *)
Theorem C24_is_element_equal : forall X k, dom_ok X k -> forall st st' t o, reach X k st t -> reach X k st' o ->
  exists b, is_element_equal X k None t o = Ok b /\ (b = true <-> forall x, cmem X k t x <-> cmem X k o x).
Proof. intros X k HX st st' t o Ht Ho. exact (element_equal_at X k HX t o (reach_inv X k HX _ _ Ht) (reach_inv X k HX _ _ Ho)). Qed.

(** the result of inclusion_compare as its two bits: subset and superset *)
Theorem C24_inclusion_compare : forall X k, dom_ok X k -> forall st st' t o, reach X k st t -> reach X k st' o ->
  exists b, subset_compare X k None t o = Ok b /\
    (fst b = true <-> forall x, cmem X k t x -> cmem X k o x) /\
    (snd b = true <-> forall x, cmem X k o x -> cmem X k t x).
Proof. exact thm_compare. Qed.

Example C24_ex : exists t, reach Zdom RO Separating t /\ exists o, reach Zdom RO Splitting o /\
  subset_compare Zdom RO None t o = Ok r_subset /\ is_element_equal Zdom RO None t t = Ok true.
Proof. built Separating [zi 0 3; zi 3 6; zi 8 9]. built Splitting [zi 0 5; zi 2 7; zi 8 9]. split; vm_compute; reflexivity. Qed.

(* ------------------------------------------------------------------ C25 *)
Theorem C25_cardinality : forall X k, dom_ok X k -> forall phi sub, integral X phi sub -> disc X = true ->
  forall st (t : tree (D X) unit), reach X k st t -> headroom X k t ->
  exists e, enumerates X (cmem X k t) e /\
    c_cardinality X k sub t = Fin (Z.of_nat (List.length e)) /\ c_size X k sub t = Fin (Z.of_nat (List.length e)) /\
    c_length X k sub t = Z.of_nat (List.length e).
Proof. intros X k HX phi sub Hp Hd st t H. exact (thm_cardinality X k HX phi sub Hp Hd t (reach_inv X k HX st t H)). Qed.
(** dense domains: the exact number if it is finite, and otherwise "infinite" *)
Theorem C25_cardinality_dense : forall X k, dom_ok X k -> forall sub, disc X = false -> dense_ok X ->
  forall st (t : tree (D X) unit), reach X k st t ->
  match c_cardinality X k sub t with
  | Fin z => exists e, enumerates X (cmem X k t) e /\ z = Z.of_nat (List.length e)
  | Infinite => forall n, exists l, NoDup l /\ List.length l = n /\ forall x, In x l -> cmem X k t x
  end.
Proof. intros X k HX sub Hd Hde st t H. exact (thm_cardinality_dense X k HX sub t Hd Hde (reach_inv X k HX st t H)). Qed.
Theorem C25_distance : forall X k, dom_ok X k -> forall phi sub, integral X phi sub -> disc X = true ->
  forall st (t : tree (D X) unit), reach X k st t ->
  exists e, enumerates X (hole X k t) e /\ c_distance X k sub t = Z.of_nat (List.length e).
Proof. intros X k HX phi sub Hp Hd st t H. exact (thm_distance X k HX phi sub Hp Hd t (reach_inv X k HX st t H)). Qed.
Theorem C25_interval_count : forall X k st (t : tree (D X) unit), reach X k st t -> interval_count X t = List.length (keys X t).
Proof. intros X k st t _. unfold interval_count, keys. symmetry. apply map_length. Qed.
Theorem C25_hull : forall X k, dom_ok X k -> forall st (t : tree (D X) unit), reach X k st t ->
  exists h, c_hull X k t = Ok h /\
    forall x, mem X k h x <-> exists y z, cmem X k t y /\ cmem X k t z /\ le y x /\ le x z.
Proof. intros X k HX st t H. exact (thm_hull X k HX t (reach_inv X k HX st t H)). Qed.
Theorem C25_first : forall X k, dom_ok X k -> forall st (t : tree (D X) unit), reach X k st t -> has_first X k = true ->
  (exists x, cmem X k t x) -> exists x, c_first X k t = Ok x /\ cmem X k t x /\ forall y, cmem X k t y -> le x y.
Proof. intros X k HX st t H. exact (thm_first X k HX t (reach_inv X k HX st t H)). Qed.
Theorem C25_last : forall X k, dom_ok X k -> forall st (t : tree (D X) unit), reach X k st t -> has_last X k = true ->
  (exists x, cmem X k t x) -> exists x, c_last X k t = Ok x /\ cmem X k t x /\ forall y, cmem X k t y -> le y x.
Proof. intros X k HX st t H. exact (thm_last X k HX t (reach_inv X k HX st t H)). Qed.
(** lower and upper are the borders of the first and of the last stored interval *)
Theorem C25_lower : forall X k, dom_ok X k -> forall st (t : tree (D X) unit) a l, reach X k st t -> keys X t = a :: l -> c_lower X t = Ok (lo a).
Proof. intros X k HX st t a l H. exact (thm_lower X k t a l (reach_inv X k HX st t H)). Qed.
Theorem C25_upper : forall X k, dom_ok X k -> forall st (t : tree (D X) unit) a l, reach X k st t -> keys X t = l ++ [a] -> c_upper X t = Ok (up a).
Proof. intros X k HX st t a l H. exact (thm_upper X k t a l (reach_inv X k HX st t H)). Qed.
(** domain and complement-between of a set *)
Theorem C25_between : forall X k, dom_ok X k -> forall st st' o, reach X k st' o ->
  exists r, s_between X k st o = Ok r /\ reach X k st r /\ forall x, cmem X k r x <-> hole X k o x.
Proof. exact thm_between. Qed.
Theorem C25_domain : forall X k, dom_ok X k -> forall st st' o, reach X k st' o ->
  exists r, s_domain X k st o = Ok r /\ reach X k st r /\ forall x, cmem X k r x <-> cmem X k o x.
Proof. exact thm_domain. Qed.

Example C25_ex : exists t, reach Zdom RO Separating t /\ headroom Zdom RO t /\
  c_cardinality Zdom RO Z.sub t = Fin 7%Z /\ c_distance Zdom RO Z.sub t = 2%Z /\ c_hull Zdom RO t = Ok (zi 0 9) /\
  c_first Zdom RO t = Ok 0%Z /\ c_last Zdom RO t = Ok 8%Z /\ c_lower Zdom t = Ok 0%Z /\ c_upper Zdom t = Ok 9%Z.
Proof.
  built Separating [zi 0 3; zi 3 6; zi 8 9]. split.
  { intros a Ha Hc. discriminate. }
  repeat split; vm_compute; reflexivity.
Qed.

(** rational numbers: {1} is counted, [1,2) is infinite *)
Example C25_ex_dense : exists t u, reach Qdom DC Joining t /\ reach Qdom DC Joining u /\
  c_cardinality Qdom DC (fun _ _ => 0%Z) t = Fin 1%Z /\ c_cardinality Qdom DC (fun _ _ => 0%Z) u = Infinite /\
  disc Qdom = false /\ dense_ok Qdom.
Proof.
  pose (one := Q2Qc 1). pose (two := Q2Qc 2).
  destruct (build Qdom DC Joining [Itv one one b_closed]) as [t|] eqn:Et; [|vm_compute in Et; discriminate].
  destruct (build Qdom DC Joining [Itv one two b_right_open]) as [u|] eqn:Eu; [|vm_compute in Eu; discriminate].
  exists t, u. split; [apply (build_reach _ _ _ _ _ Et)|]. split; [apply (build_reach _ _ _ _ _ Eu)|].
  vm_compute in Et, Eu. injection Et as <-. injection Eu as <-.
  split; [vm_compute; reflexivity|]. split; [vm_compute; reflexivity|].
  pose proof (Qdom_ok DC (or_intror (or_intror eq_refl))) as H. apply H.
Qed.

(* ------------------------------------------------------------------ C26 *)
(** doc/semantics.qbk, "Laws on set types".  Results are compared with operator ==
    ([eq_seg]) or is_element_equal ([eq_elem]). *)
Theorem C26_monoids : forall X k, dom_ok X k -> forall st a b c, reach X k st a -> reach X k st b -> reach X k st c ->
  let plus := plus_ X k st in let sub := minus_ X k in let and := and_ X k st in let none := Ok t_empty in
  let A := Ok a in let B := Ok b in let C := Ok c in
  eq_seg X k (plus A (plus B C)) (plus (plus A B) C) /\ eq_seg X k (plus A none) A /\ eq_seg X k (plus none A) A /\
  eq_seg X k (plus A B) (plus B A) /\ eq_seg X k (plus A A) A /\
  eq_seg X k (and A (and B C)) (and (and A B) C) /\ eq_seg X k (and A B) (and B A) /\ eq_seg X k (and A A) A /\
  eq_seg X k (and A none) none /\
  eq_seg X k (sub A none) A /\ eq_seg X k (sub A A) none.
Proof.
  intros X k HX st a b c Ha Hb Hc. cbv zeta.
  apply (reach_sinv X k HX) in Ha, Hb, Hc.
  refine (conj _ (conj _ (conj _ (conj _ (conj _ (conj _ (conj _ (conj _ (conj _ (conj _ _))))))))));
  [exact (add_assoc X k HX st a b c Ha Hb Hc)|exact (add_neutral X k HX st a b c Ha Hb Hc)|exact (add_neutral_l X k HX st a b c Ha Hb Hc)|exact (add_comm X k HX st a b c Ha Hb Hc)|exact (add_idem X k HX st a b c Ha Hb Hc)
    |exact (and_assoc X k HX st a b c Ha Hb Hc)|exact (and_comm X k HX st a b c Ha Hb Hc)|exact (and_idem X k HX st a b c Ha Hb Hc)|exact (and_empty X k HX st a b c Ha Hb Hc)|exact (sub_neutral X k HX st a b c Ha Hb Hc)|exact (sub_self X k HX st a b c Ha Hb Hc)].
Qed.

Theorem C26_distributivity : forall X k, dom_ok X k -> forall st a b c, reach X k st a -> reach X k st b -> reach X k st c ->
  let plus := plus_ X k st in let sub := minus_ X k in let and := and_ X k st in
  let A := Ok a in let B := Ok b in let C := Ok c in
  (st <> Splitting -> eq_seg X k (plus A (and B C)) (and (plus A B) (plus A C))) /\
  eq_elem X k (plus A (and B C)) (and (plus A B) (plus A C)) /\
  (st <> Splitting -> eq_seg X k (and A (plus B C)) (plus (and A B) (and A C))) /\
  eq_elem X k (and A (plus B C)) (plus (and A B) (and A C)) /\
  eq_seg X k (sub (plus A B) C) (plus (sub A C) (sub B C)) /\
  eq_seg X k (sub (and A B) C) (and (sub A C) (sub B C)).
Proof.
  intros X k HX st a b c Ha Hb Hc. cbv zeta.
  apply (reach_sinv X k HX) in Ha, Hb, Hc.
  split; [exact (distr_add_and X k HX st a b c Ha Hb Hc)|]. split; [exact (distr_add_and_e X k HX st a b c Ha Hb Hc)|].
  split; [exact (distr_and_add X k HX st a b c Ha Hb Hc)|]. split; [exact (distr_and_add_e X k HX st a b c Ha Hb Hc)|].
  split; [exact (rdistr_add_sub X k HX st a b c Ha Hb Hc)|exact (rdistr_and_sub X k HX st a b c Ha Hb Hc)].
Qed.

Theorem C26_de_morgan : forall X k, dom_ok X k -> forall st a b c, reach X k st a -> reach X k st b -> reach X k st c ->
  let plus := plus_ X k st in let sub := minus_ X k in let and := and_ X k st in
  let A := Ok a in let B := Ok b in let C := Ok c in
  eq_seg X k (sub A (plus B C)) (and (sub A B) (sub A C)) /\
  (st = Joining -> eq_seg X k (sub A (and B C)) (plus (sub A B) (sub A C))) /\
  eq_elem X k (sub A (and B C)) (plus (sub A B) (sub A C)).
Proof.
  intros X k HX st a b c Ha Hb Hc. cbv zeta.
  apply (reach_sinv X k HX) in Ha, Hb, Hc.
  split; [exact (demorgan_add X k HX st a b c Ha Hb Hc)|]. split; [exact (demorgan_and X k HX st a b c Ha Hb Hc)|exact (demorgan_and_e X k HX st a b c Ha Hb Hc)].
Qed.

Theorem C26_symmetric_difference : forall X k, dom_ok X k -> forall st a b c, reach X k st a -> reach X k st b -> reach X k st c ->
  let plus := plus_ X k st in let sub := minus_ X k in let and := and_ X k st in let xor := xor_ X k st in
  let A := Ok a in let B := Ok b in let C := Ok c in
  eq_seg X k (sub (plus A B) (and A B)) (plus (sub A B) (sub B A)) /\
  eq_seg X k (xor A B) (plus (sub A B) (sub B A)) /\ eq_seg X k (xor A B) (xor B A) /\
  eq_elem X k (xor A (xor B C)) (xor (xor A B) C).
Proof.
  intros X k HX st a b c Ha Hb Hc. cbv zeta.
  apply (reach_sinv X k HX) in Ha, Hb, Hc.
  split; [exact (symdiff X k HX st a b c Ha Hb Hc)|]. split; [exact (xor_symdiff X k HX st a b c Ha Hb Hc)|].
  split; [exact (xor_comm X k HX st a b c Ha Hb Hc)|exact (xor_assoc_e X k HX st a b c Ha Hb Hc)].
Qed.

(** The two weaker entries of the table cannot be strengthened to operator ==. *)
Theorem C26_split_distributivity_eq_refuted : exists a b c,
  reach Zdom RO Splitting a /\ reach Zdom RO Splitting b /\ reach Zdom RO Splitting c /\
  let plus := plus_ Zdom RO Splitting in let and := and_ Zdom RO Splitting in
  ~ eq_seg Zdom RO (plus (Ok a) (and (Ok b) (Ok c))) (and (plus (Ok a) (Ok b)) (plus (Ok a) (Ok c))).
Proof.
  let r := eval vm_compute in (build Zdom RO Splitting [zi 0 4]) in match r with Ok ?t => exists t end.
  let r := eval vm_compute in (build Zdom RO Splitting [zi 2 3]) in match r with Ok ?t => exists t end.
  exists t_empty.
  split; [apply (build_reach Zdom RO Splitting [zi 0 4]); vm_compute; reflexivity|].
  split; [apply (build_reach Zdom RO Splitting [zi 2 3]); vm_compute; reflexivity|].
  split; [constructor|]. cbv zeta. intros (x & y & E1 & E2 & E3). vm_compute in E1, E2.
  injection E1 as <-. injection E2 as <-. vm_compute in E3. discriminate.
Qed.
Theorem C26_separate_de_morgan_eq_refuted : exists a b c,
  reach Zdom RO Separating a /\ reach Zdom RO Separating b /\ reach Zdom RO Separating c /\
  let plus := plus_ Zdom RO Separating in let sub := minus_ Zdom RO in let and := and_ Zdom RO Separating in
  ~ eq_seg Zdom RO (sub (Ok a) (and (Ok b) (Ok c))) (plus (sub (Ok a) (Ok b)) (sub (Ok a) (Ok c))).
Proof.
  let r := eval vm_compute in (build Zdom RO Separating [zi 0 4]) in match r with Ok ?t => exists t end.
  let r := eval vm_compute in (build Zdom RO Separating [zi 0 2]) in match r with Ok ?t => exists t end.
  let r := eval vm_compute in (build Zdom RO Separating [zi 2 4]) in match r with Ok ?t => exists t end.
  split; [apply (build_reach Zdom RO Separating [zi 0 4]); vm_compute; reflexivity|].
  split; [apply (build_reach Zdom RO Separating [zi 0 2]); vm_compute; reflexivity|].
  split; [apply (build_reach Zdom RO Separating [zi 2 4]); vm_compute; reflexivity|].
  cbv zeta. intros (x & y & E1 & E2 & E3). vm_compute in E1, E2.
  injection E1 as <-. injection E2 as <-. vm_compute in E3. discriminate.
Qed.

Example C26_ex : exists a, reach Zdom RO Splitting a /\ exists b, reach Zdom RO Splitting b /\ exists c, reach Zdom RO Splitting c /\
  keys Zdom a = [zi 0 2; zi 2 4] /\ keys Zdom b = [zi 1 3] /\ keys Zdom c = [zi 3 5; zi 7 8].
Proof. built Splitting [zi 0 2; zi 2 4]. built Splitting [zi 1 3]. built Splitting [zi 3 5; zi 7 8]. repeat split. Qed.

(* ------------------------------------------------------------------ C27 *)
(** Every operation returns: no dereference of end(), no decrement of begin(), no use of an
    iterator to an erased interval, no comparison with an empty interval, no unsorted tree,
    no endless loop.  Preconditions: a non-empty argument of flip (or an empty set), and for
    lookups of an element that it is not the greatest (least) one a static right-open
    (left-open) interval would have to step over. *)
Theorem C27_no_undefined_behaviour : forall X k, dom_ok X k -> forall st st' t o, reach X k st t -> reach X k st' o ->
  (forall a, safe (s_add X k st t a)) /\ (forall h a, hint_ok X t h -> safe (s_add_hint X k st t h a)) /\
  (forall a, safe (s_subtract X k t a)) /\ (forall a, (exists x, mem X k a x) \/ nodes t = [] -> safe (s_flip_seg X k st t a)) /\
  (forall a, safe (s_and_seg X k st t a)) /\
  (forall x, safe (s_add_elem X k st t x) /\ safe (s_subtract_elem X k t x)) /\
  (forall x, has_room X k x -> safe (s_flip_elem X k st t x) /\ safe (s_and_elem X k st t x) /\ safe (find_elem X k t x) /\
     safe (s_contains_elem X k t x) /\ safe (s_intersects_elem X k t x)) /\
  (safe (s_add_set X k st t o) /\ safe (s_insert_set X k st t o) /\ safe (s_subtract_set X k t o) /\
   safe (s_and_set X k st t o) /\ safe (s_flip_set X k st t o)) /\
  (safe (s_assign X k st o) /\ safe (join X k s_coeq t) /\ safe (s_domain X k st o) /\ safe (s_between X k st o)) /\
  (forall a, safe (s_contains_seg X k t a) /\ safe (s_intersects_seg X k t a)) /\
  (safe (s_intersects X k st t o) /\ safe (s_disjoint X k st t o) /\ safe (subset_compare X k None t o) /\
   safe (c_contains X k None t o) /\ safe (c_within X k None t o) /\ safe (is_element_equal X k None t o)) /\
  (safe (c_hull X k t) /\ safe (c_lower X t) /\ safe (c_upper X t) /\ safe (c_first X k t) /\ safe (c_last X k t)) /\
  (exists fuel, safe (traverse X fuel t (begin_ t))).
Proof. exact thm_safe. Qed.

Example C27_ex : exists t, reach Zdom RO Splitting t /\ hint_ok Zdom t (begin_ t) /\ nodes t <> [].
Proof. built Splitting [zi 0 2; zi 1 4]. split; [|discriminate]. cbn. eexists. split; [left|]; reflexivity. Qed.

(* ------------------------------------------------------------------ C28 *)
Theorem C28_assign : forall X k, dom_ok X k -> forall st st' o, reach X k st' o ->
  exists r, s_assign X k st o = Ok r /\ (forall x, cmem X k r x <-> cmem X k o x) /\
    (st <> Joining -> keys X r = keys X o) /\ (st = Joining -> maximal X k r).
Proof. exact thm_assign. Qed.
Theorem C28_join : forall X k, dom_ok X k -> forall st t, reach X k st t ->
  exists r, join X k s_coeq t = Ok r /\ (forall x, cmem X k r x <-> cmem X k t x) /\ maximal X k r.
Proof. exact thm_join. Qed.

Example C28_ex : exists t, reach Zdom RO Splitting t /\ keys Zdom t = [zi 0 1; zi 1 2; zi 2 4; zi 5 6] /\
  exists r, join Zdom RO s_coeq t = Ok r /\ keys Zdom r = [zi 0 4; zi 5 6].
Proof.
  built Splitting [zi 0 2; zi 1 4; zi 5 6]. split; [reflexivity|]. eexists. split; vm_compute; reflexivity.
Qed.

(* ------------------------------------------------------------------ C29 *)
(** [plus]/[minus] are the built-in x + n and x - n wherever they do not overflow. *)
Theorem C29_elements : forall X k, dom_ok X k -> forall phi sub, integral X phi sub -> disc X = true ->
  forall plus minus, (forall x y z, phi y = (phi x + z)%Z -> plus x z = y) -> (forall x y z, phi y = (phi x - z)%Z -> minus x z = y) ->
  forall st (t : tree (D X) unit), reach X k st t -> headroom X k t ->
  exists w, StronglySorted lt w /\ (forall x, In x w <-> cmem X k t x) /\
    (exists fuel l, e_walk X k sub plus fuel t (elements_begin X t) = Ok l /\ map fst l = w) /\
    (exists fuel l, e_walk_back X k sub plus fuel t (elements_end X t) = Ok l /\ map fst l = rev w) /\
    (exists fuel l, r_walk X k sub minus fuel t (elements_end X t) = Ok l /\ map fst l = rev w).
Proof.
  intros X k HX phi sub Hp Hd plus minus H1 H2 st t H Hr.
  destruct (thm_elements X k HX phi sub Hp Hd plus minus H1 H2 t (reach_inv X k HX st t H) Hr) as (w & S & M & (f1 & E1) & (f2 & E2) & (f3 & E3)).
  exists (map fst w). split.
  { clear -S. induction S as [|p l S IH F]; cbn; constructor; auto. rewrite Forall_forall in *.
    intros x Hx. apply in_map_iff in Hx. destruct Hx as (q & <- & Hq). auto. }
  split.
  { intros x. split.
    - intros Hx. apply in_map_iff in Hx. destruct Hx as ([y v] & <- & Hx). apply M in Hx. destruct Hx as (n & Hn & Mn & _).
      exists (nkey n). split; auto. unfold keys. apply in_map; auto.
    - intros (a & Ha & Mx). unfold keys in Ha. apply in_map_iff in Ha. destruct Ha as (n & <- & Hn).
      apply in_map_iff. exists (x, nval n). split; auto. apply M. eauto. }
  split; [exists f1, w; auto|]. split; [exists f2, (rev w)|exists f3, (rev w)]; (split; [assumption|apply map_rev]).
Qed.

Theorem C29_increment_decrement : forall X k, dom_ok X k -> forall phi sub, integral X phi sub -> disc X = true ->
  forall st (t : tree (D X) unit) e, reach X k st t -> headroom X k t -> eiter_ok X k sub t e ->
  exists e', e_incr X k sub t e = Ok e' /\ e_decr X k sub t e' = Ok e /\ (e' = elements_end X t \/ eiter_ok X k sub t e').
Proof. intros X k HX phi sub Hp Hd st t e H. exact (thm_incr_decr X k HX phi sub Hp Hd t e (reach_inv X k HX st t H)). Qed.
Theorem C29_decrement_increment : forall X k, dom_ok X k -> forall phi sub, integral X phi sub -> disc X = true ->
  forall st (t : tree (D X) unit) e, reach X k st t -> headroom X k t ->
  (e = elements_end X t \/ eiter_ok X k sub t e) -> e <> elements_begin X t ->
  exists e', e_decr X k sub t e = Ok e' /\ e_incr X k sub t e' = Ok e /\ eiter_ok X k sub t e'.
Proof. intros X k HX phi sub Hp Hd st t e H. exact (thm_decr_incr X k HX phi sub Hp Hd t e (reach_inv X k HX st t H)). Qed.

(** Finding: for a domain ordered by std::greater the element iterator still adds the
    offset to first().  The set {5,4,3} is iterated as the single element 5. *)
Theorem C29_elements_descending_refuted : exists t, reach Zrev RO Joining t /\
  (forall x, cmem Zrev RO t x <-> (3 <= x <= 5)%Z) /\
  e_walk Zrev RO Z.sub Z.add 10 t (elements_begin Zrev t) = Ok [(5%Z, tt)].
Proof.
  let r := eval vm_compute in (build Zrev RO Joining [construct Zrev RO 5%Z 2%Z]) in match r with Ok ?t => exists t end.
  split; [apply (build_reach Zrev RO Joining [construct Zrev RO 5%Z 2%Z]); vm_compute; reflexivity|].
  split; [|vm_compute; reflexivity].
  intros x. unfold cmem, keys. cbn. split.
  - intros (a & [<-|[]] & A & B). unfold lt, le in *. cbn in *. rewrite Z.gtb_ltb in *. lia.
  - intros H. eexists. split; [left; reflexivity|]. unfold lt, le. cbn. rewrite !Z.gtb_ltb. lia.
Qed.

Example C29_ex : exists t, reach Zdom RO Separating t /\ headroom Zdom RO t /\
  e_walk Zdom RO Z.sub Z.add 10 t (elements_begin Zdom t) = Ok (map (fun z => (z, tt)) [0; 1; 2; 3; 7])%Z.
Proof.
  built Separating [zi 0 2; zi 2 4; zi 7 8]. split. { intros a Ha Hc. discriminate. } vm_compute. reflexivity.
Qed.

(* ------------------------------------------------------------------ C30 *)
Theorem C30_less : forall X k, dom_ok X k -> forall t u v st1 st2 st3, reach X k st1 t -> reach X k st2 u -> reach X k st3 v ->
  s_ltb X k t t = false /\
  (s_ltb X k t u = true -> s_ltb X k u t = false) /\
  (s_ltb X k t u = true -> s_ltb X k u v = true -> s_ltb X k t v = true) /\
  (s_eqb X k t u = true <-> s_ltb X k t u = false /\ s_ltb X k u t = false).
Proof. exact thm_order. Qed.

Example C30_ex : exists t, reach Zdom RO Separating t /\ exists u, reach Zdom RO Separating u /\
  s_ltb Zdom RO t u = true /\ s_eqb Zdom RO t u = false.
Proof. built Separating [zi 0 2; zi 2 4]. built Separating [zi 0 4]. split; vm_compute; reflexivity. Qed.

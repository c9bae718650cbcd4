(** The set properties, assembled from the cut-level facts. *)
From Verif Require Export SetLaws.
From Coq Require Import Sorted.

Section SetThms.
Context (X : dom) (k : kind).
Context (HX : dom_ok X k).
Notation I := (itv (D X)).
Notation node := (node (D X) unit).
Notation tree := (tree (D X) unit).
Notation lc := (lc X k).
Notation uc := (uc X k).
Notation pt := (pt X).
Notation cltb := (cltb X).
Notation ceqb := (ceqb X).
Notation sinv := (sinv X k).
Notation mem := (mem X k).
Notation cmem := (cmem X k).
Notation same_seg := (same_seg X k).
Notation reach := (reach X k).
Ltac cord := cord_ X k HX.
Hint Resolve reach_sinv reach_inv : core.
Ltac cm := rewrite ?(cmem_Rb X k HX), ?(mem_inr X k HX).

Lemma ne_ex a : (exists x, mem a x) <-> ne k a.
Proof. split; [intros (x & M); eapply elem_ne; eauto|apply ne_elem; auto]. Qed.
Lemma em_ex a : (forall x, ~ mem a x) -> is_empty X k a = true.
Proof. intros H. destruct (ne_dec X k HX a) as [E|N]; auto. apply ne_ex in N. destruct N as (x & M). destruct (H x M). Qed.

Lemma build_reach st l t : build X k st l = Ok t -> reach st t.
Proof.
  unfold build. assert (G : forall t0, reach st t0 -> foldM (fun t a => ' (t, _) <- s_add X k st t a ;; Ok t) t0 l = Ok t -> reach st t).
  { induction l as [|a l IH]; cbn [foldM]; intros t0 H E. - congruence.
    - destruct (s_add X k st t0 a) as [[t1 it]|] eqn:E1; cbn [bind] in E; [|discriminate].
      apply (IH t1); auto. eapply R_add; eauto. }
  apply G. constructor.
Qed.

Lemma no_touch t l a b r : reach Joining t -> keys X t = l ++ a :: b :: r -> touches X k a b = false.
Proof.
  intros H E. pose proof (reach_sinv X k HX _ _ H) as [[W S] J]. unfold keys in E.
  apply map_eq_app in E. destruct E as (L & M & En & <- & E). destruct M as [|n [|m M]]; cbn in E; try discriminate.
  injection E as <- <- <-. rewrite En in S, J. pose proof S as S'.
  apply (srt_app X k) in S'. destruct S' as (_ & (Nn & Ab & (Nm & _)) & _). inversion Ab as [|? ? Hnm _]; subst.
  rewrite (touches_ne X k HX) by auto. destruct (ceqb (uc (nkey n)) (lc (nkey m))) eqn:F; auto.
  exfalso. assert (Q : s_coeq (nval n) (nval m) = false) by (apply J; auto; apply in_or_app; cbn; auto). discriminate.
Qed.

Lemma thm_add st t a : reach st t -> exists t' it, s_add X k st t a = Ok (t', it) /\ forall x, cmem t' x <-> cmem t x \/ mem a x.
Proof.
  intros H. destruct (s_add_adds X k HX st t a) as (t' & it & E & _ & _ & P & _); auto. exists t', it. split; auto.
  intros x. cm. destruct (P (pt x)) as [-> _]. cbn [exr existsb]. rewrite orb_false_r, orb_true_iff. tauto.
Qed.
Lemma thm_hint st t h a : reach st t -> hint_ok X t h -> exists t1 t2 it1 it2,
  s_add X k st t a = Ok (t1, it1) /\ s_add_hint X k st t h a = Ok (t2, it2) /\ s_eqb X k t1 t2 = true.
Proof.
  intros H Hh. destruct (ne_dec X k HX a) as [Ea|Na].
  - exists t, t, None, h. rewrite s_add_empty, s_add_hint_empty by auto. conjs; auto.
    apply (s_eqb_at X k HX); eauto.
  - destruct (s_add_at X k HX st t a) as (t1 & i1 & E1 & S1 & _ & [P1 Q1]); eauto.
    destruct (s_add_hint_at X k HX st t h a) as (t2 & i2 & E2 & S2 & _ & [P2 Q2]); eauto. { apply hint_isit; auto. }
    exists t1, t2, i1, i2. conjs; auto. apply (s_eqb_at X k HX); [apply S1|apply S2|]. intros c _.
    destruct (P1 c) as [R1 L1]. destruct (P2 c) as [R2 L2]. split; [congruence|].
    destruct st.
    + rewrite (proj1 (joined_b X k HX _ (proj2 (proj1 S1))) (proj2 S1)), (proj1 (joined_b X k HX _ (proj2 (proj1 S2))) (proj2 S2)). congruence.
    + rewrite (Q1 c), (Q2 c). auto.
    + rewrite (Q1 c), (Q2 c), R1, R2, L1, L2. auto.
Qed.
Lemma thm_subtract st t a : reach st t -> exists t', s_subtract X k t a = Ok t' /\ forall x, cmem t' x <-> cmem t x /\ ~ mem a x.
Proof.
  intros H. destruct (ne_dec X k HX a) as [Ea|Na].
  - exists t. rewrite s_subtract_empty by auto. split; auto. intros x. split; [|tauto]. intros M. split; auto. apply empty_no_point; auto.
  - destruct (s_subtract_at X k HX t a) as (t' & E & _ & P); eauto. exists t'. split; auto.
    intros x. cm. destruct (P (pt x)) as [-> _]. rewrite andb_true_iff, negb_true_iff. destruct (inr k a (pt x)); intuition discriminate.
Qed.
Lemma xor_prop (a b : bool) : xorb a b = true <-> (a = true /\ ~ b = true) \/ (~ a = true /\ b = true).
Proof. destruct a, b; cbn; intuition discriminate. Qed.
Lemma thm_flip st t a : reach st t -> (exists x, mem a x) -> exists t', s_flip_seg X k st t a = Ok t' /\
  forall x, cmem t' x <-> (cmem t x /\ ~ mem a x) \/ (~ cmem t x /\ mem a x).
Proof.
  intros H Na. apply ne_ex in Na. destruct (s_flip_seg_at X k HX st t a) as (t' & E & _ & P); eauto.
  exists t'. split; auto. intros x. cm. destruct (P (pt x)) as [-> _]. apply xor_prop.
Qed.
Lemma thm_flip_elem st t x : reach st t -> storable X k x -> exists t', s_flip_elem X k st t x = Ok t' /\
  forall z, cmem t' z <-> (cmem t z /\ z <> x) \/ (~ cmem t z /\ z = x).
Proof.
  intros H Hx. destruct (s_flip_elem_at X k HX st t x) as (t' & E & _ & P); eauto.
  exists t'. split; auto. intros z. rewrite <- (elem_only X k HX x z Hx). cm. destruct (P (pt z)) as [-> _]. apply xor_prop.
Qed.
Lemma thm_add_elem st t x : reach st t -> storable X k x -> exists t' it, s_add_elem X k st t x = Ok (t', it) /\
  forall z, cmem t' z <-> cmem t z \/ z = x.
Proof.
  intros H Hx. destruct (thm_add st t (singleton X k x) H) as (t' & it & E & P). exists t', it. split; auto.
  intros z. rewrite P, (elem_only X k HX x z Hx). tauto.
Qed.
Lemma thm_subtract_elem st t x : reach st t -> storable X k x -> exists t', s_subtract_elem X k t x = Ok t' /\
  forall z, cmem t' z <-> cmem t z /\ z <> x.
Proof.
  intros H Hx. destruct (thm_subtract st t (singleton X k x) H) as (t' & E & P). exists t'. split; auto.
  intros z. rewrite P, (elem_only X k HX x z Hx). tauto.
Qed.
Lemma thm_and_seg st t a : reach st t -> exists t', s_and_seg X k st t a = Ok t' /\ forall x, cmem t' x <-> cmem t x /\ mem a x.
Proof.
  intros H. destruct (s_and_seg_at X k HX st t a) as (t' & E & _ & P); eauto. exists t'. split; auto.
  intros x. cm. destruct (P (pt x)) as [-> _]. apply andb_true_iff.
Qed.
Lemma thm_and_elem st t x : reach st t -> storable X k x -> exists t', s_and_elem X k st t x = Ok t' /\ forall z, cmem t' z <-> cmem t z /\ z = x.
Proof.
  intros H Hx. destruct (s_and_elem_at X k HX st t x) as (t' & E & _ & P); eauto. exists t'. split; auto.
  intros z. cm. rewrite P. split; intros [A B]; subst; auto.
Qed.

Section Whole.
Context (st st' : style) (t o : tree) (Ht : reach st t) (Ho : reach st' o).
Lemma thm_add_set : exists r, s_add_set X k st t o = Ok r /\ forall x, cmem r x <-> cmem t x \/ cmem o x.
Proof.
  destruct (plus_at X k HX st t o) as (r & E & _ & P); eauto. exists r. split; auto.
  intros x. cm. destruct (P (pt x)) as [-> _]. apply orb_true_iff.
Qed.
Lemma thm_insert_set : exists r, s_insert_set X k st t o = Ok r /\ forall x, cmem r x <-> cmem t x \/ cmem o x.
Proof.
  destruct (s_insert_set_at X k HX st t o) as (r & E & _ & P & _); eauto. exists r. split; auto.
  intros x. cm. destruct (P (pt x)) as [-> _]. rewrite exr_keys. apply orb_true_iff.
Qed.
Lemma thm_subtract_set : exists r, s_subtract_set X k t o = Ok r /\ forall x, cmem r x <-> cmem t x /\ ~ cmem o x.
Proof.
  destruct (minus_at X k HX st t o) as (r & E & _ & P); eauto. exists r. split; auto.
  intros x. cm. destruct (P (pt x)) as [-> _]. rewrite andb_true_iff, negb_true_iff. destruct (Rb k (nodes o) (pt x)); intuition discriminate.
Qed.
Lemma thm_and_set : exists r, s_and_set X k st t o = Ok r /\ forall x, cmem r x <-> cmem t x /\ cmem o x.
Proof.
  destruct (and_at X k HX st t o) as (r & E & _ & P); eauto. exists r. split; auto.
  intros x. cm. destruct (P (pt x)) as [-> _]. apply andb_true_iff.
Qed.
Lemma thm_flip_set : exists r, s_flip_set X k st t o = Ok r /\ forall x, cmem r x <-> (cmem t x /\ ~ cmem o x) \/ (~ cmem t x /\ cmem o x).
Proof.
  destruct (xor_at X k HX st t o) as (r & E & _ & P); eauto. exists r. split; auto.
  intros x. cm. destruct (P (pt x)) as [-> _]. apply xor_prop.
Qed.
Lemma thm_intersects : exists b, s_intersects X k st t o = Ok b /\ s_disjoint X k st t o = Ok (negb b) /\ (b = true <-> exists x, cmem t x /\ cmem o x).
Proof.
  destruct (s_intersects_at X k HX st t o) as (b & E & P); eauto. exists b. unfold s_disjoint. rewrite E. conjs; auto.
  setoid_rewrite (cmem_Rb X k HX). auto.
Qed.
Lemma thm_compare : exists b, subset_compare X k None t o = Ok b /\
  (fst b = true <-> forall x, cmem t x -> cmem o x) /\ (snd b = true <-> forall x, cmem o x -> cmem t x).
Proof.
  destruct (subset_compare_at X k HX None t o) as (b & E & F1 & F2); eauto. exists b. conjs; auto.
  - rewrite F1. unfold subx, fsub. setoid_rewrite (cmem_Rb X k HX). split; intros H x; specialize (H x); revert H; rewrite !vr_unit;
      destruct (Rb k (nodes t) (pt x)), (Rb k (nodes o) (pt x)); auto; intros H; discriminate (H eq_refl).
  - rewrite F2. unfold supx, fsup. setoid_rewrite (cmem_Rb X k HX). split; intros H x; specialize (H x); revert H; rewrite !vr_unit;
      destruct (Rb k (nodes t) (pt x)), (Rb k (nodes o) (pt x)); auto; intros H; discriminate (H eq_refl).
Qed.
End Whole.


Lemma thm_assign st st' o : reach st' o -> exists r, s_assign X k st o = Ok r /\ (forall x, cmem r x <-> cmem o x) /\
  (st <> Joining -> keys X r = keys X o) /\ (st = Joining -> maximal X k r).
Proof.
  intros Ho. destruct (s_assign_at X k HX st o) as (r & E & S & P); eauto. exists r. split; auto. conjs.
  - intros x. destruct st; [|unfold SetSpec.cmem, keys; rewrite P; tauto..].
    cm. destruct P as [P _]. destruct (P (pt x)) as [-> _]. rewrite exr_keys. cbn. tauto.
  - intros Hs. destruct st; auto. congruence.
  - intros ->. apply (joined_maximal X k HX); apply S.
Qed.

Lemma thm_join st t : reach st t -> exists r, join X k s_coeq t = Ok r /\ (forall x, cmem r x <-> cmem t x) /\ maximal X k r.
Proof.
  intros H. destruct (join_at X k HX s_coeq ltac:(intros [] []; cbn; tauto) t) as (u & E' & S & J & O); eauto.
  exists u. conjs; auto. 2: apply (joined_maximal X k HX); auto.
  intros x. cm. rewrite !Rb_vr, (proj1 O (pt x)). tauto.
Qed.

Lemma thm_canonical t u : reach Joining t -> reach Joining u -> (s_eqb X k t u = true <-> forall x, cmem t x <-> cmem u x).
Proof.
  intros Ht Hu. rewrite (joined_eqb X k HX) by (apply (reach_sinv X k HX _ _); auto). unfold same_elems.
  setoid_rewrite (cmem_Rb X k HX). split; intros H x; specialize (H x).
  - rewrite H. tauto.
  - apply bool_iff. auto.
Qed.
Lemma thm_equal_segs st st' t u : reach st t -> reach st' u ->
  (s_eqb X k t u = true <-> forall x y, same_seg (keys X t) x y <-> same_seg (keys X u) x y).
Proof. intros Ht Hu. apply (s_eqb_segs X k HX); eauto. Qed.

Lemma thm_contains_seg st t a : reach st t -> exists b, s_contains_seg X k t a = Ok b /\ (b = true <-> forall x, mem a x -> cmem t x).
Proof.
  intros H. destruct (s_contains_seg_at X k HX t a) as (b & E & P); eauto. exists b. split; auto.
  setoid_rewrite (cmem_Rb X k HX). auto.
Qed.
Lemma thm_contains_elem st t x : reach st t -> has_room X k x -> exists b, s_contains_elem X k t x = Ok b /\ (b = true <-> cmem t x).
Proof. intros H Hx. rewrite (s_contains_elem_at X k HX t x) by eauto. eexists. split; eauto. cm. tauto. Qed.
Lemma thm_find {V} (t : Tree.tree (D X) V) x : inv k t -> has_room X k x ->
  (exists n, In n (nodes t) /\ mem (nkey n) x /\ find_elem X k t x = Ok (Some (nid n))) \/
  (~ cmem t x /\ find_elem X k t x = Ok None).
Proof.
  intros H Hx. destruct (find_elem_at X k HX t x H Hx) as [(L & n & R & E & En & M)|[E M]].
  - left. exists n. conjs; auto. { rewrite En. apply in_elt. } apply mem_inr; auto.
  - right. split; auto. cm. congruence.
Qed.
Lemma thm_intersects_seg st t a : reach st t -> exists b, s_intersects_seg X k t a = Ok b /\ (b = true <-> exists x, cmem t x /\ mem a x).
Proof.
  intros H. destruct (s_intersects_seg_at X k HX t a) as (b & E & P); eauto. exists b. split; auto. rewrite P.
  setoid_rewrite (cmem_Rb X k HX). split; intros (x & A & B); eauto.
Qed.

Lemma thm_sep_borders t a : reach Separating t -> (exists x, mem a x) -> exists t' it, s_add X k Separating t a = Ok (t', it) /\
  forall x y, same_seg (keys X t') x y <-> same_seg (keys X t) x y \/ (reaches X k t a x /\ reaches X k t a y).
Proof.
  intros H Na. apply ne_ex in Na. destruct (s_add_at X k HX _ t a (reach_sinv X k HX _ _ H) Na) as (t' & it & E & S & _ & P & Q).
  exists t', it. split; auto. apply (sep_seg X k HX); eauto. { apply S. } intros c. apply P.
Qed.
Lemma thm_split_borders t a : reach Splitting t -> (exists x, mem a x) -> exists t' it, s_add X k Splitting t a = Ok (t', it) /\
  forall x y, le x y -> (same_seg (keys X t') x y <->
    (cmem t x \/ mem a x) /\ (same_seg (keys X t) x y \/ clear_of X (cmem t) x y) /\ ((mem a x /\ mem a y) \/ clear_of X (mem a) x y)).
Proof.
  intros H Na. apply ne_ex in Na. destruct (s_add_at X k HX _ t a (reach_sinv X k HX _ _ H) Na) as (t' & it & E & S & _ & P & Q).
  exists t', it. split; auto. apply (split_seg X k HX); eauto. { apply S. } all: intros c; apply P.
Qed.
Lemma thm_sub_borders st t a : reach st t -> exists t', s_subtract X k t a = Ok t' /\
  forall x y, le x y -> (same_seg (keys X t') x y <-> same_seg (keys X t) x y /\ clear_of X (mem a) x y).
Proof.
  intros H. destruct (ne_dec X k HX a) as [Ea|Na].
  - exists t. rewrite s_subtract_empty by auto. split; auto. intros x y _. split; [|tauto]. intros Q. split; auto. intros z _ _. apply empty_no_point; auto.
  - destruct (s_subtract_at X k HX t a) as (t' & E & S & P); eauto. exists t'. split; auto.
    apply (sub_seg X k HX); eauto; intros c; apply P.
Qed.

(* ------------------------------------------------------------------- ranges *)
Lemma thm_hull {V} (t : Tree.tree (D X) V) : inv k t -> exists h, c_hull X k t = Ok h /\
  forall x, mem h x <-> exists y z, cmem t y /\ cmem t z /\ le y x /\ le x z.
Proof.
  intros H. destruct (c_hull_at X k HX t H) as (h & E & P). exists h. split; auto. intros x. rewrite P.
  setoid_rewrite (cmem_Rb X k HX). tauto.
Qed.
Lemma thm_first {V} (t : Tree.tree (D X) V) : inv k t -> has_first X k = true -> (exists x, cmem t x) ->
  exists x, c_first X k t = Ok x /\ cmem t x /\ forall y, cmem t y -> le x y.
Proof.
  intros H Hf (x0 & M). destruct (c_first_at X k HX t H Hf) as (x & E & A & B).
  { intros En. apply (cmem_Rb X k HX) in M. rewrite En in M. discriminate. }
  exists x. setoid_rewrite (cmem_Rb X k HX). auto.
Qed.
Lemma thm_last {V} (t : Tree.tree (D X) V) : inv k t -> has_last X k = true -> (exists x, cmem t x) ->
  exists x, c_last X k t = Ok x /\ cmem t x /\ forall y, cmem t y -> le y x.
Proof.
  intros H Hf (x0 & M). destruct (c_last_at X k HX t H Hf) as (x & E & A & B).
  { intros En. apply (cmem_Rb X k HX) in M. rewrite En in M. discriminate. }
  exists x. setoid_rewrite (cmem_Rb X k HX). auto.
Qed.
Lemma thm_lower {V} (t : Tree.tree (D X) V) a l : inv k t -> keys X t = a :: l -> c_lower X t = Ok (lo a).
Proof.
  intros H E. unfold keys in E. destruct (nodes t) as [|m M] eqn:En; [discriminate|]. cbn in E. injection E as <- <-.
  eapply (c_lower_at X k); eauto.
Qed.
Lemma thm_upper {V} (t : Tree.tree (D X) V) a l : inv k t -> keys X t = l ++ [a] -> c_upper X t = Ok (up a).
Proof.
  intros H E. unfold keys in E. apply map_eq_app in E. destruct E as (L & M & En & <- & E).
  destruct M as [|m [|m' M]]; try discriminate. cbn in E. injection E as <-. eapply (c_upper_at X k); eauto.
Qed.
Lemma cmem_emem {V} (t : Tree.tree (D X) V) x : cmem t x <-> emem X k (nodes t) x.
Proof. cm. apply (Rb_mem X k HX). Qed.
Lemma roomy_head {V} (t : Tree.tree (D X) V) : headroom X k t -> roomy X k (nodes t).
Proof. intros H n Hn. apply H. unfold keys. apply in_map; auto. Qed.
Lemma enumerates_ext (P Q : D X -> Prop) e : (forall x, P x <-> Q x) -> enumerates X P e -> enumerates X Q e.
Proof. intros H [A B]. split; auto. intros x. rewrite B. auto. Qed.

Section Int.
Context (phi : D X -> Z) (sub : D X -> D X -> Z) (Hphi : integral X phi sub) (Hd : disc X = true).
Lemma thm_cardinality {V} (t : Tree.tree (D X) V) : inv k t -> headroom X k t -> exists e, enumerates X (cmem t) e /\
  c_cardinality X k sub t = Fin (Z.of_nat (List.length e)) /\ c_size X k sub t = Fin (Z.of_nat (List.length e)) /\ c_length X k sub t = Z.of_nat (List.length e).
Proof.
  intros H Hr. apply roomy_head in Hr. destruct (c_cardinality_at X k HX phi sub Hphi Hd t H Hr) as (e & A & B).
  exists e. conjs; auto.
  - eapply enumerates_ext; [|exact A]. intros x. symmetry. apply cmem_emem.
  - pose proof (c_length_at X k HX phi sub Hphi Hd t Hr) as Q. rewrite B in Q. congruence.
Qed.
Lemma thm_distance {V} (t : Tree.tree (D X) V) : inv k t -> exists e, enumerates X (hole X k t) e /\ c_distance X k sub t = Z.of_nat (List.length e).
Proof.
  intros H. destruct (c_distance_at X k HX phi sub Hphi Hd t H) as (e & A & B). exists e. split; auto.
  eapply enumerates_ext; [|exact A]. intros x. unfold gap, hole. setoid_rewrite cmem_emem.
  split; intros (N & Q); split; auto.
  - destruct Q as (y & z & A1 & A2 & A3 & A4). eauto 6.
  - destruct Q as ((y & A1 & A2) & z & A3 & A4). exists y, z. auto.
Qed.
Context (plus minus : D X -> Z -> D X)
  (Hplus : forall x y z, phi y = (phi x + z)%Z -> plus x z = y)
  (Hminus : forall x y z, phi y = (phi x - z)%Z -> minus x z = y).
Lemma thm_elements {V} (t : Tree.tree (D X) V) : inv k t -> headroom X k t -> exists w,
  StronglySorted (fun p q => lt (fst p) (fst q)) w /\
  (forall x v, In (x, v) w <-> exists n, In n (nodes t) /\ mem (nkey n) x /\ nval n = v) /\
  (exists fuel, e_walk X k sub plus fuel t (elements_begin X t) = Ok w) /\
  (exists fuel, e_walk_back X k sub plus fuel t (elements_end X t) = Ok (rev w)) /\
  (exists fuel, r_walk X k sub minus fuel t (elements_end X t) = Ok (rev w)).
Proof. intros H Hr. apply (elements_at X k HX phi sub Hphi Hd plus minus Hplus Hminus t H (roomy_head t Hr)). Qed.

Lemma thm_incr_decr {V} (t : Tree.tree (D X) V) e : inv k t -> headroom X k t -> eiter_ok X k sub t e ->
  exists e', e_incr X k sub t e = Ok e' /\ e_decr X k sub t e' = Ok e /\ (e' = elements_end X t \/ eiter_ok X k sub t e').
Proof.
  intros H Hr (n & Hn & E1 & E2). destruct e as [i z]. cbn [fst snd] in *. subst i.
  pose proof H as [W S]. destruct (in_split _ _ Hn) as (L & R & En).
  unfold e_incr. cbn [fst snd]. rewrite (key_at X t L n R W En). cbn [bind].
  destruct (z <? length_ X k sub (nkey n) - 1)%Z eqn:E.
  - apply Z.ltb_lt in E. eexists. split; eauto. unfold e_decr. cbn [fst snd].
    destruct (0 <? z + 1)%Z eqn:F; [|apply Z.ltb_ge in F; lia]. split. { f_equal. f_equal. lia. }
    right. exists n. cbn. conjs; auto; lia.
  - apply Z.ltb_ge in E. rewrite (incr_at X t L n R W En). cbn [bind]. eexists. split; eauto.
    split.
    + unfold e_decr. cbn [fst snd Z.ltb Z.compare]. change (0 ?= 0)%Z with Eq. cbn match.
      erewrite (decr_hd X); eauto. cbn [bind]. rewrite (key_at X t L n R W En). cbn [bind]. f_equal. f_equal. lia.
    + destruct R as [|m R]; [left; auto|]. right. exists m. cbn [fst snd Tree.hd_it].
      assert (Hm : In m (nodes t)) by (rewrite En; apply in_or_app; cbn; auto).
      conjs; auto; try lia. destruct (cnt_spec X k HX phi sub Hphi Hd t H (roomy_head t Hr) m Hm) as (_ & A & B & _). lia.
Qed.

Lemma thm_decr_incr {V} (t : Tree.tree (D X) V) e : inv k t -> headroom X k t ->
  (e = elements_end X t \/ eiter_ok X k sub t e) -> e <> elements_begin X t ->
  exists e', e_decr X k sub t e = Ok e' /\ e_incr X k sub t e' = Ok e /\ eiter_ok X k sub t e'.
Proof.
  intros H Hr He Hb. pose proof H as [W S].
  assert (G : forall L R, nodes t = L ++ R -> L <> [] -> exists e', e_decr X k sub t (@hd_it X V R, 0%Z) = Ok e' /\
     e_incr X k sub t e' = Ok (@hd_it X V R, 0%Z) /\ eiter_ok X k sub t e').
  { intros L R En Hl. destruct (exists_last Hl) as (L' & p & ->). rewrite <- app_assoc in En. cbn [app] in En.
    assert (Hp : In p (nodes t)) by (rewrite En; apply in_or_app; cbn; auto).
    destruct (cnt_spec X k HX phi sub Hphi Hd t H (roomy_head t Hr) p Hp) as (_ & A & B & _).
    unfold e_decr. cbn [fst snd Z.ltb Z.compare]. change (0 ?= 0)%Z with Eq. cbn match.
    rewrite (decr_hd X t L' p R W En). cbn [bind]. rewrite (key_at X t L' p R W En). cbn [bind]. eexists. split; eauto.
    unfold e_incr. cbn [fst snd]. rewrite (key_at X t L' p R W En). cbn [bind]. rewrite Z.ltb_irrefl.
    rewrite (incr_at X t L' p R W En). cbn [bind]. split; auto. exists p. cbn [fst snd]. conjs; auto; lia. }
  destruct He as [->|(n & Hn & E1 & E2)].
  - apply (G (nodes t) []). { rewrite app_nil_r; auto. } intros E. apply Hb. unfold elements_end, elements_begin, begin_. rewrite E. auto.
  - destruct e as [i z]. cbn [fst snd] in *. subst i. destruct (in_split _ _ Hn) as (L & R & En).
    destruct (Z.eq_dec z 0) as [->|Hz].
    + apply (G L (n :: R) En). intros ->. apply Hb. unfold elements_begin, begin_. rewrite En. auto.
    + unfold e_decr. cbn [fst snd]. destruct (0 <? z)%Z eqn:F; [|apply Z.ltb_ge in F; lia]. eexists. split; eauto.
      unfold e_incr. cbn [fst snd]. rewrite (key_at X t L n R W En). cbn [bind].
      destruct (z - 1 <? length_ X k sub (nkey n) - 1)%Z eqn:E; [|apply Z.ltb_ge in E; lia].
      split. { f_equal. f_equal. lia. } exists n. cbn [fst snd]. conjs; auto; lia.
Qed.
End Int.

Lemma thm_cardinality_dense (sub : D X -> D X -> Z) {V} (t : Tree.tree (D X) V) : disc X = false -> dense_ok X -> inv k t ->
  counts X (cmem t) (c_cardinality X k sub t).
Proof.
  intros Hd Hde H. pose proof (c_cardinality_dense X k HX Hd Hde sub t H) as Q.
  unfold counts in *. destruct (c_cardinality X k sub t).
  - destruct Q as (e & A & B). exists e. split; auto. eapply enumerates_ext; [|exact A]. intros x. symmetry. apply cmem_emem.
  - eapply infinitely_impl; [|exact Q]. intros x. apply cmem_emem.
Qed.

Lemma thm_between st st' o : reach st' o -> exists r, s_between X k st o = Ok r /\ reach st r /\ forall x, cmem r x <-> hole X k o x.
Proof.
  intros H. destruct (s_between_at X k HX st o) as (r & E & _ & P); eauto. exists r. split; auto. split. { eapply R_between; eauto. }
  intros x. unfold hole. setoid_rewrite (cmem_Rb X k HX). rewrite P. rewrite not_true_iff_false. tauto.
Qed.
Lemma thm_domain st st' o : reach st' o -> exists r, s_domain X k st o = Ok r /\ reach st r /\ forall x, cmem r x <-> cmem o x.
Proof.
  intros H. destruct (s_domain_at X k HX st o) as (r & E & _ & P & _). exists r. split; auto. split. { eapply R_domain; eauto. }
  intros x. cm. destruct (P (pt x)) as [-> _]. rewrite exr_keys. cbn. tauto.
Qed.

Lemma thm_order t u v st1 st2 st3 : reach st1 t -> reach st2 u -> reach st3 v ->
  s_ltb X k t t = false /\
  (s_ltb X k t u = true -> s_ltb X k u t = false) /\
  (s_ltb X k t u = true -> s_ltb X k u v = true -> s_ltb X k t v = true) /\
  (s_eqb X k t u = true <-> s_ltb X k t u = false /\ s_ltb X k u t = false).
Proof.
  intros Ht Hu Hv.
  pose proof (keys_ne X k t (reach_inv X k HX _ _ Ht)) as Nt. pose proof (keys_ne X k u (reach_inv X k HX _ _ Hu)) as Nu.
  pose proof (keys_ne X k v (reach_inv X k HX _ _ Hv)) as Nv. unfold s_ltb, s_eqb. conjs.
  - apply keys_ltb_irrefl; auto.
  - intros A. destruct (keys_ltb X k (keys X u) (keys X t)) eqn:B; auto.
    pose proof (keys_ltb_trans X k HX _ _ _ Nt Nu Nt A B) as C. rewrite keys_ltb_irrefl in C; auto.
  - intros A B. eapply keys_ltb_trans; [..|exact A|exact B]; auto.
  - rewrite keys_ltb_eqb by auto. rewrite andb_true_iff, !negb_true_iff. tauto.
Qed.

(* ------------------------------------------------------------------- safety *)
Lemma thm_safe st st' t o : reach st t -> reach st' o ->
  (forall a, safe (s_add X k st t a)) /\ (forall h a, hint_ok X t h -> safe (s_add_hint X k st t h a)) /\
  (forall a, safe (s_subtract X k t a)) /\ (forall a, (exists x, mem a x) \/ nodes t = [] -> safe (s_flip_seg X k st t a)) /\
  (forall a, safe (s_and_seg X k st t a)) /\
  (forall x, safe (s_add_elem X k st t x) /\ safe (s_subtract_elem X k t x)) /\
  (forall x, has_room X k x -> safe (s_flip_elem X k st t x) /\ safe (s_and_elem X k st t x) /\ safe (find_elem X k t x) /\
     safe (s_contains_elem X k t x) /\ safe (s_intersects_elem X k t x)) /\
  (safe (s_add_set X k st t o) /\ safe (s_insert_set X k st t o) /\ safe (s_subtract_set X k t o) /\
   safe (s_and_set X k st t o) /\ safe (s_flip_set X k st t o)) /\
  (safe (s_assign X k st o) /\ safe (join X k s_coeq t) /\ safe (s_domain X k st o) /\ safe (s_between X k st o)) /\
  (forall a, safe (s_contains_seg X k t a) /\ safe (s_intersects_seg X k t a)) /\
  (safe (s_intersects X k st t o) /\ safe (s_disjoint X k st t o) /\ safe (subset_compare X k None t o) /\
   safe (c_contains X k None t o) /\ safe (c_within X k None t o) /\ safe (is_element_equal X k None t o)) /\
  (safe (c_hull X k t) /\ safe (c_lower X t) /\ safe (c_upper X t) /\ safe (c_first X k t) /\ safe (c_last X k t)) /\
  (exists fuel, safe (traverse X fuel t (begin_ t))).
Proof.
  intros Ht Ho. pose proof (reach_inv X k HX _ _ Ht) as It. unfold safe.
  assert (SA : forall a, exists r, s_add X k st t a = Ok r). { intros a. destruct (thm_add st t a Ht) as (? & ? & -> & _). eauto. }
  assert (SS : forall a, exists r, s_subtract X k t a = Ok r). { intros a. destruct (thm_subtract st t a Ht) as (? & -> & _). eauto. }
  conjs; auto.
  - intros h a Hh. destruct (thm_hint st t h a Ht Hh) as (? & ? & ? & ? & _ & -> & _). eauto.
  - intros a [Ha|Ha].
    + destruct (thm_flip st t a Ht Ha) as (? & -> & _). eauto.
    + destruct (ne_dec X k HX a) as [Ea|Na].
      * rewrite s_flip_empty by auto. rewrite Ha. eauto.
      * apply ne_ex in Na. destruct (thm_flip st t a Ht Na) as (? & -> & _). eauto.
  - intros a. destruct (thm_and_seg st t a Ht) as (? & -> & _). eauto.
  - intros x. split; [apply SA|apply SS].
  - intros x Hx. destruct (thm_contains_elem st t x Ht Hx) as (b & Eb & _).
    conjs.
    + unfold s_flip_elem. rewrite Eb. cbn [bind]. destruct b; [apply SS|].
      destruct (SA (singleton X k x)) as ([? ?] & E). unfold s_add_elem. rewrite E. cbn. eauto.
    + unfold s_and_elem, s_add_intersection_elem.
      assert (exists r, s_add_elem X k st t_empty x = Ok r) as ([? ?] & Ea).
      { destruct (thm_add st t_empty (singleton X k x) (R_clear X k st)) as (? & ? & E & _). unfold s_add_elem. rewrite E. eauto. }
      destruct (thm_find t x It Hx) as [(n & _ & _ & ->)|[_ ->]]; cbn [bind iter_eqb end_ negb]; [rewrite Ea; cbn|]; eauto.
    + destruct (thm_find t x It Hx) as [(n & _ & _ & ->)|[_ ->]]; eauto.
    + eauto.
    + eauto.
  - destruct (thm_add_set st st' t o Ht Ho) as (? & -> & _). eauto.
  - destruct (thm_insert_set st t o Ht) as (? & -> & _). eauto.
  - destruct (thm_subtract_set st st' t o Ht Ho) as (? & -> & _). eauto.
  - destruct (thm_and_set st st' t o Ht Ho) as (? & -> & _). eauto.
  - destruct (thm_flip_set st st' t o Ht Ho) as (? & -> & _). eauto.
  - destruct (thm_assign st st' o Ho) as (? & -> & _). eauto.
  - destruct (thm_join st t Ht) as (? & -> & _). eauto.
  - destruct (thm_domain st st' o Ho) as (? & -> & _). eauto.
  - destruct (thm_between st st' o Ho) as (? & -> & _). eauto.
  - intros a. split. + destruct (thm_contains_seg st t a Ht) as (? & -> & _). eauto.
    + destruct (thm_intersects_seg st t a Ht) as (? & -> & _). eauto.
  - destruct (thm_intersects st st' t o Ht Ho) as (? & -> & _). eauto.
  - destruct (thm_intersects st st' t o Ht Ho) as (? & _ & -> & _). eauto.
  - destruct (thm_compare st st' t o Ht Ho) as (? & -> & _). eauto.
  - unfold c_contains. destruct (thm_compare st st' t o Ht Ho) as (? & -> & _). cbn. eauto.
  - unfold c_within. destruct (thm_compare st st' t o Ht Ho) as (? & -> & _). cbn. eauto.
  - unfold is_element_equal. destruct (thm_compare st st' t o Ht Ho) as (? & -> & _). cbn. eauto.
  - destruct (thm_hull t It) as (? & -> & _). eauto.
  - destruct (nodes t) as [|m M] eqn:En. { unfold c_lower. rewrite En. eauto. } erewrite (c_lower_at X k); eauto.
  - destruct (nodes t) as [|m M] eqn:En. { unfold c_upper. rewrite En. eauto. }
    destruct (ends_at X k HX t It) as (? & ? & Q & q & _ & E2 & _); [rewrite En; discriminate|]. erewrite (c_upper_at X k); eauto.
  - destruct (nodes t) as [|m M] eqn:En. { unfold c_first. rewrite En. eauto. }
    destruct (ends_at X k HX t It) as (? & ? & Q & q & _ & _ & E3 & _); [rewrite En; discriminate|].
    unfold c_first. rewrite En, E3. cbn. eauto.
  - destruct (nodes t) as [|m M] eqn:En. { unfold c_last. rewrite En. eauto. }
    destruct (ends_at X k HX t It) as (? & ? & Q & q & _ & _ & _ & E3 & E4 & _); [rewrite En; discriminate|].
    unfold c_last. rewrite En, E3. cbn [bind]. rewrite E4. cbn. eauto.
  - destruct (traverse_at X k t It) as (f & E). exists f. eauto.
Qed.

End SetThms.

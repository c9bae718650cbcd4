(** From cuts to elements: the facts behind the set properties. *)
From Verif Require Export SetSpec CrashSet SetQuery4 ContJoin ContCompare ContElems DenseSize EraseIter.
From Coq Require Import Btauto Sorted.

Section SetProps.
Context (X : dom) (k : kind).
Context (HX : dom_ok X k).
Notation I := (itv (D X)).
Notation node := (node (D X) unit).
Notation tree := (tree (D X) unit).
Notation lc := (lc X k).
Notation uc := (uc X k).
Notation pt := (pt X).
Notation cltb := (cltb X).
Notation ceqb := (ceqb X).
Notation cut := (cut X).
Notation ok := (cut_ok X k).
Notation ne := (@ne X k).
Notation sinv := (sinv X k).
Notation mem := (mem X k).
Notation cmem := (cmem X k).
Notation same_seg := (same_seg X k).
Notation reach := (reach X k).
Ltac cord := cord_ X k HX.

Lemma cmem_Rb {V} (t : Tree.tree (D X) V) x : cmem t x <-> Rb k (nodes t) (pt x) = true.
Proof.
  rewrite (Rb_mem X k HX). unfold SetSpec.cmem, keys. split.
  - intros (a & Ha & M). apply in_map_iff in Ha. destruct Ha as (n & <- & Hn). eauto.
  - intros (n & Hn & M). exists (nkey n). split; auto. apply in_map; auto.
Qed.
Lemma mem_inr a x : mem a x <-> inr k a (pt x) = true.
Proof. symmetry. apply inr_mem; auto. Qed.

Lemma hint_isit (t : tree) h : hint_ok X t h <-> isit t h.
Proof.
  destruct h as [i|]; cbn; [|tauto]. unfold ids. rewrite in_map_iff. split; intros (n & A & B); eauto.
Qed.

(* ---------------------------------------------------------------- traversal *)
Lemma traverse_from {V} (t : Tree.tree (D X) V) : inv k t -> forall R L, nodes t = L ++ R ->
  traverse X (Datatypes.S (length R)) t (@hd_it X V R) = Ok (map nkey R).
Proof.
  intros [W S]. induction R as [|n R IH]; intros L E.
  - cbn. auto.
  - cbn [length]. specialize (IH (L ++ [n]) ltac:(rewrite <- app_assoc; auto)).
    revert IH. generalize (Datatypes.S (length R)) as f. intros f IH.
    cbn [traverse Tree.hd_it iter_eqb end_]. rewrite (key_at X t L n R W E). cbn [bind].
    rewrite (incr_at X t L n R W E). cbn [bind]. rewrite IH. auto.
Qed.
Lemma traverse_at {V} (t : Tree.tree (D X) V) : inv k t -> exists fuel, traverse X fuel t (begin_ t) = Ok (keys X t).
Proof. intros H. exists (Datatypes.S (length (nodes t))). apply (traverse_from t H (nodes t) []). auto. Qed.

Lemma inv_ascending {V} (t : Tree.tree (D X) V) : inv k t -> ascending X k (keys X t).
Proof.
  intros [_ S]. split.
  - intros a Ha. unfold keys in Ha. apply in_map_iff in Ha. destruct Ha as (n & <- & Hn).
    apply (ne_elem X k HX). apply srt_nes in S. unfold nes in S. rewrite Forall_forall in S. auto.
  - unfold keys. induction (nodes t) as [|n l IH]; cbn; constructor.
    + apply IH. apply S.
    + apply Forall_forall. intros b Hb x y Mx My. apply in_map_iff in Hb. destruct Hb as (m & <- & Hm).
      apply mem_inr in Mx, My. apply (lt_pt X).
      destruct S as (Nn & Ab & Sl).
      assert (Hab : cltb (lc (nkey m)) (uc (nkey n)) = false).
      { clear -Ab Hm. rewrite Forall_forall in Ab. auto. }
      unfold inr in *. cord.
Qed.

(* ------------------------------------------------------------- reachability *)
Lemma ne_dec a : is_empty X k a = true \/ ne a.
Proof. destruct (is_empty X k a) eqn:E; auto. right. apply (ne_iff X k HX); auto. Qed.

Lemma s_add_sinv st t a t' it : sinv st t -> s_add X k st t a = Ok (t', it) -> sinv st t'.
Proof.
  intros H E. destruct (ne_dec a) as [Ea|Na].
  - rewrite s_add_empty in E by auto. congruence.
  - destruct (s_add_at X k HX st t a H Na) as (u & i & E' & S & _). congruence.
Qed.
Lemma s_add_hint_empty st t h a : is_empty X k a = true -> s_add_hint X k st t h a = Ok (t, h).
Proof. intros E. unfold s_add_hint. rewrite E. auto. Qed.
Lemma s_add_hint_sinv st t h a t' it : sinv st t -> isit t h -> s_add_hint X k st t h a = Ok (t', it) -> sinv st t'.
Proof.
  intros H V E. destruct (ne_dec a) as [Ea|Na].
  - rewrite s_add_hint_empty in E by auto. congruence.
  - destruct (s_add_hint_at X k HX st t h a H V Na) as (u & i & E' & S & _). congruence.
Qed.
Lemma s_subtract_sinv st t a t' : sinv st t -> s_subtract X k t a = Ok t' -> sinv st t'.
Proof.
  intros H E. destruct (ne_dec a) as [Ea|Na].
  - rewrite s_subtract_empty in E by auto. congruence.
  - destruct (s_subtract_at X k HX t a (proj1 H) Na) as (u & E' & S & P).
    assert (u = t') by congruence. subst. eapply (subbed_sinv X k HX); eauto.
Qed.
Lemma s_flip_empty st (t : tree) a : inv k t -> is_empty X k a = true ->
  s_flip_seg X k st t a = match nodes t with [] => Ok t | _ => Err Empty_key end.
Proof.
  intros [W S] Ea. unfold s_flip_seg, equal_range, lower_bound, upper_bound, look_ok.
  destruct (nodes t) eqn:E.
  - cbn [bind split_lb split_ub snd Tree.hd_it bind length s_flip_loop iter_eqb negb].
    rewrite s_add_empty by auto. cbn. auto.
  - rewrite (proj2 (ordered_srt X k HX _) S). rewrite Ea. auto.
Qed.

Theorem reach_sinv st t : reach st t -> sinv st t.
Proof.
  induction 1.
  - apply sinv_empty; auto.
  - eapply s_add_sinv; eauto.
  - eapply s_add_hint_sinv; eauto. apply hint_isit; auto.
  - eapply s_add_sinv; eauto.
  - eapply s_subtract_sinv; eauto.
  - eapply s_subtract_sinv; eauto.
  - destruct (ne_dec a) as [Ea|Na].
    + rewrite s_flip_empty in H0 by (auto; apply IHreach). destruct (nodes t); congruence.
    + destruct (s_flip_seg_at X k HX st t a IHreach Na) as (u & E' & S & _). congruence.
  - unfold s_flip_elem in H0. destruct (s_contains_elem X k t x) as [[]|]; cbn [bind] in H0; [| |discriminate].
    + eapply s_subtract_sinv; eauto.
    + destruct (s_add_elem X k st t x) as [[u i]|] eqn:E; cbn [bind] in H0; [|discriminate].
      assert (u = t') by congruence. subst. eapply s_add_sinv; eauto.
  - destruct (s_and_seg_at X k HX st t a (proj1 IHreach)) as (u & E' & S & _). congruence.
  - unfold s_and_elem, s_add_intersection_elem in H0. destruct (find_elem X k t x) as [i|]; cbn [bind] in H0; [|discriminate].
    destruct (negb (iter_eqb i (end_ t))).
    + destruct (s_add_elem X k st t_empty x) as [[u j]|] eqn:E; cbn [bind] in H0; [|discriminate].
      assert (u = t') by congruence. subst. eapply s_add_sinv; [|exact E]. apply sinv_empty; auto.
    + assert (t' = t_empty) by congruence. subst. apply sinv_empty; auto.
  - destruct (s_add_set_at X k HX st t o IHreach1) as (u & E' & S & _). congruence.
  - destruct (s_insert_set_at X k HX st t o IHreach1) as (u & E' & S & _). congruence.
  - destruct (s_subtract_set_at X k HX st t o IHreach1 (proj1 IHreach2)) as (u & E' & S & _). congruence.
  - destruct (s_and_set_at X k HX st t o (proj1 IHreach1) (proj1 IHreach2)) as (u & E' & S & _). congruence.
  - destruct (s_flip_set_at X k HX st t o IHreach1 (proj1 IHreach2)) as (u & E' & S & _). congruence.
  - destruct (s_assign_at X k HX st o (proj1 IHreach)) as (u & E' & S & _). congruence.
  - destruct (join_at X k HX s_coeq ltac:(intros [] []; cbn; tauto) t (proj1 IHreach)) as (u & E' & S & J & _).
    assert (u = t') by congruence. subst. split; auto. destruct st; auto.
  - destruct (s_domain_at X k HX st o) as (u & E' & S & _). congruence.
  - destruct (s_between_at X k HX st o (proj1 IHreach)) as (u & E' & S & _). congruence.
  - destruct IHreach as [Hi HJ]. destruct (erase_it_inv X k t t' it Hi H0) as [I' E']. split; auto. destruct st; auto. eapply (joined_incl X k); eauto.
  - destruct IHreach as [Hi HJ]. destruct (erase_range_inv X k t t' first past Hi H0) as [I' E']. split; auto. destruct st; auto. eapply (joined_incl X k); eauto.
  - eapply (add_throws_sinv X k HX); eauto.
  - eapply (add_hint_throws_sinv X k HX); eauto. apply hint_isit; auto.
  - eapply (subtract_throws_sinv X k HX); eauto.
Qed.

Corollary reach_inv st t : reach st t -> inv k t.
Proof. intros H. apply (reach_sinv _ _ H). Qed.

(* --------------------------------------------------------------- maximality *)
Lemma le_refl x : le (X:=X) x x.
Proof. rewrite (le_pt X). cord. Qed.
Lemma joined_maximal (t : tree) : inv k t -> joined k s_coeq (nodes t) -> maximal X k t.
Proof.
  intros [W S] J x y Hxy H.
  assert (Mx : cmem t x) by (apply H; auto using le_refl).
  assert (My : cmem t y) by (apply H; auto using le_refl).
  rewrite (le_pt X) in Hxy.
  apply cmem_Rb in Mx, My. apply Rb_mem in Mx, My; auto. destruct Mx as (n & Hn & Mx). destruct My as (m & Hm & My).
  exists (nkey n). conjs; auto. { unfold keys. apply in_map; auto. }
  apply mem_inr in Mx. apply mem_inr in My. apply mem_inr.
  destruct (cltb (pt y) (uc (nkey n))) eqn:E. { unfold inr in *. cord. }
  exfalso. destruct (intr_ends X k HX _ n S Hn) as (_ & B & _ & C).
  apply (proj1 (joined_b X k HX _ S)) with (c := uc (nkey n)) in J. rewrite B, C in J. cbn in J.
  destruct (cltb (uc (nkey n)) (lc (nkey m))) eqn:F.
  - destruct (probe_r X k HX [nodes t] _ _ (uc_ok X k _) (lc_ok X k _) F) as (z & Z1 & Z2 & Z3).
    assert (Mz : cmem t z). { apply H; rewrite (le_pt X); unfold inr in *; cord. }
    apply cmem_Rb in Mz. specialize (Z3 _ (or_introl eq_refl)). rewrite !vr_unit, Mz in Z3. destruct (Rb k (nodes t) (uc (nkey n))); congruence.
  - assert (Rb k (nodes t) (uc (nkey n)) = true). { apply Rb_iff. exists m. split; auto. unfold inr in *. cord. }
    congruence.
Qed.

Lemma le_total x y : le (X:=X) x y \/ le (X:=X) y x.
Proof. rewrite !(le_pt X). destruct (cltb (pt y) (pt x)) eqn:E; auto. right. cord. Qed.
Lemma same_seg_sym l x y : same_seg l x y <-> same_seg l y x.
Proof. unfold Spec.same_seg. split; intros (a & A & B & C); eauto. Qed.

(* ------------------------------------------------------------------ borders *)
Notation reaches := (reaches X k).

Lemma sep_seg (t t' : tree) a : inv k t -> inv k t' -> ne a ->
  (forall c, Rb k (nodes t') c = Rb k (nodes t) c || inr k a c) ->
  (forall c, intr k (nodes t') c = intr k (nodes t) c || ini k a c) ->
  forall x y, same_seg (keys X t') x y <-> same_seg (keys X t) x y \/ (reaches t a x /\ reaches t a y).
Proof.
  intros [W S] [W' S'] Na HR HI.
  assert (G : forall x y, le x y -> (same_seg (keys X t') x y <-> same_seg (keys X t) x y \/ (reaches t a x /\ reaches t a y))).
  2:{ intros x y. destruct (le_total x y) as [H|H]; [apply G; auto|]. rewrite (same_seg_sym _ x y), (same_seg_sym (keys X t) x y), (G y x H). tauto. }
  intros x y Hxy. pose proof Hxy as Hxy'. rewrite (le_pt X) in Hxy'.
  assert (Gap : forall n : node, cltb (cmax X (lc (nkey n)) (lc a)) (cmin X (uc (nkey n)) (uc a)) = true -> exists w, mem (nkey n) w /\ mem a w).
  { intros n Hn. destruct (cut_gap X k HX _ _ (ok_max X k _ _ (lc_ok X k (nkey n)) (lc_ok X k a))
      (ok_min X k _ _ (uc_ok X k (nkey n)) (uc_ok X k a)) Hn) as (w & W1 & W2).
    exists w. rewrite !mem_inr. revert W1 W2. unfold inr, cmin, cmax. repeat ifg; intros; split; cord. }
  assert (Up : forall c, ceqb c (uc a) = true -> intr k (nodes t) c = true -> forall z, 
     cltb (pt z) c = false -> (forall d, ok d -> cltb c d = true -> cltb (pt z) d = false -> intr k (nodes t') d = true) -> reaches t a z).
  { intros c Ec Hc z Hz Hd. apply intr_true in Hc. destruct Hc as (n & Hn & Hc). right. exists (nkey n).
    conjs.
    - unfold keys; apply in_map; auto.
    - apply mem_inr. destruct (cltb (pt z) (uc (nkey n))) eqn:F. { unfold ini, inr in *. cord. }
      exfalso. specialize (Hd (uc (nkey n)) (uc_ok X k _) ltac:(unfold ini in *; cord) F).
      rewrite HI in Hd. destruct (intr_ends X k HX _ n S Hn) as (_ & B & _). rewrite B in Hd.
      unfold ini in *. cord.
    - apply Gap. unfold ini, cmin, cmax, Seg.ne in *. repeat ifg; cord. }
  unfold keys at 1. rewrite (same_seg_cut X k HX) by auto. split.
  - intros [H1 H2]. rewrite HR in H1.
    assert (Uy : cltb (pt x) (uc a) = true -> cltb (lc a) (pt y) = true \/ cltb (pt y) (lc a) = false -> reaches t a y).
    { intros Hx Hy. destruct (cltb (pt y) (uc a)) eqn:F.
      - left. apply mem_inr. unfold inr. destruct Hy; cord.
      - apply (Up (uc a)); auto; try cord.
        + specialize (H2 (uc a) (uc_ok X k _) Hx F). rewrite HI in H2.
          unfold ini in H2. destruct (intr k (nodes t) (uc a)); auto. cord.
        + intros d Od D1 D2. apply H2; auto. unfold inr in *. cord. }
    destruct (inr k a (pt x)) eqn:Ex.
    + right. split. { left. apply mem_inr. auto. } apply Uy; unfold inr in Ex; [cord|]. right. cord.
    + rewrite orb_false_r in H1. apply Rb_mem in H1; auto. destruct H1 as (n & Hn & Mx). apply mem_inr in Mx.
      destruct (cltb (pt y) (uc (nkey n))) eqn:F.
      { left. exists (nkey n). rewrite !mem_inr. conjs; auto. { apply in_map; auto. } unfold inr in *. cord. }
      right. assert (A : ini k a (uc (nkey n)) = true).
      { specialize (H2 (uc (nkey n)) (uc_ok X k _) ltac:(unfold inr in *; cord) F). rewrite HI in H2.
        destruct (intr_ends X k HX _ n S Hn) as (_ & B & _). rewrite B in H2. auto. }
      split.
      * right. exists (nkey n). conjs; [apply in_map; auto|apply mem_inr; auto|].
        apply Gap. unfold ini, inr, cmin, cmax, Seg.ne in *. repeat ifg; cord.
      * apply Uy; unfold ini, inr in *; [cord|]. right. cord.
  - intros [H|[Hx Hy]].
    + unfold keys in H. rewrite (same_seg_cut X k HX) in H by auto. destruct H as [H1 H2]. rewrite HR, H1. split; auto.
      intros c Oc C1 C2. rewrite HI, H2; auto.
    + split.
      { rewrite HR. destruct Hx as [Hx|(b & Hb & Hx & _)].
        - apply mem_inr in Hx. rewrite Hx. apply orb_true_r.
        - assert (cmem t x) as C by (exists b; auto). apply cmem_Rb in C. rewrite C. auto. }
      assert (IN : forall b c, In b (keys X t) -> ini k b c = true -> intr k (nodes t) c = true).
      { intros b c Hb Hc. unfold keys in Hb. apply in_map_iff in Hb. destruct Hb as (n & <- & Hn). apply intr_true. eauto. }
      intros c Oc C1 C2. rewrite HI. destruct (ini k a c) eqn:Ea; [apply orb_true_r|]. rewrite orb_false_r.
      destruct (cltb c (uc a)) eqn:Eu.
      * destruct Hx as [Hx|(b & Hb & Hx & w & Mb & Ma)].
        { exfalso. apply mem_inr in Hx. unfold ini, inr in *. cord. }
        apply (IN b); auto. apply mem_inr in Hx. apply mem_inr in Mb. apply mem_inr in Ma. unfold ini, inr in *. cord.
      * destruct Hy as [Hy|(b & Hb & Hy & w & Mb & Ma)].
        { exfalso. apply mem_inr in Hy. unfold ini, inr in *. cord. }
        apply (IN b); auto. apply mem_inr in Hy. apply mem_inr in Mb. apply mem_inr in Ma. unfold ini, inr in *. cord.
Qed.

Lemma mem_ini a x y c : mem a x -> mem a y -> cltb (pt x) c = true -> cltb (pt y) c = false -> ini k a c = true.
Proof. rewrite !mem_inr. unfold inr, ini. intros. cord. Qed.

Lemma split_seg (t t' : tree) a : inv k t -> inv k t' ->
  (forall c, Rb k (nodes t') c = Rb k (nodes t) c || inr k a c) ->
  (forall c, Lb k (nodes t') c = Lb k (nodes t) c || inl k a c) ->
  (forall c, intr k (nodes t') c = Lb k (nodes t') c && Rb k (nodes t') c && negb (bord k (nodes t) c) && negb (bordi k a c)) ->
  forall x y, le x y -> (same_seg (keys X t') x y <->
    (cmem t x \/ mem a x) /\
    (same_seg (keys X t) x y \/ clear_of X (cmem t) x y) /\
    ((mem a x /\ mem a y) \/ clear_of X (mem a) x y)).
Proof.
  intros [W S] [W' S'] HR HL HI x y Hxy. pose proof Hxy as Hxy'. rewrite (le_pt X) in Hxy'.
  assert (E1 : (cmem t x \/ mem a x) <-> Rb k (nodes t') (pt x) = true).
  { rewrite HR, orb_true_iff, cmem_Rb, mem_inr. tauto. }
  assert (E2 : (same_seg (keys X t) x y \/ clear_of X (cmem t) x y) <->
     (forall c, ok c -> cltb (pt x) c = true -> cltb (pt y) c = false -> bord k (nodes t) c = false)).
  { rewrite (const_seg X k HX) by auto. unfold keys, clear_of. split; intros [H|H]; auto; right; intros z H1 H2.
    - intros n Hn M. apply (H z H1 H2). exists (nkey n). split; auto. apply in_map; auto.
    - intros (b & Hb & M). apply in_map_iff in Hb. destruct Hb as (n & <- & Hn). apply (H z H1 H2 n Hn M). }
  assert (E3 : ((mem a x /\ mem a y) \/ clear_of X (mem a) x y) <->
     (forall c, ok c -> cltb (pt x) c = true -> cltb (pt y) c = false -> bordi k a c = false)).
  { rewrite (const_mem X k HX). split.
    - intros [[H1 H2]|H] z Z1 Z2.
      + rewrite (le_pt X) in Z1, Z2. rewrite !mem_inr in *. unfold inr in *. split; intros; cord.
      + split; intros M; exfalso; [apply (H z)|apply (H x)]; auto using le_refl.
    - intros H. destruct (inr k a (pt x)) eqn:Ex.
      + left. apply mem_inr in Ex. split; auto. apply H; auto using le_refl.
      + right. intros z Z1 Z2 M. apply H in M; auto. apply mem_inr in M. congruence. }
  rewrite E1, E2, E3. clear E1. unfold keys. rewrite (same_seg_cut X k HX) by auto. split.
  - intros [H1 H2]. conjs; auto; intros c Oc C1 C2; specialize (H2 c Oc C1 C2); rewrite HI in H2;
      rewrite !andb_true_iff, !negb_true_iff in H2; tauto.
  - intros (H1 & H2 & H3). split; auto. intros c Oc C1 C2. rewrite HI, (H2 c), (H3 c), !andb_true_r by auto.
    apply (proj2 E2) in H2. apply (proj2 E3) in H3. rewrite HL, HR.
    destruct H2 as [H2|H2].
    + unfold keys in H2. rewrite (same_seg_cut X k HX) in H2 by auto. destruct H2 as [_ H2]. specialize (H2 c Oc C1 C2).
      apply intr_b in H2; auto. destruct H2 as [-> ->]. auto.
    + destruct H3 as [[M1 M2]|H3].
      * pose proof (mem_ini a x y c M1 M2 C1 C2) as Q. apply (ini_b X k HX) in Q. destruct Q as [-> ->]. rewrite !orb_true_r. auto.
      * exfalso. rewrite HR in H1. apply orb_true_iff in H1. destruct H1 as [H1|H1].
        -- apply (H2 x); auto using le_refl. apply cmem_Rb. auto.
        -- apply (H3 x); auto using le_refl. apply mem_inr. auto.
Qed.

Lemma sub_seg (t t' : tree) a : inv k t -> inv k t' -> ne a ->
  (forall c, Rb k (nodes t') c = Rb k (nodes t) c && negb (inr k a c)) ->
  (forall c, intr k (nodes t') c = intr k (nodes t) c && negb (inl k a c || inr k a c)) ->
  forall x y, le x y -> (same_seg (keys X t') x y <-> same_seg (keys X t) x y /\ clear_of X (mem a) x y).
Proof.
  intros [W S] [W' S'] Na HR HI x y Hxy. pose proof Hxy as Hxy'. rewrite (le_pt X) in Hxy'.
  unfold keys. rewrite !(same_seg_cut X k HX) by auto. rewrite HR, andb_true_iff, negb_true_iff. split.
  - intros [[H1 H2] H3]. conjs; auto.
    + intros c Oc C1 C2. specialize (H3 c Oc C1 C2). rewrite HI in H3. apply andb_true_iff in H3. tauto.
    + intros z Z1 Z2 M. rewrite (le_pt X) in Z1, Z2. apply mem_inr in M.
      specialize (H3 (lc a) (lc_ok X k a)). rewrite HI in H3.
      assert (inr k a (lc a) = true) as Q by (unfold inr, Seg.ne in *; cord). rewrite Q, orb_true_r, andb_false_r in H3.
      destruct (cltb (pt x) (lc a)) eqn:F.
      * assert (false = true); [apply H3; auto; unfold inr in *; cord|discriminate].
      * clear H3. unfold inr in *. cord.
  - intros [[H1 H2] H3]. conjs; auto.
    + destruct (inr k a (pt x)) eqn:E; auto. exfalso. apply (H3 x); auto using le_refl. apply mem_inr. auto.
    + intros c Oc C1 C2. rewrite HI, H2 by auto. cbn [andb]. apply negb_true_iff. apply orb_false_iff. split.
      * destruct (inl k a c) eqn:E; auto. exfalso. unfold inl in E. destruct (cltb (pt x) (lc a)) eqn:F.
        -- destruct (cut_gap X k HX (lc a) c (lc_ok X k _) Oc) as (z & Z1 & Z2); [cord|].
           apply (H3 z); rewrite ?(le_pt X), ?mem_inr; unfold inr; cord.
        -- apply (H3 x); auto using le_refl. apply mem_inr. unfold inr. cord.
      * destruct (inr k a c) eqn:E; auto. exfalso. unfold inr in E. destruct (cltb (pt y) (uc a)) eqn:F.
        -- apply (H3 y); auto using le_refl. apply mem_inr. unfold inr. cord.
        -- destruct (cut_gap X k HX c (uc a) Oc (uc_ok X k _)) as (z & Z1 & Z2); [cord|].
           apply (H3 z); rewrite ?(le_pt X), ?mem_inr; unfold inr; cord.
Qed.

End SetProps.

(** Segment borders at the level of cuts: how an update divides the keys into segments. *)
From Verif Require Export SetProps Upd.

Section Cuts.
Context (X : dom) (k : kind).
Context (HX : dom_ok X k).
Context {V : Type}.
Notation I := (itv (D X)).
Notation node := (node (D X) V).
Notation tree := (tree (D X) V).
Notation lc := (lc X k).
Notation uc := (uc X k).
Notation pt := (pt X).
Notation cltb := (cltb X).
Notation ceqb := (ceqb X).
Notation ok := (cut_ok X k).
Notation ne := (@ne X k).
Notation mem := (mem X k).
Notation cmem := (SetSpec.cmem X k).
Notation same_seg := (same_seg X k).
Ltac cord := cord_ X k HX.

Lemma vr_Rb (l : list node) c : Rb k l c = some (vr k l c).
Proof. rewrite Rb_vr. destruct (vr k l c); auto. Qed.
Lemma vl_Lb (l : list node) c : Lb k l c = some (vl k l c).
Proof. rewrite Lb_vl. destruct (vl k l c); auto. Qed.
Lemma cmem_vr (t : tree) x : cmem t x <-> vr k (nodes t) (pt x) <> None.
Proof. rewrite (cmem_Rb X k HX), vr_Rb. destruct (vr k (nodes t) (pt x)); cbn; intuition congruence. Qed.

(** the segmentation of t does not separate x from y *)
Lemma undivided (t : tree) x y : inv k t -> le x y ->
  ((same_seg (keys X t) x y \/ clear_of X (cmem t) x y) <->
   (forall c, ok c -> cltb (pt x) c = true -> cltb (pt y) c = false -> bord k (nodes t) c = false)).
Proof.
  intros [W S] Hxy. rewrite (const_seg X k HX) by auto. unfold keys, clear_of. split; intros [H|H]; auto; right; intros z H1 H2.
  - intros n Hn M. apply (H z H1 H2). exists (nkey n). split; auto. apply in_map; auto.
  - intros (b & Hb & M). apply in_map_iff in Hb. destruct Hb as (n & <- & Hn). apply (H z H1 H2 n Hn M).
Qed.
(** the borders of a do not separate x from y *)
Lemma undivided_itv a x y : le x y ->
  (((mem a x /\ mem a y) \/ clear_of X (mem a) x y) <->
   (forall c, ok c -> cltb (pt x) c = true -> cltb (pt y) c = false -> bordi k a c = false)).
Proof.
  intros Hxy. rewrite (const_mem X k HX). split.
  - intros [[H1 H2]|H] z Z1 Z2.
    + rewrite (le_pt X) in Z1, Z2. rewrite !(mem_inr X k HX) in *. unfold inr in *. split; intros; cord.
    + split; intros M; exfalso; [apply (H z)|apply (H x)]; auto using (SetProps.le_refl X k HX).
  - intros H. destruct (inr k a (pt x)) eqn:Ex.
    + left. apply (mem_inr X k HX) in Ex. split; auto. apply H; auto using (SetProps.le_refl X k HX).
    + right. intros z Z1 Z2 M. apply H in M; auto. apply (mem_inr X k HX) in M. congruence.
Qed.
(** values do not change where there is no border *)
Lemma undivided_vr (t : tree) x y : inv k t -> le x y ->
  (same_seg (keys X t) x y \/ clear_of X (cmem t) x y) ->
  forall c, ok c -> cltb (pt x) c = true -> cltb (pt y) c = false -> vr k (nodes t) c = vr k (nodes t) (pt x).
Proof.
  intros [W S] Hxy H c Oc C1 C2. rewrite (le_pt X) in Hxy. destruct H as [(a & Ha & Mx & My)|H].
  - unfold keys in Ha. apply in_map_iff in Ha. destruct Ha as (n & <- & Hn). rewrite (mem_inr X k HX) in Mx, My.
    transitivity (Some (nval n)); [|symmetry]; apply (vr_some X k HX); auto; exists n; conjs; auto. unfold inr in *. cord.
  - assert (Ex : vr k (nodes t) (pt x) = None).
    { destruct (vr k (nodes t) (pt x)) eqn:E; auto. exfalso. apply (H x); [apply (SetProps.le_refl X k HX)|rewrite (le_pt X); auto|]. apply cmem_vr. congruence. }
    rewrite Ex. destruct (vr k (nodes t) c) as [v|] eqn:E; auto. exfalso.
    apply (vr_some X k HX) in E; auto. destruct E as (n & Hn & In & _). unfold inr in In.
    destruct (cltb (pt y) (uc (nkey n))) eqn:F.
    + apply (H y); rewrite ?(le_pt X); auto; [cord|]. exists (nkey n). split; [apply in_map; auto|]. apply (mem_inr X k HX). unfold inr. cord.
    + destruct (cut_gap X k HX c (uc (nkey n)) Oc (uc_ok X k _)) as (z & Z1 & Z2); [cord|].
      apply (H z); rewrite ?(le_pt X); auto; try cord. exists (nkey n). split; [apply in_map; auto|]. apply (mem_inr X k HX). unfold inr. cord.
Qed.

Lemma split_borders (t t' : tree) a g : inv k t -> inv k t' -> ne a -> post k true (lc a) (uc a) g (nodes t) (nodes t') ->
  forall x y, le x y -> (same_seg (keys X t') x y <->
    cmem t' x /\ (same_seg (keys X t) x y \/ clear_of X (cmem t) x y) /\ ((mem a x /\ mem a y) \/ clear_of X (mem a) x y)).
Proof.
  intros It It' Na ([UR UL] & ND & _) x y Hxy. specialize (ND eq_refl). rewrite (cmem_Rb X k HX).
  pose proof Hxy as Hxy'. rewrite (le_pt X) in Hxy'. unfold keys at 1. rewrite (same_seg_cut X k HX) by (auto; apply It').
  split.
  - intros [H1 H2]. split; auto. rewrite undivided, undivided_itv by auto. split; intros c Oc C1 C2; specialize (H2 c Oc C1 C2); rewrite ND in H2.
    + unfold bord. rewrite vl_Lb, vr_Rb. unfold nn in H2. destruct (intr k (nodes t) c); cbn in *; [apply andb_false_r|].
      destruct (cltb (lc a) c && cltb c (uc a)); [|discriminate]. apply andb_true_iff in H2. destruct H2 as [H2 _]. apply andb_true_iff in H2. rewrite !negb_true_iff in H2.
      destruct H2 as [-> ->]. auto.
    + rewrite (bordi_eq X k HX) by auto. destruct (cltb (lc a) c && cltb c (uc a)) eqn:E.
      * clear -E HX Na. unfold Seg.ne in Na. cord.
      * rewrite !andb_true_iff, !negb_true_iff in H2. destruct H2 as [[_ H2] H3]. rewrite H2, H3. auto.
  - intros (H1 & H2 & H3). split; auto. intros c Oc C1 C2.
    pose proof (undivided_vr t x y It Hxy H2 c Oc C1 C2) as Q. rewrite undivided in H2 by auto. rewrite undivided_itv in H3 by auto.
    pose proof (H2 c Oc C1 C2) as B. pose proof (H3 c Oc C1 C2) as B'. rewrite (bordi_eq X k HX) in B' by auto.
    assert (T : intr k (nodes t) c || nn k (nodes t) c = true).
    { unfold bord in B. rewrite vl_Lb, vr_Rb in B. unfold nn. destruct (intr k (nodes t) c), (some (vl k (nodes t) c)), (some (vr k (nodes t) c)); cbn in *; auto. }
    rewrite vr_Rb, UR in H1. rewrite ND, T.
    assert (B1 : cltb (pt x) (lc a) = true -> cltb (pt y) (lc a) = false -> False).
    { intros Q1 Q2. specialize (H3 (lc a) (lc_ok X k a) Q1 Q2). rewrite (bordi_eq X k HX) in H3 by auto. clear - H3 HX. cord. }
    assert (B2 : cltb (pt x) (uc a) = true -> cltb (pt y) (uc a) = false -> False).
    { intros Q1 Q2. specialize (H3 (uc a) (uc_ok X k a) Q1 Q2). rewrite (bordi_eq X k HX) in H3 by auto. clear - H3 HX. cord. }
    destruct (cltb (lc a) c && cltb c (uc a)) eqn:E.
    + cbn [andb]. destruct (cltb (pt x) (lc a)) eqn:F.
      { exfalso. apply B1; auto. clear -E C2 HX. cord. }
      replace (cltb (pt x) (uc a)) with true in H1 by (clear -E C1 HX; cord). cbn [negb andb] in H1. rewrite Q. auto.
    + replace (negb (cltb (pt x) (lc a)) && cltb (pt x) (uc a)) with false in H1.
      * unfold nn in T. rewrite Q, H1, andb_false_r, orb_false_r in T. rewrite T. cbn [andb]. clear -B' HX. destruct (ceqb c (lc a)), (ceqb c (uc a)); auto.
      * symmetry. destruct (cltb (pt x) (lc a)) eqn:F; cbn [negb andb]; auto. destruct (cltb (pt x) (uc a)) eqn:G; auto.
        exfalso. apply B2; auto. clear -E F G B' C1 C2 HX. cord.
Qed.

Lemma fill_borders (t t' : tree) a v : inv k t -> inv k t' -> ne a ->
  upd k (lc a) (uc a) v (nodes t) (nodes t') -> (forall w, v (Some w) = Some w) -> v None <> None ->
  (forall c, intr k (nodes t') c = intr k (nodes t) c || (cltb (lc a) c && cltb c (uc a) && nn k (nodes t) c)) ->
  forall x y, le x y -> (same_seg (keys X t') x y <->
    same_seg (keys X t) x y \/ (mem a x /\ mem a y /\ clear_of X (cmem t) x y)).
Proof.
  intros It It' Na [UR UL] V1 V2 ND x y Hxy. pose proof Hxy as Hxy'. rewrite (le_pt X) in Hxy'.
  unfold keys at 1. rewrite (same_seg_cut X k HX) by (auto; apply It'). split.
  - intros [H1 H2].
    assert (U : same_seg (keys X t) x y \/ clear_of X (cmem t) x y).
    { apply undivided; auto. intros c Oc C1 C2. specialize (H2 c Oc C1 C2). rewrite ND in H2. unfold bord. rewrite vl_Lb, vr_Rb. unfold nn in H2.
      destruct (intr k (nodes t) c); [apply andb_false_r|]. cbn [orb] in H2. rewrite !andb_true_iff, !negb_true_iff in H2. destruct H2 as [_ [-> ->]]. auto. }
    destruct U as [U|U]; auto. right.
    assert (Ex : vr k (nodes t) (pt x) = None).
    { destruct (vr k (nodes t) (pt x)) eqn:E; auto. exfalso. apply (U x); [apply (SetProps.le_refl X k HX)|auto|]. apply cmem_vr. congruence. }
    rewrite vr_Rb, UR, Ex in H1. destruct (negb (cltb (pt x) (lc a)) && cltb (pt x) (uc a)) eqn:E; [|discriminate].
    split; [apply (mem_inr X k HX); auto|]. split; auto. apply (mem_inr X k HX). unfold inr.
    destruct (cltb (pt y) (uc a)) eqn:F; [clear -E F Hxy' HX; cord|]. exfalso.
    specialize (H2 (uc a) (uc_ok X k a) ltac:(clear -E HX; cord) F). rewrite ND in H2. replace (cltb (uc a) (uc a)) with false in H2 by (clear -HX; cord).
    rewrite andb_false_r, orb_false_r in H2.
    pose proof (undivided_vr t x y It Hxy (or_intror U) (uc a) (uc_ok X k a) ltac:(clear -E HX; cord) F) as Q. rewrite Ex in Q.
    apply (intr_b X k HX) in H2. destruct H2 as [H2 _]. rewrite vr_Rb, Q in H2. discriminate.
  - intros [H|(Mx & My & H)].
    + unfold keys in H. rewrite (same_seg_cut X k HX) in H by (auto; apply It). destruct H as [H1 H2]. split.
      * rewrite vr_Rb in *. rewrite UR. destruct (vr k (nodes t) (pt x)) as [w|]; [|discriminate]. rewrite V1. ifg; auto.
      * intros c Oc C1 C2. rewrite ND, H2; auto.
    + rewrite (mem_inr X k HX) in Mx, My. unfold inr in Mx, My. split.
      * rewrite vr_Rb, UR, Mx. destruct (vr k (nodes t) (pt x)); [rewrite V1; auto|]. destruct (v None); auto.
      * intros c Oc C1 C2. rewrite ND. replace (cltb (lc a) c) with true by (clear -Mx My C1 C2 HX; cord). replace (cltb c (uc a)) with true by (clear -Mx My C1 C2 HX; cord).
        cbn [andb]. assert (B : bord k (nodes t) c = false). { apply (proj1 (undivided t x y It Hxy)); auto. }
        unfold bord in B. rewrite vl_Lb, vr_Rb in B. unfold nn. destruct (intr k (nodes t) c), (some (vl k (nodes t) c)), (some (vr k (nodes t) c)); cbn in *; auto.
Qed.

(** erasing the values g removes *)
Lemma erase_borders (t t' : tree) a g : inv k t -> inv k t' -> ne a ->
  upd k (lc a) (uc a) g (nodes t) (nodes t') -> g None = None ->
  (forall c, intr k (nodes t') c = intr k (nodes t) c && (cltb c (lc a) || cltb (uc a) c || some (g (vr k (nodes t) c)))) ->
  forall x y, le x y -> (same_seg (keys X t') x y <->
    same_seg (keys X t) x y /\ (g (vr k (nodes t) (pt x)) <> None \/ clear_of X (mem a) x y)).
Proof.
  intros It It' Na [UR UL] G0 ND x y Hxy. pose proof Hxy as Hxy'. rewrite (le_pt X) in Hxy'.
  unfold keys. rewrite !(same_seg_cut X k HX) by (auto; try apply It'; apply It). rewrite !vr_Rb, UR. split.
  - intros [H1 H2].
    assert (A : some (vr k (nodes t) (pt x)) = true /\ forall c, ok c -> cltb (pt x) c = true -> cltb (pt y) c = false -> intr k (nodes t) c = true).
    { split.
      - destruct (vr k (nodes t) (pt x)); auto. rewrite G0 in H1. revert H1. ifg; auto.
      - intros c Oc C1 C2. specialize (H2 c Oc C1 C2). rewrite ND in H2. apply andb_true_iff in H2. tauto. }
    split; auto. destruct (g (vr k (nodes t) (pt x))) eqn:E; [left; congruence|right].
    assert (U : same_seg (keys X t) x y). { unfold keys. apply (same_seg_cut X k HX); auto; try apply It. rewrite vr_Rb. auto. }
    intros z Z1 Z2 M. rewrite (le_pt X) in Z1, Z2. apply (mem_inr X k HX) in M. unfold inr in M.
    destruct (cltb (pt x) (lc a)) eqn:F.
    + specialize (H2 (lc a) (lc_ok X k a) F ltac:(clear -M Z2 HX; cord)). rewrite ND in H2. apply andb_true_iff in H2. destruct H2 as [_ H2].
      rewrite (undivided_vr t x y It Hxy (or_introl U) (lc a) (lc_ok X k a) F) in H2 by (clear -M Z2 HX; cord). rewrite E in H2. cbn in H2. clear -H2 Na HX. unfold Seg.ne in Na. cord.
    + replace (cltb (pt x) (uc a)) with true in H1 by (clear -M Z1 HX; cord). cbn in H1. rewrite ?E in H1. discriminate.
  - intros [[H1 H2] H3].
    assert (U : same_seg (keys X t) x y). { unfold keys. apply (same_seg_cut X k HX); auto; try apply It. rewrite vr_Rb. auto. }
    destruct H3 as [H3|H3].
    + split.
      * ifg; auto. destruct (g (vr k (nodes t) (pt x))); auto; congruence.
      * intros c Oc C1 C2. rewrite ND, H2 by auto. rewrite (undivided_vr t x y It Hxy (or_introl U) c Oc C1 C2).
        destruct (g (vr k (nodes t) (pt x))); cbn; [apply orb_true_r|congruence].
    + split.
      * destruct (negb (cltb (pt x) (lc a)) && cltb (pt x) (uc a)) eqn:E; auto. exfalso. apply (H3 x); auto using (SetProps.le_refl X k HX). apply (mem_inr X k HX). auto.
      * intros c Oc C1 C2. rewrite ND, H2 by auto. cbn [andb]. destruct (cltb c (lc a)) eqn:E1; auto. destruct (cltb (uc a) c) eqn:E2; auto. exfalso.
        destruct (cltb (pt x) (lc a)) eqn:F.
        -- destruct (cltb (pt y) (uc a)) eqn:G.
           ++ apply (H3 y); auto using (SetProps.le_refl X k HX). apply (mem_inr X k HX). unfold inr. clear -E1 C2 G HX. cord.
           ++ destruct (cut_gap X k HX (lc a) (uc a) (lc_ok X k a) (uc_ok X k a) Na) as (z & Z1 & Z2).
              apply (H3 z); rewrite ?(le_pt X), ?(mem_inr X k HX); unfold inr; clear -Z1 Z2 F G HX; cord.
        -- destruct (cltb (pt x) (uc a)) eqn:G.
           ++ apply (H3 x); auto using (SetProps.le_refl X k HX). apply (mem_inr X k HX). unfold inr. clear -F G HX. cord.
           ++ clear -E2 G C1 HX. cord.
Qed.

(** every run of one value lies in one segment *)
Lemma joined_runs (coeq : V -> V -> bool) (t : tree) : (forall v w, coeq v w = true <-> v = w) -> inv k t -> joined k coeq (nodes t) ->
  forall x y v, le x y -> (forall z, le x z -> le z y -> vr k (nodes t) (pt z) = Some v) -> same_seg (keys X t) x y.
Proof.
  intros Hc [W S] J x y v Hxy H. pose proof Hxy as Hxy'. rewrite (le_pt X) in Hxy'.
  pose proof (H x (SetProps.le_refl X k HX x) Hxy) as Vx. pose proof (H y Hxy (SetProps.le_refl X k HX y)) as Vy.
  apply (vr_some X k HX) in Vx, Vy; auto. destruct Vx as (n & Hn & Ix & En). destruct Vy as (m & Hm & Iy & Em).
  exists (nkey n). conjs; [apply in_map; auto|apply (mem_inr X k HX); auto|]. apply (mem_inr X k HX).
  destruct (cltb (pt y) (uc (nkey n))) eqn:E. { clear -E Ix Hxy' HX. unfold inr in *. cord. }
  exfalso.
  assert (VU : vr k (nodes t) (uc (nkey n)) = Some v).
  { destruct (cltb (uc (nkey n)) (lc (nkey m))) eqn:F.
    - destruct (probe_r X k HX [nodes t] _ _ (uc_ok X k _) (lc_ok X k _) F) as (z & Z1 & Z2 & Z3).
      rewrite <- (Z3 _ (or_introl eq_refl)). apply H; rewrite (le_pt X); clear -Z1 Z2 Ix Iy HX; unfold inr in *; cord.
    - apply (vr_some X k HX); auto. exists m. conjs; auto. clear -E F Iy HX. unfold inr in *. cord. }
  destruct (intr_ends X k HX _ n S Hn) as (_ & B & _).
  rewrite (joined_intr X k HX coeq _ _ S J) in B by (intros; apply Hc; auto). rewrite VU in B.
  assert (VL : vl k (nodes t) (uc (nkey n)) = Some v).
  { apply (vl_some X k HX); auto. exists n. conjs; auto. unfold inl, inr in *. clear -Ix HX. cord. }
  rewrite VL, (proj2 (Hc v v) eq_refl) in B. discriminate.
Qed.
End Cuts.

(** From cuts to elements (proof infrastructure). *)
From Verif Require Export SetOps.

Section SegElem.
Context (X : dom) (k : kind).
Context (HX : dom_ok X k).
Context {V : Type}.
Notation I := (itv (D X)).
Notation node := (node (D X) V).
Notation lc := (lc X k).
Notation uc := (uc X k).
Notation pt := (pt X).
Notation cltb := (cltb X).
Notation ceqb := (ceqb X).
Notation cut := (cut X).
Notation ok := (cut_ok X k).
Notation ne := (@ne X k).
Ltac cord := cord_ X k HX.

Lemma const_right (l : list node) c e : ok c -> ok e -> cltb c e = true ->
  exists d, ok d /\ cltb c d = true /\ cltb e d = false /\
    forall c', cltb c' c = false -> cltb c' d = true -> vr k l c' = vr k l c.
Proof.
  intros Oc Oe H. induction l as [|n l (d & Od & H1 & H2 & IH)].
  - exists e. conjs; auto. cord.
  - destruct (inr k (nkey n) c) eqn:E.
    + exists (cmin X (uc (nkey n)) d). conjs.
      * apply cmin_ok; auto. apply uc_ok.
      * unfold inr, cmin in *. ifg; cord.
      * unfold cmin. ifg; cord.
      * intros c' A B. cbn. rewrite E. replace (inr k (nkey n) c') with true; auto.
        unfold inr, cmin in *. revert B. ifg; intros; cord.
    + destruct (cltb c (lc (nkey n))) eqn:F.
      * exists (cmin X (lc (nkey n)) d). conjs.
        -- apply cmin_ok; auto. apply lc_ok.
        -- unfold cmin in *. ifg; cord.
        -- unfold cmin. ifg; cord.
        -- intros c' A B. cbn. rewrite E. replace (inr k (nkey n) c') with false.
           ++ apply IH; auto. unfold cmin in B. revert B. ifg; intros; cord.
           ++ unfold inr, cmin in *. revert B. ifg; intros; cord.
      * exists d. conjs; auto. intros c' A B. cbn. rewrite E. replace (inr k (nkey n) c') with false.
        -- apply IH; auto.
        -- unfold inr in *. cord.
Qed.

Lemma const_left (l : list node) c e : ok c -> ok e -> cltb e c = true ->
  exists d, ok d /\ cltb d c = true /\ cltb d e = false /\
    forall c', cltb c' d = false -> cltb c' c = true -> vr k l c' = vl k l c.
Proof.
  intros Oc Oe H. induction l as [|n l (d & Od & H1 & H2 & IH)].
  - exists e. conjs; auto. cord.
  - destruct (inl k (nkey n) c) eqn:E.
    + exists (cmax X (lc (nkey n)) d). conjs.
      * apply cmax_ok; auto. apply lc_ok.
      * unfold inl, cmax in *. ifg; cord.
      * unfold cmax. ifg; cord.
      * intros c' A B. cbn. rewrite E. replace (inr k (nkey n) c') with true; auto.
        unfold inr, inl, cmax in *. revert A. ifg; intros; cord.
    + destruct (cltb (uc (nkey n)) c) eqn:F.
      * exists (cmax X (uc (nkey n)) d). conjs.
        -- apply cmax_ok; auto. apply uc_ok.
        -- unfold cmax in *. ifg; cord.
        -- unfold cmax. ifg; cord.
        -- intros c' A B. cbn. rewrite E. replace (inr k (nkey n) c') with false.
           ++ apply IH; auto. unfold cmax in A. revert A. ifg; intros; cord.
           ++ unfold inr, cmax in *. revert A. ifg; intros; cord.
      * exists d. conjs; auto. intros c' A B. cbn. rewrite E. replace (inr k (nkey n) c') with false.
        -- apply IH; auto.
        -- unfold inr, inl in *. cord.
Qed.

(** an element just right (left) of a cut which sees all the given sequences as the cut does *)
Lemma probe_r (ls : list (list node)) c e : ok c -> ok e -> cltb c e = true ->
  exists x, cltb (pt x) c = false /\ cltb (pt x) e = true /\ forall l, In l ls -> vr k l (pt x) = vr k l c.
Proof.
  intros Oc Oe H. 
  assert (G : exists d, ok d /\ cltb c d = true /\ cltb e d = false /\
    forall l, In l ls -> forall c', cltb c' c = false -> cltb c' d = true -> vr k l c' = vr k l c).
  { induction ls as [|l ls (d & Od & H1 & H2 & IH)].
    - exists e. conjs; auto. { cord. } intros l [].
    - destruct (const_right l c d Oc Od H1) as (d' & O' & A & B & F).
      exists d'. conjs; auto. { cord. } intros l' [<-|Hl] c' P Q; auto. apply IH; auto. cord. }
  destruct G as (d & Od & H1 & H2 & G). destruct (cut_gap X k HX c d Oc Od H1) as (x & A & B).
  exists x. conjs; auto. cord.
Qed.
Lemma probe_l (ls : list (list node)) c e : ok c -> ok e -> cltb e c = true ->
  exists x, cltb (pt x) c = true /\ cltb (pt x) e = false /\ forall l, In l ls -> vr k l (pt x) = vl k l c.
Proof.
  intros Oc Oe H. 
  assert (G : exists d, ok d /\ cltb d c = true /\ cltb d e = false /\
    forall l, In l ls -> forall c', cltb c' d = false -> cltb c' c = true -> vr k l c' = vl k l c).
  { induction ls as [|l ls (d & Od & H1 & H2 & IH)].
    - exists e. conjs; auto. { cord. } intros l [].
    - destruct (const_left l c d Oc Od H1) as (d' & O' & A & B & F).
      exists d'. conjs; auto. { cord. } intros l' [<-|Hl] c' P Q; auto. apply IH; auto. cord. }
  destruct G as (d & Od & H1 & H2 & G). destruct (cut_gap X k HX d c Od Oc H1) as (x & A & B).
  exists x. conjs; auto. cord.
Qed.

Lemma vr_in (l : list node) c v : vr k l c = Some v -> exists n, In n l /\ inr k (nkey n) c = true /\ nval n = v.
Proof.
  induction l as [|n l IH]; cbn; [discriminate|]. destruct (inr k (nkey n) c) eqn:E.
  - intros [= <-]. eauto.
  - intros H. destruct (IH H) as (m & Hm & H'). eauto.
Qed.
Lemma vl_in (l : list node) c v : vl k l c = Some v -> exists n, In n l /\ inl k (nkey n) c = true /\ nval n = v.
Proof.
  induction l as [|n l IH]; cbn; [discriminate|]. destruct (inl k (nkey n) c) eqn:E.
  - intros [= <-]. eauto.
  - intros H. destruct (IH H) as (m & Hm & H'). eauto.
Qed.

(** sequences with the same elements agree at all cuts *)
Lemma elem_obs (l r : list node) : (forall x, vr k l (pt x) = vr k r (pt x)) ->
  forall c, ok c -> vr k l c = vr k r c /\ vl k l c = vl k r c.
Proof.
  intros H c Oc.
  assert (A : forall e, ok e -> cltb c e = true -> vr k l c = vr k r c).
  { intros e Oe He. destruct (probe_r [l; r] c e Oc Oe He) as (x & _ & _ & G).
    rewrite <- (G l), <- (G r); cbn; auto. }
  assert (B : forall e, ok e -> cltb e c = true -> vl k l c = vl k r c).
  { intros e Oe He. destruct (probe_l [l; r] c e Oc Oe He) as (x & _ & _ & G).
    rewrite <- (G l), <- (G r); cbn; auto. }
  split.
  - destruct (vr k l c) as [v|] eqn:E1; [|destruct (vr k r c) as [w|] eqn:E2; auto].
    + destruct (vr_in l c v E1) as (n & _ & Hn & _). apply (A (uc (nkey n))); [apply uc_ok|]. unfold inr in Hn. cord.
    + destruct (vr_in r c w E2) as (n & _ & Hn & _). apply (A (uc (nkey n))); [apply uc_ok|]. unfold inr in Hn. cord.
  - destruct (vl k l c) as [v|] eqn:E1; [|destruct (vl k r c) as [w|] eqn:E2; auto].
    + destruct (vl_in l c v E1) as (n & _ & Hn & _). apply (B (lc (nkey n))); [apply lc_ok|]. unfold inl in Hn. cord.
    + destruct (vl_in r c w E2) as (n & _ & Hn & _). apply (B (lc (nkey n))); [apply lc_ok|]. unfold inl in Hn. cord.
Qed.

Lemma intr_ends (l : list node) n : srt k l -> In n l ->
  intr k l (lc (nkey n)) = false /\ intr k l (uc (nkey n)) = false /\
  Rb k l (lc (nkey n)) = true /\ Lb k l (uc (nkey n)) = true.
Proof.
  intros S Hn. assert (Nn : ne (nkey n)).
  { apply srt_nes in S. unfold nes in S. rewrite Forall_forall in S. auto. }
  conjs.
  - destruct (intr k l _) eqn:E; auto. exfalso. apply intr_true in E. destruct E as (m & Hm & E).
    assert (n = m) by (apply (srt_uniq_r X k HX l n m (lc (nkey n)) S Hn Hm); unfold inr, ini, Seg.ne in *; cord).
    subst. unfold ini in E. cord.
  - destruct (intr k l _) eqn:E; auto. exfalso. apply intr_true in E. destruct E as (m & Hm & E).
    assert (n = m).
    { apply (srt_uniq_r X k HX l n m (cmax X (lc (nkey n)) (lc (nkey m))) S Hn Hm);
        unfold inr, ini, Seg.ne, cmax in *; ifg; cord. }
    subst. unfold ini in E. cord.
  - apply Rb_iff. exists n. split; auto. unfold inr, Seg.ne in *. cord.
  - apply Lb_iff. exists n. split; auto. unfold inl, Seg.ne in *. cord.
Qed.

Lemma lt_pt x y : lt x y <-> cltb (pt x) (pt y) = true.
Proof. unfold lt, IntervalFacts.cltb, IntervalFacts.pt. cbn. tauto. Qed.
Lemma le_pt x y : le x y <-> cltb (pt y) (pt x) = false.
Proof. unfold le, IntervalFacts.cltb, IntervalFacts.pt. cbn. tauto. Qed.

Lemma mem_inr a x : mem X k a x <-> inr k a (pt x) = true.
Proof. symmetry. apply inr_mem. auto. Qed.

Lemma Rb_mem (l : list node) x : Rb k l (pt x) = true <-> exists n, In n l /\ mem X k (nkey n) x.
Proof. rewrite Rb_iff. split; intros (n & H1 & H2); exists n; split; auto; apply mem_inr; auto. Qed.
Lemma Rb_mem_f (l : list node) x : Rb k l (pt x) = false <-> forall n, In n l -> ~ mem X k (nkey n) x.
Proof.
  split.
  - intros H n Hn M. rewrite (proj2 (Rb_mem l x)) in H; [discriminate|eauto].
  - intros H. destruct (Rb k l (pt x)) eqn:E; auto. apply Rb_mem in E. destruct E as (n & Hn & M). destruct (H n Hn M).
Qed.

Lemma same_seg_cut (l : list node) x y : srt k l -> le x y ->
  (same_seg X k (map nkey l) x y <->
   Rb k l (pt x) = true /\ forall c, ok c -> cltb (pt x) c = true -> cltb (pt y) c = false -> intr k l c = true).
Proof.
  intros S Hxy. rewrite le_pt in Hxy. split.
  - intros (a & Ha & Mx & My). apply in_map_iff in Ha. destruct Ha as (n & <- & Hn).
    split; [apply Rb_mem; eauto|]. intros c Oc H1 H2. apply intr_true. exists n. split; auto.
    apply mem_inr in Mx, My. unfold inr, ini in *. cord.
  - intros [H1 H2]. apply Rb_mem in H1. destruct H1 as (n & Hn & Mx). exists (nkey n). conjs; auto.
    { apply in_map; auto. }
    apply mem_inr in Mx. apply mem_inr.
    destruct (cltb (pt y) (uc (nkey n))) eqn:E. { unfold inr in *. cord. }
    exfalso. destruct (intr_ends l n S Hn) as (_ & B & _). rewrite H2 in B; [discriminate|apply uc_ok| |auto].
    unfold inr in *. cord.
Qed.

(** no border of the interval (of the sequence) strictly after x, up to y *)
Lemma const_mem a x y : (forall c, ok c -> cltb (pt x) c = true -> cltb (pt y) c = false -> bordi k a c = false) <->
  (forall z, le x z -> le z y -> (mem X k a z <-> mem X k a x)).
Proof.
  destruct (is_empty X k a) eqn:Ea.
  { split.
    - intros _ z _ _. split; intros H; exfalso; revert H; apply (empty_no_point X k HX); auto.
    - intros _ c _ _ _. apply (not_ne X k HX) in Ea. unfold bordi, inl, inr, ini. cord. }
  apply (ne_iff X k HX) in Ea. split.
  - intros H z H1 H2. rewrite le_pt in H1, H2. rewrite !mem_inr.
    pose proof (H (lc a) (lc_ok X k a)) as Hl. pose proof (H (uc a) (uc_ok X k a)) as Hu.
    rewrite bordi_eq in Hl, Hu by auto. unfold inr, Seg.ne in *. split; intros Q.
    + destruct (cltb (pt x) (lc a)) eqn:E; [|cord]. assert (cltb (pt y) (lc a) = false) by cord. specialize (Hl eq_refl H0). cord.
    + destruct (cltb (pt z) (uc a)) eqn:E; [cord|].
      assert (cltb (pt x) (uc a) = true) by cord. assert (cltb (pt y) (uc a) = false) by cord.
      specialize (Hu H0 H3). cord.
  - intros H c Oc H1 H2. rewrite bordi_eq by auto.
    destruct (cltb (pt y) (pt x)) eqn:Exy. { cord. }
    assert (Cx : le x x) by (apply le_pt; cord). assert (Cy : le x y) by (apply le_pt; auto).
    assert (Dy : le y y) by (apply le_pt; cord).
    assert (G : forall z, cltb (pt z) (pt x) = false -> cltb (pt y) (pt z) = false -> inr k a (pt z) = inr k a (pt x)).
    { intros z A B. apply bool_iff. rewrite <- !mem_inr. apply H; apply le_pt; auto. }
    destruct (ceqb c (lc a)) eqn:E1.
    { exfalso. destruct (cltb (pt y) (uc a)) eqn:E2.
      - assert (Q := G y Exy ltac:(cord)). unfold inr, Seg.ne in *. cord.
      - destruct (cut_gap X k HX (lc a) (uc a) (lc_ok X k a) (uc_ok X k a) Ea) as (z & Z1 & Z2).
        assert (Q := G z ltac:(cord) ltac:(cord)). unfold inr, Seg.ne in *. cord. }
    destruct (ceqb c (uc a)) eqn:E2; [|auto].
    exfalso. destruct (cltb (pt x) (lc a)) eqn:E3.
    + destruct (cut_gap X k HX (lc a) (uc a) (lc_ok X k a) (uc_ok X k a) Ea) as (z & Z1 & Z2).
      assert (Q := G z ltac:(cord) ltac:(cord)). unfold inr, Seg.ne in *. cord.
    + assert (Q := G y Exy ltac:(cord)). unfold inr, Seg.ne in *. cord.
Qed.

Lemma const_seg (l : list node) x y : srt k l -> le x y ->
  ((forall c, ok c -> cltb (pt x) c = true -> cltb (pt y) c = false -> bord k l c = false) <->
   (same_seg X k (map nkey l) x y \/ forall z, le x z -> le z y -> forall n, In n l -> ~ mem X k (nkey n) z)).
Proof.
  intros S Hxy. pose proof Hxy as Hxy'. rewrite le_pt in Hxy'. split.
  - intros H. destruct (Rb k l (pt x)) eqn:Ex.
    + left. apply Rb_mem in Ex. destruct Ex as (n & Hn & Mx). exists (nkey n). conjs; auto. { apply in_map; auto. }
      apply mem_inr in Mx. apply mem_inr.
      destruct (cltb (pt y) (uc (nkey n))) eqn:E. { unfold inr in *. cord. }
      exfalso. destruct (intr_ends l n S Hn) as (_ & B1 & _ & B2).
      specialize (H (uc (nkey n)) (uc_ok X k _)). unfold bord in H. rewrite B1, B2 in H. cbn [andb orb negb] in H.
      assert (true = false); [|discriminate]. apply H; auto. unfold inr in *. cord.
    + right. intros z H1 H2 n Hn Mz. rewrite le_pt in H1, H2. apply mem_inr in Mz.
      rewrite Rb_mem_f in Ex. specialize (Ex n Hn). rewrite mem_inr in Ex.
      destruct (intr_ends l n S Hn) as (B1 & _ & B2 & _).
      specialize (H (lc (nkey n)) (lc_ok X k _)). unfold bord in H. rewrite B1, B2, orb_true_r in H. cbn [andb orb negb] in H.
      assert (true = false); [|discriminate]. apply H; unfold inr in *; destruct (cltb (pt x) (lc (nkey n))) eqn:F; cord.
  - intros [H|H] c Oc H1 H2.
    + apply same_seg_cut in H; auto. destruct H as [_ H]. unfold bord. rewrite (H c Oc H1 H2). apply andb_false_r.
    + destruct (bord k l c) eqn:E; auto. exfalso. unfold bord in E. apply andb_true_iff in E. destruct E as [E _].
      apply orb_true_iff in E. rewrite Lb_iff, Rb_iff in E. destruct E as [(n & Hn & E)|(n & Hn & E)].
      * destruct (cltb (pt x) (lc (nkey n))) eqn:F.
        -- destruct (cut_gap X k HX (lc (nkey n)) c (lc_ok X k _) Oc) as (z & Z1 & Z2). { unfold inl in E. cord. }
           apply (H z) with (n := n); auto; [apply le_pt; cord|apply le_pt; cord|]. apply mem_inr. unfold inr, inl in *. cord.
        -- apply (H x) with (n := n); auto; [apply le_pt; cord|]. apply mem_inr. unfold inr, inl in *. cord.
      * destruct (cltb (pt y) (uc (nkey n))) eqn:F.
        -- apply (H y) with (n := n); auto; [apply le_pt; cord|]. apply mem_inr. unfold inr, inl in *. cord.
        -- destruct (cut_gap X k HX c (uc (nkey n)) Oc (uc_ok X k _)) as (z & Z1 & Z2). { unfold inr in E. cord. }
           apply (H z) with (n := n); auto; [apply le_pt; cord|apply le_pt; cord|]. apply mem_inr. unfold inr, inl in *. cord.
Qed.

End SegElem.

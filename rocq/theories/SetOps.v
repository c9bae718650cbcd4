(** Adding and subtracting an interval: results for all styles (proofs). *)
From Verif Require Export SetAdd.

(** boolean case analysis with pruning *)
Ltac bprune :=
  cbn [orb andb negb] in *;
  repeat match goal with
  | H : true = true -> _ |- _ => specialize (H eq_refl)
  | H : false = false -> _ |- _ => specialize (H eq_refl)
  | H : true = false -> _ |- _ => clear H
  | H : false = true -> _ |- _ => clear H
  | H : _ /\ _ |- _ => destruct H
  | H : true = true |- _ => clear H
  | H : false = false |- _ => clear H
  end; try discriminate; subst; cbn [orb andb negb] in *; try discriminate.
Ltac bcases := bprune; try reflexivity;
  match goal with
  | b : bool |- _ => destruct b; bcases
  | _ => do 2 (bprune; try reflexivity)
  end.

Section Lift.
Context (X : dom) (k : kind).
Context (HX : dom_ok X k).
Context {V : Type}.
Notation node := (node (D X) V).
Notation lc := (lc X k).
Notation uc := (uc X k).
Ltac cord := cord_ X k HX.

(** disjoint parts of a sorted sequence *)
Lemma srt_app_b (l r : list node) c : srt k (l ++ r) ->
  (Rb k l c = true -> Rb k r c = false /\ intr k r c = false) /\
  (Lb k l c = true -> Lb k r c = false /\ intr k r c = false) /\
  (intr k l c = true -> Rb k r c = false /\ Lb k r c = false).
Proof.
  intros H. rewrite srt_app in H. destruct H as (Hl & Hr & H).
  assert (N : forall n, In n l \/ In n r -> ne k (nkey n)).
  { intros n [Hn|Hn]; [apply srt_nes in Hl|apply srt_nes in Hr]; unfold nes in *; rewrite Forall_forall in *; auto. }
  assert (A : forall b : bool, (b = true -> False) -> b = false) by (intros []; tauto).
  conjs; intros H1.
  - apply Rb_iff in H1. destruct H1 as (n & Hn & H1). split; apply A; intros H2.
    + apply Rb_iff in H2. destruct H2 as (m & Hm & H2). specialize (H n m Hn Hm). unfold inr in *. cord.
    + apply intr_true in H2. destruct H2 as (m & Hm & H2). specialize (H n m Hn Hm). unfold inr, ini in *. cord.
  - apply Lb_iff in H1. destruct H1 as (n & Hn & H1). split; apply A; intros H2.
    + apply Lb_iff in H2. destruct H2 as (m & Hm & H2). specialize (H n m Hn Hm).
      pose proof (N n (or_introl Hn)). pose proof (N m (or_intror Hm)). unfold inl, ne in *. cord.
    + apply intr_true in H2. destruct H2 as (m & Hm & H2). specialize (H n m Hn Hm). 
      pose proof (N n (or_introl Hn)). pose proof (N m (or_intror Hm)). unfold inl, ini, ne in *. cord.
  - apply intr_true in H1. destruct H1 as (n & Hn & H1). split; apply A; intros H2.
    + apply Rb_iff in H2. destruct H2 as (m & Hm & H2). specialize (H n m Hn Hm).
      pose proof (N n (or_introl Hn)). pose proof (N m (or_intror Hm)). unfold ini, inr, ne in *. cord.
    + apply Lb_iff in H2. destruct H2 as (m & Hm & H2). specialize (H n m Hn Hm).
      pose proof (N n (or_introl Hn)). pose proof (N m (or_intror Hm)). unfold inl, ini, ne in *. cord.
Qed.

Lemma lift_add a (L M P R : list node) : add_obs k a M P -> add_obs k a (L ++ M ++ R) (L ++ P ++ R).
Proof.
  intros H c. destruct (H c) as [H1 H2]. rewrite !Rb_app, !Lb_app, H1, H2.
  destruct (Rb k L c), (Rb k M c), (Rb k R c), (Lb k L c), (Lb k M c), (Lb k R c), (inr k a c), (inl k a c); auto.
Qed.
Lemma lift_sep a (L M P R : list node) : sep_obs k a M P -> sep_obs k a (L ++ M ++ R) (L ++ P ++ R).
Proof.
  intros H c. specialize (H c). rewrite !intr_app, H.
  destruct (intr k L c), (intr k M c), (intr k R c), (ini k a c); auto.
Qed.
Lemma ini_b (a : itv (D X)) c : ini k a c = true -> inr k a c = true /\ inl k a c = true.
Proof. unfold ini, inr, inl. intros. split; cord. Qed.

Lemma lift_spl a (L M P R : list node) : srt k (L ++ M ++ R) -> srt k (L ++ P ++ R) -> 
  add_obs k a M P -> spl_obs k a M P -> spl_obs k a (L ++ M ++ R) (L ++ P ++ R).
Proof.
  intros S S' HA HS c. destruct (HA c) as [A1 A2]. specialize (HS c).
  destruct (srt_app_b _ _ c S) as (U1 & U2 & U3). destruct (srt_app_b _ _ c S') as (U4 & U5 & U6).
  rewrite srt_app in S, S'. destruct S as (_ & S & _), S' as (_ & S' & _).
  destruct (srt_app_b _ _ c S) as (W1 & W2 & W3). destruct (srt_app_b _ _ c S') as (W4 & W5 & W6).
  pose proof (intr_b X k HX L c) as IL. pose proof (intr_b X k HX M c) as IM.
  pose proof (intr_b X k HX P c) as IP. pose proof (intr_b X k HX R c) as IR. pose proof (ini_b a c) as IA.
  unfold bord, bordi in *. rewrite !Rb_app, !Lb_app, !intr_app in *.
  clear HA S S'.
  revert A1 A2 HS U1 U2 U3 U4 U5 U6 W1 W2 W3 W4 W5 W6 IL IM IP IR IA.
  generalize (Rb k L c) (Rb k M c) (Rb k R c) (Rb k P c) (Lb k L c) (Lb k M c) (Lb k R c) (Lb k P c)
    (intr k L c) (intr k M c) (intr k R c) (intr k P c) (inr k a c) (inl k a c) (ini k a c).
  clear. intros. bcases.
Qed.
End Lift.

Lemma nil_or_not {A} (M : list A) : M = [] \/ M <> []. Proof. destruct M; [left|right]; congruence. Qed.

Section SetOps.
Context (X : dom) (k : kind).
Context (HX : dom_ok X k).
Notation I := (itv (D X)).
Notation node := (node (D X) unit).
Notation tree := (tree (D X) unit).
Notation lc := (lc X k).
Notation uc := (uc X k).
Notation cltb := (cltb X).
Notation ceqb := (ceqb X).
Notation cut := (cut X).
Notation ne := (@ne X k).
Notation hd_it := (@hd_it X unit).
Notation last_it := (@last_it X unit).
Notation sinv := (sinv X k).
Notation added := (added X k).
Ltac cord := cord_ X k HX.
Ltac lst := rewrite <- ?app_assoc; cbn [app]; congruence || auto.
Ltac bnorm := cbn [Rb Lb intr app nkey]; rewrite ?Rb_app, ?Lb_app, ?intr_app; cbn [Rb Lb intr app nkey].

Lemma obs_b (l r : list node) : obs k l r -> forall c, Rb k l c = Rb k r c /\ Lb k l c = Lb k r c.
Proof. intros [H1 H2] c. rewrite !Rb_vr, !Lb_vl, H1, H2. auto. Qed.

Lemma added_ext st a M P P' : st = Joining -> added st a M P -> obs k P' P -> added st a M P'.
Proof.
  intros -> [HA _] O. split; auto. intros c. destruct (HA c), (obs_b _ _ O c). split; congruence.
Qed.

Lemma joined_app_l (L R : list node) : joined k s_coeq (L ++ R) -> joined k s_coeq L.
Proof. apply joined_incl. intros x. rewrite in_app_iff. auto. Qed.
Lemma joined_app_r (L R : list node) : joined k s_coeq (L ++ R) -> joined k s_coeq R.
Proof. apply joined_incl. intros x. rewrite in_app_iff. auto. Qed.

(** after a new segment was inserted *)
Lemma s_handle_at st t L n R a M : inv k t -> nodes t = L ++ n :: R ->
  (st = Joining -> joined k s_coeq L /\ joined k s_coeq R) ->
  added st a M (nodes t) ->
  exists t' it, s_handle_inserted X k st t (Some (nid n)) = Ok (t', it) /\ sinv st t' /\ isit t' it /\ added st a M (nodes t') /\
    ((forall s R', R = s :: R' -> ceqb (uc (nkey n)) (lc (nkey s)) = false) -> exists L', nodes t' = L' ++ R).
Proof.
  intros Hi E HJ HA.
  assert (V : isit t (Some (nid n))) by (apply isit_in; rewrite E, in_app_iff; cbn; auto).
  destruct st; cbn [s_handle_inserted].
  - destruct (HJ eq_refl) as [JL JR].
    destruct (join_neighbours_at X k HX s_coeq s_coeq_eq t L n R Hi E JL JR)
      as (t' & L' & n' & R' & -> & E' & I' & F' & O' & J' & X' & Y' & _).
    exists t', (Some (nid n')). conjs; auto.
    + split; auto.
    + apply isit_in. rewrite E', in_app_iff. cbn. auto.
    + eapply added_ext; eauto.
    + intros HR. destruct Y' as [->|(s & -> & Y' & _)].
      * exists (L' ++ [n']). rewrite E'. lst.
      * rewrite (HR s R' eq_refl) in Y'. discriminate.
  - exists t, (Some (nid n)). conjs; auto. { split; auto. } exists (L ++ [n]). rewrite E. lst.
  - exists t, (Some (nid n)). conjs; auto. { split; auto. } exists (L ++ [n]). rewrite E. lst.
Qed.

Lemma added_new st L R a v i : inv k (Tree (L ++ R) i) -> ne a ->  below k L (lc a) -> above k R (uc a) ->
  added st a (L ++ R) (L ++ Node i a v :: R).
Proof.
  intros [W S] Na BL AR. cbn in S.
  assert (HA : add_obs k a [] [Node i a v]). { intros c. cbn. rewrite !orb_false_r. auto. }
  assert (HS : sep_obs k a [] [Node i a v]). { intros c. cbn. rewrite !orb_false_r. auto. }
  assert (HP : spl_obs k a [] [Node i a v]).
  { intros c. cbn. rewrite !orb_false_r. unfold bordi. pose proof (ini_b X k HX a c). revert H.
    generalize (ini k a c) (inr k a c) (inl k a c). intros. bcases. }
  split; [|destruct st; auto].
  - apply (lift_add X k a L [] [_] R HA).
  - apply (lift_sep X k a L [] [_] R HS).
  - apply (lift_spl X k HX a L [] [_] R); auto. cbn. apply (srt_mid X k HX).
    rewrite srt_app in S. cbn. tauto.
Qed.

(** when the addend overlaps something *)
Lemma s_add_over_at st t L M R a Q q : sinv st t -> nodes t = L ++ M ++ R -> ne a -> M = Q ++ [q] ->
  below k L (lc a) -> Forall (over k a) M -> above k R (uc a) ->
  exists t' it, s_add_over X k st t a (Some (nid q)) = Ok (t', it) /\ sinv st t' /\ isit t' it /\ added st a (nodes t) (nodes t').
Proof.
  intros [Hi HJ] E Na EQ BL OM AR. pose proof Hi as [W S].
  assert (NM : M <> []) by (rewrite EQ; destruct Q; discriminate).
  destruct (M_ends M NM) as (m & M' & _ & _ & Em & _).
  assert (SM : srt k (L ++ M ++ R)) by congruence.
  assert (SM' : srt k M) by (rewrite !srt_app in SM; tauto).
  assert (NMs : nes k M) by (apply srt_nes; auto).
  assert (Hm : ne (nkey m) /\ over k a m).
  { unfold nes in NMs. rewrite Forall_forall in *. split; [apply NMs|apply OM]; rewrite Em; cbn; auto. }
  assert (Hq : ne (nkey q) /\ over k a q).
  { unfold nes in NMs. rewrite Forall_forall in *. split; [apply NMs|apply OM]; rewrite EQ, in_app_iff; cbn; auto. }
  destruct Hm as [Nm [Om1 Om2]], Hq as [Nq [Oq1 Oq2]].
  assert (BLm : below k L (lc (nkey m))) by (apply (srt_below X k L (M ++ R) SM); rewrite Em; cbn; auto).
  assert (ARq : above k R (uc (nkey q))).
  { rewrite app_assoc in SM. apply (srt_above X k (L ++ M) R SM). rewrite EQ, !in_app_iff. cbn. auto. }
  destruct (join_under_at X k HX t L M R m M' Q q a Hi E Na BL OM AR Em EQ) as [HU WU].
  set (h := Node (nid m) (under k (nkey m) (nkey q) a) (nval m)) in *.
  destruct (under_cut X k HX (nkey m) (nkey q) a Nm Nq Na Om2 Oq1) as [Mi Ma].
  destruct (cover_M X k HX M m M' Q q a (nkey h) SM' OM Na Em EQ Mi Ma) as [Nh HC].
  assert (SU : srt k (L ++ h :: R)).
  { apply (srt_mid X k HX). rewrite !srt_app in SM. conjs; try tauto; unfold is_min, is_max in *.
    - unfold below in *. rewrite Forall_forall in *. intros n Hn. specialize (BL n Hn). specialize (BLm n Hn). cbn in *. cord.
    - unfold above in *. rewrite Forall_forall in *. intros n Hn. specialize (AR n Hn). specialize (ARq n Hn). cbn in *. cord. }
  assert (HA : add_obs k a M [h]) by (intros c; destruct (HC c) as (-> & -> & _)|| (cbn; destruct (HC c) as (E1 & E2 & _); cbn in E1, E2; rewrite E1, E2, !orb_false_r; auto)).
  assert (HS : sep_obs k a M [h]) by (intros c; cbn; destruct (HC c) as (_ & _ & E3); cbn in E3; rewrite E3, !orb_false_r; auto).
  set (tu := Tree (L ++ h :: R) (fresh t)) in *.
  assert (IU : inv k tu) by (split; auto).
  destruct st; cbn [s_add_over].
  - rewrite HU. cbn [bind].
    rewrite E in HJ. destruct (s_handle_at Joining tu L h R a (nodes t)) as (t' & it & H & R1 & R2 & R3 & _); auto.
    + intros _. split; [apply joined_app_l in HJ; auto|apply joined_app_r, joined_app_r in HJ; auto].
    + split; auto. rewrite E. apply (lift_add X k a L M [h] R); auto.
    + cbn [s_handle_inserted] in H. change (nid h) with (nid m) in H. exists t', it. auto.
  - rewrite HU. exists tu, (Some (nid m)). conjs; auto.
    + split; auto.
    + change (nid m) with (nid h). apply isit_in. cbn. rewrite in_app_iff. cbn. auto.
    + rewrite E. split; [apply (lift_add X k a L M [h] R)|apply (lift_sep X k a L M [h] R)]; auto.
  - destruct (s_add_over_split X k HX t L M R a Hi E Na NM BL OM AR Q q EQ)
      as (t' & it & P & H & I' & V' & E' & A' & S'). exists t', it. conjs; auto.
    + split; auto.
    + rewrite E, E'. split; [apply lift_add|apply (lift_spl X k HX)]; auto. rewrite <- E'. apply I'.
Qed.

(** add an interval that overlaps nothing *)
Lemma s_add_dec st t L R a : sinv st t -> ne a -> nodes t = L ++ R -> below k L (lc a) -> above k R (uc a) ->
  exists t' it, s_add X k st t a = Ok (t', it) /\ sinv st t' /\ isit t' it /\ added st a (nodes t) (nodes t') /\
    ((forall s R', R = s :: R' -> ceqb (uc a) (lc (nkey s)) = false) -> exists L', nodes t' = L' ++ R).
Proof.
  intros [Hi HJ] Na E BL AR. pose proof Hi as [W S]. unfold s_add. rewrite (ne_e X k HX a Na).
  rewrite (insert_new X k HX t L R) by auto. cbn [bind].
  change (Some (fresh t)) with (Some (nid (Node (fresh t) a tt))).
  apply s_handle_at with (L := L) (R := R); auto.
  - apply inv_new; auto.
  - intros ->. rewrite E in HJ. split; [apply joined_app_l in HJ|apply joined_app_r in HJ]; auto.
  - rewrite E. cbn [nodes]. apply added_new; auto. rewrite <- E, tree_eta. auto.
Qed.

(** add an interval *)
Theorem s_add_at st t a : sinv st t -> ne a ->
  exists t' it, s_add X k st t a = Ok (t', it) /\ sinv st t' /\ isit t' it /\ added st a (nodes t) (nodes t').
Proof.
  intros Hi0 Na. pose proof Hi0 as [Hi HJ]. pose proof Hi as [W S].
  destruct (decomp X k HX a (nodes t) S Na) as (L & M & R & E & BL & OM & AR).
  destruct (nil_or_not M) as [->|NM].
  - destruct (s_add_dec st t L R a Hi0 Na E BL AR) as (t' & it & H1 & H2 & H3 & H4 & _).
    exists t', it. conjs; auto.
  - unfold s_add. rewrite (ne_e X k HX a Na). destruct (M_ends M NM) as (m & M' & Q & q & Em & EQ).
    assert (Em' : nodes t = L ++ m :: M' ++ R) by (rewrite E, Em; auto).
    rewrite (insert_old X k HX t L m (M' ++ R)); auto.
    2:{ rewrite Forall_forall in OM. apply OM. rewrite Em. cbn. auto. }
    cbn [bind]. rewrite (upper_bound_at X k HX t L M R) by auto. cbn [bind].
    rewrite (decr_hd X t (L ++ Q) q R) by (auto; rewrite E, EQ; lst). cbn [bind].
    apply s_add_over_at with (L := L) (M := M) (R := R) (Q := Q); auto.
Qed.

Theorem s_add_empty st t a : is_empty X k a = true -> s_add X k st t a = Ok (t, None).
Proof. intros H. unfold s_add. rewrite H. auto. Qed.

(** hinted add *)
Theorem s_add_hint_at st t h a : sinv st t -> isit t h -> ne a ->
  exists t' it, s_add_hint X k st t h a = Ok (t', it) /\ sinv st t' /\ isit t' it /\ added st a (nodes t) (nodes t').
Proof.
  intros [Hi HJ] Vh Na. pose proof Hi as [W S]. unfold s_add_hint. rewrite (ne_e X k HX a Na).
  destruct (decomp X k HX a (nodes t) S Na) as (L & M & R & E & BL & OM & AR).
  destruct (nil_or_not M) as [->|NM].
  - cbn [app] in E. rewrite (insert_hint_new X k HX t L R) by auto. cbn [bind].
    set (n := Node (fresh t) a tt). change (Some (fresh t)) with (Some (nid n)).
    assert (I1 : inv k (Tree (L ++ n :: R) (Datatypes.S (fresh t)))) by (apply inv_new; auto).
    rewrite (key_at X _ L n R) by (auto; apply I1). cbn [bind n nkey].
    replace (itv_eqb X k a a) with true.
    2:{ rewrite itv_eqb_cut; auto using ne_e. cord. }
    enough (H : exists t' it, s_handle_inserted X k st (Tree (L ++ n :: R) (Datatypes.S (fresh t))) (Some (nid n)) = Ok (t', it) /\
      sinv st t' /\ isit t' it /\ added st a (nodes t) (nodes t') /\
      ((forall s R', R = s :: R' -> ceqb (uc (nkey n)) (lc (nkey s)) = false) -> exists L', nodes t' = L' ++ R)).
    { destruct H as (t' & it & H1 & H2 & H3 & H4 & _). exists t', it. auto. }
    apply s_handle_at with (L := L) (R := R); auto.
    + intros ->. rewrite E in HJ. split; [apply joined_app_l in HJ|apply joined_app_r in HJ]; auto.
    + rewrite E. cbn [nodes]. apply added_new; auto. rewrite <- E, tree_eta. auto.
  - destruct (M_ends M NM) as (m & M' & Q & q & Em & EQ).
    assert (Em' : nodes t = L ++ m :: M' ++ R) by (rewrite E, Em; auto).
    assert (Om : over k a m). { rewrite Forall_forall in OM. apply OM. rewrite Em. cbn. auto. }
    rewrite (insert_hint_old X k HX t L m (M' ++ R)); auto.
    cbn [bind]. rewrite (key_at X t L m (M' ++ R)) by auto. cbn [bind].
    destruct (itv_eqb X k (nkey m) a) eqn:Eq.
    + (* already stored *)
      rewrite itv_eqb_cut in Eq; auto using ne_e.
      2:{ apply ne_e; auto. apply srt_nes in S. unfold nes in S. rewrite Forall_forall in S. apply S. rewrite Em', in_app_iff. cbn. auto. }
      assert (EM : M' = []).
      { destruct M' as [|p M']; auto. exfalso. rewrite Em in OM. inversion OM; subst. inversion H2; subst.
        destruct H3 as [O1 O2].
        rewrite Em' in S. apply (srt_mid X k HX) in S. destruct S as (_ & _ & _ & _ & A).
        cbn [app] in A. rewrite above_cons in A. destruct A as [A _]. cord. }
      subst M'. cbn [app] in Em'.
      enough (H : exists t' it, s_handle_inserted X k st t (Some (nid m)) = Ok (t', it) /\
        sinv st t' /\ isit t' it /\ added st a (nodes t) (nodes t') /\
        ((forall s R', R = s :: R' -> ceqb (uc (nkey m)) (lc (nkey s)) = false) -> exists L', nodes t' = L' ++ R)).
      { destruct H as (t' & it & H1 & H2 & H3 & H4 & _). exists t', it. auto. }
      apply s_handle_at with (L := L) (R := R); auto.
      * intros ->. rewrite E in HJ. split; [apply joined_app_l in HJ|apply joined_app_r, joined_app_r in HJ]; auto.
      * assert (HA : add_obs k a [m] [m]).
        { intros c. cbn. rewrite !orb_false_r. unfold inr, inl. split; cord. }
        assert (HS : sep_obs k a [m] [m]). { intros c. cbn. rewrite !orb_false_r. unfold ini. cord. }
        assert (HP : spl_obs k a [m] [m]).
        { intros c. unfold bord, bordi. cbn. rewrite !orb_false_r. unfold Seg.ne, ini, inr, inl in *. cord. }
        rewrite Em'. change (L ++ m :: R) with (L ++ [m] ++ R). split; [|destruct st; auto].
        -- apply lift_add; auto.
        -- apply lift_sep; auto.
        -- apply (lift_spl X k HX); auto; cbn; rewrite <- Em'; auto.
    + rewrite (upper_bound_at X k HX t L M R) by auto. cbn [bind].
      rewrite (decr_hd X t (L ++ Q) q R) by (auto; rewrite E, EQ; lst). cbn [bind].
      apply s_add_over_at with (L := L) (M := M) (R := R) (Q := Q); auto. split; auto.
Qed.

(* ------------------------------------------------------------ joinedness, observed *)
Lemma joined_b (l : list node) : srt k l ->
  (joined k s_coeq l <-> forall c, intr k l c = Lb k l c && Rb k l c).
Proof.
  intros S. split.
  - intros J c. rewrite (joined_intr X k HX s_coeq l c S J (fun _ => eq_refl)), Lb_vl, Rb_vr.
    destruct (vl k l c), (vr k l c); auto.
  - intros H n m Hn Hm E. exfalso. specialize (H (uc (nkey n))).
    pose proof (srt_nes X k l S) as N. unfold nes in N. rewrite Forall_forall in N.
    pose proof (N n Hn) as Nn. pose proof (N m Hm) as Nm. unfold Seg.ne in *.
    assert (E1 : Lb k l (uc (nkey n)) = true) by (apply Lb_iff; exists n; split; auto; unfold inl; cord).
    assert (E2 : Rb k l (uc (nkey n)) = true) by (apply Rb_iff; exists m; split; auto; unfold inr; cord).
    rewrite E1, E2 in H. apply intr_true in H. destruct H as (q & Hq & H).
    assert (n = q).
    { apply (srt_uniq_r X k HX l n q (cmax X (lc (nkey n)) (lc (nkey q))) S Hn Hq);
        unfold inr, ini, cmax in *; repeat ifg; cord. }
    subst q. unfold ini in H. cord.
Qed.

(* ------------------------------------------------------------ subtract *)
Definition subbed (a : I) (l l' : list node) : Prop := forall c,
  Rb k l' c = Rb k l c && negb (inr k a c) /\ Lb k l' c = Lb k l c && negb (inl k a c) /\
  intr k l' c = intr k l c && negb (inl k a c || inr k a c).

Lemma subbed_joined a l l' : srt k l -> srt k l' -> subbed a l l' -> joined k s_coeq l -> joined k s_coeq l'.
Proof.
  intros S S' H. rewrite !joined_b by auto. intros J c. destruct (H c) as (H1 & H2 & H3). specialize (J c).
  rewrite H1, H2, H3, J. generalize (Lb k l c) (Rb k l c) (inl k a c) (inr k a c). intros. bcases.
Qed.

Lemma subbed_sinv st a t t' : sinv st t -> inv k t' -> subbed a (nodes t) (nodes t') -> sinv st t'.
Proof.
  intros [[W S] J] [W' S'] H. split; [split; auto|]. destruct st; auto. apply (subbed_joined a (nodes t)); auto.
Qed.

Ltac bfacts c :=
  repeat match goal with
  | H : below k ?l ?d |- _ => destruct (below_b X k HX l d c H) as (? & ? & ?); clear H
  | H : above k ?l ?d |- _ => destruct (above_b X k HX l d c H) as (? & ? & ?); clear H
  end.

Lemma lift_sub a L M P R : below k L (lc a) -> above k R (uc a) -> ne a -> subbed a M P ->
  subbed a (L ++ M ++ R) (L ++ P ++ R).
Proof.
  intros BL AR Na H c. destruct (H c) as (H1 & H2 & H3). rewrite !Rb_app, !Lb_app, !intr_app, H1, H2, H3. clear H H1 H2 H3.
  assert (F1 : inr k a c = true -> Rb k L c = false /\ Rb k R c = false /\ intr k L c = false /\ intr k R c = false).
  { intros Hc. bfacts c. unfold inr, Seg.ne in *. conjs; cord. }
  assert (F2 : inl k a c = true -> Lb k L c = false /\ Lb k R c = false /\ intr k L c = false /\ intr k R c = false).
  { intros Hc. bfacts c. unfold inl, Seg.ne in *. conjs; cord. }
  revert F1 F2. clear. 
  generalize (Rb k L c) (Rb k M c) (Rb k R c) (Lb k L c) (Lb k M c) (Lb k R c)
    (intr k L c) (intr k M c) (intr k R c) (inr k a c) (inl k a c).
  intros. conjs; bcases.
Qed.

Ltac cordx := repeat match goal with
  | H : context [Rb k _ _] |- _ => clear H
  | H : context [Lb k _ _] |- _ => clear H
  | H : context [intr k _ _] |- _ => clear H end; cord.

Ltac zero e := replace e with false by
  (symmetry; match goal with Hx : _ -> e = false |- _ => apply Hx; cordx end).

Lemma sub_local M m M' Q q a G G' : srt k M -> M = m :: M' -> M = Q ++ [q] -> ne a -> Forall (over k a) M ->
  ((G = [] /\ cltb (lc (nkey m)) (lc a) = false) \/
      exists g, G = [g] /\ cltb (lc (nkey m)) (lc a) = true /\ ceqb (lc (nkey g)) (lc (nkey m)) = true /\ ceqb (uc (nkey g)) (lc a) = true) ->
  ((G' = [] /\ cltb (uc a) (uc (nkey q)) = false) \/
      exists g, G' = [g] /\ cltb (uc a) (uc (nkey q)) = true /\ ceqb (lc (nkey g)) (uc a) = true /\ ceqb (uc (nkey g)) (uc (nkey q)) = true) ->
  subbed a M (G ++ G').
Proof.
  intros S Em EQ Na OM HG HG' c.
  assert (Om : over k a m /\ over k a q).
  { rewrite Forall_forall in OM. split; apply OM; [rewrite Em|rewrite EQ, in_app_iff]; cbn; auto. }
  destruct Om as [[Om1 Om2] [Oq1 Oq2]].
  assert (E1 : Rb k M c = inr k (nkey m) c || Rb k M' c /\ Lb k M c = inl k (nkey m) c || Lb k M' c /\
               intr k M c = ini k (nkey m) c || intr k M' c) by (rewrite Em; auto).
  assert (E2 : Rb k M c = Rb k Q c || inr k (nkey q) c /\ Lb k M c = Lb k Q c || inl k (nkey q) c /\
               intr k M c = intr k Q c || ini k (nkey q) c).
  { rewrite EQ. bnorm. rewrite !orb_false_r. auto. }
  destruct (M_range X k HX M m M' Q q S Em EQ) as [AM BM].
  assert (S1 : srt k ([] ++ m :: M')) by (cbn [app]; congruence). apply (srt_mid X k HX) in S1.
  destruct S1 as (_ & _ & Nm & _ & AM').
  rewrite EQ in S. apply (srt_mid X k HX) in S. destruct S as (_ & _ & Nq & BQ & _).
  clear OM Em EQ. bfacts c. unfold Seg.ne in *. rewrite !Rb_app, !Lb_app, !intr_app.
  assert (C : cltb c (lc a) = true \/ (cltb c (lc a) = false /\ cltb (uc a) c = false) \/ cltb (uc a) c = true) by cordx.
  assert (GG : (cltb c (lc a) = true -> Rb k G c = inr k (nkey m) c /\ Lb k G c = inl k (nkey m) c /\ intr k G c = ini k (nkey m) c) /\
     (ceqb c (lc a) = true -> Rb k G c = false /\ Lb k G c = inl k (nkey m) c /\ intr k G c = false) /\
     (cltb (lc a) c = true -> Rb k G c = false /\ Lb k G c = false /\ intr k G c = false)).
  { clear - HG HX Om2 Nm. destruct HG as [[-> HG]|(g & -> & HG1 & HG2 & HG3)]; bnorm; rewrite ?orb_false_r; unfold inr, inl, ini; conjs; intros; conjs; cordx. }
  assert (GG' : (cltb (uc a) c = true -> Rb k G' c = inr k (nkey q) c /\ Lb k G' c = inl k (nkey q) c /\ intr k G' c = ini k (nkey q) c) /\
     (ceqb c (uc a) = true -> Rb k G' c = inr k (nkey q) c /\ Lb k G' c = false /\ intr k G' c = false) /\
     (cltb c (uc a) = true -> Rb k G' c = false /\ Lb k G' c = false /\ intr k G' c = false)).
  { clear - HG' HX Oq1 Nq. destruct HG' as [[-> HG]|(g & -> & HG1 & HG2 & HG3)]; bnorm; rewrite ?orb_false_r; unfold inr, inl, ini; conjs; intros; conjs; cordx. }
  clear HG HG'. destruct GG as (G1 & G2 & G3), GG' as (G4 & G5 & G6).
  destruct E1 as (E1a & E1b & E1c), E2 as (E2a & E2b & E2c).
  destruct (cltb c (lc a)) eqn:C1.
  { destruct (G1 eq_refl) as (-> & -> & ->). destruct G6 as (-> & -> & ->); [cordx|].
    rewrite E1a, E1b, E1c. clear E1a E1b E1c E2a E2b E2c G1 G2 G3 G4 G5.
    zero (Rb k M' c).
    zero (Lb k M' c).
    zero (intr k M' c).
    clear - HX C1 Na Om2 Nm. unfold inr, inl, ini. conjs; cordx. }
  destruct (cltb (uc a) c) eqn:C2.
  { destruct (G4 eq_refl) as (-> & -> & ->). destruct G3 as (-> & -> & ->); [cordx|].
    rewrite E2a, E2b, E2c. clear E1a E1b E1c E2a E2b E2c G1 G2 G4 G5 G6.
    zero (Rb k Q c).
    zero (Lb k Q c).
    zero (intr k Q c).
    clear - HX C2 Na Oq1 Nq. unfold inr, inl, ini. conjs; cordx. }
  clear G1 G4.
  destruct (cltb (lc a) c) eqn:C3; [destruct (G3 eq_refl) as (-> & -> & ->)|destruct G2 as (-> & -> & ->); [cordx|]];
  (destruct (cltb c (uc a)) eqn:C4; [destruct (G6 eq_refl) as (-> & -> & ->)|destruct G5 as (-> & -> & ->); [cordx|]]).
  - clear - HX C1 C2 C3 C4 Na. unfold inr, inl, ini. rewrite C1, C2, C3, C4. cbn. rewrite !andb_false_r. auto.
  - rewrite E2a, E2b, E2c. 
    zero (Rb k Q c).
    clear - HX C1 C2 C3 C4 Na Oq1 Nq. unfold inr, inl, ini. rewrite C1, C2, C3, C4. cbn. rewrite !andb_false_r, !andb_true_r. auto.
  - rewrite E1b. 
    zero (Lb k M' c).
    clear - HX C1 C2 C3 C4 Na Oq1 Nq. unfold inr, inl, ini. rewrite C1, C2, C3, C4. cbn. rewrite !andb_false_r, !andb_true_r, !orb_false_r. auto.
  - cordx.
Qed.

Lemma s_subtract_dec t L M R a : inv k t -> ne a -> nodes t = L ++ M ++ R ->
  below k L (lc a) -> Forall (over k a) M -> above k R (uc a) ->
  exists t' P, s_subtract X k t a = Ok t' /\ inv k t' /\ nodes t' = L ++ P ++ R /\ subbed a M P.
Proof.
  intros Hi Na E BL OM AR. pose proof Hi as [W S]. unfold s_subtract. rewrite (ne_e X k HX a Na).
  unfold equal_range. rewrite (lower_bound_at X k HX t L (M ++ R)); auto.
  2:{ apply (overl_MR X k HX); auto. rewrite E in S. apply (srt_app X k) in S. tauto. }
  cbn [bind]. rewrite (upper_bound_at X k HX t L M R) by auto. cbn [bind].
  rewrite (iter_eqb_hd X t L M R) by auto.
  destruct (nil_or_not M) as [->|NM].
  { exists t, []. conjs; auto. intros c. auto. }
  destruct (M_ends M NM) as (m & M' & Q & q & Em & EQ).
  replace (match M with [] => true | _ => false end) with false by (destruct M; congruence).
  rewrite (decr_hd X t (L ++ Q) q R) by (auto; rewrite E, EQ; lst). cbn [bind].
  assert (Em' : nodes t = L ++ m :: M' ++ R) by (rewrite E, Em; auto).
  replace (hd_it (M ++ R)) with (Some (nid m)) by (rewrite Em; auto).
  rewrite (key_at X t L m (M' ++ R)) by auto. cbn [bind negb].
  rewrite (key_at X t (L ++ Q) q R) by (auto; rewrite E, EQ; lst). cbn [bind].
  replace (Some (nid m)) with (hd_it (M ++ R)) by (rewrite Em; auto).
  rewrite (erase_range_at X t L M R) by auto. cbn [bind].
  assert (SM : srt k (L ++ M ++ R)) by congruence.
  assert (SM' : srt k M) by (rewrite !srt_app in SM; tauto).
  assert (NMs : nes k M) by (apply srt_nes; auto).
  assert (Hm : ne (nkey m) /\ over k a m).
  { unfold nes in NMs. rewrite Forall_forall in *. split; [apply NMs|apply OM]; rewrite Em; cbn; auto. }
  assert (Hq : ne (nkey q) /\ over k a q).
  { unfold nes in NMs. rewrite Forall_forall in *. split; [apply NMs|apply OM]; rewrite EQ, in_app_iff; cbn; auto. }
  destruct Hm as [Nm [Om1 Om2]], Hq as [Nq [Oq1 Oq2]].
  assert (BLm : below k L (lc (nkey m))) by (apply (srt_below X k L (M ++ R) SM); rewrite Em; cbn; auto).
  assert (ARq : above k R (uc (nkey q))).
  { rewrite app_assoc in SM. apply (srt_above X k (L ++ M) R SM). rewrite EQ, !in_app_iff. cbn. auto. }
  destruct (M_range X k HX M m M' Q q SM' Em EQ) as [AM BM].
  set (t1 := Tree (L ++ R) (fresh t)).
  assert (I1 : inv k t1).
  { split; [apply (wf_drop X L M R); rewrite <- E, tree_eta; auto|]. cbn. rewrite !srt_app in *.
    destruct SM as (S1 & (S2 & S3 & S4) & S5). conjs; auto. intros n n' Hn Hn'. apply S5; auto. apply in_app_iff; auto. }
  set (lr := right_subtract X k (nkey m) a). set (rr := left_subtract X k (nkey q) a).
  (* left residual *)
  assert (HL : exists t2 G, (if negb (is_empty X k lr) then ' (t0, _, _) <- insert X k t1 lr tt ;; Ok t0 else Ok t1) = Ok t2 /\
     inv k t2 /\ nodes t2 = (L ++ G) ++ R /\
     ((G = [] /\ cltb (lc (nkey m)) (lc a) = false) \/
      exists g, G = [g] /\ cltb (lc (nkey m)) (lc a) = true /\ ceqb (lc (nkey g)) (lc (nkey m)) = true /\ ceqb (uc (nkey g)) (lc a) = true)).
  { destruct (cltb (lc (nkey m)) (lc a)) eqn:El.
    - destruct (rsub_ne X k HX (nkey m) a) as [Q1 Q2]; auto. fold lr in Q1, Q2.
      assert (Q1' : ceqb (lc lr) (lc (nkey m)) = true) by (rewrite Q1; cord).
      assert (Nl : ne lr) by (unfold Seg.ne in *; cord).
      rewrite (ne_e X k HX lr) by auto. cbn [negb].
      assert (B1 : below k L (lc lr)) by (rewrite Q1; auto).
      assert (A1 : above k R (uc lr)) by (apply (above_ge X k HX _ _ _ AR); unfold Seg.ne in *; cord).
      rewrite (insert_new X k HX t1 L R); auto; try apply I1. cbn [bind].
      eexists _, [_]. split; [reflexivity|]. split; [apply inv_new; auto|].
      cbn [nodes]. split; [lst|]. right. eexists. split; [reflexivity|]. cbn [nkey]. auto.
    - assert (H : is_empty X k lr = true) by (apply rsub_e; auto).
      rewrite H. exists t1, []. conjs; auto. rewrite app_nil_r. auto. }
  destruct HL as (t2 & G & -> & I2 & E2 & HG). cbn [bind].
  (* right residual *)
  assert (HR : exists t3 G', (if negb (is_empty X k rr) then ' (t0, _, _) <- insert X k t2 rr tt ;; Ok t0 else Ok t2) = Ok t3 /\
     inv k t3 /\ nodes t3 = (L ++ G) ++ G' ++ R /\
     ((G' = [] /\ cltb (uc a) (uc (nkey q)) = false) \/
      exists g, G' = [g] /\ cltb (uc a) (uc (nkey q)) = true /\ ceqb (lc (nkey g)) (uc a) = true /\ ceqb (uc (nkey g)) (uc (nkey q)) = true)).
  { destruct (cltb (uc a) (uc (nkey q))) eqn:El.
    - destruct (lsub_ne X k HX (nkey q) a) as [Q1 Q2]; auto. fold rr in Q1, Q2.
      assert (Q2' : ceqb (uc rr) (uc (nkey q)) = true) by (rewrite Q2; cord).
      assert (Nr : ne rr) by (unfold Seg.ne in *; cord).
      rewrite (ne_e X k HX rr) by auto. cbn [negb].
      assert (B1 : below k (L ++ G) (lc rr)).
      { rewrite below_app. split; [apply (below_le X k HX _ _ _ BL); unfold Seg.ne in *; cord|].
        destruct HG as [[-> _]|(g & -> & HG1 & HG2 & HG3)]; [constructor|]. rewrite below_cons.
        unfold Seg.ne in *. split; [cord|constructor]. }
      assert (A1 : above k R (uc rr)) by (rewrite Q2; auto).
      rewrite (insert_new X k HX t2 (L ++ G) R); auto; try apply I2. cbn [bind].
      eexists _, [_]. split; [reflexivity|]. split; [apply inv_new; auto|].
      cbn [nodes]. split; [reflexivity|]. right. eexists. split; [reflexivity|]. cbn [nkey]. auto.
    - assert (H : is_empty X k rr = true) by (apply lsub_e; auto).
      rewrite H. exists t2, []. conjs; auto. }
  destruct HR as (t3 & G' & -> & I3 & E3 & HG').
  exists t3, (G ++ G'). conjs; auto.
  - rewrite E3. lst.
  - apply (sub_local M m M' Q q); auto; unfold over; auto.
Qed.

Theorem s_subtract_at t a : inv k t -> ne a ->
  exists t', s_subtract X k t a = Ok t' /\ inv k t' /\ subbed a (nodes t) (nodes t').
Proof.
  intros Hi Na. destruct (decomp X k HX a (nodes t) (proj2 Hi) Na) as (L & M & R & E & BL & OM & AR).
  destruct (s_subtract_dec t L M R a Hi Na E BL OM AR) as (t' & P & H & I' & E' & HS).
  exists t'. conjs; auto. rewrite E, E'. apply lift_sub; auto.
Qed.
Theorem s_subtract_empty t a : is_empty X k a = true -> s_subtract X k t a = Ok t.
Proof. intros H. unfold s_subtract. rewrite H. auto. Qed.

End SetOps.

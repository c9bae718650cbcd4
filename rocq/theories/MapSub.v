(** Subtracting a segment from an interval map (proofs). *)
From Verif Require Export MapAdd.

Section MapSub.
Context (X : dom) (k : kind).
Context (HX : dom_ok X k).
Context (M : mtype).
Notation CC := (mt_co M).
Notation V := (C CC).
Context (Hco : forall v w : CC, cc_eq v w = true <-> v = w).
Notation I := (itv (D X)).
Notation node := (node (D X) V).
Notation tree := (tree (D X) V).
Notation lc := (lc X k).
Notation uc := (uc X k).
Notation cltb := (cltb X).
Notation ceqb := (ceqb X).
Notation cut := (cut X).
Notation ne := (@ne X k).
Notation hd_it := (@hd_it X V).
Notation last_it := (@last_it X V).
Notation spl := (spl M).
Notation J := (J X k M).
Notation minv := (minv X k M).
Notation post := (post k spl).
Notation same := (same k spl).
Ltac cord := cord_ X k HX.
Ltac lst := rewrite <- ?app_assoc; cbn [app]; congruence || auto.

(** a gap before a node, where nothing is to be done *)
Lemma skip_front g (l : list node) L q R d e l' : l = L ++ q :: R -> srt k l -> below k L d -> cltb (lc (nkey q)) d = false ->
  cltb (lc (nkey q)) e = true -> g None = None ->
  post (lc (nkey q)) e g l l' -> post d e g l l'.
Proof.
  intros E S B A He G HP. rewrite E in S. destruct (cltb d (lc (nkey q))) eqn:El.
  - eapply (post_trans X k HX spl d (lc (nkey q)) e); [| | | | |exact HP]; auto.
    + rewrite E. apply (at_lc X k HX); auto.
    + rewrite E. apply (at_lc X k HX); auto.
    + rewrite E. apply (post_skip X k HX); auto. rewrite above_cons.
      pose proof (srt_above X k HX M _ _ _ S) as A1. pose proof (srt_ne X k HX M _ _ _ S) as N. unfold Seg.ne in N.
      split; [cord|]. eapply (above_ge X k HX); eauto. cord.
  - eapply (post_ceq X k HX); [| |exact HP]; cord.
Qed.

(** a step at [r] that cannot join to the right *)
Lemma same_left (L L' R R' : list node) r r' d e : srt k (L ++ r :: R) -> J (r :: R) ->
  same (lc (nkey r)) (uc (nkey r)) (L ++ r :: R) (L' ++ r' :: R') ->
  (R' = R \/ exists s, R = s :: R' /\ ceqb (uc (nkey r)) (lc (nkey s)) = true /\ cc_eq (nval r) (nval s) = true) ->
  cltb (lc (nkey r)) d = false -> cltb e (lc (nkey r)) = false -> same d e (L ++ r :: R) (L' ++ r' :: R').
Proof.
  intros S HJ (A & B & K) HR D1 D2. split; auto. split; auto. revert B K HJ. unfold MapFacts.J, MapFacts.spl. destruct (mt_style M); cbn iota.
  - intros _ K HJ. assert (R' = R).
    { destruct HR as [HR|(s & -> & Q & C)]; auto. rewrite (HJ r s) in C; cbn; auto. discriminate. }
    subst R'. intros y Hy F. pose proof (srt_in X k M _ y S Hy) as Ny. unfold Seg.ne in Ny.
    pose proof (srt_below X k HX M _ _ _ S) as BL. unfold below in BL. rewrite Forall_forall in BL.
    unfold far in F. rewrite in_app_iff in Hy. cbn [In] in Hy. destruct Hy as [Hy|[<-|Hy]].
    + specialize (BL y Hy). apply K; [apply in_app_iff; auto|]. left. destruct F; cord.
    + exfalso. destruct F; cord.
    + rewrite in_app_iff. cbn. auto.
  - intros B _ _. rewrite (B eq_refl). apply kp_refl.
Qed.

Lemma sub_rear_at f (t : tree) L q R a x : inv k t -> nodes t = L ++ q :: R -> J L -> J (q :: R) ->
  ne a -> over k a q -> cltb (lc (nkey q)) (lc a) = false -> above k R (uc a) -> is_absorbable M x = false ->
  exists t', m_subtract_rear X k M f t a x (Some (nid q)) = Ok t' /\ minv t' /\
    post (lc (nkey q)) (uc a) (gsub M f x) (nodes t) (nodes t').
Proof.
  intros Hi E JL JR Na [O1 O2] Hq AR Ex. pose proof Hi as [W S]. pose proof S as S'. rewrite E in S'.
  pose proof (srt_ne X k HX M _ _ _ S') as Nq. pose proof Na as Na'. pose proof Nq as Nq'. unfold Seg.ne in Na', Nq'.
  pose proof (srt_below X k HX M _ _ _ S') as BL. pose proof (srt_above X k HX M _ _ _ S') as ARq.
  assert (JR' : J R) by (eapply J_tl; eauto).
  unfold m_subtract_rear. rewrite (key_at X t L q R) by auto. cbn [bind].
  set (v := combine CC f (nval q) x).
  assert (G : gsub M f x (Some (nval q)) = absorb M v) by auto.
  destruct (cltb (uc a) (uc (nkey q))) eqn:Eu.
  - destruct (lsub_ne X k HX (nkey q) a) as [Q1 Q2]; auto. set (rr := left_subtract X k (nkey q) a) in *.
    assert (Q2' : ceqb (uc rr) (uc (nkey q)) = true) by (rewrite Q2; cord).
    assert (Nr : ne rr) by (unfold Seg.ne; cord). pose proof Nr as Nr'. unfold Seg.ne in Nr'.
    rewrite (ne_e X k HX rr) by auto.
    rewrite (set_key_at X t L q R) by auto. cbn [bind].
    destruct (rsub_ne X k HX (nkey q) rr) as [Q3 Q4]; auto; try cord.
    set (kq := right_subtract X k (nkey q) rr) in *.
    assert (Q3' : ceqb (lc kq) (lc (nkey q)) = true) by (rewrite Q3; cord).
    set (p := Node (nid q) kq (nval q)). set (tp := Tree (L ++ p :: R) (fresh t)).
    assert (Np : ne kq) by (unfold Seg.ne; cord). pose proof Np as Np'. unfold Seg.ne in Np'.
    assert (Ip : inv k tp).
    { split.
      - eapply (wf_ids X); [apply (wf_nodes X _ _ W E)|]. rewrite !ids_app, !ids_cons. auto.
      - cbn. apply (srt_mid X k HX) in S'. apply (srt_mid X k HX). cbn [nkey p].
        destruct S' as (? & ? & ? & ? & ?). conjs; auto.
        + eapply (below_le X k HX); eauto. cord.
        + eapply (above_ge X k HX); eauto. cord. }
    pose proof Ip as [Wp Sp].
    change (Some (nid q)) with (Some (nid p)).
    rewrite (val_at X tp L p R) by auto. cbn [bind nval p].
    assert (Bp : below k (L ++ [p]) (lc rr)).
    { eapply (below_snoc X k HX M); [apply Sp|]. cbn [nkey p]. cord. }
    assert (Ar : above k R (uc rr)) by (rewrite Q2; auto).
    change (Some (nid q)) with (Some (nid p)).
    rewrite (insert_hint_new X k HX tp (L ++ [p]) R); auto; [|unfold tp; cbn [nodes]; lst|eapply isit_mid; reflexivity].
    cbn [bind]. set (r := Node (fresh tp) rr (nval q)). set (t2 := Tree _ _).
    assert (I2 : inv k t2).
    { apply (inv_ins X k HX M); auto. unfold tp; cbn [nodes]; lst. }
    pose proof I2 as [W2 S2].
    assert (E2 : nodes t2 = L ++ p :: r :: R) by (unfold t2; cbn [nodes]; lst).
    rewrite (combine_at_at X M f t2 L p (r :: R)) by auto. cbn [bind].
    change (combine CC f (nval p) x) with v. set (p3 := Node (nid p) (nkey p) v). set (t3 := Tree _ _).
    assert (I3 : inv k t3). { apply (inv_chg X k HX M t2 L p p3 (r :: R)); auto; cbn [nkey p3]; cord. }
    pose proof I3 as [W3 S3].
    rewrite hsc_eq. change (Some (nid p)) with (Some (nid p3)).
    rewrite (val_at X t3 L p3 (r :: R)) by auto. cbn [bind nval p3].
    destruct (divide X k HX L q p r R (uc a)) as [Sd Dd]; auto; try (cbn [nkey p r]; cord).
    assert (PP : forall l', post (lc kq) (uc kq) (gsub M f x) (L ++ p :: r :: R) l' ->
                 post (lc (nkey q)) (uc a) (gsub M f x) (nodes t) l').
    { intros l' HP. rewrite E. eapply (post_divided_r X k HX); [|exact Dd|]; [cord|].
      eapply (post_ceq X k HX); [| |exact HP]; cord. }
    change (Some (nid p)) with (Some (nid p3)). change (Some (fresh tp)) with (Some (nid r)).
    assert (JrR : J (r :: R)).
    { revert JR. unfold MapFacts.J. destruct (mt_style M); auto. intros JR y z Hy Hz Q.
      rewrite E2 in S2.
      assert (Sr : srt k (r :: R)). { change (L ++ p :: r :: R) with (L ++ [p] ++ (r :: R)) in S2. rewrite app_assoc in S2.
        apply (srt_app X k) in S2. tauto. }
      pose proof (srt_in X k M _ y Sr Hy) as Ny. pose proof (srt_in X k M _ z Sr Hz) as Nz. unfold Seg.ne in Ny, Nz.
      cbn [In] in Hy, Hz. destruct Hy as [<-|Hy], Hz as [<-|Hz].
      - cord.
      - change (nval r) with (nval q). apply JR; cbn; auto. cbn [nkey r] in Q. cord.
      - unfold above in Ar. rewrite Forall_forall in Ar. specialize (Ar y Hy). cbn [nkey r] in Q. cord.
      - apply JR; cbn; auto. }
    destruct (is_absorbable M v) eqn:Ev.
    + rewrite (erase_at X t3 L p3 (r :: R)) by auto. cbn [bind].
      set (t4 := Tree (L ++ r :: R) _).
      assert (I4 : inv k t4) by (apply (inv_del X k HX M t3 L p3 (r :: R)); auto). pose proof I4 as [W4 S4]. cbn [nodes t4] in S4.
      rewrite (jr_noop X k HX M t4 L r R) by auto.
      cbn [bind]. exists t4. split; auto. split; [split; auto|].
      { cbn [nodes t4]. apply (J_gap X k HX M L (r :: R) (lc (nkey q)) (uc a)); auto.
        rewrite above_cons. split; [cbn [nkey r]; cord|]. auto. }
      apply PP. cbn [nodes t4].
      change kq with (nkey p). apply (post_val X k HX M _ L p (r :: R) v); auto. congruence.
    + destruct (jl_at X k HX M Hco t3 L p3 (r :: R) I3 eq_refl JL) as (t4 & L4 & p4 & -> & E4 & I4 & S4 & J4 & X4 & U4).
      cbn [bind].
      destruct (jn_at X k HX M Hco t4 (L4 ++ [p4]) r R) as (t5 & L5 & e5 & R5 & -> & E5 & I5 & S5 & J5 & X5 & Y5); auto.
      { lst. }
      assert (S6 : same (lc kq) (uc kq) (nodes t4) (nodes t5)).
      { pose proof I4 as [_ I4']. rewrite E5 in *. replace (nodes t4) with ((L4 ++ [p4]) ++ r :: R) in * by lst.
        apply same_left; auto; cbn [nkey r]; cord. }
      cbn [bind]. exists t5. split; auto. split; [split; auto|]. apply PP. eapply post_same; [|exact S6].
      change kq with (nkey p). apply (post_val X k HX M _ L p (r :: R) v); auto. congruence.
  - assert (Ee : is_empty X k (left_subtract X k (nkey q) a) = true) by (apply lsub_e; auto).
    rewrite Ee. clear Ee.
    rewrite (combine_at_at X M f t L q R) by auto. cbn [bind]. fold v.
    set (q1 := Node (nid q) (nkey q) v). set (t1 := Tree _ _).
    assert (I1 : inv k t1) by (apply (inv_chg X k HX M t L q q1 R); auto; cbn [nkey q1]; cord). pose proof I1 as [W1 S1].
    rewrite hc_eq. change (Some (nid q)) with (Some (nid q1)).
    rewrite (val_at X t1 L q1 R) by auto. cbn [bind nval q1].
    change (Some (nid q)) with (Some (nid q1)).
    (* behind q nothing changes *)
    assert (PP : forall P Q, below k P (uc (nkey q)) -> Q = R -> post (lc (nkey q)) (uc (nkey q)) (gsub M f x) (nodes t) (P ++ Q) ->
                 post (lc (nkey q)) (uc a) (gsub M f x) (nodes t) (P ++ Q)).
    { intros P Q HB -> HP. destruct (cltb (uc (nkey q)) (uc a)) eqn:Eu'.
      - eapply (post_trans X k HX spl _ (uc (nkey q)) _); [| | | |exact HP|]; auto.
        + rewrite E. apply (at_uc X k HX); auto.
        + rewrite E. apply (at_uc X k HX); auto.
        + apply (post_skip X k HX); auto.
      - eapply (post_ceq X k HX); [| |exact HP]; cord. }
    destruct (is_absorbable M v) eqn:Ev.
    + rewrite (erase_at X t1 L q1 R) by auto. cbn [bind].
      eexists. split; [reflexivity|]. split; [split|].
      * apply (inv_del X k HX M t1 L q1 R); auto.
      * cbn [nodes]. apply (J_gap X k HX M L R (lc (nkey q)) (uc (nkey q))); auto. apply (srt_del X k HX M L q). auto.
      * cbn [nodes]. apply PP; auto.
        -- eapply (below_le X k HX); eauto. cord.
        -- rewrite E. apply (post_val X k HX M _ L q R v); auto. congruence.
    + destruct (jn_at X k HX M Hco t1 L q1 R) as (t4 & L4 & e4 & R4 & EQ & E4 & I4 & S4 & J4 & X4 & _); auto.
      rewrite EQ. cbn [bind]. exists t4. split; auto. split; [split; auto|]. eapply post_same; [|eapply (same_wide X k HX); [| |exact S4]; cbn [nkey q1]; cord].
      cbn [nodes t1]. replace (L ++ q1 :: R) with ((L ++ [q1]) ++ R) by lst. apply PP; auto.
      * eapply (below_snoc X k HX M); [apply S1|]. cbn [nkey q1]. cord.
      * rewrite E. rewrite <- app_assoc. cbn [app]. apply (post_val X k HX M _ L q R v); auto; [congruence|]. intros _. apply same_refl.
Qed.

Lemma sub_main_rear f x a N : is_absorbable M x = false -> ne a -> forall fuel (t : tree) L q R d,
  length N < fuel -> inv k t -> nodes t = L ++ N ++ q :: R -> J L -> J (N ++ q :: R) ->
  below k L d -> above k R (uc a) -> Forall (over k a) (N ++ [q]) -> above k (N ++ [q]) d -> above k (N ++ [q]) (lc a) ->
  exists t',
    (' (t, it_) <- m_subtract_main X k M fuel f t x (hd_it (N ++ q :: R)) (Some (nid q)) ;;
     m_subtract_rear X k M f t a x it_) = Ok t' /\ minv t' /\
    post d (uc a) (gsub M f x) (nodes t) (nodes t').
Proof.
  intros Ex Na. pose proof Na as Na'. unfold Seg.ne in Na'.
  induction N as [|m N IH]; intros [|fuel] t L q R d HF Hi E JL JR BL AR ON AN AL; try (cbn in HF; lia).
  - cbn [m_subtract_main app]. cbn [Tree.hd_it]. rewrite iter_eqb_refl. cbn [negb bind].
    cbn [app] in *. rewrite above_cons in AN, AL. inversion ON; subst.
    destruct (sub_rear_at f t L q R a x) as (t' & -> & H4 & H5); try tauto.
    exists t'. conjs; auto. eapply (skip_front _ _ L q R); eauto; try apply Hi; try tauto.
    destruct H1. auto.
  - cbn [m_subtract_main app]. cbn [Tree.hd_it]. pose proof Hi as [W S].
    assert (Em : nodes t = L ++ m :: (N ++ q :: R)) by (rewrite E; auto).
    pose proof (iter_eqb_hd X t L (m :: N) (q :: R) W E) as Q. cbn in Q.
    cbn [iter_eqb]. rewrite Q. cbn [negb].
    inversion ON as [|? ? [Om1 Om2] ON']; subst. cbn [app] in AN, AL. rewrite above_cons in AN, AL.
    destruct AN as [Am AN], AL as [Al AL].
    pose proof S as S'. rewrite Em in S'.
    pose proof (srt_ne X k HX M _ _ _ S') as Nm. pose proof Nm as Nm'. unfold Seg.ne in Nm'.
    pose proof (srt_above X k HX M _ _ _ S') as ARm. pose proof (srt_below X k HX M _ _ _ S') as BLm.
    assert (JM : J (N ++ q :: R)) by (eapply J_tl; eauto).
    destruct (seg_at X k HX M Hco (gsub M f x) f t L m (N ++ q :: R) x Hi Em JL eq_refl)
      as (t2 & L2 & EQ & I2 & E2 & J2 & B2 & P2).
    revert EQ. destruct (combine_at X M f t (Some (nid m)) x) as [tc|]; [|discriminate]. cbn [bind].
    destruct (incr_it tc (Some (nid m))) as [nx|]; [|discriminate]. cbn [bind].
    destruct (m_handle_left_combined X k M tc (Some (nid m))) as [th|]; [|discriminate]. cbn [bind].
    intros [= -> ->].
    assert (Oq : over k a q). { rewrite Forall_forall in ON'. apply ON'. apply in_app_iff. cbn. auto. }
    destruct Oq as [Oq1 Oq2].
    assert (Hqm : cltb (lc (nkey q)) (uc (nkey m)) = false).
    { pose proof ARm as ARm'. apply above_app in ARm'. destruct ARm' as [_ ARm']. rewrite above_cons in ARm'. tauto. }
    assert (Eu : cltb (uc (nkey m)) (uc a) = true) by cord.
    destruct (IH fuel t2 L2 q R (uc (nkey m))) as (t' & EQ & IP & PO); auto.
    + cbn in HF. lia.
    + apply above_app in ARm. destruct ARm as [A1 A2]. rewrite above_cons in A2. rewrite above_app, above_cons.
      conjs; auto using above_nil; tauto.
    + exists t'. conjs; auto.
      eapply (skip_front _ _ L m (N ++ q :: R)); eauto.
      eapply (post_trans X k HX spl (lc (nkey m)) (uc (nkey m)) (uc a)); [| | | |exact P2|]; auto.
      * rewrite Em. apply (at_uc X k HX); auto.
      * rewrite Em. apply (at_uc X k HX); auto.
Qed.

Lemma equal_range_at (t : tree) L N R a : srt k (nodes t) -> nodes t = L ++ N ++ R -> ne a ->
  below k L (lc a) -> Forall (over k a) N -> above k R (uc a) ->
  equal_range X k t a = Ok (hd_it (N ++ R), hd_it R).
Proof.
  intros S E Na B O A. unfold equal_range.
  rewrite (lower_bound_at X k HX t L (N ++ R)); auto.
  2:{ apply (overl_MR X k HX); auto. rewrite E in S. apply (srt_app X k) in S. tauto. }
  cbn [bind]. rewrite (upper_bound_at X k HX t L N R) by auto. auto.
Qed.

Lemma subtract_at f (t : tree) a x : minv t -> ne a -> is_absorbable M x = false ->
  exists t', m_subtract_ X k M f t a x = Ok t' /\ minv t' /\ post (lc a) (uc a) (gsub M f x) (nodes t) (nodes t').
Proof.
  intros Hm Na Ex. pose proof Hm as [[W S] HJ]. unfold m_subtract_. rewrite (ne_e X k HX a) by auto. rewrite Ex.
  destruct (decomp X k HX a (nodes t) S Na) as (L & N & R & E & BL & ON & AR).
  rewrite (equal_range_at t L N R) by auto. cbn [bind].
  rewrite (iter_eqb_hd X t L N R) by auto.
  destruct N as [|m N'] eqn:EN.
  - exists t. conjs; auto. cbn [app] in E. rewrite E. apply (post_skip X k HX); auto.
  - rewrite <- EN in E. assert (NN : N <> []) by (rewrite EN; discriminate).
    destruct (M_ends N NN) as (? & ? & Q & q & EN' & EQ). rewrite EN in EN'. injection EN' as <- <-.
    rewrite (decr_hd X t (L ++ Q) q R) by (auto; rewrite E, EQ; lst). cbn [bind app]. cbn [Tree.hd_it].
    assert (Em : nodes t = L ++ m :: (N' ++ R)) by (rewrite E, EN; auto).
    inversion ON as [|? ? Om ON']; subst.
    destruct (front_at X k HX M t L m (N' ++ R) a Hm Em Na Om BL) as
      (t1 & L1 & m1 & -> & I1 & E1 & Ei & Ev & J1 & J2 & B1 & O1 & Al & Eu & PT). cbn [bind].
    destruct (last_split X M m N' Q q EQ m1 Ei) as (Q1 & q1 & EQ1 & Eq1).
    pose proof I1 as [W1 S1]. rewrite E1 in S1.
    pose proof (srt_above X k HX M _ _ _ S1) as A1.
    assert (EL : L1 ++ m1 :: N' ++ R = L1 ++ Q1 ++ q1 :: R).
    { change (m1 :: N' ++ R) with ((m1 :: N') ++ R). rewrite EQ1. lst. }
    assert (AL : above k (Q1 ++ [q1]) (lc a)).
    { rewrite <- EQ1. rewrite above_cons. split; auto. apply above_app in A1. destruct A1 as [A1 _].
      pose proof (srt_ne X k HX M _ _ _ S1) as N1. destruct O1. unfold Seg.ne in *. eapply (above_ge X k HX); eauto. cord. }
    destruct (sub_main_rear f x a Q1 Ex Na (Datatypes.S (List.length (nodes t1))) t1 L1 q1 R (lc a)) as (t' & EQ' & H1 & H2); auto.
    + rewrite E1, EL, !app_length. cbn. lia.
    + rewrite E1. auto.
    + change (m1 :: N' ++ R) with ((m1 :: N') ++ R) in J2. rewrite EQ1, <- app_assoc in J2. auto.
    + rewrite <- EQ1. constructor; auto.
    + exists t'. conjs; auto. rewrite <- EQ'. rewrite <- Eq1, <- Ei.
      replace (Some (nid m1)) with (hd_it (Q1 ++ q1 :: R)); auto.
      apply app_inv_head in EL. rewrite <- EL. auto.
Qed.
End MapSub.

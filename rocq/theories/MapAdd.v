(** Adding a segment to an interval map (proofs). *)
From Verif Require Export MapFacts.

Section MapAdd.
Context (X : dom) (k : kind).
Context (HX : dom_ok X k).
Context (M : mtype).
Notation CC := (mt_co M).
Notation V := (C CC).
Context (Hco : forall v w : CC, cc_eq v w = true <-> v = w).
Notation I := (itv (D X)).
Notation node := (node (D X) V).
Notation tree := (tree (D X) V).
Notation lc := (lc X k).
Notation uc := (uc X k).
Notation cltb := (cltb X).
Notation ceqb := (ceqb X).
Notation cut := (cut X).
Notation ne := (@ne X k).
Notation hd_it := (@hd_it X V).
Notation last_it := (@last_it X V).
Notation spl := (spl M).
Notation J := (J X k M).
Notation minv := (minv X k M).
Notation post := (post k spl).
Notation same := (same k spl).
Ltac cord := cord_ X k HX.
Ltac lst := rewrite <- ?app_assoc; cbn [app]; congruence || auto.

Definition rear_tail f (t : tree) (inter_val cur_itv : I) co_val prior_ it_ : res (tree * Tree.iter) :=
  let end_gap := left_subtract X k inter_val cur_itv in
  if negb (is_empty X k end_gap) then
    t <- combine_at X M f t it_ co_val ;;
    m_gap_insert_at X k M f t it_ prior_ end_gap co_val
  else
    let right_resid := left_subtract X k cur_itv inter_val in
    if is_empty X k right_resid then
      t <- combine_at X M f t it_ co_val ;;
      m_handle_preceeded_combined X k M t prior_ it_
    else
      ki <- key t it_ ;;
      t <- set_key t it_ (right_subtract X k ki right_resid) ;;
      v <- val t it_ ;;
      ' (t, insertion_) <- insert_hint X k t it_ right_resid v ;;
      t <- m_handle_reinserted X k M t insertion_ ;;
      t <- combine_at X M f t it_ co_val ;;
      m_handle_preceeded_combined X k M t insertion_ it_.

Lemma rear_tail_at f (t : tree) L q R a x prior_ : inv k t -> nodes t = L ++ q :: R -> J L -> J (q :: R) ->
  ne a -> over k a q -> cltb (lc (nkey q)) (lc a) = false -> above k R (uc a) -> is_absorbable M x = false -> itin X M prior_ L ->
  exists t' it, rear_tail f t a (nkey q) x prior_ (Some (nid q)) = Ok (t', it) /\ minv t' /\ isit t' it /\
    post (lc (nkey q)) (uc a) (gadd M f x) (nodes t) (nodes t').
Proof.
  intros Hi E JL JR Na [O1 O2] Hq AR Ex Hp. pose proof Hi as [W S]. pose proof S as S'. rewrite E in S'.
  pose proof (srt_ne X k HX M _ _ _ S') as Nq. pose proof Na as Na'. pose proof Nq as Nq'. unfold Seg.ne in Na', Nq'.
  pose proof (srt_below X k HX M _ _ _ S') as BL. pose proof (srt_above X k HX M _ _ _ S') as ARq.
  unfold rear_tail.
  set (v := combine CC f (nval q) x). set (q1 := Node (nid q) (nkey q) v).
  set (t1 := Tree (L ++ q1 :: R) (fresh t)).
  assert (I1 : inv k t1) by (apply (inv_chg X k HX M t L q q1 R); auto; cbn; cord). pose proof I1 as [W1 S1].
  assert (G : gadd M f x (Some (nval q)) = absorb M v) by auto.
  assert (JR' : J R) by (eapply J_tl; eauto).
  destruct (cltb (uc (nkey q)) (uc a)) eqn:Eu.
  - (* end gap *)
    destruct (lsub_ne X k HX a (nkey q)) as [Q1 Q2]; auto. set (eg := left_subtract X k a (nkey q)) in *.
    assert (Ne : ne eg) by (unfold Seg.ne; rewrite Q2; cord). pose proof Ne as Ne'. unfold Seg.ne in Ne'.
    assert (Q2' : ceqb (uc eg) (uc a) = true) by (rewrite Q2; cord).
    rewrite (ne_e X k HX eg) by auto. cbn [negb].
    rewrite (combine_at_at X M f t L q R) by auto. cbn [bind]. fold v. fold q1. fold t1.
    rewrite gia_eq. change (Some (nid q)) with (Some (nid q1)).
    rewrite (val_at X t1 L q1 R) by auto. cbn [bind nval q1].
    destruct (at_uc X k HX L q R S') as [Ai An].
    assert (AE : above k R (uc eg)) by (rewrite Q2; auto).
    destruct (is_absorbable M v) eqn:Ev.
    + change (Some (nid q)) with (Some (nid q1)). rewrite (erase_at X t1 L q1 R) by auto. cbn [bind].
      set (t2 := Tree (L ++ R) (fresh t1)).
      assert (I2 : inv k t2) by (apply (inv_del X k HX M t1 L q1 R); auto).
      assert (BE : below k L (lc eg)) by (eapply (below_le X k HX); eauto; cord).
      rewrite (gap_insert_at X k HX M f t2 L R); auto.
      2:{ eapply itin_isit; eauto. reflexivity. }
      cbn [bind]. set (e := Node (fresh t2) eg (version CC f x)). set (t3 := Tree _ _).
      assert (I3 : inv k t3) by (apply (inv_ins X k HX M); auto). pose proof I3 as [W3 S3]. cbn [t3 nodes] in S3.
      destruct (jr_at X k HX M Hco t3 L e R) as (t4 & e4 & R4 & EQ & E4 & I4 & S4 & J4 & X4); auto.
      { apply (J_gap X k HX M L [e] (lc (nkey q)) (uc (nkey q))); auto.
        - assert (S3' : srt k ((L ++ [e]) ++ R)) by (rewrite <- app_assoc; exact S3). apply (srt_app X k) in S3'. tauto.
        - apply J_one; auto.
        - rewrite above_cons. split; [cbn [nkey e]; cord|apply above_nil]. }
      change (Some (fresh t2)) with (Some (nid e)). rewrite EQ. exists t4, (Some (nid e4)). split; auto. split; [split; auto|]. split; [eapply isit_mid; eauto|].
      apply (post_trans X k HX spl (lc (nkey q)) (uc (nkey q)) (uc a) _ (nodes t) (nodes t2)); auto.
      { rewrite E; auto. } { rewrite E; auto. }
      { rewrite E. unfold t2. cbn [nodes]. apply (post_erase X k HX); auto. rewrite G. unfold absorb. rewrite Ev. auto. }
      eapply post_same; [|eapply (same_wide X k HX); [| |exact S4]; cbn [nkey e]; cord].
      apply (post_ceq X k HX spl (lc eg) (uc eg)); [cord|auto|].
      unfold t2, t3. cbn [nodes]. change eg with (nkey e). apply (post_gap X k HX); auto.
    + change (Some (nid q)) with (Some (nid q1)).
      destruct (jl_at X k HX M Hco t1 L q1 R I1 eq_refl JL) as (t2 & L2 & q2 & -> & E2 & I2 & S2 & J2 & X2 & U2).
      cbn [bind]. change (nkey q1) with (nkey q) in U2.
      assert (BE : below k (L2 ++ [q2]) (lc eg)).
      { destruct I2 as [_ I2]. rewrite E2 in I2. eapply below_snoc; eauto. cord. }
      rewrite (gap_insert_at X k HX M f t2 (L2 ++ [q2]) R); auto; [|lst|eapply isit_mid; eauto].
      cbn [bind]. set (e := Node (fresh t2) eg (version CC f x)). set (t3 := Tree _ _).
      assert (I3 : inv k t3) by (apply (inv_ins X k HX M); auto; lst). pose proof I3 as [W3 S3]. cbn [t3 nodes] in S3.
      destruct (jn_at X k HX M Hco t3 (L2 ++ [q2]) e R) as (t4 & L4 & e4 & R4 & EQ & E4 & I4 & S4 & J4 & X4 & _); auto.
      change (Some (fresh t2)) with (Some (nid e)). rewrite EQ. exists t4, (Some (nid e4)). split; auto. split; [split; auto|]. split; [eapply isit_mid; eauto|].
      apply (post_trans X k HX spl (lc (nkey q)) (uc (nkey q)) (uc a) _ (nodes t) (nodes t2)); auto.
      { rewrite E; auto. } { rewrite E; auto. }
      { rewrite E. apply (post_val X k HX M _ L q R v); auto. congruence. }
      eapply post_same; [|eapply (same_wide X k HX); [| |exact S4]; cbn [nkey e]; cord].
      apply (post_ceq X k HX spl (lc eg) (uc eg)); [cord|auto|].
      rewrite E2. replace (L2 ++ q2 :: R) with ((L2 ++ [q2]) ++ R) by lst.
      unfold t3. cbn [nodes]. change eg with (nkey e). apply (post_gap X k HX); auto.
  - assert (Ee : is_empty X k (left_subtract X k a (nkey q)) = true) by (apply lsub_e; auto).
    rewrite Ee. cbn [negb]. clear Ee.
    destruct (cltb (uc a) (uc (nkey q))) eqn:Eu'.
    + (* right_resid *)
      destruct (lsub_ne X k HX (nkey q) a) as [Q1 Q2]; auto. set (rr := left_subtract X k (nkey q) a) in *.
      assert (Q2' : ceqb (uc rr) (uc (nkey q)) = true) by (rewrite Q2; cord).
      assert (Nr : ne rr) by (unfold Seg.ne; cord). pose proof Nr as Nr'. unfold Seg.ne in Nr'.
      rewrite (ne_e X k HX rr) by auto.
      rewrite (key_at X t L q R) by auto. cbn [bind].
      rewrite (set_key_at X t L q R) by auto. cbn [bind].
      destruct (rsub_ne X k HX (nkey q) rr) as [Q3 Q4]; auto; try cord.
      set (kq := right_subtract X k (nkey q) rr) in *.
      assert (Q3' : ceqb (lc kq) (lc (nkey q)) = true) by (rewrite Q3; cord).
      set (p := Node (nid q) kq (nval q)). set (tp := Tree (L ++ p :: R) (fresh t)).
      assert (Np : ne kq) by (unfold Seg.ne; cord). pose proof Np as Np'. unfold Seg.ne in Np'.
      assert (Ip : inv k tp).
      { split.
        - eapply (wf_ids X); [apply (wf_nodes X _ _ W E)|]. rewrite !ids_app, !ids_cons. auto.
        - cbn. apply (srt_mid X k HX) in S'. apply (srt_mid X k HX). cbn [nkey p].
          destruct S' as (? & ? & ? & ? & ?). conjs; auto.
          + eapply (below_le X k HX); eauto. cord.
          + eapply (above_ge X k HX); eauto. cord. }
      pose proof Ip as [Wp Sp].
      change (Some (nid q)) with (Some (nid p)).
      rewrite (val_at X tp L p R) by auto. cbn [bind nval p].
      assert (Bp : below k (L ++ [p]) (lc rr)).
      { eapply (below_snoc X k HX M); [apply Sp|]. cbn [nkey p]. cord. }
      assert (Ar : above k R (uc rr)) by (rewrite Q2; auto).
      change (Some (nid q)) with (Some (nid p)).
      rewrite (insert_hint_new X k HX tp (L ++ [p]) R); auto; [|unfold tp; cbn [nodes]; lst|eapply isit_mid; reflexivity].
      cbn [bind]. set (r := Node (fresh tp) rr (nval q)). set (t2 := Tree _ _).
      assert (I2 : inv k t2).
      { apply (inv_ins X k HX M); auto. unfold tp; cbn [nodes]; lst. }
      pose proof I2 as [W2 S2].
      assert (E2 : nodes t2 = L ++ p :: r :: R) by (unfold t2; cbn [nodes]; lst).
      assert (JrR : J (r :: R)).
      { revert JR. unfold MapFacts.J. destruct (mt_style M); auto. intros JR y z Hy Hz Q.
        rewrite E2 in S2.
        assert (Sr : srt k (r :: R)). { change (L ++ p :: r :: R) with (L ++ [p] ++ (r :: R)) in S2. rewrite app_assoc in S2.
          apply (srt_app X k) in S2. tauto. }
        pose proof (srt_in X k M _ y Sr Hy) as Ny. pose proof (srt_in X k M _ z Sr Hz) as Nz. unfold Seg.ne in Ny, Nz.
        cbn [In] in Hy, Hz. destruct Hy as [<-|Hy], Hz as [<-|Hz].
        - cord.
        - change (nval r) with (nval q). apply JR; cbn; auto. cbn [nkey r] in Q. cord.
        - unfold above in Ar. rewrite Forall_forall in Ar. specialize (Ar y Hy). cbn [nkey r] in Q. cord.
        - apply JR; cbn; auto. }
      rewrite hr_eq. change (Some (fresh tp)) with (Some (nid r)).
      rewrite (jr_noop X k HX M t2 (L ++ [p]) r R) by auto. cbn [bind].
      rewrite (combine_at_at X M f t2 L p (r :: R)) by auto. cbn [bind].
      change (combine CC f (nval p) x) with v. set (p3 := Node (nid p) (nkey p) v). set (t3 := Tree _ _).
      assert (I3 : inv k t3). { apply (inv_chg X k HX M t2 L p p3 (r :: R)); auto; cbn [nkey p3]; cord. }
      pose proof I3 as [W3 S3].
      rewrite hpc_eq. change (Some (nid p)) with (Some (nid p3)).
      rewrite (val_at X t3 L p3 (r :: R)) by auto. cbn [bind nval p3].
      destruct (divide X k HX L q p r R (uc a)) as [Sd Dd]; auto; try (cbn [nkey p r]; cord).
      assert (PP : forall l', post (lc kq) (uc kq) (gadd M f x) (L ++ p :: r :: R) l' ->
                   post (lc (nkey q)) (uc a) (gadd M f x) (nodes t) l').
      { intros l' HP. rewrite E. eapply (post_divided_r X k HX); [|exact Dd|]; [cord|].
        eapply (post_ceq X k HX); [| |exact HP]; cord. }
      destruct (is_absorbable M v) eqn:Ev.
      * change (Some (nid p)) with (Some (nid p3)).
        rewrite (erase_at X t3 L p3 (r :: R)) by auto. cbn [bind].
        eexists _, _. split; [reflexivity|]. split; [split|].
        -- apply (inv_del X k HX M t3 L p3 (r :: R)); auto.
        -- cbn [nodes]. apply (J_gap X k HX M L (r :: R) (lc (nkey q)) (uc a)); auto.
           ++ apply (srt_del X k HX M L p). auto.
           ++ rewrite above_cons. split; [cbn [nkey r]; cord|]. auto.
        -- split; [eapply isit_mid; reflexivity|]. apply PP. change kq with (nkey p).
           apply (post_val X k HX M _ L p (r :: R) v); auto. congruence.
      * change (Some (nid p)) with (Some (nid p3)).
        destruct (jn_at X k HX M Hco t3 L p3 (r :: R)) as (t4 & L4 & e4 & R4 & EQ & E4 & I4 & S4 & J4 & X4 & _); auto.
        rewrite EQ. exists t4, (Some (nid e4)). split; auto. split; [split; auto|]. split; [eapply isit_mid; eauto|].
        apply PP. change kq with (nkey p).
        apply (post_val X k HX M _ L p (r :: R) v); auto. congruence.
    + (* equal ends *)
      assert (Ee : is_empty X k (left_subtract X k (nkey q) a) = true) by (apply lsub_e; auto).
      rewrite Ee. clear Ee.
      rewrite (combine_at_at X M f t L q R) by auto. cbn [bind]. fold v. fold q1. fold t1.
      rewrite hpc_eq. change (Some (nid q)) with (Some (nid q1)).
      rewrite (val_at X t1 L q1 R) by auto. cbn [bind nval q1].
      assert (PP : forall l', post (lc (nkey q)) (uc (nkey q)) (gadd M f x) (nodes t) l' ->
                   post (lc (nkey q)) (uc a) (gadd M f x) (nodes t) l').
      { intros l' HP. eapply (post_ceq X k HX); [| |exact HP]; cord. }
      change (Some (nid q)) with (Some (nid q1)).
      destruct (is_absorbable M v) eqn:Ev.
      * rewrite (erase_at X t1 L q1 R) by auto. cbn [bind].
        eexists _, _. split; [reflexivity|]. split; [split|].
        -- apply (inv_del X k HX M t1 L q1 R); auto.
        -- cbn [nodes]. apply (J_gap X k HX M L R (lc (nkey q)) (uc (nkey q))); auto. apply (srt_del X k HX M L q). auto.
        -- split; [eapply itin_isit; [|eauto]; reflexivity|]. apply PP. rewrite E.
           apply (post_val X k HX M _ L q R v); auto. congruence.
      * destruct (jn_at X k HX M Hco t1 L q1 R) as (t4 & L4 & e4 & R4 & EQ & E4 & I4 & S4 & J4 & X4 & _); auto.
        rewrite EQ. exists t4, (Some (nid e4)). split; auto. split; [split; auto|]. split; [eapply isit_mid; eauto|].
        apply PP. rewrite E. apply (post_val X k HX M _ L q R v); auto. congruence.
Qed.

(** the optional gap in front of node [q] *)
Lemma add_rear_at f (t : tree) L q R a x : inv k t -> nodes t = L ++ q :: R -> J L -> J (q :: R) ->
  ne a -> over k a q -> cltb (lc (nkey q)) (lc a) = false -> below k L (lc a) -> above k R (uc a) -> is_absorbable M x = false ->
  exists t' it, m_add_rear X k M f t a x (Some (nid q)) = Ok (t', it) /\ minv t' /\ isit t' it /\
    post (lc a) (uc a) (gadd M f x) (nodes t) (nodes t').
Proof.
  intros Hi E JL JR Na O Hq BL AR Ex. pose proof Hi as [W S]. pose proof S as S'. rewrite E in S'.
  pose proof (srt_ne X k HX M _ _ _ S') as Nq. pose proof Na as Na'. pose proof Nq as Nq'. unfold Seg.ne in Na', Nq'.
  pose proof O as [O1 O2].
  change (m_add_rear X k M f t a x (Some (nid q))) with
   (prior_ <- cyclic_prior t (Some (nid q)) ;;
    cur_itv <- key t (Some (nid q)) ;;
    t <- (if negb (is_empty X k (right_subtract X k a cur_itv)) then
          ' (t, inserted_) <- gap_insert X k M f t prior_ (right_subtract X k a cur_itv) x ;;
          m_handle_inserted2 X k M t prior_ inserted_
        else Ok t) ;;
    rear_tail f t a cur_itv x prior_ (Some (nid q))).
  rewrite (mcyc X M t L q R) by auto. cbn [bind]. rewrite (key_at X t L q R) by auto. cbn [bind].
  destruct (cltb (lc a) (lc (nkey q))) eqn:El.
  - destruct (rsub_ne X k HX a (nkey q)) as [Q1 Q2]; auto. set (lead := right_subtract X k a (nkey q)) in *.
    assert (Nl : ne lead) by (unfold Seg.ne; rewrite Q1; cord).
    rewrite (ne_e X k HX lead) by auto. cbn [negb].
    destruct (lead_at X k HX M Hco (gadd M f x) f t L q R lead x (last_it L)) as (t1 & L1 & -> & I1 & E1 & J1 & B1 & P1 & Po1); auto.
    { rewrite Q1. auto. } { cord. }
    cbn [bind].
    destruct (rear_tail_at f t1 L1 q R a x (last_it L)) as (t2 & it & -> & H2 & H3 & H4); auto.
    exists t2, it. conjs; auto.
    eapply (post_trans X k HX spl (lc a) (lc (nkey q)) (uc a)); [| | | | |exact H4]; auto.
    + rewrite E. apply (at_lc X k HX); auto.
    + rewrite E. apply (at_lc X k HX); auto.
    + eapply (post_ceq X k HX); [| |exact Po1]; auto. rewrite Q1. cord.
  - assert (Ee : is_empty X k (right_subtract X k a (nkey q)) = true) by (apply rsub_e; auto).
    rewrite Ee. cbn [negb bind]. clear Ee.
    destruct (rear_tail_at f t L q R a x (last_it L)) as (t2 & it & -> & H2 & H3 & H4); auto.
    { apply itin_last. }
    exists t2, it. conjs; auto. eapply (post_ceq X k HX); [| |exact H4]; cord.
Qed.

(* ------------------------------------------------------------ add_main, then add_rear *)
Lemma add_main_rear f x N : is_absorbable M x = false -> forall fuel (t : tree) L q R a,
  length N < fuel -> inv k t -> nodes t = L ++ N ++ q :: R -> J L -> J (N ++ q :: R) -> ne a ->
  below k L (lc a) -> above k R (uc a) -> Forall (over k a) (N ++ [q]) -> above k (N ++ [q]) (lc a) ->
  exists t' it,
    (' (t, rest, it_) <- m_add_main X k M fuel f t a x (hd_it (N ++ q :: R)) (Some (nid q)) ;;
     m_add_rear X k M f t rest x it_) = Ok (t', it) /\ minv t' /\ isit t' it /\
    post (lc a) (uc a) (gadd M f x) (nodes t) (nodes t').
Proof.
  intros Ex. induction N as [|m N IH]; intros [|fuel] t L q R a HF Hi E JL JR Na BL AR ON AN; try (cbn in HF; lia).
  - cbn [m_add_main app]. cbn [Tree.hd_it]. rewrite iter_eqb_refl. cbn [negb bind].
    cbn [app] in *. rewrite above_cons in AN. inversion ON; subst.
    apply (add_rear_at f t L q R); tauto.
  - cbn [m_add_main app]. cbn [Tree.hd_it]. pose proof Hi as [W S].
    assert (Em : nodes t = L ++ m :: (N ++ q :: R)) by (rewrite E; auto).
    pose proof (iter_eqb_hd X t L (m :: N) (q :: R) W E) as Q. cbn in Q.
    cbn [iter_eqb]. rewrite Q. cbn [negb].
    rewrite (key_at X t L m (N ++ q :: R)) by auto. cbn [bind].
    unfold m_add_segment. rewrite (key_at X t L m (N ++ q :: R)) by auto. cbn [bind].
    inversion ON as [|? ? [Om1 Om2] ON']; subst. cbn [app] in AN. rewrite above_cons in AN. destruct AN as [Am AN].
    pose proof S as S'. rewrite Em in S'.
    pose proof (srt_ne X k HX M _ _ _ S') as Nm. pose proof Na as Na'. pose proof Nm as Nm'. unfold Seg.ne in Na', Nm'.
    pose proof (srt_above X k HX M _ _ _ S') as ARm. pose proof (srt_below X k HX M _ _ _ S') as BLm.
    set (lead := right_subtract X k a (nkey m)).
    assert (JM : J (N ++ q :: R)) by (eapply J_tl; eauto).
    assert (HG : exists t1 L1, (if negb (is_empty X k lead)
                then p <- (if iter_eqb (Some (nid m)) (begin_ t) then Ok (Some (nid m)) else decr_it t (Some (nid m))) ;;
                     ' (t0, i) <- gap_insert X k M f t p lead x;; m_handle_inserted2 X k M t0 p i else Ok t) = Ok t1 /\
                inv k t1 /\ nodes t1 = L1 ++ m :: N ++ q :: R /\ J L1 /\ below k L1 (lc (nkey m)) /\
                (forall e l', cltb (lc (nkey m)) e = true -> post (lc (nkey m)) e (gadd M f x) (nodes t1) l' ->
                    post (lc a) e (gadd M f x) (nodes t) l')).
    { destruct (cltb (lc a) (lc (nkey m))) eqn:El.
      - destruct (rsub_ne X k HX a (nkey m)) as [Q1 Q2]; auto. fold lead in Q1, Q2.
        assert (Nl : ne lead) by (unfold Seg.ne in *; rewrite Q1; cord).
        rewrite (ne_e X k HX lead) by auto. cbn [negb].
        assert (Hp : exists p, (if iter_eqb (Some (nid m)) (begin_ t) then Ok (Some (nid m)) else decr_it t (Some (nid m))) = Ok p /\
           (p = last_it L \/ L = [] /\ p = Some (nid m) /\ N ++ q :: R <> [])).
        { destruct L as [|p L] using rev_ind.
          - rewrite begin_at, Em. cbn [app]. cbn [Tree.hd_it]. rewrite iter_eqb_refl. eexists. split; [reflexivity|].
            right. conjs; auto. destruct N; discriminate.
          - clear IHL. replace (iter_eqb _ _) with false.
            + rewrite <- app_assoc in Em. cbn [app] in Em. rewrite (decr_at X t L p m (N ++ q :: R)) by auto.
              eexists. split; [reflexivity|]. left. rewrite last_it_app. auto.
            + pose proof (iter_eqb_hd X t [] (L ++ [p]) (m :: N ++ q :: R) W Em) as Q3. rewrite begin_at, Em.
              cbn [app] in *. destruct (L ++ [p]) eqn:EL; [destruct L; discriminate|]. cbn [app] in *. rewrite <- Q3.
              cbn. apply Nat.eqb_sym. }
        destruct Hp as (p & -> & Hp). cbn [bind].
        destruct (lead_at X k HX M Hco (gadd M f x) f t L m (N ++ q :: R) lead x p) as (t1 & L1 & -> & I1 & E1 & J1 & B1 & _ & Po1); auto.
        { rewrite Q1. auto. } { cord. }
        exists t1, L1. conjs; auto.
        + eapply (below_le X k HX); eauto. cord.
        + intros e l' He HP. eapply (post_trans X k HX spl (lc a) (lc (nkey m)) e); [| | | | |exact HP]; auto.
          * rewrite Em. apply (at_lc X k HX); auto.
          * rewrite Em. apply (at_lc X k HX); auto.
          * eapply (post_ceq X k HX); [| |exact Po1]; auto. rewrite Q1. cord.
      - assert (is_empty X k lead = true) by (apply rsub_e; auto).
        rewrite H. exists t, L. conjs; auto.
        intros e l' He HP. eapply (post_ceq X k HX); [| |exact HP]; cord. }
    destruct HG as (t1 & L1 & HG & I1 & E1 & J1 & B1 & PT).
    match goal with |- context [if negb (is_empty X k lead) then ?A else ?B] =>
      replace (if negb (is_empty X k lead) then A else B) with (Ok t1) by (symmetry; exact HG) end.
    cbn [bind]. pose proof I1 as [W1 S1].
    destruct (seg_at X k HX M Hco (gadd M f x) f t1 L1 m (N ++ q :: R) x I1 E1 J1 eq_refl)
      as (t2 & L2 & EQ & I2 & E2 & J2 & B2 & P2).
    revert EQ. destruct (combine_at X M f t1 (Some (nid m)) x) as [tc|]; [|discriminate]. cbn [bind].
    destruct (incr_it tc (Some (nid m))) as [nx|]; [|discriminate]. cbn [bind].
    destruct (m_handle_left_combined X k M tc (Some (nid m))) as [th|]; [|discriminate]. cbn [bind].
    intros [= -> ->].
    (* the rest *)
    assert (Oq : over k a q). { rewrite Forall_forall in ON'. apply ON'. apply in_app_iff. cbn. auto. }
    destruct Oq as [Oq1 Oq2].
    assert (Hqm : cltb (lc (nkey q)) (uc (nkey m)) = false).
    { pose proof ARm as ARm'. apply above_app in ARm'. destruct ARm' as [_ ARm']. rewrite above_cons in ARm'. tauto. }
    assert (Eu : cltb (uc (nkey m)) (uc a) = true) by cord.
    destruct (lsub_ne X k HX a (nkey m)) as [Q1 Q2]; auto.
    set (rest := left_subtract X k a (nkey m)) in *.
    assert (Q2' : ceqb (uc rest) (uc a) = true) by (rewrite Q2; cord).
    assert (Nr : ne rest) by (unfold Seg.ne in *; cord).
    assert (ARm' : above k (N ++ [q]) (lc rest)).
    { apply above_app in ARm. destruct ARm as [A1 A2]. rewrite above_cons in A2. rewrite above_app, above_cons.
      conjs; auto using above_nil; try cord. apply (above_ge X k HX _ _ _ A1). cord. }
    destruct (IH fuel t2 L2 q R rest) as (t' & it & EQ & IP & VP & PO); auto.
    + clear -HF. cbn in HF. lia.
    + eapply (below_le X k HX); eauto. cord.
    + apply (above_ge X k HX _ _ _ AR). cord.
    + assert (NN : nes k (N ++ [q])).
      { apply srt_nes in S'. unfold nes in *. rewrite Forall_app, Forall_cons_iff, Forall_app, Forall_cons_iff in S'.
        rewrite Forall_app, Forall_cons_iff. intuition. }
      unfold nes, above in *. rewrite Forall_forall in *. intros y Hy.
      specialize (ON' y Hy). specialize (ARm' y Hy). specialize (NN y Hy). destruct ON'.
      unfold over, Seg.ne in *. cord.
    + exists t', it. conjs; auto. apply PT; [cord|].
      eapply (post_trans X k HX spl (lc (nkey m)) (uc (nkey m)) (uc a)); [| | | |exact P2|]; auto.
      * rewrite E1. rewrite E1 in S1. apply (at_uc X k HX); auto.
      * rewrite E1. rewrite E1 in S1. apply (at_uc X k HX); auto.
      * eapply (post_ceq X k HX); [| |exact PO]; auto; cord.
Qed.

(* ------------------------------------------------------------ add_front *)
(** the first overlapped node is split at the lower border *)
Lemma front_at_kept (t : tree) L m R a : minv t -> nodes t = L ++ m :: R -> ne a -> over k a m -> below k L (lc a) ->
  exists t1 L1 m1, m_add_front X k M t a (Some (nid m)) = Ok t1 /\ inv k t1 /\ nodes t1 = L1 ++ m1 :: R /\
    nid m1 = nid m /\ nval m1 = nval m /\ J L1 /\ J (m1 :: R) /\ below k L1 (lc a) /\ over k a m1 /\
    cltb (lc (nkey m1)) (lc a) = false /\ ceqb (uc (nkey m1)) (uc (nkey m)) = true /\
    (forall e g l', cltb (lc a) e = true -> post (lc a) e g (nodes t1) l' -> post (lc a) e g (nodes t) l') /\
    kp k spl (lc a) (uc a) (nodes t) (nodes t1) /\ obs k (nodes t1) (nodes t) /\ cltb (lc (nkey m1)) (lc (nkey m)) = false.
Proof.
  intros [Hi HJ] E Na [O1 O2] BL. pose proof Hi as [W S]. pose proof S as S'. rewrite E in S', HJ.
  pose proof (srt_ne X k HX M _ _ _ S') as Nm. pose proof Na as Na'. pose proof Nm as Nm'. unfold Seg.ne in Na', Nm'.
  pose proof (srt_above X k HX M _ _ _ S') as ARm. pose proof (srt_below X k HX M _ _ _ S') as BLm.
  unfold m_add_front. rewrite (key_at X t L m R) by auto. cbn [bind].
  destruct (cltb (lc (nkey m)) (lc a)) eqn:El.
  - destruct (rsub_ne X k HX (nkey m) a) as [Q1 Q2]; auto.
    set (lr := right_subtract X k (nkey m) a) in *.
    assert (Q1' : ceqb (lc lr) (lc (nkey m)) = true) by (rewrite Q1; cord).
    assert (Nl : ne lr) by (unfold Seg.ne in *; cord).
    rewrite (ne_e X k HX lr) by auto. cbn [negb].
    rewrite (mcyc X M t L m R) by auto. cbn [bind].
    rewrite (set_key_at X t L m R) by auto. cbn [bind].
    destruct (lsub_ne X k HX (nkey m) lr) as [Q3 Q4]; auto; try (unfold Seg.ne in *; cord).
    set (km := left_subtract X k (nkey m) lr) in *.
    assert (Q4' : ceqb (uc km) (uc (nkey m)) = true) by (rewrite Q4; cord).
    set (m1 := Node (nid m) km (nval m)).
    set (t1 := Tree (L ++ m1 :: R) (fresh t)).
    assert (I1 : inv k t1).
    { split.
      - eapply (wf_ids X); [apply (wf_nodes X _ _ W E)|]. rewrite !ids_app, !ids_cons. auto.
      - cbn. apply (srt_mid X k HX) in S'. destruct S' as (? & ? & ? & ? & ?).
        apply (srt_mid X k HX). cbn. unfold Seg.ne in *. conjs; auto; try cord.
        + apply (below_le X k HX _ _ _ BLm). cord.
        + apply (above_ge X k HX _ _ _ ARm). cord. }
    pose proof I1 as [W1 S1].
    assert (BB : below k L (lc lr)) by (rewrite Q1; auto).
    assert (AA : above k (m1 :: R) (uc lr)).
    { rewrite above_cons. cbn [nkey m1]. unfold Seg.ne in *. split; [cord|].
      apply (above_ge X k HX _ _ _ ARm). cord. }
    change (Some (nid m)) with (Some (nid m1)). rewrite (val_at X t1 L m1 R) by auto. cbn [bind].
    rewrite (insert_hint_new X k HX t1 L (m1 :: R)); auto; [|eapply isit_last; reflexivity].
    cbn [bind nval m1].
    pose proof (inv_ins X k HX M t1 L (m1 :: R) lr (nval m) I1 eq_refl Nl BB AA) as I2.
    set (n0 := Node (fresh t1) lr (nval m)) in *. set (t2 := Tree _ (Datatypes.S (fresh t1))) in *.
    exists t2, (L ++ [n0]), m1.
    destruct (divide X k HX L m n0 m1 R (lc a)) as [Sd Dd]; auto; try (cbn [nkey n0 m1]; unfold Seg.ne in *; cord).
    split; [auto|]. split; [auto|]. split; [unfold t2; cbn [nodes]; lst|]. conjs; auto; try (cbn [nkey m1]; unfold Seg.ne in *; cord).
    + (* J (L ++ [n0]) *)
      revert HJ. unfold MapFacts.J. destruct (mt_style M); auto. intros HJ y z Hy Hz Q.
      assert (Sx : srt k ((L ++ [n0]) ++ m1 :: R)) by (rewrite <- app_assoc; exact Sd).
      apply (srt_app X k) in Sx. destruct Sx as (Sx & _).
      pose proof (srt_in X k M _ y Sx Hy) as Ny. pose proof (srt_in X k M _ z Sx Hz) as Nz. unfold Seg.ne in Ny, Nz.
      unfold below in BLm. rewrite Forall_forall in BLm.
      apply in_app_iff in Hy, Hz. destruct Hy as [Hy|[<-|[]]], Hz as [Hz|[<-|[]]].
      * apply HJ; auto; apply in_app_iff; auto.
      * change (nval n0) with (nval m). apply HJ; try (apply in_app_iff; cbn; auto). cbn [nkey n0] in Q. cord.
      * specialize (BLm z Hz). cbn [nkey n0] in *. unfold Seg.ne in *. cord.
      * cord.
    + revert HJ. unfold MapFacts.J. destruct (mt_style M); auto. intros HJ y z Hy Hz Q.
      assert (Sx : srt k ((L ++ [n0]) ++ m1 :: R)) by (rewrite <- app_assoc; exact Sd).
      apply (srt_app X k) in Sx. destruct Sx as (_ & Sx & _).
      pose proof (srt_in X k M _ y Sx Hy) as Ny. pose proof (srt_in X k M _ z Sx Hz) as Nz. unfold Seg.ne in Ny, Nz.
      unfold above in ARm. rewrite Forall_forall in ARm.
      cbn [In] in Hy, Hz. destruct Hy as [<-|Hy], Hz as [<-|Hz].
      * cord.
      * change (nval m1) with (nval m). apply HJ; try (apply in_app_iff; cbn; auto). cbn [nkey m1] in Q. cord.
      * specialize (ARm y Hy). cbn [nkey m1] in *. cord.
      * apply HJ; auto; apply in_app_iff; cbn; auto.
    + rewrite below_app, below_cons. conjs; auto using below_nil. cbn [nkey n0]. cord.
    + unfold over. cbn [nkey m1]. unfold Seg.ne in *. split; cord.
    + intros e g l' He HP. rewrite E. eapply (post_divided_l X k HX); [exact He|exact Dd|]. exact HP.
    + rewrite E. unfold t2. cbn [nodes]. change (L ++ n0 :: m1 :: R) with (L ++ [n0; m1] ++ R). apply (kp_mid X k HX); auto.
    + rewrite E. apply Dd.
  - assert (H : is_empty X k (right_subtract X k (nkey m) a) = true) by (apply rsub_e; auto).
    rewrite H. cbn [negb]. clear H. exists t, L, m. conjs; auto; try cord.
    + eapply J_app_l; eauto.
    + eapply J_app_r; eauto.
    + split; auto.
    + apply kp_refl.
    + apply (obs_refl X k).
Qed.
Lemma front_at (t : tree) L m R a : minv t -> nodes t = L ++ m :: R -> ne a -> over k a m -> below k L (lc a) ->
  exists t1 L1 m1, m_add_front X k M t a (Some (nid m)) = Ok t1 /\ inv k t1 /\ nodes t1 = L1 ++ m1 :: R /\
    nid m1 = nid m /\ nval m1 = nval m /\ J L1 /\ J (m1 :: R) /\ below k L1 (lc a) /\ over k a m1 /\
    cltb (lc (nkey m1)) (lc a) = false /\ ceqb (uc (nkey m1)) (uc (nkey m)) = true /\
    (forall e g l', cltb (lc a) e = true -> post (lc a) e g (nodes t1) l' -> post (lc a) e g (nodes t) l').
Proof.
  intros A B C D E. destruct (front_at_kept t L m R a A B C D E) as (t1 & L1 & m1 & H). exists t1, L1, m1. tauto.
Qed.

Lemma last_split (m : node) N Q q : m :: N = Q ++ [q] -> forall m1, nid m1 = nid m ->
  exists Q1 q1, m1 :: N = Q1 ++ [q1] /\ nid q1 = nid q.
Proof.
  intros EQ m1 Ei. destruct Q as [|p Q]; cbn in EQ; injection EQ as Ea Eb; subst.
  - exists [], m1. auto.
  - exists (m1 :: Q), q. auto.
Qed.

Lemma add_over_at f (t : tree) L N R a x : minv t -> nodes t = L ++ N ++ R -> ne a -> N <> [] ->
  below k L (lc a) -> Forall (over k a) N -> above k R (uc a) -> is_absorbable M x = false ->
  exists t' it, m_add_over X k M f t a x = Ok (t', it) /\ minv t' /\ isit t' it /\
    post (lc a) (uc a) (gadd M f x) (nodes t) (nodes t').
Proof.
  intros Hm E Na NN BL ON AR Ex. pose proof Hm as [[W S] HJ].
  destruct (M_ends N NN) as (m & N' & Q & q & EN & EQ).
  unfold m_add_over.
  rewrite (lower_bound_at X k HX t L (N ++ R)); auto.
  2:{ apply (overl_MR X k HX); auto. rewrite E in S. apply (srt_app X k) in S. tauto. }
  cbn [bind]. rewrite (upper_bound_at X k HX t L N R) by auto. cbn [bind].
  rewrite (decr_hd X t (L ++ Q) q R) by (auto; rewrite E, EQ; lst). cbn [bind].
  rewrite EN. cbn [app]. cbn [Tree.hd_it].
  assert (Em : nodes t = L ++ m :: (N' ++ R)) by (rewrite E, EN; auto).
  rewrite EN in ON. inversion ON as [|? ? Om ON']; subst.
  destruct (front_at t L m (N' ++ R) a Hm Em Na Om BL) as
    (t1 & L1 & m1 & -> & I1 & E1 & Ei & Ev & J1 & J2 & B1 & O1 & Al & Eu & PT). cbn [bind].
  destruct (last_split m N' Q q EQ m1 Ei) as (Q1 & q1 & EQ1 & Eq1).
  pose proof I1 as [W1 S1]. rewrite E1 in S1.
  pose proof (srt_above X k HX M _ _ _ S1) as A1.
  assert (EL : L1 ++ m1 :: N' ++ R = L1 ++ Q1 ++ q1 :: R).
  { change (m1 :: N' ++ R) with ((m1 :: N') ++ R). rewrite EQ1. lst. }
  destruct (add_main_rear f x Q1 Ex (Datatypes.S (List.length (nodes t1))) t1 L1 q1 R a) as (t' & it & EQ' & H1 & H2 & H3); auto.
  - rewrite E1, EL, !app_length. cbn. lia.
  - rewrite E1. auto.
  - change (m1 :: N' ++ R) with ((m1 :: N') ++ R) in J2. rewrite EQ1, <- app_assoc in J2. auto.
  - rewrite <- EQ1. constructor; auto.
  - rewrite <- EQ1. rewrite above_cons. split; auto. apply above_app in A1. destruct A1 as [A1 _].
    pose proof (srt_ne X k HX M _ _ _ S1) as N1. destruct O1. unfold Seg.ne in *. eapply (above_ge X k HX); eauto. cord.
  - exists t', it. conjs; auto. rewrite <- EQ'. rewrite <- Eq1, <- Ei.
    replace (Some (nid m1)) with (hd_it (Q1 ++ q1 :: R)); auto.
    apply app_inv_head in EL. rewrite <- EL. auto.
Qed.

Lemma insert_handled_at g (t : tree) L R a v : minv t -> nodes t = L ++ R -> ne a -> below k L (lc a) -> above k R (uc a) ->
  g None = Some v ->
  exists t' it, m_handle_inserted X k M (Tree (L ++ Node (fresh t) a v :: R) (S (fresh t))) (Some (fresh t)) = Ok (t', it) /\
    minv t' /\ isit t' it /\ post (lc a) (uc a) g (nodes t) (nodes t').
Proof.
  intros [Hi HJ] E Na BL AR G. set (n := Node (fresh t) a v). set (t1 := Tree _ _).
  assert (I1 : inv k t1) by (apply (inv_ins X k HX M); auto). rewrite E in HJ.
  rewrite hi_eq. change (Some (fresh t)) with (Some (nid n)).
  destruct (jn_at X k HX M Hco t1 L n R) as (t4 & L4 & e4 & R4 & EQ & E4 & I4 & S4 & J4 & X4 & _); auto.
  { eapply J_app_l; eauto. } { eapply J_app_r; eauto. }
  exists t4, (Some (nid e4)). split; auto. split; [split; auto|]. split; [eapply isit_mid; eauto|].
  eapply post_same; [|eapply (same_wide X k HX); [| |exact S4]; cbn [nkey n]; cord]. rewrite E. unfold t1. cbn [nodes]. change a with (nkey n). apply (post_gap X k HX); auto.
Qed.

Lemma add_at_ f (t : tree) a x : minv t -> ne a -> is_absorbable M x = false ->
  exists t' it, m_add_ X k M f t a x = Ok (t', it) /\ minv t' /\ isit t' it /\
    post (lc a) (uc a) (gadd M f x) (nodes t) (nodes t').
Proof.
  intros Hm Na Ex. pose proof Hm as [[W S] HJ]. unfold m_add_. rewrite (ne_e X k HX a) by auto. rewrite Ex.
  destruct (decomp X k HX a (nodes t) S Na) as (L & N & R & E & BL & ON & AR).
  destruct N as [|m N].
  - cbn [app] in E. rewrite (insert_new X k HX t L R) by auto. cbn [bind].
    apply (insert_handled_at (gadd M f x)); auto.
  - cbn [app] in E. rewrite (insert_old X k HX t L m (N ++ R)); auto.
    2:{ inversion ON; auto. }
    cbn [bind]. apply (add_over_at f t L (m :: N) R); auto. discriminate.
Qed.

(** with a hint: a free region is filled with  identity (op) x  *)
Definition gaddh (f : functor) (x : V) (o : option V) : option V :=
  match o with None => Some (combine CC f cc_zero x) | Some v => absorb M (combine CC f v x) end.
Lemma cc_eqb_refl (v : V) : cc_eq v v = true.
Proof. apply Hco. auto. Qed.
Lemma itv_eqb_ne a b : ne a -> ne b -> itv_eqb X k a b = ceqb (lc a) (lc b) && ceqb (uc a) (uc b).
Proof. intros A B. apply (ne_iff X k HX) in A, B. apply itv_eqb_cut; auto. Qed.
Lemma itv_eqb_refl' a : ne a -> itv_eqb X k a a = true.
Proof. intros N. rewrite itv_eqb_ne by auto. cord. Qed.

Lemma free_split (t : tree) a : srt k (nodes t) -> ne a ->
  exists L N R, nodes t = L ++ N ++ R /\ below k L (lc a) /\ Forall (over k a) N /\ above k R (uc a).
Proof. intros S Na. apply (decomp X k HX a (nodes t) S Na). Qed.

Lemma add_hint_at_free f (t : tree) h L R a x : minv t -> ne a -> is_absorbable M x = false -> isit t h ->
  nodes t = L ++ R -> below k L (lc a) -> above k R (uc a) ->
  exists t' it, m_add_hint_ X k M f t h a x = Ok (t', it) /\ minv t' /\ isit t' it /\
    post (lc a) (uc a) (gaddh f x) (nodes t) (nodes t').
Proof.
  intros Hm Na Ex Hh E BL AR. pose proof Hm as [[W S] HJ]. unfold m_add_hint_. rewrite (ne_e X k HX a) by auto. rewrite Ex.
  unfold add_at. rewrite Ex. cbn [negb assert bind].
  rewrite (insert_hint_new X k HX t L R) by auto. cbn [bind].
  set (n := Node (fresh t) a cc_zero). set (t1 := Tree _ _).
  assert (I1 : inv k t1) by (apply (inv_ins X k HX M); auto; split; auto). pose proof I1 as [W1 S1].
  change (Some (fresh t)) with (Some (nid n)).
  rewrite (deref_at X t1 L n R) by auto. cbn [bind]. cbn [nkey nval n]. rewrite (itv_eqb_refl' a Na), cc_eqb_refl. cbn [andb].
  change (Some (fresh t)) with (Some (nid n)).
  rewrite (combine_at_at X M f t1 L n R) by auto. cbn [bind nid nkey nval n fresh t1].
  apply (insert_handled_at (gaddh f x)); auto.
Qed.

Definition gaddk (f : functor) (x : V) (o : option V) : option V :=
  match o with None => Some (version CC f x) | Some v => Some (combine CC f v x) end.
Lemma add_hint_over_any f (t : tree) h L N R a x : minv t -> ne a -> is_absorbable M x = false -> isit t h ->
  nodes t = L ++ N ++ R -> N <> [] -> below k L (lc a) -> Forall (over k a) N -> above k R (uc a) ->
  exists t' it g, m_add_hint_ X k M f t h a x = Ok (t', it) /\ minv t' /\ isit t' it /\
    post (lc a) (uc a) g (nodes t) (nodes t') /\
    (g = gadd M f x \/ g = gaddk f x /\ mt_absorbs M = true /\ exists n, In n (nodes t) /\ nval n = cc_zero).
Proof.
  intros Hm Na Ex Hh E NN BL ON AR. pose proof Hm as [[W S] HJ]. unfold m_add_hint_. rewrite (ne_e X k HX a) by auto. rewrite Ex.
  unfold add_at. rewrite Ex. cbn [negb assert bind].
  destruct N as [|m N]; [congruence|].
  rewrite (insert_hint_old X k HX t L m (N ++ R)); auto.
  2:{ inversion ON; auto. }
  cbn [bind]. rewrite (deref_at X t L m (N ++ R)) by auto. cbn [bind].
  destruct (_ && _) eqn:EQ.
  - (* an identity segment exactly at a: combined in place *)
    apply andb_true_iff in EQ. destruct EQ as [EQ EZ].
    assert (Hin : In m (nodes t)) by (rewrite E; apply in_app_iff; cbn; auto).
    apply Hco in EZ.
    pose proof S as S'. cbn [app] in E. rewrite E in S'.
    pose proof (srt_ne X k HX M _ _ _ S') as Nm. rewrite itv_eqb_ne in EQ by auto. apply andb_true_iff in EQ. destruct EQ as [E1 E2].
    pose proof (srt_above X k HX M _ _ _ S') as AM.
    destruct N as [|p N].
    2:{ exfalso. inversion ON as [|? ? _ ON']; subst. inversion ON' as [|? ? [Op _] _]; subst.
        cbn [app] in AM. rewrite above_cons in AM. destruct AM as [AM _]. cord. }
    cbn [app] in *.
    rewrite (combine_at_at X M f t L m R) by auto. cbn [bind].
    set (m1 := Node (nid m) (nkey m) (combine CC f (nval m) x)). set (t1 := Tree _ _).
    assert (I1 : inv k t1) by (apply (inv_chg X k HX M t L m m1 R); auto; [split; auto|cbn [nkey m1]; cord|cbn [nkey m1]; cord]).
    rewrite hi_eq. change (Some (nid m)) with (Some (nid m1)). rewrite E in HJ.
    destruct (jn_at X k HX M Hco t1 L m1 R) as (t4 & L4 & e4 & R4 & EQ & E4 & I4 & S4 & J4 & X4 & _); auto.
    { eapply J_app_l; eauto. } { eapply J_tl, J_app_r; eauto. }
    exists t4, (Some (nid e4)), (if mt_absorbs M then gaddk f x else gadd M f x).
    split; auto. split; [split; auto|]. split; [eapply isit_mid; eauto|]. split.
    2:{ destruct (mt_absorbs M); auto. right. conjs; auto. exists m. auto. }
    eapply (post_ceq X k HX); [exact E1|exact E2|].
    eapply post_same; [|eapply (same_wide X k HX); [| |exact S4]; cbn [nkey m1]; cord]. rewrite E. unfold t1. cbn [nodes]. apply (post_node X k HX); auto.
    destruct (mt_absorbs M) eqn:Ab; cbn [gadd gaddk nval m1]; auto. unfold absorb, is_absorbable. rewrite Ab. auto.
  - cbn [bind]. destruct (add_over_at f t L (m :: N) R a x) as (t' & it & H1 & H2 & H3 & H4); auto. exists t', it, (gadd M f x). conjs; auto.
Qed.
Lemma add_hint_at_over f (t : tree) h L N R a x : minv t -> ne a -> is_absorbable M x = false -> isit t h ->
  nodes t = L ++ N ++ R -> N <> [] -> below k L (lc a) -> Forall (over k a) N -> above k R (uc a) ->
  (mt_absorbs M = true -> forall n, In n (nodes t) -> nval n <> cc_zero) ->
  exists t' it, m_add_hint_ X k M f t h a x = Ok (t', it) /\ minv t' /\ isit t' it /\
    post (lc a) (uc a) (gadd M f x) (nodes t) (nodes t').
Proof.
  intros Hm Na Ex Hh E NN BL ON AR HZ.
  destruct (add_hint_over_any f t h L N R a x) as (t' & it & g & H1 & H2 & H3 & H4 & [->|(_ & Ab & n & Hn & Zn)]); auto.
  - exists t', it. auto.
  - destruct (HZ Ab n Hn Zn).
Qed.
End MapAdd.

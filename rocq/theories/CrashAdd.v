(** What an exception leaves of an interval map: addition and subtraction (proofs). *)
From Verif Require Export CrashIns.

Section CrashAdd.
Context (X : dom) (k : kind).
Context (HX : dom_ok X k).
Context (M : mtype).
Notation CC := (mt_co M).
Notation V := (C CC).
Context (Hco : forall v w : CC, cc_eq v w = true <-> v = w).
Notation I := (itv (D X)).
Notation node := (node (D X) V).
Notation tree := (tree (D X) V).
Notation lc := (lc X k).
Notation uc := (uc X k).
Notation cltb := (cltb X).
Notation ceqb := (ceqb X).
Notation cut := (cut X).
Notation ne := (@ne X k).
Notation hd_it := (@hd_it X V).
Notation last_it := (@last_it X V).
Notation spl := (spl M).
Notation J := (J X k M).
Notation minv := (minv X k M).
Notation post := (post k spl).
Notation same := (same k spl).
Ltac cord := cord_ X k HX.
Ltac lst := rewrite <- ?app_assoc; cbn [app]; congruence || auto.

(** between d and some f the values are changed by g, between f and e not yet; in front of d nothing is
    changed, behind e only values of the segment q may be lost *)
Definition amid (q : I) (d e : cut) (g : option V -> option V) (l l' : list node) : Prop :=
  (exists f, cltb f d = false /\ cltb e f = false /\ forall c,
    (cltb c e = true -> vr k l' c = if negb (cltb c d) && cltb c f then g (vr k l c) else vr k l c) /\
    (cltb c e = false -> vr k l' c = vr k l c \/ vr k l' c = None /\ inr k q c = true)) /\
  kp k spl d e l l'.
Lemma amid_post q d f e g l l' : cltb f d = false -> cltb e f = false -> post d f g l l' -> amid q d e g l l'.
Proof.
  intros A B ((U & _) & _ & K). split; [exists f; conjs; auto|eapply (kp_wide X k HX); [| |exact K]; cord].
  intros c. rewrite U. split; intros H; auto. left. replace (cltb c f) with false by cord. rewrite andb_false_r. auto.
Qed.
Lemma amid_none q d e g l : cltb e d = false -> amid q d e g l l.
Proof.
  intros A. split; [exists d; conjs; auto; [cord|]|apply kp_refl]. intros c. split; intros H; auto.
  destruct (cltb c d); auto.
Qed.
Lemma amid_trans q d f e g l l1 l' : cltb f d = false -> cltb e f = false -> post d f g l l1 -> amid q f e g l1 l' -> amid q d e g l l'.
Proof.
  intros A B ((U & _) & _ & K) ((f' & F1 & F2 & H) & K'). split; [exists f'; conjs; [cord|auto|]|eapply (kp_trans X k HX); eauto].
  intros c. destruct (H c) as [H1 H2]. split; intros Hc.
  - rewrite (H1 Hc), U. destruct (cltb c d) eqn:?, (cltb c f) eqn:?, (cltb c f') eqn:?; cbn; auto; cord.
  - specialize (H2 Hc). rewrite U in H2. replace (cltb c f) with false in H2 by cord. rewrite andb_false_r in H2. auto.
Qed.
Lemma amid_ceq q d e d' e' g l l' : ceqb d d' = true -> ceqb e e' = true -> amid q d e g l l' -> amid q d' e' g l l'.
Proof.
  intros A B ((f' & F1 & F2 & H) & K'). split; [exists f'; conjs; [cord|cord|]|eapply (kp_ceq X k HX); eauto].
  intros c. replace (cltb c d') with (cltb c d) by cord. replace (cltb c e') with (cltb c e) by cord. auto.
Qed.
(** the residue of q behind e is lost *)
Lemma amid_lost L q p R d e g : srt k (L ++ q :: R) -> ceqb (lc (nkey p)) (lc (nkey q)) = true -> ceqb (uc (nkey p)) e = true -> nval p = nval q ->
  cltb (lc (nkey q)) e = true -> cltb e (uc (nkey q)) = true -> cltb d e = true -> amid (nkey q) d e g (L ++ q :: R) (L ++ p :: R).
Proof.
  intros S A B Ev Q1 Q2 DE. pose proof (srt_ne X k HX M _ _ _ S) as N. unfold Seg.ne in N. split.
  - exists d. conjs; [cord|cord|]. intros c. rewrite !(vr_app X k). cbn [vr]. rewrite Ev. unfold inr.
    pose proof (srt_above X k HX M _ _ _ S) as AR.
    replace (cltb c (lc (nkey p))) with (cltb c (lc (nkey q))) by cord. replace (cltb c (uc (nkey p))) with (cltb c e) by cord.
    destruct (vr k L c); [split; intros H; auto; destruct (cltb c d); auto|]. split; intros H; rewrite H.
    + replace (cltb c (uc (nkey q))) with true by cord. destruct (cltb c d); auto.
    + rewrite andb_false_r. destruct (cltb c (uc (nkey q))) eqn:Ec.
      * replace (cltb c (lc (nkey q))) with false by cord. cbn. right. split; auto.
        rewrite (vr_above X k HX R _ c AR); auto.
      * rewrite andb_false_r. auto.
  - change (L ++ p :: R) with (L ++ [p] ++ R). apply (kp_mid X k HX); auto. cord.
Qed.

Definition apart (q : I) (d e : cut) g (l : list node) (t' : tree) : Prop := inv k t' /\ amid q d e g l (nodes t').

Lemma throws_gap f (t : tree) h a x (P : _ -> Prop) : P t -> throws (cm_gap_insert X k M f t h a x) P.
Proof.
  intros H. unfold cm_gap_insert. do 3 (eapply throws_bind; [apply follows_lift|apply throws_lift|intros]). apply throws_insert_hint; auto.
Qed.
Lemma cgia_eq f (t : tree) it p a x P :
  throws (cbind (lift (val t it)) (fun v =>
   if is_absorbable M v then cbind (lift (erase_it t it)) (fun t => cbind (cm_gap_insert X k M f t p a x) (fun '(t, it) => lift (jr X k M t it)))
   else cbind (lift (jl X k M t it)) (fun '(t, it) => cbind (cm_gap_insert X k M f t it a x) (fun '(t, i) => lift (jn X k M t i))))) P ->
  throws (cm_gap_insert_at X k M f t it p a x) P.
Proof.
  unfold cm_gap_insert_at, jl, jn, jr. destruct (mt_style M) eqn:ES; auto.
  intros H n u E. apply (H n). rewrite <- E. unfold cbind, lift. destruct (val t it) as [v|]; auto. destruct (is_absorbable M v).
  - destruct (erase_it t it) as [t1|]; auto.
  - destruct (cm_gap_insert X k M f t it a x n) as [? []| |]; auto.
Qed.

Lemma follows_lead f (t : tree) p a x :
  follows (cbind (cm_gap_insert X k M f t p a x) (fun '(t, i) => lift (m_handle_inserted2 X k M t p i)))
    (bind (gap_insert X k M f t p a x) (fun '(t, i) => m_handle_inserted2 X k M t p i)).
Proof. apply follows_bind; [apply follows_gap_insert|]. intros [u i]. apply follows_lift. Qed.
Lemma follows_seg f (t : tree) i x :
  follows (T := tree) (cbind (lift (combine_at X M f t i x)) (fun t => cbind (lift (incr_it t i)) (fun next_ =>
             cbind (lift (m_handle_left_combined X k M t i)) (fun t => cret (t, next_)))))
    (t <- combine_at X M f t i x ;; next_ <- incr_it t i ;; t <- m_handle_left_combined X k M t i ;; Ok (t, next_)).
Proof.
  apply follows_bind; [apply follows_lift|]. intros tc. apply follows_bind; [apply follows_lift|]. intros nx.
  apply follows_bind; [apply follows_lift|]. intros th. apply follows_ret.
Qed.

(** add_rear without the gap in front of the last segment *)
Definition c_rear_tail f (t : tree) (inter_val cur_itv : I) co_val prior_ it_ : cm tree (tree * Tree.iter) :=
  let end_gap := left_subtract X k inter_val cur_itv in
  if negb (is_empty X k end_gap) then
    cbind (lift (combine_at X M f t it_ co_val)) (fun t =>
    cm_gap_insert_at X k M f t it_ prior_ end_gap co_val)
  else
    let right_resid := left_subtract X k cur_itv inter_val in
    if is_empty X k right_resid then
      cbind (lift (combine_at X M f t it_ co_val)) (fun t =>
      lift (m_handle_preceeded_combined X k M t prior_ it_))
    else
      cbind (lift (key t it_)) (fun ki =>
      cbind (lift (set_key t it_ (right_subtract X k ki right_resid))) (fun t =>
      cbind (lift (val t it_)) (fun v =>
      cbind (c_insert_hint X k t it_ right_resid v) (fun '(t, insertion_) =>
      cbind (lift (m_handle_reinserted X k M t insertion_)) (fun t =>
      cbind (lift (combine_at X M f t it_ co_val)) (fun t =>
      lift (m_handle_preceeded_combined X k M t insertion_ it_))))))).

Lemma rear_tail_throws f (t : tree) L q R a x prior_ : inv k t -> nodes t = L ++ q :: R -> J L -> J (q :: R) ->
  ne a -> over k a q -> cltb (lc (nkey q)) (lc a) = false -> above k R (uc a) -> is_absorbable M x = false ->
  throws (c_rear_tail f t a (nkey q) x prior_ (Some (nid q))) (apart (nkey q) (lc (nkey q)) (uc a) (gadd M f x) (nodes t)).
Proof.
  intros Hi E JL JR Na [O1 O2] Hq AR Ex. pose proof Hi as [W S]. pose proof S as S'. rewrite E in S'.
  pose proof (srt_ne X k HX M _ _ _ S') as Nq. pose proof Na as Na'. pose proof Nq as Nq'. unfold Seg.ne in Na', Nq'.
  unfold c_rear_tail. cbv zeta.
  set (v := combine CC f (nval q) x). set (q1 := Node (nid q) (nkey q) v).
  set (t1 := Tree (L ++ q1 :: R) (fresh t)).
  assert (I1 : inv k t1) by (apply (inv_chg X k HX M t L q q1 R); auto; cbn; cord). pose proof I1 as [W1 S1].
  assert (G : gadd M f x (Some (nval q)) = absorb M v) by auto.
  destruct (cltb (uc (nkey q)) (uc a)) eqn:Eu.
  - (* end gap *)
    destruct (lsub_ne X k HX a (nkey q)) as [Q1 Q2]; auto. set (eg := left_subtract X k a (nkey q)) in *.
    assert (Ne : ne eg) by (unfold Seg.ne; rewrite Q2; cord).
    rewrite (ne_e X k HX eg) by auto. cbn [negb].
    rewrite (combine_at_at X M f t L q R) by auto. apply throws_ok. fold v. fold q1. fold t1.
    apply cgia_eq. change (Some (nid q)) with (Some (nid q1)).
    rewrite (val_at X t1 L q1 R) by auto. apply throws_ok. cbn [nval q1].
    destruct (is_absorbable M v) eqn:Ev.
    + change (Some (nid q)) with (Some (nid q1)). rewrite (erase_at X t1 L q1 R) by auto. apply throws_ok.
      set (t2 := Tree (L ++ R) (fresh t1)).
      assert (I2 : inv k t2) by (apply (inv_del X k HX M t1 L q1 R); auto).
      eapply throws_bind; [apply follows_gap_insert|apply throws_gap|intros [u i] _; apply throws_lift].
      split; auto. apply (amid_post _ _ (uc (nkey q))); [cord|cord|].
      rewrite E. unfold t2. cbn [nodes]. apply (post_erase X k HX); auto. rewrite G. unfold absorb. rewrite Ev. auto.
    + change (Some (nid q)) with (Some (nid q1)).
      destruct (jl_at X k HX M Hco t1 L q1 R I1 eq_refl JL) as (t2 & L2 & q2 & -> & E2 & I2 & S2 & J2 & X2 & U2).
      apply throws_ok. eapply throws_bind; [apply follows_gap_insert|apply throws_gap|intros [u i] _; apply throws_lift].
      split; auto. apply (amid_post _ _ (uc (nkey q))); [cord|cord|].
      rewrite E. apply (post_val X k HX M _ L q R v); auto. congruence.
  - assert (Ee : is_empty X k (left_subtract X k a (nkey q)) = true) by (apply lsub_e; auto).
    rewrite Ee. cbn [negb]. clear Ee.
    destruct (cltb (uc a) (uc (nkey q))) eqn:Eu'.
    + (* right_resid *)
      destruct (lsub_ne X k HX (nkey q) a) as [Q1 Q2]; auto. set (rr := left_subtract X k (nkey q) a) in *.
      assert (Q2' : ceqb (uc rr) (uc (nkey q)) = true) by (rewrite Q2; cord).
      assert (Nr : ne rr) by (unfold Seg.ne; cord). pose proof Nr as Nr'. unfold Seg.ne in Nr'.
      rewrite (ne_e X k HX rr) by auto.
      rewrite (key_at X t L q R) by auto. apply throws_ok.
      rewrite (set_key_at X t L q R) by auto. apply throws_ok.
      destruct (rsub_ne X k HX (nkey q) rr) as [Q3 Q4]; auto; try cord.
      set (kq := right_subtract X k (nkey q) rr) in *.
      assert (Q3' : ceqb (lc kq) (lc (nkey q)) = true) by (rewrite Q3; cord).
      set (p := Node (nid q) kq (nval q)). set (tp := Tree (L ++ p :: R) (fresh t)).
      assert (Np : ne kq) by (unfold Seg.ne; cord). pose proof Np as Np'. unfold Seg.ne in Np'.
      assert (Ip : inv k tp).
      { split.
        - eapply (wf_ids X); [apply (wf_nodes X _ _ W E)|]. rewrite !ids_app, !ids_cons. auto.
        - cbn. pose proof S' as S''. apply (srt_mid X k HX) in S''. apply (srt_mid X k HX). cbn [nkey p].
          destruct S'' as (? & ? & ? & ? & ?). conjs; auto.
          + eapply (below_le X k HX); eauto. cord.
          + eapply (above_ge X k HX); eauto. cord. }
      pose proof Ip as [Wp Sp].
      change (Some (nid q)) with (Some (nid p)).
      rewrite (val_at X tp L p R) by auto. apply throws_ok.
      eapply throws_bind; [apply follows_insert_hint|apply throws_insert_hint|].
      * split; auto. rewrite E. unfold tp. cbn [nodes]. apply amid_lost; auto; cbn [nkey p]; cord.
      * intros [u i] _. repeat (eapply throws_bind; [apply follows_lift|apply throws_lift|intros]). apply throws_lift.
    + (* equal ends *)
      assert (Ee : is_empty X k (left_subtract X k (nkey q) a) = true) by (apply lsub_e; auto).
      rewrite Ee. eapply throws_bind; [apply follows_lift|apply throws_lift|intros]. apply throws_lift.
Qed.

Lemma add_rear_throws f (t : tree) L q R a x : inv k t -> nodes t = L ++ q :: R -> J L -> J (q :: R) ->
  ne a -> over k a q -> cltb (lc (nkey q)) (lc a) = false -> below k L (lc a) -> above k R (uc a) -> is_absorbable M x = false ->
  throws (cm_add_rear X k M f t a x (Some (nid q))) (apart (nkey q) (lc a) (uc a) (gadd M f x) (nodes t)).
Proof.
  intros Hi E JL JR Na O Hq BL AR Ex. pose proof Hi as [W S]. pose proof S as S'. rewrite E in S'.
  pose proof (srt_ne X k HX M _ _ _ S') as Nq. pose proof Na as Na'. pose proof Nq as Nq'. unfold Seg.ne in Na', Nq'.
  pose proof O as [O1 O2].
  change (cm_add_rear X k M f t a x (Some (nid q))) with
   (cbind (lift (cyclic_prior t (Some (nid q)))) (fun prior_ =>
    cbind (lift (key t (Some (nid q)))) (fun cur_itv =>
    cbind (if negb (is_empty X k (right_subtract X k a cur_itv)) then
          cbind (cm_gap_insert X k M f t prior_ (right_subtract X k a cur_itv) x) (fun '(t, inserted_) =>
          lift (m_handle_inserted2 X k M t prior_ inserted_))
        else cret t) (fun t =>
    c_rear_tail f t a cur_itv x prior_ (Some (nid q)))))).
  rewrite (mcyc X M t L q R) by auto. apply throws_ok. rewrite (key_at X t L q R) by auto. apply throws_ok.
  destruct (cltb (lc a) (lc (nkey q))) eqn:El.
  - destruct (rsub_ne X k HX a (nkey q)) as [Q1 Q2]; auto. set (lead := right_subtract X k a (nkey q)) in *.
    assert (Nl : ne lead) by (unfold Seg.ne; rewrite Q1; cord).
    rewrite (ne_e X k HX lead) by auto. cbn [negb].
    destruct (lead_at X k HX M Hco (gadd M f x) f t L q R lead x (last_it L)) as (t1 & L1 & EL & I1 & E1 & J1 & B1 & P1 & Po1); auto.
    { rewrite Q1. auto. } { cord. }
    eapply throws_bind; [apply follows_lead| |].
    { eapply throws_bind; [apply follows_gap_insert|apply throws_gap|intros [u i] _; apply throws_lift].
      split; auto. apply amid_none. cord. }
    rewrite EL. intros u [= <-].
    eapply throws_impl; [apply (rear_tail_throws f t1 L1 q R a x (last_it L)); auto|].
    intros t' [I2 A2]. split; auto. eapply (amid_trans _ _ (lc (nkey q))); [| | |exact A2]; [cord|cord|].
    eapply (post_ceq X k HX); [| |exact Po1]; auto. rewrite Q1. cord.
  - assert (Ee : is_empty X k (right_subtract X k a (nkey q)) = true) by (apply rsub_e; auto).
    rewrite Ee. cbn [negb]. clear Ee.
    eapply throws_bind; [apply follows_ret|apply throws_ret|]. intros u [= <-].
    eapply throws_impl; [apply (rear_tail_throws f t L q R a x (last_it L)); auto|].
    intros t' [I2 A2]. split; auto. eapply (amid_ceq); [| |exact A2]; cord.
Qed.

Lemma add_main_throws f x N : is_absorbable M x = false -> forall fuel (t : tree) L q R a,
  length N < fuel -> inv k t -> nodes t = L ++ N ++ q :: R -> J L -> J (N ++ q :: R) -> ne a ->
  below k L (lc a) -> above k R (uc a) -> Forall (over k a) (N ++ [q]) -> above k (N ++ [q]) (lc a) ->
  throws (cbind (cm_add_main X k M fuel f t a x (hd_it (N ++ q :: R)) (Some (nid q))) (fun '(t, rest, it_) =>
     cm_add_rear X k M f t rest x it_)) (apart (nkey q) (lc a) (uc a) (gadd M f x) (nodes t)).
Proof.
  intros Ex. induction N as [|m N IH]; intros [|fuel] t L q R a HF Hi E JL JR Na BL AR ON AN; try (cbn in HF; lia).
  - cbn [cm_add_main app]. cbn [Tree.hd_it]. rewrite iter_eqb_refl. cbn [negb].
    eapply throws_bind; [apply follows_ret|apply throws_ret|]. intros u [= <-].
    cbn [app] in *. rewrite above_cons in AN. inversion ON; subst.
    apply (add_rear_throws f t L q R); tauto.
  - cbn [cm_add_main app]. cbn [Tree.hd_it]. pose proof Hi as [W S].
    assert (Em : nodes t = L ++ m :: (N ++ q :: R)) by (rewrite E; auto).
    pose proof (iter_eqb_hd X t L (m :: N) (q :: R) W E) as Q. cbn in Q.
    replace (iter_eqb (Some (nid m)) (Some (nid q))) with false by (symmetry; exact Q). cbn [negb].
    rewrite (key_at X t L m (N ++ q :: R)) by auto. apply throws_assoc, throws_ok.
    unfold cm_add_segment. rewrite (key_at X t L m (N ++ q :: R)) by auto. apply throws_assoc, throws_assoc, throws_ok. cbv zeta.
    inversion ON as [|? ? [Om1 Om2] ON']; subst. cbn [app] in AN. rewrite above_cons in AN. destruct AN as [Am AN].
    pose proof S as S'. rewrite Em in S'.
    pose proof (srt_ne X k HX M _ _ _ S') as Nm. pose proof Na as Na'. pose proof Nm as Nm'. unfold Seg.ne in Na', Nm'.
    pose proof (srt_above X k HX M _ _ _ S') as ARm. pose proof (srt_below X k HX M _ _ _ S') as BLm.
    set (lead := right_subtract X k a (nkey m)).
    assert (JM : J (N ++ q :: R)) by (eapply J_tl; eauto).
    assert (Oq : over k a q). { rewrite Forall_forall in ON'. apply ON'. apply in_app_iff. cbn. auto. }
    destruct Oq as [Oq1 Oq2].
    assert (Hqm : cltb (lc (nkey q)) (uc (nkey m)) = false).
    { pose proof ARm as ARm'. apply above_app in ARm'. destruct ARm' as [_ ARm']. rewrite above_cons in ARm'. tauto. }
    assert (Eu : cltb (uc (nkey m)) (uc a) = true) by cord.
    (* what follows the gap in front of m *)
    assert (CONT : forall (t1 : tree) L1 d, inv k t1 -> nodes t1 = L1 ++ m :: N ++ q :: R -> J L1 -> below k L1 (lc (nkey m)) ->
      cltb (lc (nkey m)) d = false -> cltb d (lc (nkey m)) = false ->
      throws (cbind (cbind (lift (combine_at X M f t1 (Some (nid m)) x)) (fun t =>
              cbind (lift (incr_it t (Some (nid m)))) (fun next_ =>
              cbind (lift (m_handle_left_combined X k M t (Some (nid m)))) (fun t => cret (t, next_)))))
          (fun y => cbind (let '(t, it_) := y in cm_add_main X k M fuel f t (left_subtract X k a (nkey m)) x it_ (Some (nid q))) (fun '(t, rest, it_) =>
     cm_add_rear X k M f t rest x it_))) (apart (nkey q) d (uc a) (gadd M f x) (nodes t1))).
    { intros t1 L1 d I1 E1 J1 B1 D1 D2. pose proof I1 as [W1 S1].
      destruct (seg_at X k HX M Hco (gadd M f x) f t1 L1 m (N ++ q :: R) x I1 E1 J1 eq_refl)
        as (t2 & L2 & EQ & I2 & E2 & J2 & B2 & P2).
      eapply throws_bind; [apply follows_seg| |].
      { repeat (eapply throws_bind; [apply follows_lift|apply throws_lift|intros]). apply throws_ret. }
      rewrite EQ. intros y [= <-]. 
      destruct (lsub_ne X k HX a (nkey m)) as [Q1 Q2]; auto.
      set (rest := left_subtract X k a (nkey m)) in *.
      assert (Q2' : ceqb (uc rest) (uc a) = true) by (rewrite Q2; cord).
      assert (Nr : ne rest) by (unfold Seg.ne in *; cord).
      assert (ARm' : above k (N ++ [q]) (lc rest)).
      { apply above_app in ARm. destruct ARm as [A1 A2]. rewrite above_cons in A2. rewrite above_app, above_cons.
        conjs; auto using above_nil; try cord. apply (above_ge X k HX _ _ _ A1). cord. }
      eapply throws_impl; [apply (IH fuel t2 L2 q R rest); auto|].
      + clear -HF. cbn in HF. lia.
      + eapply (below_le X k HX); eauto. cord.
      + apply (above_ge X k HX _ _ _ AR). cord.
      + assert (NN : nes k (N ++ [q])).
        { apply srt_nes in S'. unfold nes in *. rewrite Forall_app, Forall_cons_iff, Forall_app, Forall_cons_iff in S'.
          rewrite Forall_app, Forall_cons_iff. intuition. }
        unfold nes, above in *. rewrite Forall_forall in *. intros y Hy.
        specialize (ON' y Hy). specialize (ARm' y Hy). specialize (NN y Hy). destruct ON'.
        unfold over, Seg.ne in *. cord.
      + intros t' [I3 A3]. split; auto. eapply (amid_trans _ _ (uc (nkey m))); [| | |eapply amid_ceq; [| |exact A3]]; try cord.
        eapply (post_ceq X k HX); [| |exact P2]; cord. }
    destruct (cltb (lc a) (lc (nkey m))) eqn:El.
    + destruct (rsub_ne X k HX a (nkey m)) as [Q1 Q2]; auto. fold lead in Q1, Q2.
      assert (Nl : ne lead) by (unfold Seg.ne in *; rewrite Q1; cord).
      rewrite (ne_e X k HX lead) by auto. cbn [negb].
      assert (Hp : exists p, (if iter_eqb (Some (nid m)) (begin_ t) then Ok (Some (nid m)) else decr_it t (Some (nid m))) = Ok p /\
         (p = last_it L \/ L = [] /\ p = Some (nid m) /\ N ++ q :: R <> [])).
      { destruct L as [|p L] using rev_ind.
        - rewrite begin_at, Em. cbn [app]. cbn [Tree.hd_it]. rewrite iter_eqb_refl. eexists. split; [reflexivity|].
          right. conjs; auto. destruct N; discriminate.
        - clear IHL. replace (iter_eqb _ _) with false.
          + rewrite <- app_assoc in Em. cbn [app] in Em. rewrite (decr_at X t L p m (N ++ q :: R)) by auto.
            eexists. split; [reflexivity|]. left. rewrite last_it_app. auto.
          + pose proof (iter_eqb_hd X t [] (L ++ [p]) (m :: N ++ q :: R) W Em) as Q3. rewrite begin_at, Em.
            cbn [app] in *. destruct (L ++ [p]) eqn:EL; [destruct L; discriminate|]. cbn [app] in *. rewrite <- Q3.
            cbn. apply Nat.eqb_sym. }
      destruct Hp as (p & EP & Hp).
      destruct (lead_at X k HX M Hco (gadd M f x) f t L m (N ++ q :: R) lead x p) as (t1 & L1 & EL & I1 & E1 & J1 & B1 & _ & Po1); auto.
      { rewrite Q1. auto. } { cord. }
      apply throws_assoc, throws_assoc.
      match goal with |- throws (cbind (lift ?e) _) _ => replace e with (@Ok Tree.iter p) by (symmetry; exact EP) end. apply throws_ok.
      eapply throws_bind; [apply follows_lead| |].
      { eapply throws_bind; [apply follows_gap_insert|apply throws_gap|intros [u i] _; apply throws_lift].
        split; auto. apply amid_none. cord. }
      rewrite EL. intros u [= <-].
      eapply throws_impl; [apply (CONT t1 L1 (lc (nkey m))); auto; try cord|].
      { eapply (below_le X k HX); eauto. cord. }
      intros t' [I3 A3]. split; auto. eapply (amid_trans _ _ (lc (nkey m))); [| | |exact A3]; [cord|cord|].
      eapply (post_ceq X k HX); [| |exact Po1]; auto. rewrite Q1. cord.
    + assert (is_empty X k lead = true) by (apply rsub_e; auto).
      rewrite H. cbn [negb]. apply throws_assoc. eapply throws_bind; [apply follows_ret|apply throws_ret|]. intros u [= <-].
      apply (CONT t L (lc a)); auto; cord.
Qed.

(* ------------------------------------------------------------ add_front *)
(** the residue of m in front of d is lost *)
Lemma front_throws (t : tree) L m R a : minv t -> nodes t = L ++ m :: R -> ne a -> over k a m ->
  throws (cm_add_front X k M t a (Some (nid m))) (fun t' => inv k t' /\ kp k spl (lc a) (uc a) (nodes t) (nodes t') /\
    forall c, (cltb c (lc a) = false -> vr k (nodes t') c = vr k (nodes t) c) /\
      (cltb c (lc a) = true -> vr k (nodes t') c = vr k (nodes t) c \/ vr k (nodes t') c = None /\ inr k (nkey m) c = true)).
Proof.
  intros [Hi HJ] E Na [O1 O2]. pose proof Hi as [W S]. pose proof S as S'. rewrite E in S', HJ.
  pose proof (srt_ne X k HX M _ _ _ S') as Nm. pose proof Na as Na'. pose proof Nm as Nm'. unfold Seg.ne in Na', Nm'.
  pose proof (srt_above X k HX M _ _ _ S') as ARm. pose proof (srt_below X k HX M _ _ _ S') as BLm.
  unfold cm_add_front. rewrite (key_at X t L m R) by auto. apply throws_ok. cbv zeta.
  destruct (cltb (lc (nkey m)) (lc a)) eqn:El.
  2:{ assert (H : is_empty X k (right_subtract X k (nkey m) a) = true) by (apply rsub_e; auto). rewrite H. apply throws_ret. }
  destruct (rsub_ne X k HX (nkey m) a) as [Q1 Q2]; auto.
  set (lr := right_subtract X k (nkey m) a) in *.
  assert (Q1' : ceqb (lc lr) (lc (nkey m)) = true) by (rewrite Q1; cord).
  assert (Nl : ne lr) by (unfold Seg.ne in *; cord).
  rewrite (ne_e X k HX lr) by auto. cbn [negb].
  rewrite (mcyc X M t L m R) by auto. apply throws_ok.
  rewrite (set_key_at X t L m R) by auto. apply throws_ok.
  destruct (lsub_ne X k HX (nkey m) lr) as [Q3 Q4]; auto; try (unfold Seg.ne in *; cord).
  set (km := left_subtract X k (nkey m) lr) in *.
  assert (Q4' : ceqb (uc km) (uc (nkey m)) = true) by (rewrite Q4; cord).
  set (m1 := Node (nid m) km (nval m)).
  set (t1 := Tree (L ++ m1 :: R) (fresh t)).
  assert (I1 : inv k t1).
  { split.
    - eapply (wf_ids X); [apply (wf_nodes X _ _ W E)|]. rewrite !ids_app, !ids_cons. auto.
    - cbn. pose proof S' as S''. apply (srt_mid X k HX) in S''. destruct S'' as (? & ? & ? & ? & ?).
      apply (srt_mid X k HX). cbn. unfold Seg.ne in *. conjs; auto; try cord.
      + apply (below_le X k HX _ _ _ BLm). cord.
      + apply (above_ge X k HX _ _ _ ARm). cord. }
  pose proof I1 as [W1 S1].
  change (Some (nid m)) with (Some (nid m1)). rewrite (val_at X t1 L m1 R) by auto. apply throws_ok.
  eapply throws_bind; [apply follows_insert_hint|apply throws_insert_hint|intros [u i] _; apply throws_ret].
  split; auto. split.
  { rewrite E. unfold t1. cbn [nodes]. change (L ++ m1 :: R) with (L ++ [m1] ++ R). apply (kp_mid X k HX); auto. }
  intros c. rewrite E. unfold t1. cbn [nodes]. rewrite !(vr_app X k). cbn [vr]. unfold inr. cbn [nkey nval m1].
  replace (cltb c (uc km)) with (cltb c (uc (nkey m))) by cord.
  assert (QL : cltb c (lc km) = cltb c (lc a)) by cord. rewrite QL.
  destruct (vr k L c); [split; auto|]. split; intros H; rewrite H; cbn [negb andb].
  - replace (cltb c (lc (nkey m))) with false by cord. auto.
  - destruct (cltb c (lc (nkey m))) eqn:Ec; cbn; auto. replace (cltb c (uc (nkey m))) with true by cord. right. split; auto.
    apply (vr_above X k HX R _ c ARm). cord.
Qed.

(** what an interrupted combination with a leaves: changed by g up to some f inside a, not changed behind;
    outside of a unchanged, or lost together with a segment that overlaps a *)
Definition apartial (a : I) g (l : list node) (t' : tree) : Prop := inv k t' /\
  (exists f, cltb f (lc a) = false /\ cltb (uc a) f = false /\ forall c,
    (inr k a c = true -> vr k (nodes t') c = if cltb c f then g (vr k l c) else vr k l c) /\
    (inr k a c = false -> vr k (nodes t') c = vr k l c \/
        vr k (nodes t') c = None /\ exists n, In n l /\ over k a n /\ inr k (nkey n) c = true)) /\
  kp k spl (lc a) (uc a) l (nodes t').
Lemma apartial_none a g (t : tree) : inv k t -> ne a -> apartial a g (nodes t) t.
Proof.
  intros H N. unfold Seg.ne in N. split; auto. split; [|apply kp_refl]. exists (lc a). conjs; [cord|cord|]. intros c. split; auto.
  unfold inr. intros Hc. destruct (cltb c (lc a)); auto; discriminate.
Qed.
Lemma apart_apartial a (q : node) g l (t' : tree) : apart (nkey q) (lc a) (uc a) g l t' -> (exists m, In m l /\ over k a m /\ forall c, inr k (nkey q) c = true -> inr k (nkey m) c = true) ->
  apartial a g l t'.
Proof.
  intros [Hi [(f & F1 & F2 & H) K]] (m & Hm & Om & HC). split; auto. split; auto. exists f. conjs; auto. intros c. destruct (H c) as [H1 H2]. unfold inr. split; intros Hc.
  - apply andb_true_iff in Hc. destruct Hc as [Hc Hc']. rewrite (H1 Hc'), Hc. auto.
  - destruct (cltb c (uc a)) eqn:Ec.
    + rewrite andb_true_r in Hc. rewrite H1 by auto. rewrite Hc. auto.
    + destruct (H2 eq_refl) as [H3|[H3 H4]]; auto. right. split; auto. exists m. split; auto. split; auto. apply (HC c). auto.
Qed.
Lemma apartial_ext a g g' l t' : (forall o, g o = g' o) -> apartial a g l t' -> apartial a g' l t'.
Proof.
  intros E (A & (f & F1 & F2 & H) & K). split; auto. split; auto. exists f. conjs; auto. intros c. destruct (H c) as [H1 H2]. split; auto.
  intros Hc. rewrite (H1 Hc). rewrite E. auto.
Qed.

(** add_front, then a part that may throw *)
Lemma front_then {A} (t : tree) L m N' R a g (rest : tree -> cm tree A) : minv t -> nodes t = L ++ m :: N' ++ R -> ne a -> over k a m -> below k L (lc a) ->
  Forall (over k a) N' -> above k R (uc a) ->
  (forall Q q, m :: N' = Q ++ [q] -> forall t1 L1 Q1 q1, inv k t1 -> nodes t1 = L1 ++ Q1 ++ q1 :: R -> nid q1 = nid q -> hd_it (Q1 ++ q1 :: R) = Some (nid m) ->
     J L1 -> J (Q1 ++ q1 :: R) -> below k L1 (lc a) -> Forall (over k a) (Q1 ++ [q1]) -> above k (Q1 ++ [q1]) (lc a) ->
     throws (rest t1) (apart (nkey q1) (lc a) (uc a) g (nodes t1))) ->
  throws (cbind (cm_add_front X k M t a (Some (nid m))) rest) (apartial a g (nodes t)).
Proof.
  intros Hm Em Na Om BL ON AR H. pose proof Hm as [[W S] HJ].
  assert (NN : m :: N' <> []) by discriminate.
  destruct (M_ends _ NN) as (? & ? & Q & q & EN' & EQ). injection EN' as <- <-.
  pose proof Na as Na'. unfold Seg.ne in Na'.
  eapply throws_bind; [apply follows_m_add_front| |].
  { eapply throws_impl; [apply (front_throws t L m (N' ++ R) a); auto|]. intros t' (Hi & K & HC). split; auto. split; auto.
    exists (lc a). conjs; [cord|cord|]. intros c. destruct (HC c) as [H1 H2]. unfold inr at 1 2. split; intros Hc.
    - apply andb_true_iff in Hc. destruct Hc as [Hc Hc']. apply negb_true_iff in Hc. rewrite Hc. auto.
    - destruct (cltb c (lc a)) eqn:Ec; [|left; auto]. destruct (H2 eq_refl) as [H3|[H3 H4]]; auto. right. split; auto.
      exists m. conjs; auto. rewrite Em. apply in_app_iff. cbn. auto. }
  destruct (front_at_kept X k HX M t L m (N' ++ R) a Hm Em Na Om BL) as
    (t1 & L1 & m1 & -> & I1 & E1 & Ei & Ev & J1 & J2 & B1 & O1 & Al & Eu & PT & KP & OB & ML). intros u [= <-].
  assert (LS : exists Q1 q1, m1 :: N' = Q1 ++ [q1] /\ nid q1 = nid q /\ (q1 = q \/ q1 = m1 /\ q = m)).
  { destruct Q as [|p Q]; cbn in EQ; injection EQ as Ea Eb; subst.
    - exists [], m1. auto.
    - exists (m1 :: Q), q. auto. }
  destruct LS as (Q1 & q1 & EQ1 & Eq1 & LS).
  pose proof I1 as [W1 S1]. rewrite E1 in S1.
  pose proof (srt_above X k HX M _ _ _ S1) as A1.
  assert (EL : L1 ++ m1 :: N' ++ R = L1 ++ Q1 ++ q1 :: R).
  { change (m1 :: N' ++ R) with ((m1 :: N') ++ R). rewrite EQ1. lst. }
  assert (HE : hd_it (Q1 ++ q1 :: R) = Some (nid m)).
  { apply app_inv_head in EL. rewrite <- EL. cbn. congruence. }
  assert (Hq : In q (m :: N')) by (rewrite EQ; apply in_app_iff; cbn; auto).
  assert (Oq : over k a q). { destruct Hq as [<-|Hq]; auto. rewrite Forall_forall in ON. auto. }
  assert (TR : forall c, vr k (nodes t1) c = vr k (nodes t) c) by (intros c; apply OB).
  assert (KT : forall l', kp k spl (lc a) (uc a) (nodes t1) l' -> kp k spl (lc a) (uc a) (nodes t) l') by (intros l' K; eapply kp_step; eauto).
  eapply throws_impl; [apply (H Q q EQ t1 L1 Q1 q1)|]; auto.
  - congruence.
  - change (m1 :: N' ++ R) with ((m1 :: N') ++ R) in J2. rewrite EQ1, <- app_assoc in J2. auto.
  - rewrite <- EQ1. constructor; auto.
  - rewrite <- EQ1. rewrite above_cons. split; auto. apply above_app in A1. destruct A1 as [A1 _].
    pose proof (srt_ne X k HX M _ _ _ S1) as N1. destruct O1. unfold Seg.ne in *. eapply (above_ge X k HX); eauto. cord.
  - intros t' [I3 [(f & F1 & F2 & HC) K]]. apply (apart_apartial a q1).
    + split; auto. split; auto. exists f. conjs; auto. intros c. rewrite <- TR. auto.
    + exists q. conjs; auto.
      * rewrite Em. apply in_app_iff. right. change (m :: N' ++ R) with ((m :: N') ++ R). apply in_app_iff. auto.
      * intros c. destruct LS as [->|[-> ->]]; auto. unfold inr. intros Hc. apply andb_true_iff in Hc. destruct Hc as [Hc1 Hc2]. apply negb_true_iff in Hc1.
        apply andb_true_iff. split; [apply negb_true_iff|]; cord.
Qed.

Lemma add_over_throws f (t : tree) L N R a x : minv t -> nodes t = L ++ N ++ R -> ne a -> N <> [] ->
  below k L (lc a) -> Forall (over k a) N -> above k R (uc a) -> is_absorbable M x = false ->
  throws (cm_add_over X k M f t a x) (apartial a (gadd M f x) (nodes t)).
Proof.
  intros Hm E Na NN BL ON AR Ex. pose proof Hm as [[W S] HJ].
  destruct (M_ends N NN) as (m & N' & Q & q & EN & EQ).
  unfold cm_add_over.
  rewrite (lower_bound_at X k HX t L (N ++ R)); auto.
  2:{ apply (overl_MR X k HX); auto. rewrite E in S. apply (srt_app X k) in S. tauto. }
  apply throws_ok. rewrite (upper_bound_at X k HX t L N R) by auto. apply throws_ok.
  rewrite (decr_hd X t (L ++ Q) q R) by (auto; rewrite E, EQ; lst). apply throws_ok.
  rewrite EN. cbn [app]. cbn [Tree.hd_it].
  assert (Em : nodes t = L ++ m :: (N' ++ R)) by (rewrite E, EN; auto).
  rewrite EN in ON, EQ. inversion ON as [|? ? Om ON']; subst x0 l.
  apply (front_then t L m N' R a); auto.
  intros Q' q' EQ' t1 L1 Q1 q1 I1 E1 Eq1 EH J1 J2 B1 O1 A1.
  assert (q' = q) by (rewrite EQ in EQ'; apply app_inj_tail in EQ'; destruct EQ'; auto). subst q'.
  rewrite <- EH, <- Eq1. apply (add_main_throws f x Q1 Ex (Datatypes.S (List.length (nodes t1))) t1 L1 q1 R a); auto.
  rewrite E1, !app_length. cbn. lia.
Qed.
Lemma add_throws_ f (t : tree) a x : minv t -> ne a -> throws (cm_add_ X k M f t a x) (apartial a (gadd M f x) (nodes t)).
Proof.
  intros Hm Na. pose proof Hm as [[W S] HJ]. unfold cm_add_. rewrite (ne_e X k HX a) by auto. destruct (is_absorbable M x) eqn:Ex; [apply throws_ret|].
  destruct (decomp X k HX a (nodes t) S Na) as (L & N & R & E & BL & ON & AR).
  eapply throws_bind; [apply follows_insert|apply throws_insert; apply apartial_none; auto; split; auto|].
  destruct N as [|m N].
  - cbn [app] in E. rewrite (insert_new X k HX t L R) by auto. intros r0 Er. injection Er as <-. apply throws_lift.
  - cbn [app] in E. rewrite (insert_old X k HX t L m (N ++ R)); auto.
    2:{ inversion ON; auto. }
    intros r0 Er. injection Er as <-. apply (add_over_throws f t L (m :: N) R); auto. discriminate.
Qed.
Lemma follows_add_at f (t : tree) h a x : follows (cm_add_at X k M f t h a x) (add_at X k M f t h a x).
Proof.
  unfold cm_add_at, add_at. apply follows_bind; [apply follows_lift|]. intros _. apply follows_bind; [apply follows_insert_hint|]. intros [u i].
  apply follows_bind; [apply follows_lift|]. intros n. destruct (_ && _); [|apply follows_ret]. apply follows_bind; [apply follows_lift|]. intros. apply follows_ret.
Qed.
Lemma add_hint_throws_ f (t : tree) h a x : minv t -> ne a -> isit t h -> throws (cm_add_hint_ X k M f t h a x) (apartial a (gadd M f x) (nodes t)).
Proof.
  intros Hm Na Hh. pose proof Hm as [[W S] HJ]. unfold cm_add_hint_. rewrite (ne_e X k HX a) by auto. destruct (is_absorbable M x) eqn:Ex; [apply throws_ret|].
  destruct (decomp X k HX a (nodes t) S Na) as (L & N & R & E & BL & ON & AR).
  eapply throws_bind; [apply follows_add_at|unfold cm_add_at; rewrite Ex; apply throws_ok|].
  { eapply throws_bind; [apply follows_insert_hint|apply throws_insert_hint; apply apartial_none; auto; split; auto|]. intros [u i] _.
    eapply throws_bind; [apply follows_lift|apply throws_lift|]. intros n _. destruct (_ && _); [|apply throws_ret].
    eapply throws_bind; [apply follows_lift|apply throws_lift|]. intros. apply throws_ret. }
  unfold add_at. rewrite Ex. cbn [negb assert bind]. destruct N as [|m N].
  - cbn [app] in E. rewrite (insert_hint_new X k HX t L R) by auto. cbn [bind].
    set (n := Node (fresh t) a cc_zero). set (t1 := Tree _ _).
    assert (I1 : inv k t1) by (apply (inv_ins X k HX M); auto; split; auto). pose proof I1 as [W1 S1].
    change (Some (fresh t)) with (Some (nid n)).
    rewrite (deref_at X t1 L n R) by auto. cbn [bind]. cbn [nkey nval n]. rewrite (itv_eqb_refl' X k HX a Na), (cc_eqb_refl M Hco). cbn [andb].
    change (Some (fresh t)) with (Some (nid n)).
    rewrite (combine_at_at X M f t1 L n R) by auto. cbn [bind]. intros r0 Er. injection Er as <-. apply throws_lift.
  - cbn [app] in E. rewrite (insert_hint_old X k HX t L m (N ++ R)); auto.
    2:{ inversion ON; auto. }
    cbn [bind]. rewrite (deref_at X t L m (N ++ R)) by auto. cbn [bind].
    destruct (_ && _).
    + destruct (combine_at X M f t (Some (nid m)) x); [|discriminate]. cbn [bind]. intros r0 Er. injection Er as <-. apply throws_lift.
    + intros r0 Er. injection Er as <-. apply (add_over_throws f t L (m :: N) R); auto. discriminate.
Qed.

(* ------------------------------------------------------------ subtraction *)
Lemma sub_rear_throws f (t : tree) L q R a x d : inv k t -> nodes t = L ++ q :: R ->
  ne a -> over k a q -> cltb (lc (nkey q)) (lc a) = false -> cltb d (uc a) = true ->
  throws (cm_subtract_rear X k M f t a x (Some (nid q))) (apart (nkey q) d (uc a) (gsub M f x) (nodes t)).
Proof.
  intros Hi E Na [O1 O2] Hq DE. pose proof Hi as [W S]. pose proof S as S'. rewrite E in S'.
  pose proof (srt_ne X k HX M _ _ _ S') as Nq. pose proof Na as Na'. pose proof Nq as Nq'. unfold Seg.ne in Na', Nq'.
  unfold cm_subtract_rear. rewrite (key_at X t L q R) by auto. apply throws_ok. cbv zeta.
  destruct (cltb (uc a) (uc (nkey q))) eqn:Eu.
  - destruct (lsub_ne X k HX (nkey q) a) as [Q1 Q2]; auto. set (rr := left_subtract X k (nkey q) a) in *.
    assert (Q2' : ceqb (uc rr) (uc (nkey q)) = true) by (rewrite Q2; cord).
    assert (Nr : ne rr) by (unfold Seg.ne; cord). pose proof Nr as Nr'. unfold Seg.ne in Nr'.
    rewrite (ne_e X k HX rr) by auto.
    rewrite (set_key_at X t L q R) by auto. apply throws_ok.
    destruct (rsub_ne X k HX (nkey q) rr) as [Q3 Q4]; auto; try cord.
    set (kq := right_subtract X k (nkey q) rr) in *.
    assert (Q3' : ceqb (lc kq) (lc (nkey q)) = true) by (rewrite Q3; cord).
    set (p := Node (nid q) kq (nval q)). set (tp := Tree (L ++ p :: R) (fresh t)).
    assert (Np : ne kq) by (unfold Seg.ne; cord). pose proof Np as Np'. unfold Seg.ne in Np'.
    assert (Ip : inv k tp).
    { split.
      - eapply (wf_ids X); [apply (wf_nodes X _ _ W E)|]. rewrite !ids_app, !ids_cons. auto.
      - cbn. pose proof S' as S''. apply (srt_mid X k HX) in S''. apply (srt_mid X k HX). cbn [nkey p].
        destruct S'' as (? & ? & ? & ? & ?). conjs; auto.
        + eapply (below_le X k HX); eauto. cord.
        + eapply (above_ge X k HX); eauto. cord. }
    pose proof Ip as [Wp Sp].
    change (Some (nid q)) with (Some (nid p)).
    rewrite (val_at X tp L p R) by auto. apply throws_ok.
    eapply throws_bind; [apply follows_insert_hint|apply throws_insert_hint|].
    + split; auto. rewrite E. unfold tp. cbn [nodes]. apply amid_lost; auto; cbn [nkey p]; cord.
    + intros [u i] _. eapply throws_bind; [apply follows_lift|apply throws_lift|intros]. apply throws_lift.
  - assert (Ee : is_empty X k (left_subtract X k (nkey q) a) = true) by (apply lsub_e; auto).
    rewrite Ee. eapply throws_bind; [apply follows_lift|apply throws_lift|intros]. apply throws_lift.
Qed.
Lemma sub_main_throws f x a N : is_absorbable M x = false -> ne a -> forall fuel (t : tree) L q R d,
  length N < fuel -> inv k t -> nodes t = L ++ N ++ q :: R -> J L -> cltb d (uc a) = true ->
  below k L d -> Forall (over k a) (N ++ [q]) -> above k (N ++ [q]) d -> above k (N ++ [q]) (lc a) ->
  throws (cbind (lift (m_subtract_main X k M fuel f t x (hd_it (N ++ q :: R)) (Some (nid q)))) (fun '(t, it_) =>
     cm_subtract_rear X k M f t a x it_)) (apart (nkey q) d (uc a) (gsub M f x) (nodes t)).
Proof.
  intros Ex Na. pose proof Na as Na'. unfold Seg.ne in Na'.
  induction N as [|m N IH]; intros [|fuel] t L q R d HF Hi E JL DE BL ON AN AL; try (cbn in HF; lia).
  - cbn [m_subtract_main app]. cbn [Tree.hd_it]. rewrite iter_eqb_refl. cbn [negb]. apply throws_ok.
    cbn [app] in *. rewrite above_cons in AN, AL. inversion ON; subst.
    apply (sub_rear_throws f t L q R a x d); tauto.
  - cbn [m_subtract_main app]. cbn [Tree.hd_it]. pose proof Hi as [W S].
    assert (Em : nodes t = L ++ m :: (N ++ q :: R)) by (rewrite E; auto).
    pose proof (iter_eqb_hd X t L (m :: N) (q :: R) W E) as Q. cbn in Q.
    replace (iter_eqb (Some (nid m)) (Some (nid q))) with false by (symmetry; exact Q). cbn [negb].
    inversion ON as [|? ? [Om1 Om2] ON']; subst. cbn [app] in AN, AL. rewrite above_cons in AN, AL.
    destruct AN as [Am AN], AL as [Al AL].
    pose proof S as S'. rewrite Em in S'.
    pose proof (srt_ne X k HX M _ _ _ S') as Nm. pose proof Nm as Nm'. unfold Seg.ne in Nm'.
    pose proof (srt_above X k HX M _ _ _ S') as ARm.
    destruct (seg_at X k HX M Hco (gsub M f x) f t L m (N ++ q :: R) x Hi Em JL eq_refl)
      as (t2 & L2 & EQ & I2 & E2 & J2 & B2 & P2).
    revert EQ. destruct (combine_at X M f t (Some (nid m)) x) as [tc|]; [|discriminate]. cbn [bind].
    destruct (incr_it tc (Some (nid m))) as [nx|]; [|discriminate]. cbn [bind].
    destruct (m_handle_left_combined X k M tc (Some (nid m))) as [th|]; [|discriminate]. cbn [bind].
    intros [= -> ->].
    assert (Oq : over k a q). { rewrite Forall_forall in ON'. apply ON'. apply in_app_iff. cbn. auto. }
    destruct Oq as [Oq1 Oq2].
    assert (Hqm : cltb (lc (nkey q)) (uc (nkey m)) = false).
    { pose proof ARm as ARm'. apply above_app in ARm'. destruct ARm' as [_ ARm']. rewrite above_cons in ARm'. tauto. }
    assert (Eu : cltb (uc (nkey m)) (uc a) = true) by cord.
    eapply throws_impl; [apply (IH fuel t2 L2 q R (uc (nkey m))); auto|].
    + cbn in HF. lia.
    + apply above_app in ARm. destruct ARm as [A1 A2]. rewrite above_cons in A2. rewrite above_app, above_cons.
      conjs; auto using above_nil; tauto.
    + intros t' [I3 A3]. split; auto. eapply (amid_trans _ _ (uc (nkey m))); [| | |exact A3]; [cord|cord|].
      eapply (skip_front X k HX M _ _ L m (N ++ q :: R)); eauto.
Qed.
Lemma subtract_throws_ f (t : tree) a x : minv t -> ne a -> throws (cm_subtract_ X k M f t a x) (apartial a (gsub M f x) (nodes t)).
Proof.
  intros Hm Na. pose proof Hm as [[W S] HJ]. unfold cm_subtract_. rewrite (ne_e X k HX a) by auto. destruct (is_absorbable M x) eqn:Ex; [apply throws_ret|].
  destruct (decomp X k HX a (nodes t) S Na) as (L & N & R & E & BL & ON & AR).
  rewrite (equal_range_at X k HX M t L N R) by auto. apply throws_ok.
  rewrite (iter_eqb_hd X t L N R) by auto.
  destruct N as [|m N'] eqn:EN; [apply throws_ret|].
  rewrite <- EN in E. assert (NN : N <> []) by (rewrite EN; discriminate).
  destruct (M_ends N NN) as (? & ? & Q & q & EN' & EQ). rewrite EN in EN'. injection EN' as <- <-.
  rewrite (decr_hd X t (L ++ Q) q R) by (auto; rewrite E, EQ; lst). apply throws_ok. cbn [app]. cbn [Tree.hd_it].
  assert (Em : nodes t = L ++ m :: (N' ++ R)) by (rewrite E, EN; auto).
  inversion ON as [|? ? Om ON']; subst x0 l. rewrite EN in EQ.
  apply (front_then t L m N' R a); auto.
  intros Q' q' EQ' t1 L1 Q1 q1 I1 E1 Eq1 EH J1 J2 B1 O1 A1.
  assert (q' = q) by (rewrite EQ in EQ'; apply app_inj_tail in EQ'; destruct EQ'; auto). subst q'.
  rewrite <- EH, <- Eq1. unfold Seg.ne in Na. apply (sub_main_throws f x a Q1 Ex Na (Datatypes.S (List.length (nodes t1))) t1 L1 q1 R (lc a)); auto.
  rewrite E1, !app_length. cbn. lia.
Qed.
End CrashAdd.

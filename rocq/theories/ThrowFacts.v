(** What a throwing combination of values leaves of an interval map (proofs). *)
From Verif Require Export CrashAny ThrowModel.

Section ThrowFollows.
Context (X : dom) (k : kind) (M : mtype).
Notation CC := (mt_co M).
Notation I := (itv (D X)).
Notation imap := (tree (D X) (C CC)).
Lemma follows_combine f (t : imap) i x : follows (x_combine_at X M f t i x) (combine_at X M f t i x).
Proof.
  unfold x_combine_at. destruct (combine_at X M f t i x) as [t'|e].
  - exists 1. intros [|n]; (split; [try lia|try lia]); eauto. intros _. rewrite Nat.sub_succ, Nat.sub_0_r. auto.
  - exists 0. intros n. split; [auto|lia].
Qed.
Lemma throws_combine f (t : imap) i x (P : _ -> Prop) : P t -> throws (x_combine_at X M f t i x) P.
Proof. intros H n t'. unfold x_combine_at. destruct (combine_at X M f t i x); try discriminate. destruct n; [|discriminate]. intros Q. inversion Q; subst; auto. Qed.
Ltac ag1 := match goal with
  | |- follows (cbind _ _) _ => apply follows_bind; [|intros]
  | |- follows (lift _) _ => apply follows_lift
  | |- follows (cret _) _ => apply follows_ret
  | |- follows (x_combine_at _ _ _ _ _ _) _ => apply follows_combine
  | |- follows (let '(_, _) := ?p in _) _ => destruct p
  | |- follows (if ?b then _ else _) _ => destruct b
  end.
Ltac ag := repeat (ag1; cbn zeta).

Lemma follows_x_segment f (t : imap) a x i : follows (xm_add_segment X k M f t a x i) (m_add_segment X k M f t a x i).
Proof. unfold xm_add_segment, m_add_segment. ag. Qed.
Lemma follows_x_main fuel f : forall (t : imap) a x i l, follows (xm_add_main X k M fuel f t a x i l) (m_add_main X k M fuel f t a x i l).
Proof.
  induction fuel as [|fuel IH]; intros; cbn [xm_add_main m_add_main]; [apply (follows_lift (Err Fuel))|].
  ag; [apply follows_x_segment|apply IH].
Qed.
Lemma follows_x_rear f (t : imap) a x i : follows (xm_add_rear X k M f t a x i) (m_add_rear X k M f t a x i).
Proof. unfold xm_add_rear, m_add_rear. ag. Qed.
Lemma follows_x_over f (t : imap) a x : follows (xm_add_over X k M f t a x) (m_add_over X k M f t a x).
Proof. unfold xm_add_over, m_add_over. ag; [apply follows_x_main|apply follows_x_rear]. Qed.
Lemma follows_x_add_ f (t : imap) a x : follows (xm_add_ X k M f t a x) (m_add_ X k M f t a x).
Proof. unfold xm_add_, m_add_. ag. apply follows_x_over. Qed.
Theorem follows_x_add (t : imap) a x : follows (xm_add X k M t a x) (m_add X k M t a x).
Proof. unfold xm_add, m_add. ag. apply follows_x_add_. Qed.
Lemma follows_x_add_at f (t : imap) h a x : follows (xm_add_at X k M f t h a x) (add_at X k M f t h a x).
Proof. unfold xm_add_at, add_at. ag. Qed.
Theorem follows_x_add_hint (t : imap) h a x : follows (xm_add_hint X k M t h a x) (m_add_hint X k M t h a x).
Proof. unfold xm_add_hint, m_add_hint, xm_add_hint_, m_add_hint_. ag; [apply follows_x_add_at|apply follows_x_over]. Qed.
Lemma follows_x_sub_main fuel f : forall (t : imap) x i l, follows (xm_subtract_main X k M fuel f t x i l) (m_subtract_main X k M fuel f t x i l).
Proof.
  induction fuel as [|fuel IH]; intros; cbn [xm_subtract_main m_subtract_main]; [apply (follows_lift (Err Fuel))|]. ag. apply IH.
Qed.
Lemma follows_x_sub_rear f (t : imap) a x i : follows (xm_subtract_rear X k M f t a x i) (m_subtract_rear X k M f t a x i).
Proof. unfold xm_subtract_rear, m_subtract_rear. ag. Qed.
Theorem follows_x_subtract (t : imap) a x : follows (xm_subtract X k M t a x) (m_subtract X k M t a x).
Proof.
  unfold xm_subtract, m_subtract. ag; [apply follows_x_add_|]. unfold xm_subtract_, m_subtract_.
  ag; [apply follows_x_sub_main|apply follows_x_sub_rear].
Qed.
Theorem follows_x_add_map (t o : imap) : follows (xm_add_map X k M t o) (m_add_map X k M t o).
Proof.
  unfold xm_add_map, m_add_map. ag.
  apply (follows_cfold (fun '(t, prior_) n => xm_add_hint X k M t prior_ (nkey n) (nval n)) (fun '(t, prior_) n => m_add_hint X k M t prior_ (nkey n) (nval n))).
  intros [u i] b. apply follows_x_add_hint.
Qed.
Theorem follows_x_subtract_map (t o : imap) : follows (xm_subtract_map X k M t o) (m_subtract_map X k M t o).
Proof. apply follows_cfold. intros u b. apply follows_x_subtract. Qed.
Lemma follows_x_inter_seg (s t : imap) a x : follows (xm_add_intersection_seg X k M s t a x) (m_add_intersection_seg X k M s t a x).
Proof.
  unfold xm_add_intersection_seg, m_add_intersection_seg, m_total_add_intersection, xm_partial_add_intersection, m_partial_add_intersection.
  ag; [apply follows_x_add_map|apply follows_x_add|]. apply follows_cfold. intros u n. cbn zeta. ag; apply follows_x_add_.
Qed.
Lemma follows_x_inter_map (s t o : imap) : follows (xm_add_intersection_map X k M s t o) (m_add_intersection_map X k M s t o).
Proof.
  unfold xm_add_intersection_map, m_add_intersection_map. destruct (mt_total M); [ag; apply follows_x_add_map|]. destruct (nodes o); [ag|]. ag1; [ag|]. destruct a as [[lwb upb]|]; ag.
  apply follows_cfold. intros; apply follows_x_inter_seg.
Qed.
Lemma follows_x_inter_itv (s t : imap) a : follows (xm_add_intersection_itv X k M s t a) (m_add_intersection_itv X k M s t a).
Proof.
  unfold xm_add_intersection_itv, m_add_intersection_itv. ag.
  match goal with |- follows (cfold ?f _ _) (foldM ?g _ _) => apply (follows_cfold f g) end.
  intros [u j] n. cbn zeta. ag. apply follows_x_add_hint.
Qed.
Lemma follows_x_inter_set (s t : imap) o : follows (xm_add_intersection_set X k M s t o) (m_add_intersection_set X k M s t o).
Proof.
  unfold xm_add_intersection_set, m_add_intersection_set. destruct (nodes o); [ag|]. ag1; [ag|]. destruct a as [[lwb upb]|]; ag.
  apply follows_cfold. intros; apply follows_x_inter_itv.
Qed.
End ThrowFollows.

Section ThrowFacts.
Context (X : dom) (k : kind).
Context (HX : dom_ok X k).
Context (M : mtype).
Notation CC := (mt_co M).
Notation V := (C CC).
Context (Hco : forall v w : CC, cc_eq v w = true <-> v = w).
Notation I := (itv (D X)).
Notation node := (node (D X) V).
Notation tree := (tree (D X) V).
Notation lc := (lc X k).
Notation uc := (uc X k).
Notation cltb := (cltb X).
Notation ceqb := (ceqb X).
Notation cut := (cut X).
Notation ne := (@ne X k).
Notation hd_it := (@hd_it X V).
Notation last_it := (@last_it X V).
Notation spl := (spl M).
Notation J := (J X k M).
Notation minv := (minv X k M).
Notation post := (post k spl).
Ltac cord := cord_ X k HX.
Ltac lst := rewrite <- ?app_assoc; cbn [app]; congruence || auto.

(** between d and some f the values are changed by g; nothing else is changed *)
Definition xmid (d e : cut) (g : option V -> option V) (l l' : list node) : Prop :=
  (exists f, cltb f d = false /\ cltb e f = false /\ forall c, vr k l' c = if negb (cltb c d) && cltb c f then g (vr k l c) else vr k l c) /\
  kp k spl d e l l'.
Lemma xmid_same d e g l l' : cltb e d = false -> (forall c, vr k l' c = vr k l c) -> kp k spl d e l l' -> xmid d e g l l'.
Proof.
  intros A O K. split; auto. exists d. conjs; auto; [cord|]. intros c. rewrite O. destruct (cltb c d); auto.
Qed.
Lemma xmid_none d e g l : cltb e d = false -> xmid d e g l l.
Proof. intros A. apply xmid_same; auto. apply kp_refl. Qed.
Lemma xmid_trans d f e g l l1 l' : cltb f d = false -> cltb e f = false -> post d f g l l1 -> xmid f e g l1 l' -> xmid d e g l l'.
Proof.
  intros A B ((U & _) & _ & K) ((f' & F1 & F2 & H) & K'). split; [exists f'; conjs; [cord|auto|]|eapply (kp_trans X k HX); eauto].
  intros c. rewrite H, U. destruct (cltb c d) eqn:?, (cltb c f) eqn:?, (cltb c f') eqn:?; cbn; auto; cord.
Qed.
Lemma xmid_ceq d e d' e' g l l' : ceqb d d' = true -> ceqb e e' = true -> xmid d e g l l' -> xmid d' e' g l l'.
Proof.
  intros A B ((f' & F1 & F2 & H) & K'). split; [exists f'; conjs; [cord|cord|]|eapply (kp_ceq X k HX); eauto].
  intros c. replace (cltb c d') with (cltb c d) by cord. auto.
Qed.
Definition xpart (d e : cut) g (l : list node) (t' : tree) : Prop := inv k t' /\ xmid d e g l (nodes t').

(** dividing the last segment at the end of a, as add_rear and subtract_rear do *)
Lemma resid_at (t : tree) L q R a rr : inv k t -> nodes t = L ++ q :: R -> rr = left_subtract X k (nkey q) a -> ne a ->
  cltb (lc (nkey q)) (uc a) = true -> cltb (uc a) (uc (nkey q)) = true ->
  let kq := right_subtract X k (nkey q) rr in
  let p := Node (nid q) kq (nval q) in
  let tp := Tree (L ++ p :: R) (fresh t) in
  let r := Node (fresh t) rr (nval q) in
  let t2 := Tree (L ++ p :: r :: R) (S (fresh t)) in
  is_empty X k rr = false /\ set_key t (Some (nid q)) kq = Ok tp /\ val tp (Some (nid q)) = Ok (nval q) /\
  insert_hint X k tp (Some (nid q)) rr (nval q) = Ok (t2, Some (nid r)) /\ inv k t2 /\
  (J (q :: R) -> J (r :: R)) /\ (forall c, vr k (nodes t2) c = vr k (nodes t) c) /\
  (forall d, cltb d (uc a) = true -> kp k spl d (uc a) (nodes t) (nodes t2)).
Proof.
  intros Hi E Er Na O1 Eu'. cbv zeta. pose proof Na as Na'. unfold Seg.ne in Na'. pose proof Hi as [W S]. pose proof S as S'. rewrite E in S'.
  pose proof (srt_ne X k HX M _ _ _ S') as Nq. pose proof Nq as Nq'. unfold Seg.ne in Nq'.
  pose proof (MapFacts.srt_below X k HX M _ _ _ S') as BL. pose proof (MapFacts.srt_above X k HX M _ _ _ S') as ARq.
  destruct (lsub_ne X k HX (nkey q) a) as [Q1 Q2]; auto. rewrite <- Er in Q1, Q2.
  assert (Q2' : ceqb (uc rr) (uc (nkey q)) = true) by (rewrite Q2; cord).
  assert (Nr : ne rr) by (unfold Seg.ne; cord). pose proof Nr as Nr'. unfold Seg.ne in Nr'.
  destruct (rsub_ne X k HX (nkey q) rr) as [Q3 Q4]; auto; try cord.
  set (kq := right_subtract X k (nkey q) rr) in *.
  assert (Q3' : ceqb (lc kq) (lc (nkey q)) = true) by (rewrite Q3; cord).
  set (p := Node (nid q) kq (nval q)). set (tp := Tree (L ++ p :: R) (fresh t)).
  assert (Np : ne kq) by (unfold Seg.ne; cord). pose proof Np as Np'. unfold Seg.ne in Np'.
  assert (Ip : inv k tp).
  { split.
    - eapply (wf_ids X); [apply (wf_nodes X _ _ W E)|]. rewrite !ids_app, !ids_cons. auto.
    - cbn. pose proof S' as S''. apply (srt_mid X k HX) in S''. apply (srt_mid X k HX). cbn [nkey p].
      destruct S'' as (? & ? & ? & ? & ?). conjs; auto.
      + eapply (below_le X k HX); eauto. cord.
      + eapply (above_ge X k HX); eauto. cord. }
  pose proof Ip as [Wp Sp].
  assert (Bp : below k (L ++ [p]) (lc rr)).
  { eapply (below_snoc X k HX M); [apply Sp|]. cbn [nkey p]. cord. }
  assert (Ar : above k R (uc rr)) by (rewrite Q2; auto).
  set (r := Node (fresh t) rr (nval q)). set (t2 := Tree (L ++ p :: r :: R) (Datatypes.S (fresh t))).
  assert (EI : insert_hint X k tp (Some (nid p)) rr (nval q) = Ok (t2, Some (nid r))).
  { rewrite (insert_hint_new X k HX tp (L ++ [p]) R); auto; [|unfold tp; cbn [nodes]; lst|eapply isit_mid; reflexivity].
    unfold t2, r. do 3 f_equal. lst. }
  assert (I2 : inv k t2).
  { replace t2 with (Tree ((L ++ [p]) ++ r :: R) (Datatypes.S (fresh tp))) by (unfold t2; f_equal; lst).
    apply (MapFacts.inv_ins X k HX M tp (L ++ [p]) R rr (nval q)); auto. unfold tp; cbn [nodes]; lst. }
  destruct (divide X k HX L q p r R (uc a)) as [Sd Dd]; auto; try (cbn [nkey p r]; cord).
  conjs; auto.
  - apply (ne_e X k HX rr). auto.
  - rewrite (set_key_at X t L q R) by auto. auto.
  - change (Some (nid q)) with (Some (nid p)). rewrite (val_at X tp L p R) by auto. auto.
  - unfold MapFacts.J. destruct (mt_style M); auto. intros JR y z Hy Hz Q.
    assert (Sr : srt k (r :: R)). { change (L ++ p :: r :: R) with (L ++ [p] ++ (r :: R)) in Sd. rewrite app_assoc in Sd.
      apply (srt_app X k) in Sd. tauto. }
    pose proof (srt_in X k M _ y Sr Hy) as Ny. pose proof (srt_in X k M _ z Sr Hz) as Nz. unfold Seg.ne in Ny, Nz.
    cbn [In] in Hy, Hz. destruct Hy as [<-|Hy], Hz as [<-|Hz].
    + cord.
    + change (nval r) with (nval q). apply JR; cbn; auto. cbn [nkey r] in Q. cord.
    + unfold above in Ar. rewrite Forall_forall in Ar. specialize (Ar y Hy). cbn [nkey r] in Q. cord.
    + apply JR; cbn; auto.
  - intros c. rewrite E. apply Dd.
  - intros d Hd n Hn F. rewrite E in Hn. apply Dd; auto. unfold far in F. destruct spl, F; ((left; cord) || (right; cord)).
Qed.

(** add_rear without the gap in front of the last segment *)
Definition x_rear_tail f (t : tree) (inter_val cur_itv : I) co_val prior_ it_ : cm tree (tree * Tree.iter) :=
  let end_gap := left_subtract X k inter_val cur_itv in
  if negb (is_empty X k end_gap) then
    cbind (x_combine_at X M f t it_ co_val) (fun t =>
    lift (m_gap_insert_at X k M f t it_ prior_ end_gap co_val))
  else
    let right_resid := left_subtract X k cur_itv inter_val in
    if is_empty X k right_resid then
      cbind (x_combine_at X M f t it_ co_val) (fun t =>
      lift (m_handle_preceeded_combined X k M t prior_ it_))
    else
      cbind (lift (key t it_)) (fun ki =>
      cbind (lift (set_key t it_ (right_subtract X k ki right_resid))) (fun t =>
      cbind (lift (val t it_)) (fun v =>
      cbind (lift (insert_hint X k t it_ right_resid v)) (fun '(t, insertion_) =>
      cbind (lift (m_handle_reinserted X k M t insertion_)) (fun t =>
      cbind (x_combine_at X M f t it_ co_val) (fun t =>
      lift (m_handle_preceeded_combined X k M t insertion_ it_))))))).
Ltac comb := eapply throws_bind; [apply follows_combine|apply throws_combine|intros; apply throws_lift].

Lemma x_rear_tail_throws f (t : tree) L q R a x prior_ : inv k t -> nodes t = L ++ q :: R -> J (q :: R) ->
  ne a -> over k a q -> cltb (lc (nkey q)) (lc a) = false ->
  throws (x_rear_tail f t a (nkey q) x prior_ (Some (nid q))) (xpart (lc (nkey q)) (uc a) (gadd M f x) (nodes t)).
Proof.
  intros Hi E JR Na [O1 O2] Hq. pose proof Hi as [W S]. pose proof S as S'. rewrite E in S'.
  pose proof (srt_ne X k HX M _ _ _ S') as Nq. pose proof Na as Na'. pose proof Nq as Nq'. unfold Seg.ne in Na', Nq'.
  unfold x_rear_tail. cbv zeta.
  destruct (negb _) eqn:E1; [comb; split; auto; apply xmid_none; cord|].
  destruct (is_empty X k (left_subtract X k (nkey q) a)) eqn:E2; [comb; split; auto; apply xmid_none; cord|].
  assert (Eu' : cltb (uc a) (uc (nkey q)) = true). { destruct (cltb (uc a) (uc (nkey q))) eqn:Eu; auto. rewrite lsub_e in E2; auto; discriminate. }
  destruct (resid_at t L q R a _ Hi E eq_refl Na O1 Eu') as (_ & A1 & A2 & A3 & I2 & J2 & O & K).
  rewrite (key_at X t L q R) by auto. apply throws_ok. rewrite A1. apply throws_ok. rewrite A2. apply throws_ok. rewrite A3. apply throws_ok.
  set (kq := right_subtract X k (nkey q) _) in *. set (rr := left_subtract X k (nkey q) a) in *.
  rewrite hr_eq. set (r := Node (fresh t) rr (nval q)) in *. set (p := Node (nid q) kq (nval q)) in *. set (t2 := Tree (L ++ p :: r :: R) _) in *.
  assert (E2' : nodes t2 = (L ++ [p]) ++ r :: R) by (unfold t2; cbn [nodes]; lst).
  rewrite (jr_noop X k HX M t2 (L ++ [p]) r R) by auto. apply throws_ok.
  comb. split; auto. apply xmid_same; auto. cord.
Qed.
Lemma follows_gap f (t : tree) p a x : follows (T := tree) (cbind (lift (gap_insert X k M f t p a x)) (fun '(t, inserted_) => lift (m_handle_inserted2 X k M t p inserted_)))
  (' (t, inserted_) <- gap_insert X k M f t p a x ;; m_handle_inserted2 X k M t p inserted_).
Proof. apply follows_bind; [apply follows_lift|]. intros [u i]. apply follows_lift. Qed.
Lemma throws_gap f (t : tree) p a x (P : tree -> Prop) :
  throws (cbind (lift (gap_insert X k M f t p a x)) (fun '(t, inserted_) => lift (m_handle_inserted2 X k M t p inserted_))) P.
Proof. eapply throws_bind; [apply follows_lift|apply throws_lift|]. intros [u i] _. apply throws_lift. Qed.
Lemma x_rear_throws f (t : tree) L q R a x : inv k t -> nodes t = L ++ q :: R -> J L -> J (q :: R) ->
  ne a -> over k a q -> cltb (lc (nkey q)) (lc a) = false -> below k L (lc a) -> is_absorbable M x = false ->
  throws (xm_add_rear X k M f t a x (Some (nid q))) (xpart (lc a) (uc a) (gadd M f x) (nodes t)).
Proof.
  intros Hi E JL JR Na O Hq BL Ex. pose proof Hi as [W S]. pose proof S as S'. rewrite E in S'.
  pose proof (srt_ne X k HX M _ _ _ S') as Nq. pose proof Na as Na'. pose proof Nq as Nq'. unfold Seg.ne in Na', Nq'.
  pose proof O as [O1 O2].
  change (xm_add_rear X k M f t a x (Some (nid q))) with
   (cbind (lift (cyclic_prior t (Some (nid q)))) (fun prior_ =>
    cbind (lift (key t (Some (nid q)))) (fun cur_itv =>
    cbind (if negb (is_empty X k (right_subtract X k a cur_itv)) then
          cbind (lift (gap_insert X k M f t prior_ (right_subtract X k a cur_itv) x)) (fun '(t, inserted_) =>
          lift (m_handle_inserted2 X k M t prior_ inserted_))
        else cret t) (fun t =>
    x_rear_tail f t a cur_itv x prior_ (Some (nid q)))))).
  rewrite (mcyc X M t L q R) by auto. apply throws_ok. rewrite (key_at X t L q R) by auto. apply throws_ok.
  destruct (cltb (lc a) (lc (nkey q))) eqn:El.
  - destruct (rsub_ne X k HX a (nkey q)) as [Q1 Q2]; auto. set (lead := right_subtract X k a (nkey q)) in *.
    assert (Nl : ne lead) by (unfold Seg.ne; rewrite Q1; cord).
    rewrite (ne_e X k HX lead) by auto. cbn [negb].
    destruct (lead_at X k HX M Hco (gadd M f x) f t L q R lead x (last_it L)) as (t1 & L1 & EL & I1 & E1 & J1 & B1 & P1 & Po1); auto.
    { rewrite Q1. auto. } { cord. }
    eapply throws_bind; [apply follows_gap| |].
    { apply throws_gap. }
    cbv beta. rewrite EL. intros u [= <-].
    eapply throws_impl; [apply (x_rear_tail_throws f t1 L1 q R a x (last_it L)); auto|].
    intros t' [I2 A2]. split; auto. eapply (xmid_trans _ (lc (nkey q))); [| | |exact A2]; [cord|cord|].
    eapply (post_ceq X k HX); [| |exact Po1]; auto. rewrite Q1. cord.
  - assert (Ee : is_empty X k (right_subtract X k a (nkey q)) = true) by (apply rsub_e; auto).
    rewrite Ee. cbn [negb]. clear Ee.
    eapply throws_bind; [apply follows_ret|apply throws_ret|]. intros u [= <-].
    eapply throws_impl; [apply (x_rear_tail_throws f t L q R a x (last_it L)); auto|].
    intros t' [I2 A2]. split; auto. eapply xmid_ceq; [| |exact A2]; cord.
Qed.

Lemma follows_x_seg f (t : tree) i x :
  follows (T := tree) (cbind (x_combine_at X M f t i x) (fun t => cbind (lift (incr_it t i)) (fun next_ =>
             cbind (lift (m_handle_left_combined X k M t i)) (fun t => cret (t, next_)))))
    (t <- combine_at X M f t i x ;; next_ <- incr_it t i ;; t <- m_handle_left_combined X k M t i ;; Ok (t, next_)).
Proof.
  apply follows_bind; [apply follows_combine|]. intros tc. apply follows_bind; [apply follows_lift|]. intros nx.
  apply follows_bind; [apply follows_lift|]. intros th. apply follows_ret.
Qed.
Lemma throws_x_seg f (t : tree) i x (P : _ -> Prop) : P t ->
  throws (T := tree) (cbind (x_combine_at X M f t i x) (fun t => cbind (lift (incr_it t i)) (fun next_ =>
             cbind (lift (m_handle_left_combined X k M t i)) (fun t => cret (t, next_))))) P.
Proof.
  intros H. eapply throws_bind; [apply follows_combine|apply throws_combine; auto|intros].
  repeat (eapply throws_bind; [apply follows_lift|apply throws_lift|intros]). apply throws_ret.
Qed.
Lemma x_main_throws f x N : is_absorbable M x = false -> forall fuel (t : tree) L q R a,
  length N < fuel -> inv k t -> nodes t = L ++ N ++ q :: R -> J L -> J (N ++ q :: R) -> ne a ->
  below k L (lc a) -> Forall (over k a) (N ++ [q]) -> above k (N ++ [q]) (lc a) ->
  throws (cbind (xm_add_main X k M fuel f t a x (hd_it (N ++ q :: R)) (Some (nid q))) (fun '(t, rest, it_) =>
     xm_add_rear X k M f t rest x it_)) (xpart (lc a) (uc a) (gadd M f x) (nodes t)).
Proof.
  intros Ex. induction N as [|m N IH]; intros [|fuel] t L q R a HF Hi E JL JR Na BL ON AN; try (cbn in HF; lia).
  - cbn [xm_add_main app]. cbn [Tree.hd_it]. rewrite iter_eqb_refl. cbn [negb].
    eapply throws_bind; [apply follows_ret|apply throws_ret|]. intros u [= <-].
    cbn [app] in *. rewrite above_cons in AN. inversion ON; subst.
    apply (x_rear_throws f t L q R); tauto.
  - cbn [xm_add_main app]. cbn [Tree.hd_it]. pose proof Hi as [W S].
    assert (Em : nodes t = L ++ m :: (N ++ q :: R)) by (rewrite E; auto).
    pose proof (iter_eqb_hd X t L (m :: N) (q :: R) W E) as Q. cbn in Q.
    replace (iter_eqb (Some (nid m)) (Some (nid q))) with false by (symmetry; exact Q). cbn [negb].
    rewrite (key_at X t L m (N ++ q :: R)) by auto. apply throws_assoc, throws_ok.
    unfold xm_add_segment. rewrite (key_at X t L m (N ++ q :: R)) by auto. apply throws_assoc, throws_assoc, throws_ok. cbv zeta.
    inversion ON as [|? ? [Om1 Om2] ON']; subst. cbn [app] in AN. rewrite above_cons in AN. destruct AN as [Am AN].
    pose proof S as S'. rewrite Em in S'.
    pose proof (srt_ne X k HX M _ _ _ S') as Nm. pose proof Na as Na'. pose proof Nm as Nm'. unfold Seg.ne in Na', Nm'.
    pose proof (MapFacts.srt_above X k HX M _ _ _ S') as ARm. pose proof (MapFacts.srt_below X k HX M _ _ _ S') as BLm.
    set (lead := right_subtract X k a (nkey m)).
    assert (JM : J (N ++ q :: R)) by (eapply J_tl; eauto).
    assert (Oq : over k a q). { rewrite Forall_forall in ON'. apply ON'. apply in_app_iff. cbn. auto. }
    destruct Oq as [Oq1 Oq2].
    assert (Hqm : cltb (lc (nkey q)) (uc (nkey m)) = false).
    { pose proof ARm as ARm'. apply above_app in ARm'. destruct ARm' as [_ ARm']. rewrite above_cons in ARm'. tauto. }
    assert (Eu : cltb (uc (nkey m)) (uc a) = true) by cord.
    (* what follows the gap in front of m *)
    assert (CONT : forall (t1 : tree) L1 d, inv k t1 -> nodes t1 = L1 ++ m :: N ++ q :: R -> J L1 -> below k L1 (lc (nkey m)) ->
      cltb (lc (nkey m)) d = false -> cltb d (lc (nkey m)) = false ->
      throws (cbind (cbind (x_combine_at X M f t1 (Some (nid m)) x) (fun t =>
              cbind (lift (incr_it t (Some (nid m)))) (fun next_ =>
              cbind (lift (m_handle_left_combined X k M t (Some (nid m)))) (fun t => cret (t, next_)))))
          (fun y => cbind (let '(t, it_) := y in xm_add_main X k M fuel f t (left_subtract X k a (nkey m)) x it_ (Some (nid q))) (fun '(t, rest, it_) =>
     xm_add_rear X k M f t rest x it_))) (xpart d (uc a) (gadd M f x) (nodes t1))).
    { intros t1 L1 d I1 E1 J1 B1 D1 D2. pose proof I1 as [W1 S1].
      destruct (seg_at X k HX M Hco (gadd M f x) f t1 L1 m (N ++ q :: R) x I1 E1 J1 eq_refl)
        as (t2 & L2 & EQ & I2 & E2 & J2 & B2 & P2).
      eapply throws_bind; [apply follows_x_seg|apply throws_x_seg; split; auto; apply xmid_none; cord|].
      rewrite EQ. intros y [= <-].
      destruct (lsub_ne X k HX a (nkey m)) as [Q1 Q2]; auto.
      set (rest := left_subtract X k a (nkey m)) in *.
      assert (Q2' : ceqb (uc rest) (uc a) = true) by (rewrite Q2; cord).
      assert (Nr : ne rest) by (unfold Seg.ne in *; cord).
      assert (ARm' : above k (N ++ [q]) (lc rest)).
      { apply above_app in ARm. destruct ARm as [A1 A2]. rewrite above_cons in A2. rewrite above_app, above_cons.
        conjs; auto using above_nil; try cord. apply (above_ge X k HX _ _ _ A1). cord. }
      eapply throws_impl; [apply (IH fuel t2 L2 q R rest); auto|].
      + clear -HF. cbn in HF. lia.
      + eapply (below_le X k HX); eauto. cord.
      + assert (NN : nes k (N ++ [q])).
        { apply srt_nes in S'. unfold nes in *. rewrite Forall_app, Forall_cons_iff, Forall_app, Forall_cons_iff in S'.
          rewrite Forall_app, Forall_cons_iff. intuition. }
        unfold nes, above in *. rewrite Forall_forall in *. intros y Hy.
        specialize (ON' y Hy). specialize (ARm' y Hy). specialize (NN y Hy). destruct ON'.
        unfold over, Seg.ne in *. cord.
      + intros t' [I3 A3]. split; auto. eapply (xmid_trans _ (uc (nkey m))); [| | |eapply xmid_ceq; [| |exact A3]]; try cord.
        eapply (post_ceq X k HX); [| |exact P2]; cord. }
    destruct (cltb (lc a) (lc (nkey m))) eqn:El.
    + destruct (rsub_ne X k HX a (nkey m)) as [Q1 Q2]; auto. fold lead in Q1, Q2.
      assert (Nl : ne lead) by (unfold Seg.ne in *; rewrite Q1; cord).
      rewrite (ne_e X k HX lead) by auto. cbn [negb].
      assert (Hp : exists p, (if iter_eqb (Some (nid m)) (begin_ t) then Ok (Some (nid m)) else decr_it t (Some (nid m))) = Ok p /\
         (p = last_it L \/ L = [] /\ p = Some (nid m) /\ N ++ q :: R <> [])).
      { destruct L as [|p L] using rev_ind.
        - rewrite begin_at, Em. cbn [app]. cbn [Tree.hd_it]. rewrite iter_eqb_refl. eexists. split; [reflexivity|].
          right. conjs; auto. destruct N; discriminate.
        - clear IHL. replace (iter_eqb _ _) with false.
          + rewrite <- app_assoc in Em. cbn [app] in Em. rewrite (decr_at X t L p m (N ++ q :: R)) by auto.
            eexists. split; [reflexivity|]. left. rewrite last_it_app. auto.
          + pose proof (iter_eqb_hd X t [] (L ++ [p]) (m :: N ++ q :: R) W Em) as Q3. rewrite begin_at, Em.
            cbn [app] in *. destruct (L ++ [p]) eqn:EL; [destruct L; discriminate|]. cbn [app] in *. rewrite <- Q3.
            cbn. apply Nat.eqb_sym. }
      destruct Hp as (p & EP & Hp).
      destruct (lead_at X k HX M Hco (gadd M f x) f t L m (N ++ q :: R) lead x p) as (t1 & L1 & EL & I1 & E1 & J1 & B1 & _ & Po1); auto.
      { rewrite Q1. auto. } { cord. }
      apply throws_assoc, throws_assoc.
      match goal with |- throws (cbind (lift ?e) _) _ => replace e with (@Ok Tree.iter p) by (symmetry; exact EP) end. apply throws_ok.
      eapply throws_bind; [apply follows_gap| |].
      { apply throws_gap. }
      cbv beta. rewrite EL. intros u [= <-].
      eapply throws_impl; [apply (CONT t1 L1 (lc (nkey m))); auto; try cord|].
      { eapply (below_le X k HX); eauto. cord. }
      intros t' [I3 A3]. split; auto. eapply (xmid_trans _ (lc (nkey m))); [| | |exact A3]; [cord|cord|].
      eapply (post_ceq X k HX); [| |exact Po1]; auto. rewrite Q1. cord.
    + assert (is_empty X k lead = true) by (apply rsub_e; auto).
      rewrite H. cbn [negb]. apply throws_assoc. eapply throws_bind; [apply follows_ret|apply throws_ret|]. intros u [= <-].
      apply (CONT t L (lc a)); auto; cord.
Qed.

(** what an interrupted combination with a leaves: changed by g up to some f inside a, nothing else changed *)
Definition xpartial (a : I) g (l : list node) (t' : tree) : Prop := xpart (lc a) (uc a) g l t'.
Lemma xpartial_none a g (t : tree) : inv k t -> ne a -> xpartial a g (nodes t) t.
Proof. intros H N. unfold Seg.ne in N. split; auto. apply xmid_none. cord. Qed.
Lemma xpartial_ext a g g' l t' : (forall o, g o = g' o) -> xpartial a g l t' -> xpartial a g' l t'.
Proof. intros E (A & (f & F1 & F2 & H) & K). split; auto. split; auto. exists f. conjs; auto. intros c. rewrite H. destruct (negb _ && _); auto. Qed.
Lemma xpartial_apartial a g l t' : ne a -> xpartial a g l t' ->
  apartial X k M a g l t' /\ forall c, inr k a c = false -> vr k (nodes t') c = vr k l c.
Proof.
  intros Na (A & (f & F1 & F2 & H) & K). assert (O : forall c, inr k a c = false -> vr k (nodes t') c = vr k l c).
  { intros c Hc. rewrite H. unfold inr in Hc. destruct (cltb c (lc a)) eqn:?, (cltb c f) eqn:?; cbn; auto. exfalso. cord. }
  split; auto. split; auto. split; auto. exists f. conjs; auto. intros c. split; [|left; auto].
  intros Hc. rewrite H. unfold inr in Hc. apply andb_true_iff in Hc. destruct Hc as [-> _]. auto.
Qed.
(** add_front, then a part that may throw *)
Lemma x_front_then {A} (t : tree) L m N' R a g (rest : tree -> cm tree A) : minv t -> nodes t = L ++ m :: N' ++ R -> ne a -> over k a m -> below k L (lc a) ->
  Forall (over k a) N' ->
  (forall Q q, m :: N' = Q ++ [q] -> forall t1 L1 Q1 q1, inv k t1 -> nodes t1 = L1 ++ Q1 ++ q1 :: R -> nid q1 = nid q -> hd_it (Q1 ++ q1 :: R) = Some (nid m) ->
     J L1 -> J (Q1 ++ q1 :: R) -> below k L1 (lc a) -> Forall (over k a) (Q1 ++ [q1]) -> above k (Q1 ++ [q1]) (lc a) ->
     throws (rest t1) (xpart (lc a) (uc a) g (nodes t1))) ->
  throws (cbind (lift (m_add_front X k M t a (Some (nid m)))) rest) (xpartial a g (nodes t)).
Proof.
  intros Hm Em Na Om BL ON H. pose proof Hm as [[W S] HJ].
  assert (NN : m :: N' <> []) by discriminate.
  destruct (M_ends _ NN) as (? & ? & Q & q & EN' & EQ). injection EN' as <- <-.
  destruct (front_at_kept X k HX M t L m (N' ++ R) a Hm Em Na Om BL) as
    (t1 & L1 & m1 & -> & I1 & E1 & Ei & Ev & J1 & J2 & B1 & O1 & Al & Eu & PT & KP & OB & ML). apply throws_ok.
  assert (LS : exists Q1 q1, m1 :: N' = Q1 ++ [q1] /\ nid q1 = nid q).
  { destruct Q as [|p Q]; cbn in EQ; injection EQ as Ea Eb; subst.
    - exists [], m1. auto.
    - exists (m1 :: Q), q. auto. }
  destruct LS as (Q1 & q1 & EQ1 & Eq1).
  pose proof I1 as [W1 S1]. rewrite E1 in S1.
  pose proof (MapFacts.srt_above X k HX M _ _ _ S1) as A1.
  assert (EL : L1 ++ m1 :: N' ++ R = L1 ++ Q1 ++ q1 :: R).
  { change (m1 :: N' ++ R) with ((m1 :: N') ++ R). rewrite EQ1. lst. }
  assert (HE : hd_it (Q1 ++ q1 :: R) = Some (nid m)).
  { apply app_inv_head in EL. rewrite <- EL. cbn. congruence. }
  assert (TR : forall c, vr k (nodes t1) c = vr k (nodes t) c) by (intros c; apply OB).
  eapply throws_impl; [apply (H Q q EQ t1 L1 Q1 q1)|]; auto.
  - congruence.
  - change (m1 :: N' ++ R) with ((m1 :: N') ++ R) in J2. rewrite EQ1, <- app_assoc in J2. auto.
  - rewrite <- EQ1. constructor; auto.
  - rewrite <- EQ1. rewrite above_cons. split; auto. apply above_app in A1. destruct A1 as [A1 _].
    pose proof (srt_ne X k HX M _ _ _ S1) as N1. destruct O1. unfold Seg.ne in *. eapply (above_ge X k HX); eauto. cord.
  - intros t' [I3 [(f & F1 & F2 & HC) K]]. split; auto. split; [|eapply kp_step; eauto]. exists f. conjs; auto. intros c. rewrite HC, TR. auto.
Qed.
Lemma x_over_throws f (t : tree) L N R a x : minv t -> nodes t = L ++ N ++ R -> ne a -> N <> [] ->
  below k L (lc a) -> Forall (over k a) N -> above k R (uc a) -> is_absorbable M x = false ->
  throws (xm_add_over X k M f t a x) (xpartial a (gadd M f x) (nodes t)).
Proof.
  intros Hm E Na NN BL ON AR Ex. pose proof Hm as [[W S] HJ].
  destruct (M_ends N NN) as (m & N' & Q & q & EN & EQ).
  unfold xm_add_over.
  rewrite (lower_bound_at X k HX t L (N ++ R)); auto.
  2:{ apply (overl_MR X k HX); auto. rewrite E in S. apply (srt_app X k) in S. tauto. }
  apply throws_ok. rewrite (upper_bound_at X k HX t L N R) by auto. apply throws_ok.
  rewrite (decr_hd X t (L ++ Q) q R) by (auto; rewrite E, EQ; lst). apply throws_ok.
  rewrite EN. cbn [app]. cbn [Tree.hd_it].
  assert (Em : nodes t = L ++ m :: (N' ++ R)) by (rewrite E, EN; auto).
  rewrite EN in ON, EQ. inversion ON as [|? ? Om ON']; subst x0 l.
  apply (x_front_then t L m N' R a); auto.
  intros Q' q' EQ' t1 L1 Q1 q1 I1 E1 Eq1 EH J1 J2 B1 O1 A1.
  assert (q' = q) by (rewrite EQ in EQ'; apply app_inj_tail in EQ'; destruct EQ'; auto). subst q'.
  rewrite <- EH, <- Eq1. apply (x_main_throws f x Q1 Ex (Datatypes.S (List.length (nodes t1))) t1 L1 q1 R a); auto.
  rewrite E1, !app_length. cbn. lia.
Qed.
Lemma x_add_throws_ f (t : tree) a x : minv t -> ne a -> throws (xm_add_ X k M f t a x) (xpartial a (gadd M f x) (nodes t)).
Proof.
  intros Hm Na. pose proof Hm as [[W S] HJ]. unfold xm_add_. rewrite (ne_e X k HX a) by auto. destruct (is_absorbable M x) eqn:Ex; [apply throws_ret|].
  destruct (decomp X k HX a (nodes t) S Na) as (L & N & R & E & BL & ON & AR).
  destruct N as [|m N].
  - cbn [app] in E. rewrite (insert_new X k HX t L R) by auto. apply throws_ok. apply throws_lift.
  - cbn [app] in E. rewrite (insert_old X k HX t L m (N ++ R)); auto.
    2:{ inversion ON; auto. }
    apply throws_ok. apply (x_over_throws f t L (m :: N) R); auto. discriminate.
Qed.
(** With a hint: as without, or only a segment with the identity element was inserted. *)
Lemma x_add_hint_thrown (t : tree) h a x n t' : minv t -> isit t h -> xm_add_hint X k M t h a x n = Thrown t' ->
  ne a /\ (t' = t \/ xm_add X k M t a x n = Thrown t' \/
    exists L R, nodes t = L ++ R /\ below k L (lc a) /\ above k R (uc a) /\ t' = Tree (L ++ Node (fresh t) a cc_zero :: R) (S (fresh t))).
Proof.
  intros Hm Hh. pose proof Hm as [[W S] HJ]. unfold xm_add_hint, xm_add_hint_. destruct (is_empty X k a) eqn:Ea; [discriminate|].
  pose proof (proj2 (ne_iff X k HX a) Ea) as Na. destruct (is_absorbable M x) eqn:Ex; [discriminate|]. intros H. split; auto.
  destruct (decomp X k HX a (nodes t) S Na) as (L & N & R & E & BL & ON & AR).
  unfold xm_add_at in H. rewrite Ex in H. cbn [negb assert] in H.
  destruct N as [|m N].
  - cbn [app] in E. right. right. exists L, R. conjs; auto.
    rewrite (insert_hint_new X k HX t L R) in H by auto. unfold cbind, lift in H.
    set (nd := Node (fresh t) a cc_zero) in *. set (t1 := Tree _ _) in *.
    assert (I1 : inv k t1) by (apply (MapFacts.inv_ins X k HX M); auto; split; auto). pose proof I1 as [W1 S1].
    change (Some (fresh t)) with (Some (nid nd)) in H.
    rewrite (deref_at X t1 L nd R) in H by auto. cbn [nkey nval nd] in H. rewrite (itv_eqb_refl' X k HX a Na), (cc_eqb_refl M Hco) in H. cbn [andb] in H.
    change (fresh t) with (nid nd) in H. unfold x_combine_at in H. rewrite (combine_at_at X M _ t1 L nd R) in H by auto.
    destruct n; [inversion H; auto|]. unfold cret in H. match type of H with match ?e with _ => _ end = _ => destruct e end; discriminate.
  - cbn [app] in E. rewrite (insert_hint_old X k HX t L m (N ++ R)) in H; auto.
    2:{ inversion ON; auto. }
    unfold cbind at 1 2 3 4 in H. unfold lift at 1 2 3 in H. rewrite (deref_at X t L m (N ++ R)) in H by auto.
    destruct (itv_eqb X k (nkey m) a && cc_eq (nval m) cc_zero).
    + left. unfold cbind, x_combine_at in H. destruct (combine_at X M (codomain_combine M) t (Some (nid m)) x); [|discriminate].
      destruct n; [inversion H; auto|]. unfold cret, lift in H. match type of H with match ?e with _ => _ end = _ => destruct e end; discriminate.
    + right. left. unfold cret in H. unfold xm_add, xm_add_. rewrite Ea, Ex. rewrite (insert_old X k HX t L m (N ++ R)); auto; [|inversion ON; auto].
      unfold cbind, lift. rewrite H. auto.
Qed.

(* ------------------------------------------------------------ subtraction *)
Lemma x_sub_rear_throws f (t : tree) L q R a x d : inv k t -> nodes t = L ++ q :: R ->
  ne a -> over k a q -> cltb (lc (nkey q)) (lc a) = false -> cltb d (uc a) = true ->
  throws (xm_subtract_rear X k M f t a x (Some (nid q))) (xpart d (uc a) (gsub M f x) (nodes t)).
Proof.
  intros Hi E Na [O1 O2] Hq DE. pose proof Hi as [W S]. pose proof S as S'. rewrite E in S'.
  pose proof (srt_ne X k HX M _ _ _ S') as Nq. pose proof Na as Na'. pose proof Nq as Nq'. unfold Seg.ne in Na', Nq'.
  unfold xm_subtract_rear. rewrite (key_at X t L q R) by auto. apply throws_ok. cbv zeta.
  destruct (is_empty X k (left_subtract X k (nkey q) a)) eqn:E2; [comb; split; auto; apply xmid_none; cord|].
  assert (Eu' : cltb (uc a) (uc (nkey q)) = true). { destruct (cltb (uc a) (uc (nkey q))) eqn:Eu; auto. rewrite lsub_e in E2; auto; discriminate. }
  destruct (resid_at t L q R a _ Hi E eq_refl Na O1 Eu') as (_ & A1 & A2 & A3 & I2 & J2 & O & K).
  rewrite A1. apply throws_ok. rewrite A2. apply throws_ok. rewrite A3. apply throws_ok.
  comb. split; auto. apply xmid_same; auto. cord.
Qed.
Lemma x_sub_main_throws f x a N : is_absorbable M x = false -> ne a -> forall fuel (t : tree) L q R d,
  length N < fuel -> inv k t -> nodes t = L ++ N ++ q :: R -> J L -> cltb d (uc a) = true ->
  below k L d -> Forall (over k a) (N ++ [q]) -> above k (N ++ [q]) d -> above k (N ++ [q]) (lc a) ->
  throws (cbind (xm_subtract_main X k M fuel f t x (hd_it (N ++ q :: R)) (Some (nid q))) (fun '(t, it_) =>
     xm_subtract_rear X k M f t a x it_)) (xpart d (uc a) (gsub M f x) (nodes t)).
Proof.
  intros Ex Na. pose proof Na as Na'. unfold Seg.ne in Na'.
  induction N as [|m N IH]; intros [|fuel] t L q R d HF Hi E JL DE BL ON AN AL; try (cbn in HF; lia).
  - cbn [xm_subtract_main app]. cbn [Tree.hd_it]. rewrite iter_eqb_refl. cbn [negb].
    eapply throws_bind; [apply follows_ret|apply throws_ret|]. intros u [= <-].
    cbn [app] in *. rewrite above_cons in AN, AL. inversion ON; subst.
    apply (x_sub_rear_throws f t L q R a x d); tauto.
  - cbn [xm_subtract_main app]. cbn [Tree.hd_it]. pose proof Hi as [W S].
    assert (Em : nodes t = L ++ m :: (N ++ q :: R)) by (rewrite E; auto).
    pose proof (iter_eqb_hd X t L (m :: N) (q :: R) W E) as Q. cbn in Q.
    replace (iter_eqb (Some (nid m)) (Some (nid q))) with false by (symmetry; exact Q). cbn [negb].
    inversion ON as [|? ? [Om1 Om2] ON']; subst. cbn [app] in AN, AL. rewrite above_cons in AN, AL.
    destruct AN as [Am AN], AL as [Al AL].
    pose proof S as S'. rewrite Em in S'.
    pose proof (srt_ne X k HX M _ _ _ S') as Nm. pose proof Nm as Nm'. unfold Seg.ne in Nm'.
    pose proof (MapFacts.srt_above X k HX M _ _ _ S') as ARm.
    destruct (seg_at X k HX M Hco (gsub M f x) f t L m (N ++ q :: R) x Hi Em JL eq_refl)
      as (t2 & L2 & EQ & I2 & E2 & J2 & B2 & P2).
    apply throws_assoc. eapply throws_bind; [apply follows_combine|apply throws_combine; split; auto; apply xmid_none; cord|]. intros tc Ec.
    revert EQ. rewrite Ec. cbn [bind].
    destruct (incr_it tc (Some (nid m))) as [nx|]; [|discriminate]. cbn [bind].
    destruct (m_handle_left_combined X k M tc (Some (nid m))) as [th|] eqn:Eh; [|discriminate]. cbn [bind].
    intros [= -> ->]. apply throws_assoc, throws_ok, throws_assoc, throws_ok.
    assert (Oq : over k a q). { rewrite Forall_forall in ON'. apply ON'. apply in_app_iff. cbn. auto. }
    destruct Oq as [Oq1 Oq2].
    assert (Hqm : cltb (lc (nkey q)) (uc (nkey m)) = false).
    { pose proof ARm as ARm'. apply above_app in ARm'. destruct ARm' as [_ ARm']. rewrite above_cons in ARm'. tauto. }
    assert (Eu : cltb (uc (nkey m)) (uc a) = true) by cord.
    eapply throws_impl; [apply (IH fuel t2 L2 q R (uc (nkey m))); auto|].
    + cbn in HF. lia.
    + apply above_app in ARm. destruct ARm as [A1 A2]. rewrite above_cons in A2. rewrite above_app, above_cons.
      conjs; auto using above_nil; tauto.
    + intros t' [I3 A3]. split; auto. eapply (xmid_trans _ (uc (nkey m))); [| | |exact A3]; [cord|cord|].
      eapply (skip_front X k HX M _ _ L m (N ++ q :: R)); eauto.
Qed.
Lemma x_subtract_throws_ f (t : tree) a x : minv t -> ne a -> throws (xm_subtract_ X k M f t a x) (xpartial a (gsub M f x) (nodes t)).
Proof.
  intros Hm Na. pose proof Hm as [[W S] HJ]. unfold xm_subtract_. rewrite (ne_e X k HX a) by auto. destruct (is_absorbable M x) eqn:Ex; [apply throws_ret|].
  destruct (decomp X k HX a (nodes t) S Na) as (L & N & R & E & BL & ON & AR).
  rewrite (equal_range_at X k HX t L N R) by auto. apply throws_ok.
  rewrite (iter_eqb_hd X t L N R) by auto.
  destruct N as [|m N'] eqn:EN; [apply throws_ret|].
  rewrite <- EN in E. assert (NN : N <> []) by (rewrite EN; discriminate).
  destruct (M_ends N NN) as (? & ? & Q & q & EN' & EQ). rewrite EN in EN'. injection EN' as <- <-.
  rewrite (decr_hd X t (L ++ Q) q R) by (auto; rewrite E, EQ; lst). apply throws_ok. cbn [app]. cbn [Tree.hd_it].
  assert (Em : nodes t = L ++ m :: (N' ++ R)) by (rewrite E, EN; auto).
  inversion ON as [|? ? Om ON']; subst x0 l. rewrite EN in EQ.
  apply (x_front_then t L m N' R a); auto.
  intros Q' q' EQ' t1 L1 Q1 q1 I1 E1 Eq1 EH J1 J2 B1 O1 A1.
  assert (q' = q) by (rewrite EQ in EQ'; apply app_inj_tail in EQ'; destruct EQ'; auto). subst q'.
  rewrite <- EH, <- Eq1. unfold Seg.ne in Na. apply (x_sub_main_throws f x a Q1 Ex Na (Datatypes.S (List.length (nodes t1))) t1 L1 q1 R (lc a)); auto.
  rewrite E1, !app_length. cbn. lia.
Qed.

(* ------------------------------------------------------------------- any argument *)
Lemma x_add_thrown_ f (t : tree) a x n t' : minv t -> xm_add_ X k M f t a x n = Thrown t' -> ne a /\ xpartial a (ga M f x) (nodes t) t'.
Proof.
  intros Hm H. destruct (is_empty X k a) eqn:Ea. { unfold xm_add_ in H. rewrite Ea in H. discriminate. }
  pose proof (proj2 (ne_iff X k HX a) Ea) as Na. split; auto.
  assert (Ex : is_absorbable M x = false). { destruct (is_absorbable M x) eqn:Ex; auto. unfold xm_add_ in H. rewrite Ea, Ex in H. discriminate. }
  apply x_add_throws_ in H; auto. eapply xpartial_ext; [|exact H]. intros o. unfold ga. rewrite Ex. auto.
Qed.
Lemma x_add_thrown (t : tree) a x n t' : minv t -> xm_add X k M t a x n = Thrown t' -> ne a /\ xpartial a (ga M (codomain_combine M) x) (nodes t) t'.
Proof. intros Hm H. apply bind_fst_thrown in H. eapply x_add_thrown_; eauto. Qed.
Lemma x_subtract_thrown (t : tree) a x n t' : minv t -> xm_subtract X k M t a x n = Thrown t' -> ne a /\ xpartial a (gsubt M x) (nodes t) t'.
Proof.
  intros Hm H. unfold xm_subtract, gsubt in *. destruct (is_total_invertible M). { apply bind_fst_thrown in H. eapply x_add_thrown_; eauto. }
  destruct (is_empty X k a) eqn:Ea. { unfold xm_subtract_ in H. rewrite Ea in H. discriminate. }
  pose proof (proj2 (ne_iff X k HX a) Ea) as Na. split; auto.
  assert (Ex : is_absorbable M x = false). { destruct (is_absorbable M x) eqn:Ex; auto. unfold xm_subtract_ in H. rewrite Ea, Ex in H. discriminate. }
  apply x_subtract_throws_ in H; auto. eapply xpartial_ext; [|exact H]. intros o. unfold gs. rewrite Ex. auto.
Qed.
Lemma x_add_hint_inv (t : tree) h a x n t' : minv t -> isit t h -> xm_add_hint X k M t h a x n = Thrown t' -> inv k t'.
Proof.
  intros Hm Hh H. apply x_add_hint_thrown in H; auto. destruct H as (Na & [->|[H|(L & R & E & B & A & ->)]]); [apply Hm| |].
  - apply x_add_thrown in H; auto. apply H.
  - apply (MapFacts.inv_ins X k HX M); auto. apply Hm.
Qed.
Lemma xpartial_aok a g l t' : ne a -> gok M g -> xpartial a g l t' -> aok X k M l -> aok X k M (nodes t').
Proof. intros Na G H. apply xpartial_apartial in H; auto. eapply apartial_aok; eauto. apply H. Qed.
End ThrowFacts.

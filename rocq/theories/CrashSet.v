(** What an exception leaves of an interval set (proofs). *)
From Verif Require Export CrashFacts.

Section CrashSet.
Context (X : dom) (k : kind).
Context (HX : dom_ok X k).
Notation I := (itv (D X)).
Notation node := (node (D X) unit).
Notation tree := (tree (D X) unit).
Notation lc := (lc X k).
Notation uc := (uc X k).
Notation cltb := (cltb X).
Notation ceqb := (ceqb X).
Notation ne := (@ne X k).
Notation hd_it := (@hd_it X unit).
Notation last_it := (@last_it X unit).
Notation sinv := (sinv X k).
Ltac cord := cord_ X k HX.
Ltac lst := rewrite <- ?app_assoc; cbn [app]; congruence || auto.
Ltac bnorm := cbn [Rb Lb intr app nkey]; rewrite ?Rb_app, ?Lb_app, ?intr_app; cbn [Rb Lb intr app nkey].

(** P is between M and M with a added: nothing new outside a, nothing of M inside a lost *)
Definition part (a : I) (M P : list node) : Prop := forall c,
  (Rb k P c = true -> Rb k M c = true \/ inr k a c = true) /\ (Rb k M c = true -> inr k a c = true -> Rb k P c = true).
Lemma part_refl a M : part a M M.
Proof. intros c. auto. Qed.

Lemma lead_gap_at (t : tree) L q R a : inv k t -> nodes t = L ++ q :: R -> ne a -> below k L (lc a) -> over k a q ->
  exists t1 G, (if negb (is_empty X k (right_subtract X k a (nkey q)))
              then ' (t0, _) <- insert_hint X k t (last_it L) (right_subtract X k a (nkey q)) tt;; Ok t0 else Ok t) = Ok t1 /\
              inv k t1 /\ nodes t1 = L ++ G ++ q :: R /\
              ((G = [] /\ cltb (lc a) (lc (nkey q)) = false) \/
               exists g, G = [g] /\ cltb (lc a) (lc (nkey q)) = true /\
               ceqb (lc (nkey g)) (lc a) = true /\ ceqb (uc (nkey g)) (lc (nkey q)) = true).
Proof.
  intros Hi E Na BL [Oq1 Oq2]. pose proof Hi as [W S].
  pose proof S as S'. rewrite E in S'. apply (srt_mid X k HX) in S'. destruct S' as (SL & SR & Nq & BLq & ARq).
  set (lead := right_subtract X k a (nkey q)).
  destruct (cltb (lc a) (lc (nkey q))) eqn:El.
  - destruct (rsub_ne X k HX a (nkey q)) as [Q1 Q2]; auto. fold lead in Q1, Q2.
    assert (Nl : ne lead) by (unfold Seg.ne in *; rewrite Q1; cord).
    rewrite (ne_e X k HX lead) by auto. cbn [negb].
    assert (B1 : below k L (lc lead)) by (rewrite Q1; auto).
    assert (A1 : above k (q :: R) (uc lead)).
    { rewrite above_cons. split; [cord|]. apply (above_ge X k HX R _ _ ARq). unfold Seg.ne in *. cord. }
    rewrite (insert_hint_new X k HX t L (q :: R)); auto. 2:{ eapply isit_last; eauto. }
    cbn [bind]. eexists _, [_]. split; [reflexivity|]. split; [apply inv_new; auto|].
    cbn [nodes]. split; [reflexivity|]. right. eexists. split; [reflexivity|]. cbn [nkey]. rewrite Q1. conjs; auto; cord.
  - assert (is_empty X k lead = true) by (apply rsub_e; auto).
    rewrite H. exists t, []. conjs; auto.
Qed.
Lemma follows_cond (b : bool) (t : tree) h l : follows (T := tree) (if b then cbind (c_insert_hint X k t h l tt) (fun '(t0, _) => cret t0) else cret t)
  (if b then ' (t0, _) <- insert_hint X k t h l tt;; Ok t0 else Ok t).
Proof. destruct b; [|apply follows_ret]. apply follows_bind; [apply follows_insert_hint|]. intros [t0 i]. apply follows_ret. Qed.
Lemma throws_cond (b : bool) (t : tree) h l (P : tree -> Prop) : P t -> throws (if b then cbind (c_insert_hint X k t h l tt) (fun '(t0, _) => cret t0) else cret t) P.
Proof.
  intros H. destruct b; [|apply throws_ret]. eapply throws_bind; [apply follows_insert_hint|apply throws_insert_hint; auto|]. intros [t0 i] _. apply throws_ret.
Qed.

Lemma rear_throws (t : tree) L q R a : inv k t -> nodes t = L ++ q :: R -> ne a ->
  below k L (lc a) -> above k R (uc a) -> over k a q -> cltb (lc (nkey q)) (lc a) = false ->
  throws (c_add_rear X k t a (Some (nid q))) (fun t' => inv k t' /\ exists P, nodes t' = L ++ P ++ R /\ part a [q] P).
Proof.
  intros Hi E Na BL AR [Oq1 Oq2] Hq. pose proof Hi as [W S].
  pose proof S as S'. rewrite E in S'. apply (srt_mid X k HX) in S'. destruct S' as (SL & SR & Nq & BLq & ARq).
  unfold c_add_rear. rewrite (cyc_node X t L q R) by auto. apply throws_ok.
  rewrite (key_at X t L q R) by auto. apply throws_ok. cbn zeta.
  destruct (lead_gap_at t L q R a) as (t1 & G & HE & I1 & E1 & HG); auto. { split; auto. }
  eapply throws_bind; [apply follows_cond|apply throws_cond; split; auto; exists [q]; split; [rewrite E; auto|apply part_refl]|].
  intros u Eu. rewrite HE in Eu. injection Eu as <-. pose proof I1 as [W1 S1].
  assert (P1 : part a [q] (G ++ [q])).
  { clear - HX HG Oq1 Oq2 Nq Na. intros c. destruct HG as [[-> _]|(g & -> & HG1 & HG2 & HG3)]; bnorm; unfold inr, Seg.ne in *; split; intros; rewrite ?orb_false_r in *; auto; cord. }
  clear HE. destruct (negb (is_empty X k (left_subtract X k a (nkey q)))). { apply throws_insert_hint. split; auto. exists (G ++ [q]). split; auto. rewrite E1. lst. }
  destruct (cltb (uc a) (uc (nkey q))) eqn:Eu2.
  2:{ assert (H : is_empty X k (left_subtract X k (nkey q) a) = true) by (apply lsub_e; auto). rewrite H. cbn [negb]. apply throws_ret. }
  destruct (lsub_ne X k HX (nkey q) a) as [Q1 Q2]; auto.
  set (rr := left_subtract X k (nkey q) a) in *.
  assert (Q2' : ceqb (uc rr) (uc (nkey q)) = true) by (rewrite Q2; cord).
  assert (Nr : ne rr) by (unfold Seg.ne in *; rewrite Q2; cord).
  rewrite (ne_e X k HX rr) by auto. cbn [negb].
  assert (Eq : nodes t1 = (L ++ G) ++ q :: R) by (rewrite E1; lst).
  rewrite (key_at X t1 (L ++ G) q R) by auto. apply throws_ok.
  rewrite (set_key_at X t1 (L ++ G) q R) by auto. apply throws_ok.
  destruct (rsub_ne X k HX (nkey q) rr) as [Q3 Q4]; auto; try (unfold Seg.ne in *; cord).
  set (kq := right_subtract X k (nkey q) rr) in *.
  assert (Q3' : ceqb (lc kq) (lc (nkey q)) = true) by (rewrite Q3; cord).
  set (q1 := Node (nid q) kq (nval q)).
  set (t2 := Tree ((L ++ G) ++ q1 :: R) (fresh t1)).
  apply throws_insert_hint. split.
  - split.
    + eapply (wf_ids X); [apply (wf_nodes X _ _ W1 Eq)|]. rewrite !ids_app, !ids_cons. auto.
    + cbn. apply (srt_mid X k HX). cbn. rewrite Eq in S1. apply (srt_mid X k HX) in S1.
      destruct S1 as (Sa & Sb & Sc & Sd & Se). unfold Seg.ne in *. rewrite Q3. conjs; auto; try cord.
      apply (above_ge X k HX R _ _ ARq). cord.
  - exists (G ++ [q1]). split; [cbn; lst|]. intros c. specialize (P1 c). revert P1. bnorm. rewrite !orb_false_r. unfold q1. cbn [nkey].
    clear - HX HG Oq1 Oq2 Nq Na Q1 Q2 Q3 Q4 Q2' Q3'. destruct HG as [[-> _]|(g & -> & HG1 & HG2 & HG3)]; bnorm; rewrite ?orb_false_r; unfold inr, Seg.ne in *; intros [P1 P2]; split; intros; cord.
Qed.

Lemma main_throws M : forall fuel (t : tree) L q R a, length M < fuel -> inv k t -> nodes t = L ++ M ++ q :: R -> ne a ->
  below k L (lc a) -> above k R (uc a) -> Forall (over k a) (M ++ [q]) -> above k (M ++ [q]) (lc a) ->
  throws (cbind (c_add_main X k fuel t a (hd_it (M ++ q :: R)) (Some (nid q))) (fun '(t, rest, it_) => c_add_rear X k t rest it_))
    (fun t' => inv k t' /\ exists P, nodes t' = L ++ P ++ R /\ part a (M ++ [q]) P).
Proof.
  induction M as [|m M IH]; intros [|fuel] t L q R a HF Hi E Na BL AR OM AM; try (cbn in HF; lia).
  - cbn [c_add_main app]. cbn [Tree.hd_it]. rewrite iter_eqb_refl. cbn [negb].
    inversion OM; subst. inversion AM; subst. apply rear_throws; auto.
  - cbn [c_add_main app]. cbn [Tree.hd_it]. pose proof Hi as [W S].
    assert (Em : nodes t = L ++ m :: (M ++ q :: R)) by (rewrite E; auto).
    pose proof (iter_eqb_hd X t L (m :: M) (q :: R) W E) as Q. cbn in Q.
    cbn [iter_eqb]. rewrite Q. cbn [negb].
    rewrite (key_at X t L m (M ++ q :: R)) by auto.
    unfold c_add_segment. rewrite (key_at X t L m (M ++ q :: R)) by auto.
    rewrite (cyc_node X t L m (M ++ q :: R)) by auto.
    inversion OM as [|? ? [Om1 Om2] OM']; subst. cbn [app] in AM. rewrite above_cons in AM. destruct AM as [Am AM].
    pose proof S as S'. rewrite Em in S'. apply (srt_mid X k HX) in S'. destruct S' as (SL & SR & Nm & BLm & ARm).
    destruct (lead_gap_at t L m (M ++ q :: R) a) as (t1 & G & HE & I1 & E1 & HG); auto. { split; auto. }
    set (gap := if negb (is_empty X k (right_subtract X k a (nkey m)))
                then cbind (c_insert_hint X k t (last_it L) (right_subtract X k a (nkey m)) tt) (fun '(t0, _) => cret t0) else cret (T := tree) t).
    assert (step : throws (cbind gap (fun t => cbind (cbind (lift (incr_it t (Some (nid m)))) (fun it => cret (t, it))) (fun '(t, it_) =>
       cbind (c_add_main X k fuel t (left_subtract X k a (nkey m)) it_ (Some (nid q))) (fun '(t, rest, it_) => c_add_rear X k t rest it_))))
       (fun t' => inv k t' /\ exists P, nodes t' = L ++ P ++ R /\ part a (m :: M ++ [q]) P)).
    2:{ intros n u Hu. apply (step n u). rewrite <- Hu. clear. unfold gap, cbind, lift. unfold cret. destruct (negb (is_empty X k (right_subtract X k a (nkey m)))).
        - destruct (c_insert_hint X k t (last_it L) (right_subtract X k a (nkey m)) tt n) as [? [u0 ?]| |]; try reflexivity. destruct (incr_it u0 (Some (nid m))); reflexivity.
        - destruct (incr_it t (Some (nid m))); reflexivity. }
    eapply throws_bind; [apply follows_cond|apply throws_cond; split; auto; exists (m :: M ++ [q]); split; [rewrite E; cbn [app]; rewrite <- !app_assoc; reflexivity|apply part_refl]|].
    intros u Eu. rewrite HE in Eu. injection Eu as <-. clear HE gap. pose proof I1 as [W1 S1].
    rewrite (incr_at X t1 (L ++ G) m (M ++ q :: R)) by (auto; rewrite E1; lst).
    assert (Oq : over k a q). { rewrite Forall_forall in OM'. apply OM'. apply in_app_iff. cbn. auto. }
    destruct Oq as [Oq1 Oq2].
    assert (Hqm : cltb (lc (nkey q)) (uc (nkey m)) = false).
    { apply above_app in ARm. destruct ARm as [_ ARm]. rewrite above_cons in ARm. tauto. }
    assert (Eu : cltb (uc (nkey m)) (uc a) = true) by cord.
    destruct (lsub_ne X k HX a (nkey m)) as [Q1 Q2]; auto.
    set (rest := left_subtract X k a (nkey m)) in *.
    assert (Q2' : ceqb (uc rest) (uc a) = true) by (rewrite Q2; cord).
    assert (Nr : ne rest) by (unfold Seg.ne in *; cord).
    assert (BG : below k G (lc (nkey m))).
    { destruct HG as [[-> _]|(g & -> & HG1 & HG2 & HG3)]; [constructor|]. rewrite below_cons. split; [cord|constructor]. }
    assert (ARm' : above k (M ++ [q]) (lc rest)).
    { apply above_app in ARm. destruct ARm as [A1 A2]. rewrite above_cons in A2. rewrite above_app, above_cons.
      conjs; auto using above_nil; try cord. apply (above_ge X k HX _ _ _ A1). cord. }
    eapply throws_impl; [apply (IH fuel t1 (L ++ G ++ [m]) q R rest); auto|].
    + cbn in HF. lia.
    + rewrite E1. lst.
    + rewrite !below_app, below_cons. unfold Seg.ne in *. conjs; auto using below_nil; try cord.
      * apply (below_le X k HX _ _ _ BLm). cord.
      * apply (below_le X k HX _ _ _ BG). cord.
    + apply (above_ge X k HX _ _ _ AR). cord.
    + assert (NM : nes k (M ++ [q])).
      { apply srt_nes in SR. unfold nes in *. rewrite Forall_app in *. rewrite Forall_cons_iff in *.
        destruct SR as (? & ? & ?). repeat split; auto. }
      unfold nes, above in *. rewrite Forall_forall in *. intros x Hx.
      specialize (OM' x Hx). specialize (ARm' x Hx). specialize (NM x Hx). destruct OM'.
      unfold over, Seg.ne in *. cord.
    + intros t' (I' & P & EP & HP). split; auto. exists (G ++ m :: P). split; [rewrite EP; lst|].
      intros c. destruct (HP c) as [HP1 HP2].
      assert (B : Rb k (M ++ [q]) c = true -> cltb c (lc rest) = false).
      { intros B. apply Rb_iff in B. destruct B as (n & Hn & B). unfold above in ARm'. rewrite Forall_forall in ARm'. specialize (ARm' n Hn). unfold inr in B. clear - HX B ARm'. cord. }
      revert HP1 HP2 B. cbn [app]. bnorm. set (rm := Rb k M c). set (rp := Rb k P c). rewrite ?orb_false_r. 
      clear - HX HG Om1 Om2 Nm Na Q1 Q2 Q2' Nr. unfold inr, Seg.ne in *. 
      destruct HG as [[-> _]|(g & -> & HG1 & HG2 & HG3)]; cbn [Rb]; unfold inr; intros HP1 HP2 B; split; intros; destruct rm, rp; cbn in *; cord.
Qed.

Lemma over_throws (t : tree) L M R a : inv k t -> nodes t = L ++ M ++ R -> ne a -> M <> [] ->
  below k L (lc a) -> Forall (over k a) M -> above k R (uc a) -> forall Q q, M = Q ++ [q] ->
  throws (c_add_over X k Splitting t a (Some (nid q))) (fun t' => inv k t' /\ exists P, nodes t' = L ++ P ++ R /\ part a M P).
Proof.
  intros Hi E Na NM BL OM AR Q q EQ. pose proof Hi as [W S].
  destruct M as [|m M]; [congruence|]. clear NM.
  cbn [c_add_over].
  rewrite (lower_bound_at X k HX t L ((m :: M) ++ R)); auto.
  2:{ apply (overl_MR X k HX); auto. rewrite E in S. apply (srt_app X k) in S. tauto. }
  apply throws_ok. cbn [app Tree.hd_it].
  assert (Em : nodes t = L ++ m :: (M ++ R)) by (rewrite E; auto).
  inversion OM as [|? ? [Om1 Om2] OM']; subst.
  pose proof S as S'. rewrite Em in S'. apply (srt_mid X k HX) in S'. destruct S' as (SL & SR & Nm & BLm & ARm).
  assert (NQ : nes k M) by (apply srt_nes in SR; unfold nes in *; rewrite Forall_app in SR; tauto).
  assert (AM : above k M (lc a)).
  { rewrite above_app in ARm. destruct ARm as [A1 _]. apply (above_ge X k HX _ _ _ A1). cord. }
  destruct (cltb (lc (nkey m)) (lc a)) eqn:El.
  - destruct (rsub_ne X k HX (nkey m) a) as [Q1 Q2]; auto.
    set (lr := right_subtract X k (nkey m) a) in *.
    assert (Q1' : ceqb (lc lr) (lc (nkey m)) = true) by (rewrite Q1; cord).
    assert (Nl : ne lr) by (unfold Seg.ne in *; cord).
    destruct (lsub_ne X k HX (nkey m) lr) as [Q3 Q4]; auto; try (unfold Seg.ne in *; cord).
    set (km := left_subtract X k (nkey m) lr) in *.
    assert (Q4' : ceqb (uc km) (uc (nkey m)) = true) by (rewrite Q4; cord).
    set (m1 := Node (nid m) km (nval m)).
    set (t1 := Tree (L ++ m1 :: M ++ R) (fresh t)).
    assert (I1 : inv k t1).
    { split.
      - eapply (wf_ids X); [apply (wf_nodes X _ _ W Em)|]. rewrite !ids_app, !ids_cons. auto.
      - cbn. apply (srt_mid X k HX). cbn. unfold Seg.ne in *. conjs; auto; try cord.
        + apply (below_le X k HX _ _ _ BLm). cord.
        + apply (above_ge X k HX _ _ _ ARm). cord. }
    assert (BB : below k L (lc lr)) by (rewrite Q1; auto).
    assert (AA : above k (m1 :: M ++ R) (uc lr)).
    { rewrite above_cons. cbn [nkey m1]. unfold Seg.ne in *. split; [cord|].
      apply (above_ge X k HX _ _ _ ARm). cord. }
    assert (PM : part a (m :: M) (m1 :: M)).
    { intros c. cbn [Rb]. unfold m1. cbn [nkey]. set (r := Rb k M c). clear - HX Om1 Om2 Nm Na Q1 Q2 Q1' Q3 Q4 Q4' El. unfold inr, Seg.ne in *. split; intros; destruct r; cord. }
    eapply throws_bind; [apply follows_front| |].
    { unfold c_add_front. rewrite (key_at X t L m (M ++ R)) by auto. apply throws_ok. cbn zeta. fold lr km.
      rewrite (ne_e X k HX lr) by auto. cbn [negb].
      rewrite (cyc_node X t L m (M ++ R)) by auto. apply throws_ok.
      rewrite (set_key_at X t L m (M ++ R)) by auto. apply throws_ok. fold m1. fold t1.
      eapply throws_bind; [apply follows_insert_hint|apply throws_insert_hint; split; auto; exists (m1 :: M); split; auto|].
      intros [u0 i0] _. apply throws_ret. }
    intros u Eu. revert Eu. unfold s_add_front. rewrite (key_at X t L m (M ++ R)) by auto. cbn [bind]. fold lr km. rewrite (ne_e X k HX lr) by auto. cbn [negb].
    rewrite (cyc_node X t L m (M ++ R)) by auto. cbn [bind]. rewrite (set_key_at X t L m (M ++ R)) by auto. cbn [bind]. fold m1. fold t1.
    rewrite (insert_hint_new X k HX t1 L (m1 :: M ++ R)); auto; try apply I1.
    2:{ eapply isit_last. reflexivity. }
    cbn [bind]. pose proof (inv_new X k HX t1 L (m1 :: M ++ R) lr tt I1 eq_refl Nl BB AA) as I2.
    set (n0 := Node (fresh t1) lr tt) in *. set (t2 := Tree _ (Datatypes.S (fresh t1))) in *.
    intros Eu. injection Eu as <-.
    assert (EM1 : exists Q1 q1, m1 :: M = Q1 ++ [q1] /\ nid q1 = nid q).
    { destruct Q as [|p Q]; cbn in EQ; injection EQ as Ea Eb; subst.
      - exists [], m1. split; auto.
      - exists (m1 :: Q), q. split; auto. }
    destruct EM1 as (Qx & qx & EM1 & Ei).
    assert (OM1 : Forall (over k a) (Qx ++ [qx])).
    { rewrite <- EM1. constructor; auto. unfold over, m1, Seg.ne in *. cbn. cord. }
    assert (AM1 : above k (Qx ++ [qx]) (lc a)).
    { rewrite <- EM1. rewrite above_cons. split; auto. cbn. cord. }
    rewrite <- Ei. replace (Some (nid m)) with (hd_it (Qx ++ qx :: R)).
    2:{ change (Qx ++ qx :: R) with (Qx ++ [qx] ++ R). rewrite app_assoc, <- EM1. reflexivity. }
    eapply throws_impl; [apply (main_throws Qx (Datatypes.S (length (nodes t2))) t2 (L ++ [n0]) qx R a); auto|].
    + cbn. rewrite !app_length. cbn [length]. rewrite app_length.
      assert (length (m1 :: M) = length (Qx ++ [qx])) by congruence. rewrite app_length in H. cbn in H. lia.
    + unfold t2. cbn [nodes]. change (m1 :: M ++ R) with ((m1 :: M) ++ R). rewrite EM1. lst.
    + rewrite below_app, below_cons. conjs; auto using below_nil. cbn. cord.
    + intros t' (I' & P & EP & HP). split; auto. exists (n0 :: P). split; [rewrite EP; lst|]. rewrite <- EM1 in HP.
      intros c. destruct (HP c) as [HP1 HP2]. revert HP1 HP2. cbn [Rb]. unfold n0, m1. cbn [nkey].
      assert (B : Rb k M c = true -> cltb c (lc a) = false).
      { intros B. apply Rb_iff in B. destruct B as (n & Hn & B). unfold above in AM. rewrite Forall_forall in AM. specialize (AM n Hn). unfold inr in B. clear - HX B AM. cord. }
      revert B. set (r := Rb k M c). set (rp := Rb k P c). clear - HX Om1 Om2 Nm Na Q1 Q2 Q1' Q3 Q4 Q4' El. unfold inr, Seg.ne in *. intros; split; intros; destruct r, rp; cbn in *; cord.
  - assert (H : is_empty X k (right_subtract X k (nkey m) a) = true) by (apply rsub_e; auto).
    eapply throws_bind; [apply follows_front| |].
    { unfold c_add_front. rewrite (key_at X t L m (M ++ R)) by auto. apply throws_ok. cbn zeta. rewrite H. cbn [negb]. apply throws_ret. }
    intros u Eu. revert Eu. unfold s_add_front. rewrite (key_at X t L m (M ++ R)) by auto. cbn [bind]. rewrite H. cbn [negb]. intros Eu. injection Eu as <-.
    replace (Some (nid m)) with (hd_it (Q ++ q :: R)).
    2:{ change (Q ++ q :: R) with (Q ++ [q] ++ R). rewrite app_assoc, <- EQ. reflexivity. }
    rewrite EQ. apply main_throws; auto.
    + rewrite E, !app_length, EQ, app_length. cbn. lia.
    + rewrite E, EQ. lst.
    + rewrite <- EQ; auto.
    + rewrite <- EQ. rewrite above_cons. split; auto.
Qed.

(** what adding a leaves: the segments meeting a may have changed *)
Definition add_left (t : tree) (a : I) (t' : tree) : Prop := inv k t' /\ exists L M R P, nodes t = L ++ M ++ R /\ nodes t' = L ++ P ++ R /\
  below k L (lc a) /\ Forall (over k a) M /\ above k R (uc a) /\ part a M P.
Lemma add_left_refl t a : inv k t -> ne a -> add_left t a t.
Proof.
  intros Hi Na. destruct (decomp X k HX a (nodes t) (proj2 Hi) Na) as (L & M & R & E & BL & OM & AR).
  split; auto. exists L, M, R, M. conjs; auto using part_refl.
Qed.

Theorem add_throws st (t : tree) a : sinv st t -> throws (c_add X k st t a) (fun t' => is_empty X k a = false /\ add_left t a t' /\ (st = Splitting \/ t' = t)).
Proof.
  intros [Hi _]. pose proof Hi as [W S]. unfold c_add. destruct (is_empty X k a) eqn:Ea; [apply throws_ret|]. pose proof (proj2 (ne_iff X k HX a) Ea) as Na.
  destruct (decomp X k HX a (nodes t) S Na) as (L & M & R & E & BL & OM & AR).
  pose proof (add_left_refl t a Hi Na) as AL.
  eapply throws_bind; [apply follows_insert|apply throws_insert; auto|].
  intros [[u i] b] Eu. destruct b; [apply throws_lift|].
  destruct (nil_or_not M) as [->|NM].
  - cbn [app] in E. rewrite (insert_new X k HX t L R) in Eu by auto. discriminate.
  - destruct (M_ends M NM) as (m & M' & Q & q & Em & EQ).
    assert (Em' : nodes t = L ++ m :: M' ++ R) by (rewrite E, Em; auto).
    rewrite (insert_old X k HX t L m (M' ++ R)) in Eu; auto.
    2:{ rewrite Forall_forall in OM. apply OM. rewrite Em. cbn. auto. }
    injection Eu as <- <-. rewrite (upper_bound_at X k HX t L M R) by auto. apply throws_ok.
    rewrite (decr_hd X t (L ++ Q) q R) by (auto; rewrite E, EQ; lst). apply throws_ok.
    destruct st; try apply throws_lift.
    eapply throws_impl; [apply (over_throws t L M R a Hi E Na NM BL OM AR Q q EQ)|]. intros t' (I' & P & EP & HP).
    split; auto. split; auto. split; auto. exists L, M, R, P. conjs; auto.
Qed.

Theorem add_hint_throws st (t : tree) h a : sinv st t -> isit t h ->
  throws (c_add_hint X k st t h a) (fun t' => is_empty X k a = false /\ add_left t a t' /\ (st = Splitting \/ t' = t)).
Proof.
  intros [Hi _] Vh. pose proof Hi as [W S]. unfold c_add_hint. destruct (is_empty X k a) eqn:Ea; [apply throws_ret|]. pose proof (proj2 (ne_iff X k HX a) Ea) as Na.
  destruct (decomp X k HX a (nodes t) S Na) as (L & M & R & E & BL & OM & AR).
  pose proof (add_left_refl t a Hi Na) as AL.
  eapply throws_bind; [apply follows_insert_hint|apply throws_insert_hint; auto|].
  intros [u i] Eu. destruct (nil_or_not M) as [->|NM].
  - cbn [app] in E. rewrite (insert_hint_new X k HX t L R) in Eu by auto. injection Eu as <- <-.
    set (n := Node (fresh t) a tt) in *. change (Some (fresh t)) with (Some (nid n)).
    assert (I1 : inv k (Tree (L ++ n :: R) (Datatypes.S (fresh t)))) by (apply inv_new; auto).
    rewrite (key_at X _ L n R) by (auto; apply I1). apply throws_ok. cbn [n nkey].
    replace (itv_eqb X k a a) with true. 2:{ rewrite itv_eqb_cut; auto using ne_e. cord. }
    apply throws_lift.
  - destruct (M_ends M NM) as (m & M' & Q & q & Em & EQ).
    assert (Em' : nodes t = L ++ m :: M' ++ R) by (rewrite E, Em; auto).
    assert (Om : over k a m). { rewrite Forall_forall in OM. apply OM. rewrite Em. cbn. auto. }
    rewrite (insert_hint_old X k HX t L m (M' ++ R)) in Eu; auto. injection Eu as <- <-.
    rewrite (key_at X t L m (M' ++ R)) by auto. apply throws_ok.
    destruct (itv_eqb X k (nkey m) a); [apply throws_lift|].
    rewrite (upper_bound_at X k HX t L M R) by auto. apply throws_ok.
    rewrite (decr_hd X t (L ++ Q) q R) by (auto; rewrite E, EQ; lst). apply throws_ok.
    destruct st; try apply throws_lift.
    eapply throws_impl; [apply (over_throws t L M R a Hi E Na NM BL OM AR Q q EQ)|]. intros t' (I' & P & EP & HP).
    split; auto. split; auto. split; auto. exists L, M, R, P. conjs; auto.
Qed.

(** what subtracting a leaves: of the segments meeting a at most a part outside a *)
Definition sub_left (t : tree) (a : I) (t' : tree) : Prop := inv k t' /\ exists L M R P, nodes t = L ++ M ++ R /\ nodes t' = L ++ P ++ R /\
  below k L (lc a) /\ Forall (over k a) M /\ above k R (uc a) /\
  (forall c, Rb k P c = true -> Rb k M c = true /\ inr k a c = false) /\
  (P = [] \/ exists m M' g, M = m :: M' /\ P = [g] /\ ceqb (lc (nkey g)) (lc (nkey m)) = true /\ ceqb (uc (nkey g)) (lc a) = true).

Theorem subtract_throws (t : tree) a : inv k t -> throws (c_subtract X k t a) (fun t' => is_empty X k a = false /\ sub_left t a t').
Proof.
  intros Hi. pose proof Hi as [W S]. unfold c_subtract. destruct (is_empty X k a) eqn:Ea; [apply throws_ret|]. pose proof (proj2 (ne_iff X k HX a) Ea) as Na.
  destruct (decomp X k HX a (nodes t) S Na) as (L & M & R & E & BL & OM & AR).
  unfold equal_range. rewrite (lower_bound_at X k HX t L (M ++ R)); auto.
  2:{ apply (overl_MR X k HX); auto. rewrite E in S. apply (srt_app X k) in S. tauto. }
  cbn [bind]. rewrite (upper_bound_at X k HX t L M R) by auto. cbn [bind]. apply throws_ok.
  rewrite (iter_eqb_hd X t L M R) by auto.
  destruct (nil_or_not M) as [->|NM]. { apply throws_ret. }
  destruct (M_ends M NM) as (m & M' & Q & q & Em & EQ).
  replace (match M with [] => true | _ => false end) with false by (destruct M; congruence).
  rewrite (decr_hd X t (L ++ Q) q R) by (auto; rewrite E, EQ; lst). apply throws_ok.
  assert (Em' : nodes t = L ++ m :: M' ++ R) by (rewrite E, Em; auto).
  replace (hd_it (M ++ R)) with (Some (nid m)) by (rewrite Em; auto).
  rewrite (key_at X t L m (M' ++ R)) by auto. apply throws_ok. cbn zeta. cbn [negb].
  rewrite (key_at X t (L ++ Q) q R) by (auto; rewrite E, EQ; lst). eapply throws_bind; [apply (follows_lift (Ok _))|apply throws_ok, throws_ret|].
  intros rr Er. injection Er as <-.
  replace (Some (nid m)) with (hd_it (M ++ R)) by (rewrite Em; auto).
  rewrite (erase_range_at X t L M R) by auto. apply throws_ok.
  assert (SM : srt k (L ++ M ++ R)) by congruence.
  assert (SM' : srt k M) by (rewrite !srt_app in SM; tauto).
  assert (NMs : nes k M) by (apply srt_nes; auto).
  assert (Hm : ne (nkey m) /\ over k a m).
  { unfold nes in NMs. rewrite Forall_forall in *. split; [apply NMs|apply OM]; rewrite Em; cbn; auto. }
  destruct Hm as [Nm [Om1 Om2]].
  assert (BLm : below k L (lc (nkey m))) by (apply (srt_below X k L (M ++ R) SM); rewrite Em; cbn; auto).
  set (t1 := Tree (L ++ R) (fresh t)).
  assert (I1 : inv k t1).
  { split; [apply (wf_drop X L M R); rewrite <- E, tree_eta; auto|]. cbn. rewrite !srt_app in *.
    destruct SM as (S1 & (S2 & S3 & S4) & S5). conjs; auto. intros n n' Hn Hn'. apply S5; auto. apply in_app_iff; auto. }
  set (lr := right_subtract X k (nkey m) a). set (rr := left_subtract X k (nkey q) a).
  assert (HL : exists t2 G, (if negb (is_empty X k lr) then ' (t0, _, _) <- insert X k t1 lr tt ;; Ok t0 else Ok t1) = Ok t2 /\
     inv k t2 /\ nodes t2 = L ++ G ++ R /\
     ((G = [] /\ cltb (lc (nkey m)) (lc a) = false) \/
      exists g, G = [g] /\ cltb (lc (nkey m)) (lc a) = true /\ ceqb (lc (nkey g)) (lc (nkey m)) = true /\ ceqb (uc (nkey g)) (lc a) = true)).
  { destruct (cltb (lc (nkey m)) (lc a)) eqn:El.
    - destruct (rsub_ne X k HX (nkey m) a) as [Q1 Q2]; auto. fold lr in Q1, Q2.
      assert (Q1' : ceqb (lc lr) (lc (nkey m)) = true) by (rewrite Q1; cord).
      assert (Nl : ne lr) by (unfold Seg.ne in *; cord).
      rewrite (ne_e X k HX lr) by auto. cbn [negb].
      assert (B1 : below k L (lc lr)) by (rewrite Q1; auto).
      assert (A1 : above k R (uc lr)) by (apply (above_ge X k HX _ _ _ AR); unfold Seg.ne in *; cord).
      rewrite (insert_new X k HX t1 L R); auto; try apply I1. cbn [bind].
      eexists _, [_]. split; [reflexivity|]. split; [apply inv_new; auto|].
      cbn [nodes]. split; [lst|]. right. eexists. split; [reflexivity|]. cbn [nkey]. auto.
    - assert (H : is_empty X k lr = true) by (apply rsub_e; auto).
      rewrite H. exists t1, []. conjs; auto. }
  destruct HL as (t2 & G & HE & I2 & E2 & HG).
  assert (C1 : sub_left t a t1).
  { split; auto. exists L, M, R, []. conjs; auto. intros c H. discriminate. }
  eapply (throws_bind _ (if negb (is_empty X k lr) then ' (t0, _, _) <- insert X k t1 lr tt ;; Ok t0 else Ok t1)).
  - destruct (negb _); [|apply follows_ret]. apply follows_bind; [apply follows_insert|]. intros [[u i] b]. apply follows_ret.
  - destruct (negb (is_empty X k lr)); [|apply throws_ret]. eapply throws_bind; [apply follows_insert|apply throws_insert; auto|]. intros [[u i] b] _. apply throws_ret.
  - intros u Eu. rewrite HE in Eu. injection Eu as <-. destruct (negb (is_empty X k rr)); [|apply throws_ret].
    eapply throws_bind; [apply follows_insert|apply throws_insert; split; auto|]; [|intros [[u i] b] _; apply throws_ret].
    split; auto. exists L, M, R, G. conjs; auto.
    + intros c H. rewrite Em. clear - HX HG H Nm Na Om1 Om2. destruct HG as [[-> _]|(g & -> & HG1 & HG2 & HG3)]; [discriminate|]. revert H. cbn [Rb]. set (r := Rb k M' c). unfold inr, Seg.ne in *. intros H. rewrite orb_false_r in H. split; destruct r; cord.
    + destruct HG as [[-> _]|(g & -> & HG1 & HG2 & HG3)]; auto. right. exists m, M', g. auto.
Qed.

Theorem add_throws_sinv st (t : tree) a n t' : sinv st t -> c_add X k st t a n = Thrown t' -> sinv st t'.
Proof.
  intros Hi H. destruct (add_throws st t a Hi n t' H) as (_ & [I' _] & [->| ->]); auto. split; auto. 
Qed.
Theorem add_hint_throws_sinv st (t : tree) h a n t' : sinv st t -> isit t h -> c_add_hint X k st t h a n = Thrown t' -> sinv st t'.
Proof.
  intros Hi Vh H. destruct (add_hint_throws st t h a Hi Vh n t' H) as (_ & [I' _] & [->| ->]); auto. split; auto. 
Qed.
Theorem subtract_throws_sinv st (t : tree) a n t' : sinv st t -> c_subtract X k t a n = Thrown t' -> sinv st t'.
Proof.
  intros [Hi HJ] H. destruct (subtract_throws t a Hi n t' H) as (Ea & I' & L & M & R & P & E & E' & BL & OM & AR & HP & HG). split; auto.
  destruct st; auto. rewrite E in HJ. rewrite E'. pose proof (proj2 (ne_iff X k HX a) Ea) as Na.
  destruct HG as [->|(m & M' & g & -> & -> & G1 & G2)].
  - eapply joined_incl; [|exact HJ]. intros y Hy. cbn [app] in Hy. rewrite !in_app_iff in *. tauto.
  - pose proof Hi as [W S]. rewrite E in S. assert (SM : srt k ((m :: M') ++ R)) by (apply (srt_app X k) in S; tauto).
    unfold joined in *. assert (HJ' : forall x y, In x L \/ x = m \/ In x R -> In y L \/ y = m \/ In y R -> ceqb (uc (nkey x)) (lc (nkey y)) = true -> s_coeq (nval x) (nval y) = false).
    { intros x y Hx Hy. apply HJ; rewrite !in_app_iff; cbn [In]; intuition auto. }
    clear HJ. rename HJ' into HJ. intros x y Hx Hy Ec. rewrite !in_app_iff in *. cbn [In] in *.
    assert (Om : over k a m) by (inversion OM; auto). destruct Om as [Om1 Om2].
    assert (Nm : ne (nkey m)). { apply srt_nes in SM. unfold nes in SM. inversion SM; auto. }
    unfold below, above in *. rewrite Forall_forall in BL, AR.
    assert (BLm : forall p, In p L -> cltb (lc (nkey m)) (uc (nkey p)) = false).
    { intros p Hp. assert (B : below k L (lc (nkey m))) by (apply (srt_below X k L ((m :: M') ++ R) S); cbn; auto). unfold below in B. rewrite Forall_forall in B. auto. }
    assert (NR : nes k (L ++ R)). { apply srt_nes in S. unfold nes in *. rewrite !Forall_app in *. tauto. }
    unfold nes in NR. rewrite Forall_forall in NR.
    destruct Hx as [Hx|[[<-|[]]|Hx]], Hy as [Hy|[[<-|[]]|Hy]].
    + apply (HJ x y); auto.
    + apply (HJ x m); auto. clear - HX Ec G1. cord.
    + apply (HJ x y); auto.
    + exfalso. specialize (BLm y Hy). specialize (NR y). rewrite in_app_iff in NR. specialize (NR (or_introl Hy)). specialize (BL y Hy). unfold Seg.ne in *. clear - HX Ec G1 G2 BLm Nm NR Na Om1 Om2 BL. cord.
    + exfalso. pose proof (proj2 I') as S'. rewrite E' in S'. apply srt_nes in S'. unfold nes in S'. rewrite !Forall_app in S'. destruct S' as (_ & S' & _). inversion S'. unfold Seg.ne in *. clear - HX Ec H2. cord.
    + exfalso. specialize (AR y Hy). unfold Seg.ne in *. clear - HX Ec G2 AR Na. cord.
    + apply (HJ x y); auto.
    + exfalso. specialize (AR x Hx). specialize (NR x). rewrite in_app_iff in NR. specialize (NR (or_intror Hx)). unfold Seg.ne in *. 
      pose proof (proj2 I') as S'. rewrite E' in S'. apply srt_nes in S'. unfold nes in S'. rewrite !Forall_app in S'. destruct S' as (_ & S' & _). inversion S'. unfold Seg.ne in *. clear - HX Ec G1 G2 AR NR Na H2. cord.
    + apply (HJ x y); auto.
Qed.
End CrashSet.

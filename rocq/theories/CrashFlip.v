(** Running out of memory in symmetric differences of interval sets (proofs). *)
From Verif Require Export CrashFlipModel CrashThms SetFlip.

Section CrashFlip.
Context (X : dom) (k : kind).
Context (HX : dom_ok X k).
Notation I := (itv (D X)).
Notation node := (node (D X) unit).
Notation tree := (tree (D X) unit).
Notation lc := (lc X k).
Notation uc := (uc X k).
Notation cltb := (cltb X).
Notation ceqb := (ceqb X).
Notation cut := (cut X).
Notation pt := (pt X).
Notation ne := (@ne X k).
Notation hd_it := (@hd_it X unit).
Notation sinv := (sinv X k).
Notation added := (added X k).
Notation subbed := (subbed X k).
Notation addsP := (addsP X k).
Notation apart := (apart X k).
Notation flipped := (flipped X k).
Notation flips := (flips X k).
Notation cmem := (SetSpec.cmem X k).
Notation mem := (mem X k).
Notation reach := (reach X k).
Ltac cord := cord_ X k HX.

(** one round of the loop of flip *)
Lemma flip_round st t L (m : node) M R a : sinv st t -> nodes t = L ++ (m :: M) ++ R ->
  ne a -> below k L (lc a) -> Forall (over k a) (m :: M) -> above k R (uc a) ->
  let i := inter X k a (nkey m) in let lo := right_subtract X k a (nkey m) in let b := left_subtract X k a (nkey m) in
  exists t1 t2 h2 LP, s_subtract X k t i = Ok t1 /\ s_add X k st t1 lo = Ok (t2, h2) /\ sinv st t2 /\
    nodes t2 = LP ++ M ++ R /\ below k LP (uc (nkey m)) /\ apart lo (nodes t1) /\ ne i /\
    (is_empty X k b = true /\ M = [] \/ ne b /\ below k LP (lc b) /\ Forall (over k b) M /\ above k R (uc b)) /\
    (forall x, mem i x -> mem a x /\ mem (nkey m) x) /\ (forall x, mem lo x -> mem a x) /\
    (forall x, mem b x -> mem a x /\ cltb (pt x) (uc (nkey m)) = false).
Proof.
    intros Hi E Na BL OM AR i lo b.
    pose proof Hi as [[W S] J].
    pose proof S as S'. rewrite E in S'. cbn [app] in S'. apply (srt_mid X k HX) in S'.
    destruct S' as (SL & SMR & Nm & BLm & AMR).
    inversion OM as [|? ? [O1 O2] OM']; subst. clear OM.
    assert (Ni : ne (inter X k a (nkey m))).
    { unfold Seg.ne in *. rewrite inter_lc, inter_uc by auto. unfold cmax, cmin. repeat ifg; cord. }
    assert (Li : lc (inter X k a (nkey m)) = cmax X (lc a) (lc (nkey m))) by (apply inter_lc; auto).
    assert (Ui : uc (inter X k a (nkey m)) = cmin X (uc a) (uc (nkey m))) by (apply inter_uc; auto).
    fold i in Ni, Li, Ui.
    destruct (s_subtract_dec X k HX t L [m] (M ++ R) i (proj1 Hi) Ni) as (t1 & P & Et1 & I1 & N1 & B1); auto.
    { apply (below_le X k HX L (lc a)); auto. rewrite Li. unfold cmax. repeat ifg; cord. }
    { constructor; auto. unfold over. rewrite Li, Ui. unfold cmax, cmin. split; repeat ifg; unfold Seg.ne in *; cord. }
    { apply (above_ge X k HX _ (uc (nkey m))); auto. rewrite Ui. unfold cmin. repeat ifg; cord. }
    
    assert (B1' : subbed i (nodes t) (nodes t1)).
    { rewrite E, N1. change (m :: M) with ([m] ++ M). rewrite <- app_assoc. apply lift_sub; auto.
      { apply (below_le X k HX L (lc a)); auto. rewrite Li. unfold cmax. repeat ifg; cord. }
      { apply (above_ge X k HX _ (uc (nkey m))); auto. rewrite Ui. unfold cmin. repeat ifg; cord. } }
    assert (Hi1 : sinv st t1) by (eapply subbed_sinv; eauto).
    pose proof I1 as [W1 S1]. pose proof S1 as S1'. rewrite N1 in S1'. apply srt_parts in S1'. destruct S1' as (_ & SP & _).
    assert (AP : above k P (lc (nkey m))).
    { apply (subbed_above X k HX i [m] P); auto. apply above_cons. split; [cord|constructor]. }
    (* adding the left over *)
    assert (G : exists t2 h2 L2, s_add X k st t1 lo = Ok (t2, h2) /\ sinv st t2 /\ nodes t2 = L2 ++ P ++ M ++ R /\
       addsP st [lo] (nodes t1) (nodes t2) /\ apart lo (nodes t1) /\
       ((is_empty X k lo = true /\ cltb (lc a) (lc (nkey m)) = false) \/
         lc lo = lc a /\ ceqb (uc lo) (lc (nkey m)) = true /\ cltb (lc a) (lc (nkey m)) = true)).
    { destruct (cltb (lc a) (lc (nkey m))) eqn:C.
      - destruct (rsub_ne X k HX a (nkey m) Na Nm) as [Ll Ul]; auto. fold lo in Ll, Ul.
        assert (Nlo : ne lo) by (unfold Seg.ne in *; rewrite Ll; cord).
        assert (APM : above k (P ++ M ++ R) (lc (nkey m))).
        { rewrite above_app. split; auto. apply (above_ge X k HX _ (uc (nkey m))); auto. unfold Seg.ne in *. cord. }
        assert (BLl : below k L (lc lo)) by (rewrite Ll; auto).
        assert (APl : above k (P ++ M ++ R) (uc lo)).
        { apply (above_ge X k HX _ (lc (nkey m))); auto. cord. }
        destruct (s_add_dec X k HX st t1 L (P ++ M ++ R) lo) as (t2 & h2 & E2 & I2 & _ & A2 & Fr); auto.
        destruct Fr as [L2 N2].
        { intros s R' Es. destruct P as [|p P].
          - assert (HH : above k (s :: R') (uc (nkey m))) by (cbn [app] in Es; rewrite <- Es; auto).
            rewrite above_cons in HH. unfold Seg.ne in *. cord.
          - cbn [app] in Es. inversion Es; subst s. clear Es.
            assert (E1 : Rb k (p :: P) (lc (nkey p)) = true).
            { destruct SP as (Np & _). cbn. unfold inr at 1. unfold Seg.ne in *. rewrite Np. replace (cltb (lc (nkey p)) (lc (nkey p))) with false by cord. auto. }
            destruct (B1 (lc (nkey p))) as (Q & _). rewrite Q in E1. apply andb_true_iff in E1. destruct E1 as [_ E1].
            rewrite above_cons in AP. destruct AP as [AP _]. unfold inr in E1. rewrite Li, Ui in E1. unfold cmax, cmin in E1.
            rewrite C in E1. unfold Seg.ne in *. revert E1. ifg; cord. }
        exists t2, h2, L2. conjs; auto.
        + apply added_adds; auto.
        + rewrite N1. apply apart_LR; auto.
      - assert (El : is_empty X k lo = true) by (apply (rsub_e X k HX); auto).
        exists t1, None, L. rewrite (s_add_empty X k st t1 lo El). conjs; auto.
        + apply adds_empty; auto.
        + apply apart_empty; auto. }
    destruct G as (t2 & h2 & L2 & E2 & Hi2 & N2 & A2 & P2 & Hlo). 
    pose proof (flip_apart X k HX st lo _ _ P2 A2) as F2.
    (* the rest *)
    assert (Hb : is_empty X k b = true /\ M = [] /\ cltb (uc (nkey m)) (uc a) = false \/
        ne b /\ ceqb (lc b) (uc (nkey m)) = true /\ uc b = uc a /\ cltb (uc (nkey m)) (uc a) = true).
    { destruct (cltb (uc (nkey m)) (uc a)) eqn:C.
      - right. destruct (lsub_ne X k HX a (nkey m) Nm Na) as [Lbb Ubb]; auto. fold b in Lbb, Ubb.
        conjs; auto. unfold Seg.ne. rewrite Ubb. cord.
      - left. split; [apply (lsub_e X k HX); auto|]. split; auto. destruct M as [|m' M]; auto. exfalso.
        inversion OM' as [|? ? [Q1 Q2] _]; subst. cbn [app] in AMR. rewrite above_cons in AMR. cord. }
    assert (BL2 : below k (L2 ++ P) (uc (nkey m))).
    { unfold below. rewrite Forall_forall. intros n Hn.
      destruct (cltb (uc (nkey m)) (uc (nkey n))) eqn:C; auto. exfalso.
      pose proof (proj2 (proj1 Hi2)) as S2. rewrite N2, app_assoc in S2.
      pose proof (srt_nes X k _ S2) as NN. unfold nes in NN. rewrite Forall_forall in NN.
      assert (Nn : ne (nkey n)) by (apply NN; rewrite in_app_iff; auto).
      rewrite srt_app in S2. destruct S2 as (_ & _ & Hord).
      assert (EL : Lb k (nodes t2) (uc (nkey n)) = true).
      { apply Lb_iff. exists n. split. { rewrite N2, app_assoc, in_app_iff. auto. } unfold inl, Seg.ne in *. cord. }
      destruct (F2 (uc (nkey n))) as (_ & F & _). rewrite F in EL. clear F.
      assert (inl k lo (uc (nkey n)) = false).
      { unfold inl. destruct Hlo as [[El _]|(l1 & l2 & l3)]; [apply (not_ne X k HX) in El; cord|].
        rewrite l1. unfold Seg.ne in *. cord. }
      rewrite H, xorb_false_r in EL. rewrite N1 in EL. rewrite !Lb_app in EL.
      destruct (below_b X k HX L _ (uc (nkey n)) BLm) as (_ & Q & _).
      rewrite Q in EL by (unfold Seg.ne in *; cord). clear Q. cbn [orb] in EL.
      assert (Lb k P (uc (nkey n)) = false).
      { destruct (B1 (uc (nkey n))) as (_ & Q & _). rewrite Q. cbn [Lb]. unfold inl at 1.
        rewrite C. cbn. rewrite andb_false_r. auto. }
      rewrite H0 in EL. cbn [orb] in EL. rewrite <- Lb_app in EL. apply Lb_iff in EL. destruct EL as (q & Hq & EL).
      specialize (Hord n q Hn Hq). unfold inl in EL. cord. }
    exists t1, t2, h2, (L2 ++ P). conjs; auto.
    - rewrite N2, <- !app_assoc. auto.
    - destruct Hb as [(Hb & -> & _)|(Nb & Lbb & Ubb & Cb)]; [left; auto|right]. conjs; auto.
      + apply (below_le X k HX _ (uc (nkey m))); auto. cord.
      + assert (HM : above k M (uc (nkey m))) by (apply above_app in AMR; tauto).
        assert (NM : nes k M). { apply srt_nes. apply srt_app in SMR. tauto. }
        unfold above, nes in *. rewrite Forall_forall in *. intros q Hq. specialize (HM q Hq). specialize (NM q Hq). 
        destruct (OM' q Hq) as [Q1 Q2]. unfold over. rewrite Ubb. unfold Seg.ne in *. split; cord.
      + rewrite Ubb. auto.
    - intros x. rewrite !(mem_inr X k HX). unfold inr. rewrite Li, Ui. unfold cmax, cmin. clear - HX. repeat ifg; intros; split; cord.
    - intros x. rewrite !(mem_inr X k HX). unfold inr. clear - HX Hlo O1 O2 Nm. unfold Seg.ne in *. destruct Hlo as [[El _]|(l1 & l2 & l3)]; [apply (not_ne X k HX) in El; cord|]. rewrite l1. cord.
    - intros x. rewrite !(mem_inr X k HX). unfold inr. clear - HX Hb O1 O2 Nm. unfold Seg.ne in *. destruct Hb as [(El & _)|(_ & l1 & l2 & l3)]; [apply (not_ne X k HX) in El; split; cord|]. rewrite l2. split; cord.
Qed.

(** what an interrupted step with argument a leaves of u *)
Definition step_left st (u : tree) (a : I) (t' : tree) : Prop := reach st t' /\
  (forall x, cmem t' x -> cmem u x \/ mem a x) /\
  (forall x, cmem u x -> ~ mem a x -> ~ affected X k u a x -> cmem t' x).
Lemma add_step st t a : reach st t -> throws (c_add X k st t a) (step_left st t a).
Proof. intros R. eapply throws_impl; [apply (add_throws' X k HX); auto|]. intros t' (R' & _ & A1 & _ & A3 & _). split; auto. Qed.
Lemma sub_step st t a : reach st t -> throws (c_subtract X k t a) (step_left st t a).
Proof. intros R. eapply throws_impl; [apply (subtract_throws' X k HX st); auto|]. intros t' (R' & A1 & A3 & _). split; auto. split; auto. intros x H. apply A1 in H. tauto. Qed.

Lemma apart_cmem b (t : tree) x : apart b (nodes t) -> mem b x -> cmem t x -> False.
Proof. intros A. rewrite (mem_inr X k HX), (cmem_Rb X k HX). intros H. apply A in H. congruence. Qed.
Lemma apart_affected b (t : tree) x : apart b (nodes t) -> affected X k t b x -> False.
Proof. intros A (s & Hs & _ & y & M1 & M2). apply (apart_cmem b t y); auto. exists s. auto. Qed.

Lemma flip_loop_throws st : forall M fuel t L R a, reach st t -> nodes t = L ++ M ++ R ->
  (is_empty X k a = true /\ M = [] \/ ne a /\ below k L (lc a) /\ Forall (over k a) M /\ above k R (uc a)) ->
  throws (c_flip_loop X k fuel st t a (hd_it (M ++ R)) (hd_it R)) (step_left st t a) /\
  forall t' b, s_flip_loop X k fuel st t a (hd_it (M ++ R)) (hd_it R) = Ok (t', b) ->
    reach st t' /\ (forall x, ~ mem a x -> (cmem t' x <-> cmem t x)) /\ forall x, mem b x -> mem a x.
Proof.
  induction M as [|m M IH]; intros [|fuel] t L R a Rt E HA; cbn [c_flip_loop s_flip_loop]; try (split; [apply throws_lift|discriminate]).
  - cbn [app]. rewrite iter_eqb_refl. cbn [negb]. split; [apply throws_ret|]. intros t' b Q. injection Q as <- <-. split; auto. split; auto. tauto.
  - destruct HA as [[_ HA]|(Na & BL & OM & AR)]; [discriminate|]. pose proof (reach_sinv X k HX st t Rt) as Hi.
    rewrite (iter_eqb_hd X t L (m :: M) R) by (auto; apply Hi). cbn [negb app Tree.hd_it].
    rewrite (key_at X t L m (M ++ R)) by (auto; apply Hi). rewrite (incr_at X t L m (M ++ R)) by (auto; apply Hi). cbn [bind].
    destruct (flip_round st t L m M R a Hi E Na BL OM AR) as (t1 & t2 & h2 & LP & E1 & E2 & Hi2 & N2 & BLP & AP & Ni & Hb & Mi & Mlo & Mb).
    pose proof (R_subtract X k st t _ t1 Rt E1) as R1. pose proof (R_add X k st t1 _ t2 h2 R1 E2) as R2.
    set (i := inter X k a (nkey m)) in *. set (lo := right_subtract X k a (nkey m)) in *. set (b := left_subtract X k a (nkey m)) in *.
    assert (C1 : forall x, cmem t1 x <-> cmem t x /\ ~ mem i x).
    { destruct (thm_subtract X k HX st t i Rt) as (u & Eu & Hu). assert (u = t1) by congruence. subst u. auto. }
    assert (C2 : forall x, cmem t2 x <-> cmem t1 x \/ mem lo x).
    { destruct (thm_add X k HX st t1 lo R1) as (u & h & Eu & Hu). assert (u = t2) by congruence. subst u. auto. }
    assert (Km : In (nkey m) (keys X t)). { unfold keys. apply in_map. rewrite E. apply in_app_iff. cbn. auto. }
    assert (Ne : forall x, mem (nkey m) x -> affected X k t a x).
    { intros x Hx. destruct (proj2 (ne_ex X k HX i) Ni) as (y & My). apply Mi in My. exists (nkey m). conjs; auto. exists y. tauto. }
    assert (HA2 : is_empty X k b = true /\ M = [] \/ ne b /\ below k LP (lc b) /\ Forall (over k b) M /\ above k R (uc b)) by auto.
    assert (Out : forall x, ~ mem a x -> (cmem t2 x <-> cmem t x)).
    { intros x Nx. rewrite C2, C1. split; [intros [H|H]; [tauto|destruct (Nx (Mlo x H))]|]. intros H. left. split; auto. intros Q. apply Nx. apply Mi. auto. }
    destruct (IH fuel t2 LP R b R2 N2 HA2) as [TH OKS]. split.
    + apply throws_ok. apply throws_ok. eapply throws_bind; [apply follows_subtract| |].
      { eapply throws_impl; [apply sub_step; eauto|]. intros t' (R' & A1 & A2). split; auto. split.
        - intros x Hx. apply A1 in Hx. destruct Hx as [Hx|Hx]; auto. right. apply Mi. auto.
        - intros x Hx Nx Ax. apply A2; auto. { intros Q. apply Nx. apply Mi. auto. }
          intros (s & Hs & Ms & y & My1 & My2). apply Ax. exists s. conjs; auto. exists y. split; auto. apply Mi. auto. }
      intros t1' E1'. assert (t1' = t1) by (fold i in E1'; rewrite E1 in E1'; inversion E1'; auto). subst t1'. eapply throws_bind; [apply follows_add| |].
      { eapply throws_impl; [apply add_step; eauto|]. intros t' (R' & A1 & A2). split; auto. split.
        - intros x Hx. apply A1 in Hx. destruct Hx as [Hx|Hx]; [apply C1 in Hx; tauto|]. right. auto.
        - intros x Hx Nx Ax. apply A2; auto. { apply C1. split; auto. intros Q. apply Nx. apply Mi. auto. }
          intros Q. eapply apart_affected; eauto. }
      intros [t2' h2'] E2'. assert (t2' = t2) by (fold lo in E2'; rewrite E2 in E2'; inversion E2'; auto). subst t2'. eapply throws_impl; [exact TH|].
      intros t' (R' & A1 & A2). split; auto. split.
      * intros x Hx. apply A1 in Hx. destruct Hx as [Hx|Hx]; [|right; apply Mb; auto]. apply C2 in Hx. destruct Hx as [Hx|Hx]; [apply C1 in Hx; tauto|right; auto].
      * intros x Hx Nx Ax. apply A2; [apply Out; auto|intros Q; apply Nx; apply Mb; auto|].
        intros (s & Hs & Ms & y & My1 & My2). apply Ax. exists s. split; [|split; auto; exists y; split; auto; apply Mb; auto].
        unfold keys in Hs. rewrite N2 in Hs. rewrite map_app, in_app_iff in Hs. destruct Hs as [Hs|Hs].
        -- exfalso. apply in_map_iff in Hs. destruct Hs as (q & <- & Hq). unfold below in BLP. rewrite Forall_forall in BLP. specialize (BLP q Hq).
           apply Mb in My2. apply (mem_inr X k HX) in My1. unfold inr in My1. destruct My2 as [_ My2]. clear - HX BLP My1 My2. cord.
        -- unfold keys. rewrite E, map_app, in_app_iff. right. cbn [app map]. right. auto.
    + intros t' b' Q. fold i lo b in Q. rewrite E1 in Q. cbn [bind] in Q. rewrite E2 in Q. cbn [bind] in Q. destruct (OKS t' b' Q) as (R' & O1 & O2). split; auto. split.
      * intros x Nx. rewrite O1, Out; auto. tauto. intros H. apply Nx. apply Mb. auto.
      * intros x H. apply Mb. auto.
Qed.

Lemma follows_flip_loop st fuel : forall (t : tree) a i e, follows (c_flip_loop X k fuel st t a i e) (s_flip_loop X k fuel st t a i e).
Proof.
  induction fuel as [|fuel IH]; intros t a i e; cbn [c_flip_loop s_flip_loop]; [apply (follows_lift (Err Fuel))|].
  destruct (negb _); [|apply follows_ret]. apply follows_bind; [apply follows_lift|]. intros cv. apply follows_bind; [apply follows_lift|]. intros it.
  apply follows_bind; [apply follows_subtract|]. intros t1. apply follows_bind; [apply follows_add|]. intros [t2 h]. apply IH.
Qed.
Lemma follows_flip_seg st (t : tree) a : follows (c_flip_seg X k st t a) (s_flip_seg X k st t a).
Proof.
  unfold c_flip_seg, s_flip_seg. apply follows_bind; [apply follows_lift|]. intros [f e]. apply follows_bind; [apply follows_flip_loop|]. intros [t1 b].
  apply follows_bind; [apply follows_add|]. intros [t2 h]. apply follows_ret.
Qed.
Lemma follows_flip_elem st (t : tree) x : follows (c_flip_elem X k st t x) (s_flip_elem X k st t x).
Proof.
  unfold c_flip_elem, s_flip_elem. apply follows_bind; [apply follows_lift|]. intros []; [apply follows_subtract|]. apply follows_bind; [apply follows_add|]. intros [t2 h]. apply follows_ret.
Qed.
Lemma follows_flip_set st (t o : tree) : follows (c_flip_set X k st t o) (s_flip_set X k st t o).
Proof.
  unfold c_flip_set, s_flip_set. destruct (nodes o); [apply follows_ret|]. apply follows_bind; [apply follows_lift|]. intros [[lw up]|]; [|apply follows_add_set].
  assert (A : forall (u : tree) (n : node), follows (T := tree) (cbind (c_add X k st u (nkey n)) (fun '(t, _) => cret t)) (' (t, _) <- s_add X k st u (nkey n) ;; Ok t)).
  { intros u b. apply follows_bind; [apply follows_add|]. intros [v h]. apply follows_ret. }
  apply follows_bind; [apply follows_lift|]. intros l1. apply follows_bind; [apply follows_cfold; auto|]. intros t1.
  apply follows_bind; [apply follows_lift|]. intros l2. apply follows_bind; [apply follows_cfold; intros; apply follows_flip_seg|]. intros t2.
  apply follows_bind; [apply follows_lift|]. intros l3. apply follows_cfold; auto.
Qed.

Lemma flip_throws st t a : reach st t -> ne a -> throws (c_flip_seg X k st t a) (step_left st t a).
Proof.
  intros Rt Na. pose proof (reach_sinv X k HX st t Rt) as Hi. unfold c_flip_seg.
  destruct (decomp X k HX a (nodes t) (proj2 (proj1 Hi)) Na) as (L & M & R & E & BL & OM & AR).
  rewrite (equal_range_at X k HX t L M R a); auto; [|apply Hi]. apply throws_ok.
  destruct (flip_loop_throws st M (S (length (nodes t))) t L R a Rt E) as [TH OKS]; [right; auto|].
  destruct (s_flip_loop_at X k HX st M (S (length (nodes t))) t L R a Hi E) as (t1 & b & E1 & I1 & A1 & _).
  { rewrite E, !app_length. lia. }
  { right. auto. }
  destruct (OKS t1 b E1) as (R1 & O1 & O2).
  eapply throws_bind; [apply follows_flip_loop|exact TH|]. intros [t1' b'] E1'. assert (t1' = t1 /\ b' = b) as [-> ->] by (rewrite E1 in E1'; inversion E1'; auto).
  eapply throws_bind; [apply follows_add| |intros [v h] _; apply throws_ret].
  eapply throws_impl; [apply add_step; eauto|]. intros t' (R' & Q1 & Q2). split; auto. split.
  - intros x Hx. apply Q1 in Hx. destruct Hx as [Hx|Hx]; [|right; auto]. destruct (inr k a (pt x)) eqn:Ea; [right; apply (mem_inr X k HX); auto|].
    left. apply O1; auto. rewrite (mem_inr X k HX). congruence.
  - intros x Hx Nx Ax. apply Q2; [apply O1; auto|intros H; apply Nx; auto|]. intros H. eapply apart_affected; eauto.
Qed.
Theorem crash_flip st t a : reach st t -> (exists x, mem a x) -> survives (c_flip_seg X k st t a) (s_flip_seg X k st t a) (step_left st t a).
Proof.
  intros R Hx. destruct (thm_flip X k HX st t a R Hx) as (t' & E & _). eapply survives_intro; eauto using follows_flip_seg. apply flip_throws; auto. apply (ne_ex X k HX). auto.
Qed.
Theorem crash_flip_elem st t x : reach st t -> storable X k x -> survives (c_flip_elem X k st t x) (s_flip_elem X k st t x)
  (fun t' => reach st t' /\ (forall z, cmem t' z -> cmem t z \/ z = x) /\
             forall z, cmem t z -> z <> x -> ~ same_seg X k (keys X t) z x -> cmem t' z).
Proof.
  intros R Hx. destruct (thm_flip_elem X k HX st t x R Hx) as (t' & E & _). eapply survives_intro; eauto using follows_flip_elem.
  assert (G : forall u, step_left st t (singleton X k x) u -> reach st u /\ (forall z, cmem u z -> cmem t z \/ z = x) /\
             forall z, cmem t z -> z <> x -> ~ same_seg X k (keys X t) z x -> cmem u z).
  { intros u (Ru & A1 & A2). split; auto. split.
    - intros z Hz. rewrite <- (elem_only X k HX x z Hx). auto.
    - intros z Hz Nz Sz. apply A2; auto; [rewrite (elem_only X k HX x z Hx); auto|]. intros (s & Hs & Ms & y & M1 & M2). apply (elem_only X k HX x y Hx) in M2. subst y.
      apply Sz. exists s. auto. }
  unfold c_flip_elem. eapply throws_bind; [apply follows_lift|apply throws_lift|]. intros [] Ec.
  - eapply throws_impl; [apply sub_step; eauto|exact G].
  - eapply throws_bind; [apply follows_add| |intros [v h] _; apply throws_ret].
    eapply throws_impl; [apply add_step; eauto|exact G].
Qed.

(* ------------------------------------------------------------- whole containers *)
(** what an interrupted symmetric difference with o leaves of t *)
Definition flips_left st (t o t' : tree) : Prop := reach st t' /\
  (forall x, cmem t' x -> cmem t x \/ cmem o x) /\
  (st <> Joining -> forall x, cmem t x -> ~ cmem o x -> ~ (exists b, In b (keys X o) /\ affected X k t b x) -> cmem t' x).

(** after some segments of o have been flipped, an element outside o shares a segment only with elements of its old segment *)
Lemma flips_seg st (t u o : tree) l : st <> Joining -> inv k t -> inv k u -> inv k o -> List.incl l (nodes o) -> srt k l -> flips st l (nodes t) (nodes u) ->
  forall x y, cmem t x -> ~ cmem o x -> same_seg X k (keys X u) x y -> same_seg X k (keys X t) x y.
Proof.
  intros Hst [_ St] [_ Su] [_ So] Il Sl F x y Hx Nx.
  assert (Nl : forall n, In n l -> ~ mem (nkey n) x). { intros n Hn M. apply Nx. apply cmem_nodes. eauto. }
  pose proof (srt_nes X k l Sl) as NE. unfold nes in NE. rewrite Forall_forall in NE.
  assert (G : forall n c, In n l -> c = lc (nkey n) \/ c = uc (nkey n) -> intr k (nodes u) c = false).
  { intros n c Hn Hc. destruct (intr k (nodes u) c) eqn:E; auto. exfalso. destruct (F c) as (_ & _ & F3). rewrite (F3 Hst) in E. specialize (NE n Hn).
    assert (B : Lb k l c = true \/ Rb k l c = true).
    { destruct Hc as [-> | ->]; [right; apply Rb_iff|left; apply Lb_iff]; exists n; (split; [auto|]); unfold inr, inl, Seg.ne in *; cord. }
    apply orb_true_iff in E. destruct E as [E|E]; apply andb_true_iff in E; destruct E as [E1 E2].
    - rewrite negb_true_iff, orb_false_iff in E2. destruct E2, B; congruence.
    - apply intr_true in E1. destruct E1 as (q & Hq & E1). apply in_split in Hn. destruct Hn as (l1 & l2 & ->).
      apply (srt_mid X k HX) in Sl. destruct Sl as (S1 & S2 & _ & B1 & B2). unfold below, above in *. rewrite Forall_forall in *.
      apply in_app_iff in Hq. unfold ini, Seg.ne in *. destruct Hq as [Hq|[<-|Hq]].
      + specialize (B1 q Hq). destruct Hc as [-> | ->]; cord.
      + destruct Hc as [-> | ->]; cord.
      + specialize (B2 q Hq). destruct Hc as [-> | ->]; cord. }
  assert (K : forall c, intr k (nodes u) c = true -> intr k (nodes t) c = true \/ exists n, In n l /\ ini k (nkey n) c = true).
  { intros c E. destruct (F c) as (_ & _ & F3). rewrite (F3 Hst) in E. apply orb_true_iff in E. rewrite <- intr_true. destruct E as [E|E]; apply andb_true_iff in E; tauto. }
  intros S. destruct (le_total X k HX x y) as [L|L].
  - unfold keys in *. rewrite (same_seg_cut X k HX) in * by auto. destruct S as [S1 S2]. split; [apply (cmem_Rb X k HX); auto|].
    intros c Oc C1 C2. destruct (K c (S2 c Oc C1 C2)) as [H|(n & Hn & Hc)]; auto. exfalso.
    specialize (Nl n Hn). rewrite (mem_inr X k HX) in Nl. pose proof (G n _ Hn (or_introl eq_refl)) as Q.
    rewrite S2 in Q; [discriminate|apply lc_ok; auto| |]; unfold ini, inr in *; clear - HX Nl Hc C1 C2; cord.
  - apply same_seg_sym. apply same_seg_sym in S. unfold keys in *. rewrite (same_seg_cut X k HX) in * by auto. destruct S as [S1 S2].
    assert (G2 : forall n, In n l -> cltb (pt y) (uc (nkey n)) = true -> cltb (pt x) (uc (nkey n)) = false -> False).
    { intros n Hn C1 C2. pose proof (G n _ Hn (or_intror eq_refl)) as Q. rewrite S2 in Q; [discriminate|apply uc_ok; auto|auto|auto]. }
    split.
    { destruct (F (pt y)) as (F1 & _). rewrite F1 in S1. destruct (Rb k (nodes t) (pt y)); auto. rewrite xorb_false_l in S1. exfalso. apply Rb_iff in S1. destruct S1 as (n & Hn & H).
      specialize (Nl n Hn). rewrite (mem_inr X k HX) in Nl. rewrite (le_pt X) in L. apply (G2 n Hn); unfold inr in *; clear - HX Nl H L; cord. }
    intros c Oc C1 C2. destruct (K c (S2 c Oc C1 C2)) as [H|(n & Hn & Hc)]; auto. exfalso.
    specialize (Nl n Hn). rewrite (mem_inr X k HX) in Nl. apply (G2 n Hn); unfold ini, inr in *; clear - HX Nl Hc C1 C2; cord.
Qed.

Lemma step_flips st (t u o : tree) l (n : node) t' : reach st t -> reach st u -> inv k o -> List.incl (l ++ [n]) (nodes o) -> srt k l -> flips st l (nodes t) (nodes u) ->
  step_left st u (nkey n) t' -> flips_left st t o t'.
Proof.
  intros Rt Ru Io Il Sl F (R' & A1 & A2).
  assert (O : forall q x, In q (l ++ [n]) -> mem (nkey q) x -> cmem o x). { intros q x Hq M. apply cmem_nodes. eauto. }
  assert (On : In n (l ++ [n])) by (apply in_app_iff; cbn; auto).
  assert (Cl : forall x, Rb k l (pt x) = true -> cmem o x). { intros x H. apply Rb_iff in H. destruct H as (q & Hq & H). apply (O q); [apply in_app_iff; auto|apply (mem_inr X k HX); auto]. }
  split; auto. split.
  - intros x Hx. apply A1 in Hx. destruct Hx as [Hx|Hx]; [|right; apply (O n); auto].
    rewrite (cmem_Rb X k HX) in Hx. destruct (F (pt x)) as (F1 & _). rewrite F1 in Hx. destruct (Rb k (nodes t) (pt x)) eqn:Et; [left; apply (cmem_Rb X k HX); auto|].
    rewrite xorb_false_l in Hx. right. apply Cl. auto.
  - intros Hst x Hx Nx Ax. apply A2.
    + apply (cmem_Rb X k HX). destruct (F (pt x)) as (F1 & _). rewrite F1. apply (cmem_Rb X k HX) in Hx. rewrite Hx.
      destruct (Rb k l (pt x)) eqn:El; [destruct (Nx (Cl x El))|reflexivity].
    + intros M. apply Nx. apply (O n); auto.
    + intros (s & Hs & Ms & y & M1 & M2). apply Ax. exists (nkey n). split; [unfold keys; apply in_map; apply Il; auto|].
      assert (Il' : List.incl l (nodes o)) by (intros q Hq; apply Il; apply in_app_iff; auto).
      destruct (flips_seg st t u o l Hst (reach_inv X k HX st t Rt) (reach_inv X k HX st u Ru) Io Il' Sl F x y Hx Nx) as (d & Hd & D1 & D2); [exists s; auto|].
      exists d. conjs; auto. exists y. auto.
Qed.

Lemma cfold_pre {A B} (f : A -> B -> cm tree A) g (P : tree -> Prop) (J : list B -> A -> Prop) : (forall a b, follows (f a b) (g a b)) ->
  forall l l0 a, J l0 a ->
  (forall l1 b l2 a, l = l1 ++ b :: l2 -> J (l0 ++ l1) a -> throws (f a b) P /\ forall a', g a b = Ok a' -> J (l0 ++ l1 ++ [b]) a') ->
  throws (cfold f a l) P /\ forall a', foldM g a l = Ok a' -> J (l0 ++ l) a'.
Proof.
  intros AG l. induction l as [|b l IH]; intros l0 a Ja H; cbn [cfold foldM].
  - split; [apply throws_ret|]. intros a' E. injection E as <-. rewrite app_nil_r. auto.
  - destruct (H [] b l a eq_refl) as [T1 G1]; [rewrite app_nil_r; auto|]. cbn [app] in G1.
    assert (ST : forall a', g a b = Ok a' -> throws (cfold f a' l) P /\ forall a'', foldM g a' l = Ok a'' -> J (l0 ++ b :: l) a'').
    { intros a' E. replace (l0 ++ b :: l) with ((l0 ++ [b]) ++ l) by (rewrite <- app_assoc; auto). apply IH; auto.
      intros l1 b' l2 a1 -> J1. destruct (H (b :: l1) b' l2 a1 eq_refl) as [T2 G2]; [rewrite <- app_assoc in J1; auto|]. split; auto. intros a2 E2. rewrite <- app_assoc. apply (G2 a2 E2). }
    split.
    + eapply throws_bind; [apply AG|exact T1|]. intros a' E. apply ST; auto.
    + intros a' E. destruct (g a b) as [a1|] eqn:E1; [|discriminate]. apply (ST a1); auto.
Qed.

Lemma apart_next st (t u : tree) l (n : node) : srt k (l ++ [n]) -> flips st l (nodes t) (nodes u) ->
  (forall c, (Rb k (nodes t) c = true -> inr k (nkey n) c = false) /\ (Lb k (nodes t) c = true -> inl k (nkey n) c = false)) -> apart (nkey n) (nodes u).
Proof.
  intros S F H c. destruct (F c) as (-> & -> & _). destruct (H c) as [A1 A2]. pose proof (srt_app_b X k HX _ _ c S) as (U1 & U2 & _). cbn [Rb Lb] in *. rewrite !orb_false_r in *.
  split; intros Q; rewrite Q in *.
  - destruct (Rb k (nodes t) c); [specialize (A1 eq_refl); discriminate|]. destruct (Rb k l c); auto. destruct (U1 eq_refl); discriminate.
  - destruct (Lb k (nodes t) c); [specialize (A2 eq_refl); discriminate|]. destruct (Lb k l c); auto. destruct (U2 eq_refl); discriminate.
Qed.

Theorem crash_flip_set st st' t o : reach st t -> reach st' o -> survives (c_flip_set X k st t o) (s_flip_set X k st t o) (flips_left st t o).
Proof.
  intros Rt Ro. destruct (thm_flip_set X k HX st st' t o Rt Ro) as (t' & Et' & _). eapply survives_intro; eauto using follows_flip_set. clear t' Et'.
  pose proof (reach_sinv X k HX st t Rt) as Hi. pose proof (reach_inv X k HX st' o Ro) as Io. pose proof Io as [W S].
  unfold c_flip_set. destruct (nodes o) as [|n0 l0] eqn:Eo; [apply throws_ret|]. rewrite <- Eo in *. clear n0 l0 Eo.
  destruct (common_range_at X k HX o t Io (proj1 Hi)) as (L & M & R & r & -> & E & HL & HR & Hr). apply throws_ok.
  assert (F : forall c, _) by (intros c; apply (befor_out X k HX (nodes t) L M R c); auto; [apply srt_nes; apply Hi|rewrite <- E; apply srt_nes; apply Io]).
  assert (FL : forall n c, In n L \/ In n R -> (Rb k (nodes t) c = true -> inr k (nkey n) c = false) /\ (Lb k (nodes t) c = true -> inl k (nkey n) c = false)).
  { intros n c Hn. destruct (F c) as (F1 & F2 & _). split; intros H; [destruct (F1 H) as (G1 & _ & G2 & _)|destruct (F2 H) as (G1 & _ & G2 & _)].
    - destruct (inr k (nkey n) c) eqn:Q; auto. destruct Hn as [Hn|Hn]; [rewrite <- G1|rewrite <- G2]; symmetry; apply Rb_iff; eauto.
    - destruct (inl k (nkey n) c) eqn:Q; auto. destruct Hn as [Hn|Hn]; [rewrite <- G1|rewrite <- G2]; symmetry; apply Lb_iff; eauto. }
  assert (SP : forall l1 (b : node) l2, nodes o = l1 ++ b :: l2 -> srt k (l1 ++ [b]) /\ srt k l1 /\ ne (nkey b) /\ List.incl (l1 ++ [b]) (nodes o)).
  { intros l1 b l2 Q. rewrite Q in S. pose proof (proj1 (srt_mid X k HX _ _ _) S) as (S1 & _ & Nb & _). replace (l1 ++ b :: l2) with ((l1 ++ [b]) ++ l2) in S by (rewrite <- app_assoc; auto).
    apply srt_app in S. conjs; [tauto|tauto|auto|]. rewrite Q. intros q Hq. rewrite in_app_iff in *. cbn in *. tauto. }
  set (J := fun l (u : tree) => reach st u /\ flips st l (nodes t) (nodes u)).
  assert (ADD : forall l1 (b : node) l2 u u' (h : iter), nodes o = l1 ++ b :: l2 -> In b L \/ In b R -> J l1 u -> reach st u' ->
     addsP st [nkey b] (nodes u) (nodes u') -> J (l1 ++ [b]) u').
  { intros l1 b l2 u u' h Q Hb (Ru & Fu) R' A. destruct (SP l1 b l2 Q) as (S1 & S2 & Nb & Inc). split; auto. eapply (flips_snoc X k HX); eauto. apply (flip_apart X k HX); auto.
    eapply apart_next; eauto. }
  assert (TH : forall l1 (b : node) l2 u t', nodes o = l1 ++ b :: l2 -> J l1 u -> step_left st u (nkey b) t' -> flips_left st t o t').
  { intros l1 b l2 u t' Q (Ru & Fu) H. destruct (SP l1 b l2 Q) as (S1 & S2 & Nb & Inc). eapply step_flips; eauto. }
  assert (J0 : J [] t) by (split; auto; apply flips_nil).
  destruct Hr as [[-> ->]|[-> _]].
  - (* no common range *) cbn [app] in E. unfold c_add_set.
    destruct (cfold_pre (fun '(t, prior_) (n : node) => c_add_hint X k st t prior_ (nkey n)) (fun '(t, prior_) (n : node) => s_add_hint X k st t prior_ (nkey n)) (flips_left st t o)
       (fun l '(u, h) => J l u /\ hint_ok X u h)) with (l := nodes o) (l0 := @nil node) (a := (t, end_ t)) as [T1 _].
    + intros [u i] b. apply follows_add_hint.
    + split; auto. exact Logic.I.
    + intros l1 b l2 [u h] Q (Ju & Hh). cbn [app] in Ju. split.
      * eapply throws_impl; [apply (add_hint_throws' X k HX); [apply Ju|auto]|]. intros t' (R' & _ & A1 & _ & A3 & _). eapply TH; eauto. split; auto.
      * intros [u' h'] E'. cbn [app]. destruct Ju as [Ru Fu]. destruct (hint_step X k HX st u h (nkey b) u' h' Ru Hh E') as (R' & Hh' & _). split; auto.
        destruct (SP l1 b l2 Q) as (_ & _ & Nb & _). apply (ADD l1 b l2 u u' h'); auto; [rewrite E in Q; rewrite <- in_app_iff, Q, in_app_iff; cbn; auto|split; auto|].
        destruct (s_add_hint_at X k HX st u h (nkey b) (reach_sinv X k HX st u Ru) (proj1 (hint_isit X u h) Hh) Nb) as (v & i & E2 & _ & _ & A).
        rewrite E' in E2. injection E2 as <- <-. apply added_adds; auto.
    + eapply throws_bind; [|exact T1|intros [u h] _; apply throws_ret].
      apply (follows_cfold (fun '(t, prior_) (n : node) => c_add_hint X k st t prior_ (nkey n)) (fun '(t, prior_) (n : node) => s_add_hint X k st t prior_ (nkey n))). intros [u i] b. apply follows_add_hint.
  - assert (FA : forall (u : tree) (n : node), follows (T := tree) (cbind (c_add X k st u (nkey n)) (fun '(t, _) => cret t)) (' (t, _) <- s_add X k st u (nkey n) ;; Ok t)).
    { intros u b. apply follows_bind; [apply follows_add|]. intros [v h]. apply follows_ret. }
    assert (SA : forall l1 (b : node) l2 u, nodes o = l1 ++ b :: l2 -> In b L \/ In b R -> J l1 u ->
      throws (cbind (c_add X k st u (nkey b)) (fun '(t, _) => cret t)) (flips_left st t o) /\ forall u', (' (t, _) <- s_add X k st u (nkey b) ;; Ok t) = Ok u' -> J (l1 ++ [b]) u').
    { intros l1 b l2 u Q Hb Ju. split.
      - eapply throws_bind; [apply follows_add| |intros [v h] _; apply throws_ret]. eapply throws_impl; [apply add_step; apply Ju|]. intros t' H. eapply TH; eauto.
      - intros u' E'. destruct (s_add_adds X k HX st u (nkey b) (reach_sinv X k HX st u (proj1 Ju))) as (v & h & E2 & _ & _ & A). rewrite E2 in E'. cbn [bind] in E'. injection E' as <-.
        apply (ADD l1 b l2 u v h); auto. eapply R_add; [apply Ju|eauto]. }
    replace (begin_ o) with (hd_it (L ++ M ++ R)) by (rewrite begin_at, E; auto).
    rewrite (range_at X o [] L (M ++ R)) by auto. apply throws_ok.
    destruct (cfold_pre (fun u n => cbind (c_add X k st u (nkey n)) (fun '(t, _) => cret t)) (fun u n => ' (t, _) <- s_add X k st u (nkey n) ;; Ok t) (flips_left st t o) J FA L [] t J0) as [T1 G1].
    { intros l1 b l2 u Q Ju. cbn [app] in *. apply (SA l1 b (l2 ++ M ++ R)); auto; [rewrite E, Q, <- app_assoc; auto|]. left. rewrite Q, in_app_iff. cbn; auto. }
    eapply throws_bind; [apply follows_cfold; exact FA|exact T1|]. intros t1 E1. specialize (G1 t1 E1). cbn [app] in G1.
    rewrite (range_at X o L M R) by auto. apply throws_ok.
    destruct (cfold_pre (fun u n => c_flip_seg X k st u (nkey n)) (fun u n => s_flip_seg X k st u (nkey n)) (flips_left st t o) J (fun u n => follows_flip_seg st u (nkey n)) M L t1 G1) as [T2 G2].
    { intros l1 b l2 u Q Ju. assert (Qo : nodes o = (L ++ l1) ++ b :: l2 ++ R) by (rewrite E, Q, <- !app_assoc; auto). destruct (SP _ b _ Qo) as (S1 & S2 & Nb & Inc). split.
      - eapply throws_impl; [apply flip_throws; auto; apply Ju|]. intros t' H. eapply TH; eauto.
      - intros u' E'. destruct Ju as [Ru Fu]. destruct (s_flip_seg_at X k HX st u (nkey b) (reach_sinv X k HX st u Ru) Nb) as (v & E2 & _ & A). rewrite E2 in E'. injection E' as <-.
        split; [eapply R_flip; eauto|]. rewrite app_assoc. eapply (flips_snoc X k HX); eauto. }
    eapply throws_bind; [apply follows_cfold; intros; apply follows_flip_seg|exact T2|]. intros t2 E2. specialize (G2 t2 E2).
    replace (range X o (hd_it R) (end_ o)) with (Ok R).
    2:{ change (end_ o) with (hd_it []). symmetry. rewrite <- (app_nil_r R) at 1. apply (range_at X o (L ++ M) R []); auto.
        rewrite app_nil_r, <- app_assoc. auto. }
    apply throws_ok.
    destruct (cfold_pre (fun u n => cbind (c_add X k st u (nkey n)) (fun '(t, _) => cret t)) (fun u n => ' (t, _) <- s_add X k st u (nkey n) ;; Ok t) (flips_left st t o) J FA R (L ++ M) t2 G2) as [T3 _]; auto.
    intros l1 b l2 u Q Ju. rewrite app_assoc. apply (SA _ b l2); auto; [rewrite E, Q, <- !app_assoc; auto|]. right. rewrite Q, in_app_iff. cbn; auto.
Qed.
End CrashFlip.

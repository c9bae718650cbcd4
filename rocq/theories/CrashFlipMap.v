(** Running out of memory in symmetric differences of interval maps (proofs). *)
From Verif Require Export CrashFlipMapModel StableAll MapFlip.

Lemma follows_locally {T T' A} (t : T) (m : cm T' A) r : follows m r -> follows (locally t m) r.
Proof.
  intros (c & H). exists c. intros n. destruct (H n) as [H1 H2]. unfold locally. split; intros Hn; [rewrite (H1 Hn); destruct r; auto|]. destruct (H2 Hn) as (u & ->). eauto.
Qed.
Lemma throws_locally {T T' A} (t : T) (m : cm T' A) (P : T -> Prop) : P t -> throws (locally t m) P.
Proof. intros H n u. unfold locally. destruct (m n); intros Q; inversion Q; subst; auto. Qed.
Lemma throws_ok2 {T A B} (a : A) (f : A -> cm T B) P (Q : Prop) : throws (f a) P /\ Q -> throws (cbind (lift (Ok a)) f) P /\ Q.
Proof. intros [H1 H2]. split; [apply throws_ok|]; auto. Qed.

Section CrashFlipMap.
Context (X : dom) (k : kind).
Context (HX : dom_ok X k).
Context (CC : codomain) (Hco : eq_ok CC).
Notation V := (C CC).
Notation I := (itv (D X)).
Notation lc := (lc X k).
Notation uc := (uc X k).
Notation pt := (pt X).
Notation cltb := (cltb X).
Notation ne := (@ne X k).
Notation tree := (tree (D X) V).
Notation iset := (Tree.tree (D X) unit).
Notation mem := (mem X k).
Notation at_ := (at_ X k CC).
Notation mreach := (mreach X k CC).
Notation usable := (usable X k CC).
Notation old_new_none := (old_new_none X k CC).
Notation stable := (stable X k (V := V)).
Notation stable_all := (stable_all X k (V := V)).
Notation keys := (keys X).
Notation vf t := (vr k (nodes t)).
Ltac cord := cord_ X k HX.
Ltac at_r := rewrite ?(at_vr X k HX CC).

Section Follows.
Context (M : mtype).
Notation imap := (Tree.tree (D X) (C (mt_co M))).
Lemma follows_mflip_loop fuel : forall (t : imap) er isec span v i e, follows (cm_flip_loop X k M fuel t er isec span v i e) (m_flip_loop X k M fuel t er isec span v i e).
Proof.
  induction fuel as [|fuel IH]; intros t er isec span v i e; cbn [cm_flip_loop m_flip_loop]; [apply (follows_lift (Err Fuel))|].
  destruct (negb _); [|apply follows_ret]. apply follows_bind; [apply follows_lift|]. intros n. apply follows_bind; [apply follows_lift|]. intros it.
  apply follows_bind.
  - destruct (negb _); [|apply follows_ret]. apply follows_bind; [apply follows_locally, follows_add|]. intros [er' h].
    apply follows_bind; [apply follows_locally, follows_m_add|]. intros is'. apply follows_ret.
  - intros [er' is']. apply follows_bind; [apply follows_m_add|]. intros t'. apply IH.
Qed.
Lemma follows_mflip_seg (t : imap) a v : follows (cm_flip_seg X k M t a v) (m_flip_seg X k M t a v).
Proof.
  unfold cm_flip_seg, m_flip_seg. destruct (mt_total M).
  - destruct (mt_absorbs M); [apply follows_ret|]. apply follows_bind; [apply follows_m_add|]. intros. apply follows_lift.
  - apply follows_bind; [apply follows_lift|]. intros [f e]. apply follows_bind; [apply follows_mflip_loop|]. intros [[[t1 er] is] sp].
    apply follows_bind; [apply follows_m_add|]. intros t2. apply follows_bind; [apply follows_erase_set|]. intros t3. apply follows_add_map.
Qed.
Lemma follows_mflip_map (t o : imap) : follows (cm_flip_map X k M t o) (m_flip_map X k M t o).
Proof.
  unfold cm_flip_map, m_flip_map. destruct (mt_total M).
  - destruct (mt_absorbs M); [apply follows_ret|]. apply follows_bind; [apply follows_add_map|]. intros. apply follows_lift.
  - apply follows_bind; [apply follows_lift|]. intros [[lw up]|]; [|apply follows_add_map].
    apply follows_bind; [apply follows_lift|]. intros l1. apply follows_bind; [apply follows_cfold; intros; apply follows_m_add|]. intros t1.
    apply follows_bind; [apply follows_lift|]. intros l2. apply follows_bind; [apply follows_cfold; intros; apply follows_mflip_seg|]. intros t2.
    apply follows_bind; [apply follows_lift|]. intros l3. apply follows_cfold; intros; apply follows_m_add.
Qed.
End Follows.

Section One.
Context (p : mpar).
Notation M := (mt CC p).
Notation sst := (m_set_style M).
Hint Resolve mreach_minv mreach_inv mreach_aok : core.

Lemma mreach_usable t : mreach p t -> usable p t.
Proof. intros H. apply (usable_intro X k HX CC Hco); [eapply mreach_inv; eauto|auto|]. intros t'' E. eapply M_join; eauto. Qed.

(** what an interrupted addition of v on the interval a leaves *)
Definition adding v a (t t' : tree) : Prop := usable p t' /\ stable (joins p) a t t' /\ forall x,
  at_ t' x = at_ t x \/ (mem a x /\ at_ t' x = add_val CC p v (at_ t x)) \/ at_ t' x = None.
Lemma add_adding t a v : mreach p t -> throws (cm_add X k M t a v) (adding v a t).
Proof.
  intros R. eapply throws_impl; [apply (m_add_throws X k HX CC Hco p t R)|]. intros t' (U & (f & _ & F) & L & K). split; auto. split; [exact K|]. intros x.
  destruct (inr k a (pt x)) eqn:Ex.
  - assert (Mx : mem a x) by (apply (in_mem X k HX); auto). rewrite (F x Mx). destruct (f x); auto.
  - destruct (L x) as [->|[-> _]]; auto. rewrite <- (in_mem X k HX). congruence.
Qed.
(** the values while gaps of t inside a are filled with v *)
Definition filling v a (t t' : tree) : Prop := forall x, at_ t' x = at_ t x \/ (at_ t x = None /\ mem a x /\ at_ t' x = add_val CC p v None) \/ at_ t' x = None.

Lemma flip_loop_throws v : forall N fuel (t : tree) (er : iset) (isec : tree) span L R,
  mreach p t -> reach X k sst er -> mreach p isec -> nodes t = L ++ N ++ R ->
  (N <> [] -> ne span) -> (ne span -> below k L (lc span) /\ Forall (over k span) N /\ above k R (uc span)) ->
  throws (cm_flip_loop X k M fuel t er isec span v (Tree.hd_it (N ++ R)) (Tree.hd_it R)) (fun t' => usable p t' /\ stable (joins p) span t t' /\ filling v span t t') /\
  forall t' er' isec' span', m_flip_loop X k M fuel t er isec span v (Tree.hd_it (N ++ R)) (Tree.hd_it R) = Ok (t', er', isec', span') ->
    mreach p t' /\ reach X k sst er' /\ mreach p isec' /\ stable (joins p) span t t'.
Proof.
  induction N as [|n N IH]; intros [|fuel] t er isec span L R Ht Her His E HN HS; cbn [cm_flip_loop m_flip_loop]; try (split; [apply throws_lift|discriminate]).
  - cbn [app]. rewrite iter_eqb_refl. cbn [negb]. split; [apply throws_ret|]. intros t' er' isec' span' Q. injection Q as <- <- <- <-. conjs; auto. apply stable_refl.
  - assert (Ns : ne span) by (apply HN; discriminate). destruct (HS Ns) as (BL & ON & AR).
    assert (Hm : minv X k M t) by eauto. assert (W : wf t) by apply Hm. assert (S : srt k (nodes t)) by apply Hm. pose proof S as S'. rewrite E in S'. cbn [app] in S', E.
    pose proof (MapFacts.srt_ne X k HX M _ _ _ S') as Nn. pose proof (MapFacts.srt_above X k HX M _ _ _ S') as AN. apply above_app in AN. destruct AN as [AN ARn].
    inversion ON as [|? ? On ON']; subst. destruct On as [O1 O2]. pose proof Nn as Nn'. pose proof Ns as Ns'. unfold Seg.ne in Nn', Ns'.
    cbn [app Tree.hd_it].
    assert (EQI : iter_eqb (Some (nid n)) (Tree.hd_it R) = false).
    { change (Some (nid n)) with (Tree.hd_it ((n :: N) ++ R)). rewrite (iter_eqb_hd X t L (n :: N) R) by auto. auto. }
    rewrite EQI. cbn [negb]. 
    cbn [mt_co mt] in *. rewrite !(deref_at X t L n (N ++ R)) by auto. rewrite !(incr_at X t L n (N ++ R)) by auto. cbn [bind].
    apply throws_ok2. apply throws_ok2. cbn [mt_co mt] in *.
    set (lo := right_subtract X k span (nkey n)). set (co := inter X k span (nkey n)). set (sp := left_subtract X k span (nkey n)).
    assert (Hlo : forall c, inr k lo c = inr k span c && cltb c (lc (nkey n))).
    { intros c. unfold inr. destruct (cltb (lc span) (lc (nkey n))) eqn:C.
      - destruct (rsub_ne X k HX span (nkey n) Ns Nn O1 C) as [A1 A2]. fold lo in A1, A2. rewrite A1. cord.
      - pose proof (rsub_e X k HX span (nkey n) Ns Nn O1 C) as A1. fold lo in A1. apply (not_ne X k HX) in A1. cord. }
    assert (Hlo2 : ne lo -> below k L (lc lo) /\ cltb (lc (nkey n)) (uc lo) = false).
    { intros Nl. unfold Seg.ne in Nl. destruct (cltb (lc span) (lc (nkey n))) eqn:C.
      - destruct (rsub_ne X k HX span (nkey n) Ns Nn O1 C) as [A1 A2]. fold lo in A1, A2. rewrite A1. split; auto. cord.
      - pose proof (rsub_e X k HX span (nkey n) Ns Nn O1 C) as A1. fold lo in A1. apply (not_ne X k HX) in A1. cord. }
    assert (Hsp : forall c, inr k sp c = inr k span c && negb (cltb c (uc (nkey n)))).
    { intros c. unfold inr. destruct (cltb (uc (nkey n)) (uc span)) eqn:C.
      - destruct (lsub_ne X k HX span (nkey n) Nn Ns O2 C) as [A1 A2]. fold sp in A1, A2. rewrite A2. cord.
      - pose proof (lsub_e X k HX span (nkey n) Nn Ns O2 C) as A1. fold sp in A1. apply (not_ne X k HX) in A1. cord. }
    assert (Nco : is_empty X k co = false).
    { apply (ne_iff X k HX). unfold Seg.ne, co. rewrite inter_lc, inter_uc by auto. unfold cmax, cmin. repeat ifg; cord. }
    rewrite Nco. cbn [negb].
    change (if cc_set_sem CC then combine CC (inverse_codomain_intersect M) v (nval n) else cc_zero) with (yv M v (nval n)).
    destruct (thm_add X k HX sst er co Her) as (er1 & he & Eer & _). pose proof (R_add X k sst er co er1 he Her Eer) as Rer.
    destruct (thm_madd X k HX CC Hco p isec His co (yv M v (nval n))) as (is1 & Eis & _). pose proof (M_add X k CC p isec co _ is1 His Eis) as Ris.
    destruct (add_gap_at X k HX M Hco t L n (N ++ R) lo v Hm E Hlo2) as (t1 & L1 & Et1 & Ht1 & E1 & BL1 & C1). cbn [mt_co mt] in E1, BL1. pose proof (M_add X k CC p t lo v t1 Ht Et1) as R1.
    assert (Nsp : forall m, In m N -> cltb (uc (nkey n)) (uc span) = true).
    { intros m Hm'. unfold above in AN. rewrite Forall_forall in AN, ON'. specialize (AN m Hm'). destruct (ON' m Hm') as [P1 P2]. cord. }
    assert (NN : N <> [] -> ne sp).
    { intros NN. destruct N as [|m N']; [congruence|]. specialize (Nsp m (or_introl eq_refl)).
      destruct (lsub_ne X k HX span (nkey n) Nn Ns O2 Nsp) as [A1 A2]. fold sp in A1, A2. unfold Seg.ne. rewrite A2. cord. }
    assert (HS1 : ne sp -> below k L1 (lc sp) /\ Forall (over k sp) N /\ above k R (uc sp)).
    { intros Np. destruct (cltb (uc (nkey n)) (uc span)) eqn:C.
      - destruct (lsub_ne X k HX span (nkey n) Nn Ns O2 C) as [A1 A2]. fold sp in A1, A2. rewrite A2. conjs; auto.
        + eapply below_le; eauto. cord.
        + unfold above in AN. rewrite Forall_forall in *. intros m Hm'. specialize (AN m Hm'). destruct (ON' m Hm') as [P1 P2].
          assert (Nm : ne (nkey m)). { apply (srt_in X k M (nodes t)); auto. rewrite E. apply in_app_iff. right. right. apply in_app_iff. auto. }
          unfold Seg.ne in Nm. unfold over. rewrite A2. split; auto. cord.
      - pose proof (lsub_e X k HX span (nkey n) Nn Ns O2 C) as A1. fold sp in A1. apply (not_ne X k HX) in A1. unfold Seg.ne in Np. congruence. }
    destruct (IH fuel t1 er1 is1 sp L1 R R1 Rer Ris E1 NN HS1) as [TH OKS].
    assert (V1 : forall x, mem lo x -> mem span x /\ at_ t x = None).
    { intros x Mx. apply (in_mem X k HX) in Mx. rewrite Hlo in Mx. apply andb_true_iff in Mx. destruct Mx as [P1 P2]. split; [apply (in_mem X k HX); auto|]. at_r.
      unfold inr in P1. apply andb_true_iff in P1. destruct P1 as [P0 P1]. apply negb_true_iff in P0.
      rewrite E, (vr_app X k), (vr_below X k HX L _ (pt x) BL P0). cbn [orelse].
      apply (vr_above X k HX (n :: N ++ R) (lc (nkey n))); auto. apply above_cons. split; [cord|].
      apply above_app; split; [eapply (above_ge X k HX); [exact AN|cord]|eapply (above_ge X k HX); [exact ARn|cord]]. }
    assert (V2 : forall x, mem sp x -> mem span x).
    { intros x Mx. apply (in_mem X k HX) in Mx. rewrite Hsp in Mx. apply andb_true_iff in Mx. apply (in_mem X k HX). tauto. }
    assert (V3 : forall x, at_ t1 x = at_ t x \/ mem lo x /\ at_ t1 x = add_val CC p v None).
    { pose proof (chg_changed X k HX CC p t t1 lo _ _ C1 (ga_plus CC p (codomain_combine M) v)) as Q. intros x. destruct (Q x) as [Q1 Q2].
      destruct (inr k lo (pt x)) eqn:El; [right|left; apply Q2; rewrite <- (in_mem X k HX); congruence]. assert (Mx : mem lo x) by (apply (in_mem X k HX); auto).
      split; auto. rewrite (Q1 Mx), (proj2 (V1 x Mx)). auto. }
    assert (K1 : stable (joins p) span t t1) by (apply (stable_sub X k _ span lo); [intros x Mx; apply V1; auto|]; apply (m_add_both X k HX CC Hco p t lo v Ht); exact Et1).
    assert (K2 : forall t', stable (joins p) sp t1 t' -> stable (joins p) span t t') by (intros t' K; eapply stable_trans; [exact K1|]; apply (stable_sub X k _ span sp); auto).
    split.
    + apply (throws_bind _ (' (eraser, _) <- s_add X k sst er co ;; is' <- m_add X k M isec co (yv M v (nval n)) ;; Ok (eraser, is'))).
      * apply follows_bind; [apply follows_locally, follows_add|]. intros [er' h]. apply follows_bind; [apply follows_locally, (follows_m_add X k M)|]. intros is'. apply follows_ret.
      * assert (P0 : usable p t /\ stable (joins p) span t t /\ filling v span t t) by (conjs; [apply mreach_usable; auto|apply stable_refl|intros x; auto]).
        eapply throws_bind; [apply follows_locally, follows_add|apply throws_locally; auto|]. intros [er' h] _.
        eapply throws_bind; [apply follows_locally, (follows_m_add X k M)|apply throws_locally; auto|]. intros is' _. apply throws_ret.
      * intros [er' is'] Q. rewrite Eer in Q. cbn [bind] in Q. rewrite Eis in Q. cbn [bind] in Q. injection Q as <- <-.
        eapply throws_bind; [apply (follows_m_add X k M)| |].
        { eapply throws_impl; [apply add_adding; auto|]. intros t' (U & K & A). split; auto. split; [apply (stable_sub X k _ span lo); auto; intros x Mx; apply V1; auto|].
          intros x. destruct (A x) as [A1|[(Mx & A1)|A1]]; auto.
          destruct (V1 x Mx) as [Mx' N0]. rewrite N0 in A1. right. left. auto. }
        intros t1' Q. assert (t1' = t1) by (rewrite Et1 in Q; inversion Q; auto). subst t1'. eapply throws_impl; [exact TH|].
        intros t' (U & K & A). split; auto. split; auto. intros x. destruct (A x) as [A1|[(N1 & Mx & A1)|A1]]; auto.
        -- rewrite A1. destruct (V3 x) as [->|[Ml ->]]; auto. destruct (V1 x Ml). auto.
        -- right. left. split; [|auto]. destruct (V3 x) as [Q1|[Ml _]]; [congruence|]. apply V1. auto.
    + intros t' er' isec' span' Q. rewrite Eer in Q. cbn [bind] in Q. rewrite Eis in Q. cbn [bind] in Q. rewrite Et1 in Q. cbn [bind] in Q. destruct (OKS _ _ _ _ Q) as (Q1 & Q2 & Q3 & Q4). conjs; auto.
Qed.

(** what an interrupted symmetric difference with (a, v) leaves *)
Definition flipping v a (t t' : tree) : Prop := usable p t' /\ stable (joins p) a t t' /\ forall x,
  at_ t' x = at_ t x \/ (mem a x /\ at_ t' x = flip_val CC p v (at_ t x)) \/ at_ t' x = None.
Lemma flip_throws t a v : mp_total p = false -> proper CC p -> mreach p t -> ne a -> throws (cm_flip_seg X k M t a v) (flipping v a t) /\
  forall t', m_flip_seg X k M t a v = Ok t' -> stable (joins p) a t t'.
Proof.
  intros Et P Ht Na. assert (Hm : minv X k M t) by eauto. assert (W : wf t) by apply Hm. assert (S : srt k (nodes t)) by apply Hm. unfold cm_flip_seg, m_flip_seg. cbn [mt_total mt mt_co]. rewrite Et.
  destruct (decomp X k HX a (nodes t) S Na) as (L & N & R & E & BL & ON & AR).
  rewrite (SetWhole.equal_range_at X k HX t L N R a) by auto. cbn [bind]. apply throws_ok2.
  destruct (flip_loop_throws v N (Datatypes.S (length (nodes t))) t t_empty t_empty a L R Ht (R_clear X k sst) (M_clear X k CC p) E) as [TH OKS]; auto.
  destruct (flip_loop_at X k HX M Hco v N (Datatypes.S (length (nodes t))) t t_empty t_empty a L R) as (t1 & er & isec & span & E1 & Ht1 & Her & His & Q); auto.
  { apply sinv_empty. } { apply minv_empty. } { cbn [mt_co mt]. rewrite E, !app_length. clear. lia. }
  destruct (OKS _ _ _ _ E1) as (R1 & Re & Ri & K1).
  destruct (thm_madd X k HX CC Hco p t1 R1 span v) as (t2 & E2 & C2). pose proof (M_add X k CC p t1 span v t2 R1 E2) as R2.
  destruct (thm_merase_set X k HX CC Hco p sst t2 er R2 Re) as (t3 & E3 & C3). pose proof (M_erase_set X k CC p sst t2 er t3 R2 Re E3) as R3.
  assert (F1 : forall x, (mem span x -> mem a x /\ at_ t x = None) /\ (at_ t1 x = at_ t x \/ at_ t x = None /\ mem a x /\ at_ t1 x = add_val CC p v None)).
  { intros x. specialize (Q (pt x)). cbv zeta in Q. destruct Q as (Q1 & Q2 & _). rewrite <- !(in_mem X k HX). at_r. split; [exact Q1|].
    cbn [mt_co mt] in *. rewrite Q2. destruct (inr k a (pt x)); cbn [andb]; auto. destruct (negb _); auto. unfold keepor. destruct (vr k (nodes t) (pt x)); auto. }
  assert (F2 : forall x, at_ t2 x = at_ t x \/ at_ t x = None /\ mem a x /\ at_ t2 x = add_val CC p v None).
  { intros x. destruct (C2 x) as [Q1 Q2]. destruct (F1 x) as [G1 G2]. destruct (inr k span (pt x)) eqn:Es.
    - assert (Mx : mem span x) by (apply (in_mem X k HX); auto). destruct (G1 Mx) as [Ma N0]. right. conjs; auto. rewrite (Q1 Mx).
      specialize (Q (pt x)). cbv zeta in Q. destruct Q as (_ & Q3 & _). rewrite Es in Q3. cbn [negb] in Q3. rewrite andb_false_r in Q3.
      replace (at_ t1 x) with (at_ t x) by (at_r; auto). rewrite N0. auto.
    - rewrite Q2 by (rewrite <- (in_mem X k HX); congruence). auto. }
  assert (SP : forall x, mem span x -> mem a x) by (intros x; apply F1).
  assert (EA : forall b x, In b (keys er) -> mem b x -> mem a x).
  { intros b x Hb Mx. apply in_map_iff in Hb. destruct Hb as (n & <- & Hn). apply (in_mem X k HX) in Mx. assert (Qr : Rb k (nodes er) (pt x) = true) by (apply (Rb_iff X k); eauto).
    specialize (Q (pt x)). cbv zeta in Q. destruct Q as (_ & _ & Q6 & _). rewrite Q6 in Qr. cbn [t_empty nodes Rb orb] in Qr. apply (in_mem X k HX). destruct (inr k a (pt x)); auto. }
  assert (IA : forall b x, In b (keys isec) -> mem b x -> mem a x).
  { intros b x Hb Mx. apply in_map_iff in Hb. destruct Hb as (n & <- & Hn). apply (in_mem X k HX) in Mx.
    assert (Qr : vr k (nodes isec) (pt x) = Some (nval n)) by (apply (vr_some X k HX); [apply His|exists n; auto]).
    specialize (Q (pt x)). cbv zeta in Q. destruct Q as (_ & _ & _ & Q7). cbn [mt_co mt] in *. rewrite Q7 in Qr. cbn [t_empty nodes vr] in Qr. apply (in_mem X k HX). destruct (inr k a (pt x)); auto. discriminate. }
  destruct (m_add_both X k HX CC Hco p t1 span v R1) as [_ K2']. destruct (K2' t2 E2) as [_ K2]. clear K2'.
  assert (K12 : stable (joins p) a t t2) by (eapply stable_trans; [exact K1|]; apply (stable_sub X k _ a span); auto).
  destruct (any_erase_set X k HX CC Hco p sst t2 er R2 Re) as [K3t K3].
  assert (KE : forall t', stable_all false (keys er) t2 t' -> stable (joins p) a t t').
  { intros t' K. eapply stable_trans; [exact K12|]. apply (stable_weak X k HX). eapply (all_stable X k); [exact EA|exact K]. }
  pose proof (KE t3 (K3 t3 E3)) as K13.
  destruct (any_add_map X k HX CC Hco p p t3 isec R3 Ri P) as [K4t K4].
  assert (KI : forall t', stable_all (joins p) (keys isec) t3 t' -> stable (joins p) a t t').
  { intros t' K. eapply stable_trans; [exact K13|]. eapply (all_stable X k); [exact IA|exact K]. }
  split.
  2:{ intros t'. cbn [mt_co mt] in *. rewrite E1. cbn [bind]. rewrite E2. cbn [bind]. rewrite E3. cbn [bind]. intros E4. apply KI, K4. exact E4. }
  eapply throws_bind; [apply (follows_mflip_loop M)| |].
  { eapply throws_impl; [exact TH|]. intros t' (U & K & A). split; auto. split; auto. intros x. destruct (A x) as [A1|[(N0 & Mx & A1)|A1]]; auto. right. left. rewrite N0. auto. }
  intros [[[t1' er'] isec'] span'] E1'. assert (t1' = t1 /\ er' = er /\ isec' = isec /\ span' = span) as (-> & -> & -> & ->) by (pose proof (eq_trans (eq_sym E1) E1') as EE; inversion EE; auto). clear E1'.
  eapply throws_bind; [apply (follows_m_add X k M)| |].
  { eapply throws_impl; [apply add_adding; auto|]. intros t' (U & K & A). split; auto. split; [eapply stable_trans; [exact K1|]; apply (stable_sub X k _ a span); auto|]. intros x. destruct (F1 x) as [G1 G2].
    destruct (A x) as [A1|[(Mx & A1)|A1]]; auto.
    - rewrite A1. destruct G2 as [->|(N0 & Ma & ->)]; auto. right. left. rewrite N0. auto.
    - destruct (G1 Mx) as [Ma N0]. right. left. split; auto. rewrite A1, N0. cbn [flip_val]. f_equal.
      specialize (Q (pt x)). cbv zeta in Q. destruct Q as (_ & Q3 & _). apply (in_mem X k HX) in Mx. rewrite Mx in Q3. cbn [negb] in Q3. rewrite andb_false_r in Q3.
      rewrite <- N0. at_r. auto. }
  intros t2' E2'. assert (t2' = t2) by (pose proof (eq_trans (eq_sym E2) E2') as EE; inversion EE; auto). subst t2'.
  eapply throws_bind; [apply (follows_erase_set X k M)| |].
  { intros n t' TT. split; [|split].
    - apply mreach_usable. apply (survives_throws _ _ _ (crash_erase_set X k HX CC Hco p sst t2 er R2 Re) n t' TT).
    - apply KE. apply (survives_throws _ _ _ K3t n t' TT).
    - destruct (survives_throws _ _ _ (crash_erase_set X k HX CC Hco p sst t2 er R2 Re) n t' TT) as (R' & A).
      intros x. destruct (A x) as [->| ->]; auto. destruct (F2 x) as [->|(N0 & Ma & ->)]; auto. right. left. rewrite N0. auto. }
  intros t3' E3'. assert (t3' = t3) by (pose proof (eq_trans (eq_sym E3) E3') as EE; inversion EE; auto). subst t3'.
  intros n t' TT. destruct (survives_throws _ _ _ (crash_add_map X k HX CC Hco p p t3 isec R3 Ri P) n t' TT) as (U & A). split; auto. split; [apply KI; apply (survives_throws _ _ _ K4t n t' TT)|].
  intros x. destruct (C3 x) as [Q1 Q2]. rewrite (cmem_Rb X k HX) in Q1, Q2.
  destruct (A x) as [A1|[(w & Iw & A1)|A1]]; auto.
  - rewrite A1. destruct (Rb k (nodes er) (pt x)) eqn:Ee; [rewrite Q1; auto|]. rewrite Q2 by congruence. destruct (F2 x) as [->|(N0 & Ma & ->)]; auto. right. left. rewrite N0. auto.
  - specialize (Q (pt x)). cbv zeta in Q. destruct Q as (_ & _ & Q6 & Q7). rewrite (at_vr X k HX CC) in Iw. rewrite (at_vr X k HX CC t). cbn [mt_co mt] in *. rewrite Q7 in Iw. cbn [nodes t_empty vr Rb orb] in *.
    destruct (inr k a (pt x) && negb (inr k span (pt x))) eqn:Ed; [|discriminate]. apply andb_true_iff in Ed. destruct Ed as [Ea _].
    destruct (vr k (nodes t) (pt x)) as [w0|] eqn:Ew; [|discriminate]. right. left. split; [apply (in_mem X k HX); auto|].
    rewrite A1, Q1 by auto. rewrite <- gflip_flip. unfold gflip. cbn [mt_co mt] in *. rewrite Iw, ga_plus. auto.
Qed.
Theorem any_mflip t a v : mp_total p = false -> proper CC p -> mreach p t -> (exists x, mem a x) ->
  in_any_case (cm_flip_seg X k M t a v) (m_flip_seg X k M t a v) (stable (joins p) a t).
Proof.
  intros Et P R Hx. destruct (thm_mflip X k HX CC Hco p t R a v Et P Hx) as (t' & E & _). apply (ne_ex X k HX) in Hx. destruct (flip_throws t a v Et P R Hx) as [T G].
  apply any_case; [apply (follows_mflip_seg M)|eauto|]. split; auto. eapply throws_impl; [exact T|]. intros u (_ & K & _). exact K.
Qed.
Theorem crash_mflip t a v : mp_total p = false -> proper CC p -> mreach p t -> (exists x, mem a x) ->
  survives (cm_flip_seg X k M t a v) (m_flip_seg X k M t a v) (flipping v a t).
Proof.
  intros Et P R Hx. destruct (thm_mflip X k HX CC Hco p t R a v Et P Hx) as (t' & E & _). eapply survives_intro; eauto using follows_mflip_seg.
  apply flip_throws; auto. apply (ne_ex X k HX). auto.
Qed.
Theorem crash_mflip_elem t x v : mp_total p = false -> proper CC p -> mreach p t -> storable X k x ->
  survives (cm_flip_elem X k M t x v) (m_flip_elem X k M t x v)
    (fun t' => usable p t' /\ stable (joins p) (singleton X k x) t t' /\ forall z, at_ t' z = at_ t z \/ (z = x /\ at_ t' z = flip_val CC p v (at_ t x)) \/ at_ t' z = None).
Proof.
  intros Et P R Sx. assert (Na : exists z, mem (singleton X k x) z) by (exists x; apply (elem_only X k HX x x Sx); auto).
  destruct (thm_mflip_elem X k HX CC Hco p t R x v Et P Sx) as (t' & E & _). eapply survives_intro; [apply follows_mflip_seg|exact E|].
  eapply throws_impl; [apply flip_throws; auto; apply (ne_ex X k HX); auto|]. intros u (U & K & A). split; auto. split; auto. intros z.
  destruct (A z) as [A1|[(Mz & A1)|A1]]; auto. apply (elem_only X k HX x z Sx) in Mz. subst z. auto.
Qed.
Theorem crash_mflip_enricher t a v : mp_total p = true -> mp_absorbs p = false -> mreach p t ->
  survives (cm_flip_seg X k M t a v) (m_flip_seg X k M t a v) (adding v a t).
Proof.
  intros Et Ea R. destruct (thm_mflip_enricher X k HX CC Hco p t R a v Et Ea) as (t' & E & _). eapply survives_intro; eauto using follows_mflip_seg.
  unfold cm_flip_seg. cbn [mt_total mt_absorbs mt]. rewrite Et, Ea. eapply throws_bind; [apply (follows_m_add X k M)|apply add_adding; auto|]. intros. apply throws_lift.
Qed.
Theorem crash_mflip_absorber t a v : mp_total p = true -> mp_absorbs p = true -> survives (cm_flip_seg X k M t a v) (m_flip_seg X k M t a v) (fun _ => False).
Proof.
  intros Et Ea. eapply survives_intro; [apply follows_mflip_seg| |]; unfold m_flip_seg, cm_flip_seg; cbn [mt_total mt_absorbs mt]; rewrite Et, Ea; [reflexivity|apply throws_ret].
Qed.

(* ------------------------------------------------------------- whole maps *)
Lemma so_far_weak t o d b r g u t' : nodes o = d ++ b :: r -> srt k (nodes o) -> so_far X k CC t d g u ->
  (forall x, at_ t' x = at_ u x \/ (mem (nkey b) x /\ at_ t' x = g (nval b) (at_ u x)) \/ at_ t' x = None) -> old_new_none t o g t'.
Proof.
  intros E S H A x. destruct (A x) as [A1|[(Mx & A1)|A1]]; auto.
  - rewrite A1. destruct (so_far_at X k HX CC t o d b r g u x E S H) as [?|?]; auto.
  - apply (in_mem X k HX) in Mx. pose proof S as S'. rewrite E in S'. pose proof (not_before X k HX CC d b r x S' Mx) as Q.
    right. left. exists (nval b). split. { at_r. rewrite E, vr_app, Q. cbn [orelse vr]. rewrite Mx. auto. }
    rewrite A1, (H x), Q. auto.
Qed.
Lemma flip_none v : flip_val CC p v None = add_val CC p v None. Proof. auto. Qed.
Lemma flip_map_both p' t o : mp_total p = false -> proper CC p -> mreach p t -> mreach p' o ->
  throws (cm_flip_map X k M t o) (fun t' => usable p t' /\ stable_all (joins p) (keys o) t t' /\ old_new_none t o (flip_val CC p) t') /\
  forall t', m_flip_map X k M t o = Ok t' -> stable_all (joins p) (keys o) t t'.
Proof.
  intros Et P Rt Ro.
  assert (Hm : minv X k M t) by eauto. assert (Hi : inv k t) by apply Hm. assert (St : srt k (nodes t)) by apply Hi.
  assert (Io : inv k o) by (eapply mreach_inv; eauto). pose proof Io as [Wo So].
  unfold cm_flip_map, m_flip_map. cbn [mt_total mt mt_co]. rewrite Et.
  destruct (common_range_at X k HX o t Io Hi) as (L & N & R & r & -> & E & BL & BR & Hr). cbn [bind]. apply throws_ok2.
  assert (OUT : forall (b : node (D X) V) x, In b L \/ In b R -> inr k (nkey b) (pt x) = true -> at_ t x = None).
  { intros b x Hb Ix. at_r. destruct (vr k (nodes t) (pt x)) eqn:F; auto. exfalso. apply (vr_some X k HX) in F; auto. destruct F as (n & Hn & In' & _).
    unfold inr in *. destruct Hb as [Hb|Hb]; [specialize (BL b n Hb Hn)|specialize (BR n b Hn Hb)]; cord. }
  destruct Hr as [[-> ->]|[-> _]].
  - destruct (any_add_map X k HX CC Hco p p' t o Rt Ro P) as [K1 K2]. split; [|exact K2].
    intros n t' TT. destruct (survives_throws _ _ _ (crash_add_map X k HX CC Hco p p' t o Rt Ro P) n t' TT) as (U & A). split; auto. split; [apply (survives_throws _ _ _ K1 n t' TT)|]. intros x.
    destruct (A x) as [A1|[(w & Ow & A1)|A1]]; auto. right. left. exists w. split; auto. rewrite A1. rewrite (at_vr X k HX CC) in Ow. apply (vr_some X k HX) in Ow; auto.
    destruct Ow as (m & Hn & In' & _). rewrite E in Hn. cbn [app] in Hn. apply in_app_iff in Hn. rewrite (OUT m x Hn In'). auto.
  - set (J := fun l (u : tree) => mreach p u /\ so_far X k CC t l (flip_val CC p) u /\ stable_all (joins p) (map nkey l) t u).
    assert (GAP : forall d b r' u x, nodes o = d ++ b :: r' -> In b L \/ In b R -> J d u -> inr k (nkey b) (pt x) = true -> at_ u x = None).
    { intros d b r' u x Q Hb (_ & H & _) Ix. rewrite (H x). pose proof So as S'. rewrite Q in S'. rewrite (not_before X k HX CC d b r' x S' Ix). eapply OUT; eauto. }
    assert (SA : forall d b r' u, nodes o = d ++ b :: r' -> In b L \/ In b R -> J d u ->
      throws (cm_add X k M u (nkey b) (nval b)) (fun t' => usable p t' /\ stable_all (joins p) (keys o) t t' /\ old_new_none t o (flip_val CC p) t') /\
      forall u', m_add X k M u (nkey b) (nval b) = Ok u' -> J (d ++ [b]) u').
    { intros d b r' u Q Hb Ju. pose proof Ju as (Ru & H & K0). split.
      - eapply throws_impl; [apply add_adding; auto|]. intros t' (U & K & A). split; auto. split; [eapply (all_step X k); eauto|]. eapply so_far_weak; eauto.
        intros x. destruct (A x) as [A1|[(Mx & A1)|A1]]; auto. right. left. split; auto. rewrite A1. apply (in_mem X k HX) in Mx. rewrite (GAP d b r' u x Q Hb Ju Mx). auto.
      - intros u' E'. split; [eapply M_add; eauto|]. destruct (thm_madd X k HX CC Hco p u Ru (nkey b) (nval b)) as (u2 & E2 & C2). assert (u2 = u') by congruence. subst u2.
        destruct (m_add_both X k HX CC Hco p u (nkey b) (nval b) Ru) as [_ G]. destruct (G u' E') as [_ K]. split; [|rewrite map_app; cbn; eapply all_snoc; eauto].
        eapply so_far_step; [auto|exact (eq_ind (nodes o) (fun l => srt k l) So _ Q)|exact H|]. intros x. destruct (C2 x) as [C1 C2']. split; auto.
        intros Mx. rewrite (C1 Mx). apply (in_mem X k HX) in Mx. rewrite (GAP d b r' u x Q Hb Ju Mx). auto. }
    assert (SF : forall d b r' u, nodes o = d ++ b :: r' -> J d u ->
      throws (cm_flip_seg X k M u (nkey b) (nval b)) (fun t' => usable p t' /\ stable_all (joins p) (keys o) t t' /\ old_new_none t o (flip_val CC p) t') /\
      forall u', m_flip_seg X k M u (nkey b) (nval b) = Ok u' -> J (d ++ [b]) u').
    { intros d b r' u Q Ju. pose proof Ju as (Ru & H & K0). assert (Nb : ne (nkey b)). { apply (srt_in X k M (nodes o)); auto. rewrite Q. apply in_elt. } split.
      - eapply throws_impl; [apply flip_throws; auto|]. intros t' (U & K & A). split; auto. split; [eapply (all_step X k); eauto|]. eapply so_far_weak; eauto.
      - intros u' E'. split; [eapply M_flip; eauto|]. destruct (thm_mflip X k HX CC Hco p u Ru (nkey b) (nval b) Et P) as (u2 & E2 & C2). { apply (ne_ex X k HX). auto. }
        assert (u2 = u') by congruence. subst u2.
        destruct (flip_throws u (nkey b) (nval b) Et P Ru Nb) as [_ G]. pose proof (G u' E') as K. split; [|rewrite map_app; cbn; eapply all_snoc; eauto].
        eapply so_far_step; [auto|exact (eq_ind (nodes o) (fun l => srt k l) So _ Q)|exact H|exact C2]. }
    assert (J0 : J [] t) by (split; auto; split; [apply so_far_nil|apply all_refl]).
    replace (begin_ o) with (Tree.hd_it (L ++ N ++ R)) by (rewrite begin_at, E; auto).
    pose proof (range_at X o [] L (N ++ R) Wo E) as RA1. pose proof (range_at X o L N R Wo E) as RA2.
    pose proof (range_at X o (L ++ N) R []) as RA3. rewrite app_nil_r in RA3. cbn [Tree.hd_it] in RA3. specialize (RA3 Wo). rewrite <- app_assoc in RA3. specialize (RA3 E). unfold end_.
    rewrite RA1. cbn [bind]. apply throws_ok2.
    destruct (cfold_both (fun u n => cm_add X k M u (nkey n) (nval n)) (fun u n => m_add X k M u (nkey n) (nval n)) (fun t' => usable p t' /\ stable_all (joins p) (keys o) t t' /\ old_new_none t o (flip_val CC p) t') J) with (l := L) (l0 := @nil (node (D X) V)) (a := t) as [T1 G1]; auto.
    { intros u b. apply (follows_m_add X k M). }
    { intros l1 b l2 u Q Ju. cbn [app] in *. apply (SA l1 b (l2 ++ N ++ R)); auto; [rewrite E, Q, <- app_assoc; auto|]. left. rewrite Q, in_app_iff. cbn; auto. }
    cbn [app] in G1.
    assert (MID : forall t1, J L t1 -> throws (cfold (fun u n => cm_flip_seg X k M u (nkey n) (nval n)) t1 N) (fun t' => usable p t' /\ stable_all (joins p) (keys o) t t' /\ old_new_none t o (flip_val CC p) t') /\
       forall t2, foldM (fun u n => m_flip_seg X k M u (nkey n) (nval n)) t1 N = Ok t2 -> J (L ++ N) t2).
    { intros t1 J1. apply (cfold_both (fun u n => cm_flip_seg X k M u (nkey n) (nval n)) (fun u n => m_flip_seg X k M u (nkey n) (nval n))); auto.
      - intros u b. apply (follows_mflip_seg M).
      - intros l1 b l2 u Q Ju. rewrite app_assoc. apply (SF (L ++ l1) b (l2 ++ R)); auto. rewrite E, Q, <- !app_assoc. auto. }
    assert (LAST : forall t2, J (L ++ N) t2 -> throws (cfold (fun u n => cm_add X k M u (nkey n) (nval n)) t2 R) (fun t' => usable p t' /\ stable_all (joins p) (keys o) t t' /\ old_new_none t o (flip_val CC p) t') /\
       forall t3, foldM (fun u n => m_add X k M u (nkey n) (nval n)) t2 R = Ok t3 -> J ((L ++ N) ++ R) t3).
    { intros t2 J2. apply (cfold_both (fun u n => cm_add X k M u (nkey n) (nval n)) (fun u n => m_add X k M u (nkey n) (nval n))); auto.
      - intros u b. apply (follows_m_add X k M).
      - intros l1 b l2 u Q Ju. rewrite app_assoc. apply (SA ((L ++ N) ++ l1) b l2); auto; [rewrite E, Q, <- !app_assoc; auto|]. right. rewrite Q, in_app_iff. cbn; auto. }
    split.
    + eapply throws_bind with (r := foldM _ t L); [apply follows_cfold; intros u b; apply (follows_m_add X k M)|exact T1|]. intros t1 Q1. destruct (MID t1 (G1 t1 Q1)) as [T2 G2].
      rewrite RA2. apply throws_ok. eapply throws_bind with (r := foldM _ t1 N); [apply follows_cfold; intros u b; apply (follows_mflip_seg M)|exact T2|]. intros t2 Q2.
      rewrite RA3. apply throws_ok. apply LAST. apply G2. exact Q2.
    + intros t' Q. match type of Q with bind ?m _ = _ => destruct m as [t1|] eqn:Q1; [|discriminate] end. cbn [bind] in Q. destruct (MID t1 (G1 t1 Q1)) as [_ G2]. rewrite RA2 in Q. cbn [bind] in Q.
      match type of Q with bind ?m _ = _ => destruct m as [t2|] eqn:Q2; [|discriminate] end. cbn [bind] in Q. destruct (LAST t2 (G2 t2 Q2)) as [_ G3]. rewrite RA3 in Q. cbn [bind] in Q.
      destruct (G3 t' Q) as (_ & _ & K). rewrite <- app_assoc, <- E in K. exact K.
Qed.
Theorem crash_mflip_map p' t o : mp_total p = false -> proper CC p -> mreach p t -> mreach p' o ->
  survives (cm_flip_map X k M t o) (m_flip_map X k M t o) (fun t' => usable p t' /\ stable_all (joins p) (keys o) t t' /\ old_new_none t o (flip_val CC p) t').
Proof.
  intros Et P Rt Ro. destruct (thm_mflip_map X k HX CC Hco p p' t o Rt Ro Et P) as (t' & E & _). eapply survives_intro; [apply (follows_mflip_map M)|exact E|]. eapply flip_map_both; eauto.
Qed.
Theorem any_mflip_map p' t o : mp_total p = false -> proper CC p -> mreach p t -> mreach p' o ->
  in_any_case (cm_flip_map X k M t o) (m_flip_map X k M t o) (stable_all (joins p) (keys o) t).
Proof.
  intros Et P Rt Ro. destruct (thm_mflip_map X k HX CC Hco p p' t o Rt Ro Et P) as (t' & E & _). destruct (flip_map_both p' t o Et P Rt Ro) as [T G]. apply any_case; [apply (follows_mflip_map M)|eauto|].
  split; auto. eapply throws_impl; [exact T|]. intros u (_ & K & _). exact K.
Qed.
Theorem crash_mflip_map_enricher p' t o : mp_total p = true -> mp_absorbs p = false -> proper CC p -> mreach p t -> mreach p' o ->
  survives (cm_flip_map X k M t o) (m_flip_map X k M t o) (fun t' => usable p t' /\ stable_all (joins p) (keys o) t t' /\ old_new_none t o (add_val CC p) t').
Proof.
  intros Et Ea P Rt Ro. destruct (thm_mflip_map_enricher X k HX CC Hco p p' t o Rt Ro Et Ea P) as (t' & E & _). eapply survives_intro; eauto using follows_mflip_map.
  unfold cm_flip_map. cbn [mt_total mt_absorbs mt]. rewrite Et, Ea. eapply throws_bind; [apply (follows_add_map X k M)| |intros; apply throws_lift].
  intros n u TT. destruct (survives_throws _ _ _ (crash_add_map X k HX CC Hco p p' t o Rt Ro P) n u TT) as (U & A). split; auto. split; auto.
  apply (survives_throws _ _ _ (proj1 (any_add_map X k HX CC Hco p p' t o Rt Ro P)) n u TT).
Qed.
Theorem crash_mflip_map_absorber t o : mp_total p = true -> mp_absorbs p = true -> survives (cm_flip_map X k M t o) (m_flip_map X k M t o) (fun _ => False).
Proof.
  intros Et Ea. eapply survives_intro; [apply follows_mflip_map| |]; unfold m_flip_map, cm_flip_map; cbn [mt_total mt_absorbs mt]; rewrite Et, Ea; [reflexivity|apply throws_ret].
Qed.
End One.
End CrashFlipMap.

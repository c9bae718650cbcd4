(** Operations on interval maps whose combiner throws (proofs of the properties). *)
From Verif Require Export ThrowSpec CrashMapThms.

Section ThrowThms.
Context (X : dom) (k : kind).
Context (HX : dom_ok X k).
Context (CC : codomain) (Hco : eq_ok CC).
Notation V := (C CC).
Notation I := (itv (D X)).
Notation lc := (lc X k).
Notation uc := (uc X k).
Notation pt := (pt X).
Notation cltb := (cltb X).
Notation ne := (@ne X k).
Notation tree := (tree (D X) V).
Notation mem := (mem X k).
Notation at_ := (at_ X k CC).
Notation mreach := (mreach X k CC).
Notation up_to_point := (up_to_point X k CC).
Notation same_outside := (same_outside X k CC).
Notation usable := (usable X k CC).
Notation mhint_ok := (mhint_ok X CC).
Notation identity_left := (identity_left X k CC).
Notation old_or_new := (old_or_new X k CC).
Notation old_new_identity := (old_new_identity X k CC).
Notation so_far := (so_far X k CC).
Notation asc t := (ascending X k (map fst (segs X CC t))).
Ltac cord := cord_ X k HX.
Ltac at_r := rewrite ?(at_vr X k HX CC).
Hint Resolve mreach_minv mreach_inv mreach_aok : core.

Lemma inv_asc (t : tree) : inv k t -> asc t.
Proof. intros H. pose proof (inv_ascending X k HX t H) as A. unfold segs. rewrite map_map. exact A. Qed.

Section One.
Context (p : mpar) (t : tree) (Ht : mreach p t).
Notation M := (mt CC p).
Definition kept_post a g (t' : tree) := usable p t' /\ up_to_point t a g (fun o => o) t' /\ same_outside t a t' /\ stable X k (joins p) a t t'.
Lemma xpartial_post a g g' t' : usable p t' -> ne a -> (forall o, g o = g' o) -> xpartial X k M a g (nodes t) t' -> kept_post a g' t'.
Proof.
  intros U Na E H. apply (xpartial_apartial X k HX M) in H; auto. destruct H as [A O]. cbn [mt_co mt] in *.
  destruct (apartial_spec X k HX CC p t a g g' t') as (A1 & _ & A3); eauto. conjs; auto. split; auto. split; auto. split; auto.
  intros x Nx. apply (mem_false X k HX) in Nx. at_r. auto.
Qed.
Lemma usable_now : usable p t.
Proof. apply (usable_intro X k HX CC Hco); auto. { eapply mreach_inv; eauto. } intros. eapply M_join; eauto. Qed.
Lemma x_add_throws a v : throws (xm_add X k M t a v) (kept_post a (add_val CC p v)).
Proof.
  intros n t' H. pose proof H as H'. apply (x_add_thrown X k HX M Hco) in H'; [|apply (mreach_minv X k HX CC Hco); auto]. destruct H' as (Na & A).
  apply (xpartial_post a (ga M (codomain_combine M) v)); auto using ga_plus.
  apply (usable_intro X k HX CC Hco); [apply A| |]; intros; [eapply M_add_aborted|eapply M_add_aborted_join]; eauto.
Qed.
Lemma x_subtract_throws a v : throws (xm_subtract X k M t a v) (kept_post a (sub_val CC p v)).
Proof.
  intros n t' H. pose proof H as H'. apply (x_subtract_thrown X k HX M Hco) in H'; [|apply (mreach_minv X k HX CC Hco); auto]. destruct H' as (Na & A).
  apply (xpartial_post a (gsubt M v)); auto using gsubt_sub.
  apply (usable_intro X k HX CC Hco); [apply A| |]; intros; [eapply M_subtract_aborted|eapply M_subtract_aborted_join]; eauto.
Qed.
Definition hint_post a g (t' : tree) := asc t' /\ same_outside t a t' /\ stable X k (joins p) a t t' /\
  (usable p t' /\ up_to_point t a g (fun o => o) t' \/ identity_left t a t') /\ (mp_absorbs p = false -> usable p t').
Lemma kept_hint a g t' : kept_post a g t' -> hint_post a g t'.
Proof. intros (A & B & F & G). unfold hint_post. conjs; auto. apply A. Qed.
Lemma x_add_hint_throws h a v : mhint_ok t h -> throws (xm_add_hint X k M t h a v) (fun t' => ne a /\ hint_post a (add_val CC p v) t').
Proof.
  intros Hh n t' H. pose proof (mreach_minv X k HX CC Hco p t Ht) as Hm. pose proof H as H'.
  apply (x_add_hint_thrown X k HX M Hco) in H'; auto; [|apply mhint_isit; auto].
  destruct H' as (Na & [->|[H'|(L & R & E & B & A & Et)]]); split; auto.
  - apply kept_hint. apply (xpartial_post a (ga M (codomain_combine M) v)); auto using usable_now, ga_plus.
    apply (xpartial_none X k HX M); auto. apply Hm.
  - apply kept_hint. apply (x_add_throws a v) in H'. auto.
  - pose proof (x_add_hint_inv X k HX M Hco t h a v n t' Hm (proj1 (mhint_isit X CC t h) Hh) H) as I'.
    set (nd := Node (fresh t) a (cc_zero : V)) in *.
    assert (E' : nodes t' = L ++ nd :: R) by (rewrite Et; auto). cbn [mt_co mt] in *.
    destruct (post_gap X k HX (spl M) (fun _ => Some cc_zero) L nd R) as ((U & _) & _ & K); auto. rewrite <- E, <- E' in U. rewrite <- E, <- E' in K.
    assert (N0 : forall x, mem a x -> vr k (nodes t) (pt x) = None).
    { intros x Mx. apply (in_mem X k HX) in Mx. unfold inr in Mx. rewrite E, vr_app, (vr_below X k HX L (lc a)), (vr_above X k HX R (uc a)); auto; cord. }
    split; [apply inv_asc; auto|]. split; [|split; [|split]].
    + intros x Nx. apply (mem_false X k HX) in Nx. at_r. rewrite U. unfold inr in Nx. cbn [nkey nd]. rewrite Nx. auto.
    + apply (kp_stable X k HX); auto; [apply Hm|apply I'|]. unfold joins. rewrite <- (spl_eq CC). exact K.
    + right. split.
      * intros x Mx. at_r. split; auto. apply (in_mem X k HX) in Mx. rewrite U. unfold inr in Mx. cbn [nkey nd]. rewrite Mx. auto.
      * exists (map (fun n => (nkey n, nval n)) L), (map (fun n => (nkey n, nval n)) R). unfold segs. rewrite E, E', !map_app. auto.
    + intros Ab. apply (usable_intro X k HX CC Hco); auto; intros; [eapply M_add_hint_aborted|eapply M_add_hint_aborted_join]; eauto.
Qed.

Theorem throw_add a v : survives (xm_add X k M t a v) (m_add X k M t a v) (kept_post a (add_val CC p v)).
Proof.
  destruct (thm_madd X k HX CC Hco p t Ht a v) as (t' & E & _). eapply survives_intro; [apply follows_x_add|exact E|]. apply x_add_throws.
Qed.
Theorem throw_subtract a v : survives (xm_subtract X k M t a v) (m_subtract X k M t a v) (kept_post a (sub_val CC p v)).
Proof.
  destruct (thm_msub X k HX CC Hco p t Ht a v) as (t' & E & _). eapply survives_intro; [apply follows_x_subtract|exact E|]. apply x_subtract_throws.
Qed.
Theorem throw_add_hint h a v : mhint_ok t h -> survives (xm_add_hint X k M t h a v) (m_add_hint X k M t h a v) (hint_post a (add_val CC p v)).
Proof.
  intros Hh. destruct (add_hint_any X k HX M Hco (codomain_combine M) t h a v) as (t' & it & E & _); eauto. { apply mhint_isit; auto. }
  eapply survives_intro; [apply follows_x_add_hint|exact E|]. eapply throws_impl; [apply x_add_hint_throws; auto|]. intros u Hu. apply Hu.
Qed.
End One.

Lemma so_far_identity t o d b r g u t' : nodes o = d ++ b :: r -> srt k (nodes o) -> so_far t d g u ->
  same_outside u (nkey b) t' -> identity_left u (nkey b) t' -> old_new_identity t o g t'.
Proof.
  intros E S H O [N _]. assert (Hb : In b (nodes o)) by (rewrite E; apply in_app_iff; cbn; auto).
  exists (nkey b). split; [unfold keys; apply in_map; auto|]. split.
  { apply (ne_elem X k HX). apply srt_nes in S. unfold nes in S. rewrite Forall_forall in S. auto. }
  split.
  - intros x Mx. destruct (N x Mx) as [N1 N2]. split; auto. apply (in_mem X k HX) in Mx. pose proof S as S'. rewrite E in S'.
    pose proof (not_before X k HX CC d b r x S' Mx) as Q. pose proof (H x) as Z. rewrite Q in Z. congruence.
  - intros x Nx. rewrite (O x Nx). eapply so_far_at; eauto.
Qed.
Theorem throw_add_map p p' t o : mreach p t -> mreach p' o -> proper CC p ->
  survives (xm_add_map X k (mt CC p) t o) (m_add_map X k (mt CC p) t o)
    (fun t' => asc t' /\ (usable p t' /\ old_or_new t o (add_val CC p) t' \/ old_new_identity t o (add_val CC p) t') /\
               (mp_absorbs p = false -> usable p t')).
Proof.
  intros Ht Ho P. destruct (thm_madd_map X k HX CC Hco p p' t o Ht Ho P) as (t' & E & _). eapply survives_intro; [apply follows_x_add_map|exact E|].
  assert (So : srt k (nodes o)) by (apply (mreach_inv X k HX CC Hco p' o Ho)).
  unfold xm_add_map. eapply throws_bind.
  - apply (follows_cfold (fun '(t, prior_) n => xm_add_hint X k (mt CC p) t prior_ (nkey n) (nval n)) (fun '(t, prior_) n => m_add_hint X k (mt CC p) t prior_ (nkey n) (nval n))).
    intros [u i] b. apply follows_x_add_hint.
  - apply (cfold_throws' (fun '(t, prior_) n => xm_add_hint X k (mt CC p) t prior_ (nkey n) (nval n)) (fun '(t, prior_) n => m_add_hint X k (mt CC p) t prior_ (nkey n) (nval n)) _
      (fun d '(u, i) => mreach p u /\ mhint_ok u i /\ so_far t d (add_val CC p) u)) with (d := []); cbn [app].
    + intros [u i] b. apply follows_x_add_hint.
    + intros d b r [u i] Ed (Ru & Hi & H). eapply throws_impl; [apply x_add_hint_throws; auto|]. intros t1 (Nb & As & O & _ & [[U F]|L] & Z); split; auto; split; auto.
      * left. split; auto. intros x. eapply (so_far_whole X k HX CC); eauto.
      * right. eapply so_far_identity; eauto.
    + intros d b r [u i] [u' i'] Ed (Ru & Hi & H) E'. split; [eapply M_add_hint; eauto|].
      destruct (add_hint_any X k HX (mt CC p) Hco (codomain_combine (mt CC p)) u i (nkey b) (nval b)) as (u2 & i2 & E2 & _ & I2 & Q); eauto. { apply mhint_isit; auto. }
      unfold m_add_hint in E'. assert (u2 = u' /\ i2 = i') as [-> ->] by (rewrite E2 in E'; inversion E'; auto). split; [apply mhint_isit; auto|].
      eapply (so_far_step X k HX CC); [exact (eq_ind (nodes o) (fun l => srt k l) So _ Ed)|exact H|]. apply (chg_changed X k HX CC p u u' (nkey b) (ga (mt CC p) (codomain_combine (mt CC p)) (nval b))); [|apply ga_plus].
      apply Q; [apply (mreach_aok X k HX CC Hco); auto|apply P].
    + conjs; auto. { exact Logic.I. } apply so_far_nil.
  - intros [u i] _. apply throws_ret.
Qed.
Theorem throw_subtract_map p p' t o : mreach p t -> mreach p' o ->
  survives (xm_subtract_map X k (mt CC p) t o) (m_subtract_map X k (mt CC p) t o) (fun t' => usable p t' /\ old_or_new t o (sub_val CC p) t').
Proof.
  intros Ht Ho. destruct (thm_msub_map X k HX CC Hco p p' t o Ht Ho) as (t' & E & _). eapply survives_intro; [apply follows_x_subtract_map|exact E|].
  assert (So : srt k (nodes o)) by (apply (mreach_inv X k HX CC Hco p' o Ho)).
  unfold xm_subtract_map. apply (cfold_throws' _ (fun t n => m_subtract X k (mt CC p) t (nkey n) (nval n)) _
      (fun d u => mreach p u /\ so_far t d (sub_val CC p) u)) with (d := []); cbn [app].
  - intros u b. apply follows_x_subtract.
  - intros d b r u Ed (Ru & H). eapply throws_impl; [apply x_subtract_throws; auto|]. intros t1 (U & A & B & _). split; auto. intros x. eapply (so_far_whole X k HX CC); eauto.
  - intros d b r u u' Ed (Ru & H) E'. split; [eapply M_subtract; eauto|]. destruct (thm_msub X k HX CC Hco p u Ru (nkey b) (nval b)) as (u2 & E2 & Q).
    assert (u2 = u') by congruence. subst. eapply (so_far_step X k HX CC); [exact (eq_ind (nodes o) (fun l => srt k l) So _ Ed)|exact H|exact Q].
  - split; auto. apply so_far_nil.
Qed.

Section And.
Context (p : mpar) (t : tree) (Ht : mreach p t).
Notation M := (mt CC p).
Theorem throw_and_itv a : survives (xm_and_itv X k M t a) (m_and_itv X k M t a) (fun t' => t' = t).
Proof.
  destruct (int_itv_at X k HX M Hco t_empty t a) as (t' & E & _); eauto. { apply minv_empty. }
  eapply survives_intro; [apply follows_unwind; apply follows_x_inter_itv|exact E|apply throws_unwind].
Qed.
Theorem throw_and_seg a v : survives (xm_and_seg X k M t a v) (m_and_seg X k M t a v) (fun t' => t' = t).
Proof.
  destruct (int_seg_at X k HX M Hco t_empty t a v) as (t' & E & _); eauto. { apply minv_empty. }
  eapply survives_intro; [apply follows_unwind; apply follows_x_inter_seg|exact E|apply throws_unwind].
Qed.
Theorem throw_and_map p' o : mreach p' o -> survives (xm_and_map X k M t o) (m_and_map X k M t o) (fun t' => t' = t).
Proof.
  intros Ho. destruct (int_map_at X k HX M Hco t_empty t o) as (t' & E & _); eauto. { apply minv_empty. }
  eapply survives_intro; [apply follows_unwind; apply follows_x_inter_map|exact E|apply throws_unwind].
Qed.
Theorem throw_and_set st o : reach X k st o -> survives (xm_and_set X k M t o) (m_and_set X k M t o) (fun t' => t' = t).
Proof.
  intros Ho. destruct (int_set_at X k HX M Hco t_empty t o) as (t' & E & _); eauto. { apply minv_empty. } { eapply reach_inv; eauto. }
  eapply survives_intro; [apply follows_unwind; apply follows_x_inter_set|exact E|apply throws_unwind].
Qed.
End And.
End ThrowThms.

(** Running out of memory in interval maps (proofs of the properties). *)
From Verif Require Export CrashMapSpec CrashThms CrashMap.

Section CrashMapThms.
Context (X : dom) (k : kind).
Context (HX : dom_ok X k).
Context (CC : codomain) (Hco : eq_ok CC).
Notation V := (C CC).
Notation I := (itv (D X)).
Notation lc := (lc X k).
Notation uc := (uc X k).
Notation pt := (pt X).
Notation cltb := (cltb X).
Notation ne := (@ne X k).
Notation tree := (tree (D X) V).
Notation mem := (mem X k).
Notation at_ := (at_ X k CC).
Notation mreach := (mreach X k CC).
Notation up_to_point := (up_to_point X k CC).
Notation lost_around := (lost_around X k CC).
Notation same_outside := (same_outside X k CC).
Notation usable := (usable X k CC).
Notation old_new_none := (old_new_none X k CC).
Notation mhint_ok := (mhint_ok X CC).
Ltac cord := cord_ X k HX.
Ltac at_r := rewrite ?(at_vr X k HX CC).
Hint Resolve mreach_minv mreach_inv mreach_aok : core.

Lemma over_affected (t : tree) a n x : inv k t -> ne a -> In n (nodes t) -> over k a n -> inr k (nkey n) (pt x) = true -> affected X k t a x.
Proof.
  intros [W S] Na Hn On H. exists (nkey n). split; [unfold keys; apply in_map; auto|]. split; [apply (inr_mem X k HX); auto|].
  apply srt_nes in S. unfold nes in S. rewrite Forall_forall in S.
  destruct (over_elem X k HX a n Na (S n Hn) On) as (z & M1 & M2). exists z. auto.
Qed.
Lemma mem_false a x : ~ mem a x -> inr k a (pt x) = false.
Proof. rewrite <- (in_mem X k HX). destruct (inr k a (pt x)); auto. intros H. destruct (H eq_refl). Qed.

Definition partial_post p (t : tree) a g (t' : tree) : Prop :=
  up_to_point t a g (fun o => o) t' /\ lost_around t a t' /\ stable X k (joins p) a t t'.
Lemma apartial_spec p (t : tree) a g g' (t' : tree) : inv k t -> ne a -> (forall o, g o = g' o) -> apartial X k (mt CC p) a g (nodes t) t' -> partial_post p t a g' t'.
Proof.
  intros Hi Na EG (I' & (f & F1 & F2 & H) & K). cbn [mt_co mt] in *. split; [|split].
  - exists (fun x => cltb (pt x) f). split.
    + intros x y _ _ L. rewrite (lt_pt X) in L. intros Hy. cord.
    + intros x Mx. apply (in_mem X k HX) in Mx. at_r. rewrite <- EG. apply H. auto.
  - intros x Nx. apply mem_false in Nx. at_r. destruct (H (pt x)) as [_ H2]. destruct (H2 Nx) as [E|(E & n & Hn & On & Ix)]; auto. right. split; auto.
    eapply over_affected; eauto.
  - apply (kp_stable X k HX); auto; [apply I'|]. unfold joins. rewrite <- (spl_eq CC). auto.
Qed.
Lemma adone_spec (p : mpar) (t : tree) a g g' (t' : tree) : inv k t -> ne a -> (forall o, g o = g' o) -> adone X k (mt CC p) a g (nodes t) t' ->
  (forall x, mem a x -> at_ t' x = g' (at_ t x)) /\ lost_around t a t' /\ stable X k false a t t'.
Proof.
  intros Hi Na EG (I' & H & K). cbn [mt_co mt] in *. split; [|split].
  - intros x Mx. apply (in_mem X k HX) in Mx. at_r. rewrite <- EG. apply H. auto.
  - intros x Nx. apply mem_false in Nx. at_r. destruct (H (pt x)) as [_ H2]. destruct (H2 Nx) as [E|(E & n & Hn & On & Ix)]; auto. right. split; auto.
    eapply over_affected; eauto.
  - apply (kp_stable X k HX); auto. apply I'.
Qed.
Lemma usable_intro p (t' : tree) : inv k t' -> (mp_style p = MSplit -> mreach p t') -> (forall t'', join X k cc_eq t' = Ok t'' -> mreach p t'') -> usable p t'.
Proof.
  intros Hi HS HJ. split.
  - pose proof (inv_ascending X k HX t' Hi) as A. unfold segs. rewrite map_map. exact A.
  - split; auto. destruct (join_minv X k HX CC Hco p t' Hi) as (t'' & E & _ & Q). exists t''. conjs; auto. intros x. at_r. auto.
Qed.

(* ------------------------------------------------------------- segments *)
Section One.
Context (p : mpar) (t : tree) (Ht : mreach p t).
Notation M := (mt CC p).
Definition insert_post a v (t' : tree) := mreach p t' /\ up_to_point t a (ins_val CC p v) (fun o => o) t' /\ same_outside t a t' /\ stable X k (joins p) a t t'.
Lemma insert_post_intro a v t' : mreach p t' -> ne a -> apartial X k M a (gi M v) (nodes t) t' ->
  (forall c, inr k a c = false -> vr k (nodes t') c = vr k (nodes t) c) -> insert_post a v t'.
Proof.
  intros R Na A O. destruct (apartial_spec p t a (gi M v) (ins_val CC p v) t') as (A1 & _ & A3); eauto. { apply gi_ins. }
  split; auto. split; auto. split; auto. intros x Nx. apply mem_false in Nx. at_r. apply O. auto.
Qed.
Lemma m_insert_throws a v : throws (cm_insert X k M t a v) (insert_post a v).
Proof.
  intros n t' H. pose proof H as H'. apply (insert_thrown X k HX M Hco) in H'; eauto. destruct H' as (Na & _ & A & O). apply insert_post_intro; auto. eapply M_insert_thrown; eauto.
Qed.
Lemma m_insert_hint_throws h a v : mhint_ok t h -> throws (cm_insert_hint X k M t h a v) (insert_post a v).
Proof.
  intros Hh n t' H. pose proof H as H'. apply (insert_hint_thrown X k HX M Hco) in H'; eauto; [|apply mhint_isit; auto]. destruct H' as (Na & _ & A & O). apply insert_post_intro; auto.
  eapply M_insert_hint_thrown; eauto.
Qed.
Definition erase_post a g (t' : tree) := mreach p t' /\ (forall x, mem a x -> at_ t' x = g (at_ t x)) /\ lost_around t a t' /\ stable X k false a t t'.
Lemma m_erase_throws a : throws (cm_erase X k M t a) (erase_post a (fun _ => None)).
Proof.
  intros n t' H. pose proof H as H'. apply (erase_thrown X k HX M Hco) in H'; eauto. destruct H' as (Na & _ & A). split; [eapply M_erase_thrown; eauto|].
  apply (adone_spec p t a (fun _ => None) (fun _ => None)); eauto.
Qed.
Lemma m_erase_seg_throws a v : throws (cm_erase_seg X k M t a v) (erase_post a (erase_val CC v)).
Proof.
  intros n t' H. pose proof H as H'. apply (erase_seg_thrown X k HX M Hco) in H'; eauto. destruct H' as (Na & _ & A & Ex). split; [eapply M_erase_seg_thrown; eauto|].
  apply (adone_spec p t a (ge M v)); eauto. intros o. unfold ge. rewrite Ex. destruct o; auto.
Qed.
Definition add_post' a g (t' : tree) := usable p t' /\ partial_post p t a g t'.
Lemma m_add_throws a v : throws (cm_add X k M t a v) (add_post' a (add_val CC p v)).
Proof.
  intros n t' H. pose proof H as H'. apply (add_thrown X k HX M Hco) in H'; eauto. destruct H' as (Na & A). split.
  - apply usable_intro; [apply A| |]; intros; [eapply M_add_thrown|eapply M_add_thrown_join]; eauto.
  - apply (apartial_spec p t a (ga M (codomain_combine M) v)); eauto using ga_plus.
Qed.
Lemma m_add_hint_throws h a v : mhint_ok t h -> throws (cm_add_hint X k M t h a v) (add_post' a (add_val CC p v)).
Proof.
  intros Hh n t' H. pose proof H as H'. apply (add_hint_thrown X k HX M Hco) in H'; eauto; [|apply mhint_isit; auto]. destruct H' as (Na & A). split.
  - apply usable_intro; [apply A| |]; intros; [eapply M_add_hint_thrown|eapply M_add_hint_thrown_join]; eauto.
  - apply (apartial_spec p t a (ga M (codomain_combine M) v)); eauto using ga_plus.
Qed.
Lemma m_subtract_throws a v : throws (cm_subtract X k M t a v) (add_post' a (sub_val CC p v)).
Proof.
  intros n t' H. pose proof H as H'. apply (subtract_thrown X k HX M Hco) in H'; eauto. destruct H' as (Na & A). split.
  - apply usable_intro; [apply A| |]; intros; [eapply M_subtract_thrown|eapply M_subtract_thrown_join]; eauto.
  - apply (apartial_spec p t a (gsubt M v)); eauto using gsubt_sub.
Qed.

Theorem crash_m_insert a v : survives (cm_insert X k M t a v) (m_insert X k M t a v) (insert_post a v).
Proof.
  destruct (thm_mins X k HX CC Hco p t Ht a v) as (t' & E & _). eapply survives_intro; eauto using follows_m_insert. apply m_insert_throws.
Qed.
Theorem crash_m_insert_hint h a v : mhint_ok t h -> survives (cm_insert_hint X k M t h a v) (m_insert_hint X k M t h a v) (insert_post a v).
Proof.
  intros Hh. destruct (thm_mins_hint X k HX CC Hco p t h a v Ht Hh) as (t1 & t2 & it & E1 & E2 & _). eapply survives_intro; [apply follows_m_insert_hint| |apply m_insert_hint_throws; auto]. eassumption.
Qed.
Theorem crash_m_erase a : survives (cm_erase X k M t a) (m_erase X k M t a) (erase_post a (fun _ => None)).
Proof.
  destruct (thm_merase X k HX CC Hco p t Ht a) as (t' & E & _). eapply survives_intro; eauto using follows_m_erase. apply m_erase_throws.
Qed.
Theorem crash_m_erase_seg a v : survives (cm_erase_seg X k M t a v) (m_erase_seg X k M t a v) (erase_post a (erase_val CC v)).
Proof.
  destruct (erase_seg_any X k HX M Hco t a v) as (t' & E & _); eauto. eapply survives_intro; eauto using follows_m_erase_seg. apply m_erase_seg_throws.
Qed.
Theorem crash_m_add a v : survives (cm_add X k M t a v) (m_add X k M t a v) (add_post' a (add_val CC p v)).
Proof.
  destruct (thm_madd X k HX CC Hco p t Ht a v) as (t' & E & _). eapply survives_intro; eauto using follows_m_add. apply m_add_throws.
Qed.
Theorem crash_m_add_hint h a v : mhint_ok t h -> survives (cm_add_hint X k M t h a v) (m_add_hint X k M t h a v) (add_post' a (add_val CC p v)).
Proof.
  intros Hh. destruct (add_hint_any X k HX M Hco (codomain_combine M) t h a v) as (t' & it & E & _); eauto. { apply mhint_isit; auto. }
  eapply survives_intro; [apply follows_m_add_hint| |apply m_add_hint_throws; auto]. exact E.
Qed.
Theorem crash_m_subtract a v : survives (cm_subtract X k M t a v) (m_subtract X k M t a v) (add_post' a (sub_val CC p v)).
Proof.
  destruct (thm_msub X k HX CC Hco p t Ht a v) as (t' & E & _). eapply survives_intro; eauto using follows_m_subtract. apply m_subtract_throws.
Qed.
End One.

Lemma lost_same (t t1 : tree) a t' : (forall x, ~ mem a x -> at_ t1 x = at_ t x) -> same_outside t1 a t' -> lost_around t a t'.
Proof. intros H1 H2 x Nx. left. rewrite H2, H1; auto. Qed.
Theorem crash_m_set p t a v : mreach p t -> survives (cm_set X k (mt CC p) t a v) (m_set X k (mt CC p) t a v)
  (fun t' => mreach p t' /\ up_to_point t a (put_val CC p v) (fun _ => None) t' /\ lost_around t a t').
Proof.
  intros Ht. destruct (thm_mset X k HX CC Hco p t Ht a v) as (t' & E & _). eapply survives_intro; eauto using follows_m_set.
  unfold cm_set. eapply throws_bind; [apply follows_m_erase| |].
  - eapply throws_impl; [apply m_erase_throws; auto|]. intros t1 (R1 & H1 & L1 & _). split; auto. split; auto. exists (fun _ => false). split; auto; discriminate.
  - intros t1 E1. destruct (thm_merase X k HX CC Hco p t Ht a) as (t2 & E2 & H2). assert (t2 = t1) by congruence. subst t2.
    assert (R1 : mreach p t1) by (eapply M_erase; eauto). eapply throws_impl; [apply m_insert_throws; auto|]. intros u (Ru & (f & F1 & F2) & Hu & _). split; auto. split.
    + exists f. split; auto. intros x Mx. rewrite (F2 x Mx). destruct (H2 x) as [Hx _]. rewrite (Hx Mx). destruct (f x); auto.
    + apply (lost_same t t1); auto. intros x Nx. apply H2. auto.
Qed.

(* ------------------------------------------------------------- whole containers *)
Lemma cfold_throws' {T A B} (f : A -> B -> cm T A) g (P : T -> Prop) (J : list B -> A -> Prop) : (forall a b, follows (f a b) (g a b)) ->
  forall l d, (forall d' b r a, d ++ l = d' ++ b :: r -> J d' a -> throws (f a b) P) ->
  (forall d' b r a a', d ++ l = d' ++ b :: r -> J d' a -> g a b = Ok a' -> J (d' ++ [b]) a') ->
  forall a, J d a -> throws (cfold f a l) P.
Proof.
  intros AG l. induction l as [|b l IH]; intros d TH ST a Ha; cbn [cfold]; [apply throws_ret|].
  eapply throws_bind; [apply AG|eapply TH; eauto|]. intros a' E. apply (IH (d ++ [b])).
  - intros d' b' r a0. rewrite <- app_assoc. apply TH.
  - intros d' b' r a0 a1. rewrite <- app_assoc. apply ST.
  - eapply ST; eauto.
Qed.

(** the values after the segments d of another map *)
Definition so_far (t : tree) (d : list (node (D X) V)) (g : V -> option V -> option V) (u : tree) : Prop :=
  forall x, at_ u x = match vr k d (pt x) with Some w => g w (at_ t x) | None => at_ t x end.
Lemma so_far_nil t g : so_far t [] g t. Proof. intros x. auto. Qed.
Lemma not_before (d : list (node (D X) V)) b r x : srt k (d ++ b :: r) -> inr k (nkey b) (pt x) = true -> vr k d (pt x) = None.
Proof.
  intros S H. destruct (vr k d (pt x)) eqn:E; auto. exfalso. apply (srt_mid X k HX) in S. destruct S as (Sd & _ & _ & Bd & _).
  apply (vr_some X k HX) in E; auto. destruct E as (n & Hn & In' & _). unfold below in Bd. rewrite Forall_forall in Bd. specialize (Bd n Hn). unfold inr in *. cord.
Qed.
Lemma so_far_step t d b r g u u' : srt k (d ++ b :: r) -> so_far t d g u -> changed X k CC u u' (mem (nkey b)) (g (nval b)) -> so_far t (d ++ [b]) g u'.
Proof.
  intros S H C x. destruct (C x) as [C1 C2]. rewrite vr_app. cbn [vr]. destruct (inr k (nkey b) (pt x)) eqn:E.
  - rewrite (not_before d b r x S E). cbn [orelse]. rewrite C1 by (apply (in_mem X k HX); auto). rewrite H, (not_before d b r x S E). auto.
  - rewrite C2, H. { destruct (vr k d (pt x)); auto. } rewrite <- (in_mem X k HX). congruence.
Qed.
Lemma so_far_at t o d b r g u x : nodes o = d ++ b :: r -> srt k (nodes o) -> so_far t d g u ->
  at_ u x = at_ t x \/ exists w, at_ o x = Some w /\ at_ u x = g w (at_ t x).
Proof.
  intros E S H. rewrite (H x). destruct (vr k d (pt x)) as [w|] eqn:Ed; auto. right. exists w. split; auto. at_r. rewrite E, vr_app, Ed. auto.
Qed.
Lemma so_far_partial t o d b r g u t' : nodes o = d ++ b :: r -> srt k (nodes o) -> so_far t d g u ->
  up_to_point u (nkey b) (g (nval b)) (fun o => o) t' -> lost_around u (nkey b) t' -> old_new_none t o g t'.
Proof.
  intros E S H (f & _ & F) L x. destruct (inr k (nkey b) (pt x)) eqn:Ex.
  - assert (Mx : mem (nkey b) x) by (apply (in_mem X k HX); auto). rewrite (F x Mx). pose proof S as S'. rewrite E in S'. pose proof (not_before d b r x S' Ex) as Q.
    assert (Eu : at_ u x = at_ t x) by (rewrite (H x), Q; auto). rewrite Eu. destruct (f x); auto. right. left. exists (nval b). split; auto. at_r.
    rewrite E, vr_app, Q. cbn [orelse vr]. rewrite Ex. auto.
  - destruct (L x) as [->|[-> _]]; auto. { rewrite <- (in_mem X k HX). congruence. }
    destruct (so_far_at t o d b r g u x E S H) as [?|?]; auto.
Qed.

Lemma so_far_whole t o d b r g u t' : nodes o = d ++ b :: r -> srt k (nodes o) -> so_far t d g u ->
  up_to_point u (nkey b) (g (nval b)) (fun o => o) t' -> same_outside u (nkey b) t' ->
  forall x, at_ t' x = at_ t x \/ exists w, at_ o x = Some w /\ at_ t' x = g w (at_ t x).
Proof.
  intros E S H (f & _ & F) L x. destruct (inr k (nkey b) (pt x)) eqn:Ex.
  - assert (Mx : mem (nkey b) x) by (apply (in_mem X k HX); auto). rewrite (F x Mx). pose proof S as S'. rewrite E in S'. pose proof (not_before d b r x S' Ex) as Q.
    assert (Eu : at_ u x = at_ t x) by (rewrite (H x), Q; auto). rewrite Eu. destruct (f x); auto. right. exists (nval b). split; auto. at_r.
    rewrite E, vr_app, Q. cbn [orelse vr]. rewrite Ex. auto.
  - assert (Q : at_ t' x = at_ u x). { apply L. rewrite <- (in_mem X k HX). congruence. }
    rewrite Q. eapply so_far_at; eauto.
Qed.

Theorem crash_add_map p p' t o : mreach p t -> mreach p' o -> proper CC p ->
  survives (cm_add_map X k (mt CC p) t o) (m_add_map X k (mt CC p) t o) (fun t' => usable p t' /\ old_new_none t o (add_val CC p) t').
Proof.
  intros Ht Ho P. destruct (thm_madd_map X k HX CC Hco p p' t o Ht Ho P) as (t' & E & _). eapply survives_intro; eauto using follows_add_map.
  assert (So : srt k (nodes o)) by (apply (mreach_inv X k HX CC Hco p' o Ho)).
  unfold cm_add_map. eapply throws_bind.
  - apply (follows_cfold (fun '(t, prior_) n => cm_add_hint X k (mt CC p) t prior_ (nkey n) (nval n)) (fun '(t, prior_) n => m_add_hint X k (mt CC p) t prior_ (nkey n) (nval n))).
    intros [u i] b. apply follows_m_add_hint.
  - apply (cfold_throws' (fun '(t, prior_) n => cm_add_hint X k (mt CC p) t prior_ (nkey n) (nval n)) (fun '(t, prior_) n => m_add_hint X k (mt CC p) t prior_ (nkey n) (nval n)) _
      (fun d '(u, i) => mreach p u /\ mhint_ok u i /\ so_far t d (add_val CC p) u)) with (d := []); cbn [app].
    + intros [u i] b. apply follows_m_add_hint.
    + intros d b r [u i] Ed (Ru & Hi & H). eapply throws_impl; [apply m_add_hint_throws; auto|]. intros t1 (U & A & B & _). split; auto. eapply so_far_partial; eauto.
    + intros d b r [u i] [u' i'] Ed (Ru & Hi & H) E'. split; [eapply M_add_hint; eauto|].
      destruct (add_hint_any X k HX (mt CC p) Hco (codomain_combine (mt CC p)) u i (nkey b) (nval b)) as (u2 & i2 & E2 & _ & I2 & Q); eauto. { apply mhint_isit; auto. }
      unfold m_add_hint in E'. assert (u2 = u' /\ i2 = i') as [-> ->] by (rewrite E2 in E'; inversion E'; auto). split; [apply mhint_isit; auto|].
      eapply so_far_step; [exact (eq_ind (nodes o) (fun l => srt k l) So _ Ed)|exact H|]. apply (chg_changed X k HX CC p u u' (nkey b) (ga (mt CC p) (codomain_combine (mt CC p)) (nval b))); [|apply ga_plus].
      apply Q; [apply (mreach_aok X k HX CC Hco); auto|apply P].
    + conjs; auto. { exact Logic.I. } apply so_far_nil.
  - intros [u i] _. apply throws_ret.
Qed.
Theorem crash_insert_map p p' t o : mreach p t -> mreach p' o ->
  survives (cm_insert_map X k (mt CC p) t o) (m_insert_map X k (mt CC p) t o)
    (fun t' => mreach p t' /\ forall x, at_ t' x = at_ t x \/ exists w, at_ o x = Some w /\ at_ t' x = ins_val CC p w (at_ t x)).
Proof.
  intros Ht Ho. destruct (thm_mins_map X k HX CC Hco p p' t o Ht Ho) as (t' & E & _). eapply survives_intro; eauto using follows_insert_map.
  assert (So : srt k (nodes o)) by (apply (mreach_inv X k HX CC Hco p' o Ho)).
  unfold cm_insert_map. apply (cfold_throws' _ (fun t n => ' (t, _) <- m_insert_hint X k (mt CC p) t None (nkey n) (nval n) ;; Ok t) _
      (fun d u => mreach p u /\ so_far t d (ins_val CC p) u)) with (d := []); cbn [app].
  - intros u b. apply follows_bind; [apply follows_m_insert_hint|]. intros [v i]. apply follows_ret.
  - intros d b r u Ed (Ru & H). eapply throws_bind; [apply follows_m_insert_hint| |intros [v i] _; apply throws_ret].
    eapply throws_impl; [apply m_insert_hint_throws; auto; exact Logic.I|]. intros t1 (R1 & F & S1 & _). split; auto.
    eapply so_far_whole; eauto.
  - intros d b r u u' Ed (Ru & H) E'. destruct (m_insert_hint X k (mt CC p) u None (nkey b) (nval b)) as [[v i]|] eqn:E1; [|discriminate]. injection E' as <-.
    split; [eapply M_insert_hint; eauto; exact Logic.I|].
    destruct (ins_hint_any X k HX (mt CC p) Hco u None (nkey b) (nval b)) as (u2 & i2 & E2 & _ & _ & Q); eauto. { exact Logic.I. }
    assert (u2 = v) as -> by (rewrite E2 in E1; inversion E1; auto). eapply so_far_step; [exact (eq_ind (nodes o) (fun l => srt k l) So _ Ed)|exact H|]. apply (chg_changed X k HX CC p u v (nkey b) (gi (mt CC p) (nval b))); [exact Q|apply gi_ins].
  - split; auto. apply so_far_nil.
Qed.
Theorem crash_subtract_map p p' t o : mreach p t -> mreach p' o ->
  survives (cm_subtract_map X k (mt CC p) t o) (m_subtract_map X k (mt CC p) t o) (fun t' => usable p t' /\ old_new_none t o (sub_val CC p) t').
Proof.
  intros Ht Ho. destruct (thm_msub_map X k HX CC Hco p p' t o Ht Ho) as (t' & E & _). eapply survives_intro; eauto using follows_subtract_map.
  assert (So : srt k (nodes o)) by (apply (mreach_inv X k HX CC Hco p' o Ho)).
  unfold cm_subtract_map. apply (cfold_throws' _ (fun t n => m_subtract X k (mt CC p) t (nkey n) (nval n)) _
      (fun d u => mreach p u /\ so_far t d (sub_val CC p) u)) with (d := []); cbn [app].
  - intros u b. apply follows_m_subtract.
  - intros d b r u Ed (Ru & H). eapply throws_impl; [apply m_subtract_throws; auto|]. intros t1 (U & A & B & _). split; auto. eapply so_far_partial; eauto.
  - intros d b r u u' Ed (Ru & H) E'. split; [eapply M_subtract; eauto|]. destruct (thm_msub X k HX CC Hco p u Ru (nkey b) (nval b)) as (u2 & E2 & Q).
    assert (u2 = u') by congruence. subst. eapply so_far_step; [exact (eq_ind (nodes o) (fun l => srt k l) So _ Ed)|exact H|exact Q].
  - split; auto. apply so_far_nil.
Qed.
Lemma ge_step p v (o o' : option V) : o = o' \/ o = None -> ge (mt CC p) v o = o' \/ ge (mt CC p) v o = None.
Proof. unfold ge, gers. destruct (is_absorbable _ _); auto. intros [->| ->]; auto. destruct o'; auto. match goal with |- (if ?b then _ else _) = _ \/ _ => destruct b end; auto. Qed.
Theorem crash_erase_map p p' t o : mreach p t -> mreach p' o ->
  survives (cm_erase_map X k (mt CC p) t o) (m_erase_map X k (mt CC p) t o)
    (fun t' => mreach p t' /\ forall x, at_ t' x = at_ t x \/ at_ t' x = None).
Proof.
  intros Ht Ho. destruct (erase_map_at X k HX (mt CC p) Hco t o) as (t' & E & _); eauto. eapply survives_intro; eauto using follows_erase_map.
  unfold cm_erase_map. match goal with |- throws (match ?l with _ => _ end) _ => destruct l end; [apply throws_ret|].
  eapply throws_bind; [apply follows_lift|apply throws_lift|]. intros [[lwb upb]|] _; [|apply throws_ret].
  eapply throws_bind; [apply follows_lift|apply throws_lift|]. intros l0 El.
  apply (cfold_throws' _ (fun t n => m_erase_seg X k (mt CC p) t (nkey n) (nval n)) _
      (fun d u => mreach p u /\ forall x, at_ u x = at_ t x \/ at_ u x = None)) with (d := []); cbn [app].
  - intros u b. apply follows_m_erase_seg.
  - intros d b r u Ed (Ru & H). eapply throws_impl; [apply m_erase_seg_throws; auto|]. intros t1 (R1 & A & B & _). split; auto. intros x.
    destruct (inr k (nkey b) (pt x)) eqn:Ex.
    + rewrite A by (apply (in_mem X k HX); auto). destruct (H x) as [->| ->]; auto. destruct (at_ t x); cbn; auto. destruct (cc_eq _ _); auto.
    + destruct (B x) as [->|[-> _]]; auto. rewrite <- (in_mem X k HX). congruence.
  - intros d b r u u' Ed (Ru & H) E'. split; [eapply M_erase_seg; eauto|]. destruct (erase_seg_any X k HX (mt CC p) Hco u (nkey b) (nval b)) as (u2 & E2 & _ & Q); eauto.
    assert (u2 = u') by congruence. subst. intros x. specialize (Q (pt x)). cbn [mt_co mt] in Q. revert Q. at_r. intros ->. specialize (H x). revert H. at_r.
    match goal with |- _ -> (if ?c then _ else _) = _ \/ _ => destruct c end; auto. apply ge_step.
  - split; auto.
Qed.
Theorem crash_erase_set p st t o : mreach p t -> reach X k st o ->
  survives (cm_erase_set X k (mt CC p) t o) (m_erase_set X k (mt CC p) t o)
    (fun t' => mreach p t' /\ forall x, at_ t' x = at_ t x \/ at_ t' x = None).
Proof.
  intros Ht Ho. destruct (thm_merase_set X k HX CC Hco p st t o Ht Ho) as (t' & E & _); eauto. eapply survives_intro; eauto using follows_erase_set.
  unfold cm_erase_set. destruct (nodes o) eqn:En; [apply throws_ret|]. clear En.
  eapply throws_bind; [apply follows_lift|apply throws_lift|]. intros [[lwb upb]|] _; [|apply throws_ret].
  eapply throws_bind; [apply follows_lift|apply throws_lift|]. intros l0 El.
  apply (cfold_throws' _ (fun t n => m_erase X k (mt CC p) t (nkey n)) _
      (fun d u => mreach p u /\ forall x, at_ u x = at_ t x \/ at_ u x = None)) with (d := []); cbn [app].
  - intros u b. apply follows_m_erase.
  - intros d b r u Ed (Ru & H). eapply throws_impl; [apply m_erase_throws; auto|]. intros t1 (R1 & A & B & _). split; auto. intros x.
    destruct (inr k (nkey b) (pt x)) eqn:Ex.
    + rewrite A by (apply (in_mem X k HX); auto). auto.
    + destruct (B x) as [->|[-> _]]; auto. rewrite <- (in_mem X k HX). congruence.
  - intros d b r u u' Ed (Ru & H) E'. split; [eapply M_erase; eauto|]. destruct (thm_merase X k HX CC Hco p u Ru (nkey b)) as (u2 & E2 & Q); eauto.
    assert (u2 = u') by congruence. subst. intros x. destruct (Q x) as [Q1 Q2]. destruct (inr k (nkey b) (pt x)) eqn:Ex.
    + rewrite Q1; auto. apply (in_mem X k HX). auto.
    + rewrite Q2; auto. rewrite <- (in_mem X k HX). congruence.
  - split; auto.
Qed.
Section And.
Context (p : mpar) (t : tree) (Ht : mreach p t).
Notation M := (mt CC p).
Theorem crash_m_and_itv a : survives (cm_and_itv X k M t a) (m_and_itv X k M t a) (fun t' => t' = t).
Proof.
  destruct (int_itv_at X k HX M Hco t_empty t a) as (t' & E & _); eauto. { apply minv_empty. }
  eapply survives_intro; [apply follows_unwind; apply follows_add_inter_itv|exact E|apply throws_unwind].
Qed.
Theorem crash_m_and_seg a v : survives (cm_and_seg X k M t a v) (m_and_seg X k M t a v) (fun t' => t' = t).
Proof.
  destruct (int_seg_at X k HX M Hco t_empty t a v) as (t' & E & _); eauto. { apply minv_empty. }
  eapply survives_intro; [apply follows_unwind; apply follows_add_inter_seg|exact E|apply throws_unwind].
Qed.
Theorem crash_m_and_map p' o : mreach p' o -> survives (cm_and_map X k M t o) (m_and_map X k M t o) (fun t' => t' = t).
Proof.
  intros Ho. destruct (int_map_at X k HX M Hco t_empty t o) as (t' & E & _); eauto. { apply minv_empty. }
  eapply survives_intro; [apply follows_unwind; apply follows_add_inter_map|exact E|apply throws_unwind].
Qed.
Theorem crash_m_and_set st o : reach X k st o -> survives (cm_and_set X k M t o) (m_and_set X k M t o) (fun t' => t' = t).
Proof.
  intros Ho. destruct (int_set_at X k HX M Hco t_empty t o) as (t' & E & _); eauto. { apply minv_empty. } { eapply reach_inv; eauto. }
  eapply survives_intro; [apply follows_unwind; apply follows_add_inter_set|exact E|apply throws_unwind].
Qed.
End And.
End CrashMapThms.

(** Iterators that stay valid (proofs). *)
From Verif Require Export StableSpec LookThms SetKeep MapThms2.
From Verif Require Import MapModel.

Section StableThms.
Context (X : dom) (k : kind).
Context (HX : dom_ok X k).
Notation I := (itv (D X)).
Notation lc := (lc X k).
Notation uc := (uc X k).
Notation pt := (pt X).
Notation cltb := (cltb X).
Notation ne := (@ne X k).
Notation mem := (mem X k).
Ltac cord := cord_ X k HX.

Lemma all_below a z : ne a -> (forall x, mem a x -> lt x z) -> cltb (pt z) (uc a) = false.
Proof.
  intros Na H. destruct (cltb (pt z) (uc a)) eqn:E; auto. exfalso. destruct (cltb (pt z) (lc a)) eqn:F.
  - destruct (ne_elem X k HX a Na) as (x & Mx). specialize (H x Mx). rewrite (lt_pt X) in H. apply (mem_inr X k HX) in Mx. unfold inr in Mx. cord.
  - specialize (H z). rewrite (mem_inr X k HX) in H. unfold inr in H. rewrite E, F in H. specialize (H eq_refl). rewrite (lt_pt X) in H. cord.
Qed.
Lemma all_above a z : ne a -> (forall x, mem a x -> lt z x) -> cltb (pt z) (lc a) = true.
Proof.
  intros Na H. destruct (cltb (pt z) (lc a)) eqn:F; auto. exfalso. destruct (cltb (pt z) (uc a)) eqn:E.
  - specialize (H z). rewrite (mem_inr X k HX) in H. unfold inr in H. rewrite E, F in H. specialize (H eq_refl). rewrite (lt_pt X) in H. cord.
  - destruct (ne_elem X k HX a Na) as (x & Mx). specialize (H x Mx). rewrite (lt_pt X) in H. apply (mem_inr X k HX) in Mx. unfold inr in Mx. cord.
Qed.
Lemma out_far {V} j (n : node (D X) V) a : ne a -> ne (nkey n) -> out_of_reach X k j (nkey n) a -> far k (negb j) (lc a) (uc a) n.
Proof.
  intros Na Nn H. unfold out_of_reach, far in *. destruct j; cbn [negb].
  - destruct H as (z & [[H1 H2]|[H1 H2]]).
    + apply all_below in H1; auto. apply all_above in H2; auto. left. cord.
    + apply all_below in H1; auto. apply all_above in H2; auto. right. cord.
  - destruct (cltb (lc a) (uc (nkey n))) eqn:E1; auto. destruct (cltb (lc (nkey n)) (uc a)) eqn:E2; auto. exfalso. apply H.
    destruct (over_elem X k HX a n Na Nn (conj E2 E1)) as (x & M1 & M2). exists x. auto.
Qed.

Lemma kp_stable {V} j a (t t' : tree (D X) V) : inv k t -> wf t' -> ne a ->
  kp k (negb j) (lc a) (uc a) (nodes t) (nodes t') -> stable X k j a t t'.
Proof.
  intros [W S] W' Na K i s Hs O. rewrite (at_seg_iff X t) in Hs by auto. destruct Hs as (n & Hn & -> & ->). rewrite (at_seg_iff X t') by auto. exists n. split; auto.
  apply K; auto. apply out_far; auto. apply srt_nes in S. unfold nes in S. rewrite Forall_forall in S. auto.
Qed.
Lemma stable_refl {V} j a (t : tree (D X) V) : stable X k j a t t.
Proof. intros i s H _. auto. Qed.

Notation is_joining := (fun st => match st with Joining => true | _ => false end).
Lemma sspl_eq st : sspl st = negb (is_joining st).
Proof. destruct st; auto. Qed.

Lemma thm_s_add st t a : reach X k st t -> exists t' it, s_add X k st t a = Ok (t', it) /\ stable X k (is_joining st) a t t'.
Proof.
  intros R. pose proof (reach_inv X k HX st t R) as Hi. pose proof (reach_sinv X k HX st t R) as Hs. destruct (is_empty X k a) eqn:Ea.
  { exists t, None. rewrite s_add_empty by auto. split; auto. apply stable_refl. }
  assert (Na : ne a) by (apply (ne_iff X k HX); auto).
  destruct (s_add_at X k HX st t a Hs Na) as (t' & it & E & [[W' _] _] & _). exists t', it. split; auto.
  apply kp_stable; auto. rewrite <- sspl_eq. eapply s_add_kp; eauto.
Qed.
Lemma thm_s_add_hint st t h a : reach X k st t -> hint_ok X t h -> exists t' it, s_add_hint X k st t h a = Ok (t', it) /\ stable X k (is_joining st) a t t'.
Proof.
  intros R Hh. apply (SetProps.hint_isit X) in Hh. pose proof (reach_inv X k HX st t R) as Hi. pose proof (reach_sinv X k HX st t R) as Hs. destruct (is_empty X k a) eqn:Ea.
  { exists t, h. unfold s_add_hint. rewrite Ea. split; auto. apply stable_refl. }
  assert (Na : ne a) by (apply (ne_iff X k HX); auto).
  destruct (s_add_hint_at X k HX st t h a Hs Hh Na) as (t' & it & E & [[W' _] _] & _). exists t', it. split; auto.
  apply kp_stable; auto. rewrite <- sspl_eq. eapply s_add_hint_kp; eauto.
Qed.
Lemma thm_s_subtract st t a : reach X k st t -> exists t', s_subtract X k t a = Ok t' /\ stable X k false a t t'.
Proof.
  intros R. pose proof (reach_inv X k HX st t R) as Hi. destruct (is_empty X k a) eqn:Ea.
  { exists t. unfold s_subtract. rewrite Ea. split; auto. apply stable_refl. }
  assert (Na : ne a) by (apply (ne_iff X k HX); auto). pose proof Hi as [W S].
  destruct (decomp X k HX a (nodes t) S Na) as (L & M & R' & E & BL & OM & AR).
  destruct (s_subtract_dec X k HX t L M R' a Hi Na E BL OM AR) as (t' & P & Q & [W' _] & _). exists t'. split; auto.
  apply kp_stable; auto. eapply s_subtract_kp; eauto.
Qed.

Section Maps.
Context (CC : codomain) (Hco : eq_ok CC).
Notation mreach := (mreach X k CC).
Notation tree := (tree (D X) CC).
Notation joins := (fun p => match mp_style p with MJoin => true | MSplit => false end).
Lemma spl_eq p : spl (mt CC p) = negb (joins p).
Proof. unfold spl. cbn [mt_style mt]. destruct (mp_style p); auto. Qed.
Lemma wf_minv p (t : tree) : minv X k (mt CC p) t -> wf t. Proof. intros [[W _] _]. auto. Qed.

Section One.
Context (p : mpar) (t : tree) (Ht : mreach p t).
Notation M := (mt CC p).
Lemma post_stable a g t' : ne a -> minv X k (mt CC p) t' -> post k (spl M) (lc a) (uc a) g (nodes t) (nodes t') -> stable X k (joins p) a t t'.
Proof.
  intros Na H (_ & _ & K). apply kp_stable; auto. { eapply mreach_inv; eauto. } { eapply wf_minv; eauto. } rewrite <- spl_eq. auto.
Qed.
Lemma thm_m_add a v : exists t', m_add X k M t a v = Ok t' /\ stable X k (joins p) a t t'.
Proof.
  unfold m_add. destruct (is_empty X k a) eqn:Ea. { exists t. unfold m_add_. rewrite Ea. split; auto. apply stable_refl. }
  destruct (is_absorbable M v) eqn:Ex. { exists t. unfold m_add_. rewrite Ea, Ex. split; auto. apply stable_refl. }
  assert (Na : ne a) by (apply (ne_iff X k HX); auto).
  destruct (add_at_ X k HX M Hco (codomain_combine M) t a v) as (t' & it & E & H1 & _ & P); eauto using mreach_minv.
  exists t'. rewrite E. split; auto. eapply post_stable; eauto.
Qed.
Lemma thm_m_add_hint h a v : mhint_ok X CC t h -> proper CC p -> exists t' it, m_add_hint X k M t h a v = Ok (t', it) /\ stable X k (joins p) a t t'.
Proof.
  intros Hh P. apply mhint_isit in Hh. pose proof (mreach_minv X k HX CC Hco p t Ht) as Hm. pose proof (mreach_aok X k HX CC Hco p t Ht P) as A.
  pose proof (mreach_inv X k HX CC Hco p t Ht) as Hi. unfold m_add_hint. destruct (is_empty X k a) eqn:Ea.
  { exists t, h. unfold m_add_hint_. rewrite Ea. split; auto. apply stable_refl. }
  destruct (is_absorbable (mt CC p) v) eqn:Ex.
  { exists t, h. unfold m_add_hint_. rewrite Ea, Ex. split; auto. apply stable_refl. }
  assert (Na : ne a) by (apply (ne_iff X k HX); auto).
  destruct (decomp X k HX a (nodes t) (proj2 Hi) Na) as (L & N & R & E & BL & ON & AR).
  destruct N as [|m N'] eqn:EN.
  - destruct (add_hint_at_free X k HX (mt CC p) Hco (codomain_combine (mt CC p)) t h L R a v) as (t2 & i2 & E2 & I2 & _ & P2); auto.
    exists t2, i2. split; auto. eapply post_stable; eauto.
  - destruct (add_hint_at_over X k HX (mt CC p) Hco (codomain_combine (mt CC p)) t h L (m :: N') R a v) as (t2 & i2 & E2 & I2 & _ & P2); auto; try discriminate.
    { apply (aok_nodes X k HX (mt CC p) (nodes t) (proj2 Hi)). auto. }
    exists t2, i2. split; auto. eapply post_stable; eauto.
Qed.
Lemma thm_m_subtract a v : exists t', m_subtract X k M t a v = Ok t' /\ stable X k (joins p) a t t'.
Proof.
  unfold m_subtract. destruct (is_empty X k a) eqn:Ea. { exists t. unfold m_add_, m_subtract_. rewrite Ea. split; [destruct (is_total_invertible M)|apply stable_refl]; auto. }
  destruct (is_absorbable M v) eqn:Ex. { exists t. unfold m_add_, m_subtract_. rewrite Ea, Ex. split; [destruct (is_total_invertible M)|apply stable_refl]; auto. }
  assert (Na : ne a) by (apply (ne_iff X k HX); auto). destruct (is_total_invertible M).
  - destruct (add_at_ X k HX M Hco (inverse_codomain_combine M) t a v) as (t' & it & E & H1 & _ & P); eauto using mreach_minv.
    exists t'. rewrite E. split; auto. eapply post_stable; eauto.
  - destruct (subtract_at X k HX M Hco (inverse_codomain_combine M) t a v) as (t' & E & H1 & P); eauto using mreach_minv.
    exists t'. rewrite E. split; auto. eapply post_stable; eauto.
Qed.
Lemma ins_stable s a v : minv X k (mt CC p) s -> exists t', m_insert X k M s a v = Ok t' /\ wf t' /\ (stable X k (joins p) a s t' ) .
Proof.
  intros Hs. unfold m_insert. destruct (is_empty X k a) eqn:Ea. { exists s. unfold m_insert_. rewrite Ea. split; auto. split; [eapply wf_minv; eauto|apply stable_refl]. }
  destruct (is_absorbable M v) eqn:Ex. { exists s. unfold m_insert_. rewrite Ea, Ex. split; auto. split; [eapply wf_minv; eauto|apply stable_refl]. }
  assert (Na : ne a) by (apply (ne_iff X k HX); auto).
  destruct (insert_at_ X k HX M Hco s a v) as (t' & it & E & H1 & _ & _ & _ & K); auto.
  exists t'. rewrite E. split; auto. split; [eapply wf_minv; eauto|]. apply kp_stable; auto. { apply Hs. } { eapply wf_minv; eauto. } rewrite <- spl_eq. auto.
Qed.
Lemma thm_m_insert a v : exists t', m_insert X k M t a v = Ok t' /\ stable X k (joins p) a t t'.
Proof. destruct (ins_stable t a v) as (t' & E & _ & S); eauto using mreach_minv. Qed.
Lemma thm_m_insert_hint h a v : mhint_ok X CC t h -> exists t' it, m_insert_hint X k M t h a v = Ok (t', it) /\ stable X k (joins p) a t t'.
Proof.
  intros Hh. apply mhint_isit in Hh. destruct (is_empty X k a) eqn:Ea. { exists t, h. unfold m_insert_hint. rewrite Ea. split; auto. apply stable_refl. }
  destruct (is_absorbable M v) eqn:Ex. { exists t, h. unfold m_insert_hint. rewrite Ea, Ex. split; auto. apply stable_refl. }
  assert (Na : ne a) by (apply (ne_iff X k HX); auto).
  destruct (insert_hint_at_ X k HX M Hco t h a v) as (t' & it & E & H1 & _ & _ & _ & K); eauto using mreach_minv.
  exists t', it. split; auto. apply kp_stable; auto. { eapply mreach_inv; eauto. } { eapply wf_minv; eauto. } rewrite <- spl_eq. auto.
Qed.
Lemma thm_m_erase a : exists t', m_erase X k M t a = Ok t' /\ minv X k (mt CC p) t' /\ stable X k false a t t'.
Proof.
  destruct (is_empty X k a) eqn:Ea. { exists t. unfold m_erase. rewrite Ea. split; auto. split; [eapply mreach_minv; eauto|apply stable_refl]. }
  assert (Na : ne a) by (apply (ne_iff X k HX); auto).
  destruct (erase_itv_at X k HX M Hco t a) as (t' & E & H1 & _ & _ & K); eauto using mreach_minv.
  exists t'. split; auto. split; auto. apply kp_stable; auto. { eapply mreach_inv; eauto. } { eapply wf_minv; eauto. }
Qed.
Lemma thm_m_erase_seg a v : exists t', m_erase_seg X k M t a v = Ok t' /\ stable X k false a t t'.
Proof.
  destruct (is_empty X k a) eqn:Ea. { exists t. unfold m_erase_seg. rewrite Ea. split; auto. apply stable_refl. }
  destruct (is_absorbable M v) eqn:Ex. { exists t. unfold m_erase_seg. rewrite Ea, Ex. split; auto. apply stable_refl. }
  assert (Na : ne a) by (apply (ne_iff X k HX); auto).
  destruct (erase_seg_at X k HX M Hco t a v) as (t' & E & H1 & _ & _ & K); eauto using mreach_minv.
  exists t'. split; auto. apply kp_stable; auto. { eapply mreach_inv; eauto. } { eapply wf_minv; eauto. }
Qed.
Lemma stable_weak {V} a (s s' : Tree.tree (D X) V) : stable X k false a s s' -> stable X k true a s s'.
Proof.
  intros H j r A O. apply H; auto. intros (x & M1 & M2). destruct O as (z & [[O1 O2]|[O1 O2]]).
  - specialize (O1 x M1). specialize (O2 x M2). rewrite (lt_pt X) in *. cord.
  - specialize (O1 x M2). specialize (O2 x M1). rewrite (lt_pt X) in *. cord.
Qed.
Lemma thm_m_set a v : exists t', m_set X k M t a v = Ok t' /\ stable X k (joins p) a t t'.
Proof.
  unfold m_set. destruct (thm_m_erase a) as (t1 & -> & M1 & S1). cbn [bind]. destruct (ins_stable t1 a v M1) as (t2 & E2 & _ & S2).
  exists t2. split; auto. intros j s A O. apply S2; auto. destruct (joins p); [apply stable_weak in S1|]; apply S1; auto.
Qed.
End One.
End Maps.
End StableThms.

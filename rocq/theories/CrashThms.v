(** Running out of memory (proofs of the properties). *)
From Verif Require Export CrashSpec CrashSet StableThms SetThms.

Lemma survives_intro {T A} (m : cm T A) r a P : follows m r -> r = Ok a -> throws m P -> survives m r P.
Proof.
  intros (c & H) -> TH. exists c, a. split; auto. intros n. destruct (H n) as [H1 H2]. split; auto. intros Hn. destruct (H2 Hn) as (t & E). exists t. split; auto. eapply TH; eauto.
Qed.

Section CrashThms.
Context (X : dom) (k : kind).
Context (HX : dom_ok X k).
Notation I := (itv (D X)).
Notation lc := (lc X k).
Notation uc := (uc X k).
Notation ne := (@ne X k).
Notation tree := (tree (D X) unit).
Notation cmem := (SetSpec.cmem X k).
Notation mem := (mem X k).
Notation reach := (reach X k).

Lemma far_out {V} (t : Tree.tree (D X) V) L M R a x : inv k t -> ne a -> nodes t = L ++ M ++ R -> Forall (over k a) M ->
  Rb k M (pt X x) = true -> affected X k t a x.
Proof.
  intros [W S] Na E OM H. apply Rb_iff in H. destruct H as (n & Hn & H). exists (nkey n).
  assert (In n (nodes t)) by (rewrite E, !in_app_iff; auto). split; [unfold keys; apply in_map; auto|]. split; [apply (inr_mem X k HX); auto|].
  apply srt_nes in S. unfold nes in S. rewrite Forall_forall in S, OM.
  destruct (over_elem X k HX a n Na (S n ltac:(auto)) (OM n Hn)) as (z & M1 & M2). exists z. auto.
Qed.

Lemma add_left_spec (t : tree) a t' : inv k t -> is_empty X k a = false -> add_left X k t a t' -> add_interrupted X k t a t'.
Proof.
  intros Hi Ea (I' & L & M & R & P & E & E' & BL & OM & AR & HP). pose proof (proj2 (ne_iff X k HX a) Ea) as Na.
  assert (NM : nes k M). { destruct Hi as [_ S]. rewrite E in S. apply srt_nes in S. unfold nes in *. rewrite !Forall_app in S. tauto. }
  unfold add_interrupted. conjs.
  - intros x. rewrite !(cmem_Rb X k HX), E, E', !Rb_app, !orb_true_iff, (mem_inr X k HX). destruct (HP (pt X x)). tauto.
  - intros x. rewrite !(cmem_Rb X k HX), E, E', !Rb_app, !orb_true_iff, (mem_inr X k HX). destruct (HP (pt X x)). tauto.
  - intros x Hx Nx. revert Hx. rewrite !(cmem_Rb X k HX), E, E', !Rb_app, !orb_true_iff. intros [H|[H|H]]; auto. exfalso. apply Nx. eapply far_out; eauto.
  - apply (kp_stable X k HX false a t t'); auto; [apply I'|]. rewrite E, E'. apply (kp_LMR X k HX); auto.
Qed.
Lemma sub_left_spec (t : tree) a t' : inv k t -> is_empty X k a = false -> sub_left X k t a t' -> sub_interrupted X k t a t'.
Proof.
  intros Hi Ea (I' & L & M & R & P & E & E' & BL & OM & AR & HP & _). pose proof (proj2 (ne_iff X k HX a) Ea) as Na.
  assert (NM : nes k M). { destruct Hi as [_ S]. rewrite E in S. apply srt_nes in S. unfold nes in *. rewrite !Forall_app in S. tauto. }
  unfold sub_interrupted. conjs.
  - intros x. rewrite !(cmem_Rb X k HX), E, E', !Rb_app, !orb_true_iff, (mem_inr X k HX). specialize (HP (pt X x)).
    assert (O : inr k a (pt X x) = true -> Rb k L (pt X x) = false /\ Rb k R (pt X x) = false).
    { intros H. pose proof (Rb_out X k HX L R a x H BL AR) as Q. auto. }
    destruct (Rb k L (pt X x)), (Rb k R (pt X x)), (inr k a (pt X x)); intuition discriminate.
  - intros x Hx Nx. revert Hx. rewrite !(cmem_Rb X k HX), E, E', !Rb_app, !orb_true_iff. intros [H|[H|H]]; auto. exfalso. apply Nx. eapply far_out; eauto.
  - apply (kp_stable X k HX false a t t'); auto; [apply I'|]. rewrite E, E'. apply (kp_LMR X k HX); auto.
Qed.

Definition add_post st t a (t' : tree) := reach st t' /\ (st <> Splitting -> t' = t) /\ add_interrupted X k t a t'.
Lemma add_throws' st t a : reach st t -> throws (c_add X k st t a) (add_post st t a).
Proof.
  intros R n t' H. pose proof (reach_sinv X k HX st t R) as Hs. destruct (add_throws X k HX st t a Hs n t' H) as (Ea & AL & Q). split; [eapply R_add_thrown; eauto|]. split.
  - intros N. destruct Q; [congruence|auto].
  - apply add_left_spec; auto. apply Hs.
Qed.
Lemma add_hint_throws' st t h a : reach st t -> hint_ok X t h -> throws (c_add_hint X k st t h a) (add_post st t a).
Proof.
  intros R Hh n t' H. pose proof (reach_sinv X k HX st t R) as Hs. pose proof (proj1 (hint_isit X t h) Hh) as Vh.
  destruct (add_hint_throws X k HX st t h a Hs Vh n t' H) as (Ea & AL & Q). split; [eapply R_add_hint_thrown; eauto|]. split.
  - intros N. destruct Q; [congruence|auto].
  - apply add_left_spec; auto. apply Hs.
Qed.
Lemma subtract_throws' st t a : reach st t -> throws (c_subtract X k t a) (fun t' => reach st t' /\ sub_interrupted X k t a t').
Proof.
  intros R n t' H. pose proof (reach_inv X k HX st t R) as Hi. destruct (subtract_throws X k HX t a Hi n t' H) as (Ea & SL). split; [eapply R_subtract_thrown; eauto|].
  apply sub_left_spec; auto.
Qed.

Theorem crash_add st t a : reach st t -> survives (c_add X k st t a) (s_add X k st t a) (add_post st t a).
Proof.
  intros R. destruct (thm_add X k HX st t a R) as (t' & it & E & _). eapply survives_intro; eauto using follows_add. apply add_throws'; auto.
Qed.
Theorem crash_add_hint st t h a : reach st t -> hint_ok X t h -> survives (c_add_hint X k st t h a) (s_add_hint X k st t h a) (add_post st t a).
Proof.
  intros R Hh. destruct (thm_hint X k HX st t h a R Hh) as (_ & t' & _ & it & _ & E & _). eapply survives_intro; eauto using follows_add_hint. apply add_hint_throws'; auto.
Qed.
Theorem crash_subtract st t a : reach st t -> survives (c_subtract X k t a) (s_subtract X k t a) (fun t' => reach st t' /\ sub_interrupted X k t a t').
Proof.
  intros R. destruct (thm_subtract X k HX st t a R) as (t' & E & _). eapply survives_intro; eauto using follows_subtract. apply subtract_throws'; auto.
Qed.

(* ------------------------------------------------------------- whole containers *)
Lemma cfold_throws {A B} (f : A -> B -> cm tree A) g (P : tree -> Prop) (J : A -> Prop) :
  (forall a b, follows (f a b) (g a b)) ->
  forall l, (forall a b, In b l -> J a -> throws (f a b) P) -> (forall a b a', In b l -> J a -> g a b = Ok a' -> J a') ->
  forall a, J a -> throws (cfold f a l) P.
Proof.
  intros AG l. induction l as [|b l IH]; intros TH ST a Ha; cbn [cfold]; [apply throws_ret|].
  eapply throws_bind; [apply AG|apply TH; cbn; auto|]. intros a' E. apply IH.
  - intros a0 b0 H. apply TH. cbn; auto.
  - intros a0 b0 a1 H. apply ST. cbn; auto.
  - eapply ST; [|exact Ha|exact E]. cbn; auto.
Qed.
Lemma hint_step st t h a t' it : reach st t -> hint_ok X t h -> s_add_hint X k st t h a = Ok (t', it) ->
  reach st t' /\ hint_ok X t' it /\ forall x, cmem t' x <-> cmem t x \/ mem a x.
Proof.
  intros R Hh E. split; [eapply R_add_hint; eauto|]. pose proof (proj1 (hint_isit X t h) Hh) as Vh. pose proof (reach_sinv X k HX st t R) as Hs.
  destruct (is_empty X k a) eqn:Ea.
  - rewrite s_add_hint_empty in E by auto. injection E as <- <-. split; auto. intros x. split; auto. intros [H|H]; auto. exfalso. eapply (empty_no_point X k HX); eauto.
  - pose proof (proj2 (ne_iff X k HX a) Ea) as Na. destruct (s_add_hint_at X k HX st t h a Hs Vh Na) as (u & i & E' & _ & V & A).
    assert (u = t' /\ i = it) as [-> ->] by (rewrite E in E'; inversion E'; auto). split; [apply hint_isit; auto|].
    intros x. destruct A as [A _]. rewrite !(cmem_Rb X k HX), (mem_inr X k HX). destruct (A (pt X x)) as [-> _]. apply orb_true_iff.
Qed.
Definition add_set_post st (t o t' : tree) := reach st t' /\
  (st <> Splitting -> forall x, cmem t x -> cmem t' x) /\ (forall x, cmem t' x -> cmem t x \/ cmem o x).
Lemma add_post_set st t0 o t a t' : (forall x, mem a x -> cmem o x) -> (forall x, cmem t0 x -> cmem t x) -> (forall x, cmem t x -> cmem t0 x \/ cmem o x) ->
  add_post st t a t' -> add_set_post st t0 o t'.
Proof.
  intros Ha H1 H2 (R & S & (A1 & _)). split; auto. split.
  - intros N x Hx. rewrite (S N). auto.
  - intros x Hx. destruct (A1 x Hx) as [H|H]; auto.
Qed.
Theorem crash_add_set st st' t o : reach st t -> reach st' o -> survives (c_add_set X k st t o) (s_add_set X k st t o) (add_set_post st t o).
Proof.
  intros R Ro. destruct (thm_add_set X k HX st st' t o R Ro) as (t' & E & _). eapply survives_intro; eauto using follows_add_set.
  unfold c_add_set. eapply throws_bind.
  - apply (follows_cfold (fun '(t, prior_) n => c_add_hint X k st t prior_ (nkey n)) (fun '(t, prior_) n => s_add_hint X k st t prior_ (nkey n))). intros [u i] b. apply follows_add_hint.
  - apply (cfold_throws (fun '(t, prior_) n => c_add_hint X k st t prior_ (nkey n)) (fun '(t, prior_) n => s_add_hint X k st t prior_ (nkey n)) _
      (fun '(u, i) => reach st u /\ hint_ok X u i /\ (forall x, cmem t x -> cmem u x) /\ (forall x, cmem u x -> cmem t x \/ cmem o x))).
    + intros [u i] b. apply follows_add_hint.
    + intros [u i] b Hb (Ru & Hi & H1 & H2). eapply throws_impl; [apply add_hint_throws'; auto|]. intros t1. apply add_post_set; auto. intros x Mx. apply cmem_nodes. eauto.
    + intros [u i] b [u' i'] Hb (Ru & Hi & H1 & H2) E'. destruct (hint_step st u i (nkey b) u' i' Ru Hi E') as (R' & Hi' & H'). conjs; auto.
      * intros x Hx. apply H'. auto.
      * intros x Hx. apply H' in Hx. destruct Hx as [Hx|Hx]; auto. right. apply cmem_nodes. eauto.
    + conjs; auto. exact Logic.I.
  - intros [u i] _. apply throws_ret.
Qed.
Theorem crash_insert_set st st' t o : reach st t -> reach st' o -> survives (c_insert_set X k st t o) (s_insert_set X k st t o) (add_set_post st t o).
Proof.
  intros R Ro. destruct (thm_insert_set X k HX st t o R) as (t' & E & _). eapply survives_intro; eauto using follows_insert_set.
  unfold c_insert_set. apply (cfold_throws _ (fun t n => ' (t, _) <- s_add_hint X k st t None (nkey n) ;; Ok t) _
      (fun u => reach st u /\ (forall x, cmem t x -> cmem u x) /\ (forall x, cmem u x -> cmem t x \/ cmem o x))).
  - intros u b. apply follows_bind; [apply follows_add_hint|]. intros [v i]. apply follows_ret.
  - intros u b Hb (Ru & H1 & H2). eapply throws_bind; [apply follows_add_hint| |intros [v i] _; apply throws_ret].
    eapply throws_impl; [apply add_hint_throws'; auto; exact Logic.I|]. intros t1. apply add_post_set; auto. intros x Mx. apply cmem_nodes. eauto.
  - intros u b u' Hb (Ru & H1 & H2) E'. destruct (s_add_hint X k st u None (nkey b)) as [[v i]|] eqn:E1; [|discriminate]. injection E' as <-.
    destruct (hint_step st u None (nkey b) v i Ru Logic.I E1) as (R' & Hi' & H'). conjs; auto.
    + intros x Hx. apply H'. auto.
    + intros x Hx. apply H' in Hx. destruct Hx as [Hx|Hx]; auto. right. apply cmem_nodes. eauto.
  - conjs; auto.
Qed.
Lemma range_incl {V} (t : Tree.tree (D X) V) f p l : range X t f p = Ok l -> List.incl l (nodes t).
Proof.
  unfold range. destruct f as [i|].
  - destruct (split_at i (nodes t)) as [[[a n] r]|] eqn:E; [|discriminate]. apply split_at_some in E. destruct E as [E _].
    assert (Q : List.incl (n :: r) (nodes t)) by (rewrite E; intros y Hy; apply in_app_iff; auto).
    destruct p as [j|]; [|intros H; injection H as <-; auto]. destruct (split_at j (n :: r)) as [[[a' n'] r']|] eqn:E'; [|discriminate]. apply split_at_some in E'. destruct E' as [E' _].
    intros H. injection H as <-. intros y Hy. apply Q. rewrite E'. apply in_app_iff. auto.
  - destruct p; [discriminate|]. intros H. injection H as <-. intros y [].
Qed.
Theorem crash_and_seg st t a : reach st t -> survives (c_and_seg X k st t a) (s_and_seg X k st t a) (fun t' => t' = t).
Proof.
  intros R. destruct (thm_and_seg X k HX st t a R) as (t' & E & _). eapply survives_intro; eauto using follows_and_seg. apply throws_unwind.
Qed.
Theorem crash_and_set st st' t o : reach st t -> reach st' o -> survives (c_and_set X k st t o) (s_and_set X k st t o) (fun t' => t' = t).
Proof.
  intros R Ro. destruct (thm_and_set X k HX st st' t o R Ro) as (t' & E & _). eapply survives_intro; eauto using follows_and_set. apply throws_unwind.
Qed.
Theorem crash_subtract_set st st' t o : reach st t -> reach st' o ->
  survives (c_subtract_set X k t o) (s_subtract_set X k t o) (fun t' => reach st t' /\ (forall x, cmem t' x -> cmem t x) /\
    forall x, cmem t x -> ~ (exists b, In b (keys X o) /\ affected X k t b x) -> cmem t' x).
Proof.
  intros R Ro. destruct (thm_subtract_set X k HX st st' t o R Ro) as (t' & E & _). eapply survives_intro; eauto using follows_subtract_set.
  unfold c_subtract_set. destruct (nodes o) eqn:En; [apply throws_ret|]. clear En.
  eapply throws_bind; [apply follows_lift|apply throws_lift|]. intros [[lwb upb]|] _; [|apply throws_ret].
  eapply throws_bind; [apply follows_lift|apply throws_lift|]. intros l0 El. apply range_incl in El.
  apply (cfold_throws _ (fun t n => s_subtract X k t (nkey n)) _
    (fun u => reach st u /\ (forall x y, same_seg X k (keys X u) x y -> same_seg X k (keys X t) x y) /\
      forall x, cmem t x -> ~ (exists b, In b (keys X o) /\ affected X k t b x) -> cmem u x)).
  - intros u b. apply follows_subtract.
  - intros u b Hb (Ru & H1 & H2). eapply throws_impl; [apply subtract_throws'; eauto|]. intros t1 (R1 & S1 & S2 & _). split; auto. split.
    + intros x Hx. apply S1 in Hx. destruct Hx as [(c & Hc & Mc) _]. destruct (H1 x x) as (d & Hd & Md & _); [exists c; auto|]. exists d. auto.
    + intros x Hx Nx. apply S2; [apply H2; auto|]. intros (c & Hc & Mc & w & Mw & Mb). apply Nx. exists (nkey b). split; [unfold keys; apply in_map; auto|].
      destruct (H1 x w) as (d & Hd & Md1 & Md2); [exists c; auto|]. exists d. conjs; auto. exists w. auto.
  - intros u b u' Hb (Ru & H1 & H2) E'. split; [eapply R_subtract; eauto|].
    destruct (thm_sub_borders X k HX st u (nkey b) Ru) as (v & E1 & HB). assert (v = u') by congruence. subst v.
    destruct (thm_subtract X k HX st u (nkey b) Ru) as (v & E2 & HC). assert (v = u') by congruence. subst v. split.
    + intros x y S. apply H1. destruct (le_total X k HX x y) as [L|L]; [apply HB in S; auto; tauto|].
      apply same_seg_sym. apply same_seg_sym in S. apply HB in S; auto. tauto.
    + intros x Hx Nx. apply HC. split; [apply H2; auto|]. intros Mb. apply Nx. exists (nkey b). split; [unfold keys; apply in_map; auto|].
      destruct Hx as (d & Hd & Md). exists d. conjs; auto. exists x. auto.
  - conjs; auto.
Qed.
End CrashThms.

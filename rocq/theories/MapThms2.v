(** Map properties about whole maps, hints, queries, equality and inclusion (proofs). *)
From Verif Require Export MapThms.
From Verif Require Export MapModel.
From Coq Require Import Sorted.

Section MapThms2.
Context (X : dom) (k : kind).
Context (HX : dom_ok X k).
Context (CC : codomain) (Hco : eq_ok CC).
Notation V := (C CC).
Notation I := (itv (D X)).
Notation node := (node (D X) V).
Notation tree := (tree (D X) V).
Notation iset := (Tree.tree (D X) unit).
Notation lc := (lc X k).
Notation uc := (uc X k).
Notation pt := (pt X).
Notation cltb := (cltb X).
Notation ceqb := (ceqb X).
Notation ok := (cut_ok X k).
Notation minv p := (minv X k (mt CC p)).
Notation aok p := (aok X k (mt CC p)).
Notation vf t := (vr k (nodes t)).
Notation mem := (mem X k).
Notation cmem := (cmem X k).
Notation at_ := (at_ X k CC).
Notation mreach := (mreach X k CC).
Notation reach := (reach X k).
Notation changed := (changed X k CC).
Notation combined := (combined X k CC).
Ltac cord := cord_ X k HX.
Hint Resolve mreach_minv mreach_inv mreach_aok reach_inv proper_good : core.
Ltac at_r := rewrite ?(at_vr X k HX CC).
Ltac mco H := cbn [mt_co mt] in H.

(* ------------------------------------------------------------ whole maps *)
Section Whole.
Context (p p' : mpar) (t o : tree) (Ht : mreach p t) (Ho : mreach p' o).
Notation M := (mt CC p).
Lemma thm_madd_map : proper CC p -> exists t', m_add_map X k M t o = Ok t' /\ combined t o t' (add_val CC p).
Proof.
  intros P. destruct (add_map_at X k HX M Hco t o) as (t' & E & _ & Q); eauto. exists t'. split; auto.
  destruct Q as [_ Q]; eauto. eapply pw_combined; [auto|exact Q|]. intros. apply ga_plus.
Qed.
Lemma thm_msub_map : exists t', m_subtract_map X k M t o = Ok t' /\ combined t o t' (sub_val CC p).
Proof.
  destruct (subtract_map_at X k HX M Hco t o) as (t' & E & _ & Q); eauto. exists t'. split; auto. eapply pw_combined; [auto|exact Q|]. intros; apply gsubt_sub.
Qed.
Lemma thm_mins_map : exists t', m_insert_map X k M t o = Ok t' /\ combined t o t' (ins_val CC p).
Proof.
  destruct (insert_map_at X k HX M Hco t o) as (t' & E & _ & Q); eauto. exists t'. split; auto. eapply pw_combined; [auto|exact Q|]. intros; apply gi_ins.
Qed.
Lemma thm_merase_map : mp_absorbs p = false \/ proper CC p -> exists t', m_erase_map X k M t o = Ok t' /\ combined t o t' (erase_val CC).
Proof.
  intros H. destruct (erase_map_at X k HX M Hco t o) as (t' & E & _ & Q); eauto. exists t'. split; auto.
  apply (pw_combined X k HX CC p _ _ _ _ (ge M)) in Q; auto. intros x. rewrite Q. destruct (at_ o x) as [v|]; auto.
  unfold ge, gers, is_absorbable, erase_val. cbn [mt_absorbs mt mt_co]. destruct (mp_absorbs p) eqn:Ea; auto.
  destruct H as [|H]; [discriminate|]. destruct (cc_eq v cc_zero) eqn:E2; auto. apply Hco in E2. subst v. cbn [andb].
  pose proof (at_nz X k HX CC Hco p t x Ht H Ea) as Nz. destruct (at_ t x) as [w|]; auto. destruct (cc_eq w cc_zero) eqn:E3; auto. apply Hco in E3. congruence.
Qed.
Lemma thm_mand_map : mp_total p = false -> exists t', m_and_map X k M t o = Ok t' /\
  forall x, at_ t' x = match at_ o x with Some v => and_val CC p v (at_ t x) | None => None end.
Proof.
  intros Et. destruct (int_map_at X k HX M Hco t_empty t o) as (t' & E & _ & Q & _); eauto. { apply minv_empty. } exists t'. split; auto.
  intros x. at_r. specialize (Q Et (pt x)). mco Q. rewrite Q. destruct (vf t (pt x)), (vf o (pt x)); auto.
Qed.
Lemma thm_mand_map_total : mp_total p = true -> proper CC p -> exists t', m_and_map X k M t o = Ok t' /\
  forall x, at_ t' x = match at_ o x with Some v => add_val CC p v (copy_val CC p (at_ t x)) | None => copy_val CC p (at_ t x) end.
Proof.
  intros Et P. destruct (int_map_at X k HX M Hco t_empty t o) as (t' & E & _ & _ & Q); eauto. { apply minv_empty. } exists t'. split; auto.
  destruct (Q Et) as [_ Q']; auto. { apply aok_nil. } intros x. at_r. specialize (Q' (pt x)). mco Q'. rewrite Q'. destruct (vf t (pt x)), (vf o (pt x)); auto.
Qed.
Lemma thm_mflip_map : mp_total p = false -> proper CC p -> exists t', m_flip_map X k M t o = Ok t' /\ combined t o t' (flip_val CC p).
Proof.
  intros Et P. destruct (flip_map_at X k HX M Hco t o) as (t' & E & _ & Q & _); eauto. exists t'. split; auto.
  destruct (Q Et) as [_ Q']; eauto. eapply pw_combined; [auto|exact Q'|]. intros; apply gflip_flip.
Qed.
Lemma thm_mflip_map_absorber : mp_total p = true -> mp_absorbs p = true -> exists t', m_flip_map X k M t o = Ok t' /\ segs X CC t' = [].
Proof.
  intros Et Ea. destruct (flip_map_at X k HX M Hco t o) as (t' & E & _ & _ & Q & _); eauto. exists t'. split; auto. unfold segs. specialize (Q Et Ea). mco Q. rewrite Q. auto.
Qed.
Lemma thm_mflip_map_enricher : mp_total p = true -> mp_absorbs p = false -> proper CC p -> exists t', m_flip_map X k M t o = Ok t' /\
  forall x, at_ t' x = match at_ t x, at_ o x with None, None => None | _, _ => Some cc_zero end.
Proof.
  intros Et Ea P. destruct (flip_map_at X k HX M Hco t o) as (t' & E & _ & _ & _ & Q); eauto. exists t'. split; auto. intros x. at_r.
  specialize (Q Et Ea (proper_good CC p P) (pt x)). mco Q. rewrite Q.
  unfold ga, is_absorbable. cbn [mt_absorbs mt]. rewrite Ea. cbn [andb]. unfold gadd, absorb, is_absorbable. cbn [mt_absorbs mt]. rewrite Ea.
  destruct (vf o (pt x)), (vf t (pt x)); auto.
Qed.
End Whole.
Section WithSet.
Context (p : mpar) (st : style) (t : tree) (o : iset) (Ht : mreach p t) (Ho : reach st o).
Notation M := (mt CC p).
Lemma thm_merase_set : exists t', m_erase_set X k M t o = Ok t' /\ changed t t' (cmem o) (fun _ => None).
Proof.
  destruct (erase_set_at X k HX M Hco t o) as (t' & E & _ & Q); eauto. exists t'. split; auto. intros x. rewrite (cmem_Rb X k HX). at_r.
  specialize (Q (pt x)). mco Q. rewrite Q. destruct (Rb k (nodes o) (pt x)); split; intros; auto; congruence.
Qed.
Lemma thm_mand_set : proper CC p -> exists t', m_and_set X k M t o = Ok t' /\
  forall x, (cmem o x -> at_ t' x = copy_val CC p (at_ t x)) /\ (~ cmem o x -> at_ t' x = None).
Proof.
  intros P. destruct (int_set_at X k HX M Hco t_empty t o) as (t' & E & _ & Q); eauto. { apply minv_empty. } exists t'. split; auto.
  destruct Q as [_ Q]; auto. { apply aok_nil. } intros x. rewrite (cmem_Rb X k HX). at_r. specialize (Q (pt x)). mco Q. rewrite Q.
  destruct (Rb k (nodes o) (pt x)); split; intros; auto; try congruence.
Qed.
Lemma thm_mint_set : proper CC p -> exists b, m_intersects_set X k M t o = Ok b /\ (b = true <-> exists x v, at_ t x = Some v /\ cmem o x).
Proof.
  intros P. destruct (intersects_set_at X k HX M Hco t o) as (b & E & Q); eauto. exists b. split; auto. rewrite Q; eauto. setoid_rewrite (cmem_Rb X k HX).
  setoid_rewrite (at_vr X k HX CC). split.
  - intros (x & H1 & H2). exists x. mco H1. destruct (vf t (pt x)); [|congruence]. eauto.
  - intros (x & v & H1 & H2). exists x. split; auto. mco H1. cbn [mt_co mt]. congruence.
Qed.
Lemma thm_mcontains_set : exists b, m_contains_set X k M t o = Ok b /\ (b = true <-> mp_total p = true \/ forall x, cmem o x -> at_ t x <> None).
Proof.
  unfold m_contains_set, c_within. cbn [mt_total mt]. destruct (mp_total p). { exists true. intuition. }
  destruct (@subset_compare_at X k HX unit V None o t) as (b & E & F & _); eauto.
  exists (fst b). split. { match goal with |- bind ?e _ = _ => change e with (subset_compare X k (@None (unit -> V -> incl)) o t) end. rewrite E. auto. }
  rewrite F. setoid_rewrite (cmem_Rb X k HX). setoid_rewrite (at_vr X k HX CC). unfold subx. split.
  - intros H. right. intros x Hx. specialize (H x). rewrite Rb_vr in Hx. destruct (vr k (nodes o) (pt x)); [|discriminate]. destruct (vf t (pt x)); congruence.
  - intros [?|H] x; [discriminate|]. specialize (H x). rewrite Rb_vr in H. destruct (vr k (nodes o) (pt x)); auto. destruct (vf t (pt x)); auto. exfalso. apply H; auto.
Qed.
End WithSet.

(* ------------------------------------------------------------ hints *)
Lemma post_eqb p (t t1 t2 : tree) d e g g' : minv p t1 -> minv p t2 -> (forall o, g o = g' o) ->
  post k (spl (mt CC p)) d e g (nodes t) (nodes t1) -> post k (spl (mt CC p)) d e g' (nodes t) (nodes t2) -> m_eqb X k (mt CC p) t1 t2 = true.
Proof.
  intros H1 H2 G ([U1 _] & N1 & _) ([U2 _] & N2 & _).
  assert (VV : forall c, vf t1 c = vf t2 c). { intros c. rewrite U1, U2, G. auto. }
  destruct (mp_style p) eqn:ES.
  - apply (m_eqb_joined X k HX (mt CC p) Hco); auto.
  - apply (m_eqb_at X k HX (mt CC p) Hco); try apply H1; try apply H2. intros c _. split; auto.
    unfold spl in *. cbn [mt_style mt] in *. rewrite ES in *. specialize (N1 eq_refl c). specialize (N2 eq_refl c). cbn [mt_co mt] in *. rewrite N1, N2, G. auto.
Qed.
Lemma ipost_eqb p (t t1 t2 : tree) d e x : minv p t1 -> minv p t2 ->
  ipost X k (mt CC p) d e x (nodes t) (nodes t1) -> ipost X k (mt CC p) d e x (nodes t) (nodes t2) -> m_eqb X k (mt CC p) t1 t2 = true.
Proof.
  intros H1 H2 ([U1 _] & N1 & _) ([U2 _] & N2 & _).
  assert (VV : forall c, vf t1 c = vf t2 c). { intros c. mco U1. mco U2. rewrite U1, U2. auto. }
  destruct (mp_style p) eqn:ES.
  - apply (m_eqb_joined X k HX (mt CC p) Hco); auto.
  - apply (m_eqb_at X k HX (mt CC p) Hco); try apply H1; try apply H2. intros c _. split; auto.
    unfold spl in *. cbn [mt_style mt] in *. rewrite ES in *. specialize (N1 eq_refl c). specialize (N2 eq_refl c). cbn [mt_co mt] in *. rewrite N1, N2. auto.
Qed.
Lemma m_eqb_refl p (t : tree) : inv k t -> m_eqb X k (mt CC p) t t = true.
Proof. intros H. apply (m_eqb_at X k HX (mt CC p) Hco); auto. Qed.
Lemma thm_madd_hint p t h a v : mreach p t -> mhint_ok X CC t h -> proper CC p -> exists t1 t2 it,
  m_add X k (mt CC p) t a v = Ok t1 /\ m_add_hint X k (mt CC p) t h a v = Ok (t2, it) /\ m_eqb X k (mt CC p) t1 t2 = true.
Proof.
  intros Ht Hh P. apply mhint_isit in Hh. pose proof (mreach_minv X k HX CC Hco p t Ht) as Hm. pose proof (mreach_aok X k HX CC Hco p t Ht P) as A.
  pose proof (mreach_inv X k HX CC Hco p t Ht) as Hi.
  unfold m_add, m_add_hint. destruct (is_empty X k a) eqn:Ea.
  { exists t, t, h. unfold m_add_, m_add_hint_. rewrite Ea. conjs; auto. apply m_eqb_refl; auto. }
  destruct (is_absorbable (mt CC p) v) eqn:Ex.
  { exists t, t, h. unfold m_add_, m_add_hint_. rewrite Ea, Ex. conjs; auto. apply m_eqb_refl; auto. }
  assert (Na : ne k a) by (apply (ne_iff X k HX); auto).
  destruct (add_at_ X k HX (mt CC p) Hco (codomain_combine (mt CC p)) t a v Hm Na Ex) as (t1 & i1 & E1 & I1 & _ & P1).
  destruct (decomp X k HX a (nodes t) (proj2 Hi) Na) as (L & N & R & E & BL & ON & AR).
  destruct N as [|m N'] eqn:EN.
  - destruct (add_hint_at_free X k HX (mt CC p) Hco (codomain_combine (mt CC p)) t h L R a v) as (t2 & i2 & E2 & I2 & _ & P2); auto.
    exists t1, t2, i2. rewrite E1. cbn [bind]. conjs; auto. eapply post_eqb; [exact I1|exact I2| |exact P1|exact P2].
    intros [w|]; cbn; auto. f_equal. symmetry. apply (proj1 P).
  - destruct (add_hint_at_over X k HX (mt CC p) Hco (codomain_combine (mt CC p)) t h L (m :: N') R a v) as (t2 & i2 & E2 & I2 & _ & P2); auto; try discriminate.
    { apply (aok_nodes X k HX (mt CC p) (nodes t) (proj2 Hi)). auto. }
    exists t1, t2, i2. rewrite E1. cbn [bind]. conjs; auto. eapply post_eqb; [exact I1|exact I2| |exact P1|exact P2]. auto.
Qed.
Lemma thm_mins_hint p t h a v : mreach p t -> mhint_ok X CC t h -> exists t1 t2 it,
  m_insert X k (mt CC p) t a v = Ok t1 /\ m_insert_hint X k (mt CC p) t h a v = Ok (t2, it) /\ m_eqb X k (mt CC p) t1 t2 = true.
Proof.
  intros Ht Hh. apply mhint_isit in Hh. pose proof (mreach_minv X k HX CC Hco p t Ht) as Hm. pose proof (mreach_inv X k HX CC Hco p t Ht) as Hi.
  unfold m_insert. destruct (is_empty X k a) eqn:Ea.
  { exists t, t, h. unfold m_insert_, m_insert_hint. rewrite Ea. conjs; auto. apply m_eqb_refl; auto. }
  destruct (is_absorbable (mt CC p) v) eqn:Ex.
  { exists t, t, h. unfold m_insert_, m_insert_hint. rewrite Ea, Ex. conjs; auto. apply m_eqb_refl; auto. }
  assert (Na : ne k a) by (apply (ne_iff X k HX); auto).
  destruct (insert_at_ X k HX (mt CC p) Hco t a v Hm Na Ex) as (t1 & i1 & E1 & I1 & _ & P1).
  destruct (insert_hint_at_ X k HX (mt CC p) Hco t h a v Hm Na Ex Hh) as (t2 & i2 & E2 & I2 & _ & P2).
  exists t1, t2, i2. rewrite E1. cbn [bind]. conjs; auto. eapply ipost_eqb; [exact I1|exact I2|exact P1|exact P2].
Qed.

(* ------------------------------------------------------------ queries *)
Section Query.
Context (p : mpar) (t : tree) (Ht : mreach p t).
Notation M := (mt CC p).
Lemma thm_lookup x : has_room X k x -> m_lookup X k M t x = Ok (match at_ t x with Some v => v | None => cc_zero end).
Proof. intros Hx. rewrite (lookup_at X k HX M t x) by (eauto; apply (mreach_inv X k HX CC Hco p t Ht)). at_r. auto. Qed.
Lemma thm_contains_key x : has_room X k x -> exists b, m_contains_key X k M t x = Ok b /\ (b = true <-> mp_total p = true \/ at_ t x <> None).
Proof.
  intros Hx. rewrite (contains_key_at X k HX M t x) by (eauto; apply (mreach_inv X k HX CC Hco p t Ht)). eexists. split; [reflexivity|]. at_r.
  rewrite orb_true_iff. cbn [mt_total mt mt_co]. destruct (vf t (pt x)); cbn; intuition congruence.
Qed.
Lemma thm_contains_pair x v : has_room X k x -> exists b, m_contains_pair X k M t x v = Ok b /\ (b = true <-> at_ t x = Some v).
Proof.
  intros Hx. rewrite (contains_pair_at X k HX M t x) by (eauto; apply (mreach_inv X k HX CC Hco p t Ht)). eexists. split; [reflexivity|]. at_r.
  cbn [mt_co mt]. destruct (vf t (pt x)) as [w|]. - rewrite (Hco w v). intuition congruence. - intuition congruence.
Qed.
Lemma thm_contains_itv a : exists b, m_contains_itv X k M t a = Ok b /\ (b = true <-> mp_total p = true \/ forall x, mem a x -> at_ t x <> None).
Proof.
  destruct (contains_itv_at X k HX M t a) as (b & E & Q); [apply (mreach_inv X k HX CC Hco p t Ht)|]. exists b. split; auto. rewrite Q. cbn [mt_total mt mt_co].
  setoid_rewrite (at_vr X k HX CC). split; (intros [?|H]; [auto|right; intros x Hx; specialize (H x Hx); rewrite Rb_vr in *; destruct (vf t (pt x)); congruence]).
Qed.
Lemma thm_contains_seg a v : exists b, m_contains_seg X k M t a v = Ok b /\ (b = true <-> forall x, mem a x -> at_ t x = Some v).
Proof.
  destruct (contains_seg_at X k HX M Hco t a v) as (b & E & Q); [apply (mreach_inv X k HX CC Hco p t Ht)|]. exists b. split; auto. rewrite Q.
  setoid_rewrite (at_vr X k HX CC). tauto.
Qed.
Lemma thm_mint_itv a : exists b, m_intersects_itv X k M t a = Ok b /\ (b = true <-> exists x v, mem a x /\ at_ t x = Some v).
Proof.
  destruct (intersects_itv_at X k HX t a) as (b & E & Q); [apply (mreach_inv X k HX CC Hco p t Ht)|]. exists b. split; auto. rewrite Q.
  setoid_rewrite (at_vr X k HX CC). split.
  - intros (x & H1 & H2). exists x. rewrite Rb_vr in H2. destruct (vf t (pt x)); [|discriminate]. eauto.
  - intros (x & v & H1 & H2). exists x. rewrite Rb_vr, H2. auto.
Qed.
Lemma thm_mint_seg a v : exists b, m_intersects_seg X k M t a v = Ok b /\
  (b = true <-> mp_total p = true \/ exists x, mem a x /\ and_val CC p v (at_ t x) <> None).
Proof.
  destruct (intersects_seg_at X k HX M Hco t a v) as (b & E & Q); [apply (mreach_inv X k HX CC Hco p t Ht)|]. exists b. split; auto. rewrite Q.
  setoid_rewrite (at_vr X k HX CC). cbn [mt_total mt mt_co]. split; (intros [?|H]; [auto|right]).
  - destruct H as (x & w & H1 & H2 & H3). exists x. split; auto. rewrite H2. auto.
  - destruct H as (x & H1 & H2). exists x. destruct (vf t (pt x)) as [w|]; [|cbn in H2; congruence]. exists w. auto.
Qed.
Lemma thm_mint_map p' o : mreach p' o -> exists b, m_intersects_map X k M t o = Ok b /\ m_disjoint_map X k M t o = Ok (negb b) /\
  (b = true <-> mp_total p = true \/ exists x v, at_ o x = Some v /\ and_val CC p v (at_ t x) <> None).
Proof.
  intros Ho. destruct (intersects_map_at X k HX M Hco t o) as (b & E & Q); [apply (mreach_inv X k HX CC Hco p t Ht)|apply (mreach_inv X k HX CC Hco p' o Ho)|].
  exists b. split; auto. split. { unfold m_disjoint_map. rewrite E. auto. } rewrite Q.
  setoid_rewrite (at_vr X k HX CC). cbn [mt_total mt mt_co]. split; (intros [?|H]; [auto|right]).
  - destruct H as (x & w & v & H1 & H2 & H3). exists x, v. split; auto. rewrite H1. auto.
  - destruct H as (x & v & H1 & H2). exists x. destruct (vf t (pt x)) as [w|]; [|cbn in H2; congruence]. exists w, v. auto.
Qed.
Lemma hints_reach st (l : list I) : forall s h, reach st s -> hint_ok X s h ->
  exists s' h', foldM (fun '(s, prior_) a => s_add_hint X k st s prior_ a) (s, h) l = Ok (s', h') /\ reach st s' /\ hint_ok X s' h'.
Proof.
  induction l as [|a l IH]; intros s h Hs Hh; cbn [foldM]. { eauto. }
  destruct (ne_dec X k HX a) as [Ea|Na].
  - rewrite s_add_hint_empty by auto. cbn [bind]. auto.
  - destruct (s_add_hint_at X k HX st s h a) as (s1 & h1 & E & S1 & Hh1 & _); auto. { apply (reach_sinv X k HX); auto. } { apply hint_isit; auto. }
    rewrite E. cbn [bind]. apply IH. { eapply R_add_hint; eauto. } apply hint_isit; auto.
Qed.
Lemma thm_mdomain st : exists s, m_domain X k M st t = Ok s /\ reach st s /\ forall x, cmem s x <-> at_ t x <> None.
Proof.
  destruct (MapQuery.domain_at X k HX M st t) as (s & E & _ & P). exists s. split; auto. split.
  - unfold m_domain in E. destruct (hints_reach st (map nkey (nodes t)) t_empty None) as (s' & h' & E' & R & _); [constructor|exact Logic.I|].
    rewrite <- foldM_map in E'.
    match type of E with bind ?e _ = _ => assert (E2 : e = Ok (s', h')) by (rewrite <- E'; apply foldM_ext; intros [? ?] ?; auto); rewrite E2 in E end.
    cbn [bind] in E. congruence.
  - intros x. rewrite (cmem_Rb X k HX). destruct P as [P _]. destruct (P (pt x)) as [-> _]. cbn [Rb existsb orb nodes t_empty]. at_r.
    pose proof (exr_keys X k (nodes t) (pt x)) as K. mco K. cbn [mt_co mt] in *. rewrite K. cbn. rewrite Rb_vr. destruct (vf t (pt x)); intuition congruence.
Qed.
Lemma thm_mbetween st : exists s, m_between X k M st t = Ok s /\
  forall x, cmem s x <-> at_ t x = None /\ (exists y, at_ t y <> None /\ lt y x) /\ (exists z, at_ t z <> None /\ lt x z).
Proof.
  destruct (MapQuery.between_at X k HX M st t) as (s & E & _ & P). { apply (mreach_inv X k HX CC Hco p t Ht). } exists s. split; auto.
  intros x. rewrite (cmem_Rb X k HX), P. setoid_rewrite (at_vr X k HX CC). cbn [mt_co mt].
  assert (Q : forall y, Rb k (nodes t) (pt y) = true <-> vf t (pt y) <> None). { intros y. rewrite Rb_vr. destruct (vf t (pt y)); intuition congruence. }
  setoid_rewrite Q. assert (Q' : Rb k (nodes t) (pt x) = false <-> vf t (pt x) = None). { rewrite Rb_vr. destruct (vf t (pt x)); intuition congruence. }
  rewrite Q'. tauto.
Qed.
Lemma thm_merase_if q : exists t', m_erase_if X M q t = Ok t' /\ segs X CC t' = filter (fun s => negb (q (fst s) (snd s))) (segs X CC t).
Proof.
  destruct (erase_if_all X k HX M q t) as (t' & E & _ & Q); eauto. exists t'. split; auto. unfold segs. mco Q. rewrite Q.
  clear. induction (nodes t) as [|n l IH]; cbn; auto. destruct (q (nkey n) (nval n)); cbn; auto. rewrite IH. auto.
Qed.
Lemma thm_mabsorb : exists t', m_absorb_identities X M t = Ok t' /\
  forall x, at_ t' x = if mp_absorbs p then at_ t x else match at_ t x with Some v => if cc_eq v cc_zero then None else Some v | None => None end.
Proof.
  destruct (absorb_at X k HX M t) as (t' & E & _ & Q); eauto. exists t'. split; auto. intros x. at_r. specialize (Q (pt x)). mco Q. rewrite Q. auto.
Qed.
Lemma thm_mjoin : exists t', join X k cc_eq t = Ok t' /\ equal_joined X k CC t' /\ forall x, at_ t' x = at_ t x.
Proof.
  destruct (join_at X k HX cc_eq Hco t (mreach_inv X k HX CC Hco p t Ht)) as (t' & E & I' & J' & [O _]). exists t'. split; auto. split.
  - apply (minv_joined X k HX CC Hco (restyle p MJoin)); auto. split; auto.
  - intros x. at_r. auto.
Qed.
End Query.
End MapThms2.

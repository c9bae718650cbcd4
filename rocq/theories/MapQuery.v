(** Queries, equality, order, selection and morphisms of interval maps (proofs). *)
From Verif Require Export MapFlip ContCompare MapModel2.
From Verif Require Export MapModel.

Section Touch.
Context (X : dom) (k : kind) (HX : dom_ok X k) {V : Type}.
Notation I := (itv (D X)).
Notation node := (node (D X) V).
Notation tree := (tree (D X) V).
Notation lc := (lc X k).
Notation uc := (uc X k).
Notation pt := (pt X).
Notation cltb := (cltb X).
Notation ceqb := (ceqb X).
Notation cut := (cut X).
Notation ok := (cut_ok X k).
Notation ne := (@ne X k).
Ltac cord := cord_ X k HX.
Ltac lst := rewrite <- ?app_assoc; cbn [app]; congruence || auto.

Fixpoint touchall (l : list node) : bool :=
  match l with
  | n :: (m :: _) as l' => touches X k (nkey n) (nkey m) && touchall l'
  | _ => true
  end.
Lemma last_other (t : tree) L m m' (M R : list node) q : wf t -> nodes t = L ++ m :: (m' :: M) ++ R -> last_it (m :: m' :: M) = Some q ->
  iter_eqb (Some (nid m)) (Some q) = false.
Proof.
  intros W E Hq. cbn. apply Nat.eqb_neq. intros Eq. subst q.
  assert (Hin : exists Q p, m' :: M = Q ++ [p]) by (destruct (exists_last (l := m' :: M)) as (Q & p & HQ); [discriminate|eauto]).
  destruct Hin as (Q & p & HQ). change (m :: m' :: M) with ([m] ++ m' :: M) in Hq. rewrite HQ in Hq. rewrite app_assoc, last_it_app in Hq. cbn in Hq.
  inversion Hq as [Hp]. destruct W as [W _]. rewrite E in W. rewrite ids_app, ids_cons in W.
  apply NoDup_remove_2 in W. apply W. rewrite in_app_iff. right. rewrite HQ. rewrite ids_app, ids_app. cbn. rewrite Hp, !in_app_iff. cbn. auto.
Qed.
Lemma is_joinable_loop_at (t : tree) : wf t -> forall M fuel L m R q, nodes t = L ++ m :: M ++ R -> length M < fuel ->
  last_it (m :: M) = Some q ->
  is_joinable_loop X k fuel t (Some (nid m)) (Tree.hd_it (M ++ R)) (Some q) = Ok (touchall (m :: M)).
Proof.
  intros W. induction M as [|m' M IH]; intros [|fuel] L m R q E Hf Hq; try (cbn in Hf; lia); cbn [is_joinable_loop].
  - cbn in Hq. inversion Hq; subst. cbn [iter_eqb]. rewrite Nat.eqb_refl. cbn [negb]. rewrite andb_false_r. auto.
  - cbn [app Tree.hd_it]. change (iter_eqb (Some (nid m')) (end_ t)) with false. cbn [negb andb].
    rewrite (last_other t L m m' M R q W E Hq). cbn [negb].
    rewrite (key_at X t L m (m' :: M ++ R)) by auto. cbn [bind].
    rewrite (key_at X t (L ++ [m]) m' (M ++ R)) by (auto; lst). cbn [bind].
    rewrite (incr_at X t L m (m' :: M ++ R)) by auto. cbn [bind Tree.hd_it].
    rewrite (incr_at X t (L ++ [m]) m' (M ++ R)) by (auto; lst). cbn [bind].
    cbn [touchall]. destruct (touches X k (nkey m) (nkey m')); auto. cbn [andb].
    apply (IH fuel (L ++ [m])); auto.
    + lst.
    + cbn in Hf. lia.
Qed.
Lemma touchall_to (l : list node) n : srt k (n :: l) -> touchall (n :: l) = true ->
  forall m, In m (n :: l) -> forall c, cltb c (lc (nkey n)) = false -> cltb c (uc (nkey m)) = true -> Rb k (n :: l) c = true.
Proof.
  revert n. induction l as [|m l IH]; intros n S.
  - cbn. intros _ m [<-|[]] c H1 H2. unfold inr. rewrite H1, H2. auto.
  - destruct S as (Nn & F & S). cbn [touchall]. pose proof S as (Nm & Fm & _).
    assert (Fnm : cltb (lc (nkey m)) (uc (nkey n)) = false) by (inversion F; auto).
    rewrite touches_ne by auto. rewrite andb_true_iff. intros [T H] q Hq c H1 H2.
    change (inr k (nkey n) c || Rb k (m :: l) c = true).
    destruct (cltb c (uc (nkey n))) eqn:E. { unfold inr at 1. rewrite H1, E. auto. }
    destruct Hq as [<-|Hq]; [congruence|].
    rewrite (IH m S H q Hq c); auto. { apply orb_true_r. } cord.
Qed.
Lemma touchall_of a (l : list node) n : srt k (n :: l) -> Forall (over k a) (n :: l) ->
  (forall c, ok c -> cltb (lc a) c = true -> cltb c (uc a) = true -> cltb c (lc (nkey n)) = false -> Rb k (n :: l) c = true) -> touchall (n :: l) = true.
Proof.
  revert n. induction l as [|m l IH]; intros n S O H; auto.
  destruct S as (Nn & F & S). cbn [touchall]. pose proof S as (Nm & Fm & _).
  inversion O as [|? ? On O']; subst. inversion O' as [|? ? Om _]; subst.
  assert (Fnm : cltb (lc (nkey m)) (uc (nkey n)) = false) by (inversion F; auto).
  rewrite touches_ne by auto. rewrite andb_true_iff. unfold Seg.ne, over in *.
  split.
  - destruct (ceqb (uc (nkey n)) (lc (nkey m))) eqn:E; auto. exfalso.
    assert (H' : Rb k (n :: m :: l) (uc (nkey n)) = true) by (apply H; [apply uc_ok|cord..]).
    change (inr k (nkey n) (uc (nkey n)) || Rb k (m :: l) (uc (nkey n)) = true) in H'.
    assert (H0 : inr k (nkey n) (uc (nkey n)) = false) by (unfold inr; cord). rewrite H0 in H'. cbn [orb] in H'.
    apply Rb_iff in H'. destruct H' as (q & Hq & H').
    pose proof (srt_first X k HX m l q S Hq). unfold inr in H'. cord.
  - apply IH; auto. intros c Oc H1 H2 H3. specialize (H c Oc H1 H2).
    assert (H' : Rb k (n :: m :: l) c = true) by (apply H; cord).
    change (inr k (nkey n) c || Rb k (m :: l) c = true) in H'.
    assert (H0 : inr k (nkey n) c = false) by (unfold inr; cord). rewrite H0 in H'. auto.
Qed.

(** the segments [m :: M] that [a] meets cover it *)
Lemma cover_at (t : tree) L m M R a Q q : inv k t -> ne a -> nodes t = L ++ (m :: M) ++ R -> m :: M = Q ++ [q] ->
  below k L (lc a) -> Forall (over k a) (m :: M) -> above k R (uc a) ->
  (contains_itv X k (hull X k (nkey m) (nkey q)) a && touchall (m :: M) = true <-> forall x, mem X k a x -> Rb k (nodes t) (pt x) = true).
Proof.
  intros [W S] Na E E2 BL OM AR.
  assert (Out : forall x, mem X k a x -> Rb k (nodes t) (pt x) = Rb k (m :: M) (pt x)).
  { intros x Hx. apply inr_mem in Hx; auto. destruct (seg_out X k HX L R a (pt x) Na BL AR) as [F _].
    destruct (F Hx) as (F1 & F2 & _). rewrite E, !Rb_app, F1, F2, orb_false_r. auto. }
  assert (SM : srt k (m :: M)). { rewrite E in S. apply (srt_parts X k) in S. tauto. }
  assert (Im : In m (m :: M)) by (cbn; auto). assert (Iq : In q (m :: M)) by (rewrite E2, in_app_iff; cbn; auto).
  pose proof (srt_nes X k (m :: M) SM) as NM. unfold nes in NM. rewrite Forall_forall in NM, OM.
  pose proof (NM m Im) as Nm. pose proof (NM q Iq) as Nq. pose proof (OM m Im) as Om. pose proof (OM q Iq) as Oq.
  destruct (M_range X k HX (m :: M) m M Q q SM eq_refl E2) as [A B].
  assert (Hq : cltb (lc (nkey q)) (lc (nkey m)) = false). { unfold above in A. rewrite Forall_forall in A. auto. }
  assert (Hm : cltb (uc (nkey q)) (uc (nkey m)) = false). { unfold below in B. rewrite Forall_forall in B. auto. }
  assert (HE : contains_itv X k (hull X k (nkey m) (nkey q)) a = true <-> cltb (lc a) (lc (nkey m)) = false /\ cltb (uc (nkey q)) (uc a) = false).
  { pose proof (hull_lc X k HX _ _ Nm Nq) as U1. pose proof (hull_uc X k HX _ _ Nm Nq) as U2.
    assert (Nh : ne (hull X k (nkey m) (nkey q))). { unfold Seg.ne in *. rewrite U1, U2. unfold cmin, cmax. destruct (cltb (lc (nkey m)) (lc (nkey q))) eqn:D1, (cltb (uc (nkey m)) (uc (nkey q))) eqn:D2; cord. }
    rewrite (contains_itv_spec X k HX).
    - rewrite (subset_cut X k HX) by (apply (ne_iff X k HX); auto). rewrite U1, U2. unfold cmin, cmax.
      destruct (cltb (lc (nkey m)) (lc (nkey q))) eqn:D1, (cltb (uc (nkey m)) (uc (nkey q))) eqn:D2; split; intros [V1 V2]; split; cord.
    - apply edge_ok_iff, (nonempty_edge X k HX), (ne_iff X k HX); auto.
    - apply edge_ok_iff, (nonempty_edge X k HX), (ne_iff X k HX); auto. }
  assert (Cut : forall c, ok c -> inr k a c = true -> (forall x, mem X k a x -> Rb k (nodes t) (pt x) = true) -> Rb k (m :: M) c = true).
  { intros c Oc Hc H. 
    destruct (probe_r X k HX [m :: M] c (uc a) Oc (uc_ok X k a)) as (x & X1 & X2 & G). { unfold inr in Hc. cord. }
    rewrite Rb_vr, <- (G (m :: M)), <- Rb_vr by (cbn; auto).
    assert (Hx : mem X k a x) by (apply inr_mem; auto; unfold inr in *; cord). rewrite <- Out by auto. auto. }
  rewrite andb_true_iff, HE. split.
  - intros [[V1 V2] H] x Hx. rewrite Out by auto. apply inr_mem in Hx; auto. apply (touchall_to M m SM H q Iq); unfold inr in *; cord.
  - intros H. unfold over, Seg.ne in *. conjs.
    + destruct (cltb (lc a) (lc (nkey m))) eqn:D; auto. exfalso.
      assert (Hr : Rb k (m :: M) (lc a) = true). { apply Cut; auto. { apply lc_ok. } unfold inr. cord. }
      apply Rb_iff in Hr. destruct Hr as (p & Hp & Hr). unfold above in A. rewrite Forall_forall in A. specialize (A p Hp). cbn in A. unfold inr in Hr. cord.
    + destruct (cltb (uc (nkey q)) (uc a)) eqn:D; auto. exfalso.
      assert (Hr : Rb k (m :: M) (uc (nkey q)) = true). { apply Cut; auto. { apply uc_ok. } unfold inr. cord. }
      apply Rb_iff in Hr. destruct Hr as (p & Hp & Hr). unfold below in B. rewrite Forall_forall in B. specialize (B p Hp). cbn in B. unfold inr in Hr. cord.
    + apply (touchall_of a); auto. { apply Forall_forall. auto. }
      intros c Oc H1 H2 _. apply Cut; auto. unfold inr. cord.
Qed.
(** a segment meeting [a] holds an element of [a] *)
Lemma over_elem a (m : node) : ne a -> ne (nkey m) -> over k a m -> exists x, mem X k a x /\ mem X k (nkey m) x.
Proof.
  intros Na Nm Om.
  assert (N : ne (inter X k a (nkey m))).
  { unfold Seg.ne. rewrite (inter_lc X k HX), (inter_uc X k HX) by auto. unfold over, Seg.ne in *. unfold cmin, cmax. repeat ifg; cord. }
  destruct (ne_elem X k HX _ N) as (x & Hx). apply inr_mem in Hx; auto. destruct (inter_obs X k HX a (nkey m) (pt x) Na Nm) as (O & _).
  rewrite O in Hx. apply andb_true_iff in Hx. destruct Hx as [H1 H2]. exists x. split; apply inr_mem; auto.
Qed.
Lemma intersects_itv_at (t : tree) a : inv k t -> exists b,
  (if is_empty X k a then Ok false else it <- tfind X k t a ;; Ok (negb (iter_eqb it (end_ t)))) = Ok b /\
  (b = true <-> exists x, mem X k a x /\ Rb k (nodes t) (pt x) = true).
Proof.
  intros [W S]. destruct (is_empty X k a) eqn:Ea.
  { exists false. split; auto. split; [discriminate|]. intros (x & Hx & _). exfalso. revert Hx. apply empty_no_point; auto. }
  apply (ne_iff X k HX) in Ea. rename Ea into Na.
  destruct (decomp X k HX a (nodes t) S Na) as (L & M & R & E & BL & OM & AR).
  destruct M as [|m M].
  - rewrite (tfind_none X k HX t L R a) by auto. exists false. split; auto. split; [discriminate|].
    intros (x & Hx & Hr). apply inr_mem in Hx; auto. destruct (seg_out X k HX L R a (pt x) Na BL AR) as [F _].
    destruct (F Hx) as (F1 & F2 & _). rewrite E, !Rb_app, F1, F2 in Hr. discriminate.
  - inversion OM as [|? ? Om _]; subst. rewrite (tfind_some X k HX t L m (M ++ R) a) by auto. exists true. split; auto. split; auto.
    intros _. assert (Nm : ne (nkey m)). { apply srt_nes in S. unfold nes in S. rewrite Forall_forall in S. apply S. rewrite E, in_app_iff. cbn. auto. }
    destruct (over_elem a m Na Nm Om) as (x & H1 & H2). exists x. split; auto. apply inr_mem in H2; auto.
    rewrite E, Rb_app. cbn. rewrite H2, orb_true_r. auto.
Qed.

Lemma between_all st (l : list node) : srt k l -> exists t' : Tree.tree (D X) unit,
  (' (s, _) <- foldM (fun '(s, prior_) '(p, n) => s_add_hint X k st s prior_ (between X k (nkey p) (nkey n))) (t_empty, None) (pairs l) ;; Ok s) = Ok t' /\
  sinv X k st t' /\
  forall x, Rb k (nodes t') (pt x) = true <->
    Rb k l (pt x) = false /\ (exists y, Rb k l (pt y) = true /\ lt y x) /\ (exists z, Rb k l (pt z) = true /\ lt x z).
Proof.
  intros S.
  destruct (s_adds_at X k HX st (map (fun '(p, n) => between X k (nkey p) (nkey n)) (pairs l)) t_empty None (sinv_empty X k st) Logic.I) as (t' & h' & E & I' & _ & [A' _]).
  exists t'. rewrite <- foldM_map in E.
  match goal with |- (bind ?a _ = _) /\ _ => replace a with (Ok (t', h')) end.
  2:{ symmetry. etransitivity; [|exact E]. apply foldM_ext. intros [s h] [p n]. auto. }
  cbn [bind]. conjs; auto. intros x. destruct (A' (pt x)) as [-> _]. cbn. rewrite (between_pairs X k HX) by auto.
  pose proof (srt_nes X k _ S) as NS. unfold nes in NS. rewrite Forall_forall in NS.
  split; intros (H1 & H2 & H3); conjs; auto.
  - destruct H2 as (n & Hn & H2). destruct (ne_elem X k HX _ (NS n Hn)) as (y & Hy). exists y. split. { eapply in_Rb; eauto. }
    apply (proj2 (lt_pt X _ _)). apply inr_mem in Hy; auto. unfold inr in Hy. cord.
  - destruct H3 as (n & Hn & H3). destruct (ne_elem X k HX _ (NS n Hn)) as (y & Hy). exists y. split. { eapply in_Rb; eauto. }
    apply (proj2 (lt_pt X _ _)). apply inr_mem in Hy; auto. unfold inr in Hy. cord.
  - destruct H2 as (y & Hy & L). apply Rb_iff in Hy. destruct Hy as (n & Hn & Hy). exists n. split; auto.
    assert (G : inr k (nkey n) (pt x) = false). { destruct (inr k (nkey n) (pt x)) eqn:E'; auto. assert (Rb k l (pt x) = true) by (apply Rb_iff; eauto). congruence. }
    rewrite (lt_pt X) in L. unfold inr in *. cord.
  - destruct H3 as (y & Hy & L). apply Rb_iff in Hy. destruct Hy as (n & Hn & Hy). exists n. split; auto.
    assert (G : inr k (nkey n) (pt x) = false). { destruct (inr k (nkey n) (pt x)) eqn:E'; auto. assert (Rb k l (pt x) = true) by (apply Rb_iff; eauto). congruence. }
    rewrite (lt_pt X) in L. unfold inr in *. cord.
Qed.
Lemma domain_all st (l : list node) : exists t' : Tree.tree (D X) unit,
  (' (s, _) <- foldM (fun '(s, prior_) n => s_add_hint X k st s prior_ (nkey n)) (t_empty, None) l ;; Ok s) = Ok t' /\
  sinv X k st t' /\ addsP X k st (map nkey l) [] (nodes t').
Proof.
  destruct (s_adds_at X k HX st (map nkey l) t_empty None (sinv_empty X k st) Logic.I) as (t' & h' & E & I' & _ & A').
  exists t'. rewrite <- foldM_map in E.
  match goal with |- (bind ?a _ = _) /\ _ => replace a with (Ok (t', h')) end.
  2:{ symmetry. etransitivity; [|exact E]. apply foldM_ext. intros [s h] n. auto. }
  cbn [bind]. auto.
Qed.
End Touch.

Section MapQuery.
Context (X : dom) (k : kind).
Context (HX : dom_ok X k).
Context (M : mtype).
Notation CC := (mt_co M).
Notation V := (C CC).
Context (Hco : forall v w : CC, cc_eq v w = true <-> v = w).
Notation I := (itv (D X)).
Notation node := (node (D X) V).
Notation tree := (tree (D X) V).
Notation iset := (Tree.tree (D X) unit).
Notation lc := (lc X k).
Notation uc := (uc X k).
Notation pt := (pt X).
Notation cltb := (cltb X).
Notation ceqb := (ceqb X).
Notation cut := (cut X).
Notation ok := (cut_ok X k).
Notation ne := (@ne X k).
Notation J := (J X k M).
Notation minv := (minv X k M).
Notation vf t := (vr k (nodes t)).
Notation ga := (ga M (codomain_combine M)).
Notation gand := (gand M (codomain_intersect M) (codomain_combine M)).
Notation good := (good M).
Notation aok := (aok X k M).
Ltac cord := cord_ X k HX.
Ltac lst := rewrite <- ?app_assoc; cbn [app]; congruence || auto.

(* ------------------------------------------------------------ lookup *)
Lemma lookup_at (t : tree) x : inv k t -> has_room X k x ->
  m_lookup X k M t x = Ok (match vf t (pt x) with Some v => v | None => cc_zero end).
Proof.
  intros Hi Hx. pose proof Hi as [W S]. unfold m_lookup.
  destruct (find_elem_at X k HX t x Hi Hx) as [(L & n & R & -> & E & H)|[-> H]]; cbn [bind iter_eqb end_].
  - rewrite (val_at X t L n R) by auto. replace (vf t (pt x)) with (Some (nval n)); auto. symmetry. apply (vr_some X k HX); auto.
    exists n. conjs; auto. rewrite E. apply in_elt.
  - rewrite Rb_vr in H. destruct (vf t (pt x)); auto. discriminate.
Qed.
Lemma contains_key_at (t : tree) x : inv k t -> has_room X k x ->
  m_contains_key X k M t x = Ok (mt_total M || some (vf t (pt x))).
Proof.
  intros Hi Hx. unfold m_contains_key. destruct (mt_total M); auto. cbn [orb]. pose proof (Rb_vr X k (nodes t) (pt x)) as RV. unfold some. rewrite <- RV. clear RV.
  destruct (find_elem_at X k HX t x Hi Hx) as [(L & n & R & -> & E & H)|[-> H]]; cbn [bind iter_eqb end_].
  - rewrite E, Rb_app. cbn. rewrite H, orb_true_r. auto.
  - rewrite H. auto.
Qed.
Lemma contains_pair_at (t : tree) x v : inv k t -> has_room X k x ->
  m_contains_pair X k M t x v = Ok (match vf t (pt x) with Some w => cc_eq w v | None => false end).
Proof.
  intros Hi Hx. pose proof Hi as [W S]. unfold m_contains_pair.
  destruct (find_elem_at X k HX t x Hi Hx) as [(L & n & R & -> & E & H)|[-> H]]; cbn [bind iter_eqb end_].
  - rewrite (val_at X t L n R) by auto. replace (vf t (pt x)) with (Some (nval n)); auto. symmetry. apply (vr_some X k HX); auto.
    exists n. conjs; auto. rewrite E. apply in_elt.
  - rewrite Rb_vr in H. destruct (vf t (pt x)); auto. discriminate.
Qed.

Definition allv (v : V) (l : list node) : bool := forallb (fun n => cc_eq (nval n) v) l.
Lemma m_joinable_loop_at v (t : tree) : wf t -> forall N fuel L m R q, nodes t = L ++ m :: N ++ R -> length N < fuel ->
  last_it (m :: N) = Some q ->
  m_is_joinable_loop X k M fuel t v (Some (nid m)) (Tree.hd_it (N ++ R)) (Some q) = Ok (allv v N && touchall X k (m :: N)).
Proof.
  intros W. induction N as [|m' N IH]; intros [|fuel] L m R q E Hf Hq; try (cbn in Hf; lia); cbn [m_is_joinable_loop].
  - cbn in Hq. inversion Hq; subst. cbn [iter_eqb]. rewrite Nat.eqb_refl. cbn [negb]. auto.
  - cbn [app Tree.hd_it].
    rewrite (last_other X t L m m' N R q W E Hq). cbn [negb].
    rewrite (val_at X t (L ++ [m]) m' (N ++ R)) by (auto; lst). cbn [bind].
    cbn [allv forallb]. destruct (cc_eq (nval m') v) eqn:Ev; cbn [negb andb]; auto.
    rewrite (key_at X t L m (m' :: N ++ R)) by auto. cbn [bind].
    rewrite (key_at X t (L ++ [m]) m' (N ++ R)) by (auto; lst). cbn [bind].
    rewrite (incr_at X t L m (m' :: N ++ R)) by auto. cbn [bind Tree.hd_it].
    rewrite (incr_at X t (L ++ [m]) m' (N ++ R)) by (auto; lst). cbn [bind].
    change (touchall X k (m :: m' :: N)) with (touches X k (nkey m) (nkey m') && touchall X k (m' :: N)).
    destruct (touches X k (nkey m) (nkey m')); cbn [negb andb].
    + apply (IH fuel (L ++ [m])); auto. { lst. } cbn in Hf. lia.
    + rewrite andb_false_r. auto.
Qed.

Lemma contains_itv_at (t : tree) a : inv k t -> exists b, m_contains_itv X k M t a = Ok b /\
  (b = true <-> mt_total M = true \/ forall x, mem X k a x -> Rb k (nodes t) (pt x) = true).
Proof.
  intros Hi. pose proof Hi as [W S]. unfold m_contains_itv. destruct (mt_total M). { exists true. intuition. }
  destruct (is_empty X k a) eqn:Ea.
  { exists true. split; auto. split; auto. intros _. right. intros x Hx. exfalso. revert Hx. apply empty_no_point; auto. }
  apply (ne_iff X k HX) in Ea. rename Ea into Na.
  destruct (decomp X k HX a (nodes t) S Na) as (L & N & R & E & BL & OM & AR).
  rewrite (SetWhole.equal_range_at X k HX t L N R a) by auto. cbn [bind].
  rewrite (iter_eqb_hd X t L N R W E).
  destruct N as [|m N].
  { exists false. split; auto. split; [discriminate|]. intros [?|H]; [discriminate|]. exfalso. destruct (ne_elem X k HX a Na) as (x & Hx).
    specialize (H x Hx). apply inr_mem in Hx; auto. destruct (seg_out X k HX L R a (pt x) Na BL AR) as [F _].
    destruct (F Hx) as (F1 & F2 & _). rewrite E, !Rb_app, F1, F2 in H. discriminate. }
  destruct (M_ends (m :: N)) as (? & ? & Q & q & E1 & E2); [discriminate|]. inversion E1; subst x x0. clear E1.
  pose proof (cover_at X k HX t L m N R a Q q Hi Na E E2 BL OM AR) as CV.
  rewrite (decr_hd X t (L ++ Q) q R) by (auto; rewrite E, E2; lst). cbn [bind app Tree.hd_it].
  rewrite (key_at X t L m (N ++ R)) by auto. cbn [bind].
  rewrite (key_at X t (L ++ Q) q R) by (auto; rewrite E, E2; lst). cbn [bind].
  destruct (contains_itv X k (hull X k (nkey m) (nkey q)) a) eqn:Ec.
  - unfold is_joinable. change (iter_eqb (Some (nid m)) (end_ t)) with false. cbn match.
    rewrite (incr_at X t L m (N ++ R)) by auto. cbn [bind].
    rewrite (is_joinable_loop_at X k t W N (Datatypes.S (length (nodes t))) L m R (nid q)).
    + exists (touchall X k (m :: N)). split; auto. cbn [andb] in CV. rewrite CV. split; auto. intros [?|?]; auto; discriminate.
    + auto.
    + rewrite E, app_length. cbn. rewrite app_length. lia.
    + rewrite E2. apply last_it_app.
  - exists false. split; auto. cbn [andb] in CV. rewrite CV. split; auto. intros [?|?]; auto; discriminate.
Qed.
Lemma contains_seg_at (t : tree) a v : inv k t -> exists b, m_contains_seg X k M t a v = Ok b /\
  (b = true <-> forall x, mem X k a x -> vf t (pt x) = Some v).
Proof.
  intros Hi. pose proof Hi as [W S]. unfold m_contains_seg.
  destruct (is_empty X k a) eqn:Ea.
  { exists true. split; auto. split; auto. intros _ x Hx. exfalso. revert Hx. apply empty_no_point; auto. }
  apply (ne_iff X k HX) in Ea. rename Ea into Na.
  destruct (decomp X k HX a (nodes t) S Na) as (L & N & R & E & BL & OM & AR).
  rewrite (SetWhole.equal_range_at X k HX t L N R a) by auto. cbn [bind].
  rewrite (iter_eqb_hd X t L N R W E).
  destruct N as [|m N].
  { exists false. split; auto. split; [discriminate|]. intros H. exfalso. destruct (ne_elem X k HX a Na) as (x & Hx).
    assert (Hr : Rb k (nodes t) (pt x) = true) by (rewrite Rb_vr, H; auto). apply inr_mem in Hx; auto. destruct (seg_out X k HX L R a (pt x) Na BL AR) as [F _].
    destruct (F Hx) as (F1 & F2 & _). rewrite E, !Rb_app, F1, F2 in Hr. discriminate. }
  destruct (M_ends (m :: N)) as (? & ? & Q & q & E1 & E2); [discriminate|]. inversion E1; subst x x0. clear E1.
  pose proof (cover_at X k HX t L m N R a Q q Hi Na E E2 BL OM AR) as CV.
  rewrite (decr_hd X t (L ++ Q) q R) by (auto; rewrite E, E2; lst). cbn [bind app Tree.hd_it].
  rewrite (deref_at X t L m (N ++ R)) by auto. cbn [bind].
  assert (INM : forall n, In n (m :: N) -> In n (nodes t)). { intros n Hn. rewrite E, !in_app_iff. auto. }
  assert (AV : (forall x, mem X k a x -> vf t (pt x) = Some v) <-> (forall x, mem X k a x -> Rb k (nodes t) (pt x) = true) /\ cc_eq v (nval m) = true /\ allv v N = true).
  { split.
    - intros H. assert (HV : forall n, In n (m :: N) -> nval n = v).
      { intros n Hn. rewrite Forall_forall in OM. pose proof (srt_in X k M _ n S (INM n Hn)) as Nn.
        destruct (over_elem X k HX a n Na Nn (OM n Hn)) as (x & H1 & H2). specialize (H x H1). apply inr_mem in H2; auto.
        assert (vf t (pt x) = Some (nval n)). { apply (vr_some X k HX); auto. exists n. auto. } congruence. }
      conjs.
      + intros x Hx. rewrite Rb_vr, H; auto.
      + apply Hco. rewrite (HV m); auto. left. auto.
      + unfold allv. apply forallb_forall. intros n Hn. apply Hco. apply HV. right. auto.
    - intros (H1 & H2 & H3) x Hx. specialize (H1 x Hx).
      assert (Hx' := Hx). apply inr_mem in Hx'; auto. destruct (seg_out X k HX L R a (pt x) Na BL AR) as [F _]. destruct (F Hx') as (F1 & F2 & _).
      rewrite E, !Rb_app, F1, F2, orb_false_r in H1. cbn [orb] in H1. apply Rb_iff in H1. destruct H1 as (n & Hn & Hm).
      apply (vr_some X k HX); auto. exists n. conjs; auto. destruct Hn as [<-|Hn].
      + apply Hco in H2. auto.
      + unfold allv in H3. rewrite forallb_forall in H3. apply Hco. auto. }
  destruct (cc_eq v (nval m)) eqn:Ev; cbn [negb].
  2:{ exists false. split; auto. rewrite AV. intuition discriminate. }
  rewrite (key_at X t (L ++ Q) q R) by (auto; rewrite E, E2; lst). cbn [bind].
  destruct (contains_itv X k (hull X k (nkey m) (nkey q)) a) eqn:Ec.
  - unfold m_is_joinable. change (iter_eqb (Some (nid m)) (end_ t)) with false. cbn match.
    rewrite (incr_at X t L m (N ++ R)) by auto. cbn [bind]. rewrite (val_at X t L m (N ++ R)) by auto. cbn [bind].
    rewrite (m_joinable_loop_at (nval m) t W N (Datatypes.S (length (nodes t))) L m R (nid q)).
    + apply Hco in Ev. subst v. exists (allv (nval m) N && touchall X k (m :: N)). split; auto. cbn [andb] in CV. rewrite AV, <- CV, andb_true_iff. intuition.
    + auto.
    + rewrite E, app_length. cbn. rewrite app_length. lia.
    + rewrite E2. apply last_it_app.
  - exists false. split; auto. cbn [andb] in CV. rewrite AV, <- CV. intuition discriminate.
Qed.

(* ------------------------------------------------------------ intersects *)
Lemma nil_vf (t : tree) : inv k t -> (nodes t = [] <-> forall x, vf t (pt x) = None).
Proof.
  intros [_ S]. rewrite (nil_elem X k HX) by auto. split; intros H x; specialize (H x); rewrite Rb_vr in *; destruct (vf t (pt x)); auto; discriminate.
Qed.
Lemma nonempty_b (t : tree) : inv k t -> ((match nodes t with [] => false | _ => true end) = true <-> exists x, vf t (pt x) <> None).
Proof.
  intros Hi. pose proof Hi as [_ S]. destruct (nodes t) as [|n l] eqn:E.
  - split; [discriminate|]. intros (x & H). destruct H. auto.
  - split; auto. intros _. destruct (ne_elem X k HX (nkey n)) as (x & Hx). { apply S. } exists x. apply inr_mem in Hx; auto. cbn. rewrite Hx. discriminate.
Qed.
Lemma intersects_seg_at (t : tree) a v : inv k t -> exists b, m_intersects_seg X k M t a v = Ok b /\
  (b = true <-> mt_total M = true \/ exists x w, mem X k a x /\ vf t (pt x) = Some w /\ gand v w None <> None).
Proof.
  intros Hi. unfold m_intersects_seg. destruct (mt_total M) eqn:Et. { exists true. intuition. }
  destruct (int_seg_at X k HX M Hco t_empty t a v) as (s & -> & Hs & Vs & _); auto. { apply minv_empty. }
  cbn [bind]. eexists. split; [reflexivity|]. rewrite (nonempty_b s) by apply Hs. specialize (Vs Et). split.
  - intros (x & Hx). right. rewrite Vs in Hx. cbn [nodes t_empty vr] in Hx. destruct (inr k a (pt x)) eqn:Ex; [|congruence].
    destruct (vf t (pt x)) as [w|] eqn:Ew; [|congruence]. exists x, w. conjs; auto. apply inr_mem; auto.
  - intros [?|(x & w & H1 & H2 & H3)]; [discriminate|]. exists x. rewrite Vs. apply inr_mem in H1; auto. rewrite H1, H2. auto.
Qed.
Lemma intersects_loop_at (t : tree) : inv k t -> mt_total M = false -> forall (l : list node) s, minv s -> nodes s = [] ->
  exists b, m_intersects_loop X k M s t l = Ok b /\
  (b = true <-> exists n x w, In n l /\ mem X k (nkey n) x /\ vf t (pt x) = Some w /\ gand (nval n) w None <> None).
Proof.
  intros Hi Et. induction l as [|n l IH]; intros s Hs E0; cbn [m_intersects_loop].
  { exists false. split; auto. split; [discriminate|]. intros (n & x & w & [] & _). }
  destruct (int_seg_at X k HX M Hco s t (nkey n) (nval n) Hs Hi) as (s1 & -> & Hs1 & Vs & _). cbn [bind]. specialize (Vs Et). rewrite E0 in Vs. cbn [vr] in Vs.
  pose proof (nonempty_b s1 (proj1 Hs1)) as NB. destruct (nodes s1) as [|m r] eqn:E1.
  - destruct (IH s1 Hs1 E1) as (b & -> & Hb). exists b. split; auto. rewrite Hb. split.
    + intros (p & x & w & H1 & H2). exists p, x, w. split; auto. right. auto.
    + intros (p & x & w & [<-|H1] & H2 & H3 & H4); [|exists p, x, w; auto]. exfalso. apply H4. specialize (Vs (pt x)). apply inr_mem in H2; auto.
      rewrite H2, H3 in Vs. rewrite <- Vs. auto.
  - exists true. split; auto. split; auto. intros _. destruct (proj1 NB eq_refl) as (x & Hx). rewrite Vs in Hx.
    destruct (inr k (nkey n) (pt x)) eqn:Ex; [|congruence]. destruct (vf t (pt x)) as [w|] eqn:Ew; [|congruence].
    exists n, x, w. conjs; auto. { left; auto. } apply inr_mem; auto.
Qed.
Lemma intersects_map_at (t o : tree) : inv k t -> inv k o -> exists b, m_intersects_map X k M t o = Ok b /\
  (b = true <-> mt_total M = true \/ exists x w v, vf t (pt x) = Some w /\ vf o (pt x) = Some v /\ gand v w None <> None).
Proof.
  intros Hi Ho. unfold m_intersects_map. destruct (mt_total M) eqn:Et. { exists true. intuition. }
  pose proof Hi as [W S]. pose proof Ho as [Wo So].
  destruct (common_range_at X k HX o t Ho Hi) as (L & N & R & r & -> & EN & BL & BR & H). cbn [bind].
  pose proof So as S'. rewrite EN in S'.
  assert (OUT : forall c, some (vr k (nodes t) c) = true -> vr k (nodes o) c = vr k N c).
  { intros c Hc. rewrite EN. eapply (befor_vr X k HX); [exact S|exact S'|auto..]. }
  destruct H as [(-> & ->)|(-> & Hne)].
  - exists false. split; auto. split; [discriminate|]. intros [?|(x & w & v & H1 & H2 & _)]; [discriminate|].
    rewrite OUT in H2 by (rewrite H1; auto). discriminate.
  - rewrite (range_at X o L N R) by auto. cbn [bind].
    destruct (intersects_loop_at t Hi Et N t_empty) as (b & -> & Hb); auto. { apply minv_empty. }
    exists b. split; auto. rewrite Hb. apply (srt_parts X k) in S'. destruct S' as (_ & SN & _). split.
    + intros (n & x & w & H1 & H2 & H3 & H4). right. exists x, w, (nval n). conjs; auto. rewrite OUT by (rewrite H3; auto).
      apply (vr_some X k HX); auto. exists n. conjs; auto. apply inr_mem; auto.
    + intros [?|(x & w & v & H1 & H2 & H3)]; [discriminate|]. rewrite OUT in H2 by (rewrite H1; auto). apply (vr_some X k HX) in H2; auto.
      destruct H2 as (n & Hn & Ix & <-). exists n, x, w. conjs; auto. apply inr_mem; auto.
Qed.
Lemma ga_none_aok (t : tree) c w : aok (nodes t) -> vf t c = Some w -> ga w None <> None.
Proof.
  intros A E. unfold MapWhole.ga. destruct (is_absorbable M w) eqn:Ea; [|discriminate]. unfold is_absorbable in Ea. apply andb_true_iff in Ea.
  destruct Ea as [E1 E2]. apply Hco in E2. subst w. exfalso. apply (A E1 c E).
Qed.
Lemma intersects_set_loop_at (t : tree) : inv k t -> forall (l : list (Tree.node (D X) unit)) s, minv s -> nodes s = [] ->
  exists b, m_intersects_set_loop X k M s t l = Ok b /\
  (good -> aok (nodes t) -> (b = true <-> exists n x, In n l /\ mem X k (nkey n) x /\ vf t (pt x) <> None)).
Proof.
  intros Hi. induction l as [|n l IH]; intros s Hs E0; cbn [m_intersects_set_loop].
  { exists false. split; auto. split; [discriminate|]. intros (n & x & [] & _). }
  destruct (int_itv_at X k HX M Hco s t (nkey n) Hs Hi) as (s1 & -> & Hs1 & Vs). cbn [bind]. rewrite E0 in Vs. cbn [vr] in Vs.
  pose proof (nonempty_b s1 (proj1 Hs1)) as NB. destruct (nodes s1) as [|m r] eqn:E1.
  - destruct (IH s1 Hs1 E1) as (b & -> & Hb). exists b. split; auto. intros G A. rewrite (Hb G A). destruct (Vs G (aok_nil X k M)) as [_ Vs']. split.
    + intros (p & x & H1 & H2). exists p, x. split; auto. right. auto.
    + intros (p & x & [<-|H1] & H2 & H3); [|exists p, x; auto]. exfalso. destruct (vf t (pt x)) as [w|] eqn:Ew; [|congruence].
      specialize (Vs' (pt x)). apply inr_mem in H2; auto. rewrite H2, Ew in Vs'. apply (ga_none_aok t (pt x) w A Ew). auto.
  - exists true. split; auto. intros G A. split; auto. intros _. destruct (Vs G (aok_nil X k M)) as [_ Vs']. destruct (proj1 NB eq_refl) as (x & Hx). rewrite Vs' in Hx.
    destruct (inr k (nkey n) (pt x)) eqn:Ex; [|congruence]. destruct (vf t (pt x)) as [w|] eqn:Ew; [|congruence].
    exists n, x. conjs; auto. { left; auto. } { apply inr_mem; auto. } congruence.
Qed.
Lemma intersects_set_at (t : tree) (o : iset) : inv k t -> inv k o -> exists b, m_intersects_set X k M t o = Ok b /\
  (good -> aok (nodes t) -> (b = true <-> exists x, vf t (pt x) <> None /\ Rb k (nodes o) (pt x) = true)).
Proof.
  intros Hi Ho. unfold m_intersects_set. pose proof Hi as [W S]. pose proof Ho as [Wo So].
  destruct (nodes t) as [|n0 l0] eqn:Et.
  { exists false. split; auto. intros _ _. split; [discriminate|]. intros (x & H & _). destruct H. auto. }
  destruct (nodes o) as [|n1 l1] eqn:Eo.
  { exists false. split; auto. intros _ _. split; [discriminate|]. intros (x & _ & H). discriminate. }
  rewrite <- Et, <- Eo in *. clear Et Eo n0 l0 n1 l1.
  destruct (common_range_at X k HX o t Ho Hi) as (L & N & R & r & -> & EN & BL & BR & H). cbn [bind].
  pose proof So as S'. rewrite EN in S'.
  assert (OUT : forall c, some (vr k (nodes t) c) = true -> vr k (nodes o) c = vr k N c).
  { intros c Hc. rewrite EN. eapply (befor_vr X k HX); [exact S|exact S'|auto..]. }
  assert (OUT' : forall c, vr k (nodes t) c <> None -> Rb k (nodes o) c = Rb k N c).
  { intros c Hc. rewrite !Rb_vr, OUT; auto. destruct (vr k (nodes t) c); auto. }
  destruct H as [(-> & ->)|(-> & Hne)].
  - exists false. split; auto. intros _ _. split; [discriminate|]. intros (x & H1 & H2).
    rewrite OUT' in H2 by auto. discriminate.
  - rewrite (range_at X o L N R) by auto. cbn [bind].
    destruct (intersects_set_loop_at t Hi N t_empty) as (b & -> & Hb); auto. { apply minv_empty. }
    exists b. split; auto. intros G A. rewrite (Hb G A). split.
    + intros (n & x & H1 & H2 & H3). exists x. split; auto. rewrite OUT' by auto. apply Rb_iff. exists n. split; auto. apply inr_mem; auto.
    + intros (x & H1 & H2). rewrite OUT' in H2 by auto. apply Rb_iff in H2. destruct H2 as (n & Hn & Ix). exists n, x. conjs; auto. apply inr_mem; auto.
Qed.

(* ------------------------------------------------------------ equality *)
Lemma segs_eqb_at (l r : list node) : srt k l -> srt k r -> (segs_eqb X k M l r = true <-> Forall2 (@sameseg X k V) l r).
Proof.
  revert r. induction l as [|a l IH]; intros [|b r] Sl Sr; cbn [segs_eqb]; try (split; [discriminate|intros H; inversion H]).
  { split; auto. }
  destruct Sl as (Na & _ & Sl), Sr as (Nb & _ & Sr). rewrite !andb_true_iff, (IH r Sl Sr), Hco, (itv_eqb_ne X k HX) by auto. rewrite andb_true_iff. split.
  - intros [[[H1 H2] H3] H4]. constructor; auto. unfold sameseg. auto.
  - intros H. inversion H; subst. unfold sameseg in *. tauto.
Qed.
Lemma m_eqb_at (l r : tree) : inv k l -> inv k r ->
  (m_eqb X k M l r = true <-> forall c, ok c -> vf l c = vf r c /\ intr k (nodes l) c = intr k (nodes r) c).
Proof.
  intros [_ Sl] [_ Sr]. unfold m_eqb. rewrite segs_eqb_at by auto. split.
  - intros H c _. apply (obs_of_same X k HX) in H. destruct H as (H1 & _ & H3). auto.
  - intros H. apply (same_of_obs X k HX); auto; intros c Oc; apply H; auto.
Qed.
Lemma m_eqb_joined (l r : tree) : mt_style M = MJoin -> minv l -> minv r ->
  (m_eqb X k M l r = true <-> forall x, vf l (pt x) = vf r (pt x)).
Proof.
  intros ES [Hl Jl] [Hr Jr]. unfold MapFacts.J in *. rewrite ES in *. pose proof Hl as [_ Sl]. pose proof Hr as [_ Sr]. split.
  - intros H x. unfold m_eqb in H. apply segs_eqb_at in H; auto. apply (obs_of_same X k HX) in H. destruct H as (H1 & _). auto.
  - intros H. apply m_eqb_at; auto. intros c Oc. destruct (elem_obs X k HX _ _ H c Oc) as [H1 H2]. split; auto.
    rewrite (joined_intr X k HX cc_eq (nodes l) c Sl Jl), (joined_intr X k HX cc_eq (nodes r) c Sr Jr), H1, H2; auto; intros; apply Hco; auto.
Qed.
Lemma m_eqb_segs (l r : tree) : inv k l -> inv k r ->
  (m_eqb X k M l r = true <-> (forall x, vf l (pt x) = vf r (pt x)) /\
    forall x y, same_seg X k (map nkey (nodes l)) x y <-> same_seg X k (map nkey (nodes r)) x y).
Proof.
  intros Hl Hr. pose proof Hl as [_ Sl]. pose proof Hr as [_ Sr]. split.
  - intros H. unfold m_eqb in H. apply segs_eqb_at in H; auto. split.
    { intros x. apply (obs_of_same X k HX) in H. apply H. }
    clear Sl Sr Hl Hr. intros x y. induction H as [|a b l' r' [H1 [H2 _]] H IH]; [tauto|].
    assert (E : forall z, mem X k (nkey a) z <-> mem X k (nkey b) z).
    { intros z. rewrite <- !inr_mem by auto. unfold inr. split; intros; cord. }
    unfold same_seg in *. cbn [map In]. split.
    + intros (p & [<-|Hp] & P1 & P2).
      * exists (nkey b). rewrite <- !E. auto.
      * destruct (proj1 IH) as (q & Hq & Q). { eauto. } exists q. auto.
    + intros (p & [<-|Hp] & P1 & P2).
      * exists (nkey a). rewrite !E. auto.
      * destruct (proj2 IH) as (q & Hq & Q). { eauto. } exists q. auto.
  - intros [H0 H]. apply m_eqb_at; auto. intros c Oc. split.
    + apply (elem_obs X k HX); auto.
    + assert (A := intr_of_segs X k HX (nodes l) (nodes r) Sl Sr (fun x y _ => proj1 (H x y)) c Oc).
      assert (B := intr_of_segs X k HX (nodes r) (nodes l) Sr Sl (fun x y _ => proj2 (H x y)) c Oc).
      destruct (intr k (nodes l) c), (intr k (nodes r) c); auto; intuition congruence.
Qed.

(* ------------------------------------------------------------ selection *)
Lemma domain_at st (o : tree) : exists t', m_domain X k M st o = Ok t' /\ sinv X k st t' /\ addsP X k st (map nkey (nodes o)) [] (nodes t').
Proof. apply (domain_all X k HX). Qed.
Lemma between_at st (o : tree) : inv k o -> exists t', m_between X k M st o = Ok t' /\ sinv X k st t' /\
  forall x, Rb k (nodes t') (pt x) = true <->
    Rb k (nodes o) (pt x) = false /\ (exists y, Rb k (nodes o) (pt y) = true /\ lt y x) /\ (exists z, Rb k (nodes o) (pt z) = true /\ lt x z).
Proof. intros [_ S]. apply (between_all X k HX); auto. Qed.

Lemma erase_if_at p : forall R fuel (t : tree) L, inv k t -> nodes t = L ++ R -> length R < fuel ->
  exists t', m_erase_if_loop X M fuel p t (Tree.hd_it R) = Ok t' /\ inv k t' /\
    nodes t' = L ++ filter (fun n => negb (p (nkey n) (nval n))) R.
Proof.
  induction R as [|n R IH]; intros [|fuel] t L Hi E Hf; try (cbn in Hf; lia); cbn [m_erase_if_loop Tree.hd_it].
  - exists t. conjs; auto.
  - pose proof Hi as [W S]. change (iter_eqb (Some (nid n)) (end_ t)) with false. cbn [negb].
    rewrite (deref_at X t L n R) by auto. cbn [bind]. rewrite (incr_at X t L n R) by auto. cbn [bind filter].
    destruct (p (nkey n) (nval n)); cbn [negb].
    + rewrite (erase_at X t L n R) by auto. cbn [bind].
      apply IH; auto. { eapply inv_del; eauto. } { cbn in Hf. lia. }
    + cbn [bind]. destruct (IH fuel t (L ++ [n])) as (t' & -> & I' & E'); auto. { lst. } { cbn in Hf; lia. }
      exists t'. conjs; auto. rewrite E', <- app_assoc. auto.
Qed.
Lemma erase_if_all p (t : tree) : minv t -> exists t', m_erase_if X M p t = Ok t' /\ minv t' /\
  nodes t' = filter (fun n => negb (p (nkey n) (nval n))) (nodes t).
Proof.
  intros [Hi HJ]. destruct (erase_if_at p (nodes t) (Datatypes.S (length (nodes t))) t []) as (t' & E & I' & E'); auto.
  exists t'. conjs; auto. split; auto. rewrite E'. eapply J_incl; [|exact HJ]. cbn. intros n Hn. apply filter_In in Hn. tauto.
Qed.
Lemma filter_vf (p : V -> bool) (l : list node) c : srt k l ->
  vr k (filter (fun n => negb (p (nval n))) l) c = match vr k l c with Some v => if p v then None else Some v | None => None end.
Proof.
  induction l as [|n l IH]; intros S; cbn [filter]; auto. pose proof S as (Nn & _ & Sl).
  destruct (p (nval n)) eqn:Ep; cbn [negb]; cbn [vr].
  - rewrite IH by auto. destruct (inr k (nkey n) c) eqn:Ec; cbn [orelse]; auto.
    rewrite (vr_cons_in X k HX n l c) by auto. rewrite Ep. auto.
  - rewrite IH by auto. destruct (inr k (nkey n) c) eqn:Ec; cbn [orelse]; auto. rewrite Ep. auto.
Qed.
Lemma absorb_at (t : tree) : minv t -> exists t', m_absorb_identities X M t = Ok t' /\ minv t' /\
  forall c, vf t' c = if mt_absorbs M then vf t c else match vf t c with Some v => if cc_eq v cc_zero then None else Some v | None => None end.
Proof.
  intros Hm. unfold m_absorb_identities. destruct (mt_absorbs M). { exists t. auto. }
  destruct (erase_if_all (fun _ v => cc_eq v cc_zero) t Hm) as (t' & E & Hm' & E'). exists t'. conjs; auto. intros c. rewrite E'.
  apply (filter_vf (fun v => cc_eq v cc_zero)). apply Hm.
Qed.

(* ------------------------------------------------------------ assignment *)
Lemma copy_at (l : list node) : forall (t : tree), inv k t -> srt k (nodes t ++ l) ->
  exists t', foldM (fun t (n : node) => ' (t, _, _) <- insert X k t (nkey n) (nval n) ;; Ok t) t l = Ok t' /\ inv k t' /\
    map (fun n => (nkey n, nval n)) (nodes t') = map (fun n => (nkey n, nval n)) (nodes t ++ l).
Proof.
  induction l as [|n l IH]; intros t Hi S; cbn [foldM].
  - exists t. rewrite app_nil_r. auto.
  - pose proof S as S'. rewrite (srt_mid X k HX) in S'. destruct S' as (S1 & S2 & Nn & B & A).
    rewrite (insert_new X k HX t (nodes t) [] (nkey n) (nval n)) by (auto; try apply Hi; try constructor; rewrite app_nil_r; auto). cbn [bind].
    edestruct IH as (t' & -> & I' & K').
    + apply (inv_ins X k HX M t (nodes t) [] (nkey n) (nval n)); auto. { rewrite app_nil_r; auto. } constructor.
    + cbn [nodes]. rewrite <- app_assoc. cbn [app]. apply (srt_mid X k HX). cbn [nkey]. auto.
    + exists t'. conjs; auto. rewrite K'. cbn [nodes]. rewrite !map_app. cbn. rewrite <- app_assoc. auto.
Qed.
Lemma vr_segs (l r : list node) c : map (fun n => (nkey n, nval n)) l = map (fun n => (nkey n, nval n)) r -> vr k l c = vr k r c.
Proof.
  revert r. induction l as [|a l IH]; intros [|b r] H; try discriminate; auto. cbn [map] in H. inversion H as [[H1 H2 H3]]. cbn [vr].
  rewrite H1, H2, (IH r H3). auto.
Qed.
Lemma assign_at (src : tree) : inv k src -> exists t', m_assign X k M src = Ok t' /\ minv t' /\
  (mt_style M = MSplit -> map (fun n => (nkey n, nval n)) (nodes t') = map (fun n => (nkey n, nval n)) (nodes src)) /\
  (mt_style M = MJoin -> good -> aok (nodes t') /\ forall c, vf t' c = match vf src c with Some v => ga v None | None => None end).
Proof.
  intros Hs. unfold m_assign. destruct (mt_style M) eqn:ES.
  - destruct (add_map_at X k HX M Hco t_empty src (minv_empty X k M) Hs) as (t' & -> & Ht & C). exists t'. conjs; auto; [discriminate|].
    intros _ G. destruct (C G (aok_nil X k M)) as [A P]. split; auto.
  - destruct (copy_at (nodes src) t_empty) as (t' & E & I' & K); auto. { apply inv_empty. } { apply Hs. } exists t'. conjs; auto; [|discriminate].
    split; auto. unfold MapFacts.J. rewrite ES. auto.
Qed.

(* ------------------------------------------------------------ order *)
Section Order.
Context (Hirr : forall v : V, cc_lt v v = false)
        (Htr : forall u v w : V, cc_lt u v = true -> cc_lt v w = true -> cc_lt u w = true)
        (Htot : forall v w : V, v = w \/ cc_lt v w = true \/ cc_lt w v = true).
Notation ltb := (seg_ltb X k M).
Definition sne (n : node) : Prop := ne (nkey n).
Lemma seg_ltb_cut a b : sne a -> sne b -> ltb a b =
  (cltb (lc (nkey a)) (lc (nkey b)) || (ceqb (lc (nkey a)) (lc (nkey b)) && cltb (uc (nkey a)) (uc (nkey b))))
  || (ceqb (lc (nkey a)) (lc (nkey b)) && ceqb (uc (nkey a)) (uc (nkey b)) && cc_lt (nval a) (nval b)).
Proof.
  intros A B. unfold seg_ltb. rewrite !(ltb_ne X k HX) by auto. destruct (cc_lt (nval a) (nval b)); rewrite ?andb_false_r, ?orb_false_r, ?andb_true_r; auto. cord.
Qed.
Lemma seg_irr a : sne a -> ltb a a = false.
Proof. intros A. rewrite seg_ltb_cut, Hirr, andb_false_r by auto. cord. Qed.
Lemma seg_tr a b c : sne a -> sne b -> sne c -> ltb a b = true -> ltb b c = true -> ltb a c = true.
Proof.
  intros A B C. rewrite !seg_ltb_cut by auto. pose proof (Htr (nval a) (nval b) (nval c)) as T. revert T.
  generalize (cc_lt (nval a) (nval b)) (cc_lt (nval b) (nval c)) (cc_lt (nval a) (nval c)). intros p q r T.
  destruct p, q; try rewrite (T eq_refl eq_refl); clear T; rewrite ?andb_false_r, ?orb_false_r, ?andb_true_r; intros; try destruct r; rewrite ?andb_false_r, ?orb_false_r, ?andb_true_r; cord.
Qed.
Definition seq_ (a b : node) : bool := itv_eqb X k (nkey a) (nkey b) && cc_eq (nval a) (nval b).
Lemma seg_eq_iff a b : sne a -> sne b -> (seq_ a b = true <-> ltb a b = false /\ ltb b a = false).
Proof.
  intros A B. unfold seq_. rewrite (itv_eqb_ne X k HX), !seg_ltb_cut by auto. rewrite andb_true_iff, Hco. split.
  - intros [H1 H2]. rewrite H2, Hirr, !andb_false_r, !orb_false_r. split; cord.
  - intros [H1 H2]. assert (H3 : ceqb (lc (nkey a)) (lc (nkey b)) && ceqb (uc (nkey a)) (uc (nkey b)) = true).
    { apply orb_false_iff in H1, H2. destruct H1 as [H1 _], H2 as [H2 _]. cord. }
    split; auto. destruct (Htot (nval a) (nval b)) as [E|[E|E]]; auto; exfalso.
    + rewrite H3, E, orb_true_r in H1. discriminate.
    + assert (H4 : ceqb (lc (nkey b)) (lc (nkey a)) && ceqb (uc (nkey b)) (uc (nkey a)) = true) by cord. rewrite H4, E, orb_true_r in H2. discriminate.
Qed.
Lemma seg_eq_l a b c : sne a -> sne b -> sne c -> seq_ a b = true -> ltb a c = ltb b c.
Proof.
  intros A B C. unfold seq_. rewrite (itv_eqb_ne X k HX), andb_true_iff, Hco by auto. intros [H1 H2]. rewrite !seg_ltb_cut, H2 by auto.
  destruct (cc_lt (nval b) (nval c)); rewrite ?andb_false_r, ?orb_false_r, ?andb_true_r; cord.
Qed.
Lemma seg_eq_r a b c : sne a -> sne b -> sne c -> seq_ a b = true -> ltb c a = ltb c b.
Proof.
  intros A B C. unfold seq_. rewrite (itv_eqb_ne X k HX), andb_true_iff, Hco by auto. intros [H1 H2]. rewrite !seg_ltb_cut, H2 by auto.
  destruct (cc_lt (nval c) (nval b)); rewrite ?andb_false_r, ?orb_false_r, ?andb_true_r; cord.
Qed.
Lemma segs_irr l : Forall sne l -> segs_ltb X k M l l = false.
Proof. induction 1 as [|a l A H IH]; cbn [segs_ltb]; auto. rewrite seg_irr by auto. auto. Qed.
Lemma segs_tr l m r : Forall sne l -> Forall sne m -> Forall sne r ->
  segs_ltb X k M l m = true -> segs_ltb X k M m r = true -> segs_ltb X k M l r = true.
Proof.
  revert m r. induction l as [|a l IH]; intros [|b m] [|c r] Hl Hm Hr; cbn [segs_ltb]; auto; try discriminate.
  inversion Hl as [|? ? A Hl']; inversion Hm as [|? ? B Hm']; inversion Hr as [|? ? C Hr']; subst.
  destruct (ltb a b) eqn:E1.
  - intros _. destruct (ltb b c) eqn:E2.
    + rewrite (seg_tr a b c) by auto. auto.
    + destruct (ltb c b) eqn:E3; [discriminate|]. intros _.
      assert (Q : seq_ b c = true) by (apply seg_eq_iff; auto). rewrite <- (seg_eq_r b c a) by auto. rewrite E1. auto.
  - destruct (ltb b a) eqn:E2; [discriminate|]. intros L1.
    assert (Q : seq_ a b = true) by (apply seg_eq_iff; auto). rewrite (seg_eq_l a b c) by auto. rewrite (seg_eq_r a b c) by auto.
    destruct (ltb b c); auto. destruct (ltb c b); auto. intros L2. apply (IH m r); auto.
Qed.
Lemma segs_tot l r : Forall sne l -> Forall sne r ->
  (segs_eqb X k M l r = true <-> segs_ltb X k M l r = false /\ segs_ltb X k M r l = false).
Proof.
  revert r. induction l as [|a l IH]; intros [|b r] Hl Hr; cbn [segs_ltb segs_eqb]; try (split; [discriminate|intros [? ?]; discriminate]); auto.
  { split; auto. }
  inversion Hl as [|? ? A Hl']; inversion Hr as [|? ? B Hr']; subst. change (itv_eqb X k (nkey a) (nkey b) && cc_eq (nval a) (nval b)) with (seq_ a b).
  pose proof (seg_eq_iff a b A B) as Q. rewrite andb_true_iff, IH by auto. destruct (ltb a b), (ltb b a); intuition discriminate.
Qed.
Lemma nodes_sne (t : tree) : inv k t -> Forall sne (nodes t).
Proof. intros [_ S]. apply (srt_nes X k); auto. Qed.
End Order.
End MapQuery.

(** Ordering, range queries and morphisms of interval sets (proofs). *)
From Verif Require Export SetQuery3.

Section SetQuery4.
Context (X : dom) (k : kind).
Context (HX : dom_ok X k).
Notation I := (itv (D X)).
Notation node := (node (D X) unit).
Notation tree := (tree (D X) unit).
Notation lc := (lc X k).
Notation uc := (uc X k).
Notation pt := (pt X).
Notation cltb := (cltb X).
Notation ceqb := (ceqb X).
Notation cut := (cut X).
Notation ok := (cut_ok X k).
Notation ne := (@ne X k).
Notation sinv := (sinv X k).
Notation addsP := (addsP X k).
Notation exr := (exr X k).
Notation same_seg := (same_seg X k).
Ltac cord := cord_ X k HX.
Ltac lst := rewrite <- ?app_assoc; cbn [app]; congruence || auto.

(* ------------------------------------------------------------ operator < *)
Definition kne (l : list I) : Prop := Forall ne l.
Lemma keys_ne (t : tree) : inv k t -> kne (keys X t).
Proof. intros [_ S]. apply srt_nes in S. unfold kne, keys. apply Forall_map. auto. Qed.
Lemma ltb_ne a b : ne a -> ne b -> itv_ltb X k a b = cltb (lc a) (lc b) || (ceqb (lc a) (lc b) && cltb (uc a) (uc b)).
Proof. intros Ha Hb. apply itv_ltb_cut; auto; apply (ne_iff X k HX); auto. Qed.
Lemma eqb_ne a b : ne a -> ne b -> itv_eqb X k a b = ceqb (lc a) (lc b) && ceqb (uc a) (uc b).
Proof. intros Ha Hb. apply itv_eqb_cut; auto; apply (ne_iff X k HX); auto. Qed.

Lemma keys_ltb_irrefl l : kne l -> keys_ltb X k l l = false.
Proof.
  induction 1 as [|a l Ha Hl IH]; cbn [keys_ltb]; auto. rewrite IH, ltb_ne by auto.
  repeat ifg; auto. cord.
Qed.
Lemma keys_ltb_trans l m r : kne l -> kne m -> kne r ->
  keys_ltb X k l m = true -> keys_ltb X k m r = true -> keys_ltb X k l r = true.
Proof.
  intros Hl. revert m r. induction Hl as [|a l Ha Hl IH]; intros m r Hm Hr; destruct Hm as [|b m Hb Hm], Hr as [|c r Hc Hr]; cbn [keys_ltb]; auto; try discriminate.
  rewrite !ltb_ne by auto. specialize (IH m r Hm Hr).
  destruct (cltb (lc a) (lc b) || ceqb (lc a) (lc b) && cltb (uc a) (uc b)) eqn:E1,
    (cltb (lc b) (lc c) || ceqb (lc b) (lc c) && cltb (uc b) (uc c)) eqn:E2;
  destruct (cltb (lc b) (lc a) || ceqb (lc b) (lc a) && cltb (uc b) (uc a)) eqn:E3; try (intros; discriminate);
  destruct (cltb (lc c) (lc b) || ceqb (lc c) (lc b) && cltb (uc c) (uc b)) eqn:E4; try (intros; discriminate); intros H1 H2;
  try (assert (H : cltb (lc a) (lc c) || ceqb (lc a) (lc c) && cltb (uc a) (uc c) = true) by (clear IH H1 H2; cord); rewrite H; auto; fail).
  assert (H : cltb (lc c) (lc a) || ceqb (lc c) (lc a) && cltb (uc c) (uc a) = false) by (clear IH H1 H2; cord). rewrite H.
  destruct (cltb (lc a) (lc c) || ceqb (lc a) (lc c) && cltb (uc a) (uc c)); auto.
Qed.
(** trichotomy: exactly the cases <, ==, > *)
Lemma keys_ltb_eqb l r : kne l -> kne r ->
  keys_eqb X k l r = negb (keys_ltb X k l r) && negb (keys_ltb X k r l).
Proof.
  intros Hl. revert r. induction Hl as [|a l Ha Hl IH]; intros r [|b r' Hb Hr]; cbn [keys_ltb keys_eqb]; auto.
  rewrite IH by auto. rewrite eqb_ne, !ltb_ne by auto. clear IH.
  destruct (cltb (lc a) (lc b) || ceqb (lc a) (lc b) && cltb (uc a) (uc b)) eqn:E1,
  (cltb (lc b) (lc a) || ceqb (lc b) (lc a) && cltb (uc b) (uc a)) eqn:E2; cbn [negb andb];
  generalize (negb (keys_ltb X k l r')) (negb (keys_ltb X k r' l)); intros u v.
  - exfalso. cord.
  - destruct (ceqb (lc a) (lc b)) eqn:E3, (ceqb (uc a) (uc b)) eqn:E4; auto; exfalso; cord.
  - destruct (ceqb (lc a) (lc b)) eqn:E3, (ceqb (uc a) (uc b)) eqn:E4; auto; try (exfalso; cord); cbn; rewrite ?andb_false_r; auto.
  - assert (ceqb (lc a) (lc b) = true) by cord. assert (ceqb (uc a) (uc b) = true) by cord. rewrite H, H0. auto.
Qed.

(* ------------------------------------------------------------ range queries *)
Lemma ends_at {V} (t : Tree.tree (D X) V) : inv k t -> nodes t <> [] ->
  exists m M Q q, nodes t = m :: M /\ nodes t = Q ++ [q] /\ key t (begin_ t) = Ok (nkey m) /\
    decr_it t (end_ t) = Ok (Some (nid q)) /\ key t (Some (nid q)) = Ok (nkey q) /\ ne (nkey m) /\ ne (nkey q) /\
    forall x, Rb k (nodes t) (pt x) = true -> cltb (pt x) (lc (nkey m)) = false /\ cltb (pt x) (uc (nkey q)) = true.
Proof.
  intros [W S] Hn. destruct (M_ends (nodes t) Hn) as (m & M & Q & q & E1 & E2).
  exists m, M, Q, q. conjs; auto.
  - unfold begin_. rewrite E1. cbn [Tree.hd_it]. apply (key_at X t [] m M); auto.
  - unfold end_. change (@None nat) with (@Tree.hd_it X V []). rewrite (decr_hd X t Q q []); auto.
  - apply (key_at X t Q q []); auto.
  - apply srt_nes in S. unfold nes in S. rewrite Forall_forall in S. apply S. rewrite E1. cbn; auto.
  - apply srt_nes in S. unfold nes in S. rewrite Forall_forall in S. apply S. rewrite E2, in_app_iff. cbn; auto.
  - intros x Hx. destruct (M_range X k HX (nodes t) m M Q q S E1 E2) as [A B].
    apply Rb_iff in Hx. destruct Hx as (n & Hn' & Hx). unfold above, below in *. rewrite Forall_forall in A, B.
    specialize (A n Hn'). specialize (B n Hn'). cbn beta in A, B. unfold inr in Hx. split; cord.
Qed.

Lemma in_Rb {V} (l : list (Tree.node (D X) V)) n x : In n l -> mem X k (nkey n) x -> Rb k l (pt x) = true.
Proof. intros H M. apply (Rb_mem X k HX). eauto. Qed.

(** hull: the elements between two elements of the container *)
Theorem c_hull_at {V} (t : Tree.tree (D X) V) : inv k t ->
  exists h, c_hull X k t = Ok h /\ forall x, mem X k h x <->
    exists y z, Rb k (nodes t) (pt y) = true /\ Rb k (nodes t) (pt z) = true /\ le y x /\ le x z.
Proof.
  intros Hi. unfold c_hull. destruct (nodes t) as [|n0 l0] eqn:E0.
  { exists (empty_itv X k). split; auto. intros x. split.
    - intros H. exfalso. revert H. apply empty_no_point; auto. apply empty_itv_empty; auto.
    - intros (y & z & H & _). discriminate. }
  destruct (ends_at t Hi) as (m & M & Q & q & E1 & E2 & Kb & Dq & Kq & Nm & Nq & G). { rewrite E0. discriminate. }
  rewrite Dq. cbn [bind]. rewrite Kb. cbn [bind]. rewrite Kq. cbn [bind]. rewrite <- E0 in *. exists (hull X k (nkey m) (nkey q)). split; auto.
  assert (Im : In m (nodes t)) by (rewrite E1; cbn; auto). assert (Iq : In q (nodes t)) by (rewrite E2, in_app_iff; cbn; auto).
  destruct (M_range X k HX (nodes t) m M Q q (proj2 Hi) E1 E2) as [A B]. unfold above, below in *. rewrite Forall_forall in A, B.
  pose proof (A q Iq) as Aq. pose proof (B m Im) as Bm. cbn beta in Aq, Bm.
  intros x. rewrite <- inr_mem by auto. unfold inr. rewrite (hull_lc X k HX), (hull_uc X k HX) by auto.
  assert (F1 : cltb (pt x) (cmin X (lc (nkey m)) (lc (nkey q))) = cltb (pt x) (lc (nkey m))) by (unfold cmin; ifg; cord).
  assert (F2 : cltb (pt x) (cmax X (uc (nkey m)) (uc (nkey q))) = cltb (pt x) (uc (nkey q))) by (unfold cmax; ifg; cord).
  rewrite F1, F2, andb_true_iff, negb_true_iff. split.
  - intros [H1 H2]. unfold Seg.ne in *.
    assert (Y : exists y, mem X k (nkey m) y /\ le y x).
    { destruct (cltb (pt x) (uc (nkey m))) eqn:E.
      - exists x. split. { apply inr_mem; auto. unfold inr. cord. } apply (proj2 (le_pt X x x)). cord.
      - destruct (ne_elem X k HX (nkey m) Nm) as (y & Hy). exists y. split; auto. apply inr_mem in Hy; auto. unfold inr in Hy.
        apply (proj2 (le_pt X y x)). cord. }
    assert (Z : exists z, mem X k (nkey q) z /\ le x z).
    { destruct (cltb (pt x) (lc (nkey q))) eqn:E.
      - destruct (ne_elem X k HX (nkey q) Nq) as (y & Hy). exists y. split; auto. apply inr_mem in Hy; auto. unfold inr in Hy.
        apply (proj2 (le_pt X x y)). cord.
      - exists x. split. { apply inr_mem; auto. unfold inr. cord. } apply (proj2 (le_pt X x x)). cord. }
    destruct Y as (y & Y1 & Y2), Z as (z & Z1 & Z2). exists y, z. conjs; auto. { apply (in_Rb _ m); auto. } { apply (in_Rb _ q); auto. }
  - intros (y & z & Hy & Hz & L1 & L2). destruct (G y Hy), (G z Hz). rewrite (le_pt X) in L1, L2. split; cord.
Qed.

(** first / last: the least / greatest element *)
Theorem c_first_at {V} (t : Tree.tree (D X) V) : inv k t -> has_first X k = true -> nodes t <> [] ->
  exists x, c_first X k t = Ok x /\ Rb k (nodes t) (pt x) = true /\ forall y, Rb k (nodes t) (pt y) = true -> le x y.
Proof.
  intros Hi Hf Hn. unfold c_first. destruct (ends_at t Hi Hn) as (m & M & Q & q & E1 & E2 & Kb & Dq & Kq & Nm & Nq & G).
  destruct (nodes t) as [|n0 l0] eqn:E0; [congruence|]. rewrite Kb. cbn [bind]. exists (first X k (nkey m)). split; auto. 
  destruct (first_spec X k HX (nkey m) Hf (ne_elem X k HX _ Nm)) as [F1 F2]. split.
  - apply (in_Rb _ m); auto. rewrite E1. cbn. auto.
  - intros y Hy. destruct (G y Hy) as [G1 _]. pose proof (first_cut X k HX (nkey m) Hf) as FC.
    assert (FC' : ceqb (pt (first X k (nkey m))) (lc (nkey m)) = true).
    { apply FC. apply (nonempty_edge X k HX). apply (ne_iff X k HX); auto. }
    apply (proj2 (le_pt X _ _)). cord.
Qed.
Theorem c_last_at {V} (t : Tree.tree (D X) V) : inv k t -> has_last X k = true -> nodes t <> [] ->
  exists x, c_last X k t = Ok x /\ Rb k (nodes t) (pt x) = true /\ forall y, Rb k (nodes t) (pt y) = true -> le y x.
Proof.
  intros Hi Hf Hn. unfold c_last. destruct (ends_at t Hi Hn) as (m & M & Q & q & E1 & E2 & Kb & Dq & Kq & Nm & Nq & G).
  destruct (nodes t) as [|n0 l0] eqn:E0; [congruence|]. rewrite Dq. cbn [bind]. rewrite Kq. cbn [bind]. exists (Interval.last X k (nkey q)). split; auto. 
  destruct (last_spec X k HX (nkey q) Hf (ne_elem X k HX _ Nq)) as [F1 F2]. split.
  - apply (in_Rb _ q); auto. rewrite E2, in_app_iff. cbn. auto.
  - intros y Hy. destruct (G y Hy) as [_ G1].
    destruct (cltb (pt y) (lc (nkey q))) eqn:E.
    + apply inr_mem in F1; auto. unfold inr in F1. apply (proj2 (le_pt X _ _)). cord.
    + apply F2. apply inr_mem; auto. unfold inr. cord.
Qed.
Theorem c_lower_at {V} (t : Tree.tree (D X) V) m M : inv k t -> nodes t = m :: M -> c_lower X t = Ok (lo (nkey m)).
Proof.
  intros Hi E. unfold c_lower. rewrite E. unfold begin_. rewrite E. cbn [Tree.hd_it]. rewrite (key_at X t [] m M); auto. apply Hi.
Qed.
Theorem c_upper_at {V} (t : Tree.tree (D X) V) q Q : inv k t -> nodes t = Q ++ [q] -> c_upper X t = Ok (up (nkey q)).
Proof.
  intros Hi E. unfold c_upper. destruct (nodes t) eqn:E0. { destruct Q; discriminate. }
  unfold end_. change (@None nat) with (@Tree.hd_it X V []). rewrite (decr_hd X t Q q []) by (try apply Hi; congruence). cbn [bind].
  rewrite (key_at X t Q q []) by (try apply Hi; congruence). auto.
Qed.

(* ------------------------------------------------------------ domain, between, assign *)
Lemma addsP_Rb st (l : list node) P : addsP st (map nkey l) [] P -> forall x, Rb k P (pt x) = Rb k l (pt x).
Proof. intros [A _] x. destruct (A (pt x)) as [-> _]. cbn. rewrite exr_keys. auto. Qed.

Theorem s_domain_at st (o : tree) : exists t', s_domain X k st o = Ok t' /\ sinv st t' /\ addsP st (map nkey (nodes o)) [] (nodes t').
Proof.
  unfold s_domain.
  destruct (s_adds_at X k HX st (map nkey (nodes o)) t_empty None (sinv_empty X k st) Logic.I) as (t' & h' & E & I' & _ & A').
  exists t'. rewrite <- foldM_map in E.
  match goal with |- (bind ?a _ = _) /\ _ => replace a with (Ok (t', h')) end. { cbn [bind]. auto. }
  symmetry. etransitivity; [|exact E]. apply foldM_ext. intros [s h] n. auto.
Qed.

Lemma exr_iff l c : exr l c = true <-> exists a, In a l /\ inr k a c = true.
Proof. unfold exr. rewrite existsb_exists. tauto. Qed.

Lemma between_at {V} (n m : Tree.node (D X) V) x : ne (nkey n) -> ne (nkey m) -> cltb (lc (nkey m)) (uc (nkey n)) = false ->
  inr k (between X k (nkey n) (nkey m)) (pt x) = negb (cltb (pt x) (uc (nkey n))) && cltb (pt x) (lc (nkey m)).
Proof.
  intros Nn Nm H. apply eq_true_iff_eq. rewrite inr_mem, inner_complement_spec by auto.
  rewrite (ne_iff X k HX) in Nn, Nm.
  rewrite !(above_cut X k HX), !(below_cut X k HX) by auto.
  rewrite andb_true_iff, negb_true_iff. split.
  - intros (_ & _ & [?|[H1 H2]]); auto. exfalso. rewrite <- (ne_iff X k HX) in Nn, Nm. unfold Seg.ne in *. cord.
  - intros [H1 H2]. conjs; auto; apply ne_elem; auto; apply (ne_iff X k HX); auto.
Qed.

Lemma between_pairs {V} (l : list (Tree.node (D X) V)) : srt k l -> forall x,
  (exr (map (fun '(p, n) => between X k (nkey p) (nkey n)) (pairs l)) (pt x) = true <->
   Rb k l (pt x) = false /\ (exists n, In n l /\ cltb (pt x) (uc (nkey n)) = false) /\ exists m, In m l /\ cltb (pt x) (lc (nkey m)) = true).
Proof.
  intros S x. induction l as [|n l IH].
  { cbn. split; [discriminate|]. intros (_ & (? & [] & _) & _). }
  destruct l as [|m l].
  { cbn [pairs map]. split; [discriminate|]. intros (_ & (p & [<-|[]] & H1) & (q & [<-|[]] & H2)). destruct S as (N & _). unfold Seg.ne in N. exfalso. cord. }
  destruct S as (Nn & F & S). specialize (IH S). 
  change (exr (between X k (nkey n) (nkey m) :: map (fun '(p, n0) => between X k (nkey p) (nkey n0)) (pairs (m :: l))) (pt x) = true <->
     inr k (nkey n) (pt x) || Rb k (m :: l) (pt x) = false /\ (exists n0, In n0 (n :: m :: l) /\ cltb (pt x) (uc (nkey n0)) = false) /\ exists m0, In m0 (n :: m :: l) /\ cltb (pt x) (lc (nkey m0)) = true).
  assert (U : exr (between X k (nkey n) (nkey m) :: map (fun '(p, n0) => between X k (nkey p) (nkey n0)) (pairs (m :: l))) (pt x) =
     inr k (between X k (nkey n) (nkey m)) (pt x) || exr (map (fun '(p, n0) => between X k (nkey p) (nkey n0)) (pairs (m :: l))) (pt x)) by reflexivity.
  rewrite U. clear U. rewrite orb_true_iff, IH. clear IH.
  assert (Fm : cltb (lc (nkey m)) (uc (nkey n)) = false) by (inversion F; auto). pose proof S as (Nm & _).
  rewrite between_at by auto. rewrite Forall_forall in F. rewrite orb_false_iff, andb_true_iff, negb_true_iff. 
  assert (SF := fun q Hq => srt_first X k HX m l q S Hq). unfold Seg.ne in Nn, Nm. split.
  - intros [[H1 H2]|(H1 & (p & Hp & H2) & (q & Hq & H3))].
    + conjs.
      * unfold inr. cord.
      * destruct (Rb k (m :: l) (pt x)) eqn:E; auto. exfalso. apply Rb_iff in E. destruct E as (q & Hq & E). specialize (SF q Hq). unfold inr in E. cord.
      * exists n. cbn. auto.
      * exists m. cbn. auto.
    + pose proof (SF p Hp). pose proof (srt_nes X k _ S) as NS. unfold nes in NS. rewrite Forall_forall in NS. pose proof (NS p Hp) as Np. unfold Seg.ne in Np.
      conjs; auto.
      * unfold inr. cord.
      * exists p. split; auto. right; auto.
      * exists q. split; auto. right; auto.
  - intros [[H1 H1'] [(p & Hp & H2) (q & Hq & H3)]].
    assert (Hn : cltb (pt x) (uc (nkey n)) = false).
    { destruct Hp as [<-|Hp]; auto. pose proof (F p Hp). cbn beta in H. pose proof (srt_nes X k _ S) as NS. unfold nes in NS. rewrite Forall_forall in NS. pose proof (NS p Hp) as Np. unfold Seg.ne in Np. cord. }
    destruct (cltb (pt x) (lc (nkey m))) eqn:E; auto. right. conjs; auto.
    + exists m. split. { left; auto. } cbn [Rb] in H1'. apply orb_false_iff in H1'. destruct H1' as [H1' _]. unfold inr in H1'. cord.
    + exists q. split; auto. destruct Hq as [<-|Hq]; auto. exfalso. cord.
Qed.

Theorem s_between_at st (o : tree) : inv k o -> exists t', s_between X k st o = Ok t' /\ sinv st t' /\
  forall x, Rb k (nodes t') (pt x) = true <->
    Rb k (nodes o) (pt x) = false /\ (exists y, Rb k (nodes o) (pt y) = true /\ lt y x) /\ (exists z, Rb k (nodes o) (pt z) = true /\ lt x z).
Proof.
  intros [W S]. unfold s_between.
  destruct (s_adds_at X k HX st (map (fun '(p, n) => between X k (nkey p) (nkey n)) (pairs (nodes o))) t_empty None (sinv_empty X k st) Logic.I) as (t' & h' & E & I' & _ & [A' _]).
  exists t'. rewrite <- foldM_map in E.
  match goal with |- (bind ?a _ = _) /\ _ => replace a with (Ok (t', h')) end.
  2:{ symmetry. etransitivity; [|exact E]. apply foldM_ext. intros [s h] [p n]. auto. }
  cbn [bind]. conjs; auto. intros x. destruct (A' (pt x)) as [-> _]. cbn. rewrite between_pairs by auto.
  pose proof (srt_nes X k _ S) as NS. unfold nes in NS. rewrite Forall_forall in NS.
  split; intros (H1 & H2 & H3); conjs; auto.
  - destruct H2 as (n & Hn & H2). destruct (ne_elem X k HX _ (NS n Hn)) as (y & Hy). exists y. split. { eapply in_Rb; eauto. }
    apply (proj2 (lt_pt X _ _)). apply inr_mem in Hy; auto. unfold inr in Hy. cord.
  - destruct H3 as (n & Hn & H3). destruct (ne_elem X k HX _ (NS n Hn)) as (y & Hy). exists y. split. { eapply in_Rb; eauto. }
    apply (proj2 (lt_pt X _ _)). apply inr_mem in Hy; auto. unfold inr in Hy. cord.
  - destruct H2 as (y & Hy & L). apply Rb_iff in Hy. destruct Hy as (n & Hn & Hy). exists n. split; auto.
    assert (G : inr k (nkey n) (pt x) = false). { destruct (inr k (nkey n) (pt x)) eqn:E'; auto. assert (Rb k (nodes o) (pt x) = true) by (apply Rb_iff; eauto). congruence. }
    rewrite (lt_pt X) in L. unfold inr in *. cord.
  - destruct H3 as (y & Hy & L). apply Rb_iff in Hy. destruct Hy as (n & Hn & Hy). exists n. split; auto.
    assert (G : inr k (nkey n) (pt x) = false). { destruct (inr k (nkey n) (pt x)) eqn:E'; auto. assert (Rb k (nodes o) (pt x) = true) by (apply Rb_iff; eauto). congruence. }
    rewrite (lt_pt X) in L. unfold inr in *. cord.
Qed.

(** the copying assignments keep the stored intervals; a joining target has the joined ones *)
Lemma s_copy_at (l : list node) : forall t, inv k t -> srt k (nodes t ++ l) ->
  exists t', foldM (fun t (n : node) => ' (t, _, _) <- insert X k t (nkey n) tt ;; Ok t) t l = Ok t' /\ inv k t' /\
    map nkey (nodes t') = map nkey (nodes t ++ l).
Proof.
  induction l as [|n l IH]; intros t Hi S; cbn [foldM].
  - exists t. rewrite app_nil_r. auto.
  - pose proof S as S'. rewrite (srt_mid X k HX) in S'. destruct S' as (S1 & S2 & Nn & B & A).
    rewrite (insert_new X k HX t (nodes t) [] (nkey n) tt) by (auto; try apply Hi; try constructor; rewrite app_nil_r; auto). cbn [bind].
    edestruct IH as (t' & -> & I' & K').
    + apply (inv_new X k HX t (nodes t) [] (nkey n) tt); auto. { rewrite app_nil_r; auto. } constructor.
    + cbn [nodes]. rewrite <- app_assoc. cbn [app]. apply (srt_mid X k HX). cbn [nkey]. auto.
    + exists t'. conjs; auto. rewrite K'. cbn [nodes]. rewrite !map_app. cbn. rewrite <- app_assoc. auto.
Qed.
Theorem s_assign_at st (src : tree) : inv k src -> exists t', s_assign X k st src = Ok t' /\ sinv st t' /\
  match st with
  | Joining => addsP Joining (map nkey (nodes src)) [] (nodes t')
  | _ => map nkey (nodes t') = map nkey (nodes src)
  end.
Proof.
  intros Hi. unfold s_assign.
  assert (C : exists t', foldM (fun t (n : node) => ' (t, _, _) <- insert X k t (nkey n) tt ;; Ok t) t_empty (nodes src) = Ok t' /\ inv k t' /\
     map nkey (nodes t') = map nkey (nodes src)).
  { destruct (s_copy_at (nodes src) t_empty) as (t' & E & I' & K); auto. { apply inv_empty. } { apply Hi. } exists t'. auto. }
  destruct st.
  - destruct (s_add_set_at X k HX Joining t_empty src (sinv_empty X k Joining)) as (t' & E & I' & A'). exists t'. auto.
  - destruct C as (t' & E & I' & K). exists t'. conjs; auto. split; auto.
  - destruct C as (t' & E & I' & K). exists t'. conjs; auto. split; auto.
Qed.

End SetQuery4.

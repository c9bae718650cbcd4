(** Whole-set operations on interval sets (proofs). *)
From Verif Require Export SetOps.

Lemma foldM_app {A B} (f : A -> B -> res A) l r a :
  foldM f a (l ++ r) = (a' <- foldM f a l ;; foldM f a' r).
Proof. revert a. induction l; cbn; intros; auto. destruct (f a0 a); cbn; auto. Qed.
Lemma foldM_map {A B C} (f : A -> C -> res A) (g : B -> C) l a :
  foldM (fun a b => f a (g b)) a l = foldM f a (map g l).
Proof. revert a. induction l; cbn; intros; auto. destruct (f a0 (g a)); cbn; auto. Qed.
Lemma foldM_ext {A B} (f g : A -> B -> res A) l a : (forall a b, f a b = g a b) -> foldM f a l = foldM g a l.
Proof. intros H. revert a. induction l; cbn; intros; auto. rewrite H. destruct (g a0 a); cbn; auto. Qed.

Section SetWhole.
Context (X : dom) (k : kind).
Context (HX : dom_ok X k).
Notation I := (itv (D X)).
Notation node := (node (D X) unit).
Notation tree := (tree (D X) unit).
Notation lc := (lc X k).
Notation uc := (uc X k).
Notation cltb := (cltb X).
Notation ceqb := (ceqb X).
Notation cut := (cut X).
Notation ne := (@ne X k).
Notation hd_it := (@hd_it X unit).
Notation last_it := (@last_it X unit).
Notation sinv := (sinv X k).
Notation added := (added X k).
Notation subbed := (subbed X k).
Ltac cord := cord_ X k HX.
Ltac lst := rewrite <- ?app_assoc; cbn [app]; congruence || auto.
Ltac bnorm := cbn [Rb Lb intr app nkey]; rewrite ?Rb_app, ?Lb_app, ?intr_app; cbn [Rb Lb intr app nkey].
Ltac bfacts c :=
  repeat match goal with
  | H : below k ?l ?d |- _ => destruct (below_b X k HX l d c H) as (? & ? & ?); clear H
  | H : above k ?l ?d |- _ => destruct (above_b X k HX l d c H) as (? & ? & ?); clear H
  end.

(* ------------------------------------------------------------ a list of intervals *)
Definition exr (l : list I) c := existsb (fun a => inr k a c) l.
Definition exl (l : list I) c := existsb (fun a => inl k a c) l.
Definition exi (l : list I) c := existsb (fun a => ini k a c) l.
Definition exb (l : list I) c := existsb (fun a => bordi k a c) l.

Lemma exr_keys {V} (l : list (Tree.node (D X) V)) c : exr (map nkey l) c = Rb k l c.
Proof. induction l; cbn; auto. rewrite <- IHl. auto. Qed.
Lemma exl_keys {V} (l : list (Tree.node (D X) V)) c : exl (map nkey l) c = Lb k l c.
Proof. induction l; cbn; auto. rewrite <- IHl. auto. Qed.
Lemma exi_keys {V} (l : list (Tree.node (D X) V)) c : exi (map nkey l) c = intr k l c.
Proof. induction l; cbn; auto. rewrite <- IHl. auto. Qed.
Lemma exb_keys {V} (l : list (Tree.node (D X) V)) c : srt k l -> exb (map nkey l) c = bord k l c.
Proof.
  induction l as [|n l IH]; cbn [map]; auto. intros S.
  change (n :: l) with ([n] ++ l) in S. pose proof (srt_app_b X k HX _ _ c S) as (U1 & U2 & U3).
  rewrite srt_app in S. destruct S as (S1 & S & _).
  unfold exb in *. cbn [existsb]. rewrite IH by auto. unfold bord, bordi. cbn [Rb Lb intr] in *.
  rewrite !orb_false_r in *.
  pose proof (intr_b X k HX l c). pose proof (ini_b X k HX (nkey n) c).
  clear IH S1 S. revert U1 U2 U3 H H0. generalize (Rb k l c) (Lb k l c) (intr k l c) (inr k (nkey n) c) (inl k (nkey n) c) (ini k (nkey n) c).
  intros. bcases.
Qed.

Definition addsP (st : style) (l : list I) (M P : list node) : Prop :=
  (forall c, Rb k P c = Rb k M c || exr l c /\ Lb k P c = Lb k M c || exl l c) /\
  match st with
  | Joining => True
  | Separating => forall c, intr k P c = intr k M c || exi l c
  | Splitting => forall c, intr k P c = Lb k P c && Rb k P c && negb (bord k M c) && negb (exb l c)
  end.

Lemma addsP_nil st M : addsP st [] M M.
Proof.
  split. { intros c. cbn. rewrite !orb_false_r. auto. }
  destruct st; auto; intros c; cbn. { rewrite orb_false_r. auto. }
  pose proof (intr_b X k HX M c) as H. unfold bord. revert H.
  generalize (Rb k M c) (Lb k M c) (intr k M c). intros. bcases.
Qed.
Lemma exi_b l c : exi l c = true -> exr l c = true /\ exl l c = true.
Proof.
  induction l; cbn; [discriminate|]. rewrite !orb_true_iff. intros [H|H].
  - apply (ini_b X k HX) in H. tauto.
  - apply IHl in H. unfold exr, exl in H. tauto.
Qed.
Lemma exb_b l c : exb l c = false -> exr l c = exl l c.
Proof.
  induction l; cbn; auto. rewrite !orb_false_iff. intros [H1 H2]. unfold exb, exr, exl in *. rewrite (IHl H2).
  unfold bordi in H1. pose proof (ini_b X k HX a c) as H. revert H1 H.
  generalize (inr k a c) (inl k a c) (ini k a c). intros. bcases.
Qed.
Lemma exb_b2 l c : exb l c = true -> exr l c = true \/ exl l c = true.
Proof.
  induction l; cbn; [discriminate|]. rewrite !orb_true_iff. unfold exb, exr, exl in *. intros [H|H]; [|tauto].
  unfold bordi in H. revert H. generalize (inr k a c) (inl k a c) (ini k a c). intros [] [] []; cbn; auto.
Qed.
Lemma exr_app l r c : exr (l ++ r) c = exr l c || exr r c. Proof. apply existsb_app. Qed.
Lemma exl_app l r c : exl (l ++ r) c = exl l c || exl r c. Proof. apply existsb_app. Qed.
Lemma exi_app l r c : exi (l ++ r) c = exi l c || exi r c. Proof. apply existsb_app. Qed.
Lemma exb_app l r c : exb (l ++ r) c = exb l c || exb r c. Proof. apply existsb_app. Qed.

Lemma addsP_app st l1 l2 M P1 P : addsP st l1 M P1 -> addsP st l2 P1 P -> addsP st (l1 ++ l2) M P.
Proof.
  intros [H1 S1] [H2 S2]. split.
  - intros c. destruct (H1 c), (H2 c). rewrite exr_app, exl_app, !orb_assoc. split; congruence.
  - destruct st; auto; intros c.
    + rewrite exi_app, S2, S1, orb_assoc. auto.
    + rewrite exb_app, S2. destruct (H2 c) as [-> ->]. specialize (S1 c). destruct (H1 c) as [E1 E2].
      pose proof (exb_b l1 c) as B1. pose proof (exb_b2 l1 c) as B2. pose proof (intr_b X k HX M c) as B3.
      unfold bord in *. rewrite S1, E1, E2. revert B1 B2 B3. clear.
      generalize (Rb k M c) (Lb k M c) (intr k M c) (exr l1 c) (exl l1 c) (exb l1 c) (exb l2 c) (exr l2 c) (exl l2 c).
      intros. destruct b4; bprune; [destruct B2|]; bcases.
Qed.
Lemma added_adds st a M P : added st a M P -> addsP st [a] M P.
Proof.
  intros [H S]. split.
  - intros c. cbn. rewrite !orb_false_r. apply H.
  - destruct st; auto; intros c; cbn; rewrite !orb_false_r; apply S.
Qed.
Lemma adds_empty st a M : is_empty X k a = true -> addsP st [a] M M.
Proof.
  intros E. apply (not_ne X k HX) in E. pose proof (addsP_nil st M) as [H1 H2]. split.
  - intros c. destruct (H1 c). cbn in *. rewrite orb_false_r in *. unfold inr, inl. split; cord.
  - assert (Z : forall c, bordi k a c = false /\ ini k a c = false) by (intros c; unfold bordi, inl, inr, ini; split; cord).
    destruct st; auto; intros c; specialize (H2 c); destruct (Z c) as [Z1 Z2]; cbn in *; rewrite ?Z1, ?Z2; auto.
Qed.

Lemma s_adds_at st l : forall t h, sinv st t -> isit t h ->
  exists t' h', foldM (fun '(t, h) a => s_add_hint X k st t h a) (t, h) l = Ok (t', h') /\
    sinv st t' /\ isit t' h' /\ addsP st l (nodes t) (nodes t').
Proof.
  induction l as [|a l IH]; intros t h Hi Hh; cbn [foldM].
  - exists t, h. conjs; auto. apply addsP_nil.
  - destruct (is_empty X k a) eqn:Ea.
    + unfold s_add_hint at 1. rewrite Ea. cbn [bind].
      destruct (IH t h Hi Hh) as (t' & h' & -> & I' & V' & A'). exists t', h'. conjs; auto.
      apply (addsP_app st [a] l _ (nodes t)); auto. apply adds_empty; auto.
    + apply (ne_iff X k HX) in Ea.
      destruct (s_add_hint_at X k HX st t h a Hi Hh Ea) as (t1 & h1 & -> & I1 & V1 & A1). cbn [bind].
      destruct (IH t1 h1 I1 V1) as (t' & h' & -> & I' & V' & A'). exists t', h'. conjs; auto.
      apply (addsP_app st [a] l _ (nodes t1)); auto. apply added_adds; auto.
Qed.

(* ------------------------------------------------------------ ranges *)
Lemma range_at {V} (t : Tree.tree (D X) V) L M R : wf t -> nodes t = L ++ M ++ R ->
  range X t (Tree.hd_it (M ++ R)) (Tree.hd_it R) = Ok M.
Proof.
  intros W E. unfold range. destruct (M ++ R) as [|n r] eqn:EM.
  - apply app_eq_nil in EM. destruct EM; subst. auto.
  - cbn [Tree.hd_it]. rewrite (split_at_wf X t L n r) by congruence.
    destruct R as [|m R]; cbn [Tree.hd_it]. { rewrite app_nil_r in EM. congruence. }
    rewrite <- EM. rewrite split_at_spec; auto.
    destruct W as [W _]. rewrite E, <- EM, ids_app in W. apply NoDup_app_remove_l in W.
    rewrite ids_app, ids_cons in W. apply NoDup_remove_2 in W. rewrite in_app_iff in W. tauto.
Qed.

Definition befor {V W} (L : list (Tree.node (D X) V)) (l : list (Tree.node (D X) W)) : Prop :=
  forall n m, In n L -> In m l -> cltb (lc (nkey m)) (uc (nkey n)) = false.

Lemma befor_b {V W} (L : list (Tree.node (D X) V)) (l : list (Tree.node (D X) W)) c : befor L l -> 
  nes k L -> nes k l ->
  (Rb k L c = true -> Rb k l c = false /\ intr k l c = false) /\
  (Lb k L c = true -> Lb k l c = false /\ intr k l c = false) /\
  (intr k L c = true -> Rb k l c = false /\ Lb k l c = false).
Proof.
  intros H NL Nl. unfold nes in *. rewrite Forall_forall in *.
  assert (A : forall b : bool, (b = true -> False) -> b = false) by (intros []; tauto).
  conjs; intros H1.
  - apply Rb_iff in H1. destruct H1 as (n & Hn & H1). split; apply A; intros H2.
    + apply Rb_iff in H2. destruct H2 as (m & Hm & H2). specialize (H n m Hn Hm). unfold inr in *. cord.
    + apply intr_true in H2. destruct H2 as (m & Hm & H2). specialize (H n m Hn Hm). unfold inr, ini in *. cord.
  - apply Lb_iff in H1. destruct H1 as (n & Hn & H1). split; apply A; intros H2.
    + apply Lb_iff in H2. destruct H2 as (m & Hm & H2). specialize (H n m Hn Hm).
      pose proof (NL n Hn). pose proof (Nl m Hm). unfold inl, Seg.ne in *. cord.
    + apply intr_true in H2. destruct H2 as (m & Hm & H2). specialize (H n m Hn Hm).
      pose proof (NL n Hn). pose proof (Nl m Hm). unfold inl, ini, Seg.ne in *. cord.
  - apply intr_true in H1. destruct H1 as (n & Hn & H1). split; apply A; intros H2.
    + apply Rb_iff in H2. destruct H2 as (m & Hm & H2). specialize (H n m Hn Hm).
      pose proof (NL n Hn). pose proof (Nl m Hm). unfold ini, inr, Seg.ne in *. cord.
    + apply Lb_iff in H2. destruct H2 as (m & Hm & H2). specialize (H n m Hn Hm).
      pose proof (NL n Hn). pose proof (Nl m Hm). unfold inl, ini, Seg.ne in *. cord.
Qed.

Lemma srt_first {V} (n : Tree.node (D X) V) l m : srt k (n :: l) -> In m (n :: l) -> cltb (lc (nkey m)) (lc (nkey n)) = false.
Proof.
  intros (N & F & S) [<-|H]; [cord|]. rewrite Forall_forall in F. specialize (F m H). unfold Seg.ne in *. cord.
Qed.
Lemma srt_last {V} (n : Tree.node (D X) V) l m : srt k (l ++ [n]) -> In m (l ++ [n]) -> cltb (uc (nkey n)) (uc (nkey m)) = false.
Proof.
  intros S H. apply (srt_mid X k HX) in S. destruct S as (_ & _ & N & B & _).
  apply in_app_iff in H. destruct H as [H|[<-|[]]]; [|cord].
  unfold below in B. rewrite Forall_forall in B. specialize (B m H). unfold Seg.ne in *. cord.
Qed.

(** split a sorted list by two cuts *)
Lemma cut_split {V} (l : list (Tree.node (D X) V)) c d : srt k l -> cltb d c = false ->
  exists L M R, l = L ++ M ++ R /\ below k L c /\ above k R d /\
    Forall (fun n => cltb c (uc (nkey n)) = true /\ cltb (lc (nkey n)) d = true) M.
Proof.
  induction l as [|n l IH]; intros S Hcd.
  - exists [], [], []. conjs; auto; constructor.
  - destruct S as (N & F & S). destruct (IH S Hcd) as (L & M & R & -> & HL & HR & HM).
    change (above k (L ++ M ++ R) (uc (nkey n))) in F.
    destruct (cltb c (uc (nkey n))) eqn:E1.
    + rewrite !above_app in F. destruct F as (F1 & F2 & F3).
      assert (L = []).
      { destruct L as [|q L]; auto. exfalso. rewrite below_cons in HL. rewrite above_cons in F1.
        destruct S as (Nq & _). unfold Seg.ne in *. cord. }
      subst L. destruct (cltb (lc (nkey n)) d) eqn:E2.
      * exists [], (n :: M), R. conjs; auto.
      * exists [], [], (n :: M ++ R). conjs; auto. rewrite above_cons, above_app. conjs; auto.
        apply (above_ge X k HX _ _ _ F2). unfold Seg.ne in *. cord.
    + exists (n :: L), M, R. conjs; auto. rewrite below_cons. auto.
Qed.

Lemma common_range_at {V W} (x1 : Tree.tree (D X) V) (x2 : Tree.tree (D X) W) : inv k x1 -> inv k x2 ->
  exists L M R r, common_range X k x1 x2 = Ok r /\
    nodes x1 = L ++ M ++ R /\ befor L (nodes x2) /\ befor (nodes x2) R /\
    ((r = None /\ M = []) \/ (r = Some (Tree.hd_it (M ++ R), Tree.hd_it R) /\ nodes x2 <> [])).
Proof.
  intros [W1 S1] [W2 S2]. unfold common_range.
  destruct (nodes x1) as [|f1 l1] eqn:E1.
  { exists [], [], [], None. conjs; auto; intros ? ? ? ?; cbn in *; tauto. }
  destruct (nodes x2) as [|f2 l2] eqn:E2.
  { exists (f1 :: l1), [], [], None. rewrite !app_nil_r. conjs; auto; intros ? ? ? []. }
  destruct (exists_last (l := f1 :: l1) ltac:(discriminate)) as (q1 & e1 & Q1).
  destruct (exists_last (l := f2 :: l2) ltac:(discriminate)) as (q2 & e2 & Q2).
  unfold end_. change (@None nat) with (@Tree.hd_it X V []) at 1.
  rewrite (decr_hd X x1 q1 e1 []) by (auto; congruence). cbn [bind].
  change (@None nat) with (@Tree.hd_it X W []) at 1.
  rewrite (decr_hd X x2 q2 e2 []) by (auto; congruence). cbn [bind].
  rewrite (key_at X x1 q1 e1 []) by (auto; congruence). cbn [bind].
  unfold begin_. rewrite E1, E2. cbn [Tree.hd_it].
  rewrite (key_at X x2 [] f2 l2) by (auto; congruence). cbn [bind].
  assert (N1 : forall n, In n (f1 :: l1) -> ne (nkey n)).
  { apply srt_nes in S1. unfold nes in S1. rewrite Forall_forall in S1. auto. }
  assert (N2 : forall n, In n (f2 :: l2) -> ne (nkey n)).
  { apply srt_nes in S2. unfold nes in S2. rewrite Forall_forall in S2. auto. }
  assert (Ne1 : ne (nkey e1)) by (apply N1; rewrite Q1, in_app_iff; cbn; auto).
  assert (Ne2 : ne (nkey e2)) by (apply N2; rewrite Q2, in_app_iff; cbn; auto).
  assert (Nf1 : ne (nkey f1)) by (apply N1; cbn; auto).
  assert (Nf2 : ne (nkey f2)) by (apply N2; cbn; auto).
  unfold key_less. rewrite !(ne_e X k HX) by auto. cbn [orb bind].
  rewrite (less_cut X k HX) by auto.
  assert (LB1 : forall m, In m (f1 :: l1) -> cltb (uc (nkey e1)) (uc (nkey m)) = false).
  { intros m Hm. rewrite Q1 in S1, Hm. eapply srt_last; eauto. }
  assert (LB2 : forall m, In m (f2 :: l2) -> cltb (uc (nkey e2)) (uc (nkey m)) = false).
  { intros m Hm. rewrite Q2 in S2, Hm. eapply srt_last; eauto. }
  destruct (negb (cltb (lc (nkey f2)) (uc (nkey e1)))) eqn:C1.
  { exists (f1 :: l1), [], [], None. rewrite !app_nil_r. conjs; auto; [|intros ? ? ? []].
    intros n m Hn Hm. specialize (LB1 n Hn). pose proof (srt_first f2 l2 m S2 Hm). cord. }
  rewrite (key_at X x2 q2 e2 []) by (auto; congruence). cbn [bind].
  rewrite (key_at X x1 [] f1 l1) by (auto; congruence). cbn [bind].
  rewrite !(ne_e X k HX) by auto. cbn [orb bind].
  rewrite (less_cut X k HX) by auto.
  destruct (negb (cltb (lc (nkey f1)) (uc (nkey e2)))) eqn:C2.
  { exists [], [], (f1 :: l1), None. conjs; auto; [intros ? ? []|].
    intros n m Hn Hm. specialize (LB2 n Hn). pose proof (srt_first f1 l1 m S1 Hm). cord. }
  assert (Hfe : cltb (uc (nkey e2)) (lc (nkey f2)) = false).
  { pose proof (LB2 f2 (or_introl eq_refl)). unfold Seg.ne in *. cord. }
  destruct (cut_split (f1 :: l1) (lc (nkey f2)) (uc (nkey e2)) S1 Hfe) as (L & M & R & E & BL & AR & HM).
  assert (S1' : srt k (nodes x1)) by congruence.
  rewrite (lower_bound_at X k HX x1 L (M ++ R)); auto; [|congruence|].
  2:{ destruct M as [|m M]; cbn; [|inversion HM; tauto]. destruct R as [|r R]; cbn; auto.
      rewrite above_cons in AR. destruct AR as [AR _].
      assert (ne (nkey r)) by (apply N1; rewrite E, in_app_iff; cbn; auto). 
      pose proof (LB2 f2 (or_introl eq_refl)). unfold Seg.ne in *. cord. }
  cbn [bind].
  assert (UB : upper_bound X k x1 (nkey e2) = Ok (Tree.hd_it R)).
  { unfold upper_bound. rewrite (look_ok_ok X k HX) by auto. cbn [bind]. rewrite E1, E.
    rewrite app_assoc. rewrite (split_ub_at X k HX); auto.
    - unfold nes. rewrite Forall_forall. intros n Hn. apply N1. rewrite E, app_assoc, in_app_iff. auto.
    - unfold nes. rewrite Forall_forall. intros n Hn. apply N1. rewrite E, app_assoc, in_app_iff. auto.
    - rewrite Forall_app. split.
      + unfold below in BL. rewrite Forall_forall in *. intros n Hn. specialize (BL n Hn).
        assert (ne (nkey n)) by (apply N1; rewrite E, in_app_iff; auto).
        pose proof (LB2 f2 (or_introl eq_refl)). unfold Seg.ne in *. cord.
      + eapply Forall_impl; [|apply HM]. intros n []; auto. }
  rewrite UB. cbn [bind]. exists L, M, R, (Some (Tree.hd_it (M ++ R), Tree.hd_it R)). conjs; auto.
  - unfold below in BL. rewrite Forall_forall in BL. intros n m Hn Hm. specialize (BL n Hn).
    pose proof (srt_first f2 l2 m S2 Hm). cord.
  - unfold above in AR. rewrite Forall_forall in AR. intros n m Hn Hm. specialize (AR m Hm). specialize (LB2 n Hn). cord.
  - right. split; auto. discriminate.
Qed.

Lemma equal_range_at {V} (t : Tree.tree (D X) V) L M R a : srt k (nodes t) -> ne a -> nodes t = L ++ M ++ R ->
  below k L (lc a) -> Forall (over k a) M -> above k R (uc a) ->
  equal_range X k t a = Ok (Tree.hd_it (M ++ R), Tree.hd_it R).
Proof.
  intros S Na E BL OM AR. unfold equal_range. rewrite (lower_bound_at X k HX t L (M ++ R)); auto.
  2:{ apply (overl_MR X k HX); auto. rewrite E in S. apply (srt_app X k) in S. tauto. }
  cbn [bind]. rewrite (upper_bound_at X k HX t L M R) by auto. auto.
Qed.

Lemma srt_parts {V} (L M R : list (Tree.node (D X) V)) : srt k (L ++ M ++ R) -> srt k L /\ srt k M /\ srt k R.
Proof. rewrite !srt_app. tauto. Qed.

(* ------------------------------------------------------------ add, insert, assign *)
Theorem s_add_set_at st t o : sinv st t ->
  exists t', s_add_set X k st t o = Ok t' /\ sinv st t' /\ addsP st (map nkey (nodes o)) (nodes t) (nodes t').
Proof.
  intros Hi. unfold s_add_set.
  destruct (s_adds_at st (map nkey (nodes o)) t None Hi Logic.I) as (t' & h' & E & I' & _ & A').
  rewrite <- foldM_map in E.
  replace (foldM _ (t, end_ t) (nodes o)) with (@Ok (tree * iter) (t', h')).
  - cbn. exists t'. auto.
  - rewrite <- E. apply foldM_ext. intros [] ?. auto.
Qed.

Theorem s_insert_list_at st (l : list node) : forall t, sinv st t ->
  exists t', foldM (fun t n => ' (t, _) <- s_add_hint X k st t None (nkey n) ;; Ok t) t l = Ok t' /\ sinv st t' /\
    addsP st (map nkey l) (nodes t) (nodes t').
Proof.
  induction l as [|n l IH]; intros t Hi; cbn [foldM map].
  - exists t. conjs; auto. apply addsP_nil.
  - destruct (s_adds_at st [nkey n] t None Hi Logic.I) as (t1 & h1 & E & I1 & _ & A1). cbn [foldM] in E.
    destruct (s_add_hint X k st t None (nkey n)) as [[t2 h2]|]; cbn [bind] in *; [|discriminate].
    inversion E; subst. destruct (IH t1 I1) as (t' & -> & I' & A'). exists t'. conjs; auto.
    change (nkey n :: map nkey l) with ([nkey n] ++ map nkey l). eapply addsP_app; eauto.
Qed.
Theorem s_insert_set_at st t o : sinv st t ->
  exists t', s_insert_set X k st t o = Ok t' /\ sinv st t' /\ addsP st (map nkey (nodes o)) (nodes t) (nodes t').
Proof. apply s_insert_list_at. Qed.

Lemma sinv_empty st : sinv st t_empty.
Proof. split. { apply inv_empty. } destruct st; auto. intros ? ? []. Qed.

(* ------------------------------------------------------------ subtract *)
Definition subsP (l : list I) (M P : list node) : Prop := forall c,
  Rb k P c = Rb k M c && negb (exr l c) /\ Lb k P c = Lb k M c && negb (exl l c) /\
  intr k P c = intr k M c && negb (exl l c || exr l c).

Lemma s_subs_at st l : forall t, sinv st t ->
  exists t', foldM (fun t (n : node) => s_subtract X k t (nkey n)) t l = Ok t' /\ sinv st t' /\
    subsP (map nkey l) (nodes t) (nodes t').
Proof.
  induction l as [|n l IH]; intros t Hi; cbn [foldM map].
  - exists t. conjs; auto. intros c. cbn. rewrite !andb_true_r. auto.
  - assert (H : exists t1, s_subtract X k t (nkey n) = Ok t1 /\ sinv st t1 /\ subbed (nkey n) (nodes t) (nodes t1)).
    { destruct (is_empty X k (nkey n)) eqn:Ea.
      - exists t. conjs; auto. { apply s_subtract_empty; auto. }
        apply (not_ne X k HX) in Ea. intros c.
        assert (inr k (nkey n) c = false) as -> by (unfold inr; cord).
        assert (inl k (nkey n) c = false) as -> by (unfold inl; cord).
        cbn. rewrite !andb_true_r. auto.
      - apply (ne_iff X k HX) in Ea. destruct (s_subtract_at X k HX t (nkey n) (proj1 Hi) Ea) as (t1 & H1 & H2 & H3).
        exists t1. conjs; auto. eapply subbed_sinv; eauto. }
    destruct H as (t1 & -> & I1 & S1). cbn [bind]. destruct (IH t1 I1) as (t' & -> & I' & S').
    exists t'. conjs; auto. intros c. destruct (S1 c) as (A1 & A2 & A3), (S' c) as (B1 & B2 & B3).
    rewrite B1, B2, B3, A1, A2, A3. cbn. unfold exr, exl.
    generalize (Rb k (nodes t) c) (Lb k (nodes t) c) (intr k (nodes t) c) (inr k (nkey n) c) (inl k (nkey n) c)
      (existsb (fun a => inr k a c) (map nkey l)) (existsb (fun a => inl k a c) (map nkey l)).
    intros. conjs; bcases.
Qed.

Lemma befor_out {V W} (t : list (Tree.node (D X) V)) (L M R : list (Tree.node (D X) W)) c :
  nes k t -> nes k (L ++ M ++ R) -> befor L t -> befor t R ->
  (Rb k t c = true -> Rb k L c = false /\ intr k L c = false /\ Rb k R c = false /\ intr k R c = false) /\
  (Lb k t c = true -> Lb k L c = false /\ intr k L c = false /\ Lb k R c = false /\ intr k R c = false) /\
  (intr k t c = true -> Rb k L c = false /\ Lb k L c = false /\ Rb k R c = false /\ Lb k R c = false).
Proof.
  intros N1 N2 H1 H2. rewrite !nes_app in N2. destruct N2 as (NL & NM & NR).
  destruct (befor_b _ _ c H1 NL N1) as (A1 & A2 & A3). destruct (befor_b _ _ c H2 N1 NR) as (B1 & B2 & B3).
  pose proof (intr_b X k HX t c) as I1.
  revert A1 A2 A3 B1 B2 B3 I1. clear.
  generalize (Rb k t c) (Lb k t c) (intr k t c) (Rb k L c) (Lb k L c) (intr k L c) (Rb k R c) (Lb k R c) (intr k R c).
  intros. conjs; intros ->; conjs; bcases.
Qed.

Theorem s_subtract_set_at st t o : sinv st t -> inv k o ->
  exists t', s_subtract_set X k t o = Ok t' /\ sinv st t' /\ subsP (map nkey (nodes o)) (nodes t) (nodes t').
Proof.
  intros Hi Ho. unfold s_subtract_set.
  assert (Z : nodes o = [] -> subsP (map nkey (nodes o)) (nodes t) (nodes t)).
  { intros -> c. cbn. rewrite !andb_true_r. auto. }
  destruct (nodes o) as [|n0 l0] eqn:Eo. { exists t. auto. }
  rewrite <- Eo in *. clear Z.
  destruct (common_range_at o t Ho (proj1 Hi)) as (L & M & R & r & -> & E & HL & HR & Hr). cbn [bind].
  assert (F : forall c, _) by (intros c; apply (befor_out (nodes t) L M R c); auto;
    [apply srt_nes; apply Hi|rewrite <- E; apply srt_nes; apply Ho]).
  assert (HM : exists t', foldM (fun t (n : node) => s_subtract X k t (nkey n)) t M = Ok t' /\ sinv st t' /\
    subsP (map nkey M) (nodes t) (nodes t')) by (apply s_subs_at; auto).
  assert (G : forall t', subsP (map nkey M) (nodes t) (nodes t') -> subsP (map nkey (nodes o)) (nodes t) (nodes t')).
  { intros t' H c. destruct (H c) as (H1 & H2 & H3). destruct (F c) as (F1 & F2 & F3). rewrite H1, H2, H3.
    rewrite !exr_keys, !exl_keys, E, !Rb_app, !Lb_app. revert F1 F2 F3. clear.
    generalize (Rb k (nodes t) c) (Lb k (nodes t) c) (intr k (nodes t) c) (Rb k L c) (Lb k L c) (intr k L c)
      (Rb k R c) (Lb k R c) (intr k R c) (Rb k M c) (Lb k M c). intros. conjs; bcases. }
  destruct Hr as [[-> ->]|[-> _]].
  - exists t. conjs; auto. apply G. intros c. cbn. rewrite !andb_true_r. auto.
  - rewrite (range_at o L M R (proj1 Ho) E). cbn [bind].
    destruct HM as (t' & -> & I' & S'). exists t'. conjs; auto.
Qed.

(* ------------------------------------------------------------ intersection *)
(** the intervals [ps] are the non-empty intersections of a segment of t with one of o *)
Definition isec (ps : list I) (tR tL tI oR oL oI : cut -> bool) : Prop := forall c,
  exr ps c = tR c && oR c /\ exl ps c = tL c && oL c /\ exi ps c = tI c && oI c /\
  exb ps c = (tR c && oR c || tL c && oL c) && negb (tI c && oI c).

Lemma inter_obs a b c : ne a -> ne b ->
  inr k (inter X k a b) c = inr k a c && inr k b c /\ inl k (inter X k a b) c = inl k a c && inl k b c /\
  ini k (inter X k a b) c = ini k a c && ini k b c.
Proof.
  intros Na Nb. unfold inr, inl, ini. rewrite inter_lc, inter_uc by auto. unfold cmax, cmin.
  conjs; repeat ifg; cord.
Qed.

Lemma isec_seg {V} (M : list (Tree.node (D X) V)) a : srt k M -> ne a ->
  isec (map (fun n => inter X k (nkey n) a) M) (Rb k M) (Lb k M) (intr k M) (inr k a) (inl k a) (ini k a).
Proof.
  intros S Na c. induction M as [|n M IH]; cbn; auto.
  change (n :: M) with ([n] ++ M) in S. pose proof (srt_app_b X k HX _ _ c S) as (U1 & U2 & U3).
  cbn [Rb Lb intr] in U1, U2, U3. rewrite !orb_false_r in *.
  rewrite srt_app in S. destruct S as ((Nn & _) & S & _). destruct (IH S) as (I1 & I2 & I3 & I4).
  unfold exr, exl, exi, exb in *. rewrite I1, I2, I3, I4. unfold bordi.
  destruct (inter_obs (nkey n) a c Nn Na) as (-> & -> & ->).
  pose proof (intr_b X k HX M c). pose proof (ini_b X k HX (nkey n) c). pose proof (ini_b X k HX a c).
  revert U1 U2 U3 H H0 H1. clear. 
  generalize (Rb k M c) (Lb k M c) (intr k M c) (inr k (nkey n) c) (inl k (nkey n) c) (ini k (nkey n) c) (inr k a c) (inl k a c) (ini k a c).
  intros. conjs; bcases.
Qed.

Lemma seg_out {V} (L R : list (Tree.node (D X) V)) a c : ne a -> below k L (lc a) -> above k R (uc a) ->
  (inr k a c = true -> Rb k L c = false /\ Rb k R c = false /\ intr k L c = false /\ intr k R c = false) /\
  (inl k a c = true -> Lb k L c = false /\ Lb k R c = false /\ intr k L c = false /\ intr k R c = false).
Proof.
  intros Na BL AR. split; intros Hc; bfacts c; unfold inr, inl, Seg.ne in *; conjs;
  match goal with H : _ -> ?e = false |- ?e = false => apply H end;
  repeat match goal with H : _ -> _ = false |- _ => clear H end; cord.
Qed.

Lemma isec_frame {V} ps (L M R : list (Tree.node (D X) V)) a : ne a -> below k L (lc a) -> above k R (uc a) ->
  isec ps (Rb k M) (Lb k M) (intr k M) (inr k a) (inl k a) (ini k a) ->
  isec ps (Rb k (L ++ M ++ R)) (Lb k (L ++ M ++ R)) (intr k (L ++ M ++ R)) (inr k a) (inl k a) (ini k a).
Proof.
  intros Na BL AR H c. destruct (H c) as (H1 & H2 & H3 & H4). rewrite H1, H2, H3, H4.
  destruct (seg_out L R a c Na BL AR) as [F1 F2]. pose proof (ini_b X k HX a c) as F3.
  rewrite !Rb_app, !Lb_app, !intr_app. revert F1 F2 F3. clear.
  generalize (Rb k L c) (Lb k L c) (intr k L c) (Rb k R c) (Lb k R c) (intr k R c) (Rb k M c) (Lb k M c) (intr k M c)
     (inr k a c) (inl k a c) (ini k a c). intros. conjs; bcases.
Qed.

Lemma s_add_intersection_seg_at st s t a : sinv st s -> inv k t ->
  exists s' ps, s_add_intersection_seg X k st s t a = Ok s' /\ sinv st s' /\ addsP st ps (nodes s) (nodes s') /\
    isec ps (Rb k (nodes t)) (Lb k (nodes t)) (intr k (nodes t)) (inr k a) (inl k a) (ini k a).
Proof.
  intros Hi Ht. unfold s_add_intersection_seg. destruct (is_empty X k a) eqn:Ea.
  { exists s, []. conjs; auto. { apply addsP_nil. }
    apply (not_ne X k HX) in Ea. intros c. unfold inr, inl, ini.
    assert (negb (cltb c (lc a)) && cltb c (uc a) = false) as -> by cord.
    assert (cltb (lc a) c && negb (cltb (uc a) c) = false) as -> by cord.
    assert (cltb (lc a) c && cltb c (uc a) = false) as -> by cord.
    rewrite !andb_false_r. auto. }
  apply (ne_iff X k HX) in Ea.
  destruct (decomp X k HX a (nodes t) (proj2 Ht) Ea) as (L & M & R & E & BL & OM & AR).
  rewrite (equal_range_at t L M R a); auto; [|apply Ht]. cbn [bind].
  rewrite (iter_eqb_hd X t L M R (proj1 Ht) E).
  assert (SM : srt k M). { destruct Ht as [_ S]. rewrite E in S. apply srt_parts in S. tauto. }
  set (ps := map (fun n => inter X k (nkey n) a) M).
  assert (HI : isec ps (Rb k (nodes t)) (Lb k (nodes t)) (intr k (nodes t)) (inr k a) (inl k a) (ini k a)).
  { rewrite E. apply isec_frame; auto. apply isec_seg; auto. }
  destruct (nil_or_not M) as [->|NM].
  - exists s, ps. conjs; auto. apply addsP_nil.
  - replace (match M with [] => true | _ => false end) with false by (destruct M; congruence).
    rewrite (range_at t L M R (proj1 Ht) E). cbn [bind].
    destruct (s_adds_at st ps s None Hi Logic.I) as (s' & h' & F & I' & _ & A').
    exists s', ps. unfold ps in F. rewrite <- foldM_map in F.
    replace (foldM _ (s, end_ s) M) with (@Ok (tree * iter) (s', h')).
    + cbn. auto.
    + rewrite <- F. apply foldM_ext. intros [] ?. unfold s_add_hint. destruct (is_empty X k _); cbn; auto.
Qed.

Lemma s_add_isecs_at st t : inv k t -> forall l, srt k l -> forall s, sinv st s ->
  exists s' ps, foldM (fun s (n : node) => s_add_intersection_seg X k st s t (nkey n)) s l = Ok s' /\ sinv st s' /\
    addsP st ps (nodes s) (nodes s') /\
    isec ps (Rb k (nodes t)) (Lb k (nodes t)) (intr k (nodes t)) (Rb k l) (Lb k l) (intr k l).
Proof.
  intros Ht. induction l as [|n l IH]; intros Sl s Hs; cbn [foldM].
  - exists s, []. conjs; auto. { apply addsP_nil. } intros c. cbn. rewrite !andb_false_r. auto.
  - destruct (s_add_intersection_seg_at st s t (nkey n) Hs Ht) as (s1 & p1 & -> & I1 & A1 & X1). cbn [bind].
    change (n :: l) with ([n] ++ l) in Sl.
    assert (U := fun c => srt_app_b X k HX _ _ c Sl).
    rewrite srt_app in Sl. destruct Sl as (_ & Sl & _).
    destruct (IH Sl s1 I1) as (s' & p2 & -> & I' & A' & X'). exists s', (p1 ++ p2). conjs; auto.
    { eapply addsP_app; eauto. }
    intros c. destruct (X1 c) as (a1 & a2 & a3 & a4), (X' c) as (b1 & b2 & b3 & b4), (U c) as (U1 & U2 & U3).
    cbn [Rb Lb intr] in *. rewrite !orb_false_r in *.
    rewrite exr_app, exl_app, exi_app, exb_app, a1, a2, a3, a4, b1, b2, b3, b4.
    pose proof (intr_b X k HX l c). pose proof (ini_b X k HX (nkey n) c). pose proof (intr_b X k HX (nodes t) c).
    revert U1 U2 U3 H H0 H1. clear. 
    generalize (Rb k l c) (Lb k l c) (intr k l c) (inr k (nkey n) c) (inl k (nkey n) c) (ini k (nkey n) c)
      (Rb k (nodes t) c) (Lb k (nodes t) c) (intr k (nodes t) c).
    intros. conjs; bcases.
Qed.

Theorem s_add_intersection_at st s t o : sinv st s -> inv k t -> inv k o ->
  exists s' ps, s_add_intersection X k st s t o = Ok s' /\ sinv st s' /\ addsP st ps (nodes s) (nodes s') /\
    isec ps (Rb k (nodes t)) (Lb k (nodes t)) (intr k (nodes t)) (Rb k (nodes o)) (Lb k (nodes o)) (intr k (nodes o)).
Proof.
  intros Hs Ht Ho. unfold s_add_intersection.
  destruct (nodes o) as [|n0 l0] eqn:Eo.
  { exists s, []. conjs; auto. { apply addsP_nil. } intros c. cbn. rewrite !andb_false_r. auto. }
  rewrite <- Eo in *.
  destruct (common_range_at o t Ho Ht) as (L & M & R & r & -> & E & HL & HR & Hr). cbn [bind].
  assert (F : forall c, _) by (intros c; apply (befor_out (nodes t) L M R c); auto;
    [apply srt_nes; apply Ht|rewrite <- E; apply srt_nes; apply Ho]).
  assert (SM : srt k M). { destruct Ho as [_ S]. rewrite E in S. apply srt_parts in S. tauto. }
  assert (G : forall ps, isec ps (Rb k (nodes t)) (Lb k (nodes t)) (intr k (nodes t)) (Rb k M) (Lb k M) (intr k M) ->
    isec ps (Rb k (nodes t)) (Lb k (nodes t)) (intr k (nodes t)) (Rb k (nodes o)) (Lb k (nodes o)) (intr k (nodes o))).
  { intros ps H c. destruct (H c) as (-> & -> & -> & ->), (F c) as (F1 & F2 & F3).
    rewrite E, !Rb_app, !Lb_app, !intr_app. pose proof (intr_b X k HX (nodes t) c) as F4. revert F1 F2 F3 F4. clear.
    generalize (Rb k (nodes t) c) (Lb k (nodes t) c) (intr k (nodes t) c) (Rb k L c) (Lb k L c) (intr k L c)
      (Rb k R c) (Lb k R c) (intr k R c) (Rb k M c) (Lb k M c) (intr k M c). intros. conjs; bcases. }
  destruct Hr as [[-> ->]|[-> _]].
  - exists s, []. conjs; auto. { apply addsP_nil. } apply G. intros c. cbn. rewrite !andb_false_r. auto.
  - rewrite (range_at o L M R (proj1 Ho) E). cbn [bind].
    destruct (s_add_isecs_at st t Ht M SM s Hs) as (s' & ps & -> & I' & A' & X'). exists s', ps. conjs; auto.
Qed.

(** what an intersection of two sets is *)
Definition anded (st : style) (tR tL tI oR oL oI : cut -> bool) (P : list node) : Prop := forall c,
  Rb k P c = tR c && oR c /\ Lb k P c = tL c && oL c /\
  (st <> Joining -> intr k P c = tI c && oI c).

Lemma isec_anded st ps tR tL tI oR oL oI P :
  (forall c, tI c = true -> tR c = true /\ tL c = true) -> (forall c, oI c = true -> oR c = true /\ oL c = true) ->
  isec ps tR tL tI oR oL oI -> addsP st ps [] P -> anded st tR tL tI oR oL oI P.
Proof.
  intros T O H [A S] c. destruct (H c) as (H1 & H2 & H3 & H4). destruct (A c) as [A1 A2]. cbn in A1, A2.
  rewrite A1, A2, H1, H2. conjs; auto. destruct st; intros Hst; [congruence| |].
  - rewrite S, H3. auto.
  - rewrite S, A1, A2, H1, H2, H4. unfold bord. cbn. specialize (T c). specialize (O c). revert T O. clear.
    generalize (tR c) (tL c) (tI c) (oR c) (oL c) (oI c). intros. bcases.
Qed.

Theorem s_and_set_at st t o : inv k t -> inv k o ->
  exists t', s_and_set X k st t o = Ok t' /\ sinv st t' /\
    anded st (Rb k (nodes t)) (Lb k (nodes t)) (intr k (nodes t)) (Rb k (nodes o)) (Lb k (nodes o)) (intr k (nodes o)) (nodes t').
Proof.
  intros Ht Ho. destruct (s_add_intersection_at st t_empty t o (sinv_empty st) Ht Ho) as (t' & ps & H & I' & A' & X').
  exists t'. conjs; auto. eapply isec_anded; eauto; apply intr_b; auto.
Qed.
Theorem s_and_seg_at st t a : inv k t ->
  exists t', s_and_seg X k st t a = Ok t' /\ sinv st t' /\
    anded st (Rb k (nodes t)) (Lb k (nodes t)) (intr k (nodes t)) (inr k a) (inl k a) (ini k a) (nodes t').
Proof.
  intros Ht. destruct (s_add_intersection_seg_at st t_empty t a (sinv_empty st) Ht) as (t' & ps & H & I' & A' & X').
  exists t'. conjs; auto. eapply isec_anded; eauto; [apply intr_b|apply ini_b]; auto.
Qed.

End SetWhole.

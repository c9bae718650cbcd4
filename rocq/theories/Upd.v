(** Region updates: how a step of an algorithm changes the values observed between two
    cuts (proof infrastructure). *)
From Verif Require Export JoinFacts SetFacts.

Section Upd.
Context (X : dom) (k : kind).
Context (HX : dom_ok X k).
Context {V : Type}.
Notation I := (itv (D X)).
Notation node := (node (D X) V).
Notation tree := (tree (D X) V).
Notation lc := (lc X k).
Notation uc := (uc X k).
Notation cltb := (cltb X).
Notation ceqb := (ceqb X).
Notation cut := (cut X).
Notation ne := (@ne X k).
Ltac cord := cord_ X k HX.

Definition some (o : option V) : bool := match o with Some _ => true | None => false end.
(** the values between [d] and [e] are changed by [g], the others are not changed *)
Definition upd (d e : cut) (g : option V -> option V) (l l' : list node) : Prop :=
  (forall c, vr k l' c = if negb (cltb c d) && cltb c e then g (vr k l c) else vr k l c) /\
  (forall c, vl k l' c = if cltb d c && negb (cltb e c) then g (vl k l c) else vl k l c).
(** [c] lies strictly inside a gap *)
Definition nn (l : list node) (c : cut) : bool := negb (some (vl k l c)) && negb (some (vr k l c)).
(** divisions: the borders [d] and [e] divide, nothing else changes except by [g] *)
Definition ndiv (d e : cut) (g : option V -> option V) (l l' : list node) : Prop :=
  forall c, intr k l' c =
    if cltb d c && cltb c e then (intr k l c || nn l c) && some (g (vr k l c))
    else intr k l c && negb (ceqb c d) && negb (ceqb c e).
(** nodes out of reach of a step between [d] and [e]; a joining step also reaches nodes that touch *)
Definition far (sp : bool) (d e : cut) (n : node) : Prop :=
  if sp then cltb d (uc (nkey n)) = false \/ cltb (lc (nkey n)) e = false
  else cltb (uc (nkey n)) d = true \/ cltb e (lc (nkey n)) = true.
(** these nodes are kept as they are *)
Definition kp (sp : bool) (d e : cut) (l l' : list node) : Prop := forall n, In n l -> far sp d e n -> In n l'.
Definition post (sp : bool) d e g l l' : Prop := upd d e g l l' /\ (sp = true -> ndiv d e g l l') /\ kp sp d e l l'.

Lemma kp_refl sp d e l : kp sp d e l l.
Proof. intros n H _. auto. Qed.
Lemma kp_wide sp d e d' e' l l' : cltb d d' = false -> cltb e' e = false -> kp sp d e l l' -> kp sp d' e' l l'.
Proof. intros A B K n Hn F. apply K; auto. unfold far in *. destruct sp, F; ((left; cord) || (right; cord)). Qed.
Lemma kp_step sp d e l l1 l2 : kp sp d e l l1 -> kp sp d e l1 l2 -> kp sp d e l l2.
Proof. intros A B n Hn F. auto. Qed.
Lemma kp_trans sp d e f l l1 l2 : cltb e d = false -> cltb f e = false -> kp sp d e l l1 -> kp sp e f l1 l2 -> kp sp d f l l2.
Proof.
  intros A B K1 K2. apply (kp_step sp d f l l1 l2); [apply (kp_wide sp d e)|apply (kp_wide sp e f)]; auto; cord.
Qed.
Lemma kp_ceq sp d e d' e' l l' : ceqb d d' = true -> ceqb e e' = true -> kp sp d e l l' -> kp sp d' e' l l'.
Proof. intros A B. apply kp_wide; cord. Qed.
Lemma kp_mid sp d e L n Q R : cltb d (uc (nkey n)) = true -> cltb (lc (nkey n)) e = true -> cltb d e = true -> ne (nkey n) -> kp sp d e (L ++ n :: R) (L ++ Q ++ R).
Proof.
  intros A B DE N m Hm F. unfold Seg.ne in N. rewrite in_app_iff in *. rewrite in_app_iff. destruct Hm as [Hm|[<-|Hm]]; auto.
  exfalso. unfold far in F. destruct sp, F; cord.
Qed.
Lemma kp_ins sp d e L Q R : kp sp d e (L ++ R) (L ++ Q ++ R).
Proof. intros m Hm _. rewrite !in_app_iff in *. tauto. Qed.

Lemma upd_obs_l d e g l l1 l' : obs k l l1 -> upd d e g l1 l' -> upd d e g l l'.
Proof. intros [A B] [P Q]. split; intros c; [rewrite P, A|rewrite Q, B]; auto. Qed.
Lemma upd_obs_r d e g l l1 l' : upd d e g l l1 -> obs k l' l1 -> upd d e g l l'.
Proof. intros [P Q] [A B]. split; intros c; [rewrite A, P|rewrite B, Q]; auto. Qed.
Lemma upd_trans d e f g l l1 l2 : cltb e d = false -> cltb f e = false ->
  upd d e g l l1 -> upd e f g l1 l2 -> upd d f g l l2.
Proof.
  intros A B [P Q] [P' Q']. split; intros c; [rewrite P', P|rewrite Q', Q].
  - destruct (cltb c d) eqn:?, (cltb c e) eqn:?, (cltb c f) eqn:?; cbn; auto; cord.
  - destruct (cltb d c) eqn:?, (cltb e c) eqn:?, (cltb f c) eqn:?; cbn; auto; cord.
Qed.
Lemma upd_ceq d e d' e' g l l' : ceqb d d' = true -> ceqb e e' = true -> upd d e g l l' -> upd d' e' g l l'.
Proof.
  intros A B [P Q]. split; intros c; [rewrite P|rewrite Q].
  - replace (cltb c d') with (cltb c d) by cord. replace (cltb c e') with (cltb c e) by cord. auto.
  - replace (cltb d' c) with (cltb d c) by cord. replace (cltb e' c) with (cltb e c) by cord. auto.
Qed.
Lemma upd_ext d e g g' l l' : (forall o, g o = g' o) -> upd d e g l l' -> upd d e g' l l'.
Proof. intros A [P Q]. split; intros c; [rewrite P|rewrite Q]; ifg; auto. Qed.
Lemma upd_nil d e g l : cltb d e = false -> upd d e g l l.
Proof.
  intros A. split; intros c.
  - destruct (cltb c d) eqn:?, (cltb c e) eqn:?; cbn; auto; cord.
  - destruct (cltb d c) eqn:?, (cltb e c) eqn:?; cbn; auto; cord.
Qed.

Lemma post_trans sp d e f g l l1 l2 : cltb d e = true -> cltb e f = true ->
  intr k l e = false -> nn l e = false ->
  post sp d e g l l1 -> post sp e f g l1 l2 -> post sp d f g l l2.
Proof.
  intros A B Ie Ne (U & N & K) (U' & N' & K'). split; [apply (upd_trans d e f g l l1 l2); auto; cord|].
  split; [|apply (kp_trans sp d e f l l1 l2); auto; cord].
  intros E c. specialize (N E). specialize (N' E). rewrite N'. destruct U as [UR UL].
  destruct (ceqb c e) eqn:Ec.
  - replace (cltb e c) with false by cord. replace (cltb d c) with true by cord. replace (cltb c f) with true by cord.
    cbn [andb negb]. rewrite andb_false_r. cbn [andb].
    assert (intr k l c = false /\ nn l c = false) as [-> ->]; auto.
    assert (cut_eq : forall P : cut -> bool, (forall c', ceqb c' e = true -> P c' = P e) -> P c = P e) by (intros; auto).
    split.
    + rewrite <- Ie. apply cut_eq. intros c' H. clear -H HX. induction l; cbn; auto. rewrite IHl. f_equal. unfold ini.
      f_equal; cord.
    + rewrite <- Ne. apply cut_eq. intros c' H. unfold nn. f_equal; f_equal; f_equal; clear -H HX.
      * induction l; cbn; auto. rewrite IHl. unfold inl. replace (cltb (lc (nkey a)) c') with (cltb (lc (nkey a)) e) by cord.
        replace (cltb (uc (nkey a)) c') with (cltb (uc (nkey a)) e) by cord. auto.
      * induction l; cbn; auto. rewrite IHl. unfold inr. replace (cltb c' (lc (nkey a))) with (cltb e (lc (nkey a))) by cord.
        replace (cltb c' (uc (nkey a))) with (cltb e (uc (nkey a))) by cord. auto.
  - destruct (cltb e c) eqn:Ec'.
    + replace (cltb d c) with true by cord. replace (ceqb c f) with (negb (cltb c f) && negb (cltb f c)) by cord.
      unfold nn. rewrite N, UR, UL. replace (cltb d c) with true by cord. replace (cltb c e) with false by cord.
      replace (ceqb c d) with false by cord. rewrite Ec, Ec'. cbn [andb negb]. rewrite !andb_false_r, ?andb_true_r. auto.
    + cbn [andb]. rewrite N. replace (cltb c f) with true by cord. replace (cltb c e) with true by cord.
      replace (ceqb c f) with false by cord. cbn [andb negb]. rewrite !andb_true_r.
      destruct (cltb d c) eqn:?; cbn [andb negb]; rewrite ?Ec; cbn; rewrite ?andb_true_r; auto.
Qed.

Lemma post_ceq sp d e d' e' g l l' : ceqb d d' = true -> ceqb e e' = true -> post sp d e g l l' -> post sp d' e' g l l'.
Proof.
  intros A B (U & N & K). split; [eapply upd_ceq; eauto|]. split; [|eapply kp_ceq; eauto]. intros E c. rewrite (N E c).
  replace (cltb d' c) with (cltb d c) by cord. replace (cltb c e') with (cltb c e) by cord.
  replace (ceqb c d') with (ceqb c d) by cord. replace (ceqb c e') with (ceqb c e) by cord. auto.
Qed.
Lemma post_ext sp d e g g' l l' : (forall o, g o = g' o) -> post sp d e g l l' -> post sp d e g' l l'.
Proof. intros A (U & N & K). split; [eapply upd_ext; eauto|]. split; auto. intros E c. rewrite (N E c). ifg; rewrite ?A; auto. Qed.
Lemma post_obs_r d e g l l1 l' : post false d e g l l1 -> obs k l' l1 -> kp false d e l1 l' -> post false d e g l l'.
Proof. intros (U & _ & K) A K'. split; [eapply upd_obs_r; eauto|]. split; [discriminate|eapply kp_step; eauto]. Qed.
Lemma obs_sym (l r : list node) : obs k l r -> obs k r l.
Proof. intros [A B]. split; intros; auto. Qed.

(** a step that does not change the observed values and, where divisions are tracked,
    not the divisions; nodes away from [d], [e] are kept *)
Definition same (sp : bool) (d e : cut) (l l' : list node) : Prop := obs k l' l /\ (sp = true -> l' = l) /\ kp sp d e l l'.
Lemma same_refl sp d e l : same sp d e l l.
Proof. split; [apply (obs_refl X k)|]. split; auto. apply kp_refl. Qed.
Lemma same_wide sp d e d' e' l l' : cltb d d' = false -> cltb e' e = false -> same sp d e l l' -> same sp d' e' l l'.
Proof. intros A B (P & Q & K). split; auto. split; auto. eapply kp_wide; eauto. Qed.
Lemma post_same sp d e g l l1 l' : post sp d e g l l1 -> same sp d e l1 l' -> post sp d e g l l'.
Proof.
  intros (U & N & K) (A & A' & K'). destruct sp.
  - rewrite (A' eq_refl). split; auto.
  - split; [eapply upd_obs_r; eauto|]. split; [discriminate|eapply kp_step; eauto].
Qed.

(* ------------------------------------------------------------ primitive steps *)
Lemma post_gap sp g L n R : ne (nkey n) -> below k L (lc (nkey n)) -> above k R (uc (nkey n)) ->
  g None = Some (nval n) -> post sp (lc (nkey n)) (uc (nkey n)) g (L ++ R) (L ++ n :: R).
Proof.
  intros N B A G. unfold Seg.ne in N. split; [split|split; [intros _|exact (kp_ins _ _ _ L [n] R)]]; intros c.
  - rewrite !(vr_app X k). cbn [vr]. unfold inr. destruct (_ && _) eqn:E; auto.
    rewrite andb_true_iff, negb_true_iff in E. destruct E.
    rewrite (vr_below X k HX L _ c B), (vr_above X k HX R _ c A) by auto. cbn. auto.
  - rewrite !(vl_app X k). cbn [vl]. unfold inl. destruct (_ && _) eqn:E; auto.
    rewrite andb_true_iff, negb_true_iff in E. destruct E.
    rewrite (vl_below X k HX L _ c B), (vl_above X k HX R _ c A) by auto. cbn. auto.
  - unfold nn. rewrite !(intr_app X k), (vr_app X k), (vl_app X k). cbn [intr]. unfold ini. destruct (_ && _) eqn:E.
    + rewrite andb_true_iff in E. destruct E.
      rewrite (vl_below X k HX L _ c B), (vl_above X k HX R _ c A), (vr_below X k HX L _ c B), (vr_above X k HX R _ c A) by (auto; cord).
      cbn. rewrite G. cbn. rewrite !orb_true_r. auto.
    + cbn [orb]. destruct (ceqb c (lc (nkey n))) eqn:E1; [|destruct (ceqb c (uc (nkey n))) eqn:E2].
      * rewrite (intr_below X k HX L _ c B), (intr_above X k HX R _ c A) by cord. auto.
      * rewrite (intr_below X k HX L _ c B), (intr_above X k HX R _ c A) by cord. auto.
      * cbn. rewrite !andb_true_r. auto.
Qed.

Lemma post_node sp g L n n' R : srt k (L ++ n :: R) -> nkey n' = nkey n ->
  g (Some (nval n)) = Some (nval n') -> post sp (lc (nkey n)) (uc (nkey n)) g (L ++ n :: R) (L ++ n' :: R).
Proof.
  intros S EK G. apply (srt_mid X k HX) in S. destruct S as (SL & SR & N & B & A). pose proof N as N0. unfold Seg.ne in N.
  split; [split|split; [intros _|apply (kp_mid _ _ _ L n [n'] R); auto]]; intros c.
  - rewrite !(vr_app X k). cbn [vr]. rewrite EK. unfold inr. destruct (_ && _) eqn:E; auto.
    rewrite andb_true_iff, negb_true_iff in E. destruct E.
    rewrite (vr_below X k HX L _ c B) by auto. cbn. auto.
  - rewrite !(vl_app X k). cbn [vl]. rewrite EK. unfold inl. destruct (_ && _) eqn:E; auto.
    rewrite andb_true_iff, negb_true_iff in E. destruct E.
    rewrite (vl_below X k HX L _ c B) by auto. cbn. auto.
  - unfold nn. rewrite !(intr_app X k), (vr_app X k), (vl_app X k). cbn [intr vr vl]. rewrite EK. unfold ini, inr, inl. destruct (_ && _) eqn:E.
    + rewrite andb_true_iff in E. destruct E.
      rewrite (vr_below X k HX L _ c B) by (auto; cord).
      replace (cltb c (lc (nkey n))) with false by cord. rewrite H0. cbn. rewrite G. cbn. rewrite !orb_true_r. auto.
    + cbn [orb]. destruct (ceqb c (lc (nkey n))) eqn:E1; [|destruct (ceqb c (uc (nkey n))) eqn:E2].
      * rewrite (intr_below X k HX L _ c B), (intr_above X k HX R _ c A) by cord. auto.
      * rewrite (intr_below X k HX L _ c B), (intr_above X k HX R _ c A) by cord. auto.
      * cbn. rewrite !andb_true_r. auto.
Qed.

Lemma post_erase sp g L n R : srt k (L ++ n :: R) -> g (Some (nval n)) = None ->
  post sp (lc (nkey n)) (uc (nkey n)) g (L ++ n :: R) (L ++ R).
Proof.
  intros S G. apply (srt_mid X k HX) in S. destruct S as (SL & SR & N & B & A). pose proof N as N0. unfold Seg.ne in N.
  split; [split|split; [intros _|apply (kp_mid _ _ _ L n [] R); auto]]; intros c.
  - rewrite !(vr_app X k). cbn [vr]. unfold inr. destruct (_ && _) eqn:E; auto.
    rewrite andb_true_iff, negb_true_iff in E. destruct E.
    rewrite (vr_below X k HX L _ c B), (vr_above X k HX R _ c A) by auto. cbn. auto.
  - rewrite !(vl_app X k). cbn [vl]. unfold inl. destruct (_ && _) eqn:E; auto.
    rewrite andb_true_iff, negb_true_iff in E. destruct E.
    rewrite (vl_below X k HX L _ c B), (vl_above X k HX R _ c A) by auto. cbn. auto.
  - unfold nn. rewrite !(intr_app X k), (vr_app X k), (vl_app X k). cbn [intr vr vl]. unfold ini, inr, inl. destruct (_ && _) eqn:E.
    + rewrite andb_true_iff in E. destruct E.
      rewrite (vr_below X k HX L _ c B) by (auto; cord).
      rewrite (intr_below X k HX L _ c B), (intr_above X k HX R _ c A) by cord.
      replace (cltb c (lc (nkey n))) with false by cord. rewrite H0. cbn. rewrite G. cbn. rewrite ?andb_false_r. auto.
    + cbn [orb]. destruct (ceqb c (lc (nkey n))) eqn:E1; [|destruct (ceqb c (uc (nkey n))) eqn:E2].
      * rewrite (intr_below X k HX L _ c B), (intr_above X k HX R _ c A) by cord. auto.
      * rewrite (intr_below X k HX L _ c B), (intr_above X k HX R _ c A) by cord. auto.
      * cbn. rewrite !andb_true_r. auto.
Qed.

Lemma post_skip sp d e g L R : cltb d e = true -> below k L d -> above k R e -> g None = None ->
  post sp d e g (L ++ R) (L ++ R).
Proof.
  intros N B A G. split; [split|split; [intros _|apply kp_refl]]; intros c.
  - rewrite !(vr_app X k). destruct (_ && _) eqn:E; auto.
    rewrite andb_true_iff, negb_true_iff in E. destruct E.
    rewrite (vr_below X k HX L _ c B), (vr_above X k HX R _ c A) by auto. cbn. auto.
  - rewrite !(vl_app X k). destruct (_ && _) eqn:E; auto.
    rewrite andb_true_iff, negb_true_iff in E. destruct E.
    rewrite (vl_below X k HX L _ c B), (vl_above X k HX R _ c A) by auto. cbn. auto.
  - unfold nn. rewrite !(intr_app X k), (vr_app X k), (vl_app X k). destruct (_ && _) eqn:E.
    + rewrite andb_true_iff in E. destruct E.
      rewrite (vr_below X k HX L _ c B), (vr_above X k HX R _ c A) by (auto; cord).
      rewrite (intr_below X k HX L _ c B), (intr_above X k HX R _ c A) by cord.
      cbn. rewrite G. cbn. rewrite !andb_false_r. auto.
    + destruct (ceqb c d) eqn:E1; [|destruct (ceqb c e) eqn:E2].
      * rewrite (intr_below X k HX L _ c B), (intr_above X k HX R _ c A) by cord. auto.
      * rewrite (intr_below X k HX L _ c B), (intr_above X k HX R _ c A) by cord. auto.
      * cbn. rewrite !andb_true_r. auto.
Qed.

(** splitting a node at a cut *)
Definition divided (d : cut) (l l1 : list node) : Prop :=
  obs k l1 l /\ (forall c, intr k l1 c = intr k l c && negb (ceqb c d)) /\
  forall n, In n l -> cltb d (uc (nkey n)) = false \/ cltb (lc (nkey n)) d = false -> In n l1.
Lemma divide L n n1 n2 R d : srt k (L ++ n :: R) ->
  ceqb (lc (nkey n1)) (lc (nkey n)) = true -> ceqb (uc (nkey n1)) d = true ->
  ceqb (lc (nkey n2)) d = true -> ceqb (uc (nkey n2)) (uc (nkey n)) = true ->
  cltb (lc (nkey n)) d = true -> cltb d (uc (nkey n)) = true -> nval n1 = nval n -> nval n2 = nval n ->
  srt k (L ++ n1 :: n2 :: R) /\ divided d (L ++ n :: R) (L ++ n1 :: n2 :: R).
Proof.
  intros S A1 A2 A3 A4 A5 A6 V1 V2. pose proof S as S0.
  apply (srt_mid X k HX) in S. destruct S as (SL & SR & N & B & A). unfold Seg.ne in N.
  split.
  - apply (srt_mid X k HX). unfold Seg.ne. conjs; auto; try cord.
    + cbn [srt]. unfold Seg.ne. conjs; auto; try cord. apply (above_ge X k HX _ _ (uc (nkey n2))) in A; [exact A|cord].
    + apply (below_le X k HX _ _ _ B). cord.
    + rewrite above_cons. split; [cord|]. apply (above_ge X k HX _ _ _ A). cord.
  - split; [split|split].
    4:{ intros m Hm F. rewrite in_app_iff in *. cbn [In] in *. destruct Hm as [Hm|[<-|Hm]]; auto. exfalso. destruct F; cord. }
    all: intros c.
    + rewrite !(vr_app X k). cbn [vr]. f_equal. rewrite V1, V2. unfold inr. repeat ifg; auto; cord.
    + rewrite !(vl_app X k). cbn [vl]. f_equal. rewrite V1, V2. unfold inl. repeat ifg; auto; cord.
    + rewrite !(intr_app X k). cbn [intr].
      destruct (ceqb c d) eqn:E.
      * rewrite (intr_below X k HX L _ c B), (intr_above X k HX R _ c A) by cord. unfold ini. cord.
      * cbn [negb]. rewrite !andb_true_r. f_equal. rewrite orb_assoc. f_equal. unfold ini. cord.
Qed.
Lemma post_divided_l sp d e g l l1 l' : cltb d e = true -> divided d l l1 -> post sp d e g l1 l' -> post sp d e g l l'.
Proof.
  intros DE ([OR OL] & DI & KI) (U & N & K). split; [eapply upd_obs_l; [|exact U]; split; intros; auto|].
  split; [|intros n Hn F; apply K; auto; apply KI; auto; unfold far in F; destruct sp, F; ((left; cord) || (right; cord))].
  intros E c. rewrite (N E c), DI. unfold nn. rewrite OR, OL. destruct (ceqb c d) eqn:Ec.
  - replace (cltb d c) with false by cord. cbn. rewrite !andb_false_r. auto.
  - cbn. rewrite !andb_true_r. auto.
Qed.
Lemma post_divided_r sp d e g l l1 l' : cltb d e = true -> divided e l l1 -> post sp d e g l1 l' -> post sp d e g l l'.
Proof.
  intros DE ([OR OL] & DI & KI) (U & N & K). split; [eapply upd_obs_l; [|exact U]; split; intros; auto|].
  split; [|intros n Hn F; apply K; auto; apply KI; auto; unfold far in F; destruct sp, F; ((left; cord) || (right; cord))].
  intros E c. rewrite (N E c), DI. unfold nn. rewrite OR, OL. destruct (ceqb c e) eqn:Ec.
  - replace (cltb c e) with false by cord. rewrite !andb_false_r. cbn. auto.
  - cbn. rewrite !andb_true_r. auto.
Qed.

(** at the border of a node there is a value on one side and a division *)
Lemma at_lc L n R : srt k (L ++ n :: R) ->
  intr k (L ++ n :: R) (lc (nkey n)) = false /\ nn (L ++ n :: R) (lc (nkey n)) = false.
Proof.
  intros S. apply (srt_mid X k HX) in S. destruct S as (SL & SR & N & B & A). unfold Seg.ne in N. split.
  - rewrite (intr_app X k). cbn [intr]. rewrite (intr_below X k HX L _ _ B), (intr_above X k HX R _ _ A) by cord. unfold ini. cord.
  - unfold nn. rewrite (vr_app X k). cbn [vr]. rewrite (vr_below X k HX L _ _ B) by cord. unfold inr.
    replace (cltb (lc (nkey n)) (lc (nkey n))) with false by cord. rewrite N. cbn. rewrite andb_false_r. auto.
Qed.
Lemma at_uc L n R : srt k (L ++ n :: R) ->
  intr k (L ++ n :: R) (uc (nkey n)) = false /\ nn (L ++ n :: R) (uc (nkey n)) = false.
Proof.
  intros S. apply (srt_mid X k HX) in S. destruct S as (SL & SR & N & B & A). unfold Seg.ne in N. split.
  - rewrite (intr_app X k). cbn [intr]. rewrite (intr_below X k HX L _ _ B), (intr_above X k HX R _ _ A) by cord. unfold ini. cord.
  - unfold nn. rewrite (vl_app X k). cbn [vl]. rewrite (vl_below X k HX L _ _ B) by cord. unfold inl.
    replace (cltb (uc (nkey n)) (uc (nkey n))) with false by cord. rewrite N. cbn. auto.
Qed.
End Upd.
Arguments some {V}. Arguments upd {X} k {V}. Arguments nn {X} k {V}. Arguments ndiv {X} k {V}.
Arguments far {X} k {V}. Arguments kp {X} k {V}. Arguments post {X} k {V}. Arguments same {X} k {V}. Arguments divided {X} k {V}.

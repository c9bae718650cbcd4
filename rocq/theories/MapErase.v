(** Erasing from an interval map (proofs). *)
From Verif Require Export MapIns.

Section MapErase.
Context (X : dom) (k : kind).
Context (HX : dom_ok X k).
Context (M : mtype).
Notation CC := (mt_co M).
Notation V := (C CC).
Context (Hco : forall v w : CC, cc_eq v w = true <-> v = w).
Notation I := (itv (D X)).
Notation node := (node (D X) V).
Notation tree := (tree (D X) V).
Notation lc := (lc X k).
Notation uc := (uc X k).
Notation cltb := (cltb X).
Notation ceqb := (ceqb X).
Notation cut := (cut X).
Notation ne := (@ne X k).
Notation hd_it := (@hd_it X V).
Notation last_it := (@last_it X V).
Notation J := (J X k M).
Notation minv := (minv X k M).
Ltac cord := cord_ X k HX.
Ltac lst := rewrite <- ?app_assoc; cbn [app]; congruence || auto.

(* ------------------------------------------------------------ removing values in a region *)
Definition epost (d e : cut) (g : option V -> option V) (l l' : list node) : Prop :=
  upd k d e g l l' /\
  (forall c, intr k l' c = intr k l c && (cltb c d || cltb e c || some (g (vr k l c)))) /\ kp k true d e l l'.

Lemma vr_ceq (l : list node) c d : ceqb c d = true -> vr k l c = vr k l d.
Proof.
  intros H. induction l; cbn; auto. rewrite IHl. unfold inr. replace (cltb c (lc (nkey a))) with (cltb d (lc (nkey a))) by cord.
  replace (cltb c (uc (nkey a))) with (cltb d (uc (nkey a))) by cord. auto.
Qed.
Lemma vl_ceq (l : list node) c d : ceqb c d = true -> vl k l c = vl k l d.
Proof.
  intros H. induction l; cbn; auto. rewrite IHl. unfold inl. replace (cltb (lc (nkey a)) c) with (cltb (lc (nkey a)) d) by cord.
  replace (cltb (uc (nkey a)) c) with (cltb (uc (nkey a)) d) by cord. auto.
Qed.
Lemma intr_ceq (l : list node) c d : ceqb c d = true -> intr k l c = intr k l d.
Proof. intros H. induction l; cbn; auto. rewrite IHl. f_equal. unfold ini. f_equal; cord. Qed.

Lemma epost_trans d e f g l l1 l2 : cltb e d = false -> cltb f e = false ->
  epost d e g l l1 -> epost e f g l1 l2 -> epost d f g l l2.
Proof.
  intros A B (U & P & K) (U' & P' & K'). split; [apply (upd_trans X k HX d e f _ l l1 l2); auto|]. split; [|apply (kp_trans X k HX true d e f l l1 l2); auto].
  intros c. rewrite P', P. destruct U as [UR UL]. rewrite UR.
  destruct (cltb c e) eqn:E1.
  - replace (cltb f c) with false by cord. replace (cltb e c) with false by cord. cbn. rewrite andb_true_r. auto.
  - replace (cltb c d) with false by cord. cbn [negb andb orb]. destruct (cltb e c) eqn:E2; cbn [orb].
    + rewrite andb_true_r. auto.
    + replace (cltb f c) with false by cord. cbn. rewrite <- andb_assoc. rewrite andb_diag. auto.
Qed.
Lemma epost_ceq d e d' e' g l l' : ceqb d d' = true -> ceqb e e' = true -> epost d e g l l' -> epost d' e' g l l'.
Proof.
  intros A B (U & N & K). split; [eapply (upd_ceq X k HX); eauto|]. split; [|eapply (kp_ceq X k HX); eauto]. intros c. rewrite (N c).
  replace (cltb c d') with (cltb c d) by cord. replace (cltb e' c) with (cltb e c) by cord. auto.
Qed.

Definition opt (b : bool) (n : node) : list node := if b then [n] else [].
(** the value of node [n] is removed between [d] and [e] *)
Lemma cut_node g L n R d e n1 n2 : srt k (L ++ n :: R) -> below k L d -> above k R e -> cltb d e = true ->
  cltb (lc (nkey n)) e = true -> cltb d (uc (nkey n)) = true ->
  g None = None -> g (Some (nval n)) = None ->
  (cltb (lc (nkey n)) d = true -> ceqb (lc (nkey n1)) (lc (nkey n)) = true /\ ceqb (uc (nkey n1)) d = true /\ nval n1 = nval n) ->
  (cltb e (uc (nkey n)) = true -> ceqb (lc (nkey n2)) e = true /\ ceqb (uc (nkey n2)) (uc (nkey n)) = true /\ nval n2 = nval n) ->
  let P := opt (cltb (lc (nkey n)) d) n1 ++ opt (cltb e (uc (nkey n))) n2 in
  srt k (L ++ P ++ R) /\ epost d e g (L ++ n :: R) (L ++ P ++ R).
Proof.
  intros S BL AR DE O1 O2 G0 G1 H1 H2 P. apply (srt_mid X k HX) in S. destruct S as (SL & SR & N & B & A). unfold Seg.ne in N.
  assert (HP : forall c, vr k P c = (if inr k (nkey n) c && (cltb c d || negb (cltb c e)) then Some (nval n) else None) /\
                    vl k P c = (if inl k (nkey n) c && (negb (cltb d c) || cltb e c) then Some (nval n) else None) /\
                    intr k P c = ini k (nkey n) c && (cltb c d || cltb e c)).
  { intros c. unfold P, opt. destruct (cltb (lc (nkey n)) d) eqn:E1, (cltb e (uc (nkey n))) eqn:E2; cbn [app vr vl intr];
      try (destruct (H1 eq_refl) as (Q1 & Q2 & Q3)); try (destruct (H2 eq_refl) as (Q4 & Q5 & Q6)); rewrite ?Q3, ?Q6; unfold inr, inl, ini;
      (split; [|split]); repeat ifg; auto; try cord. }
  assert (SP : srt k P /\ below k P (uc (nkey n)) /\ above k P (lc (nkey n))).
  { unfold P, opt. destruct (cltb (lc (nkey n)) d) eqn:E1, (cltb e (uc (nkey n))) eqn:E2; cbn [app srt];
      try (destruct (H1 eq_refl) as (Q1 & Q2 & Q3)); try (destruct (H2 eq_refl) as (Q4 & Q5 & Q6));
      rewrite ?below_cons, ?above_cons; unfold Seg.ne; conjs; auto using below_nil, above_nil; try cord.
    constructor; [cord|constructor]. }
  destruct SP as (SP & BP & AP).
  split.
  - apply (srt_app X k). split; auto. split.
    + apply (srt_app X k). conjs; auto. intros x y Hx Hy.
      unfold below, above in *. rewrite Forall_forall in *. specialize (BP x Hx). specialize (A y Hy). cord.
    + intros x y Hx Hy. apply in_app_iff in Hy. unfold below, above in *. rewrite Forall_forall in *. specialize (B x Hx).
      destruct Hy as [Hy|Hy]; [specialize (AP y Hy)|specialize (A y Hy)]; cord.
  - split; [split|split; [|apply (kp_mid X k HX); auto]]; intros c; destruct (HP c) as (P1 & P2 & P3).
    + rewrite !(vr_app X k). cbn [vr]. rewrite P1. destruct (negb (cltb c d) && cltb c e) eqn:E.
      * rewrite andb_true_iff, negb_true_iff in E. destruct E as [Ea Eb].
        rewrite (vr_below X k HX L _ c BL), (vr_above X k HX R _ c AR) by auto. rewrite Ea, Eb. cbn. rewrite andb_false_r.
        destruct (inr _ _); auto.
      * f_equal. replace (cltb c d || negb (cltb c e)) with true. 2:{ destruct (cltb c d), (cltb c e); auto; discriminate. }
        rewrite andb_true_r. destruct (inr _ _); auto.
    + rewrite !(vl_app X k). cbn [vl]. rewrite P2. destruct (cltb d c && negb (cltb e c)) eqn:E.
      * rewrite andb_true_iff, negb_true_iff in E. destruct E as [Ea Eb].
        rewrite (vl_below X k HX L _ c BL), (vl_above X k HX R _ c AR) by auto. rewrite Ea, Eb. cbn. rewrite andb_false_r.
        destruct (inl _ _); auto.
      * f_equal. replace (negb (cltb d c) || cltb e c) with true. 2:{ destruct (cltb d c), (cltb e c); auto; discriminate. }
        rewrite andb_true_r. destruct (inl _ _); auto.
    + rewrite !(intr_app X k). cbn [intr]. rewrite P3, !(vr_app X k). cbn [vr].
      destruct (cltb c d) eqn:Ea; cbn [orb]; rewrite ?andb_true_r; auto.
      destruct (cltb e c) eqn:Eb; cbn [orb]; rewrite ?andb_true_r, ?andb_false_r; auto.
      rewrite (intr_below X k HX L _ c BL), (intr_above X k HX R _ c AR) by auto. cbn [orb].
      rewrite orb_false_r. destruct (ini k (nkey n) c) eqn:Ei; auto.
      rewrite (vr_below X k HX L _ c BL) by auto. cbn [orelse].
      replace (inr k (nkey n) c) with true by (unfold ini, inr in *; cord). cbn [orelse]. rewrite G1. auto.
Qed.

(** a node which is kept *)
Lemma keep_node g L n R d e : srt k (L ++ n :: R) -> below k L d -> above k R e ->
  g None = None -> g (Some (nval n)) = Some (nval n) -> epost d e g (L ++ n :: R) (L ++ n :: R).
Proof.
  intros S BL AR G0 G1. split; [split|split; [|apply kp_refl]]; intros c.
  - rewrite !(vr_app X k). cbn [vr]. destruct (negb (cltb c d) && cltb c e) eqn:E; auto.
    rewrite andb_true_iff, negb_true_iff in E. destruct E as [Ea Eb].
    rewrite (vr_below X k HX L _ c BL), (vr_above X k HX R _ c AR) by auto. destruct (inr _ _); cbn; auto.
  - rewrite !(vl_app X k). cbn [vl]. destruct (cltb d c && negb (cltb e c)) eqn:E; auto.
    rewrite andb_true_iff, negb_true_iff in E. destruct E as [Ea Eb].
    rewrite (vl_below X k HX L _ c BL), (vl_above X k HX R _ c AR) by auto. destruct (inl _ _); cbn; auto.
  - rewrite !(intr_app X k), (vr_app X k). cbn [intr vr].
    destruct (cltb c d) eqn:Ea; cbn [orb]; rewrite ?andb_true_r; auto.
    destruct (cltb e c) eqn:Eb; cbn [orb]; rewrite ?andb_true_r; auto.
    rewrite (intr_below X k HX L _ c BL), (intr_above X k HX R _ c AR) by auto. cbn [orb]. rewrite orb_false_r.
    destruct (ini k (nkey n) c) eqn:Ei; auto.
    rewrite (vr_below X k HX L _ c BL) by auto. cbn [orelse].
    replace (inr k (nkey n) c) with true by (unfold ini, inr in *; cord). cbn [orelse]. rewrite G1. auto.
Qed.
(** a region without values *)
Lemma keep_gap g L R d e : below k L d -> above k R e -> g None = None -> epost d e g (L ++ R) (L ++ R).
Proof.
  intros BL AR G0. split; [split|split; [|apply kp_refl]]; intros c.
  - rewrite !(vr_app X k). destruct (negb (cltb c d) && cltb c e) eqn:E; auto.
    rewrite andb_true_iff, negb_true_iff in E. destruct E as [Ea Eb].
    rewrite (vr_below X k HX L _ c BL), (vr_above X k HX R _ c AR) by auto. cbn; auto.
  - rewrite !(vl_app X k). destruct (cltb d c && negb (cltb e c)) eqn:E; auto.
    rewrite andb_true_iff, negb_true_iff in E. destruct E as [Ea Eb].
    rewrite (vl_below X k HX L _ c BL), (vl_above X k HX R _ c AR) by auto. cbn; auto.
  - rewrite !(intr_app X k).
    destruct (cltb c d) eqn:Ea; cbn [orb]; rewrite ?andb_true_r; auto.
    destruct (cltb e c) eqn:Eb; cbn [orb]; rewrite ?andb_true_r; auto.
    rewrite (intr_below X k HX L _ c BL), (intr_above X k HX R _ c AR) by auto. auto.
Qed.
(** all nodes between two cuts are removed *)
Lemma erase_list g L N R d e : nes k N -> cltb e d = false -> below k L d -> above k N d -> below k N e -> above k R e -> (forall o, g o = None) ->
  epost d e g (L ++ N ++ R) (L ++ R).
Proof.
  intros NN DE BL AN BN AR G. split; [split|split].
  4:{ intros y Hy F. rewrite !in_app_iff in *. destruct Hy as [Hy|[Hy|Hy]]; auto. exfalso.
      unfold nes, above, below in *. rewrite Forall_forall in NN, AN, BN. specialize (NN y Hy). specialize (AN y Hy). specialize (BN y Hy).
      unfold Seg.ne in NN. unfold far in F. destruct F; cord. }
  all: intros c.
  - rewrite !(vr_app X k). destruct (negb (cltb c d) && cltb c e) eqn:E.
    + rewrite andb_true_iff, negb_true_iff in E. destruct E as [Ea Eb].
      rewrite (vr_below X k HX L _ c BL), (vr_above X k HX R _ c AR) by auto. cbn. auto.
    + f_equal. destruct (cltb c d) eqn:Ea.
      * rewrite (vr_above X k HX N _ c AN) by auto. auto.
      * rewrite (vr_below X k HX N _ c BN); auto.
  - rewrite !(vl_app X k). destruct (cltb d c && negb (cltb e c)) eqn:E.
    + rewrite andb_true_iff, negb_true_iff in E. destruct E as [Ea Eb].
      rewrite (vl_below X k HX L _ c BL), (vl_above X k HX R _ c AR) by auto. cbn. auto.
    + f_equal. destruct (cltb d c) eqn:Ea.
      * cbn in E. apply negb_false_iff in E. rewrite (vl_below X k HX N _ c BN); auto.
      * rewrite (vl_above X k HX N _ c AN); auto.
  - rewrite !(intr_app X k), G. cbn [some]. rewrite orb_false_r.
    destruct (cltb c d) eqn:Ea; cbn [orb]; rewrite ?andb_true_r.
    + rewrite (intr_above X k HX N _ c AN) by cord. auto.
    + destruct (cltb e c) eqn:Eb; cbn [orb]; rewrite ?andb_true_r, ?andb_false_r.
      * rewrite (intr_below X k HX N _ c BN) by cord. auto.
      * rewrite (intr_below X k HX L _ c BL), (intr_above X k HX R _ c AR) by auto. auto.
Qed.

(** joinedness from the observed divisions *)
Lemma joined_of_intr (l : list node) : srt k l ->
  (forall c v, vl k l c = Some v -> vr k l c = Some v -> intr k l c = true) -> joined k cc_eq l.
Proof.
  intros S H n m Hn Hm Q. destruct (cc_eq (nval n) (nval m)) eqn:E; auto. exfalso.
  apply Hco in E. pose proof (srt_in X k M _ _ S Hn) as Nn. pose proof (srt_in X k M _ _ S Hm) as Nm. unfold Seg.ne in Nn, Nm.
  assert (H1 : vl k l (uc (nkey n)) = Some (nval n)).
  { apply (vl_some X k HX); auto. exists n. repeat split; auto. unfold inl. cord. }
  assert (H2 : vr k l (uc (nkey n)) = Some (nval n)).
  { rewrite E. apply (vr_some X k HX); auto. exists m. repeat split; auto. unfold inr. cord. }
  specialize (H _ _ H1 H2). apply in_split in Hn. destruct Hn as (L & R & ->).
  destruct (at_uc X k HX L n R S) as [A _]. congruence.
Qed.
Lemma J_epost g d e l l' : srt k l -> srt k l' -> J l -> cltb d e = true -> (forall o v, g o = Some v -> o = Some v) ->
  epost d e g l l' -> J l'.
Proof.
  unfold MapFacts.J. destruct (mt_style M); auto. intros S S' HJ DE G ([UR UL] & P & _).
  apply joined_of_intr; auto. intros c v Hl Hr. rewrite P.
  assert (Rf : forall w : V, cc_eq w w = true) by (intros; apply Hco; auto).
  assert (A : vl k l c = Some v). { rewrite UL in Hl. destruct (_ && _); auto. }
  assert (B : vr k l c = Some v). { rewrite UR in Hr. destruct (_ && _); auto. }
  rewrite (joined_intr X k HX cc_eq l c S HJ Rf), A, B, Rf. cbn [andb].
  destruct (cltb c d) eqn:Ea; auto. destruct (cltb e c) eqn:Eb; auto. cbn [orb].
  destruct (cltb c e) eqn:Ec.
  - rewrite UR, Ea, Ec in Hr. cbn in Hr. rewrite <- B, Hr. auto.
  - rewrite UL, Eb in Hl. replace (cltb d c) with true in Hl by cord. cbn in Hl. rewrite <- A, Hl. auto.
Qed.
(* ------------------------------------------------------------ erase(segment) *)
Definition gers (x : V) (o : option V) : option V :=
  match o with Some v => if cc_eq v x then None else Some v | None => None end.
Lemma gers_sub x o v : gers x o = Some v -> o = Some v.
Proof. destruct o as [w|]; cbn; [|discriminate]. destruct (cc_eq w x); congruence. Qed.

Lemma rest_at x a N : ne a -> forall fuel (t : tree) L q R d,
  (List.length N < fuel)%nat -> inv k t -> nodes t = L ++ N ++ q :: R ->
  below k L d -> above k R (uc a) -> Forall (over k a) (N ++ [q]) -> above k (N ++ [q]) d -> above k (N ++ [q]) (lc a) ->
  exists t',
    (' (t, it_) <- m_erase_loop X M fuel t x (hd_it (N ++ q :: R)) (Some (nid q)) ;;
     n <- deref t it_ ;;
     if cc_eq (nval n) x then
       let right_resid := left_subtract X k (nkey n) a in
       if is_empty X k right_resid then erase_it t it_ else set_key t it_ right_resid
     else Ok t) = Ok t' /\ inv k t' /\
    epost d (uc a) (gers x) (nodes t) (nodes t').
Proof.
  intros Na. pose proof Na as Na'. unfold Seg.ne in Na'.
  induction N as [|m N IH]; intros [|fuel] t L q R d HF Hi E BL AR ON AN AL; try (cbn in HF; lia).
  - cbn [m_erase_loop app]. cbn [Tree.hd_it]. rewrite iter_eqb_refl. cbn [negb bind].
    cbn [app] in *. rewrite above_cons in AN, AL. inversion ON as [|? ? [O1 O2] _]; subst. destruct AN as [AN _], AL as [AL _].
    pose proof Hi as [W S]. rewrite (deref_at X t L q R) by auto. cbn [bind].
    pose proof S as S'. rewrite E in S'. pose proof (srt_ne X k HX M _ _ _ S') as Nq. pose proof Nq as Nq'. unfold Seg.ne in Nq'.
    destruct (cc_eq (nval q) x) eqn:Ev.
    2:{ exists t. conjs; auto. rewrite E. apply keep_node; auto. cbn. rewrite Ev. auto. }
    cbv zeta. set (r := left_subtract X k (nkey q) a).
    set (n2 := Node (nid q) r (nval q)).
    destruct (cut_node (gers x) L q R d (uc a) n2 n2) as [Sx Px]; auto; try cord.
    { cbn. rewrite Ev. auto. }
    { intros. destruct (lsub_ne X k HX (nkey q) a) as [Q1 Q2]; auto. fold r in Q1, Q2. cbn [nkey n2 nval]. rewrite Q2. conjs; auto. cord. }
    replace (cltb (lc (nkey q)) d) with false in Sx, Px by cord. cbn [opt app] in Sx, Px.
    destruct (cltb (uc a) (uc (nkey q))) eqn:Eu.
    + destruct (lsub_ne X k HX (nkey q) a) as [Q1 Q2]; auto. fold r in Q1, Q2.
      assert (Nr : ne r) by (unfold Seg.ne; rewrite Q2; cord). rewrite (ne_e X k HX r) by auto.
      rewrite (set_key_at X t L q R) by auto. eexists. split; [reflexivity|]. split.
      * split; [|exact Sx]. eapply (wf_ids X); [apply (wf_nodes X _ _ W E)|]. rewrite !ids_app, !ids_cons. auto.
      * rewrite E. exact Px.
    + assert (Ee : is_empty X k r = true) by (apply lsub_e; auto). rewrite Ee.
      rewrite (erase_at X t L q R) by auto. eexists. split; [reflexivity|]. split.
      * apply (inv_del X k HX M t L q R); auto.
      * rewrite E. exact Px.
  - cbn [m_erase_loop app]. cbn [Tree.hd_it]. pose proof Hi as [W S].
    assert (Em : nodes t = L ++ m :: (N ++ q :: R)) by (rewrite E; auto).
    pose proof (iter_eqb_hd X t L (m :: N) (q :: R) W E) as Q. cbn in Q.
    cbn [iter_eqb]. rewrite Q. cbn [negb].
    inversion ON as [|? ? [Om1 Om2] ON']; subst. cbn [app] in AN, AL. rewrite above_cons in AN, AL.
    destruct AN as [Am AN], AL as [Al AL].
    pose proof S as S'. rewrite Em in S'.
    pose proof (srt_ne X k HX M _ _ _ S') as Nm. pose proof Nm as Nm'. unfold Seg.ne in Nm'.
    pose proof (srt_above X k HX M _ _ _ S') as ARm. pose proof (srt_below X k HX M _ _ _ S') as BLm.
    rewrite (val_at X t L m (N ++ q :: R)) by auto. cbn [bind].
    rewrite (incr_at X t L m (N ++ q :: R)) by auto. cbn [bind].
    assert (Oq : over k a q). { rewrite Forall_forall in ON'. apply ON'. apply in_app_iff. cbn. auto. }
    destruct Oq as [Oq1 Oq2].
    assert (Hqm : cltb (lc (nkey q)) (uc (nkey m)) = false).
    { pose proof ARm as ARm'. apply above_app in ARm'. destruct ARm' as [_ ARm']. rewrite above_cons in ARm'. tauto. }
    assert (Eu : cltb (uc (nkey m)) (uc a) = true) by cord.
    assert (AN' : above k (N ++ [q]) (uc (nkey m))).
    { apply above_app in ARm. destruct ARm as [A1 A2]. rewrite above_cons in A2. rewrite above_app, above_cons.
      conjs; auto using above_nil; tauto. }
    destruct (cc_eq (nval m) x) eqn:Ev.
    + rewrite (erase_at X t L m (N ++ q :: R)) by auto. cbn [bind]. set (t1 := Tree _ _).
      destruct (IH fuel t1 L q R (uc (nkey m))) as (t' & EQ & H1 & H2); auto.
      * clear -HF. cbn in HF. lia.
      * apply (inv_del X k HX M t L m (N ++ q :: R)); auto.
      * eapply (below_le X k HX); eauto. cord.
      * exists t'. conjs; auto. eapply (epost_trans _ (uc (nkey m))); [| | |exact H2]; try cord.
        destruct (cut_node (gers x) L m (N ++ q :: R) d (uc (nkey m)) m m) as [Sx Px]; auto; try cord.
        { cbn. rewrite Ev. auto. }
        replace (cltb (lc (nkey m)) d) with false in Px by cord. replace (cltb (uc (nkey m)) (uc (nkey m))) with false in Px by cord.
        cbn [opt app] in Px. rewrite Em. exact Px.
    + cbn [bind].
      destruct (IH fuel t (L ++ [m]) q R (uc (nkey m))) as (t' & EQ & H1 & H2); auto.
      * clear -HF. cbn in HF. lia.
      * lst.
      * eapply (below_snoc X k HX M); eauto. cord.
      * exists t'. conjs; auto. eapply (epost_trans _ (uc (nkey m))); [| | |exact H2]; try cord.
        rewrite Em. apply keep_node; auto. cbn. rewrite Ev. auto.
Qed.

(** the case of a single overlapped segment *)
Lemma erase_one g (t : tree) a y L m R : inv k t -> ne a -> nodes t = L ++ m :: R -> below k L (lc a) -> above k R (uc a) -> over k a m ->
  g None = None -> g (Some (nval m)) = None -> y = nval m ->
  let lr := right_subtract X k (nkey m) a in
  let rr := left_subtract X k (nkey m) a in
  exists t', (if negb (is_empty X k lr) then
      t <- set_key t (Some (nid m)) lr ;;
      if negb (is_empty X k rr)
      then ' (t, _) <- insert_hint X k t (Some (nid m)) rr y ;; Ok t else Ok t
    else if negb (is_empty X k rr) then set_key t (Some (nid m)) rr
    else erase_it t (Some (nid m))) = Ok t' /\ inv k t' /\ epost (lc a) (uc a) g (nodes t) (nodes t').
Proof.
  intros Hi Na Em BL AR [Om1 Om2] G0 G1 Ey lr rr. pose proof Hi as [W S].
    pose proof S as S'. rewrite Em in S'.
    pose proof (srt_ne X k HX M _ _ _ S') as Nm. pose proof Nm as Nm'. pose proof Na as Na'. unfold Seg.ne in Nm', Na'.
    pose proof (srt_above X k HX M _ _ _ S') as ARm.
    assert (HL : cltb (lc (nkey m)) (lc a) = true -> ceqb (lc lr) (lc (nkey m)) = true /\ ceqb (uc lr) (lc a) = true /\ is_empty X k lr = false).
    { intros El. destruct (rsub_ne X k HX (nkey m) a) as [Q1 Q2]; auto. fold lr in Q1, Q2. rewrite Q1. conjs; auto; [cord|].
      apply (ne_e X k HX). unfold Seg.ne. rewrite Q1. cord. }
    assert (HL' : cltb (lc (nkey m)) (lc a) = false -> is_empty X k lr = true) by (intros; apply rsub_e; auto).
    assert (HR : cltb (uc a) (uc (nkey m)) = true -> ceqb (lc rr) (uc a) = true /\ ceqb (uc rr) (uc (nkey m)) = true /\ is_empty X k rr = false).
    { intros El. destruct (lsub_ne X k HX (nkey m) a) as [Q1 Q2]; auto. fold rr in Q1, Q2. rewrite Q2. conjs; auto; [cord|].
      apply (ne_e X k HX). unfold Seg.ne. rewrite Q2. cord. }
    assert (HR' : cltb (uc a) (uc (nkey m)) = false -> is_empty X k rr = true) by (intros; apply lsub_e; auto).
      set (n1 := Node (nid m) lr (nval m)).
      destruct (cltb (lc (nkey m)) (lc a)) eqn:El.
      * destruct HL as (L1 & L2 & ->); auto. cbn [negb].
        rewrite (set_key_at X t L m R) by auto. cbn [bind]. fold n1.
        destruct (cltb (uc a) (uc (nkey m))) eqn:Er.
        -- destruct HR as (R1 & R2 & R3); auto. rewrite R3. cbn [negb].
           set (n2 := Node (fresh t) rr y).
           destruct (cut_node (g) L m R (lc a) (uc a) n1 n2) as [Sx Px]; auto; try congruence.
           rewrite El, Er in Sx, Px. cbn [opt app] in Sx, Px.
           set (t1 := Tree (L ++ n1 :: R) (fresh t)).
           assert (I1 : inv k t1).
           { split.
             - eapply (wf_ids X); [apply (wf_nodes X _ _ W Em)|]. rewrite !ids_app, !ids_cons. auto.
             - cbn. change (L ++ n1 :: n2 :: R) with (L ++ [n1] ++ n2 :: R) in Sx. rewrite app_assoc in Sx.
               apply (srt_del X k HX M) in Sx. rewrite <- app_assoc in Sx. exact Sx. }
           pose proof I1 as [W1 S1].
           assert (Sy : srt k ((L ++ [n1]) ++ n2 :: R)) by (rewrite <- app_assoc; exact Sx).
           change (Some (nid m)) with (Some (nid n1)).
           rewrite (insert_hint_new X k HX t1 (L ++ [n1]) R); auto.
           ++ cbn [bind]. eexists. split; [reflexivity|]. split; [split|].
              ** apply wf_new. rewrite <- app_assoc. apply W1.
              ** cbn [nodes fresh t1]. fold n2. exact Sy.
              ** cbn [nodes fresh t1]. fold n2. rewrite <- app_assoc. rewrite Em. exact Px.
           ++ unfold t1. cbn [nodes]. lst.
           ++ apply (ne_iff X k HX). auto.
           ++ apply (srt_below X k HX M _ _ _ Sy).
           ++ apply (srt_above X k HX M _ _ _ Sy).
           ++ eapply isit_mid. reflexivity.
        -- rewrite HR' by auto. cbn [negb].
           destruct (cut_node (g) L m R (lc a) (uc a) n1 n1) as [Sx Px]; auto; try congruence.
           rewrite El, Er in Sx, Px. cbn [opt app] in Sx, Px.
           eexists. split; [reflexivity|]. split; [split|].
           ++ eapply (wf_ids X); [apply (wf_nodes X _ _ W Em)|]. rewrite !ids_app, !ids_cons. auto.
           ++ exact Sx.
           ++ rewrite Em. exact Px.
      * rewrite HL' by auto. cbn [negb].
        destruct (cltb (uc a) (uc (nkey m))) eqn:Er.
        -- destruct HR as (R1 & R2 & R3); auto. rewrite R3. cbn [negb].
           set (n2 := Node (nid m) rr (nval m)).
           destruct (cut_node (g) L m R (lc a) (uc a) n2 n2) as [Sx Px]; auto; try congruence.
           rewrite El, Er in Sx, Px. cbn [opt app] in Sx, Px.
           rewrite (set_key_at X t L m R) by auto.
           eexists. split; [reflexivity|]. split; [split|].
           ++ eapply (wf_ids X); [apply (wf_nodes X _ _ W Em)|]. rewrite !ids_app, !ids_cons. auto.
           ++ exact Sx.
           ++ rewrite Em. exact Px.
        -- rewrite HR' by auto. cbn [negb].
           destruct (cut_node (g) L m R (lc a) (uc a) m m) as [Sx Px]; auto; try congruence.
           rewrite El, Er in Sx, Px. cbn [opt app] in Sx, Px.
           rewrite (erase_at X t L m R) by auto.
           eexists. split; [reflexivity|]. split; [apply (inv_del X k HX M t L m R); auto|].
           rewrite Em. exact Px.
Qed.

Lemma erase_seg_at (t : tree) a x : minv t -> ne a -> is_absorbable M x = false ->
  exists t', m_erase_seg X k M t a x = Ok t' /\ minv t' /\ epost (lc a) (uc a) (gers x) (nodes t) (nodes t').
Proof.
  intros Hm Na Ex. pose proof Hm as [Hi HJ]. pose proof Hi as [W S].
  enough (HH : exists t', m_erase_seg X k M t a x = Ok t' /\ inv k t' /\ epost (lc a) (uc a) (gers x) (nodes t) (nodes t')).
  { destruct HH as (t' & H1 & H2 & H3). exists t'. split; auto. split; auto. split; auto. pose proof H2 as [_ S2].
    eapply (J_epost (gers x) (lc a) (uc a) (nodes t)); eauto. apply gers_sub. }
  unfold m_erase_seg. rewrite (ne_e X k HX a) by auto. rewrite Ex.
  destruct (decomp X k HX a (nodes t) S Na) as (L & N & R & E & BL & ON & AR).
  rewrite (equal_range_at X k HX M t L N R) by auto. cbn [bind].
  rewrite (iter_eqb_hd X t L N R) by auto.
  destruct N as [|m N'] eqn:EN.
  - exists t. conjs; auto. cbn [app] in E. rewrite E. apply keep_gap; auto.
  - rewrite <- EN in E. assert (NN : N <> []) by (rewrite EN; discriminate).
    rewrite (cyc_at X t (L ++ N) R) by (auto; lst). cbn [bind].
    destruct (M_ends N NN) as (? & ? & Q & q & EN' & EQ). rewrite EN in EN'. injection EN' as <- <-.
    replace (last_it (L ++ N)) with (Some (nid q)).
    2:{ rewrite EQ, app_assoc, last_it_app. auto. }
    rewrite EN in EQ. cbn [app]. cbn [Tree.hd_it].
    assert (Em : nodes t = L ++ m :: (N' ++ R)) by (rewrite E, EN; auto).
    rewrite (incr_at X t L m (N' ++ R)) by auto. cbn [bind].
    rewrite (deref_at X t L m (N' ++ R)) by auto. cbn [bind].
    inversion ON as [|? ? [Om1 Om2] ON']; subst x0 l.
    pose proof S as S'. rewrite Em in S'.
    pose proof (srt_ne X k HX M _ _ _ S') as Nm. pose proof Nm as Nm'. pose proof Na as Na'. unfold Seg.ne in Nm', Na'.
    pose proof (srt_above X k HX M _ _ _ S') as ARm.
    cbv zeta. set (lr := right_subtract X k (nkey m) a). set (rr := left_subtract X k (nkey m) a).
    assert (HL : cltb (lc (nkey m)) (lc a) = true -> ceqb (lc lr) (lc (nkey m)) = true /\ ceqb (uc lr) (lc a) = true /\ is_empty X k lr = false).
    { intros El. destruct (rsub_ne X k HX (nkey m) a) as [Q1 Q2]; auto. fold lr in Q1, Q2. rewrite Q1. conjs; auto; [cord|].
      apply (ne_e X k HX). unfold Seg.ne. rewrite Q1. cord. }
    assert (HL' : cltb (lc (nkey m)) (lc a) = false -> is_empty X k lr = true) by (intros; apply rsub_e; auto).
    assert (HR : cltb (uc a) (uc (nkey m)) = true -> ceqb (lc rr) (uc a) = true /\ ceqb (uc rr) (uc (nkey m)) = true /\ is_empty X k rr = false).
    { intros El. destruct (lsub_ne X k HX (nkey m) a) as [Q1 Q2]; auto. fold rr in Q1, Q2. rewrite Q2. conjs; auto; [cord|].
      apply (ne_e X k HX). unfold Seg.ne. rewrite Q2. cord. }
    assert (HR' : cltb (uc a) (uc (nkey m)) = false -> is_empty X k rr = true) by (intros; apply lsub_e; auto).
    destruct (iter_eqb (Some (nid m)) (Some (nid q))) eqn:Emq.
    + (* a single overlapped node *)
      assert (EN0 : N' = []).
      { destruct Q as [|p Q]; cbn in EQ; injection EQ as EQ1 EQ2; auto. exfalso. subst p N'.
        cbn in Emq. apply Nat.eqb_eq in Emq. destruct W as [ND _]. rewrite Em, ids_app, ids_cons in ND.
        apply NoDup_remove_2 in ND. apply ND. rewrite !ids_app, ids_cons, !in_app_iff. cbn. auto. }
      rewrite EN0 in *. cbn [app] in *.
      destruct (cc_eq (nval m) x) eqn:Ev.
      2:{ exists t. conjs; auto. rewrite Em. apply keep_node; auto. cbn. rewrite Ev. auto. }
      destruct (erase_one (gers x) t a x L m R) as (t' & H1 & H2); auto; [split; auto|cbn; rewrite Ev; auto|apply Hco in Ev; auto|].
      exists t'. auto.
    + (* several *)
      assert (EN0 : exists Q', N' = Q' ++ [q]).
      { destruct Q as [|p Q]; cbn in EQ; injection EQ as EQ1 EQ2.
        - subst. cbn in Emq. rewrite Nat.eqb_refl in Emq. discriminate.
        - exists Q. auto. }
      destruct EN0 as (Q' & EN0).
      assert (Em' : nodes t = L ++ m :: Q' ++ q :: R) by (rewrite Em, EN0; lst).
      assert (Oq : over k a q). { rewrite Forall_forall in ON'. apply ON'. rewrite EN0. apply in_app_iff. cbn. auto. }
      destruct Oq as [Oq1 Oq2].
      assert (ARm' : above k (Q' ++ [q]) (uc (nkey m))).
      { rewrite EN0 in ARm. apply above_app in ARm. tauto. }
      assert (Hqm : cltb (lc (nkey q)) (uc (nkey m)) = false).
      { apply above_app in ARm'. destruct ARm' as [_ ARm']. rewrite above_cons in ARm'. tauto. }
      assert (AL : above k (Q' ++ [q]) (lc a)) by (eapply (above_ge X k HX); eauto; cord).
      assert (HD : hd_it (N' ++ R) = hd_it (Q' ++ q :: R)) by (rewrite EN0; f_equal; lst).
      rewrite HD.
      assert (CONT : forall t1 L1, inv k t1 -> nodes t1 = L1 ++ Q' ++ q :: R -> below k L1 (uc (nkey m)) ->
         epost (lc a) (uc (nkey m)) (gers x) (nodes t) (nodes t1) ->
         exists t', m_erase_rest X k M t1 a x (hd_it (Q' ++ q :: R)) (Some (nid q)) = Ok t' /\ inv k t' /\
           epost (lc a) (uc a) (gers x) (nodes t) (nodes t')).
      { intros t1 L1 I1 E1 B1 P1.
        destruct (rest_at x a Q' Na (Datatypes.S (List.length (nodes t1))) t1 L1 q R (uc (nkey m))) as (t' & EQ' & H1 & H2); auto.
        - clear -E1. rewrite E1, !app_length. lia.
        - rewrite <- EN0. auto.
        - exists t'. conjs; auto. eapply (epost_trans _ (uc (nkey m))); [| |exact P1|exact H2]; cord. }
      set (n1 := Node (nid m) lr (nval m)).
      destruct (cc_eq (nval m) x) eqn:Ev.
      * destruct (cut_node (gers x) L m (Q' ++ q :: R) (lc a) (uc (nkey m)) n1 n1) as [Sx Px]; auto; try cord.
        { rewrite <- Em'. auto. } { rewrite EN0, <- app_assoc in ARm. exact ARm. } { cbn. rewrite Ev. auto. }
        { intros El. destruct (HL El) as (? & ? & ?). auto. }
        replace (cltb (uc (nkey m)) (uc (nkey m))) with false in Sx, Px by cord.
        destruct (cltb (lc (nkey m)) (lc a)) eqn:El; cbn [opt app] in Sx, Px.
        -- destruct HL as (L1 & L2 & ->); auto. 
           rewrite (set_key_at X t L m (N' ++ R)) by auto. cbn [bind]. fold n1.
           assert (EL : L ++ n1 :: N' ++ R = (L ++ [n1]) ++ Q' ++ q :: R) by (rewrite EN0; lst).
           apply (CONT _ (L ++ [n1])).
           ++ split.
              ** eapply (wf_ids X); [apply (wf_nodes X _ _ W Em)|]. rewrite !ids_app, !ids_cons. auto.
              ** cbn [nodes]. rewrite EL, <- app_assoc. exact Sx.
           ++ exact EL.
           ++ rewrite below_app, below_cons. conjs; auto using below_nil; [|cbn [nkey n1]; cord].
              eapply (below_le X k HX); [exact BL|cord].
           ++ cbn [nodes]. rewrite EL, <- app_assoc, Em'. exact Px.
        -- rewrite HL' by auto. rewrite (erase_at X t L m (N' ++ R)) by auto. cbn [bind].
           assert (EL : L ++ N' ++ R = L ++ Q' ++ q :: R) by (rewrite EN0; lst).
           apply (CONT _ L).
           ++ apply (inv_del X k HX M t L m (N' ++ R)); auto.
           ++ exact EL.
           ++ eapply (below_le X k HX); [exact BL|cord].
           ++ cbn [nodes]. rewrite EL, Em'. exact Px.
      * cbn [bind]. apply (CONT t (L ++ [m])); auto.
        -- rewrite Em'. lst.
        -- eapply (below_snoc X k HX M); eauto. cord.
        -- rewrite Em'. apply keep_node; auto.
           ++ rewrite <- Em'. auto.
           ++ rewrite EN0, <- app_assoc in ARm. exact ARm.
           ++ cbn. rewrite Ev. auto.
Qed.

(* ------------------------------------------------------------ erase(interval) *)
Lemma erase_itv_at (t : tree) a : minv t -> ne a ->
  exists t', m_erase X k M t a = Ok t' /\ minv t' /\ epost (lc a) (uc a) (fun _ => None) (nodes t) (nodes t').
Proof.
  intros Hm Na. pose proof Hm as [Hi HJ]. pose proof Hi as [W S].
  enough (HH : exists t', m_erase X k M t a = Ok t' /\ inv k t' /\ epost (lc a) (uc a) (fun _ => None) (nodes t) (nodes t')).
  { destruct HH as (t' & H1 & H2 & H3). exists t'. split; auto. split; auto. split; auto. pose proof H2 as [_ S2].
    eapply (J_epost (fun _ => None) (lc a) (uc a) (nodes t)); eauto. discriminate. }
  unfold m_erase. rewrite (ne_e X k HX a) by auto.
  destruct (decomp X k HX a (nodes t) S Na) as (L & N & R & E & BL & ON & AR).
  rewrite (equal_range_at X k HX M t L N R) by auto. cbn [bind].
  rewrite (iter_eqb_hd X t L N R) by auto.
  destruct N as [|m N'] eqn:EN.
  - exists t. conjs; auto. cbn [app] in E. rewrite E. apply keep_gap; auto.
  - rewrite <- EN in E. assert (NN : N <> []) by (rewrite EN; discriminate).
    destruct (M_ends N NN) as (? & ? & Q & q & EN' & EQ). rewrite EN in EN'. injection EN' as <- <-.
    assert (Eq : nodes t = (L ++ Q) ++ q :: R) by (rewrite E, EQ; lst).
    rewrite (decr_hd X t (L ++ Q) q R) by auto. cbn [bind].
    rewrite EN in EQ. cbn [app]. cbn [Tree.hd_it].
    assert (Em : nodes t = L ++ m :: (N' ++ R)) by (rewrite E, EN; auto).
    rewrite (deref_at X t L m (N' ++ R)) by auto. cbn [bind].
    rewrite (key_at X t (L ++ Q) q R) by auto. cbn [bind].
    inversion ON as [|? ? [Om1 Om2] ON']; subst x l.
    destruct (iter_eqb (Some (nid m)) (Some (nid q))) eqn:Emq.
    + assert (EN0 : N' = [] /\ q = m).
      { destruct Q as [|p Q]; cbn in EQ; injection EQ as EQ1 EQ2; auto. exfalso. subst p N'.
        cbn in Emq. apply Nat.eqb_eq in Emq. destruct W as [ND _]. rewrite Em, ids_app, ids_cons in ND.
        apply NoDup_remove_2 in ND. apply ND. rewrite !ids_app, ids_cons, !in_app_iff. cbn. auto. }
      destruct EN0 as [-> ->]. cbn [app] in *. cbv zeta.
      apply (erase_one (fun _ => None) t a (nval m) L m R); auto. split; auto.
    + assert (EN0 : exists Q', N' = Q' ++ [q]).
      { destruct Q as [|p Q]; cbn in EQ; injection EQ as EQ1 EQ2.
        - subst. cbn in Emq. rewrite Nat.eqb_refl in Emq. discriminate.
        - exists Q. auto. }
      destruct EN0 as (Q' & EN0).
      assert (Em' : nodes t = L ++ m :: Q' ++ q :: R) by (rewrite Em, EN0; lst).
      pose proof S as S'. rewrite Em' in S'.
      pose proof (srt_ne X k HX M _ _ _ S') as Nm. pose proof Nm as Nm'. pose proof Na as Na'. unfold Seg.ne in Nm', Na'.
      pose proof (srt_above X k HX M _ _ _ S') as ARm.
      assert (Sq : srt k ((L ++ m :: Q') ++ q :: R)) by (rewrite <- app_assoc; exact S').
      pose proof (srt_ne X k HX M _ _ _ Sq) as Nq. pose proof Nq as Nq'. unfold Seg.ne in Nq'.
      pose proof (srt_below X k HX M _ _ _ Sq) as BQ.
      assert (Oq : over k a q). { rewrite Forall_forall in ON'. apply ON'. rewrite EN0. apply in_app_iff. cbn. auto. }
      destruct Oq as [Oq1 Oq2].
      pose proof ARm as ARm'. apply above_app in ARm'. destruct ARm' as [AQ' Aq]. rewrite above_cons in Aq. destruct Aq as [Aq _].
      apply below_app in BQ. destruct BQ as [BLq BQ]. rewrite below_cons in BQ. destruct BQ as [Bm BQ'].
      rewrite (incr_at X t L m (N' ++ R)) by auto. cbn [bind].
      cbv zeta. set (lr := right_subtract X k (nkey m) a). set (rr := left_subtract X k (nkey q) a).
      assert (HL : cltb (lc (nkey m)) (lc a) = true -> ceqb (lc lr) (lc (nkey m)) = true /\ ceqb (uc lr) (lc a) = true /\ is_empty X k lr = false).
      { intros El. destruct (rsub_ne X k HX (nkey m) a) as [Q1 Q2]; auto. fold lr in Q1, Q2. rewrite Q1. conjs; auto; [cord|].
        apply (ne_e X k HX). unfold Seg.ne. rewrite Q1. cord. }
      assert (HL' : cltb (lc (nkey m)) (lc a) = false -> is_empty X k lr = true) by (intros; apply rsub_e; auto).
      assert (HR : cltb (uc a) (uc (nkey q)) = true -> ceqb (lc rr) (uc a) = true /\ ceqb (uc rr) (uc (nkey q)) = true /\ is_empty X k rr = false).
      { intros El. destruct (lsub_ne X k HX (nkey q) a) as [Q1 Q2]; auto. fold rr in Q1, Q2. rewrite Q2. conjs; auto; [cord|].
        apply (ne_e X k HX). unfold Seg.ne. rewrite Q2. cord. }
      assert (HR' : cltb (uc a) (uc (nkey q)) = false -> is_empty X k rr = true) by (intros; apply lsub_e; auto).
      set (n1 := Node (nid m) lr (nval m)). set (n2 := Node (nid q) rr (nval q)).
      set (P1 := opt (cltb (lc (nkey m)) (lc a)) n1). set (P2 := opt (cltb (uc a) (uc (nkey q))) n2).
      (* the three steps on lists *)
      destruct (cut_node (fun _ => None) L m (Q' ++ q :: R) (lc a) (uc (nkey m)) n1 n1) as [Sx Px]; auto; try cord.
      { intros El. destruct (HL El) as (? & ? & ?). auto. }
      replace (cltb (uc (nkey m)) (uc (nkey m))) with false in Sx, Px by cord. cbn [opt app] in Sx, Px. fold P1 in Sx, Px. rewrite app_nil_r in Sx, Px.
      assert (BP : below k (L ++ P1) (lc a)).
      { rewrite below_app. split; auto. unfold P1, opt. destruct (cltb (lc (nkey m)) (lc a)) eqn:El; auto using below_nil.
        rewrite below_cons. split; auto using below_nil. destruct HL as (? & ? & ?); auto. cbn [nkey n1]. cord. }
      assert (Py : epost (uc (nkey m)) (lc (nkey q)) (fun _ => None) ((L ++ P1) ++ Q' ++ q :: R) ((L ++ P1) ++ q :: R)).
      { apply erase_list; auto; try cord.
        - apply srt_nes in S'. unfold nes in *. rewrite Forall_app, Forall_cons_iff, Forall_app in S'. tauto.
        - eapply (below_le X k HX); [exact BP|cord].
        - rewrite above_cons. split; [cord|]. eapply (above_ge X k HX); [exact AR|cord]. }
      assert (Sy : srt k ((L ++ P1) ++ q :: R)).
      { rewrite app_assoc in Sx. apply (srt_app X k) in Sx. destruct Sx as (S1 & S2 & S3). apply (srt_app X k) in S2. destruct S2 as (_ & S2 & _).
        apply (srt_app X k). conjs; auto. intros x y Hx Hy. apply S3; auto. apply in_app_iff. auto. }
      destruct (cut_node (fun _ => None) (L ++ P1) q R (lc (nkey q)) (uc a) n2 n2) as [Sz Pz]; auto; try cord.
      { eapply (below_le X k HX); [exact BP|cord]. }
      { intros El. destruct (HR El) as (? & ? & ?). auto. }
      replace (cltb (lc (nkey q)) (lc (nkey q))) with false in Sz, Pz by cord. cbn [opt app] in Sz, Pz. fold P2 in Sz, Pz.
      assert (PP : epost (lc a) (uc a) (fun _ => None) (nodes t) ((L ++ P1) ++ P2 ++ R)).
      { rewrite Em'. eapply (epost_trans _ (lc (nkey q))); [| |eapply (epost_trans _ (uc (nkey m))); [| |exact Px|]|exact Pz]; try cord.
        rewrite app_assoc. exact Py. }
      assert (HN : N' ++ R = Q' ++ q :: R) by (rewrite EN0; lst).
      assert (W0 : wf (Tree (L ++ m :: Q' ++ q :: R) (fresh t))) by (apply (wf_nodes X _ _ W Em')).
      assert (CONT : exists t', (t <- erase_range t (if is_empty X k lr then Some (nid m) else hd_it (N' ++ R)) (if is_empty X k rr then hd_it R else Some (nid q)) ;;
          t <- (if negb (is_empty X k lr) then set_key t (Some (nid m)) lr else Ok t) ;;
          (if negb (is_empty X k rr) then set_key t (Some (nid q)) rr else Ok t)) = Ok t' /\ nodes t' = (L ++ P1) ++ P2 ++ R /\ wf t').
      2:{ destruct CONT as (t' & C1 & C2 & C3). exists t'. conjs; auto; [|rewrite C2; auto]. split; auto. rewrite C2. exact Sz. }
      unfold P1, P2, opt. destruct (cltb (lc (nkey m)) (lc a)) eqn:El.
      * destruct HL as (_ & _ & ->); auto. cbn [negb]. rewrite HN.
        assert (W1 : wf (Tree ((L ++ [m]) ++ q :: R) (fresh t))).
        { apply (wf_drop X (L ++ [m]) Q' (q :: R)). rewrite <- app_assoc. exact W0. }
        destruct (cltb (uc a) (uc (nkey q))) eqn:Er.
        -- destruct HR as (_ & _ & ->); auto. cbn [negb].
           pose proof (erase_range_at X t (L ++ [m]) Q' (q :: R) W) as HE. cbn [Tree.hd_it] in HE. rewrite HE by (rewrite Em'; lst). clear HE. cbn [bind].
           rewrite (set_key_at X _ L m (q :: R)) by (auto; cbn [nodes]; lst). cbn [bind]. fold n1.
           assert (W2 : wf (Tree ((L ++ [n1]) ++ q :: R) (fresh t))).
           { eapply (wf_ids X); [exact W1|]. rewrite !ids_app, !ids_cons. auto. }
           rewrite (set_key_at X _ (L ++ [n1]) q R); [|rewrite <- app_assoc in W2; exact W2|cbn [nodes]; lst]. fold n2.
           eexists. split; [reflexivity|]. cbn [nodes fresh]. split; [auto|].
           eapply (wf_ids X); [exact W2|]. rewrite !ids_app, !ids_cons. auto.
        -- rewrite HR' by auto. cbn [negb].
           pose proof (erase_range_at X t (L ++ [m]) (Q' ++ [q]) R W) as HE. rewrite <- !app_assoc in HE. cbn [app] in HE.
           rewrite HE by (rewrite Em'; lst). clear HE. cbn [bind].
           assert (W3 : wf (Tree ((L ++ [m]) ++ R) (fresh t))) by (apply (wf_cons_drop X _ q); auto).
           rewrite (set_key_at X _ L m R); [|rewrite <- app_assoc in *; auto|cbn [nodes]; lst]. cbn [bind]. fold n1.
           eexists. split; [reflexivity|]. cbn [nodes fresh]. split; [lst|].
           eapply (wf_ids X); [exact W3|]. rewrite !ids_app, !ids_cons. cbn. rewrite <- app_assoc. auto.
      * rewrite HL' by auto. cbn [negb].
        destruct (cltb (uc a) (uc (nkey q))) eqn:Er.
        -- destruct HR as (_ & _ & ->); auto. cbn [negb].
           pose proof (erase_range_at X t L (m :: Q') (q :: R) W) as HE. cbn [Tree.hd_it app] in HE. rewrite HE by (rewrite Em'; lst). clear HE. cbn [bind].
           assert (W3 : wf (Tree (L ++ q :: R) (fresh t))).
           { apply (wf_drop X L (m :: Q') (q :: R)). exact W0. }
           rewrite (set_key_at X _ L q R) by auto. fold n2.
           eexists. split; [reflexivity|]. cbn [nodes fresh]. split; [lst|].
           eapply (wf_ids X); [exact W3|]. rewrite !ids_app, !ids_cons. auto.
        -- rewrite HR' by auto. cbn [negb].
           pose proof (erase_range_at X t L (m :: Q' ++ [q]) R W) as HE. rewrite <- !app_comm_cons, <- !app_assoc in HE. cbn [Tree.hd_it app] in HE.
           rewrite HE by (rewrite Em'; lst). clear HE. cbn [bind].
           eexists. split; [reflexivity|]. cbn [nodes fresh]. split; [lst|].
           apply (wf_drop X L (m :: Q' ++ [q]) R). rewrite <- app_comm_cons, <- app_assoc. exact W0.
Qed.
End MapErase.

(** Semantics of adding an interval to an interval set (proofs). *)
From Verif Require Export SetFacts.

Section SetAdd.
Context (X : dom) (k : kind).
Context (HX : dom_ok X k).
Notation I := (itv (D X)).
Notation node := (node (D X) unit).
Notation tree := (tree (D X) unit).
Notation lc := (lc X k).
Notation uc := (uc X k).
Notation cltb := (cltb X).
Notation ceqb := (ceqb X).
Notation cut := (cut X).
Notation ne := (@ne X k).
Notation hd_it := (@hd_it X unit).
Notation last_it := (@last_it X unit).
Notation sinv := (sinv X k).
Notation added := (added X k).
Ltac cord := cord_ X k HX.
Ltac lst := rewrite <- ?app_assoc; cbn [app]; congruence || auto.
Ltac bfacts c :=
  repeat match goal with
  | H : below k ?l ?d |- _ => destruct (below_b X k HX l d c H) as (? & ? & ?); clear H
  | H : above k ?l ?d |- _ => destruct (above_b X k HX l d c H) as (? & ? & ?); clear H
  end.
Ltac bnorm := cbn [Rb Lb intr app nkey]; rewrite ?Rb_app, ?Lb_app, ?intr_app; cbn [Rb Lb intr app nkey].

(* ------------------------------------------------------------ add_main, then add_rear *)
Lemma s_add_main_rear M : forall fuel t L q R a, length M < fuel -> inv k t -> nodes t = L ++ M ++ q :: R -> ne a ->
  below k L (lc a) -> above k R (uc a) -> Forall (over k a) (M ++ [q]) -> above k (M ++ [q]) (lc a) ->
  exists t' it P,
    (' (t, rest, it_) <- s_add_main X k fuel t a (hd_it (M ++ q :: R)) (Some (nid q)) ;; s_add_rear X k t rest it_)
      = Ok (t', it) /\ inv k t' /\ isit t' it /\
    nodes t' = L ++ P ++ R /\ above k P (lc a) /\ add_obs k a (M ++ [q]) P /\ spl_obs k a (M ++ [q]) P.
Proof.
  induction M as [|m M IH]; intros [|fuel] t L q R a HF Hi E Na BL AR OM AM; try (cbn in HF; lia).
  - cbn [s_add_main app]. cbn [Tree.hd_it]. rewrite iter_eqb_refl. cbn [negb bind].
    inversion OM; subst. inversion AM; subst.
    apply s_add_rear_at; auto.
  - cbn [s_add_main app]. cbn [Tree.hd_it]. pose proof Hi as [W S].
    assert (Em : nodes t = L ++ m :: (M ++ q :: R)) by (rewrite E; auto).
    pose proof (iter_eqb_hd X t L (m :: M) (q :: R) W E) as Q. cbn in Q.
    cbn [iter_eqb]. rewrite Q. cbn [negb].
    rewrite (key_at X t L m (M ++ q :: R)) by auto. cbn [bind].
    unfold s_add_segment. rewrite (key_at X t L m (M ++ q :: R)) by auto. cbn [bind].
    inversion OM as [|? ? [Om1 Om2] OM']; subst. cbn [app] in AM. rewrite above_cons in AM. destruct AM as [Am AM].
    pose proof S as S'. rewrite Em in S'. apply (srt_mid X k HX) in S'. destruct S' as (SL & SR & Nm & BLm & ARm).
    set (lead := right_subtract X k a (nkey m)).
    assert (HG : exists t1 G, (if negb (is_empty X k lead)
                then p <- cyclic_prior t (Some (nid m)) ;;
                     ' (t0, _) <- insert_hint X k t p lead tt;; Ok t0 else Ok t) = Ok t1 /\
                inv k t1 /\ nodes t1 = L ++ G ++ m :: M ++ q :: R /\
                ((G = [] /\ ceqb (lc a) (lc (nkey m)) = true) \/
                 exists g, G = [g] /\ cltb (lc a) (lc (nkey m)) = true /\
                 ceqb (lc (nkey g)) (lc a) = true /\ ceqb (uc (nkey g)) (lc (nkey m)) = true)).
    { destruct (cltb (lc a) (lc (nkey m))) eqn:El.
      - destruct (rsub_ne X k HX a (nkey m)) as [Q1 Q2]; auto. fold lead in Q1, Q2.
        assert (Nl : ne lead) by (unfold Seg.ne in *; rewrite Q1; cord).
        rewrite (ne_e X k HX lead) by auto. cbn [negb].
        rewrite (cyc_node X t L m (M ++ q :: R)) by auto. cbn [bind].
        assert (B1 : below k L (lc lead)) by (rewrite Q1; auto).
        assert (A1 : above k (m :: M ++ q :: R) (uc lead)).
        { rewrite above_cons. split; [cord|]. apply (above_ge X k HX _ _ _ ARm). unfold Seg.ne in *. cord. }
        rewrite (insert_hint_new X k HX t L (m :: M ++ q :: R)); auto. 2:{ eapply isit_last; eauto. }
        cbn [bind]. eexists _, [_]. split; [reflexivity|]. split; [apply inv_new; auto|].
        cbn [nodes]. split; [reflexivity|]. right. eexists. split; [reflexivity|]. cbn [nkey]. rewrite Q1. conjs; auto; cord.
      - assert (is_empty X k lead = true) by (apply rsub_e; auto).
        rewrite H. exists t, []. conjs; auto. left. split; auto. cord. }
    destruct HG as (t1 & G & -> & I1 & E1 & HG). cbn [bind]. pose proof I1 as [W1 S1].
    rewrite (incr_at X t1 (L ++ G) m (M ++ q :: R)) by (auto; rewrite E1; lst). cbn [bind].
    (* the rest *)
    assert (Oq : over k a q). { rewrite Forall_forall in OM'. apply OM'. apply in_app_iff. cbn. auto. }
    destruct Oq as [Oq1 Oq2].
    assert (Hqm : cltb (lc (nkey q)) (uc (nkey m)) = false).
    { apply above_app in ARm. destruct ARm as [_ ARm]. rewrite above_cons in ARm. tauto. }
    assert (Eu : cltb (uc (nkey m)) (uc a) = true) by cord.
    destruct (lsub_ne X k HX a (nkey m)) as [Q1 Q2]; auto.
    set (rest := left_subtract X k a (nkey m)) in *.
    assert (Q2' : ceqb (uc rest) (uc a) = true) by (rewrite Q2; cord).
    assert (Nr : ne rest) by (unfold Seg.ne in *; cord).
    assert (BG : below k G (lc (nkey m))).
    { destruct HG as [[-> _]|(g & -> & HG1 & HG2 & HG3)]; [constructor|]. rewrite below_cons. split; [cord|constructor]. }
    assert (ARm' : above k (M ++ [q]) (lc rest)).
    { apply above_app in ARm. destruct ARm as [A1 A2]. rewrite above_cons in A2. rewrite above_app, above_cons.
      conjs; auto using above_nil; try cord. apply (above_ge X k HX _ _ _ A1). cord. }
    destruct (IH fuel t1 (L ++ G ++ [m]) q R rest) as (t' & it & P & HP & IP & VP & EP & AP & AO & SO); auto.
    + cbn in HF. lia.
    + rewrite E1. lst.
    + rewrite !below_app, below_cons. unfold Seg.ne in *. conjs; auto using below_nil; try cord.
      * apply (below_le X k HX _ _ _ BLm). cord.
      * apply (below_le X k HX _ _ _ BG). cord.
    + apply (above_ge X k HX _ _ _ AR). cord.
    + assert (NM : nes k (M ++ [q])).
      { apply srt_nes in SR. unfold nes in *. rewrite Forall_app in *. rewrite Forall_cons_iff in *.
        destruct SR as (? & ? & ?). repeat split; auto. }
      unfold nes, above in *. rewrite Forall_forall in *. intros x Hx.
      specialize (OM' x Hx). specialize (ARm' x Hx). specialize (NM x Hx). destruct OM'.
      unfold over, Seg.ne in *. cord.
    + exists t', it, (G ++ m :: P). split; [exact HP|]. split; [auto|]. split; [auto|].
      split; [rewrite EP; lst|]. split; [|].
      * rewrite above_app, above_cons. conjs; auto.
        -- destruct HG as [[-> _]|(g & -> & HG1 & HG2 & HG3)]; [constructor|]. rewrite above_cons. split; [cord|constructor].
        -- apply (above_ge X k HX _ _ _ AP). unfold Seg.ne in *. cord.
      * clear HF IH BL AR OM OM' AM Hi E W S Em Q BLm ARm SL SR lead I1 W1 S1 E1 BG HP IP VP EP Oq1 Oq2.
        change ((m :: M) ++ [q]) with (m :: (M ++ [q])) in *. set (MM := M ++ [q]) in *.
        split; intros c; destruct (AO c) as [AO1 AO2]; specialize (SO c); bfacts c; clear AO.
        -- bnorm. clear SO.
           destruct HG as [[-> HG]|(g & -> & HG1 & HG2 & HG3)]; bnorm; unfold inr, inl, Seg.ne in *; split; cord.
        -- unfold bord, bordi in *. bnorm.
           destruct HG as [[-> HG]|(g & -> & HG1 & HG2 & HG3)]; bnorm; unfold inr, inl, ini, Seg.ne in *; cord.
Qed.

(* ------------------------------------------------------------ splitting: add_over *)
Lemma s_add_over_split t L M R a : inv k t -> nodes t = L ++ M ++ R -> ne a -> M <> [] ->
  below k L (lc a) -> Forall (over k a) M -> above k R (uc a) ->
  forall Q q, M = Q ++ [q] ->
  exists t' it P, s_add_over X k Splitting t a (Some (nid q)) = Ok (t', it) /\
    inv k t' /\ isit t' it /\ nodes t' = L ++ P ++ R /\ add_obs k a M P /\ spl_obs k a M P.
Proof.
  intros Hi E Na NM BL OM AR Q q EQ. pose proof Hi as [W S].
  destruct M as [|m M]; [congruence|]. clear NM.
  cbn [s_add_over].
  rewrite (lower_bound_at X k HX t L ((m :: M) ++ R)); auto.
  2:{ apply (overl_MR X k HX); auto. rewrite E in S. apply (srt_app X k) in S. tauto. }
  cbn [bind app Tree.hd_it].
  assert (Em : nodes t = L ++ m :: (M ++ R)) by (rewrite E; auto).
  unfold s_add_front. rewrite (key_at X t L m (M ++ R)) by auto. cbn [bind].
  inversion OM as [|? ? [Om1 Om2] OM']; subst.
  pose proof S as S'. rewrite Em in S'. apply (srt_mid X k HX) in S'. destruct S' as (SL & SR & Nm & BLm & ARm).
  assert (NQ : nes k M) by (apply srt_nes in SR; unfold nes in *; rewrite Forall_app in SR; tauto).
  assert (AM : above k M (lc a)).
  { rewrite above_app in ARm. destruct ARm as [A1 _]. apply (above_ge X k HX _ _ _ A1). cord. }
  destruct (cltb (lc (nkey m)) (lc a)) eqn:El.
  - destruct (rsub_ne X k HX (nkey m) a) as [Q1 Q2]; auto.
    set (lr := right_subtract X k (nkey m) a) in *.
    assert (Q1' : ceqb (lc lr) (lc (nkey m)) = true) by (rewrite Q1; cord).
    assert (Nl : ne lr) by (unfold Seg.ne in *; cord).
    rewrite (ne_e X k HX lr) by auto. cbn [negb].
    rewrite (cyc_node X t L m (M ++ R)) by auto. cbn [bind].
    rewrite (set_key_at X t L m (M ++ R)) by auto. cbn [bind].
    destruct (lsub_ne X k HX (nkey m) lr) as [Q3 Q4]; auto; try (unfold Seg.ne in *; cord).
    set (km := left_subtract X k (nkey m) lr) in *.
    assert (Q4' : ceqb (uc km) (uc (nkey m)) = true) by (rewrite Q4; cord).
    set (m1 := Node (nid m) km (nval m)).
    set (t1 := Tree (L ++ m1 :: M ++ R) (fresh t)).
    assert (I1 : inv k t1).
    { split.
      - eapply (wf_ids X); [apply (wf_nodes X _ _ W Em)|]. rewrite !ids_app, !ids_cons. auto.
      - cbn. apply (srt_mid X k HX). cbn. unfold Seg.ne in *. conjs; auto; try cord.
        + apply (below_le X k HX _ _ _ BLm). cord.
        + apply (above_ge X k HX _ _ _ ARm). cord. }
    assert (BB : below k L (lc lr)) by (rewrite Q1; auto).
    assert (AA : above k (m1 :: M ++ R) (uc lr)).
    { rewrite above_cons. cbn [nkey m1]. unfold Seg.ne in *. split; [cord|].
      apply (above_ge X k HX _ _ _ ARm). cord. }
    rewrite (insert_hint_new X k HX t1 L (m1 :: M ++ R)); auto; try apply I1.
    2:{ eapply isit_last. reflexivity. }
    cbn [bind].
    pose proof (inv_new X k HX t1 L (m1 :: M ++ R) lr tt I1 eq_refl Nl BB AA) as I2.
    set (n0 := Node (fresh t1) lr tt) in *. set (t2 := Tree _ (Datatypes.S (fresh t1))) in *.
    assert (EM1 : exists Q1 q1, m1 :: M = Q1 ++ [q1] /\ nid q1 = nid q).
    { destruct Q as [|p Q]; cbn in EQ; injection EQ as Ea Eb; subst.
      - exists [], m1. split; auto.
      - exists (m1 :: Q), q. split; auto. }
    destruct EM1 as (Qx & qx & EM1 & Ei).
    assert (OM1 : Forall (over k a) (Qx ++ [qx])).
    { rewrite <- EM1. constructor; auto. unfold over, m1, Seg.ne in *. cbn. cord. }
    assert (AM1 : above k (Qx ++ [qx]) (lc a)).
    { rewrite <- EM1. rewrite above_cons. split; auto. cbn. cord. }
    destruct (s_add_main_rear Qx (Datatypes.S (length (nodes t2))) t2 (L ++ [n0]) qx R a)
      as (t' & it & P & HP & IP & VP & EP & AP & AO & SO); auto.
    + cbn. rewrite !app_length. cbn [length]. rewrite app_length.
      assert (length (m1 :: M) = length (Qx ++ [qx])) by congruence. rewrite app_length in H. cbn in H. lia.
    + unfold t2. cbn [nodes]. change (m1 :: M ++ R) with ((m1 :: M) ++ R). rewrite EM1. lst.
    + rewrite below_app, below_cons. conjs; auto using below_nil. cbn. cord.
    + exists t', it, (n0 :: P). split.
      { rewrite <- Ei. rewrite <- HP. f_equal. f_equal.
        change (Qx ++ qx :: R) with (Qx ++ [qx] ++ R). rewrite app_assoc, <- EM1. reflexivity. }
      split; [auto|]. split; [auto|]. split; [rewrite EP; lst|].
      rewrite <- EM1 in AO, SO.
      clear HP IP VP EP OM1 AM1 EM1 I2 I1 AA BB OM OM' Hi E W S Em SL SR BL AR BLm ARm NQ t2 EQ AM.
      split; intros c; destruct (AO c) as [AO1 AO2]; specialize (SO c); bfacts c; clear AO.
      * revert AO1 AO2. clear SO. bnorm. unfold n0, m1. cbn [nkey]. intros AO1 AO2.
        set (r := Rb k M c) in *. set (l := Lb k M c) in *. set (i := intr k M c) in *.
        unfold inr, inl, Seg.ne in *; split; cord.
      * revert AO1 AO2 SO. unfold bord, bordi in *. bnorm. unfold n0, m1. cbn [nkey]. intros AO1 AO2 SO.
        set (r := Rb k M c) in *. set (l := Lb k M c) in *. set (i := intr k M c) in *.
        unfold inr, inl, ini, Seg.ne in *; cord.
  - assert (H : is_empty X k (right_subtract X k (nkey m) a) = true) by (apply rsub_e; auto).
    rewrite H. cbn [negb bind]. clear H.
    destruct (s_add_main_rear Q (Datatypes.S (length (nodes t))) t L q R a)
      as (t' & it & P & HP & IP & VP & EP & AP & AO & SO); auto.
    + rewrite E, !app_length, EQ, app_length. cbn. lia.
    + rewrite E, EQ. lst.
    + rewrite <- EQ; auto.
    + rewrite <- EQ. rewrite above_cons. split; auto.
    + exists t', it, P. split.
      { rewrite <- HP. f_equal. f_equal. 
        change (Q ++ q :: R) with (Q ++ [q] ++ R). rewrite app_assoc, <- EQ. reflexivity. }
      rewrite EQ. split; auto.
Qed.

End SetAdd.

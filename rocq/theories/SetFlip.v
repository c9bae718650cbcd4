(** Symmetric difference on interval sets (proofs). *)
From Verif Require Export SetWhole.

Section SetFlip.
Context (X : dom) (k : kind).
Context (HX : dom_ok X k).
Notation I := (itv (D X)).
Notation node := (node (D X) unit).
Notation tree := (tree (D X) unit).
Notation lc := (lc X k).
Notation uc := (uc X k).
Notation cltb := (cltb X).
Notation ceqb := (ceqb X).
Notation cut := (cut X).
Notation ne := (@ne X k).
Notation hd_it := (@hd_it X unit).
Notation sinv := (sinv X k).
Notation added := (added X k).
Notation subbed := (subbed X k).
Notation addsP := (addsP X k).
Ltac cord := cord_ X k HX.

(** what flipping a gives *)
Definition flipped (st : style) (a : I) (M P : list node) : Prop := forall c,
  Rb k P c = xorb (Rb k M c) (inr k a c) /\ Lb k P c = xorb (Lb k M c) (inl k a c) /\
  (st <> Joining -> intr k P c = (intr k M c && negb (inl k a c || inr k a c))
                              || (ini k a c && negb (Lb k M c || Rb k M c))).

(** an interval with no common cut with M *)
Definition apart (a : I) (M : list node) : Prop := forall c,
  (inr k a c = true -> Rb k M c = false) /\ (inl k a c = true -> Lb k M c = false).

Lemma apart_LR a L R : ne a -> below k L (lc a) -> above k R (uc a) -> apart a (L ++ R).
Proof.
  intros Na BL AR c. destruct (seg_out X k HX L R a c Na BL AR) as [F1 F2].
  rewrite Rb_app, Lb_app. split; intros H; [apply F1 in H|apply F2 in H]; destruct H as (-> & -> & _); auto.
Qed.
Lemma apart_empty a M : is_empty X k a = true -> apart a M.
Proof. intros E. apply (not_ne X k HX) in E. intros c. unfold inr, inl. split; intros; exfalso; cord. Qed.

Lemma flip_apart st a M P : apart a M -> addsP st [a] M P -> flipped st a M P.
Proof.
  intros HA [H S] c. destruct (HA c) as [A1 A2]. destruct (H c) as [H1 H2]. cbn in H1, H2. rewrite orb_false_r in *.
  pose proof (intr_b X k HX M c) as IM. pose proof (ini_b X k HX a c) as Ia.
  assert (HS : st <> Joining -> intr k P c = intr k M c || ini k a c).
  { destruct st; intros Hst; [congruence| |]; specialize (S c); cbn in S; rewrite ?orb_false_r in S; auto.
    rewrite S, H1, H2. unfold bord, bordi. clear S H1 H2 H HA. revert A1 A2 IM Ia.
    generalize (Rb k M c) (Lb k M c) (intr k M c) (inr k a c) (inl k a c) (ini k a c). intros. bcases. }
  clear S H HA. rewrite H1, H2. conjs.
  - destruct (inr k a c); [rewrite A1 by auto|]; destruct (Rb k M c); auto.
  - destruct (inl k a c); [rewrite A2 by auto|]; destruct (Lb k M c); auto.
  - intros Hst. rewrite (HS Hst). clear HS H1 H2. revert A1 A2 IM Ia.
    generalize (Rb k M c) (Lb k M c) (intr k M c) (inr k a c) (inl k a c) (ini k a c). intros. bcases.
Qed.

Lemma subbed_above a M P d : srt k P -> subbed a M P -> above k M d -> above k P d.
Proof.
  intros S H A. unfold above. rewrite Forall_forall. intros p Hp.
  pose proof (srt_nes X k P S) as N. unfold nes in N. rewrite Forall_forall in N. specialize (N p Hp).
  assert (E : Rb k P (lc (nkey p)) = true). { apply Rb_iff. exists p. split; auto. unfold inr, Seg.ne in *. cord. }
  destruct (H (lc (nkey p))) as (H1 & _). rewrite H1 in E. apply andb_true_iff in E. destruct E as [E _].
  destruct (above_b X k HX M d (lc (nkey p)) A) as (A1 & _).
  destruct (cltb (lc (nkey p)) d); auto. rewrite A1 in E by auto. discriminate.
Qed.

(** one round of the loop, at a cut *)
Lemma flip_step (R0 L0 I0 ir il ii rr rl ri gr gl gi br bl bi sr sl si R1 L1 I1 R2 L2 I2 : bool) :
  (* span = leftover + common + rest *)
  br = gr || ir || sr -> bl = gl || il || sl ->
  (gr = true -> ir = false /\ sr = false /\ R0 = false) -> (ir = true -> gr = false /\ sr = false /\ R0 = true) ->
  (sr = true -> gr = false /\ ir = false) ->
  (gl = true -> il = false /\ sl = false /\ L0 = false) -> (il = true -> gl = false /\ sl = false /\ L0 = true) ->
  (sl = true -> gl = false /\ il = false) ->
  (gl = true -> sr = false) -> (sl = true -> gr = false) ->
  (gi = true -> gr = true /\ gl = true) -> (ii = true -> ir = true /\ il = true) -> (si = true -> sr = true /\ sl = true) ->
  (bi = true -> br = true /\ bl = true) -> (I0 = true -> R0 = true /\ L0 = true) ->
  (br = true -> bl = true -> bi = true) -> (gr = true -> gl = true -> gi = true) -> (sr = true -> sl = true -> si = true) ->
  R1 = R0 && negb ir /\ L1 = L0 && negb il -> R2 = xorb R1 gr /\ L2 = xorb L1 gl ->
  xorb R2 sr = xorb R0 br /\ xorb L2 sl = xorb L0 bl /\
  (I1 = I0 && negb (il || ir) -> I2 = (I1 && negb (gl || gr)) || (gi && negb (L1 || R1)) ->
   (I2 && negb (sl || sr)) || (si && negb (L2 || R2)) = (I0 && negb (bl || br)) || (bi && negb (L0 || R0))).
Proof. intros. conjs; intros; bcases. Qed.

Lemma s_flip_loop_at st : forall M fuel t L R a, sinv st t -> nodes t = L ++ M ++ R -> length M < fuel ->
  (is_empty X k a = true /\ M = [] \/
   ne a /\ below k L (lc a) /\ Forall (over k a) M /\ above k R (uc a)) ->
  exists t' b, s_flip_loop X k fuel st t a (hd_it (M ++ R)) (hd_it R) = Ok (t', b) /\ sinv st t' /\ apart b (nodes t') /\
    forall P, addsP st [b] (nodes t') P -> flipped st a (nodes t) P.
Proof.
  induction M as [|m M IH]; intros [|fuel] t L R a Hi E Hf HA; try (cbn in Hf; lia); cbn [s_flip_loop].
  - cbn [app]. rewrite iter_eqb_refl. cbn [negb]. exists t, a. conjs; auto.
    + destruct HA as [[HA _]|(Na & BL & _ & AR)]; [apply apart_empty; auto|]. rewrite E. apply apart_LR; auto.
    + intros P HP. apply flip_apart; auto.
      destruct HA as [[HA _]|(Na & BL & _ & AR)]; [apply apart_empty; auto|]. rewrite E. apply apart_LR; auto.
  - destruct HA as [[_ HA]|(Na & BL & OM & AR)]; [discriminate|].
    rewrite (iter_eqb_hd X t L (m :: M) R) by (auto; apply Hi). cbn [negb app Tree.hd_it].
    pose proof Hi as [[W S] J].
    rewrite (key_at X t L m (M ++ R)) by auto. cbn [bind].
    rewrite (incr_at X t L m (M ++ R)) by auto. cbn [bind].
    pose proof S as S'. rewrite E in S'. cbn [app] in S'. apply (srt_mid X k HX) in S'.
    destruct S' as (SL & SMR & Nm & BLm & AMR).
    inversion OM as [|? ? [O1 O2] OM']; subst. clear OM.
    assert (Ni : ne (inter X k a (nkey m))).
    { unfold Seg.ne in *. rewrite inter_lc, inter_uc by auto. unfold cmax, cmin. repeat ifg; cord. }
    assert (Li : lc (inter X k a (nkey m)) = cmax X (lc a) (lc (nkey m))) by (apply inter_lc; auto).
    assert (Ui : uc (inter X k a (nkey m)) = cmin X (uc a) (uc (nkey m))) by (apply inter_uc; auto).
    set (i := inter X k a (nkey m)) in *.
    destruct (s_subtract_dec X k HX t L [m] (M ++ R) i (proj1 Hi) Ni) as (t1 & P & Et1 & I1 & N1 & B1); auto.
    { apply (below_le X k HX L (lc a)); auto. rewrite Li. unfold cmax. repeat ifg; cord. }
    { constructor; auto. unfold over. rewrite Li, Ui. unfold cmax, cmin. split; repeat ifg; unfold Seg.ne in *; cord. }
    { apply (above_ge X k HX _ (uc (nkey m))); auto. rewrite Ui. unfold cmin. repeat ifg; cord. }
    rewrite Et1. cbn [bind].
    assert (B1' : subbed i (nodes t) (nodes t1)).
    { rewrite E, N1. change (m :: M) with ([m] ++ M). rewrite <- app_assoc. apply lift_sub; auto.
      { apply (below_le X k HX L (lc a)); auto. rewrite Li. unfold cmax. repeat ifg; cord. }
      { apply (above_ge X k HX _ (uc (nkey m))); auto. rewrite Ui. unfold cmin. repeat ifg; cord. } }
    assert (Hi1 : sinv st t1) by (eapply subbed_sinv; eauto).
    pose proof I1 as [W1 S1]. pose proof S1 as S1'. rewrite N1 in S1'. apply srt_parts in S1'. destruct S1' as (_ & SP & _).
    assert (AP : above k P (lc (nkey m))).
    { apply (subbed_above i [m] P); auto. apply above_cons. split; [cord|constructor]. }
    (* adding the left over *)
    set (lo := right_subtract X k a (nkey m)).
    assert (G : exists t2 h2 L2, s_add X k st t1 lo = Ok (t2, h2) /\ sinv st t2 /\ nodes t2 = L2 ++ P ++ M ++ R /\
       addsP st [lo] (nodes t1) (nodes t2) /\ apart lo (nodes t1) /\
       ((is_empty X k lo = true /\ cltb (lc a) (lc (nkey m)) = false) \/
         lc lo = lc a /\ ceqb (uc lo) (lc (nkey m)) = true /\ cltb (lc a) (lc (nkey m)) = true)).
    { destruct (cltb (lc a) (lc (nkey m))) eqn:C.
      - destruct (rsub_ne X k HX a (nkey m) Na Nm) as [Ll Ul]; auto. fold lo in Ll, Ul.
        assert (Nlo : ne lo) by (unfold Seg.ne in *; rewrite Ll; cord).
        assert (APM : above k (P ++ M ++ R) (lc (nkey m))).
        { rewrite above_app. split; auto. apply (above_ge X k HX _ (uc (nkey m))); auto. unfold Seg.ne in *. cord. }
        assert (BLl : below k L (lc lo)) by (rewrite Ll; auto).
        assert (APl : above k (P ++ M ++ R) (uc lo)).
        { apply (above_ge X k HX _ (lc (nkey m))); auto. cord. }
        destruct (s_add_dec X k HX st t1 L (P ++ M ++ R) lo) as (t2 & h2 & E2 & I2 & _ & A2 & Fr); auto.
        destruct Fr as [L2 N2].
        { intros s R' Es. destruct P as [|p P].
          - assert (HH : above k (s :: R') (uc (nkey m))) by (cbn [app] in Es; rewrite <- Es; auto).
            rewrite above_cons in HH. unfold Seg.ne in *. cord.
          - cbn [app] in Es. inversion Es; subst s. clear Es.
            assert (E1 : Rb k (p :: P) (lc (nkey p)) = true).
            { destruct SP as (Np & _). cbn. unfold inr at 1. unfold Seg.ne in *. rewrite Np. replace (cltb (lc (nkey p)) (lc (nkey p))) with false by cord. auto. }
            destruct (B1 (lc (nkey p))) as (Q & _). rewrite Q in E1. apply andb_true_iff in E1. destruct E1 as [_ E1].
            rewrite above_cons in AP. destruct AP as [AP _]. unfold inr in E1. rewrite Li, Ui in E1. unfold cmax, cmin in E1.
            rewrite C in E1. unfold Seg.ne in *. revert E1. ifg; cord. }
        exists t2, h2, L2. conjs; auto.
        + apply added_adds; auto.
        + rewrite N1. apply apart_LR; auto.
      - assert (El : is_empty X k lo = true) by (apply (rsub_e X k HX); auto).
        exists t1, None, L. rewrite (s_add_empty X k st t1 lo El). conjs; auto.
        + apply adds_empty; auto.
        + apply apart_empty; auto. }
    destruct G as (t2 & h2 & L2 & E2 & Hi2 & N2 & A2 & P2 & Hlo). rewrite E2. cbn [bind].
    pose proof (flip_apart st lo _ _ P2 A2) as F2.
    (* the rest *)
    set (b := left_subtract X k a (nkey m)).
    assert (Hb : is_empty X k b = true /\ M = [] /\ cltb (uc (nkey m)) (uc a) = false \/
        ne b /\ ceqb (lc b) (uc (nkey m)) = true /\ uc b = uc a /\ cltb (uc (nkey m)) (uc a) = true).
    { destruct (cltb (uc (nkey m)) (uc a)) eqn:C.
      - right. destruct (lsub_ne X k HX a (nkey m) Nm Na) as [Lbb Ubb]; auto. fold b in Lbb, Ubb.
        conjs; auto. unfold Seg.ne. rewrite Ubb. cord.
      - left. split; [apply (lsub_e X k HX); auto|]. split; auto. destruct M as [|m' M]; auto. exfalso.
        inversion OM' as [|? ? [Q1 Q2] _]; subst. cbn [app] in AMR. rewrite above_cons in AMR. cord. }
    assert (BL2 : below k (L2 ++ P) (uc (nkey m))).
    { unfold below. rewrite Forall_forall. intros n Hn.
      destruct (cltb (uc (nkey m)) (uc (nkey n))) eqn:C; auto. exfalso.
      pose proof (proj2 (proj1 Hi2)) as S2. rewrite N2, app_assoc in S2.
      pose proof (srt_nes X k _ S2) as NN. unfold nes in NN. rewrite Forall_forall in NN.
      assert (Nn : ne (nkey n)) by (apply NN; rewrite in_app_iff; auto).
      rewrite srt_app in S2. destruct S2 as (_ & _ & Hord).
      assert (EL : Lb k (nodes t2) (uc (nkey n)) = true).
      { apply Lb_iff. exists n. split. { rewrite N2, app_assoc, in_app_iff. auto. } unfold inl, Seg.ne in *. cord. }
      destruct (F2 (uc (nkey n))) as (_ & F & _). rewrite F in EL. clear F.
      assert (inl k lo (uc (nkey n)) = false).
      { unfold inl. destruct Hlo as [[El _]|(l1 & l2 & l3)]; [apply (not_ne X k HX) in El; cord|].
        rewrite l1. unfold Seg.ne in *. cord. }
      rewrite H, xorb_false_r in EL. rewrite N1 in EL. rewrite !Lb_app in EL.
      destruct (below_b X k HX L _ (uc (nkey n)) BLm) as (_ & Q & _).
      rewrite Q in EL by (unfold Seg.ne in *; cord). clear Q. cbn [orb] in EL.
      assert (Lb k P (uc (nkey n)) = false).
      { destruct (B1 (uc (nkey n))) as (_ & Q & _). rewrite Q. cbn [Lb]. unfold inl at 1.
        rewrite C. cbn. rewrite andb_false_r. auto. }
      rewrite H0 in EL. cbn [orb] in EL. rewrite <- Lb_app in EL. apply Lb_iff in EL. destruct EL as (q & Hq & EL).
      specialize (Hord n q Hn Hq). unfold inl in EL. cord. }
    destruct (IH fuel t2 (L2 ++ P) R b Hi2) as (t' & b' & E' & I' & A' & F'); auto.
    { rewrite N2. rewrite <- !app_assoc. auto. }
    { cbn in Hf. lia. }
    { destruct Hb as [(Hb & -> & _)|(Nb & Lbb & Ubb & Cb)]; [left; auto|right]. conjs; auto.
      - apply (below_le X k HX _ (uc (nkey m))); auto. cord.
      - assert (HM : above k M (uc (nkey m))) by (apply above_app in AMR; tauto).
        assert (NM : nes k M). { apply srt_nes. apply srt_app in SMR. tauto. }
        unfold above, nes in *. rewrite Forall_forall in *. intros q Hq. specialize (HM q Hq). specialize (NM q Hq). 
        destruct (OM' q Hq) as [Q1 Q2]. unfold over. rewrite Ubb. unfold Seg.ne in *. split; cord.
      - rewrite Ubb. auto. }
    exists t', b'. conjs; auto. intros P' HP. specialize (F' P' HP). intros c.
    destruct (F' c) as (f1 & f2 & f3), (F2 c) as (g1 & g2 & g3), (B1' c) as (h1 & h2' & h3).
    rewrite f1, f2.
    assert (Xr : inr k (nkey m) c = true -> Rb k (nodes t) c = true).
    { intros Q. apply Rb_iff. exists m. split; auto. rewrite E, in_app_iff. cbn. auto. }
    assert (Xl : inl k (nkey m) c = true -> Lb k (nodes t) c = true).
    { intros Q. apply Lb_iff. exists m. split; auto. rewrite E, in_app_iff. cbn. auto. }
    assert (Yr : inr k a c = true -> cltb c (lc (nkey m)) = true -> Rb k (nodes t) c = false).
    { intros Q1 Q2. rewrite E. cbn [app]. rewrite Rb_app. cbn [Rb].
      destruct (below_b X k HX L _ c BL) as (K1 & _). destruct (above_b X k HX _ _ c AMR) as (K2 & _).
      unfold inr in *. rewrite K1, K2 by (clear - HX Q1 Q2 Nm; unfold Seg.ne in *; cord).
      clear - HX Q2. cord. }
    assert (Yl : inl k a c = true -> cltb (lc (nkey m)) c = false -> Lb k (nodes t) c = false).
    { intros Q1 Q2. rewrite E. cbn [app]. rewrite Lb_app. cbn [Lb].
      destruct (below_b X k HX L _ c BL) as (_ & K1 & _). destruct (above_b X k HX _ _ c AMR) as (_ & K2 & _).
      unfold inl in *. rewrite K1, K2 by (clear - HX Q1 Q2 Nm; unfold Seg.ne in *; cord).
      clear - HX Q2. cord. }
    pose proof (intr_b X k HX (nodes t) c) as Hint.
    assert (HS := flip_step (Rb k (nodes t) c) (Lb k (nodes t) c) (intr k (nodes t) c)
       (inr k i c) (inl k i c) (ini k i c) false false false
       (inr k lo c) (inl k lo c) (ini k lo c) (inr k a c) (inl k a c) (ini k a c) (inr k b c) (inl k b c) (ini k b c)
       (Rb k (nodes t1) c) (Lb k (nodes t1) c) (intr k (nodes t1) c) (Rb k (nodes t2) c) (Lb k (nodes t2) c) (intr k (nodes t2) c)).
    clear F' F2 B1' B1 A2 A' P2 AP AMR BL BLm AR BL2 HP SMR SL J OM'.
    assert (Vi : inr k i c = inr k a c && inr k (nkey m) c /\ inl k i c = inl k a c && inl k (nkey m) c /\
                 ini k i c = ini k a c && ini k (nkey m) c) by (apply (inter_obs X k HX); auto).
    destruct Vi as (V1 & V2 & V3).
    assert (Vlo : inr k lo c = inr k a c && cltb c (lc (nkey m)) /\ inl k lo c = inl k a c && negb (cltb (lc (nkey m)) c)
             /\ ini k lo c = ini k a c && cltb c (lc (nkey m))).
    { clear - HX Hlo Na Nm O1 O2. unfold inr, inl, ini, Seg.ne in *.
      destruct Hlo as [[El Hlo]|(l1 & l2 & l3)].
      - apply (not_ne X k HX) in El. conjs; cord.
      - rewrite l1. conjs; cord. }
    assert (Vb : inr k b c = inr k a c && negb (cltb c (uc (nkey m))) /\ inl k b c = inl k a c && cltb (uc (nkey m)) c
             /\ ini k b c = ini k a c && cltb (uc (nkey m)) c).
    { clear - HX Hb Na Nm O1 O2. unfold inr, inl, ini, Seg.ne in *.
      destruct Hb as [(El & _ & Hb)|(l0 & l1 & l2 & l3)].
      - apply (not_ne X k HX) in El. conjs; cord.
      - rewrite l2. conjs; cord. }
    destruct Vlo as (V4 & V5 & V6), Vb as (V7 & V8 & V9).
    assert (Wm : inr k (nkey m) c = negb (cltb c (lc (nkey m))) && cltb c (uc (nkey m)) /\
       inl k (nkey m) c = cltb (lc (nkey m)) c && negb (cltb (uc (nkey m)) c) /\
       ini k (nkey m) c = cltb (lc (nkey m)) c && cltb c (uc (nkey m))) by (unfold inr, inl, ini; auto).
    destruct Wm as (W2 & W3 & W4).
    assert (Z1 : cltb c (lc (nkey m)) = true -> cltb (lc (nkey m)) c = false /\ cltb c (uc (nkey m)) = true /\ cltb (uc (nkey m)) c = false)
      by (clear - HX Nm; unfold Seg.ne in *; conjs; cord).
    assert (Z2 : cltb (uc (nkey m)) c = true -> cltb (lc (nkey m)) c = true /\ cltb c (uc (nkey m)) = false /\ cltb c (lc (nkey m)) = false)
      by (clear - HX Nm; unfold Seg.ne in *; conjs; cord).
    assert (Z3 : cltb (lc (nkey m)) c = false -> cltb c (uc (nkey m)) = true)
      by (clear - HX Nm; unfold Seg.ne in *; conjs; cord).
    assert (Z4 : inr k a c = true -> inl k a c = true -> ini k a c = true) by (clear - HX Na; unfold inr, inl, ini, Seg.ne in *; cord).
    assert (Z5 : ini k a c = true -> inr k a c = true /\ inl k a c = true) by (apply (ini_b X k HX)).
    revert f3 g1 g2 g3 h1 h2' h3 HS Xr Xl Yr Yl Hint V1 V2 V3 V4 V5 V6 V7 V8 V9 W2 W3 W4 Z1 Z2 Z3 Z4 Z5.
    clear. intros f3 g1 g2 g3 h1 h2' h3 HS Xr Xl Yr Yl Hint V1 V2 V3 V4 V5 V6 V7 V8 V9 W2 W3 W4 Z1 Z2 Z3 Z4 Z5.
    rewrite V1, V2, V4, V5, V6, V7, V8, V9 in *. rewrite W2, W3 in *.
    destruct HS as (Q1 & Q2 & Q3); auto;
      try (revert Xr Xl Yr Yl Hint Z1 Z2 Z3 Z4 Z5; clear;
      generalize (Rb k (nodes t) c) (Lb k (nodes t) c) (intr k (nodes t) c) (inr k a c) (inl k a c) (ini k a c)
        (cltb c (lc (nkey m))) (cltb (lc (nkey m)) c) (cltb c (uc (nkey m))) (cltb (uc (nkey m)) c); intros; conjs; bcases; fail).
    { rewrite V3, W4. revert Xr Xl Yr Yl Hint Z1 Z2 Z3 Z4 Z5; clear;
      generalize (Rb k (nodes t) c) (Lb k (nodes t) c) (intr k (nodes t) c) (inr k a c) (inl k a c) (ini k a c)
        (cltb c (lc (nkey m))) (cltb (lc (nkey m)) c) (cltb c (uc (nkey m))) (cltb (uc (nkey m)) c). intros; conjs; bcases. }
    conjs; auto. intros Hst. rewrite f3 by auto. apply Q3; auto.
Qed.

Lemma s_add_adds st t a : sinv st t -> exists t' it, s_add X k st t a = Ok (t', it) /\ sinv st t' /\ isit t' it /\
  addsP st [a] (nodes t) (nodes t').
Proof.
  intros Hi. destruct (is_empty X k a) eqn:Ea.
  - exists t, None. rewrite (s_add_empty X k st t a Ea). conjs; auto. { exact Logic.I. } apply adds_empty; auto.
  - apply (ne_iff X k HX) in Ea. destruct (s_add_at X k HX st t a Hi Ea) as (t' & it & H1 & H2 & H3 & H4).
    exists t', it. conjs; auto. apply added_adds; auto.
Qed.

Theorem s_flip_seg_at st t a : sinv st t -> ne a ->
  exists t', s_flip_seg X k st t a = Ok t' /\ sinv st t' /\ flipped st a (nodes t) (nodes t').
Proof.
  intros Hi Na. unfold s_flip_seg.
  destruct (decomp X k HX a (nodes t) (proj2 (proj1 Hi)) Na) as (L & M & R & E & BL & OM & AR).
  rewrite (equal_range_at X k HX t L M R a); auto; [|apply Hi]. cbn [bind].
  destruct (s_flip_loop_at st M (S (length (nodes t))) t L R a Hi E) as (t1 & b & -> & I1 & A1 & F1).
  { rewrite E, !app_length. lia. }
  { right. auto. }
  cbn [bind]. destruct (s_add_adds st t1 b I1) as (t' & it & -> & I' & _ & A'). exists t'. conjs; auto.
Qed.

(** flipping a sorted list of segments, one after the other *)
Definition flips (st : style) (l : list node) (M P : list node) : Prop := forall c,
  Rb k P c = xorb (Rb k M c) (Rb k l c) /\ Lb k P c = xorb (Lb k M c) (Lb k l c) /\
  (st <> Joining -> intr k P c = (intr k M c && negb (Lb k l c || Rb k l c))
                              || (intr k l c && negb (Lb k M c || Rb k M c))).

Lemma flips_nil st M : flips st [] M M.
Proof. intros c. cbn. rewrite !xorb_false_r, !andb_true_r, !orb_false_r. auto. Qed.

Lemma flips_snoc st l n M P Q : srt k (l ++ [n]) -> flips st l M P -> flipped st (nkey n) P Q -> flips st (l ++ [n]) M Q.
Proof.
  intros S H1 H2 c. destruct (H1 c) as (A1 & A2 & A3), (H2 c) as (B1 & B2 & B3).
  pose proof (srt_app_b X k HX _ _ c S) as (U1 & U2 & U3).
  pose proof (intr_b X k HX l c) as Il. pose proof (ini_b X k HX (nkey n) c) as In_.
  rewrite !Rb_app, !Lb_app, !intr_app in *. cbn [Rb Lb intr] in *. rewrite !orb_false_r in *.
  rewrite B1, B2, A1, A2. conjs.
  - revert U1; clear. generalize (Rb k M c) (Rb k l c) (inr k (nkey n) c). intros. bcases.
  - revert U2; clear. generalize (Lb k M c) (Lb k l c) (inl k (nkey n) c). intros. bcases.
  - intros Hst. rewrite B3, A3, A2, A1 by auto. pose proof (intr_b X k HX M c) as IM. revert U1 U2 U3 Il In_ IM. clear.
    generalize (Rb k M c) (Rb k l c) (inr k (nkey n) c) (Lb k M c) (Lb k l c) (inl k (nkey n) c)
      (intr k M c) (intr k l c) (ini k (nkey n) c). intros. bcases.
Qed.

Lemma foldM_snoc {A B} (f : A -> B -> res A) l b a :
  foldM f a (l ++ [b]) = (a' <- foldM f a l ;; f a' b).
Proof. rewrite foldM_app. destruct (foldM f a l); cbn; auto. destruct (f a0 b); auto. Qed.

Lemma s_flips_at st t l0 : sinv st t -> forall l, srt k (l0 ++ l) -> forall t0, sinv st t0 -> flips st l0 (nodes t) (nodes t0) ->
  exists t', foldM (fun t (n : node) => s_flip_seg X k st t (nkey n)) t0 l = Ok t' /\ sinv st t' /\
    flips st (l0 ++ l) (nodes t) (nodes t').
Proof.
  intros Hi l. induction l as [|n l IH] using rev_ind; intros S t0 H0 F0.
  - exists t0. rewrite app_nil_r. auto.
  - rewrite app_assoc in S. destruct (IH) with (t0 := t0) as (t1 & E1 & I1 & F1); auto.
    { apply srt_app in S. tauto. }
    rewrite foldM_snoc, E1. cbn [bind].
    assert (Nn : ne (nkey n)). { apply (srt_mid X k HX) in S. tauto. }
    destruct (s_flip_seg_at st t1 (nkey n) I1 Nn) as (t' & -> & I' & F'). exists t'. conjs; auto.
    rewrite app_assoc. eapply flips_snoc; eauto.
Qed.

(** adding segments which have nothing in common with the set *)
Lemma s_addf_at st t l0 : sinv st t -> forall l, srt k (l0 ++ l) ->
  (forall c, (Rb k (nodes t) c = true -> Rb k l c = false) /\ (Lb k (nodes t) c = true -> Lb k l c = false)) ->
  forall t0, sinv st t0 -> flips st l0 (nodes t) (nodes t0) ->
  exists t', foldM (fun t (n : node) => ' (t, _) <- s_add X k st t (nkey n) ;; Ok t) t0 l = Ok t' /\ sinv st t' /\
    flips st (l0 ++ l) (nodes t) (nodes t').
Proof.
  intros Hi l. induction l as [|n l IH] using rev_ind; intros S Hap t0 H0 F0.
  - exists t0. rewrite app_nil_r. auto.
  - rewrite app_assoc in S. destruct (IH) with (t0 := t0) as (t1 & E1 & I1 & F1); auto.
    { apply srt_app in S. tauto. }
    { intros c. destruct (Hap c) as [A1 A2]. rewrite Rb_app in A1. rewrite Lb_app in A2.
      split; intros H; [apply A1 in H|apply A2 in H]; apply orb_false_iff in H; tauto. }
    rewrite foldM_snoc, E1. cbn [bind].
    destruct (s_add_adds st t1 (nkey n) I1) as (t' & it & -> & I' & _ & A'). exists t'. conjs; auto.
    rewrite app_assoc. eapply flips_snoc; eauto. apply flip_apart; auto.
    intros c. destruct (F1 c) as (-> & -> & _). destruct (Hap c) as [A1 A2]. rewrite Rb_app in A1. rewrite Lb_app in A2.
    pose proof (srt_app_b X k HX _ _ c S) as (U1 & U2 & _). cbn [Rb Lb] in *. rewrite !orb_false_r in *.
    split; intros H; rewrite H in *.
    + destruct (Rb k (nodes t) c); [specialize (A1 eq_refl); rewrite orb_true_r in A1; discriminate|].
      destruct (Rb k (l0 ++ l) c); auto. destruct (U1 eq_refl); discriminate.
    + destruct (Lb k (nodes t) c); [specialize (A2 eq_refl); rewrite orb_true_r in A2; discriminate|].
      destruct (Lb k (l0 ++ l) c); auto. destruct (U2 eq_refl); discriminate.
Qed.

Theorem s_flip_set_at st t o : sinv st t -> inv k o ->
  exists t', s_flip_set X k st t o = Ok t' /\ sinv st t' /\ flips st (nodes o) (nodes t) (nodes t').
Proof.
  intros Hi Ho. unfold s_flip_set.
  destruct (nodes o) as [|n0 l0] eqn:Eo. { exists t. conjs; auto. apply flips_nil. }
  rewrite <- Eo in *.
  destruct (common_range_at X k HX o t Ho (proj1 Hi)) as (L & M & R & r & -> & E & HL & HR & Hr). cbn [bind].
  assert (F : forall c, _) by (intros c; apply (befor_out X k HX (nodes t) L M R c); auto;
    [apply srt_nes; apply Hi|rewrite <- E; apply srt_nes; apply Ho]).
  destruct Ho as [W S].
  destruct Hr as [[-> ->]|[-> _]].
  - destruct (s_add_set_at X k HX st t o Hi) as (t' & -> & I' & A'). exists t'. conjs; auto.
    intros c. destruct A' as [A1 A2]. destruct (A1 c) as [B1 B2]. rewrite exr_keys in B1. rewrite exl_keys in B2.
    assert (HS : st <> Joining -> intr k (nodes t') c = intr k (nodes t) c || intr k (nodes o) c).
    { destruct st; intros Hst; [congruence| |]; specialize (A2 c).
      - rewrite exi_keys in A2. auto.
      - rewrite A2, B1, B2, exb_keys by auto. destruct (F c) as (F1 & F2 & F3).
        pose proof (intr_b X k HX (nodes o) c) as Io. pose proof (intr_b X k HX (nodes t) c) as It.
        unfold bord. rewrite E, !Rb_app, !Lb_app, !intr_app in *. cbn [Rb Lb intr] in *. revert F1 F2 F3 Io It. clear.
        generalize (Rb k (nodes t) c) (Lb k (nodes t) c) (intr k (nodes t) c) (Rb k L c) (Lb k L c) (intr k L c)
        (Rb k R c) (Lb k R c) (intr k R c). intros. bcases. }
    destruct (F c) as (F1 & F2 & F3). clear A1 A2 F. rewrite B1, B2. 
    pose proof (intr_b X k HX (nodes o) c) as Io. pose proof (intr_b X k HX (nodes t) c) as It.
    rewrite E, !Rb_app, !Lb_app, !intr_app in *. cbn [Rb Lb intr orb] in *. conjs; [| |intros Hst; rewrite (HS Hst)];
    revert F1 F2 F3 Io It; clear;
        generalize (Rb k (nodes t) c) (Lb k (nodes t) c) (intr k (nodes t) c) (Rb k L c) (Lb k L c) (intr k L c)
        (Rb k R c) (Lb k R c) (intr k R c); intros; bcases.
  - replace (begin_ o) with (hd_it (L ++ M ++ R)) by (rewrite begin_at, E; auto).
    rewrite (range_at X o [] L (M ++ R)) by auto. cbn [bind].
    rewrite (range_at X o L M R) by auto. cbn [bind].
    assert (SL : srt k (([] ++ L) ++ M)). { rewrite E, app_assoc in S. apply srt_app in S. cbn [app]. tauto. }
    destruct (s_addf_at st t [] Hi L) with (t0 := t) as (t1 & -> & I1 & F1); auto.
    { apply srt_app in SL. tauto. }
    { intros c. destruct (F c) as (K1 & K2 & K3). split; intros H; [apply K1 in H|apply K2 in H]; tauto. }
    { apply flips_nil. }
    cbn [bind].
    destruct (s_flips_at st t ([] ++ L) Hi M) with (t0 := t1) as (t2 & -> & I2 & F2); auto. cbn [bind].
    replace (range X o (hd_it R) (end_ o)) with (Ok R).
    2:{ change (end_ o) with (hd_it []). symmetry. rewrite <- (app_nil_r R) at 1. apply (range_at X o (L ++ M) R []); auto.
        rewrite app_nil_r, <- app_assoc. auto. }
    cbn [bind].
    destruct (s_addf_at st t (([] ++ L) ++ M) Hi R) with (t0 := t2) as (t' & -> & I' & F'); auto.
    { cbn [app]. rewrite <- app_assoc. congruence. }
    { intros c. destruct (F c) as (K1 & K2 & K3). split; intros H; [apply K1 in H|apply K2 in H]; tauto. }
    exists t'. conjs; auto. rewrite E. rewrite <- app_assoc in F'. auto.
Qed.

End SetFlip.

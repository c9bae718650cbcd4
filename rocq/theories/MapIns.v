(** Inserting a segment into an interval map (proofs). *)
From Verif Require Export MapSub.

Section MapIns.
Context (X : dom) (k : kind).
Context (HX : dom_ok X k).
Context (M : mtype).
Notation CC := (mt_co M).
Notation V := (C CC).
Context (Hco : forall v w : CC, cc_eq v w = true <-> v = w).
Notation I := (itv (D X)).
Notation node := (node (D X) V).
Notation tree := (tree (D X) V).
Notation lc := (lc X k).
Notation uc := (uc X k).
Notation cltb := (cltb X).
Notation ceqb := (ceqb X).
Notation cut := (cut X).
Notation ne := (@ne X k).
Notation hd_it := (@hd_it X V).
Notation last_it := (@last_it X V).
Notation spl := (spl M).
Notation J := (J X k M).
Notation minv := (minv X k M).
Notation same := (same k spl).
Ltac cord := cord_ X k HX.
Ltac lst := rewrite <- ?app_assoc; cbn [app]; congruence || auto.

(* ------------------------------------------------------------ filling the gaps of a region *)
Definition ipost (d e : cut) (x : V) (l l' : list node) : Prop :=
  upd k d e (gins M x) l l' /\
  (spl = true -> forall c, intr k l' c = intr k l c || (cltb d c && cltb c e && nn k l c)) /\ kp k spl d e l l'.

Lemma nn_ceq (l : list node) c d : ceqb c d = true -> nn k l c = nn k l d.
Proof.
  intros H. unfold nn. f_equal; f_equal; f_equal.
  - induction l; cbn; auto. rewrite IHl. unfold inl. replace (cltb (lc (nkey a)) c) with (cltb (lc (nkey a)) d) by cord.
    replace (cltb (uc (nkey a)) c) with (cltb (uc (nkey a)) d) by cord. auto.
  - induction l; cbn; auto. rewrite IHl. unfold inr. replace (cltb c (lc (nkey a))) with (cltb d (lc (nkey a))) by cord.
    replace (cltb c (uc (nkey a))) with (cltb d (uc (nkey a))) by cord. auto.
Qed.
Lemma ipost_trans d e f x l l1 l2 : cltb e d = false -> cltb f e = false -> nn k l e = false ->
  ipost d e x l l1 -> ipost e f x l1 l2 -> ipost d f x l l2.
Proof.
  intros A B N (U & P & K) (U' & P' & K'). split; [apply (upd_trans X k HX d e f _ l l1 l2); auto|]. split; [|apply (kp_trans X k HX spl d e f l l1 l2); auto].
  intros E c. rewrite (P' E), (P E). destruct U as [UR UL].
  destruct (ceqb c e) eqn:Ec.
  - rewrite (nn_ceq l c e) by auto. rewrite N. replace (cltb e c) with false by cord. cbn. rewrite !andb_false_r, orb_false_r. auto.
  - destruct (cltb e c) eqn:Ec'.
    + unfold nn. rewrite UR, UL, Ec'. replace (cltb c e) with false by cord. replace (cltb d c) with true by cord.
      cbn [andb negb]. rewrite !andb_false_r. cbn [andb]. rewrite orb_false_r. auto.
    + cbn [andb]. rewrite orb_false_r. replace (cltb c f) with true by cord. replace (cltb c e) with true by cord. auto.
Qed.
Lemma ipost_ceq d e d' e' x l l' : ceqb d d' = true -> ceqb e e' = true -> ipost d e x l l' -> ipost d' e' x l l'.
Proof.
  intros A B (U & N & K). split; [eapply (upd_ceq X k HX); eauto|]. split; [|eapply (kp_ceq X k HX); eauto]. intros E c. rewrite (N E c).
  replace (cltb d' c) with (cltb d c) by cord. replace (cltb c e') with (cltb c e) by cord. auto.
Qed.
Lemma ipost_same d e x l l1 l' : ipost d e x l l1 -> same d e l1 l' -> ipost d e x l l'.
Proof.
  intros (U & N & K) (A & A' & K'). split; [eapply upd_obs_r; eauto|]. split; [intros E; rewrite (A' E); auto|eapply kp_step; eauto].
Qed.
Lemma ipost_gap x L n R : ne (nkey n) -> below k L (lc (nkey n)) -> above k R (uc (nkey n)) -> nval n = x ->
  ipost (lc (nkey n)) (uc (nkey n)) x (L ++ R) (L ++ n :: R).
Proof.
  intros N B A EV. destruct (post_gap X k HX spl (gins M x) L n R N B A) as [U _]; [cbn; congruence|].
  split; auto. split; [|exact (kp_ins X k _ _ _ L [n] R)]. intros _ c. unfold nn. rewrite !(intr_app X k), (vr_app X k), (vl_app X k). cbn [intr]. unfold ini.
  unfold Seg.ne in N. destruct (cltb (lc (nkey n)) c) eqn:E1, (cltb c (uc (nkey n))) eqn:E2; cbn [andb orb]; rewrite ?orb_false_r; auto.
  rewrite (vl_below X k HX L _ c B), (vl_above X k HX R _ c A), (vr_below X k HX L _ c B), (vr_above X k HX R _ c A) by (auto; cord).
  cbn. rewrite !orb_true_r. auto.
Qed.
(** a region without gaps *)
Definition cov (l : list node) (d e : cut) : Prop :=
  (forall c, cltb c d = false -> cltb c e = true -> some (vr k l c) = true) /\
  (forall c, cltb d c = true -> cltb e c = false -> some (vl k l c) = true).
Lemma ipost_cov d e x l : cov l d e -> ipost d e x l l.
Proof.
  intros [A B]. split; [split|split; [|apply kp_refl]]; intros c.
  - destruct (_ && _) eqn:E; auto. rewrite andb_true_iff, negb_true_iff in E. destruct E as [E1 E2].
    specialize (A c E1 E2). destruct (vr k l c); [auto|discriminate].
  - destruct (_ && _) eqn:E; auto. rewrite andb_true_iff, negb_true_iff in E. destruct E as [E1 E2].
    specialize (B c E1 E2). destruct (vl k l c); [auto|discriminate].
  - intros c0. destruct (cltb d c0 && cltb c0 e) eqn:E; cbn [andb]; [|rewrite orb_false_r; auto].
    apply andb_true_iff in E. destruct E. unfold nn. rewrite A by (auto; cord). cbn. rewrite andb_false_r, orb_false_r. auto.
Qed.
Lemma cov_node L n R d e : srt k (L ++ n :: R) -> cltb d (lc (nkey n)) = false -> cltb (uc (nkey n)) e = false ->
  cov (L ++ n :: R) d e.
Proof.
  intros S A B. apply (srt_mid X k HX) in S. destruct S as (SL & SR & N & BL & AR). split; intros c H1 H2.
  - rewrite (vr_app X k). cbn [vr]. rewrite (vr_below X k HX L _ c BL) by cord. unfold inr.
    replace (cltb c (lc (nkey n))) with false by cord. replace (cltb c (uc (nkey n))) with true by cord. auto.
  - rewrite (vl_app X k). cbn [vl]. rewrite (vl_below X k HX L _ c BL) by cord. unfold inl.
    replace (cltb (lc (nkey n)) c) with true by cord. replace (cltb (uc (nkey n)) c) with false by cord. auto.
Qed.
Lemma cov_upd d e f g l l' : upd k d e g l l' -> cov l e f -> cov l' e f.
Proof.
  intros [UR UL] [A B]. split; intros c H1 H2.
  - rewrite UR. destruct (_ && _) eqn:E; auto. rewrite andb_true_iff, negb_true_iff in E. destruct E. cord.
  - rewrite UL. destruct (_ && _) eqn:E; auto. rewrite andb_true_iff, negb_true_iff in E. destruct E. cord.
Qed.
Lemma cov_nn l d e : cov l d e -> cltb d e = true -> nn k l e = false.
Proof. intros [_ B] H. unfold nn. rewrite B by (auto; cord). auto. Qed.
Lemma cov_nn_l l d e : cov l d e -> cltb d e = true -> nn k l d = false.
Proof. intros [A _] H. unfold nn. rewrite A by (auto; cord). apply andb_false_r. Qed.

(* ------------------------------------------------------------ interval subtraction far away *)
Lemma lsub_far r l : ne r -> ne l -> cltb (lc r) (uc l) = false -> left_subtract X k r l = r.
Proof.
  intros Nr Nl H. apply (ne_iff X k HX) in Nr, Nl. unfold left_subtract. rewrite exclusive_less_cut by auto. rewrite H. auto.
Qed.
Lemma lsub_empty r l : is_empty X k r = true -> left_subtract X k r l = r.
Proof. intros H. unfold left_subtract, exclusive_less. rewrite H, orb_true_r. auto. Qed.
Lemma rsub_empty r l : is_empty X k r = true -> right_subtract X k r l = r.
Proof. intros H. unfold right_subtract, exclusive_less. rewrite H. auto. Qed.

(** a node already passed by [rest] *)
Lemma visit_done fuel (t : tree) P m R rest x prior_ past_ : wf t -> nodes t = P ++ m :: R -> ne (nkey m) ->
  (is_empty X k rest = true \/ ne rest /\ cltb (lc rest) (uc (nkey m)) = false) ->
  iter_eqb (Some (nid m)) past_ = false ->
  m_insert_loop X k M (S fuel) t rest x prior_ (Some (nid m)) past_ =
  m_insert_loop X k M fuel t rest x (Some (nid m)) (hd_it R) past_.
Proof.
  intros W E Nm HR HP. cbn [m_insert_loop]. rewrite HP. cbn [negb].
  rewrite (key_at X t P m R) by auto. cbn [bind].
  assert (Q : is_empty X k (right_subtract X k rest (nkey m)) = true /\ left_subtract X k rest (nkey m) = rest).
  { destruct HR as [HR|[Nr HR]].
    - rewrite rsub_empty, lsub_empty by auto. auto.
    - unfold Seg.ne in *. split; [apply (rsub_e X k HX); auto; cord|apply lsub_far; auto]. }
  destruct Q as [-> ->]. cbn [negb bind].
  rewrite (incr_at X t P m R) by auto. auto.
Qed.

(** the end of insert_main *)
Definition ins_end (last_interval : I) x (r : res (tree * I * Tree.iter)) : res (tree * Tree.iter) :=
  ' (t, rest_interval, prior_) <- r ;;
  let end_gap := left_subtract X k rest_interval last_interval in
  if negb (is_empty X k end_gap) then
    ' (t, inserted_) <- insert_hint X k t prior_ end_gap x ;;
    m_handle_inserted X k M t inserted_
  else Ok (t, prior_).

Lemma ins_handled (t : tree) L R a x : minv t -> nodes t = L ++ R -> ne a -> below k L (lc a) -> above k R (uc a) ->
  exists t' L' n' R', m_handle_inserted X k M (Tree (L ++ Node (fresh t) a x :: R) (S (fresh t))) (Some (fresh t)) = Ok (t', Some (nid n')) /\
    minv t' /\ nodes t' = L' ++ n' :: R' /\ ipost (lc a) (uc a) x (nodes t) (nodes t') /\
    (R' = R \/ exists s, R = s :: R' /\ ceqb (uc a) (lc (nkey s)) = true) /\ cltb (lc a) (lc (nkey n')) = false.
Proof.
  intros [Hi HJ] E Na BL AR. set (n := Node (fresh t) a x). set (t1 := Tree _ _).
  assert (I1 : inv k t1) by (apply (inv_ins X k HX M); auto). rewrite E in HJ.
  rewrite hi_eq. change (Some (fresh t)) with (Some (nid n)).
  destruct (jn_at X k HX M Hco t1 L n R) as (t4 & L4 & e4 & R4 & EQ & E4 & I4 & S4 & J4 & X4 & Y4); auto.
  { eapply J_app_l; eauto. } { eapply J_app_r; eauto. }
  exists t4, L4, e4, R4. split; auto. split; [split; auto|]. split; auto. split; [|split; [|apply X4]].
  2:{ destruct Y4 as [Y4|(s & Y4 & Y5 & _)]; auto. right. exists s. auto. }
  eapply ipost_same; [|exact S4]. rewrite E. unfold t1. cbn [nodes]. change a with (nkey n). apply ipost_gap; auto.
Qed.

(** an exhausted rest *)
Lemma ins_tail_empty fuel (t : tree) P R rest x K : nodes t = P ++ R -> minv t -> P <> [] -> is_empty X k rest = true ->
  exists it, ins_end K x (m_insert_loop X k M (S fuel) t rest x (last_it P) (hd_it R) (hd_it R)) = Ok (t, it) /\ isit t it.
Proof.
  intros E Hm NP HR. cbn [m_insert_loop]. rewrite iter_eqb_refl. unfold ins_end. cbn [negb bind].
  rewrite lsub_empty by auto. rewrite HR. cbn. eexists. split; [reflexivity|]. eapply isit_last; eauto.
Qed.

Lemma ins_loop x K N : forall fuel (t : tree) P R rest, (2 * length N < fuel)%nat -> minv t -> nodes t = P ++ N ++ R ->
  ne rest -> below k P (lc rest) -> Forall (over k rest) N -> above k R (uc rest) -> ne K ->
  (N = [] -> cltb (lc rest) (uc K) = false) -> (forall Q q, N = Q ++ [q] -> nkey q = K) ->
  exists t' it, ins_end K x (m_insert_loop X k M fuel t rest x (last_it P) (hd_it (N ++ R)) (hd_it R)) = Ok (t', it) /\
    minv t' /\ isit t' it /\ ipost (lc rest) (uc rest) x (nodes t) (nodes t').
Proof.
  induction N as [|m N IH]; intros fuel t P R rest HF Hm E Nr BP ON AR NK HK0 HK; (destruct fuel as [|fuel]; [cbn in HF; lia|]).
  - cbn [app] in *. cbn [m_insert_loop]. rewrite iter_eqb_refl. unfold ins_end. cbn [negb bind].
    rewrite lsub_far by auto. rewrite (ne_e X k HX rest) by auto. cbn [negb].
    pose proof Hm as [[W S] HJ].
    rewrite (insert_hint_new X k HX t P R) by (auto; eapply isit_last; eauto). cbn [bind].
    destruct (ins_handled t P R rest x Hm E Nr BP AR) as (t' & L' & n' & R' & -> & H1 & H2 & H3 & H4 & _).
    eexists _, _. split; [reflexivity|]. conjs; auto. eapply isit_mid; eauto.
  - pose proof Hm as [[W S] HJ]. pose proof Nr as Nr'. unfold Seg.ne in Nr'.
    assert (Em : nodes t = P ++ m :: (N ++ R)) by (rewrite E; auto).
    pose proof S as S'. rewrite Em in S'.
    pose proof (srt_ne X k HX M _ _ _ S') as Nm. pose proof Nm as Nm'. unfold Seg.ne in Nm'.
    pose proof (srt_above X k HX M _ _ _ S') as ARm.
    inversion ON as [|? ? [Om1 Om2] ON']; subst.
    (* what happens after the step at m *)
    assert (CONT : forall fuel' (t1 : tree) P1 e0, (2 * length N < fuel')%nat -> minv t1 -> nodes t1 = P1 ++ N ++ R -> P1 <> [] ->
        below k P1 (uc (nkey m)) ->
        ipost (lc rest) e0 x (nodes t) (nodes t1) -> cltb e0 (lc rest) = false -> nn k (nodes t) e0 = false ->
        cltb e0 (lc (nkey m)) = false -> cltb e0 (uc (nkey m)) = true -> cltb e0 (uc rest) = true ->
        cov (nodes t1) e0 (uc (nkey m)) ->
        exists t' it, ins_end K x (m_insert_loop X k M fuel' t1 (left_subtract X k rest (nkey m)) x (last_it P1) (hd_it (N ++ R)) (hd_it R)) = Ok (t', it) /\
          minv t' /\ isit t' it /\ ipost (lc rest) (uc rest) x (nodes t) (nodes t')).
    { intros fuel' t1 P1 e0 HF' Hm1 E1 NP1 B1 PO H1 H2 H3 H4 H5 HC.
      destruct (cltb (uc (nkey m)) (uc rest)) eqn:Eu.
      - destruct (lsub_ne X k HX rest (nkey m)) as [Q1 Q2]; auto. set (rest' := left_subtract X k rest (nkey m)) in *.
        assert (Q2' : ceqb (uc rest') (uc rest) = true) by (rewrite Q2; cord).
        assert (Nr2 : ne rest') by (unfold Seg.ne; cord).
        destruct (IH fuel' t1 P1 R rest') as (t' & it & EQ & G1 & G2 & G3); auto.
        + eapply (below_le X k HX); eauto. cord.
        + assert (NN : nes k N).
          { apply srt_nes in S'. unfold nes in *. rewrite Forall_app, Forall_cons_iff, Forall_app in S'. tauto. }
          apply above_app in ARm. destruct ARm as [ARm _].
          unfold nes, above in *. rewrite Forall_forall in *. intros y Hy.
          specialize (ON' y Hy). specialize (ARm y Hy). specialize (NN y Hy). destruct ON'.
          unfold over, Seg.ne in *. cord.
        + eapply (above_ge X k HX); eauto. cord.
        + intros EN. rewrite EN in HK. rewrite <- (HK [] m eq_refl). cord.
        + intros Q q EQ. apply (HK (m :: Q) q). rewrite EQ. auto.
        + exists t', it. conjs; auto.
          eapply (ipost_trans _ e0); [| | |exact PO|]; auto; [cord|].
          eapply (ipost_trans _ (uc (nkey m))); [| | |eapply ipost_cov; exact HC|]; [cord|cord| |].
          * eapply cov_nn; eauto.
          * eapply ipost_ceq; [| |exact G3]; auto. 
      - assert (Ee : is_empty X k (left_subtract X k rest (nkey m)) = true) by (apply lsub_e; auto).
        assert (EN : N = []).
        { destruct N as [|p N]; auto. exfalso. inversion ON' as [|? ? [Op1 _] _]; subst. cbn [app] in ARm. rewrite above_cons in ARm.
          destruct ARm as [ARm _]. cord. }
        rewrite EN in *. cbn [app] in *.
        destruct fuel' as [|fuel']; [exfalso; clear -HF'; cbn in HF'; lia|].
        destruct (ins_tail_empty fuel' t1 P1 R (left_subtract X k rest (nkey m)) x K) as (it & EQ & G); auto.
        exists t1, it. conjs; auto.
        eapply (ipost_trans _ e0); [| | |exact PO|]; auto; [cord|].
        apply ipost_cov. destruct HC as [C1 C2]. split; intros c A1 A2; [apply C1|apply C2]; auto; cord. }
    cbn [m_insert_loop app]. cbn [Tree.hd_it].
    pose proof (iter_eqb_hd X t P (m :: N) R W E) as Q. cbn in Q.
    replace (iter_eqb (Some (nid m)) (hd_it R)) with false by (symmetry; exact Q). cbn [negb].
    rewrite (key_at X t P m (N ++ R)) by auto. cbn [bind].
    destruct (cltb (lc rest) (lc (nkey m))) eqn:El.
    + destruct (rsub_ne X k HX rest (nkey m)) as [Q1 Q2]; auto. set (gap := right_subtract X k rest (nkey m)) in *.
      assert (Q1' : ceqb (lc gap) (lc rest) = true) by (rewrite Q1; cord).
      assert (Ng : ne gap) by (unfold Seg.ne; cord). pose proof Ng as Ng'. unfold Seg.ne in Ng'.
      rewrite (ne_e X k HX gap) by auto. cbn [negb].
      assert (BG : below k P (lc gap)) by (rewrite Q1; auto).
      assert (AG : above k (m :: N ++ R) (uc gap)).
      { rewrite above_cons. split; [cord|]. eapply (above_ge X k HX); eauto. cord. }
      rewrite (insert_hint_new X k HX t P (m :: N ++ R)) by (auto; eapply isit_last; eauto). cbn [bind].
      destruct (ins_handled t P (m :: N ++ R) gap x Hm Em Ng BG AG) as (t1 & L1 & n1 & R1 & -> & Hm1 & E1 & PO & Y1 & X1).
      cbn [bind]. pose proof Hm1 as [[W1 S1] J1].
      rewrite (incr_at X t1 L1 n1 R1) by auto. cbn [bind].
      assert (PO' : ipost (lc rest) (lc (nkey m)) x (nodes t) (nodes t1)).
      { eapply ipost_ceq; [| |exact PO]; auto. }
      assert (NN : nn k (nodes t) (lc (nkey m)) = false).
      { rewrite Em. apply (at_lc X k HX). auto. }
      assert (CV : cov (nodes t1) (lc (nkey m)) (uc (nkey m))).
      { eapply cov_upd; [apply PO'|]. rewrite Em. apply cov_node; auto; cord. }
      destruct Y1 as [->|(s & EQs & Y1)].
      * (* the filled gap is not joined to m: m is visited again *)
        cbn [Tree.hd_it].
        assert (E1' : nodes t1 = (L1 ++ [n1]) ++ m :: (N ++ R)) by lst.
        cbn [List.length] in HF. destruct fuel as [|fuel]; [exfalso; clear -HF; lia|].
        rewrite (visit_done fuel t1 (L1 ++ [n1]) m (N ++ R)); auto.
        -- destruct (CONT fuel t1 (L1 ++ [n1; m]) (lc (nkey m))) as (t' & it & EQ & G); auto; try cord.
           ++ lst.
           ++ destruct L1; discriminate.
           ++ rewrite E1' in S1. replace (L1 ++ [n1; m]) with ((L1 ++ [n1]) ++ [m]) by lst. eapply (below_snoc X k HX M); eauto. cord.
           ++ exists t', it. split; auto. rewrite <- EQ. replace (L1 ++ [n1; m]) with ((L1 ++ [n1]) ++ [m]) by lst.
              rewrite last_it_app. auto.
        -- destruct (cltb (uc (nkey m)) (uc rest)) eqn:Eu.
           ++ right. destruct (lsub_ne X k HX rest (nkey m)) as [Q3 Q4]; auto.
              assert (Q4' : ceqb (uc (left_subtract X k rest (nkey m))) (uc rest) = true) by (rewrite Q4; cord).
              unfold Seg.ne. split; cord.
           ++ left. apply lsub_e; auto.
      * injection EQs as <- <-.
        destruct (CONT fuel t1 (L1 ++ [n1]) (lc (nkey m))) as (t' & it & EQ & G); auto; try cord.
        -- clear -HF. cbn in HF. lia.
        -- lst.
        -- destruct L1; discriminate.
        -- (* the joined node ends where m ends *)
           rewrite E1 in S1. apply (srt_mid X k HX) in S1. destruct S1 as (SL1 & SR1 & N1 & B1 & A1). unfold Seg.ne in N1.
           assert (cltb (uc (nkey m)) (uc (nkey n1)) = false).
           { destruct (cltb (uc (nkey m)) (uc (nkey n1))) eqn:Z; auto. exfalso.
             (* just behind m there would be a value *)
             destruct PO' as [[UR UL] _]. specialize (UR (uc (nkey m))).
             replace (cltb (uc (nkey m)) (lc (nkey m))) with false in UR by cord. rewrite andb_false_r in UR.
             rewrite Em, E1, !(vr_app X k) in UR. cbn [vr] in UR.
             rewrite (vr_below X k HX L1 _ (uc (nkey m)) B1) in UR by cord.
             rewrite (vr_below X k HX P _ (uc (nkey m)) BP) in UR by cord.
             unfold inr in UR. rewrite Z in UR. replace (cltb (uc (nkey m)) (lc (nkey n1))) with false in UR by cord.
             replace (cltb (uc (nkey m)) (uc (nkey m))) with false in UR by cord. rewrite andb_false_r in UR.
             rewrite (vr_above X k HX (N ++ R) _ (uc (nkey m)) A1) in UR by cord. discriminate. }
           rewrite below_app, below_cons. conjs; auto using below_nil. eapply (below_le X k HX); eauto. cord.
        -- exists t', it. split; auto. rewrite <- EQ. rewrite last_it_app. auto.
    + assert (Ee : is_empty X k (right_subtract X k rest (nkey m)) = true) by (apply rsub_e; auto).
      rewrite Ee. cbn [negb bind]. rewrite (incr_at X t P m (N ++ R)) by auto. cbn [bind].
      destruct (CONT fuel t (P ++ [m]) (lc rest)) as (t' & it & EQ & G); auto; try cord.
      * clear -HF. cbn in HF. lia.
      * lst.
      * destruct P; discriminate.
      * eapply (below_snoc X k HX M); eauto. cord.
      * split; [apply upd_nil; auto; cord|]. split; [|apply kp_refl]. intros _ c. replace (cltb (lc rest) c && cltb c (lc rest)) with false by cord. cbn. rewrite orb_false_r. auto.
      * rewrite Em. eapply (cov_nn_l _ (lc rest) (uc (nkey m))); [apply cov_node; auto; cord|cord].
      * rewrite Em. apply cov_node; auto; cord.
      * exists t', it. split; auto. rewrite <- EQ. rewrite last_it_app. auto.
Qed.

Lemma ins_main_at (t : tree) L N R a x : minv t -> nodes t = L ++ N ++ R -> ne a -> N <> [] ->
  below k L (lc a) -> Forall (over k a) N -> above k R (uc a) ->
  forall Q q, N = Q ++ [q] ->
  exists t' it, m_insert_main X k M t a x (hd_it (N ++ R)) (Some (nid q)) = Ok (t', it) /\ minv t' /\ isit t' it /\
    ipost (lc a) (uc a) x (nodes t) (nodes t').
Proof.
  intros Hm E Na NN BL ON AR Q q EQ. pose proof Hm as [[W S] HJ].
  change (m_insert_main X k M t a x (hd_it (N ++ R)) (Some (nid q))) with
    (past_ <- incr_it t (Some (nid q)) ;;
     prior_ <- cyclic_prior t (hd_it (N ++ R)) ;;
     last_interval <- key t (Some (nid q)) ;;
     ins_end last_interval x
       (m_insert_loop X k M (Datatypes.S (2 * List.length (nodes t))) t a x prior_ (hd_it (N ++ R)) past_)).
  assert (Eq : nodes t = (L ++ Q) ++ q :: R) by (rewrite E, EQ; lst).
  rewrite (incr_at X t (L ++ Q) q R) by auto. cbn [bind].
  rewrite (cyc_at X t L (N ++ R)) by auto. cbn [bind].
  rewrite (key_at X t (L ++ Q) q R) by auto. cbn [bind].
  apply ins_loop; auto.
  - rewrite E, !app_length. lia.
  - rewrite Eq in S. apply (srt_ne X k HX M _ _ _ S).
  - congruence.
  - intros Q' q' EQ'. rewrite EQ in EQ'. apply app_inj_tail in EQ'. destruct EQ'; subst. auto.
Qed.

Lemma insert_at_ (t : tree) a x : minv t -> ne a -> is_absorbable M x = false ->
  exists t' it, m_insert_ X k M t a x = Ok (t', it) /\ minv t' /\ isit t' it /\
    ipost (lc a) (uc a) x (nodes t) (nodes t').
Proof.
  intros Hm Na Ex. pose proof Hm as [[W S] HJ]. unfold m_insert_. rewrite (ne_e X k HX a) by auto. rewrite Ex.
  destruct (decomp X k HX a (nodes t) S Na) as (L & N & R & E & BL & ON & AR).
  destruct N as [|m N'] eqn:EN.
  - cbn [app] in E. rewrite (insert_new X k HX t L R) by auto. cbn [bind].
    destruct (ins_handled t L R a x Hm E Na BL AR) as (t' & L' & n' & R' & -> & H1 & H2 & H3 & _).
    eexists _, _. split; [reflexivity|]. conjs; auto. eapply isit_mid; eauto.
  - rewrite (insert_old X k HX t L m (N' ++ R)); auto.
    2:{ inversion ON; auto. }
    cbn [bind]. rewrite <- EN in *. assert (NN : N <> []) by (rewrite EN; discriminate).
    rewrite (lower_bound_at X k HX t L (N ++ R)); auto.
    2:{ apply (overl_MR X k HX); auto. rewrite E in S. apply (srt_app X k) in S. tauto. }
    cbn [bind]. rewrite (upper_bound_at X k HX t L N R) by auto. cbn [bind].
    destruct (M_ends N NN) as (? & ? & Q & q & _ & EQ).
    rewrite (decr_hd X t (L ++ Q) q R) by (auto; rewrite E, EQ; lst). cbn [bind].
    apply (ins_main_at t L N R a x Hm E Na NN BL ON AR Q q EQ).
Qed.

Lemma insert_hint_at_ (t : tree) h a x : minv t -> ne a -> is_absorbable M x = false -> isit t h ->
  exists t' it, m_insert_hint X k M t h a x = Ok (t', it) /\ minv t' /\ isit t' it /\
    ipost (lc a) (uc a) x (nodes t) (nodes t').
Proof.
  intros Hm Na Ex Hh. pose proof Hm as [[W S] HJ]. unfold m_insert_hint. rewrite (ne_e X k HX a) by auto. rewrite Ex.
  destruct (decomp X k HX a (nodes t) S Na) as (L & N & R & E & BL & ON & AR).
  unfold insert_at.
  destruct N as [|m N'] eqn:EN.
  - cbn [app] in E. rewrite (insert_hint_new X k HX t L R) by auto. cbn [bind].
    replace (iter_eqb (Some (fresh t)) h) with false.
    2:{ destruct h as [i|]; auto. cbn. symmetry. apply Nat.eqb_neq. cbn in Hh. intros <-.
        apply in_map_iff in Hh. destruct Hh as (n & En & Hn). destruct W as [_ W]. rewrite Forall_forall in W.
        specialize (W n Hn). lia. }
    set (n := Node (fresh t) a x). set (t1 := Tree _ _).
    assert (I1 : inv k t1) by (apply (inv_ins X k HX M); auto; split; auto). pose proof I1 as [W1 S1].
    change (Some (fresh t)) with (Some (nid n)). rewrite (key_at X t1 L n R) by auto. cbn [bind nkey n].
    rewrite (itv_eqb_refl' X k HX a Na).
    destruct (ins_handled t L R a x Hm E Na BL AR) as (t' & L' & n' & R' & EQ & H1 & H2 & H3 & _).
    unfold t1, n. cbn [nid]. rewrite EQ.
    eexists _, _. split; [reflexivity|]. conjs; auto. eapply isit_mid; eauto.
  - cbn [app] in E. rewrite (insert_hint_old X k HX t L m (N' ++ R)); auto.
    2:{ inversion ON; auto. }
    cbn [bind]. assert (NN : N <> []) by (rewrite EN; discriminate).
    assert (MAIN : exists t' it, (' (it_, u) <- equal_range X k t a ;; last_ <- decr_it t u ;; m_insert_main X k M t a x it_ last_)
       = Ok (t', it) /\ minv t' /\ isit t' it /\ ipost (lc a) (uc a) x (nodes t) (nodes t')).
    { change (L ++ m :: N' ++ R) with (L ++ (m :: N') ++ R) in E. rewrite <- EN in *.
      rewrite (equal_range_at X k HX M t L N R) by auto. cbn [bind].
      destruct (M_ends N NN) as (? & ? & Q & q & _ & EQ).
      rewrite (decr_hd X t (L ++ Q) q R) by (auto; rewrite E, EQ; lst). cbn [bind].
      apply (ins_main_at t L N R a x Hm E Na NN BL ON AR Q q EQ). }
    destruct (iter_eqb (Some (nid m)) h); [exact MAIN|].
    rewrite (key_at X t L m (N' ++ R)) by auto. cbn [bind].
    destruct (itv_eqb X k (nkey m) a) eqn:EQ; [|exact MAIN].
    (* already present: only the joining handler runs *)
    pose proof S as S'. rewrite E in S'. pose proof (srt_ne X k HX M _ _ _ S') as Nm.
    rewrite (itv_eqb_ne X k HX) in EQ by auto. apply andb_true_iff in EQ. destruct EQ as [E1 E2].
    rewrite hi_eq. rewrite E in HJ.
    destruct (jn_at X k HX M Hco t L m (N' ++ R)) as (t4 & L4 & e4 & R4 & -> & E4 & I4 & S4 & J4 & X4 & _); auto.
    { split; auto. } { eapply J_app_l; eauto. } { eapply J_tl, J_app_r; eauto. }
    exists t4, (Some (nid e4)). split; auto. split; [split; auto|]. split; [eapply isit_mid; eauto|].
    eapply ipost_same; [|eapply (same_wide X k HX); [| |exact S4]; cord]. apply ipost_cov. rewrite E. apply cov_node; auto; cord.
Qed.
End MapIns.

(** What an exception leaves of an interval map: insertion and erasure (proofs). *)
From Verif Require Export CrashMap.

Section CrashIns.
Context (X : dom) (k : kind).
Context (HX : dom_ok X k).
Context (M : mtype).
Notation CC := (mt_co M).
Notation V := (C CC).
Context (Hco : forall v w : CC, cc_eq v w = true <-> v = w).
Notation I := (itv (D X)).
Notation node := (node (D X) V).
Notation tree := (tree (D X) V).
Notation lc := (lc X k).
Notation uc := (uc X k).
Notation cltb := (cltb X).
Notation ceqb := (ceqb X).
Notation cut := (cut X).
Notation ne := (@ne X k).
Notation hd_it := (@hd_it X V).
Notation last_it := (@last_it X V).
Notation spl := (spl M).
Notation J := (J X k M).
Notation minv := (minv X k M).
Notation ipost := (ipost X k M).
Ltac cord := cord_ X k HX.
Ltac lst := rewrite <- ?app_assoc; cbn [app]; congruence || auto.

(** inserted up to some cut f, nothing done behind it *)
Definition ipart (d e : cut) (x : V) (l : list node) (t' : tree) : Prop :=
  minv t' /\ exists f, cltb f d = false /\ cltb e f = false /\ ipost d f x l (nodes t').
Lemma ipost_nil d x l : ipost d d x l l.
Proof.
  split; [apply (upd_nil X k HX); cord|]. split; [|apply kp_refl]. intros _ c.
  replace (cltb d c && cltb c d) with false by cord. cbn. rewrite orb_false_r. auto.
Qed.
Lemma ipart_none (t : tree) d e x : minv t -> cltb e d = false -> ipart d e x (nodes t) t.
Proof. intros H E. split; auto. exists d. split; [cord|]. split; auto. apply ipost_nil. Qed.

Lemma visit_done_c fuel (t : tree) P m R rest x prior_ past_ : wf t -> nodes t = P ++ m :: R -> ne (nkey m) ->
  (is_empty X k rest = true \/ ne rest /\ cltb (lc rest) (uc (nkey m)) = false) ->
  iter_eqb (Some (nid m)) past_ = false ->
  cm_insert_loop X k M (S fuel) t rest x prior_ (Some (nid m)) past_ =
  cm_insert_loop X k M fuel t rest x (Some (nid m)) (hd_it R) past_.
Proof.
  intros W E Nm HR HP. cbn [cm_insert_loop]. rewrite HP. cbn [negb].
  rewrite (key_at X t P m R) by auto.
  assert (Q : is_empty X k (right_subtract X k rest (nkey m)) = true /\ left_subtract X k rest (nkey m) = rest).
  { destruct HR as [HR|[Nr HR]].
    - rewrite rsub_empty, lsub_empty by auto. auto.
    - unfold Seg.ne in *. split; [apply (rsub_e X k HX); auto; cord|apply (lsub_far X k HX); auto]. }
  destruct Q as [Q1 Q2]. unfold cbind, lift, cret. cbn zeta. rewrite Q1, Q2. cbn [negb].
  rewrite (incr_at X t P m R) by auto. auto.
Qed.

(** the end of insert_main *)
Definition c_ins_end (last_interval : I) x : tree * I * Tree.iter -> cm tree (tree * Tree.iter) := fun '(t, rest_interval, prior_) =>
  let end_gap := left_subtract X k rest_interval last_interval in
  if negb (is_empty X k end_gap) then
    cbind (c_insert_hint X k t prior_ end_gap x) (fun '(t, inserted_) => lift (m_handle_inserted X k M t inserted_))
  else cret (t, prior_).

Lemma ins_loop_throws x K N : forall fuel (t : tree) P R rest, (2 * length N < fuel)%nat -> minv t -> nodes t = P ++ N ++ R ->
  ne rest -> below k P (lc rest) -> Forall (over k rest) N -> above k R (uc rest) -> ne K ->
  (N = [] -> cltb (lc rest) (uc K) = false) -> (forall Q q, N = Q ++ [q] -> nkey q = K) ->
  throws (cbind (cm_insert_loop X k M fuel t rest x (last_it P) (hd_it (N ++ R)) (hd_it R)) (c_ins_end K x))
         (ipart (lc rest) (uc rest) x (nodes t)).
Proof.
  induction N as [|m N IH]; intros fuel t P R rest HF Hm E Nr BP ON AR NK HK0 HK; (destruct fuel as [|fuel]; [cbn in HF; lia|]);
    pose proof Nr as Nr'; unfold Seg.ne in Nr'; assert (HT : ipart (lc rest) (uc rest) x (nodes t) t) by (apply ipart_none; auto; cord).
  - cbn [app] in *. cbn [cm_insert_loop]. rewrite iter_eqb_refl. cbn [negb]. eapply throws_bind; [apply follows_ret|apply throws_ret|].
    intros a Ea. injection Ea as <-. unfold c_ins_end. cbn zeta.
    rewrite (lsub_far X k HX) by auto. rewrite (ne_e X k HX rest) by auto. cbn [negb].
    eapply throws_bind; [apply follows_insert_hint|apply throws_insert_hint; auto|]. intros [u i] _. apply throws_lift.
  - pose proof Hm as [[W S] HJ].
    assert (Em : nodes t = P ++ m :: (N ++ R)) by (rewrite E; auto).
    pose proof S as S'. rewrite Em in S'.
    pose proof (srt_ne X k HX M _ _ _ S') as Nm. pose proof Nm as Nm'. unfold Seg.ne in Nm'.
    pose proof (srt_above X k HX M _ _ _ S') as ARm.
    inversion ON as [|? ? [Om1 Om2] ON']; subst.
    (* what happens after the step at m *)
    assert (CONT : forall fuel' (t1 : tree) P1 e0, (2 * length N < fuel')%nat -> minv t1 -> nodes t1 = P1 ++ N ++ R -> P1 <> [] ->
        below k P1 (uc (nkey m)) ->
        ipost (lc rest) e0 x (nodes t) (nodes t1) -> cltb e0 (lc rest) = false -> nn k (nodes t) e0 = false ->
        cltb e0 (lc (nkey m)) = false -> cltb e0 (uc (nkey m)) = true -> cltb e0 (uc rest) = true ->
        cov X k M (nodes t1) e0 (uc (nkey m)) ->
        throws (cbind (cm_insert_loop X k M fuel' t1 (left_subtract X k rest (nkey m)) x (last_it P1) (hd_it (N ++ R)) (hd_it R)) (c_ins_end K x))
          (ipart (lc rest) (uc rest) x (nodes t))).
    { intros fuel' t1 P1 e0 HF' Hm1 E1 NP1 B1 PO H1 H2 H3 H4 H5 HC.
      destruct (cltb (uc (nkey m)) (uc rest)) eqn:Eu.
      - destruct (lsub_ne X k HX rest (nkey m)) as [Q1 Q2]; auto. set (rest' := left_subtract X k rest (nkey m)) in *.
        assert (Q2' : ceqb (uc rest') (uc rest) = true) by (rewrite Q2; cord).
        assert (Nr2 : ne rest') by (unfold Seg.ne; cord).
        eapply throws_impl; [apply (IH fuel' t1 P1 R rest'); auto|].
        + eapply (below_le X k HX); eauto. cord.
        + assert (NN : nes k N).
          { apply srt_nes in S'. unfold nes in *. rewrite Forall_app, Forall_cons_iff, Forall_app in S'. tauto. }
          apply above_app in ARm. destruct ARm as [ARm _].
          unfold nes, above in *. rewrite Forall_forall in *. intros y Hy.
          specialize (ON' y Hy). specialize (ARm y Hy). specialize (NN y Hy). destruct ON'.
          unfold over, Seg.ne in *. cord.
        + eapply (above_ge X k HX); eauto. cord.
        + intros EN. rewrite EN in HK. rewrite <- (HK [] m eq_refl). cord.
        + intros Q q EQ. apply (HK (m :: Q) q). rewrite EQ. auto.
        + intros t' (G1 & f & G2 & G3 & G4). split; auto. exists f. split; [cord|]. split; [cord|].
          eapply (ipost_trans X k HX M _ e0); [| | |exact PO|]; auto; [cord|].
          eapply (ipost_trans X k HX M _ (uc (nkey m))); [| | |eapply (ipost_cov X k HX M); exact HC|]; [cord|cord| |].
          * eapply (cov_nn X k HX M); eauto.
          * eapply (ipost_ceq X k HX M); [| |exact G4]; auto. cord.
      - assert (Ee : is_empty X k (left_subtract X k rest (nkey m)) = true) by (apply lsub_e; auto).
        assert (EN : N = []).
        { destruct N as [|p N]; auto. exfalso. inversion ON' as [|? ? [Op1 _] _]; subst. cbn [app] in ARm. rewrite above_cons in ARm.
          destruct ARm as [ARm _]. cord. }
        rewrite EN in *. cbn [app] in *.
        destruct fuel' as [|fuel']; [exfalso; clear -HF'; cbn in HF'; lia|].
        cbn [cm_insert_loop]. rewrite iter_eqb_refl. cbn [negb]. eapply throws_bind; [apply follows_ret|apply throws_ret|].
        intros a Ea. injection Ea as <-. unfold c_ins_end. cbn zeta. rewrite lsub_empty by auto. rewrite Ee. cbn [negb]. apply throws_ret. }
    cbn [cm_insert_loop app]. cbn [Tree.hd_it].
    pose proof (iter_eqb_hd X t P (m :: N) R W E) as Q. cbn in Q.
    replace (iter_eqb (Some (nid m)) (hd_it R)) with false by (symmetry; exact Q). cbn [negb].
    rewrite (key_at X t P m (N ++ R)) by auto. apply throws_assoc, throws_ok. cbn zeta.
    destruct (cltb (lc rest) (lc (nkey m))) eqn:El.
    + destruct (rsub_ne X k HX rest (nkey m)) as [Q1 Q2]; auto. set (gap := right_subtract X k rest (nkey m)) in *.
      assert (Q1' : ceqb (lc gap) (lc rest) = true) by (rewrite Q1; cord).
      assert (Ng : ne gap) by (unfold Seg.ne; cord). pose proof Ng as Ng'. unfold Seg.ne in Ng'.
      rewrite (ne_e X k HX gap) by auto. cbn [negb].
      assert (BG : below k P (lc gap)) by (rewrite Q1; auto).
      assert (AG : above k (m :: N ++ R) (uc gap)).
      { rewrite above_cons. split; [cord|]. eapply (above_ge X k HX); eauto. cord. }
      apply throws_assoc. apply throws_assoc.
      eapply throws_bind; [apply follows_insert_hint|apply throws_insert_hint; auto|]. intros r0.
      rewrite (insert_hint_new X k HX t P (m :: N ++ R)) by (auto; eapply isit_last; eauto). intros Er. injection Er as <-.
      destruct (ins_handled X k HX M Hco t P (m :: N ++ R) gap x Hm Em Ng BG AG) as (t1 & L1 & n1 & R1 & EQ1 & Hm1 & E1 & PO & Y1 & X1).
      rewrite EQ1. apply throws_ok. pose proof Hm1 as [[W1 S1] J1].
      rewrite (incr_at X t1 L1 n1 R1) by auto. apply throws_assoc, throws_ok.
      assert (PO' : ipost (lc rest) (lc (nkey m)) x (nodes t) (nodes t1)).
      { eapply (ipost_ceq X k HX M); [| |exact PO]; auto. }
      assert (NN : nn k (nodes t) (lc (nkey m)) = false).
      { rewrite Em. apply (at_lc X k HX). auto. }
      assert (CV : cov X k M (nodes t1) (lc (nkey m)) (uc (nkey m))).
      { eapply (cov_upd X k HX M); [apply PO'|]. rewrite Em. apply (cov_node X k HX M); auto; cord. }
      destruct Y1 as [->|(s & EQs & Y1)].
      * (* the filled gap is not joined to m: m is visited again *)
        cbn [Tree.hd_it].
        assert (E1' : nodes t1 = (L1 ++ [n1]) ++ m :: (N ++ R)) by lst.
        cbn [List.length] in HF. destruct fuel as [|fuel]; [exfalso; clear -HF; lia|].
        rewrite (visit_done_c fuel t1 (L1 ++ [n1]) m (N ++ R)); auto.
        -- replace (Some (nid m)) with (last_it (L1 ++ [n1; m])).
           2:{ replace (L1 ++ [n1; m]) with ((L1 ++ [n1]) ++ [m]) by lst. rewrite last_it_app. auto. }
           apply (CONT fuel t1 (L1 ++ [n1; m]) (lc (nkey m))); auto; try cord.
           ++ lst.
           ++ destruct L1; discriminate.
           ++ rewrite E1' in S1. replace (L1 ++ [n1; m]) with ((L1 ++ [n1]) ++ [m]) by lst. eapply (below_snoc X k HX M); eauto. cord.
        -- destruct (cltb (uc (nkey m)) (uc rest)) eqn:Eu.
           ++ right. destruct (lsub_ne X k HX rest (nkey m)) as [Q3 Q4]; auto.
              assert (Q4' : ceqb (uc (left_subtract X k rest (nkey m))) (uc rest) = true) by (rewrite Q4; cord).
              unfold Seg.ne. split; cord.
           ++ left. apply lsub_e; auto.
      * injection EQs as <- <-.
        replace (Some (nid n1)) with (last_it (L1 ++ [n1])) by (rewrite last_it_app; auto).
        apply (CONT fuel t1 (L1 ++ [n1]) (lc (nkey m))); auto; try cord.
        -- clear -HF. cbn in HF. lia.
        -- lst.
        -- destruct L1; discriminate.
        -- (* the joined node ends where m ends *)
           rewrite E1 in S1. apply (srt_mid X k HX) in S1. destruct S1 as (SL1 & SR1 & N1 & B1 & A1). unfold Seg.ne in N1.
           assert (cltb (uc (nkey m)) (uc (nkey n1)) = false).
           { destruct (cltb (uc (nkey m)) (uc (nkey n1))) eqn:Z; auto. exfalso.
             (* just behind m there would be a value *)
             destruct PO' as [[UR UL] _]. specialize (UR (uc (nkey m))).
             replace (cltb (uc (nkey m)) (lc (nkey m))) with false in UR by cord. rewrite andb_false_r in UR.
             rewrite Em, E1, !(vr_app X k) in UR. cbn [vr] in UR.
             rewrite (vr_below X k HX L1 _ (uc (nkey m)) B1) in UR by cord.
             rewrite (vr_below X k HX P _ (uc (nkey m)) BP) in UR by cord.
             unfold inr in UR. rewrite Z in UR. replace (cltb (uc (nkey m)) (lc (nkey n1))) with false in UR by cord.
             replace (cltb (uc (nkey m)) (uc (nkey m))) with false in UR by cord. rewrite andb_false_r in UR.
             rewrite (vr_above X k HX (N ++ R) _ (uc (nkey m)) A1) in UR by cord. discriminate. }
           rewrite below_app, below_cons. conjs; auto using below_nil. eapply (below_le X k HX); eauto. cord.
    + assert (Ee : is_empty X k (right_subtract X k rest (nkey m)) = true) by (apply rsub_e; auto).
      rewrite Ee. cbn [negb]. apply throws_assoc. eapply throws_bind; [apply follows_ret|apply throws_ret|]. intros r0 Er. injection Er as <-.
      rewrite (incr_at X t P m (N ++ R)) by auto. apply throws_assoc, throws_ok.
      replace (Some (nid m)) with (last_it (P ++ [m])) by (rewrite last_it_app; auto).
      apply (CONT fuel t (P ++ [m]) (lc rest)); auto; try cord.
      * clear -HF. cbn in HF. lia.
      * lst.
      * destruct P; discriminate.
      * eapply (below_snoc X k HX M); eauto. cord.
      * apply ipost_nil.
      * rewrite Em. eapply (cov_nn_l X k HX M _ (lc rest) (uc (nkey m))); [apply (cov_node X k HX M); auto; cord|cord].
      * rewrite Em. apply (cov_node X k HX M); auto; cord.
Qed.

Lemma ins_main_throws (t : tree) L N R a x : minv t -> nodes t = L ++ N ++ R -> ne a -> N <> [] ->
  below k L (lc a) -> Forall (over k a) N -> above k R (uc a) ->
  forall Q q, N = Q ++ [q] ->
  throws (cm_insert_main X k M t a x (hd_it (N ++ R)) (Some (nid q))) (ipart (lc a) (uc a) x (nodes t)).
Proof.
  intros Hm E Na NN BL ON AR Q q EQ. pose proof Hm as [[W S] HJ].
  change (cm_insert_main X k M t a x (hd_it (N ++ R)) (Some (nid q))) with
    (cbind (lift (incr_it t (Some (nid q)))) (fun past_ =>
     cbind (lift (cyclic_prior t (hd_it (N ++ R)))) (fun prior_ =>
     cbind (lift (key t (Some (nid q)))) (fun last_interval =>
     cbind (cm_insert_loop X k M (Datatypes.S (2 * List.length (nodes t))) t a x prior_ (hd_it (N ++ R)) past_) (c_ins_end last_interval x))))).
  assert (Eq : nodes t = (L ++ Q) ++ q :: R) by (rewrite E, EQ; lst).
  rewrite (incr_at X t (L ++ Q) q R) by auto. apply throws_ok.
  rewrite (cyc_at X t L (N ++ R)) by auto. apply throws_ok.
  rewrite (key_at X t (L ++ Q) q R) by auto. apply throws_ok.
  apply ins_loop_throws; auto.
  - rewrite E, !app_length. lia.
  - rewrite Eq in S. apply (srt_ne X k HX M _ _ _ S).
  - congruence.
  - intros Q' q' EQ'. rewrite EQ in EQ'. apply app_inj_tail in EQ'. destruct EQ'; subst. auto.
Qed.

Lemma insert_throws_ (t : tree) a x : minv t -> ne a -> throws (cm_insert_ X k M t a x) (ipart (lc a) (uc a) x (nodes t)).
Proof.
  intros Hm Na. pose proof Hm as [[W S] HJ]. unfold cm_insert_. rewrite (ne_e X k HX a) by auto. destruct (is_absorbable M x) eqn:Ex; [apply throws_ret|].
  assert (HT : ipart (lc a) (uc a) x (nodes t) t) by (apply ipart_none; auto; unfold Seg.ne in Na; cord).
  destruct (decomp X k HX a (nodes t) S Na) as (L & N & R & E & BL & ON & AR).
  eapply throws_bind; [apply follows_insert|apply throws_insert; auto|].
  destruct N as [|m N'] eqn:EN.
  - cbn [app] in E. rewrite (insert_new X k HX t L R) by auto. intros r0 Er. injection Er as <-. apply throws_lift.
  - rewrite (insert_old X k HX t L m (N' ++ R)); auto.
    2:{ inversion ON; auto. }
    intros r0 Er. injection Er as <-. rewrite <- EN in *. assert (NN : N <> []) by (rewrite EN; discriminate).
    rewrite (lower_bound_at X k HX t L (N ++ R)); auto.
    2:{ apply (overl_MR X k HX); auto. rewrite E in S. apply (srt_app X k) in S. tauto. }
    apply throws_ok. rewrite (upper_bound_at X k HX t L N R) by auto. apply throws_ok.
    destruct (M_ends N NN) as (? & ? & Q & q & _ & EQ).
    rewrite (decr_hd X t (L ++ Q) q R) by (auto; rewrite E, EQ; lst). apply throws_ok.
    apply (ins_main_throws t L N R a x Hm E Na NN BL ON AR Q q EQ).
Qed.
Lemma follows_insert_at (t : tree) h a x : follows (cm_insert_at X k M t h a x) (insert_at X k M t h a x).
Proof.
  unfold cm_insert_at, insert_at. apply follows_bind; [apply follows_insert_hint|]. intros [u i]. destruct (iter_eqb i h); [apply follows_ret|].
  apply follows_bind; [apply follows_lift|]. intros. apply follows_ret.
Qed.
Lemma insert_hint_throws_ (t : tree) h a x : minv t -> ne a -> isit t h -> throws (cm_insert_hint X k M t h a x) (ipart (lc a) (uc a) x (nodes t)).
Proof.
  intros Hm Na Hh. pose proof Hm as [[W S] HJ]. unfold cm_insert_hint. rewrite (ne_e X k HX a) by auto. destruct (is_absorbable M x) eqn:Ex; [apply throws_ret|].
  assert (HT : ipart (lc a) (uc a) x (nodes t) t) by (apply ipart_none; auto; unfold Seg.ne in Na; cord).
  destruct (decomp X k HX a (nodes t) S Na) as (L & N & R & E & BL & ON & AR).
  eapply throws_bind; [apply follows_insert_at|unfold cm_insert_at|].
  { eapply throws_bind; [apply follows_insert_hint|apply throws_insert_hint; auto|]. intros [u i] _. destruct (iter_eqb i h); [apply throws_ret|].
    eapply throws_bind; [apply follows_lift|apply throws_lift|]. intros. apply throws_ret. }
  unfold insert_at. destruct N as [|m N'] eqn:EN.
  - cbn [app] in E. rewrite (insert_hint_new X k HX t L R) by auto. cbn [bind].
    replace (iter_eqb (Some (fresh t)) h) with false.
    2:{ destruct h as [i|]; auto. cbn. symmetry. apply Nat.eqb_neq. cbn in Hh. intros <-.
        apply in_map_iff in Hh. destruct Hh as (n & En & Hn). destruct W as [_ W]. rewrite Forall_forall in W.
        specialize (W n Hn). lia. }
    set (n := Node (fresh t) a x). set (t1 := Tree _ _).
    assert (I1 : inv k t1) by (apply (inv_ins X k HX M); auto; split; auto). pose proof I1 as [W1 S1].
    change (Some (fresh t)) with (Some (nid n)). rewrite (key_at X t1 L n R) by auto. cbn [bind nkey n].
    rewrite (itv_eqb_refl' X k HX a Na). intros r0 Er. injection Er as <-. apply throws_lift.
  - cbn [app] in E. rewrite (insert_hint_old X k HX t L m (N' ++ R)); auto.
    2:{ inversion ON; auto. }
    cbn [bind]. assert (NN : N <> []) by (rewrite EN; discriminate).
    assert (MAIN : throws (cbind (lift (equal_range X k t a)) (fun '(it_, u) => cbind (lift (decr_it t u)) (fun last_ => cm_insert_main X k M t a x it_ last_))) (ipart (lc a) (uc a) x (nodes t))).
    { change (L ++ m :: N' ++ R) with (L ++ (m :: N') ++ R) in E. rewrite <- EN in *.
      rewrite (equal_range_at X k HX M t L N R) by auto. apply throws_ok.
      destruct (M_ends N NN) as (? & ? & Q & q & _ & EQ).
      rewrite (decr_hd X t (L ++ Q) q R) by (auto; rewrite E, EQ; lst). apply throws_ok.
      apply (ins_main_throws t L N R a x Hm E Na NN BL ON AR Q q EQ). }
    destruct (iter_eqb (Some (nid m)) h); [intros r0 Er; injection Er as <-; exact MAIN|].
    rewrite (key_at X t L m (N' ++ R)) by auto. cbn [bind].
    intros r0 Er. injection Er as <-. destruct (itv_eqb X k (nkey m) a); [apply throws_lift|exact MAIN].
Qed.

(* ------------------------------------------------------------------- erasure *)
Notation epost := (epost X k M).
Notation gers := (gers M).
(** a strictly inside one segment m, whose part behind a is lost *)
Definition epart (a : I) (g : option V -> option V) (l : list node) (t' : tree) : Prop :=
  minv t' /\ exists L m R, l = L ++ m :: R /\ cltb (lc (nkey m)) (lc a) = true /\ cltb (uc a) (uc (nkey m)) = true /\
    g (Some (nval m)) = None /\ epost (lc a) (uc (nkey m)) g l (nodes t').

Lemma erase_one_throws g (t : tree) a y L m R : minv t -> ne a -> nodes t = L ++ m :: R -> below k L (lc a) -> above k R (uc a) -> over k a m ->
  g None = None -> g (Some (nval m)) = None -> (forall o v, g o = Some v -> o = Some v) ->
  let lr := right_subtract X k (nkey m) a in
  let rr := left_subtract X k (nkey m) a in
  forall e1, throws (if negb (is_empty X k lr) then
      cbind (lift (set_key t (Some (nid m)) lr)) (fun t =>
      if negb (is_empty X k rr)
      then cbind (c_insert_hint X k t (Some (nid m)) rr y) (fun '(t, _) => cret t) else cret t)
    else if negb (is_empty X k rr) then lift (set_key t (Some (nid m)) e1)
    else lift (erase_it t (Some (nid m)))) (epart a g (nodes t)).
Proof.
  intros Hm Na Em BL AR [Om1 Om2] G0 G1 GS lr rr e1. pose proof Hm as [Hi HJ]. pose proof Hi as [W S].
  pose proof S as S'. rewrite Em in S'.
  pose proof (srt_ne X k HX M _ _ _ S') as Nm. pose proof Nm as Nm'. pose proof Na as Na'. unfold Seg.ne in Nm', Na'.
  pose proof (srt_above X k HX M _ _ _ S') as ARm.
  destruct (cltb (lc (nkey m)) (lc a)) eqn:El.
  2:{ assert (Q : is_empty X k lr = true) by (apply rsub_e; auto). rewrite Q. cbn [negb]. destruct (negb (is_empty X k rr)); apply throws_lift. }
  destruct (rsub_ne X k HX (nkey m) a) as [Q1 Q2]; auto. fold lr in Q1, Q2.
  assert (Q3 : is_empty X k lr = false) by (apply (ne_e X k HX); unfold Seg.ne; rewrite Q1; cord). rewrite Q3. cbn [negb].
  rewrite (set_key_at X t L m R) by auto. apply throws_ok.
  destruct (cltb (uc a) (uc (nkey m))) eqn:Er.
  2:{ assert (Q : is_empty X k rr = true) by (apply lsub_e; auto). rewrite Q. cbn [negb]. apply throws_ret. }
  destruct (negb (is_empty X k rr)); [|apply throws_ret].
  set (n1 := Node (nid m) lr (nval m)).
  destruct (cut_node X k HX M g L m R (lc a) (uc (nkey m)) n1 n1) as [Sx Px]; auto; try congruence; try cord.
  { intros _. cbn [nkey n1 nval]. rewrite Q1. conjs; auto. cord. }
  rewrite El in Sx, Px. replace (cltb (uc (nkey m)) (uc (nkey m))) with false in Sx, Px by cord. cbn [opt app] in Sx, Px.
  eapply throws_bind; [apply follows_insert_hint| |intros [u i] _; apply throws_ret].
  apply throws_insert_hint. split; [split; [split|]|].
  - eapply (wf_ids X); [apply (wf_nodes X _ _ W Em)|]. rewrite !ids_app, !ids_cons. auto.
  - exact Sx.
  - cbn [nodes]. eapply (J_epost X k HX M Hco g (lc a) (uc (nkey m)) (nodes t)); eauto. rewrite Em. exact Px.
  - exists L, m, R. conjs; auto. rewrite Em. exact Px.
Qed.
Lemma erase_throws (t : tree) a : minv t -> ne a -> throws (cm_erase X k M t a) (epart a (fun _ => None) (nodes t)).
Proof.
  intros Hm Na. pose proof Hm as [Hi HJ]. pose proof Hi as [W S].
  unfold cm_erase. rewrite (ne_e X k HX a) by auto.
  destruct (decomp X k HX a (nodes t) S Na) as (L & N & R & E & BL & ON & AR).
  rewrite (equal_range_at X k HX M t L N R) by auto. apply throws_ok.
  rewrite (iter_eqb_hd X t L N R) by auto.
  destruct N as [|m N'] eqn:EN; [apply throws_ret|].
  rewrite <- EN in E. assert (NN : N <> []) by (rewrite EN; discriminate).
  destruct (M_ends N NN) as (? & ? & Q & q & EN' & EQ). rewrite EN in EN'. injection EN' as <- <-.
  assert (Eq : nodes t = (L ++ Q) ++ q :: R) by (rewrite E, EQ; lst).
  rewrite (decr_hd X t (L ++ Q) q R) by auto. apply throws_ok.
  rewrite EN in EQ. cbn [app]. cbn [Tree.hd_it].
  assert (Em : nodes t = L ++ m :: (N' ++ R)) by (rewrite E, EN; auto).
  rewrite (deref_at X t L m (N' ++ R)) by auto. apply throws_ok.
  rewrite (key_at X t (L ++ Q) q R) by auto. apply throws_ok.
  inversion ON as [|? ? [Om1 Om2] ON']; subst x l.
  destruct (iter_eqb (Some (nid m)) (Some (nid q))) eqn:Emq.
  2:{ cbn zeta. repeat (eapply throws_bind; [apply follows_lift|apply throws_lift|intros]). apply throws_lift. }
  assert (EN0 : N' = [] /\ q = m).
  { destruct Q as [|p Q]; cbn in EQ; injection EQ as EQ1 EQ2; auto. exfalso. subst p N'.
    cbn in Emq. apply Nat.eqb_eq in Emq. destruct W as [ND _]. rewrite Em, ids_app, ids_cons in ND.
    apply NoDup_remove_2 in ND. apply ND. rewrite !ids_app, ids_cons, !in_app_iff. cbn. auto. }
  destruct EN0 as [-> ->]. cbn [app] in *. cbv zeta.
  apply (erase_one_throws (fun _ => None) t a (nval m) L m R); auto; [split; auto|discriminate].
Qed.
Lemma erase_seg_throws (t : tree) a x : minv t -> ne a -> throws (cm_erase_seg X k M t a x) (epart a (gers x) (nodes t)).
Proof.
  intros Hm Na. pose proof Hm as [Hi HJ]. pose proof Hi as [W S].
  unfold cm_erase_seg. rewrite (ne_e X k HX a) by auto. destruct (is_absorbable M x); [apply throws_ret|].
  destruct (decomp X k HX a (nodes t) S Na) as (L & N & R & E & BL & ON & AR).
  rewrite (equal_range_at X k HX M t L N R) by auto. apply throws_ok.
  rewrite (iter_eqb_hd X t L N R) by auto.
  destruct N as [|m N'] eqn:EN; [apply throws_ret|].
  rewrite <- EN in E. assert (NN : N <> []) by (rewrite EN; discriminate).
  rewrite (cyc_at X t (L ++ N) R) by (auto; lst). apply throws_ok.
  destruct (M_ends N NN) as (? & ? & Q & q & EN' & EQ). rewrite EN in EN'. injection EN' as <- <-.
  replace (last_it (L ++ N)) with (Some (nid q)).
  2:{ rewrite EQ, app_assoc, last_it_app. auto. }
  rewrite EN in EQ. cbn [app]. cbn [Tree.hd_it].
  assert (Em : nodes t = L ++ m :: (N' ++ R)) by (rewrite E, EN; auto).
  rewrite (incr_at X t L m (N' ++ R)) by auto. apply throws_ok.
  rewrite (deref_at X t L m (N' ++ R)) by auto. apply throws_ok.
  inversion ON as [|? ? [Om1 Om2] ON']; subst x0 l.
  destruct (iter_eqb (Some (nid m)) (Some (nid q))) eqn:Emq.
  2:{ cbn zeta. eapply throws_bind; [apply follows_lift|apply throws_lift|intros]. apply throws_lift. }
  assert (EN0 : N' = []).
  { destruct Q as [|p Q]; cbn in EQ; injection EQ as EQ1 EQ2; auto. exfalso. subst p N'.
    cbn in Emq. apply Nat.eqb_eq in Emq. destruct W as [ND _]. rewrite Em, ids_app, ids_cons in ND.
    apply NoDup_remove_2 in ND. apply ND. rewrite !ids_app, ids_cons, !in_app_iff. cbn. auto. }
  rewrite EN0 in *. cbn [app] in *. cbv zeta.
  destruct (cc_eq (nval m) x) eqn:Ev; [|apply throws_ret].
  apply (erase_one_throws (gers x) t a x L m R); auto; [split; auto|cbn; rewrite Ev; auto|apply gers_sub].
Qed.
End CrashIns.

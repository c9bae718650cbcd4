(** Symmetric difference of interval maps (proofs). *)
From Verif Require Export ContJoin MapWhole.
From Verif Require Export MapModel.

Section MapFlip.
Context (X : dom) (k : kind).
Context (HX : dom_ok X k).
Context (M : mtype).
Notation CC := (mt_co M).
Notation V := (C CC).
Context (Hco : forall v w : CC, cc_eq v w = true <-> v = w).
Notation I := (itv (D X)).
Notation node := (node (D X) V).
Notation tree := (tree (D X) V).
Notation iset := (Tree.tree (D X) unit).
Notation lc := (lc X k).
Notation uc := (uc X k).
Notation cltb := (cltb X).
Notation ceqb := (ceqb X).
Notation cut := (cut X).
Notation ne := (@ne X k).
Notation J := (J X k M).
Notation minv := (minv X k M).
Notation vf t := (vr k (nodes t)).
Notation chg := (chg X k M).
Notation ga := (ga M (codomain_combine M)).
Notation good := (good M).
Notation aok := (aok X k M).
Ltac cord := cord_ X k HX.

(** a list whose values from [d] on are those of its rear part ends before [d] in front *)
Lemma below_obs (L R : list node) d : srt k (L ++ R) -> (forall c, cltb c d = false -> vr k (L ++ R) c = vr k R c) -> below k L d.
Proof.
  intros S H. unfold below. rewrite Forall_forall. intros m Hm. destruct (cltb d (uc (nkey m))) eqn:E; auto. exfalso.
  pose proof (srt_in X k M (L ++ R) m S) as Nm. rewrite in_app_iff in Nm. specialize (Nm (or_introl Hm)).
  set (c := cmax X d (lc (nkey m))).
  assert (Hc1 : cltb c d = false) by (unfold c, cmax; ifg; cord).
  assert (Hc2 : inr k (nkey m) c = true) by (unfold Seg.ne in Nm; unfold c, inr, cmax; ifg; cord).
  specialize (H c Hc1).
  assert (Hv : vr k (L ++ R) c = Some (nval m)).
  { apply (vr_some X k HX); auto. exists m. rewrite in_app_iff. auto. }
  rewrite Hv in H. symmetry in H. apply srt_app in S. destruct S as (SL & SR & B). apply (vr_some X k HX) in H; auto.
  destruct H as (r & Hr & Ir & _). specialize (B m r Hm Hr). unfold inr in *. cord.
Qed.

(** adding a segment in the gap in front of [s] leaves the segments after [s] alone *)
Lemma add_gap_at (t : tree) L s R a v : minv t -> nodes t = L ++ s :: R ->
  (ne a -> below k L (lc a) /\ cltb (lc (nkey s)) (uc a) = false) ->
  exists t' L', m_add X k M t a v = Ok t' /\ minv t' /\ nodes t' = L' ++ R /\ below k L' (uc (nkey s)) /\
    chg a (ga v) (nodes t) (nodes t').
Proof.
  intros Hm E H. pose proof Hm as [[W S] HJ].
  pose proof S as S'. rewrite E in S'. pose proof (MapFacts.srt_above X k HX M _ _ _ S') as AR. pose proof (MapFacts.srt_ne X k HX M _ _ _ S') as Ns.
  assert (KEEP : below k (L ++ [s]) (uc (nkey s))) by (eapply below_snoc; eauto; cord).
  destruct (madd_any X k HX M Hco t a v Hm) as (t' & E' & Hm' & C').
  destruct (is_empty X k a) eqn:Ea.
  { exists t, (L ++ [s]). unfold m_add, m_add_. rewrite Ea. cbn [bind]. conjs; auto. { rewrite <- app_assoc. auto. }
    apply (chg_empty X k HX); auto. }
  apply (ne_iff X k HX) in Ea. destruct (H Ea) as [BL HS]. destruct (is_absorbable M v) eqn:Eb.
  { exists t, (L ++ [s]). unfold m_add, m_add_. rewrite (ne_e X k HX a Ea), Eb. cbn [bind]. conjs; auto. { rewrite <- app_assoc. auto. }
    intros c. unfold MapWhole.ga. rewrite Eb. ifg; auto. }
  assert (AL : above k (s :: R) (uc a)).
  { apply above_cons. split; auto. eapply above_ge; eauto. unfold Seg.ne in Ns. cord. }
  pose proof E' as E''. unfold m_add, m_add_ in E''. rewrite (ne_e X k HX a Ea), Eb in E''.
  rewrite (insert_new X k HX t L (s :: R)) in E'' by auto. cbn [bind] in E''.
  set (n := Node (fresh t) a (version CC (codomain_combine M) v)) in *. set (t1 := Tree _ _) in E''.
  assert (I1 : inv k t1) by (apply (inv_ins X k HX M); auto; apply Hm). pose proof HJ as HJ'. rewrite E in HJ'.
  rewrite hi_eq in E''. change (Some (fresh t)) with (Some (nid n)) in E''.
  destruct (MapFacts.jn_at X k HX M Hco t1 L n (s :: R)) as (t4 & L4 & e4 & R4 & EQ & E4 & I4 & S4 & J4 & X4 & HR); auto.
  { eapply J_app_l; eauto. } { eapply J_app_r; eauto. }
  rewrite EQ in E''. cbn [bind] in E''. injection E'' as <-.
  assert (EX : exists L', nodes t4 = L' ++ R).
  { destruct HR as [->|(s' & HR & _)].
    - exists (L4 ++ [e4; s]). rewrite <- app_assoc. auto.
    - injection HR as <- <-. exists (L4 ++ [e4]). rewrite <- app_assoc. auto. }
  destruct EX as (L' & EX). exists t4, L'. conjs; auto. apply (below_obs L' R).
  - rewrite <- EX. apply I4.
  - intros c Hc. rewrite <- EX, C'. unfold inr. replace (cltb c (uc a)) with false by (unfold Seg.ne in Ns; cord). rewrite andb_false_r.
    rewrite E. replace (L ++ s :: R) with ((L ++ [s]) ++ R) by (rewrite <- app_assoc; auto).
    rewrite (vr_app X k). rewrite (vr_below X k HX (L ++ [s]) _ c KEEP Hc). auto.
Qed.

(** the value recorded for a common part *)
Definition yv (v w : V) : V := if cc_set_sem CC then combine CC (inverse_codomain_intersect M) v w else cc_zero.
Definition keepor (v : V) (o : option V) : option V := match o with Some w => Some w | None => ga v None end.
Notation sst := (m_set_style M).
Lemma flip_loop_at v : forall N fuel (t : tree) (er : iset) (isec : tree) span L R,
  minv t -> sinv X k sst er -> minv isec -> nodes t = L ++ N ++ R -> length N < fuel ->
  (N <> [] -> ne span) -> (ne span -> below k L (lc span) /\ Forall (over k span) N /\ above k R (uc span)) ->
  exists t' er' isec' span', m_flip_loop X k M fuel t er isec span v (Tree.hd_it (N ++ R)) (Tree.hd_it R) = Ok (t', er', isec', span') /\
    minv t' /\ sinv X k sst er' /\ minv isec' /\
    forall c, (inr k span' c = true -> inr k span c = true /\ vf t c = None) /\
      let d := inr k span c && negb (inr k span' c) in
      vf t' c = (if d then keepor v (vf t c) else vf t c) /\
      Rb k (nodes er') c = Rb k (nodes er) c || (d && some (vf t c)) /\
      vf isec' c = if d then match vf t c with Some w => ga (yv v w) (vf isec c) | None => vf isec c end else vf isec c.
Proof.
  induction N as [|n N IH]; intros [|fuel] t er isec span L R Ht Her His E Hf HN HS; try (exfalso; clear - Hf; cbn in Hf; lia).
  - cbn [m_flip_loop app]. rewrite iter_eqb_refl. cbn [negb]. exists t, er, isec, span. conjs; auto. intros c. split.
    + intros Hc. split; auto. assert (Ns : ne span) by (unfold inr in Hc; unfold Seg.ne; cord). destruct (HS Ns) as (BL & _ & AR). cbn [app] in E.
      rewrite E, (vr_app X k). unfold inr in Hc. apply andb_true_iff in Hc. destruct Hc as [H1 H2]. apply negb_true_iff in H1.
      rewrite (vr_below X k HX L _ c BL), (vr_above X k HX R _ c AR); auto.
    + cbv zeta. rewrite andb_negb_r. rewrite andb_false_l, orb_false_r. auto.
  - assert (Ns : ne span) by (apply HN; discriminate). destruct (HS Ns) as (BL & ON & AR).
    pose proof Ht as [[W S] _]. pose proof S as S'. rewrite E in S'. cbn [app] in S', E.
    pose proof (MapFacts.srt_ne X k HX M _ _ _ S') as Nn. pose proof (MapFacts.srt_above X k HX M _ _ _ S') as AN. apply above_app in AN. destruct AN as [AN ARn].
    inversion ON as [|? ? On ON']; subst. destruct On as [O1 O2]. pose proof Nn as Nn'. pose proof Ns as Ns'. unfold Seg.ne in Nn', Ns'.
    cbn [m_flip_loop app]. cbn [Tree.hd_it].
    assert (EQI : iter_eqb (Some (nid n)) (Tree.hd_it R) = false).
    { change (Some (nid n)) with (Tree.hd_it ((n :: N) ++ R)). rewrite (iter_eqb_hd X t L (n :: N) R) by auto. auto. }
    rewrite EQI. cbn [negb]. rewrite (deref_at X t L n (N ++ R)) by auto. cbn [bind]. rewrite (incr_at X t L n (N ++ R)) by auto. cbn [bind].
    set (lo := right_subtract X k span (nkey n)). set (co := inter X k span (nkey n)). set (sp := left_subtract X k span (nkey n)).
    assert (Hlo : forall c, inr k lo c = inr k span c && cltb c (lc (nkey n))).
    { intros c. unfold inr. destruct (cltb (lc span) (lc (nkey n))) eqn:C.
      - destruct (rsub_ne X k HX span (nkey n) Ns Nn O1 C) as [A1 A2]. fold lo in A1, A2. rewrite A1. cord.
      - pose proof (rsub_e X k HX span (nkey n) Ns Nn O1 C) as A1. fold lo in A1. apply (not_ne X k HX) in A1. cord. }
    assert (Hlo2 : ne lo -> below k L (lc lo) /\ cltb (lc (nkey n)) (uc lo) = false).
    { intros Nl. unfold Seg.ne in Nl. destruct (cltb (lc span) (lc (nkey n))) eqn:C.
      - destruct (rsub_ne X k HX span (nkey n) Ns Nn O1 C) as [A1 A2]. fold lo in A1, A2. rewrite A1. split; auto. cord.
      - pose proof (rsub_e X k HX span (nkey n) Ns Nn O1 C) as A1. fold lo in A1. apply (not_ne X k HX) in A1. cord. }
    assert (Hsp : forall c, inr k sp c = inr k span c && negb (cltb c (uc (nkey n)))).
    { intros c. unfold inr. destruct (cltb (uc (nkey n)) (uc span)) eqn:C.
      - destruct (lsub_ne X k HX span (nkey n) Nn Ns O2 C) as [A1 A2]. fold sp in A1, A2. rewrite A2. cord.
      - pose proof (lsub_e X k HX span (nkey n) Nn Ns O2 C) as A1. fold sp in A1. apply (not_ne X k HX) in A1. cord. }
    assert (Hco' : forall c, inr k co c = inr k span c && inr k (nkey n) c) by (intros c; apply (inter_obs X k HX span (nkey n) c Ns Nn)).
    assert (Nco : is_empty X k co = false).
    { apply (ne_iff X k HX). unfold Seg.ne, co. rewrite inter_lc, inter_uc by auto. unfold cmax, cmin. repeat ifg; cord. }
    rewrite Nco. cbn [negb].
    destruct (s_add_adds X k HX sst er co Her) as (er1 & he & -> & Her1 & _ & [Aer _]). cbn [bind].
    fold (yv v (nval n)).
    destruct (madd_any X k HX M Hco isec co (yv v (nval n)) His) as (is1 & -> & His1 & Cis). cbn [bind].
    destruct (add_gap_at t L n (N ++ R) lo v Ht E Hlo2) as (t1 & L1 & -> & Ht1 & E1 & BL1 & C1). cbn [bind].
    assert (Nsp : forall m, In m N -> cltb (uc (nkey n)) (uc span) = true).
    { intros m Hm. unfold above in AN. rewrite Forall_forall in AN, ON'. specialize (AN m Hm). destruct (ON' m Hm) as [P1 P2]. cord. }
    assert (NN : N <> [] -> ne sp).
    { intros NN. destruct N as [|m N']; [congruence|]. specialize (Nsp m (or_introl eq_refl)).
      destruct (lsub_ne X k HX span (nkey n) Nn Ns O2 Nsp) as [A1 A2]. fold sp in A1, A2. unfold Seg.ne. rewrite A2. cord. }
    assert (HS1 : ne sp -> below k L1 (lc sp) /\ Forall (over k sp) N /\ above k R (uc sp)).
    { intros Np. destruct (cltb (uc (nkey n)) (uc span)) eqn:C.
      - destruct (lsub_ne X k HX span (nkey n) Nn Ns O2 C) as [A1 A2]. fold sp in A1, A2. rewrite A2. conjs; auto.
        + eapply below_le; eauto. cord.
        + unfold above in AN. rewrite Forall_forall in *. intros m Hm. specialize (AN m Hm). destruct (ON' m Hm) as [P1 P2].
          assert (Nm : ne (nkey m)). { apply (srt_in X k M (nodes t)); auto. rewrite E. apply in_app_iff. right. right. apply in_app_iff. auto. }
          unfold Seg.ne in Nm. unfold over. rewrite A2. split; auto. cord.
      - pose proof (lsub_e X k HX span (nkey n) Nn Ns O2 C) as A1. fold sp in A1. apply (not_ne X k HX) in A1. unfold Seg.ne in Np. congruence. }
    destruct (IH fuel t1 er1 is1 sp L1 R) as (t' & er' & isec' & span' & -> & Q1 & Q2 & Q3 & Q4); auto.
    { clear - Hf. cbn in Hf. lia. }
    exists t', er', isec', span'. conjs; auto. intros c. specialize (Q4 c). cbv zeta in Q4. destruct Q4 as (Q4 & Q5 & Q6 & Q7).
    rewrite Hsp in *. rewrite (C1 c), Hlo in *. specialize (Aer c). destruct Aer as [Aer _]. cbn [SetWhole.exr existsb] in Aer. rewrite orb_false_r, Hco' in Aer.
    specialize (Cis c). rewrite Hco' in Cis.
    assert (V1 : inr k span c = true -> cltb c (lc (nkey n)) = true -> vf t c = None).
    { intros P1 P2. unfold inr in P1. apply andb_true_iff in P1. destruct P1 as [P0 P1]. apply negb_true_iff in P0.
      rewrite E, (vr_app X k), (vr_below X k HX L _ c BL P0). cbn [orelse].
      apply (vr_above X k HX (n :: N ++ R) (lc (nkey n))); auto. apply above_cons. split; [cord|].
      apply above_app; split; [eapply (above_ge X k HX); [exact AN|cord]|eapply (above_ge X k HX); [exact ARn|cord]]. }
    assert (V2 : cltb c (lc (nkey n)) = false -> cltb c (uc (nkey n)) = true -> vf t c = Some (nval n)).
    { intros P1 P2. apply (vr_some X k HX); auto. exists n. conjs; auto. { rewrite E. apply in_elt. } unfold inr. rewrite P1, P2. auto. }
    rewrite Aer in Q6. rewrite Cis in Q7. cbv zeta.
    assert (OO : cltb c (lc (nkey n)) = true -> cltb c (uc (nkey n)) = true) by (intros; cord).
    clear Aer Cis Hlo Hlo2 Hsp Hco' C1.
    assert (En : inr k (nkey n) c = negb (cltb c (lc (nkey n))) && cltb c (uc (nkey n))) by auto. rewrite En in *. clear En.
    rewrite Q5, Q6, Q7. clear Q5 Q6 Q7.
    destruct (cltb c (lc (nkey n))) eqn:B1.
    + rewrite (OO eq_refl) in *. cbn [negb andb orb] in *. rewrite ?andb_false_r, ?andb_true_r, ?orb_false_r in *. cbn [andb].
      destruct (inr k span c) eqn:B2; cbn [andb] in *.
      * rewrite V1 by auto. destruct (inr k span' c); [exfalso; destruct (Q4 eq_refl); discriminate|]. cbn. rewrite orb_false_r. conjs; auto.
      * rewrite orb_false_r. conjs; auto; intros; exfalso; destruct (Q4 H); discriminate.
    + cbn [negb andb orb] in *. destruct (cltb c (uc (nkey n))) eqn:B3; cbn [negb andb orb] in *; rewrite ?andb_false_r, ?andb_true_r, ?orb_false_r in *; cbn [andb] in *.
      * rewrite V2 by auto. destruct (inr k span' c); [exfalso; destruct (Q4 eq_refl); discriminate|]. cbn [negb some]. rewrite !andb_true_r.
        destruct (inr k span c); cbn; conjs; auto; discriminate.
      * conjs; auto.
Qed.

(** what flipping does to a value *)
Definition gflip (v : V) (o : option V) : option V :=
  match o with
  | None => ga v None
  | Some w => match ga (yv v w) None with Some u => ga u None | None => None end
  end.
Lemma minv_empty : minv t_empty.
Proof. split; [apply inv_empty|apply J_nil]. Qed.
Lemma gok_ga' v : good -> gok M (ga v).
Proof. intros G. apply (gok_ga M Hco). apply G. Qed.
Lemma gok_flip v : good -> gok M (gflip v).
Proof.
  intros G A o Ho. destruct o as [w|]; cbn [gflip].
  - pose proof (gok_ga' (yv v w) G A None) as H1. destruct (ga (yv v w) None) as [u|]; [|discriminate].
    apply (gok_ga' u G A None). discriminate.
  - apply (gok_ga' v G A None). discriminate.
Qed.
Lemma flip_part_at (t : tree) a v : minv t -> ne a -> mt_total M = false ->
  exists t', m_flip_seg X k M t a v = Ok t' /\ minv t' /\ (good -> aok (nodes t) -> aok (nodes t') /\ chg a (gflip v) (nodes t) (nodes t')).
Proof.
  intros Ht Na Et. unfold m_flip_seg. rewrite Et. pose proof Ht as [[W S] HJ].
  destruct (decomp X k HX a (nodes t) S Na) as (L & N & R & E & BL & ON & AR).
  rewrite (SetWhole.equal_range_at X k HX t L N R a) by auto. cbn [bind].
  destruct (flip_loop_at v N (Datatypes.S (length (nodes t))) t t_empty t_empty a L R) as (t1 & er & isec & span & -> & Ht1 & Her & His & Q); auto.
  { apply sinv_empty. } { apply minv_empty. } { rewrite E, !app_length. clear. lia. }
  cbn [bind]. destruct (madd_any X k HX M Hco t1 span v Ht1) as (t2 & -> & Ht2 & C2). cbn [bind].
  destruct (erase_set_at X k HX M Hco t2 er Ht2) as (t3 & -> & Ht3 & C3). { apply Her. } cbn [bind].
  destruct (add_map_at X k HX M Hco t3 isec Ht3) as (t4 & -> & Ht4 & C4). { apply His. }
  exists t4. conjs; auto. intros G A.
  assert (A2 : forall c, vf t3 c = if inr k a c then match vf t c with None => ga v None | Some _ => None end else vf t c).
  { intros c. rewrite C3, C2. specialize (Q c). cbv zeta in Q. destruct Q as (Q1 & Q2 & Q3 & Q4). rewrite Q2, Q3. cbn [nodes t_empty Rb orb].
    destruct (inr k span c) eqn:B1.
    - destruct (Q1 eq_refl) as [-> ->]. cbn. auto.
    - cbn [negb]. rewrite andb_true_r. destruct (inr k a c); cbn [andb]; auto. destruct (vf t c); cbn; auto. }
  assert (A3 : aok (nodes t3)).
  { intros HA c. rewrite A2. pose proof (A HA c) as Ac. ifg; auto. destruct (vf t c); try discriminate. apply (gok_ga' v G HA None). discriminate. }
  destruct (C4 G A3) as [A4 P4]. split; auto. intros c. rewrite P4, A2. specialize (Q c). cbv zeta in Q. destruct Q as (Q1 & _ & _ & Q4). rewrite Q4.
  cbn [nodes t_empty vr]. destruct (inr k span c) eqn:B1.
  - destruct (Q1 eq_refl) as [-> ->]. cbn. auto.
  - cbn [negb]. rewrite andb_true_r. destruct (inr k a c); cbn [andb]; auto. destruct (vf t c) as [w|]; cbn; auto.
Qed.

Definition unz (o : option V) : option V := match o with Some _ => Some cc_zero | None => None end.
Lemma reset_at (t : tree) : inv k t -> exists t', m_reset_values X k M t = Ok t' /\ minv t' /\ forall c, vf t' c = unz (vf t c).
Proof.
  intros [W S]. unfold m_reset_values. set (f := fun n : node => Node (nid n) (nkey n) (@cc_zero CC)). set (t1 := Tree _ _).
  assert (EN : nodes t1 = map f (nodes t)) by reflexivity.
  assert (V1 : forall c, vf t1 c = unz (vf t c)).
  { intros c. rewrite EN. generalize (nodes t). induction l as [|n l IH]; cbn; auto. rewrite IH. destruct (inr k (nkey n) c); auto. }
  assert (I1 : inv k t1).
  { split.
    - destruct W as [W1 W2]. assert (EI : ids (nodes t1) = ids (nodes t)). { rewrite EN. unfold ids. rewrite map_map. auto. }
      split. { rewrite EI. auto. } rewrite EN. apply Forall_map. auto.
    - rewrite EN. revert S. generalize (nodes t). induction l as [|n l IH]; cbn; auto. intros (S1 & S2 & S3). conjs; auto.
      apply Forall_map. auto. }
  destruct (mt_style M) eqn:ES.
  - destruct (join_at X k HX cc_eq Hco t1 I1) as (t' & -> & I' & J' & O1 & O2). exists t'. unfold MapFacts.minv, MapFacts.J. rewrite ES. conjs; auto.
    intros c. rewrite O1. auto.
  - exists t1. unfold MapFacts.minv, MapFacts.J. rewrite ES. conjs; auto.
Qed.
Lemma flip_any (t : tree) a v : minv t -> (mt_total M = false -> ne a \/ nodes t = []) ->
  exists t', m_flip_seg X k M t a v = Ok t' /\ minv t' /\
   (mt_total M = false -> good -> aok (nodes t) -> aok (nodes t') /\ chg a (gflip v) (nodes t) (nodes t')) /\
   (mt_total M = true -> mt_absorbs M = true -> nodes t' = []) /\
   (mt_total M = true -> mt_absorbs M = false -> forall c, vf t' c = unz (if inr k a c then ga v (vf t c) else vf t c)).
Proof.
  intros Ht Na. destruct (mt_total M) eqn:Et.
  - unfold m_flip_seg. rewrite Et. destruct (mt_absorbs M) eqn:Ea.
    + exists t_empty. conjs; auto using minv_empty; discriminate.
    + destruct (madd_any X k HX M Hco t a v Ht) as (t1 & -> & Ht1 & C1). cbn [bind].
      destruct (reset_at t1) as (t2 & -> & Ht2 & C2). { apply Ht1. } exists t2. conjs; auto; try discriminate. intros _ _ c. rewrite C2, C1. auto.
  - destruct (is_empty X k a) eqn:Ee.
    + destruct (Na eq_refl) as [Na'|E0]; [apply (ne_iff X k HX) in Na'; congruence|].
      destruct t as [l f]. cbn [nodes] in E0. subst l. unfold m_flip_seg. rewrite Et.
      replace (equal_range X k (Tree [] f) a) with (Ok (@None nat, @None nat)) by reflexivity. cbn [bind].
      assert (EL : m_flip_loop X k M (Datatypes.S (length (@nil node))) (Tree [] f) t_empty t_empty a v None None = Ok (Tree [] f, t_empty, t_empty, a)) by reflexivity.
      cbn [nodes]. rewrite EL. cbn [bind]. unfold m_add, m_add_. rewrite Ee. cbn.
      exists (Tree [] f). conjs; auto; try discriminate. intros _ G A. conjs; auto. apply (chg_empty X k HX). auto.
    + apply (ne_iff X k HX) in Ee. destruct (flip_part_at t a v Ht Ee Et) as (t' & E' & Ht' & Q). exists t'. conjs; auto; discriminate.
Qed.
Lemma flip_map_at (t o : tree) : minv t -> inv k o ->
  exists t', m_flip_map X k M t o = Ok t' /\ minv t' /\
   (mt_total M = false -> good -> aok (nodes t) -> aok (nodes t') /\ pw X k M gflip (nodes t) (nodes o) (nodes t')) /\
   (mt_total M = true -> mt_absorbs M = true -> nodes t' = []) /\
   (mt_total M = true -> mt_absorbs M = false -> good -> forall c, vf t' c = unz (match vf o c with Some v => ga v (vf t c) | None => vf t c end)).
Proof.
  intros Ht Ho. unfold m_flip_map. destruct (mt_total M) eqn:Et.
  - destruct (mt_absorbs M) eqn:Ea.
    + exists t_empty. conjs; auto using minv_empty; discriminate.
    + destruct (add_map_at X k HX M Hco t o Ht Ho) as (t1 & -> & Ht1 & C1). cbn [bind].
      destruct (reset_at t1) as (t2 & -> & Ht2 & C2). { apply Ht1. } exists t2. conjs; auto; try discriminate. intros _ _ G c. rewrite C2.
      destruct C1 as [_ C1]; auto. { intros H. congruence. } rewrite C1. auto.
  - pose proof Ht as [Hi HJ]. pose proof Hi as [W S]. pose proof Ho as [Wo So].
    destruct (common_range_at X k HX o t Ho Hi) as (L & N & R & r & -> & EN & BL & BR & H). cbn [bind].
    pose proof So as S'. rewrite EN in S'. pose proof S' as SP. apply (srt_parts X k) in SP. destruct SP as (SL & SN & SR).
    assert (G0 : forall v, gflip v None = ga v None) by auto.
    destruct H as [(-> & ->)|(-> & Hne)].
    + destruct (add_map_at X k HX M Hco t o Ht Ho) as (t1 & -> & Ht1 & C1). exists t1. conjs; auto; try discriminate.
      intros _ G A. destruct (C1 G A) as [A1 P1]. split; auto. intros c. rewrite P1. destruct (vf t c) eqn:F0.
      * assert (vf o c = None). { rewrite EN. rewrite (befor_vr X k HX (nodes t) L [] R c); auto. rewrite F0. auto. } rewrite H. auto.
      * destruct (vf o c); auto.
    + assert (E1 : range X o (begin_ o) (Tree.hd_it (N ++ R)) = Ok L).
      { unfold begin_. rewrite EN. apply (range_at X o [] L (N ++ R)); auto. }
      assert (E2 : range X o (Tree.hd_it (N ++ R)) (Tree.hd_it R) = Ok N) by (apply (range_at X o L N R); auto).
      assert (E3 : range X o (Tree.hd_it R) (end_ o) = Ok R).
      { unfold end_. pose proof (range_at X o (L ++ N) R []) as H. rewrite app_nil_r in H. apply H; auto. rewrite EN, <- app_assoc. auto. }
      rewrite E1, E2, E3. cbn [bind].
      set (Q := good /\ aok (nodes t)). set (P := fun s : tree => minv s /\ (Q -> aok (nodes s))).
      assert (FA : forall l s, P s -> srt k l -> exists s', foldM (fun t n => m_add X k M t (nkey n) (nval n)) s l = Ok s' /\ P s' /\
        (Q -> forall c, vf s' c = match vr k l c with Some x => ga x (vf s c) | None => vf s c end)).
      { intros l s Ps Sl. apply (fold_at X k HX M (fun s => vr k (nodes s)) P Q _ (fun x c o => ga x o) l); auto.
        intros s0 n [H0 H1] _. destruct (madd_any X k HX M Hco s0 (nkey n) (nval n) H0) as (s1 & -> & Q1 & Q2). exists s1. split; auto.
        split; [split; auto|intros _; apply Q2]. intros q. eapply aok_chg; [apply gok_ga'; apply q|exact Q2|auto]. }
      assert (FF : forall l s, P s -> srt k l -> exists s', foldM (fun t n => m_flip_seg X k M t (nkey n) (nval n)) s l = Ok s' /\ P s' /\
        (Q -> forall c, vf s' c = match vr k l c with Some x => gflip x (vf s c) | None => vf s c end)).
      { intros l s Ps Sl. apply (fold_at X k HX M (fun s => vr k (nodes s)) P Q _ (fun x c o => gflip x o) l); auto.
        intros s0 n [H0 H1] Hn. pose proof (srt_in X k M l n Sl Hn) as Nn.
        destruct (flip_part_at s0 (nkey n) (nval n) H0 Nn Et) as (s1 & -> & Q1 & Q2). exists s1. split; auto.
        split; [split; auto|]; intros q; apply Q2; try apply q; auto. }
      destruct (FA L t) as (t1 & -> & P1 & V1); auto. { split; auto. intros q. apply q. } cbn [bind].
      destruct (FF N t1) as (t2 & -> & P2 & V2); auto. cbn [bind].
      destruct (FA R t2) as (t3 & -> & P3 & V3); auto. destruct P3 as [P3 P3']. exists t3. conjs; auto; try discriminate.
      intros _ G A. assert (q : Q) by (split; auto). split; auto. intros c. rewrite (V3 q), (V2 q), (V1 q).
      destruct (vf t c) eqn:F0.
      * assert (HN : some (vf t c) = true) by (rewrite F0; auto).
        pose proof (befor_vr X k HX (nodes t) L N R c S S' BL BR HN) as HV. rewrite <- EN in HV. rewrite HV.
        assert (HL : vr k L c = None /\ vr k R c = None).
        { assert (KV : exists n, In n (nodes t) /\ inr k (nkey n) c = true). { apply (vr_some X k HX) in F0; auto. destruct F0 as (n & A1 & A2 & _). eauto. }
          destruct KV as (n & Hn & In'). split.
          - destruct (vr k L c) eqn:F; auto. exfalso. apply (vr_some X k HX) in F; auto. destruct F as (m & Hm & Em & _).
            specialize (BL m n Hm Hn). unfold inr in *. cord.
          - destruct (vr k R c) eqn:F; auto. exfalso. apply (vr_some X k HX) in F; auto. destruct F as (m & Hm & Em & _).
            specialize (BR n m Hn Hm). unfold inr in *. cord. }
        destruct HL as [-> ->]. auto.
      * rewrite EN, !(vr_app X k). pose proof S' as S2. apply srt_app in S2. destruct S2 as (_ & SNR & B1). apply srt_app in SNR. destruct SNR as (_ & _ & B2).
        destruct (vr k L c) as [x|] eqn:FL.
        { assert (FN : vr k (N ++ R) c = None).
          { destruct (vr k (N ++ R) c) eqn:F; auto. exfalso. apply (vr_some X k HX) in FL; auto.
            apply (vr_some X k HX) in F; [|apply srt_app in S'; tauto]. destruct FL as (m & Hm & Em & _), F as (m' & Hm' & Em' & _).
            specialize (B1 m m' Hm Hm'). unfold inr in *. cord. }
          rewrite (vr_app X k) in FN. destruct (vr k N c); [discriminate|]. cbn in FN. rewrite FN. auto. }
        destruct (vr k N c) as [x|] eqn:FN; cbn [orelse]; auto.
        assert (FR : vr k R c = None).
        { destruct (vr k R c) eqn:F; auto. exfalso. apply (vr_some X k HX) in FN; auto.
          apply (vr_some X k HX) in F; auto. destruct FN as (m & Hm & Em & _), F as (m' & Hm' & Em' & _).
          specialize (B2 m m' Hm Hm'). unfold inr in *. cord. }
        rewrite FR. auto.
Qed.
End MapFlip.

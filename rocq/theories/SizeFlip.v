(** How many segments ^ of maps can have (proofs): every border of the result is a border of an operand. *)
From Verif Require Import SetThms MapThms MapCuts MapReach SetWhole SetFlip LookSpec MapWhole MapFlip SizeThms SizeAnd.
From Verif Require Import MapModel.

Section FlipSize.
Context (X : dom) (k : kind) (HX : dom_ok X k).
Context (M : mtype).
Notation CC := (mt_co M).
Notation V := (C CC).
Context (Hco : forall v w : CC, cc_eq v w = true <-> v = w).
Notation I := (itv (D X)).
Notation node := (node (D X) V).
Notation tree := (tree (D X) V).
Notation iset := (Tree.tree (D X) unit).
Notation lc := (lc X k).
Notation uc := (uc X k).
Notation cltb := (cltb X).
Notation ceqb := (ceqb X).
Notation ne := (@ne X k).
Notation minv := (minv X k M).
Notation core := (core X k).
Notation step := (step X k M).
Notation isin := (isin X).
Notation lims := (lims X k).
Notation sst := (m_set_style M).
Ltac cord := cord_ X k HX.

Section Cuts.
Context (Q : list (cut X)).
Definition inQ {W} (l : list (Tree.node (D X) W)) : Prop := forall c, bord k l c = true -> isin c Q.
Definition edges (a : I) : Prop := ne a -> isin (lc a) Q /\ isin (uc a) Q.
Lemma isin_ceq c d : ceqb c d = true -> isin d Q -> isin c Q.
Proof. intros E (q & Hq & E'). exists q. split; auto. cord. Qed.
Lemma inQ_nil {W} : inQ (@nil (Tree.node (D X) W)).
Proof. intros c. discriminate. Qed.
Lemma inQ_node {W} (l : list (Tree.node (D X) W)) n : srt k l -> In n l -> inQ l -> isin (lc (nkey n)) Q /\ isin (uc (nkey n)) Q.
Proof.
  intros S Hn H. split; apply H; unfold bord.
  - pose proof (starts_lc X k HX l n S Hn) as B. unfold starts in B. apply andb_true_iff in B. destruct B as [-> ->]. rewrite orb_true_r. auto.
  - rewrite (not_inside X k HX l (uc (nkey n)) S). 2:{ exists (uc (nkey n)). split; [apply lims_uc; auto|cord]. }
    replace (Lb k l (uc (nkey n))) with true; auto. symmetry. apply Lb_iff. exists n. split; auto.
    pose proof (srt_nes X k l S) as N. unfold nes in N. rewrite Forall_forall in N. specialize (N n Hn). unfold inl, Seg.ne in *. cord.
Qed.
Lemma edges_two (a : I) c : edges a -> ne a -> isin c [lc a; uc a] -> isin c Q.
Proof. intros E N (q & Hq & Eq). destruct (E N). destruct Hq as [<-|[<-|[]]]; eapply isin_ceq; eauto. Qed.
Lemma inQ_step a s s' : step a s s' -> inQ (nodes s) -> edges a -> inQ (nodes s').
Proof.
  intros [->|[Na CR]] H E; auto. intros c B. destruct (core_bord X k HX _ _ _ _ CR c B) as [P|P]; auto. eapply edges_two; eauto.
Qed.
Lemma inQ_set_add st (er er' : iset) a : sinv X k st er -> sinv X k st er' -> ne a -> added X k st a (nodes er) (nodes er') -> st <> Separating ->
  inQ (nodes er) -> edges a -> inQ (nodes er').
Proof.
  intros H H' Na A Hst HQ Ea c B. destruct st; [|congruence|].
  - destruct (bord k (nodes er) c) eqn:E0; auto. destruct (bordi k a c) eqn:E1.
    { apply (edges_two a c Ea Na). rewrite (bordi_eq X k HX) in E1 by auto. apply orb_true_iff in E1. destruct E1 as [E1|E1]; [exists (lc a)|exists (uc a)]; cbn; auto. }
    exfalso. destruct A as [A _]. destruct (A c) as [A1 A2]. unfold bord in *. rewrite (sinv_joined X k HX er' H' c), A1, A2 in B. unfold bordi in E1.
    pose proof (intr_b X k HX (nodes er) c) as B1. pose proof (ini_b X k HX a c) as B2. clear - B E0 E1 B1 B2.
    destruct (Rb k (nodes er) c), (Lb k (nodes er) c), (intr k (nodes er) c), (inr k a c), (inl k a c), (ini k a c); cbn in *; intuition congruence.
  - destruct (core_bord X k HX _ _ _ _ (added_core X k HX a _ _ Na A) c B) as [P|P]; auto. eapply edges_two; eauto.
Qed.
Lemma inQ_erase t a : minv t -> ne a -> inQ (nodes t) -> edges a -> exists t', m_erase X k M t a = Ok t' /\ minv t' /\ inQ (nodes t').
Proof.
  intros Ht Na H E. destruct (erase_itv_at X k HX M Hco t a Ht Na) as (t' & E' & H' & ([UR UL] & N & _)). exists t'. conjs; auto. intros c B.
  destruct (ceqb c (lc a)) eqn:E1. { eapply isin_ceq; eauto. apply E. auto. } destruct (ceqb c (uc a)) eqn:E2. { eapply isin_ceq; eauto. apply E. auto. }
  apply H. unfold bord in *. rewrite !(vr_Rb X k), !(vl_Lb X k) in *. rewrite UR, UL, N in B. unfold Seg.ne in Na.
  destruct (negb (cltb c (lc a)) && cltb c (uc a)) eqn:E3.
  - replace (cltb (lc a) c && negb (cltb (uc a) c)) with true in B by cord. discriminate.
  - replace (cltb (lc a) c && negb (cltb (uc a) c)) with false in B by cord. replace (cltb c (lc a) || cltb (uc a) c || some (@None V)) with true in B by cord.
    rewrite andb_true_r in B. auto.
Qed.
Lemma inQ_erase_set t (o : iset) : minv t -> inv k o -> inQ (nodes t) -> inQ (nodes o) -> exists t', m_erase_set X k M t o = Ok t' /\ minv t' /\ inQ (nodes t').
Proof.
  intros Ht Ho H HO. unfold m_erase_set. destruct (common_range_at X k HX o t Ho (proj1 Ht)) as (L & N & R & r & E & EN & _ & _ & Hr).
  assert (N0 : nes k (nodes o)) by (apply (srt_nes X k); apply Ho). unfold nes in N0. rewrite Forall_forall in N0.
  assert (G : forall l s, List.incl l (nodes o) -> minv s -> inQ (nodes s) -> exists s', foldM (fun t (n : Tree.node (D X) unit) => m_erase X k M t (nkey n)) s l = Ok s' /\ minv s' /\ inQ (nodes s')).
  { induction l as [|n l IH]; intros s Hl Hs Fs; cbn [foldM]. { exists s. auto. }
    assert (Hn : In n (nodes o)) by (apply Hl; cbn; auto).
    destruct (inQ_erase s (nkey n) Hs (N0 n Hn) Fs) as (s1 & -> & I1 & F1). { intros _. apply (inQ_node (nodes o)); auto. apply Ho. }
    cbn [bind]. apply IH; auto. intros x Hx. apply Hl. cbn. auto. }
  destruct (nodes o) as [|n0 l0] eqn:Eo. { exists t. auto. }
  rewrite E. cbn [bind]. destruct Hr as [(-> & ->)|(-> & _)]. { exists t. auto. }
  rewrite <- Eo in *. rewrite (range_at X o L N R) by (auto; apply Ho). cbn [bind].
  apply G; auto. rewrite EN. intros x Hx. rewrite !in_app_iff. auto.
Qed.
Lemma inQ_add t a v : minv t -> inQ (nodes t) -> edges a -> exists t', m_add X k M t a v = Ok t' /\ minv t' /\ inQ (nodes t').
Proof.
  intros Ht H E. unfold m_add. destruct (add_step X k HX M Hco (codomain_combine M) t a v Ht) as (t' & it & -> & I' & _ & S). cbn [bind]. exists t'. conjs; auto. eapply inQ_step; eauto.
Qed.
Lemma inQ_add_map t o : minv t -> srt k (nodes o) -> inQ (nodes t) -> inQ (nodes o) -> exists t', m_add_map X k M t o = Ok t' /\ minv t' /\ inQ (nodes t').
Proof.
  intros Ht So H HO. destruct (add_map_within X k HX M Hco t o Ht) as (t' & E & I' & W). exists t'. conjs; auto. intros c B. destruct (W c B) as [P|(q & Hq & Eq)]; auto.
  eapply isin_ceq; eauto. apply in_app_iff in Hq. destruct Hq as [Hq|Hq]; apply in_map_iff in Hq; destruct Hq as (n & <- & Hn); apply (inQ_node (nodes o)); auto.
Qed.
Lemma inQ_reset t : inv k t -> inQ (nodes t) -> exists t', m_reset_values X k M t = Ok t' /\ minv t' /\ inQ (nodes t').
Proof.
  intros [W S] H. unfold m_reset_values. set (f := fun n : node => Node (nid n) (nkey n) (@cc_zero CC)). set (t1 := Tree _ _).
  assert (EN : nodes t1 = map f (nodes t)) by reflexivity.
  assert (B1 : forall c, Rb k (nodes t1) c = Rb k (nodes t) c /\ Lb k (nodes t1) c = Lb k (nodes t) c /\ intr k (nodes t1) c = intr k (nodes t) c).
  { intros c. rewrite EN. generalize (nodes t). induction l as [|n l IH]; cbn; auto. destruct IH as (A & B & C). rewrite A, B, C. auto. }
  assert (I1 : inv k t1).
  { split.
    - destruct W as [W1 W2]. assert (EI : ids (nodes t1) = ids (nodes t)). { rewrite EN. unfold ids. rewrite map_map. auto. }
      split. { rewrite EI. auto. } rewrite EN. apply Forall_map. auto.
    - rewrite EN. revert S. generalize (nodes t). induction l as [|n l IH]; cbn; auto. intros (S1 & S2 & S3). conjs; auto.
      apply Forall_map. auto. }
  assert (H1 : inQ (nodes t1)). { intros c B. apply H. unfold bord in *. destruct (B1 c) as (A1 & A2 & A3). rewrite A1, A2, A3 in B. auto. }
  destruct (mt_style M) eqn:ES.
  - destruct (join_at X k HX cc_eq Hco t1 I1) as (t' & -> & I' & J' & O1 & O2). exists t'. unfold MapFacts.minv, MapFacts.J. rewrite ES. conjs; auto.
    intros c B. apply H1. destruct (bord k (nodes t1) c) eqn:E; auto. exfalso. unfold bord in *.
    rewrite (joined_intr X k HX (@cc_eq CC) (nodes t') c (proj2 I') J' (cc_refl M Hco)) in B. rewrite !(vr_Rb X k), !(vl_Lb X k) in *. rewrite O1, O2 in B.
    destruct (intr k (nodes t1) c) eqn:Ei.
    + destruct (intr_eq X k HX M (nodes t1) c (proj2 I1) Ei) as (w & E1 & E2). rewrite E1, E2 in B. rewrite (cc_refl M Hco) in B. discriminate.
    + rewrite andb_true_r in E. rewrite E in B. discriminate.
  - exists t1. unfold MapFacts.minv, MapFacts.J. rewrite ES. conjs; auto.
Qed.

Lemma inQ_loop v : forall N fuel (t : tree) (er : iset) (isec : tree) span L R,
  minv t -> sinv X k sst er -> minv isec -> nodes t = L ++ N ++ R -> length N < fuel ->
  (N <> [] -> ne span) -> (ne span -> below k L (lc span) /\ Forall (over k span) N /\ above k R (uc span)) ->
  inQ (nodes t) -> inQ (nodes er) -> inQ (nodes isec) -> edges span ->
  exists t' er' isec' span', m_flip_loop X k M fuel t er isec span v (Tree.hd_it (N ++ R)) (Tree.hd_it R) = Ok (t', er', isec', span') /\
    minv t' /\ sinv X k sst er' /\ minv isec' /\ inQ (nodes t') /\ inQ (nodes er') /\ inQ (nodes isec') /\ edges span'.
Proof.
  induction N as [|n N IH]; intros [|fuel] t er isec span L R Ht Her His E Hf HN HS Qt Qe Qi Qs; try (exfalso; clear - Hf; cbn in Hf; lia).
  - cbn [m_flip_loop app]. rewrite iter_eqb_refl. cbn [negb]. exists t, er, isec, span. conjs; auto.
  - assert (Ns : ne span) by (apply HN; discriminate). destruct (HS Ns) as (BL & ON & AR).
    pose proof Ht as [[W S] _]. pose proof S as S'. rewrite E in S'. cbn [app] in S', E.
    pose proof (MapFacts.srt_ne X k HX M _ _ _ S') as Nn. pose proof (MapFacts.srt_above X k HX M _ _ _ S') as AN. apply above_app in AN. destruct AN as [AN ARn].
    inversion ON as [|? ? On ON']; subst. destruct On as [O1 O2]. pose proof Nn as Nn'. pose proof Ns as Ns'. unfold Seg.ne in Nn', Ns'.
    cbn [m_flip_loop app]. cbn [Tree.hd_it].
    assert (EQI : iter_eqb (Some (nid n)) (Tree.hd_it R) = false).
    { change (Some (nid n)) with (Tree.hd_it ((n :: N) ++ R)). rewrite (iter_eqb_hd X t L (n :: N) R) by auto. auto. }
    rewrite EQI. cbn [negb]. rewrite (deref_at X t L n (N ++ R)) by auto. cbn [bind]. rewrite (incr_at X t L n (N ++ R)) by auto. cbn [bind].
    set (lo := right_subtract X k span (nkey n)). set (co := inter X k span (nkey n)). set (sp := left_subtract X k span (nkey n)).
    assert (Hn : In n (nodes t)) by (rewrite E; apply in_elt). destruct (inQ_node (nodes t) n S Hn Qt) as [Ql Qu]. destruct (Qs Ns) as [Sl Su].
    assert (Hlo2 : ne lo -> (below k L (lc lo) /\ cltb (lc (nkey n)) (uc lo) = false) /\ isin (lc lo) Q /\ isin (uc lo) Q).
    { intros Nl. unfold Seg.ne in Nl. destruct (cltb (lc span) (lc (nkey n))) eqn:C.
      - destruct (rsub_ne X k HX span (nkey n) Ns Nn O1 C) as [A1 A2]. fold lo in A1, A2. rewrite A1. conjs; auto; [cord|eapply isin_ceq; eauto].
      - pose proof (rsub_e X k HX span (nkey n) Ns Nn O1 C) as A1. fold lo in A1. apply (not_ne X k HX) in A1. exfalso. cord. }
    assert (Nco : ne co). { unfold Seg.ne, co. rewrite inter_lc, inter_uc by auto. unfold IntervalFacts.cmax, IntervalFacts.cmin. repeat ifg; cord. }
    assert (Eco : edges co). { intros _. unfold co. rewrite inter_lc, inter_uc by auto. unfold IntervalFacts.cmax, IntervalFacts.cmin. split; ifg; auto. }
    assert (Zco : is_empty X k co = false) by (apply (ne_iff X k HX); auto). rewrite Zco. cbn [negb].
    destruct (s_add_at X k HX sst er co Her Nco) as (er1 & he & -> & Her1 & _ & Aer). cbn [bind].
    assert (Qe1 : inQ (nodes er1)). { apply (inQ_set_add sst er er1 co); auto. unfold m_set_style. destruct (mt_style M); discriminate. }
    destruct (inQ_add isec co (if cc_set_sem CC then combine CC (inverse_codomain_intersect M) v (nval n) else cc_zero) His Qi Eco) as (is1 & -> & His1 & Qi1). cbn [bind].
    destruct (add_gap_at X k HX M Hco t L n (N ++ R) lo v Ht E (fun Nl => proj1 (Hlo2 Nl))) as (t1 & L1 & Et1 & Ht1 & E1 & BL1 & C1).
    destruct (inQ_add t lo v Ht Qt (fun Nl => proj2 (Hlo2 Nl))) as (t1' & Et1' & _ & Qt1). rewrite Et1 in Et1' |- *. injection Et1' as <-. cbn [bind].
    assert (Nsp : forall m, In m N -> cltb (uc (nkey n)) (uc span) = true).
    { intros m Hm. unfold above in AN. rewrite Forall_forall in AN, ON'. specialize (AN m Hm). destruct (ON' m Hm) as [P1 P2]. cord. }
    assert (NN : N <> [] -> ne sp).
    { intros NN. destruct N as [|m N']; [congruence|]. specialize (Nsp m (or_introl eq_refl)).
      destruct (lsub_ne X k HX span (nkey n) Nn Ns O2 Nsp) as [A1 A2]. fold sp in A1, A2. unfold Seg.ne. rewrite A2. cord. }
    assert (HS1 : ne sp -> (below k L1 (lc sp) /\ Forall (over k sp) N /\ above k R (uc sp)) /\ isin (lc sp) Q /\ isin (uc sp) Q).
    { intros Np. destruct (cltb (uc (nkey n)) (uc span)) eqn:C.
      - destruct (lsub_ne X k HX span (nkey n) Nn Ns O2 C) as [A1 A2]. fold sp in A1, A2. rewrite A2. conjs; auto.
        + eapply below_le; eauto. cord.
        + unfold above in AN. rewrite Forall_forall in *. intros m Hm. specialize (AN m Hm). destruct (ON' m Hm) as [P1 P2].
          assert (Nm : ne (nkey m)). { apply (srt_in X k M (nodes t)); auto. rewrite E. apply in_app_iff. right. right. apply in_app_iff. auto. }
          unfold Seg.ne in Nm. unfold over. rewrite A2. split; auto. cord.
        + eapply isin_ceq; eauto.
      - pose proof (lsub_e X k HX span (nkey n) Nn Ns O2 C) as A1. fold sp in A1. apply (not_ne X k HX) in A1. unfold Seg.ne in Np. congruence. }
    apply (IH fuel t1 er1 is1 sp L1 R); auto.
    { clear - Hf. cbn in Hf. lia. } { intros Np. apply HS1. auto. } { intros Np. apply HS1. auto. }
Qed.
Lemma inQ_flip_part t a v : minv t -> ne a -> mt_total M = false -> inQ (nodes t) -> edges a -> exists t', m_flip_seg X k M t a v = Ok t' /\ minv t' /\ inQ (nodes t').
Proof.
  intros Ht Na Et Qt Qa. unfold m_flip_seg. rewrite Et. pose proof Ht as [[W S] HJ].
  destruct (decomp X k HX a (nodes t) S Na) as (L & N & R & E & BL & ON & AR).
  rewrite (SetWhole.equal_range_at X k HX t L N R a) by auto. cbn [bind].
  destruct (inQ_loop v N (Datatypes.S (length (nodes t))) t t_empty t_empty a L R) as (t1 & er & isec & span & -> & Ht1 & Her & His & Q1 & Q2 & Q3 & Q4); auto using inQ_nil.
  { apply sinv_empty. } { apply minv_empty. } { rewrite E, !app_length. clear. lia. } { apply (@inQ_nil unit). } { apply (@inQ_nil V). }
  cbn [bind]. destruct (inQ_add t1 span v Ht1 Q1 Q4) as (t2 & -> & Ht2 & C2). cbn [bind].
  destruct (inQ_erase_set t2 er Ht2 (proj1 Her) C2 Q2) as (t3 & -> & Ht3 & C3). cbn [bind].
  apply inQ_add_map; auto. apply His.
Qed.
End Cuts.

Lemma inQ_lims {W} (l : list (Tree.node (D X) W)) Q : (forall n, In n l -> isin (lc (nkey n)) Q /\ isin (uc (nkey n)) Q) -> inQ Q l.
Proof.
  intros H c B. apply (bord_parts X k) in B. destruct B as [B|B].
  - apply (starts_in X k HX) in B. destruct B as (n & Hn & E). eapply isin_ceq; eauto. apply H. auto.
  - apply (ends_in X k HX) in B. destruct B as (n & Hn & E). eapply isin_ceq; eauto. apply H. auto.
Qed.
Lemma isin_here c Q : In c Q -> isin c Q.
Proof. intros H. exists c. split; auto. cord. Qed.
Lemma flip_seg_size t a v : minv t -> ne a -> exists t', m_flip_seg X k M t a v = Ok t' /\ minv t' /\ length (nodes t') <= 2 * length (nodes t) + 2.
Proof.
  intros Ht Na. set (Q := lims (nodes t) ++ lims [Node 0 a v]).
  assert (Qt : inQ Q (nodes t)). { apply inQ_lims. intros n Hn. split; apply isin_here; apply in_app_iff; left; [apply lims_lc|apply lims_uc]; auto. }
  assert (Qa : edges Q a). { intros _. split; apply isin_here; apply in_app_iff; right; cbn; auto. }
  assert (G : exists t', m_flip_seg X k M t a v = Ok t' /\ minv t' /\ inQ Q (nodes t')).
  { destruct (mt_total M) eqn:Et; [|apply inQ_flip_part; auto]. unfold m_flip_seg. rewrite Et. destruct (mt_absorbs M).
    - exists t_empty. conjs; auto; [apply minv_empty|apply (@inQ_nil _ V)].
    - destruct (inQ_add Q t a v Ht Qt Qa) as (t1 & -> & I1 & Q1). cbn [bind]. apply inQ_reset; auto. apply I1. }
  destruct G as (t' & E & I' & Q'). exists t'. conjs; auto. change 2 with (2 * length [Node 0 a v]) at 2. apply (lims_size X k HX M); auto. apply I'.
Qed.
Lemma inQ_flip_map Q t o : minv t -> inv k o -> inQ Q (nodes t) -> inQ Q (nodes o) -> exists t', m_flip_map X k M t o = Ok t' /\ minv t' /\ inQ Q (nodes t').
Proof.
  intros Ht Ho Qt Qo. unfold m_flip_map. destruct (mt_total M) eqn:Et.
    - destruct (mt_absorbs M).
      + exists t_empty. conjs; auto; [apply minv_empty|apply (@inQ_nil _ V)].
      + destruct (inQ_add_map Q t o Ht (proj2 Ho) Qt Qo) as (t1 & -> & I1 & Q1). cbn [bind]. apply inQ_reset; auto. apply I1.
    - destruct (common_range_at X k HX o t Ho (proj1 Ht)) as (L & N & R & r & -> & EN & BL & BR & H). cbn [bind]. pose proof Ho as [Wo So].
      destruct H as [(-> & ->)|(-> & _)]; [apply inQ_add_map; auto|].
      assert (E1 : range X o (begin_ o) (Tree.hd_it (N ++ R)) = Ok L).
      { unfold begin_. rewrite EN. apply (range_at X o [] L (N ++ R)); auto. }
      assert (E2 : range X o (Tree.hd_it (N ++ R)) (Tree.hd_it R) = Ok N) by (apply (range_at X o L N R); auto).
      assert (E3 : range X o (Tree.hd_it R) (end_ o) = Ok R).
      { unfold end_. pose proof (range_at X o (L ++ N) R []) as H. rewrite app_nil_r in H. apply H; auto. rewrite EN, <- app_assoc. auto. }
      rewrite E1, E2, E3. cbn [bind].
      assert (N0 : nes k (nodes o)) by (apply (srt_nes X k); auto). unfold nes in N0. rewrite Forall_forall in N0.
      assert (Ed : forall n, In n (nodes o) -> edges Q (nkey n)) by (intros n Hn _; apply (inQ_node Q (nodes o)); auto).
      assert (FA : forall l s, List.incl l (nodes o) -> minv s -> inQ Q (nodes s) -> exists s', foldM (fun t n => m_add X k M t (nkey n) (nval n)) s l = Ok s' /\ minv s' /\ inQ Q (nodes s')).
      { induction l as [|n l IH]; intros s Hl Hs Fs; cbn [foldM]. { exists s. auto. }
        assert (Hn : In n (nodes o)) by (apply Hl; cbn; auto).
        destruct (inQ_add Q s (nkey n) (nval n) Hs Fs (Ed n Hn)) as (s1 & -> & I1 & F1). cbn [bind]. apply IH; auto. intros x Hx. apply Hl. cbn. auto. }
      assert (FF : forall l s, List.incl l (nodes o) -> minv s -> inQ Q (nodes s) -> exists s', foldM (fun t n => m_flip_seg X k M t (nkey n) (nval n)) s l = Ok s' /\ minv s' /\ inQ Q (nodes s')).
      { induction l as [|n l IH]; intros s Hl Hs Fs; cbn [foldM]. { exists s. auto. }
        assert (Hn : In n (nodes o)) by (apply Hl; cbn; auto).
        destruct (inQ_flip_part Q s (nkey n) (nval n) Hs (N0 n Hn) Et Fs (Ed n Hn)) as (s1 & -> & I1 & F1). cbn [bind]. apply IH; auto. intros x Hx. apply Hl. cbn. auto. }
      destruct (FA L t) as (t1 & -> & I1 & Q1); auto. { rewrite EN. intros x Hx. rewrite !in_app_iff. auto. } cbn [bind].
      destruct (FF N t1) as (t2 & -> & I2 & Q2); auto. { rewrite EN. intros x Hx. rewrite !in_app_iff. auto. } cbn [bind].
      apply FA; auto. rewrite EN. intros x Hx. rewrite !in_app_iff. auto.
Qed.
Lemma flip_map_size t o : minv t -> inv k o -> exists t', m_flip_map X k M t o = Ok t' /\ minv t' /\ length (nodes t') <= 2 * length (nodes t) + 2 * length (nodes o).
Proof.
  intros Ht Ho. set (Q := lims (nodes t) ++ lims (nodes o)).
  assert (Qt : inQ Q (nodes t)). { apply inQ_lims. intros n Hn. split; apply isin_here; apply in_app_iff; left; [apply lims_lc|apply lims_uc]; auto. }
  assert (Qo : inQ Q (nodes o)). { apply inQ_lims. intros n Hn. split; apply isin_here; apply in_app_iff; right; [apply lims_lc|apply lims_uc]; auto. }
  destruct (inQ_flip_map Q t o Ht Ho Qt Qo) as (t' & E & I' & Q'). exists t'. conjs; auto. apply (lims_size X k HX M); auto. apply I'.
Qed.
End FlipSize.

Section FlipReach.
Context (X : dom) (k : kind) (HX : dom_ok X k) (CC : codomain) (Hco : eq_ok CC).
Notation mreach := (mreach X k CC).
Notation count t := (interval_count X t).
Theorem msize_flip_seg p t a v : mreach p t -> (exists x, mem X k a x) -> exists t', m_flip_seg X k (mt CC p) t a v = Ok t' /\ count t' <= 2 * count t + 2.
Proof.
  intros R Na. pose proof (mreach_minv X k HX CC Hco p t R) as I. apply (ne_ex X k HX) in Na.
  destruct (flip_seg_size X k HX (mt CC p) Hco t a v I Na) as (t' & E & _ & L). exists t'. auto.
Qed.
Theorem msize_flip_map p p' t o : mreach p t -> mreach p' o -> exists t', m_flip_map X k (mt CC p) t o = Ok t' /\ count t' <= 2 * count t + 2 * count o.
Proof.
  intros R Ro. pose proof (mreach_minv X k HX CC Hco p t R) as I. pose proof (mreach_inv X k HX CC Hco p' o Ro) as Io.
  destruct (flip_map_size X k HX (mt CC p) Hco t o I Io) as (t' & E & _ & L). exists t'. auto.
Qed.
End FlipReach.

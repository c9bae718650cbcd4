(** Segment borders after ^= of a split map with a segment (proofs): the borders are those of the map and of the segment. *)
From Verif Require Import SetThms MapThms MapCuts MapReach SetWhole SetFlip LookSpec MapWhole MapFlip SizeThms SegElem SizeAnd SizeFlip.
From Verif Require Import MapModel.

Section FlipSep.
Context (X : dom) (k : kind) (HX : dom_ok X k).
Context (M : mtype).
Notation CC := (mt_co M).
Notation V := (C CC).
Context (Hco : forall v w : CC, cc_eq v w = true <-> v = w).
Notation I := (itv (D X)).
Notation node := (node (D X) V).
Notation tree := (tree (D X) V).
Notation iset := (Tree.tree (D X) unit).
Notation lc := (lc X k).
Notation uc := (uc X k).
Notation cltb := (cltb X).
Notation ceqb := (ceqb X).
Notation ne := (@ne X k).
Notation minv := (minv X k M).
Notation isin := (isin X).
Notation lims := (lims X k).
Notation sst := (m_set_style M).
Notation cstep := (cstep X k M).
Ltac cord := cord_ X k HX.

(** outside of [a] nothing changes *)
Definition outs (a : I) (l l' : list node) : Prop := forall c, cltb c (lc a) = true \/ cltb (uc a) c = true ->
  Rb k l' c = Rb k l c /\ Lb k l' c = Lb k l c /\ intr k l' c = intr k l c.
Definition inside (b a : I) : Prop := cltb (lc b) (lc a) = false /\ cltb (uc a) (uc b) = false.
Lemma outs_id a l : outs a l l.
Proof. intros c _. auto. Qed.
Lemma outs_trans a l l1 l2 : outs a l l1 -> outs a l1 l2 -> outs a l l2.
Proof. intros A B c H. destruct (A c H) as (A1 & A2 & A3), (B c H) as (B1 & B2 & B3). conjs; congruence. Qed.
Lemma outs_mono b a l l' : (ne b -> inside b a) -> (ne b -> outs b l l') -> (~ ne b -> l' = l) -> outs a l l'.
Proof.
  intros Hi Ho Hn c H. unfold Seg.ne in *. destruct (cltb (lc b) (uc b)) eqn:E.
  - destruct (Hi eq_refl) as [I1 I2]. apply Ho; auto. destruct H; [left|right]; cord.
  - rewrite Hn by congruence. auto.
Qed.
(** a step between the limits of [a]: joins nothing outside of [a], keeps the borders *)
Definition fstep (a : I) (l l' : list node) : Prop := outs a l l' /\ (forall c, intr k l' c = true -> intr k l c = true \/ ini k a c = true).
Definition fcut (a : I) (l l' : list node) : Prop := forall c, bord k l c = true \/ ceqb c (lc a) = true \/ ceqb c (uc a) = true -> intr k l' c = false.
Lemma fstep_id a l : fstep a l l.
Proof. split; auto using outs_id. Qed.
Lemma post_fstep a g l l' : ne a -> post k true (lc a) (uc a) g l l' -> fstep a l l' /\ fcut a l l'.
Proof.
  intros Na ([UR UL] & N & _). specialize (N eq_refl). unfold Seg.ne in Na. split; [split|].
  - intros c H. rewrite !(vr_Rb X k), !(vl_Lb X k), UR, UL, N.
    replace (negb (cltb c (lc a)) && cltb c (uc a)) with false by (destruct H; cord). replace (cltb (lc a) c && negb (cltb (uc a) c)) with false by (destruct H; cord).
    replace (cltb (lc a) c && cltb c (uc a)) with false by (destruct H; cord). replace (ceqb c (lc a)) with false by (destruct H; cord). replace (ceqb c (uc a)) with false by (destruct H; cord).
    rewrite !andb_true_r. auto.
  - intros c B. rewrite N in B. unfold ini. destruct (cltb (lc a) c && cltb c (uc a)); auto.
    all: left; apply andb_true_iff in B; destruct B as [B _]; apply andb_true_iff in B; tauto.
  - intros c H. rewrite N. destruct H as [H|H].
    + unfold bord in H. apply andb_true_iff in H. destruct H as [H1 H2]. apply negb_true_iff in H2. rewrite H2. rewrite !(vr_Rb X k), !(vl_Lb X k) in H1. unfold nn.
      destruct (some (vl k l c)), (some (vr k l c)); cbn in *; destruct (cltb (lc a) c && cltb c (uc a)); auto; discriminate.
    + replace (cltb (lc a) c && cltb c (uc a)) with false by (destruct H; cord). destruct H as [-> | ->]; rewrite ?andb_false_r; auto.
Qed.
Section Steps.
Context (Sp : spl M = true).
Lemma add_fstep t a v : minv t -> exists t', m_add X k M t a v = Ok t' /\ minv t' /\ fstep a (nodes t) (nodes t') /\ (~ ne a -> nodes t' = nodes t) /\ (ne a -> is_absorbable M v = false -> fcut a (nodes t) (nodes t')).
Proof.
  intros H. unfold m_add. destruct (is_empty X k a) eqn:Ea.
  { unfold m_add_. rewrite Ea. eexists. split; [reflexivity|]. conjs; auto using fstep_id. intros Na. apply (ne_iff X k HX) in Na. congruence. }
  destruct (is_absorbable M v) eqn:Ex.
  { unfold m_add_. rewrite Ea, Ex. eexists. split; [reflexivity|]. conjs; auto using fstep_id. discriminate. }
  assert (Na : ne a) by (apply (ne_iff X k HX); auto).
  destruct (add_at_ X k HX M Hco (codomain_combine M) t a v) as (t' & it & -> & H1 & H2 & H3); auto. cbn [bind]. rewrite Sp in H3.
  destruct (post_fstep a _ _ _ Na H3). exists t'. conjs; auto. tauto.
Qed.
Lemma add_hint_fstep t h a v : minv t -> isit t h -> exists t' it, m_add_hint X k M t h a v = Ok (t', it) /\ minv t' /\ isit t' it /\ fstep a (nodes t) (nodes t') /\ (ne a -> is_absorbable M v = false -> fcut a (nodes t) (nodes t')).
Proof.
  intros H Hh. unfold m_add_hint. destruct (is_empty X k a) eqn:Ea.
  { unfold m_add_hint_. rewrite Ea. eexists _, _. split; [reflexivity|]. conjs; auto using fstep_id. intros Na. apply (ne_iff X k HX) in Na. congruence. }
  destruct (is_absorbable M v) eqn:Ex.
  { unfold m_add_hint_. rewrite Ea, Ex. eexists _, _. split; [reflexivity|]. conjs; auto using fstep_id. discriminate. }
  assert (Na : ne a) by (apply (ne_iff X k HX); auto). pose proof H as [[W S] HJ].
  destruct (decomp X k HX a (nodes t) S Na) as (L & N & R & E & BL & ON & AR). destruct N as [|m N'] eqn:EN.
  - destruct (add_hint_at_free X k HX M Hco (codomain_combine M) t h L R a v) as (t' & it & E' & H1 & H2 & H3); auto. rewrite Sp in H3.
    destruct (post_fstep a _ _ _ Na H3). exists t', it. conjs; auto.
  - destruct (add_hint_over_any X k HX M Hco (codomain_combine M) t h L (m :: N') R a v) as (t' & it & g & E' & H1 & H2 & H3 & H4); auto; try discriminate.
    match goal with P : post _ _ _ _ _ _ _ |- _ => rewrite Sp in P; destruct (post_fstep a _ _ _ Na P) end. exists t', it. conjs; auto.
Qed.
Lemma erase_fstep t a : minv t -> ne a -> exists t', m_erase X k M t a = Ok t' /\ minv t' /\ outs a (nodes t) (nodes t') /\ forall c, intr k (nodes t') c = true -> intr k (nodes t) c = true.
Proof.
  intros Ht Na. destruct (erase_itv_at X k HX M Hco t a Ht Na) as (t' & E' & H' & ([UR UL] & N & _)). exists t'. unfold Seg.ne in Na. conjs; auto.
  - intros c H. rewrite !(vr_Rb X k), !(vl_Lb X k), UR, UL, N.
    replace (negb (cltb c (lc a)) && cltb c (uc a)) with false by (destruct H; cord). replace (cltb (lc a) c && negb (cltb (uc a) c)) with false by (destruct H; cord).
    replace (cltb c (lc a) || cltb (uc a) c || some (@None V)) with true by (destruct H; cord). rewrite andb_true_r. auto.
  - intros c B. rewrite N in B. apply andb_true_iff in B. tauto.
Qed.
Lemma erase_set_fstep a t (o : iset) : minv t -> inv k o -> (forall n, In n (nodes o) -> inside (nkey n) a) ->
  exists t', m_erase_set X k M t o = Ok t' /\ outs a (nodes t) (nodes t') /\ forall c, intr k (nodes t') c = true -> intr k (nodes t) c = true.
Proof.
  intros Ht Ho Hi. unfold m_erase_set. destruct (common_range_at X k HX o t Ho (proj1 Ht)) as (L & N & R & r & E & EN & _ & _ & Hr).
  assert (N0 : nes k (nodes o)) by (apply (srt_nes X k); apply Ho). unfold nes in N0. rewrite Forall_forall in N0.
  assert (G : forall l s, List.incl l (nodes o) -> minv s -> exists s', foldM (fun t (n : Tree.node (D X) unit) => m_erase X k M t (nkey n)) s l = Ok s' /\
    outs a (nodes s) (nodes s') /\ forall c, intr k (nodes s') c = true -> intr k (nodes s) c = true).
  { induction l as [|n l IH]; intros s Hl Hs; cbn [foldM]. { exists s. auto using outs_id. }
    assert (Hn : In n (nodes o)) by (apply Hl; cbn; auto).
    destruct (erase_fstep s (nkey n) Hs (N0 n Hn)) as (s1 & -> & I1 & O1 & F1). cbn [bind].
    destruct (IH s1) as (s' & E' & O' & F'); auto. { intros x Hx. apply Hl. cbn. auto. } exists s'. conjs; auto.
    apply (outs_trans a _ (nodes s1)); auto. apply (outs_mono (nkey n)); auto. intros Q. destruct (Q (N0 n Hn)). }
  destruct (nodes o) as [|n0 l0] eqn:Eo. { exists t. auto using outs_id. }
  rewrite E. cbn [bind]. destruct Hr as [(-> & ->)|(-> & _)]. { exists t. auto using outs_id. }
  rewrite <- Eo in *. rewrite (range_at X o L N R) by (auto; apply Ho). cbn [bind].
  apply G; auto. rewrite EN. intros x Hx. rewrite !in_app_iff. auto.
Qed.
Lemma add_map_fstep a t (o : tree) : minv t -> nes k (nodes o) -> (forall n, In n (nodes o) -> inside (nkey n) a) ->
  exists t', m_add_map X k M t o = Ok t' /\ outs a (nodes t) (nodes t') /\ forall c, intr k (nodes t') c = true -> intr k (nodes t) c = true \/ intr k (nodes o) c = true.
Proof.
  intros Ht N0 Hi. unfold nes in N0. rewrite Forall_forall in N0. unfold m_add_map.
  assert (G : forall l t h, List.incl l (nodes o) -> minv t -> isit t h -> exists t' h', foldM (fun '(t, prior_) n => m_add_hint X k M t prior_ (nkey n) (nval n)) (t, h) l = Ok (t', h') /\
    outs a (nodes t) (nodes t') /\ forall c, intr k (nodes t') c = true -> intr k (nodes t) c = true \/ intr k l c = true).
  { induction l as [|n l IH]; intros t0 h Hl H0 Hh; cbn [foldM]. { exists t0, h. auto using outs_id. }
    assert (Hn : In n (nodes o)) by (apply Hl; cbn; auto).
    destruct (add_hint_fstep t0 h (nkey n) (nval n) H0 Hh) as (t1 & h1 & -> & I1 & Hh1 & [O1 S1] & _). cbn [bind].
    destruct (IH t1 h1) as (t' & h' & E & O' & F); auto. { intros x Hx. apply Hl. cbn. auto. } exists t', h'. conjs; auto.
    - apply (outs_trans a _ (nodes t1)); auto. apply (outs_mono (nkey n)); auto. intros Q. destruct (Q (N0 n Hn)).
    - intros c B. destruct (F c B) as [Q|Q].
      + destruct (S1 c Q) as [Q'|Q']; auto. right. apply (intr_true X k). exists n. split; cbn; auto.
      + right. apply (intr_true X k) in Q. destruct Q as (m & Hm & Q). apply (intr_true X k). exists m. split; cbn; auto. }
  destruct (G (nodes o) t (end_ t) (fun x H => H) Ht Logic.I) as (t' & h' & E & O' & F). rewrite E. cbn [bind]. exists t'. auto.
Qed.

Section Loop.
Context (T0 : list node) (a0 : I) (S0 : srt k T0).
Definition sepT (l : list node) : Prop := forall c, intr k l c = true -> ~ isin c (lims T0) /\ (intr k T0 c = true \/ ini k a0 c = true).
Definition sepI (l : list node) : Prop := forall c, intr k l c = true -> ~ isin c (lims T0) /\ ini k a0 c = true.
Definition sepA (a : I) : Prop := forall c, ne a -> ini k a c = true -> ~ isin c (lims T0) /\ ini k a0 c = true.

Lemma gap_free L0 R0 d e c : T0 = L0 ++ R0 -> below k L0 d -> above k R0 e -> cltb d c = true -> cltb c e = true -> ~ isin c (lims T0).
Proof.
  intros E B A C1 C2 (q & Hq & Eq). assert (Hn : exists n, In n T0 /\ (q = lc (nkey n) \/ q = uc (nkey n))).
  { apply in_app_iff in Hq. destruct Hq as [Hq|Hq]; apply in_map_iff in Hq; destruct Hq as (n & <- & Hn); eauto. }
  destruct Hn as (n & Hn & Hq'). pose proof (srt_nes X k _ S0) as N. unfold nes in N. rewrite Forall_forall in N. specialize (N n Hn). unfold Seg.ne in N.
  unfold Seg.below in B. unfold Seg.above in A. rewrite Forall_forall in A, B. rewrite E, in_app_iff in Hn. destruct Hn as [Hn|Hn].
  - specialize (B n Hn). destruct Hq'; subst q; cord.
  - specialize (A n Hn). destruct Hq'; subst q; cord.
Qed.

Lemma sep_loop v : forall N fuel (t : tree) (er : iset) (isec : tree) span L L0 R,
  minv t -> sinv X k sst er -> minv isec -> nodes t = L ++ N ++ R -> length N < fuel ->
  (N <> [] -> ne span) -> (ne span -> below k L (lc span) /\ Forall (over k span) N /\ above k R (uc span)) ->
  T0 = L0 ++ N ++ R -> (ne span -> below k L0 (lc span) /\ cltb (lc span) (lc a0) = false /\ cltb (uc a0) (uc span) = false) ->
  sepT (nodes t) -> sepI (nodes isec) -> outs a0 T0 (nodes t) ->
  exists t' er' isec' span', m_flip_loop X k M fuel t er isec span v (Tree.hd_it (N ++ R)) (Tree.hd_it R) = Ok (t', er', isec', span') /\
    minv t' /\ sepT (nodes t') /\ sepI (nodes isec') /\ sepA span' /\ outs a0 T0 (nodes t') /\ (ne span' -> inside span' a0).
Proof.
  induction N as [|n N IH]; intros [|fuel] t er isec span L L0 R Ht Her His E Hf HN HS E0 HS0 Qt Qi Qo; try (exfalso; clear - Hf; cbn in Hf; lia).
  - cbn [m_flip_loop app]. rewrite iter_eqb_refl. cbn [negb]. exists t, er, isec, span. conjs; auto. 2:{ intros Ns. apply (HS0 Ns). } intros c Ns Hc.
    destruct (HS0 Ns) as (B0 & A1 & A2). destruct (HS Ns) as (_ & _ & AR). unfold ini in *. split.
    + apply (gap_free L0 R (lc span) (uc span) c); auto; cord.
    + cord.
  - assert (Ns : ne span) by (apply HN; discriminate). destruct (HS Ns) as (BL & ON & AR). destruct (HS0 Ns) as (B0 & A0l & A0u).
    pose proof Ht as [[W S] _]. pose proof S as S'. rewrite E in S'. cbn [app] in S', E, E0.
    pose proof (MapFacts.srt_ne X k HX M _ _ _ S') as Nn. pose proof (MapFacts.srt_above X k HX M _ _ _ S') as AN. apply above_app in AN. destruct AN as [AN ARn].
    inversion ON as [|? ? On ON']; subst. destruct On as [O1 O2]. pose proof Nn as Nn'. pose proof Ns as Ns'. unfold Seg.ne in Nn', Ns'.
    cbn [m_flip_loop app]. cbn [Tree.hd_it].
    assert (EQI : iter_eqb (Some (nid n)) (Tree.hd_it R) = false).
    { change (Some (nid n)) with (Tree.hd_it ((n :: N) ++ R)). rewrite (iter_eqb_hd X t L (n :: N) R) by auto. auto. }
    rewrite EQI. cbn [negb]. rewrite (deref_at X t L n (N ++ R)) by auto. cbn [bind]. rewrite (incr_at X t L n (N ++ R)) by auto. cbn [bind].
    set (lo := right_subtract X k span (nkey n)). set (co := inter X k span (nkey n)). set (sp := left_subtract X k span (nkey n)).
    assert (AT : above k (n :: N ++ R) (lc (nkey n))).
    { apply above_cons. split; [cord|]. apply above_app; split; [eapply (above_ge X k HX); [exact AN|cord]|eapply (above_ge X k HX); [exact ARn|cord]]. }
    assert (Hlo2 : ne lo -> (below k L (lc lo) /\ cltb (lc (nkey n)) (uc lo) = false) /\ (forall c, ini k lo c = true -> ~ isin c (lims T0) /\ ini k a0 c = true) /\ inside lo a0).
    { intros Nl. unfold Seg.ne in Nl. destruct (cltb (lc span) (lc (nkey n))) eqn:C.
      - destruct (rsub_ne X k HX span (nkey n) Ns Nn O1 C) as [A1 A2]. fold lo in A1, A2. unfold inside. rewrite A1. conjs; auto; try cord. intros c Hc. unfold ini in *. rewrite A1 in Hc. split.
        + apply (gap_free L0 (n :: N ++ R) (lc span) (lc (nkey n)) c); auto; cord.
        + cord.
      - pose proof (rsub_e X k HX span (nkey n) Ns Nn O1 C) as A1. fold lo in A1. apply (not_ne X k HX) in A1. exfalso. cord. }
    assert (Nco : ne co). { unfold Seg.ne, co. rewrite inter_lc, inter_uc by auto. unfold IntervalFacts.cmax, IntervalFacts.cmin. repeat ifg; cord. }
    assert (Ico : forall c, ini k co c = true -> ~ isin c (lims T0) /\ ini k a0 c = true).
    { intros c Hc. destruct (inter_obs X k HX span (nkey n) c Ns Nn) as (_ & _ & Q). unfold co in Hc. rewrite Q in Hc. apply andb_true_iff in Hc. destruct Hc as [H1 H2]. split.
      - intros B. apply (not_inside X k HX T0 c S0) in B. rewrite (proj2 (intr_true X k T0 c)) in B; [discriminate|]. exists n. split; auto. rewrite E0. apply in_elt.
      - unfold ini in *. cord. }
    assert (Zco : is_empty X k co = false) by (apply (ne_iff X k HX); auto). rewrite Zco. cbn [negb].
    destruct (s_add_at X k HX sst er co Her Nco) as (er1 & he & -> & Her1 & _ & Aer). cbn [bind].
    destruct (add_fstep isec co (if cc_set_sem CC then combine CC (inverse_codomain_intersect M) v (nval n) else cc_zero) His) as (is1 & -> & His1 & [_ Fi] & _). cbn [bind].
    assert (Qi1 : sepI (nodes is1)). { intros c B. destruct (Fi c B) as [Q|Q]; auto. }
    destruct (add_gap_at X k HX M Hco t L n (N ++ R) lo v Ht E (fun Nl => proj1 (Hlo2 Nl))) as (t1 & L1 & Et1 & Ht1 & E1 & BL1 & C1).
    destruct (add_fstep t lo v Ht) as (t1' & Et1' & _ & [Fo Ft] & Fe & _). rewrite Et1 in Et1' |- *. injection Et1' as <-. cbn [bind].
    assert (Qt1 : sepT (nodes t1)). { intros c B. destruct (Ft c B) as [Q|Q]; auto. assert (Nl : ne lo) by (unfold ini in Q; unfold Seg.ne; cord). destruct (proj1 (proj2 (Hlo2 Nl)) c Q). auto. }
    assert (Qo1 : outs a0 T0 (nodes t1)). { apply (outs_trans a0 _ (nodes t)); auto. apply (outs_mono lo); auto. intros Nl. apply (Hlo2 Nl). }
    assert (Nsp : forall m, In m N -> cltb (uc (nkey n)) (uc span) = true).
    { intros m Hm. unfold above in AN. rewrite Forall_forall in AN, ON'. specialize (AN m Hm). destruct (ON' m Hm) as [P1 P2]. cord. }
    assert (NN : N <> [] -> ne sp).
    { intros NN. destruct N as [|m N']; [congruence|]. specialize (Nsp m (or_introl eq_refl)).
      destruct (lsub_ne X k HX span (nkey n) Nn Ns O2 Nsp) as [A1 A2]. fold sp in A1, A2. unfold Seg.ne. rewrite A2. cord. }
    assert (HS1 : ne sp -> (below k L1 (lc sp) /\ Forall (over k sp) N /\ above k R (uc sp)) /\ below k (L0 ++ [n]) (lc sp) /\ cltb (lc sp) (lc a0) = false /\ cltb (uc a0) (uc sp) = false).
    { intros Np. destruct (cltb (uc (nkey n)) (uc span)) eqn:C.
      - destruct (lsub_ne X k HX span (nkey n) Nn Ns O2 C) as [A1 A2]. fold sp in A1, A2. rewrite A2. conjs; auto.
        + eapply below_le; eauto. cord.
        + unfold above in AN. rewrite Forall_forall in *. intros m Hm. specialize (AN m Hm). destruct (ON' m Hm) as [P1 P2].
          assert (Nm : ne (nkey m)). { apply (srt_in X k M (nodes t)); auto. rewrite E. apply in_app_iff. right. right. apply in_app_iff. auto. }
          unfold Seg.ne in Nm. unfold over. rewrite A2. split; auto. cord.
        + unfold Seg.below in *. apply Forall_app. split.
          * rewrite Forall_forall in *. intros m Hm. specialize (B0 m Hm). cord.
          * constructor; [cord|constructor].
        + cord.
      - pose proof (lsub_e X k HX span (nkey n) Nn Ns O2 C) as A1. fold sp in A1. apply (not_ne X k HX) in A1. unfold Seg.ne in Np. congruence. }
    apply (IH fuel t1 er1 is1 sp L1 (L0 ++ [n]) R); auto.
    { clear - Hf. cbn in Hf. lia. } { intros Np. apply HS1. auto. } { rewrite <- app_assoc. auto. } { intros Np. apply HS1. auto. }
Qed.
End Loop.

Lemma within_a {W} (l : list (Tree.node (D X) W)) a : nes k l -> (forall c, Rb k l c = true -> inr k a c = true) -> forall n, In n l -> inside (nkey n) a.
Proof.
  intros N H n Hn. unfold nes in N. rewrite Forall_forall in N. specialize (N n Hn). unfold Seg.ne in N.
  assert (G : forall c, inr k (nkey n) c = true -> inr k a c = true) by (intros c Hc; apply H; apply Rb_iff; eauto).
  split.
  - specialize (G (lc (nkey n))). unfold inr in G. destruct (cltb (lc (nkey n)) (lc a)); auto. cbn in G. symmetry. apply G. cord.
  - destruct (cltb (uc a) (uc (nkey n))) eqn:E; auto. pose proof (G (lc (nkey n))) as G1. specialize (G (uc a)). unfold inr in *.
    assert (cltb (lc (nkey n)) (uc a) = true). { assert (Q : negb (cltb (lc (nkey n)) (lc a)) && cltb (lc (nkey n)) (uc a) = true) by (apply G1; cord). cord. }
    assert (Q : negb (cltb (uc a) (lc a)) && cltb (uc a) (uc a) = true) by (apply G; cord). cord.
Qed.
Lemma sep_flip t a v : minv t -> ne a -> mt_total M = false -> exists t', m_flip_seg X k M t a v = Ok t' /\ minv t' /\
  fstep a (nodes t) (nodes t') /\ fcut a (nodes t) (nodes t').
Proof.
  intros Ht Na Et. unfold m_flip_seg. rewrite Et. pose proof Ht as [[W S] HJ].
  destruct (decomp X k HX a (nodes t) S Na) as (L & N & R & E & BL & ON & AR).
  rewrite (SetWhole.equal_range_at X k HX t L N R a) by auto. cbn [bind].
  destruct (sep_loop (nodes t) a S v N (Datatypes.S (length (nodes t))) t t_empty t_empty a L L R) as (t1' & er' & isec' & span' & E1 & _ & Q1 & Q2 & Q3 & Q5 & Q6); auto.
  { apply sinv_empty. } { apply minv_empty. } { rewrite E, !app_length. clear. lia. } { intros _. conjs; auto; cord. }
  { intros c B. split; auto. intros J. apply (not_inside X k HX _ c S) in J. congruence. } { intros c. discriminate. } { apply outs_id. }
  destruct (flip_loop_at X k HX M Hco v N (Datatypes.S (length (nodes t))) t t_empty t_empty a L R) as (t1 & er & isec & span & E2 & Ht1 & Her & His & Q); auto.
  { apply sinv_empty. } { apply minv_empty. } { rewrite E, !app_length. clear. lia. }
  rewrite E1 in E2. injection E2 as -> -> -> ->. rewrite E1. cbn [bind].
  destruct (add_fstep t1 span v Ht1) as (t2 & -> & Ht2 & [O2 F2] & Z2 & _). cbn [bind].
  destruct (erase_set_at X k HX M Hco t2 er Ht2) as (t3 & E3 & Ht3 & C3). { apply Her. }
  assert (Ier : forall n, In n (nodes er) -> inside (nkey n) a).
  { apply within_a. { apply (srt_nes X k). apply Her. } intros c Hc. specialize (Q c). cbv zeta in Q. destruct Q as (_ & _ & Qb & _). rewrite Qb in Hc. cbn in Hc. destruct (inr k a c); auto. }
  assert (Iis : forall n, In n (nodes isec) -> inside (nkey n) a).
  { apply within_a. { apply (srt_nes X k). apply His. } intros c Hc. specialize (Q c). cbv zeta in Q. destruct Q as (_ & _ & _ & Qb). rewrite (vr_Rb X k), Qb in Hc. cbn in Hc. destruct (inr k a c); auto. }
  destruct (erase_set_fstep a t2 er Ht2 (proj1 Her) Ier) as (t3' & E3' & O3 & F3). rewrite E3 in E3' |- *. injection E3' as <-. cbn [bind].
  destruct (add_map_fstep a t3 isec Ht3) as (t4 & E4 & O4 & F4); auto. { apply (srt_nes X k). apply His. }
  destruct (add_map_at X k HX M Hco t3 isec Ht3) as (t4' & E4' & Ht4 & _). { apply His. } rewrite E4 in E4' |- *. injection E4' as <-.
  exists t4. split; auto. split; auto.
  assert (T2 : forall c, intr k (nodes t2) c = true -> ~ isin c (lims (nodes t)) /\ (intr k (nodes t) c = true \/ ini k a c = true)).
  { intros d Bd. destruct (F2 d Bd) as [P|P2]; [apply Q1; auto|]. assert (P1 : ne span) by (unfold ini in P2; unfold Seg.ne; cord). destruct (Q3 d P1 P2). auto. }
  assert (CL : forall d n m, In n (nodes t) -> In m (nodes t3) -> inr k a d = true -> inr k (nkey n) d = true -> inr k (nkey m) d = true -> False).
  { intros d n m Hn Hm Ia In_ Im. specialize (C3 d). specialize (Q d). cbv zeta in Q. destruct Q as (Qa & _ & Qb & _).
    assert (Vt : vr k (nodes t) d = Some (nval n)) by (apply (vr_some X k HX); auto; exists n; auto).
    assert (V3 : vr k (nodes t3) d = Some (nval m)) by (apply (vr_some X k HX); [apply Ht3|exists m; auto]).
    assert (Is : inr k span d = false) by (destruct (inr k span d); auto; destruct (Qa eq_refl); congruence).
    rewrite Qb, Ia, Is, Vt in C3. cbn [negb andb some] in C3. rewrite orb_true_r in C3. congruence. }
  split; [split|].
  - apply (outs_trans a _ (nodes t3)); auto. apply (outs_trans a _ (nodes t2)); auto. apply (outs_trans a _ (nodes t1)); auto. apply (outs_mono span); auto.
  - intros c B. destruct (F4 c B) as [P|P]; [apply F3 in P; apply (T2 c P)|right; apply (Q2 c P)].
  - intros c Hc. destruct (intr k (nodes t4) c) eqn:B; auto. exfalso. destruct Hc as [Hc|Ic].
    + assert (Hc' : isin c (lims (nodes t))).
      { apply (inQ_lims X k HX (nodes t) (lims (nodes t))); auto. intros n Hn. split; apply (isin_here X k HX); [apply lims_lc|apply lims_uc]; auto. }
      destruct (F4 c B) as [P|P]; [apply F3 in P; destruct (T2 c P); auto|destruct (Q2 c P); auto].
    + unfold Seg.ne in Na. assert (Ia : ini k a c = false) by (unfold ini; destruct Ic; cord).
      destruct (F4 c B) as [P|P]; [|destruct (Q2 c P); congruence].
    pose proof (F3 c P) as P2. destruct (T2 c P2) as [_ [P3|P3]]; [|congruence].
    apply (intr_true X k) in P, P3. destruct P as (m & Hm & Im), P3 as (n & Hn & In_). unfold ini in Im, In_. destruct Ic as [Ic|Ic].
      * apply (CL (lc a) n m); auto; unfold inr; cord.
      * set (e := IntervalFacts.cmax X (lc (nkey n)) (lc (nkey m))). set (d := IntervalFacts.cmax X (lc a) e).
        assert (Ee : cltb e (lc (nkey n)) = false /\ cltb e (lc (nkey m)) = false /\ cltb e c = true) by (unfold e, IntervalFacts.cmax; ifg; conjs; cord).
      assert (E2' : cltb d (lc a) = false /\ cltb d e = false /\ cltb d c = true) by (clearbody e; unfold d, IntervalFacts.cmax; ifg; conjs; cord).
      clearbody d e. destruct Ee as (? & ? & ?), E2' as (? & ? & ?). apply (CL d n m); auto; unfold inr; cord.
Qed.

(** the segments of an operand one after the other *)
Section Fold.
Context (T0 o : list node) (So : srt k o).
Definition finv (d l s : list node) : Prop :=
  (forall c, bord k T0 c = true \/ (exists n, In n d /\ (ceqb c (lc (nkey n)) = true \/ ceqb c (uc (nkey n)) = true)) -> intr k s c = false) /\
  (forall n c, In n l -> ini k (nkey n) c = true -> Rb k s c = Rb k T0 c /\ Lb k s c = Lb k T0 c /\ intr k s c = intr k T0 c).
Lemma finv_step d n l s s' : o = d ++ n :: l -> fstep (nkey n) s s' -> fcut (nkey n) s s' -> finv d (n :: l) s -> finv (d ++ [n]) l s'.
Proof.
  intros Eo [O F] Fc [I1 I2]. pose proof (srt_nes X k _ So) as N. unfold nes in N. rewrite Forall_forall in N. rewrite Eo in So, N.
  assert (Nn : ne (nkey n)) by (apply N; apply in_elt). unfold Seg.ne in Nn.
  pose proof (MapFacts.srt_above X k HX M _ _ _ So) as A. pose proof (MapFacts.srt_below X k HX M _ _ _ So) as B.
  unfold Seg.above in A. unfold Seg.below in B. rewrite Forall_forall in A, B. split.
  - intros c H. destruct (intr k s' c) eqn:Q; auto. destruct H as [H|(m & Hm & H)].
    + destruct (F c Q) as [P|P]; [rewrite I1 in P; auto; discriminate|]. rewrite <- Q. apply Fc. left.
      destruct (I2 n c (or_introl eq_refl) P) as (E1 & E2 & E3). unfold bord. rewrite E1, E2, E3. exact H.
    + apply in_app_iff in Hm. destruct Hm as [Hm|[<-|[]]]; [|rewrite <- Q; apply Fc; auto].
      destruct (F c Q) as [P|P]. { rewrite I1 in P; [discriminate|]. right. eauto. }
      exfalso. specialize (B m Hm). assert (Nm : ne (nkey m)) by (apply N; apply in_app_iff; auto). unfold Seg.ne in Nm. unfold ini in P. destruct H; cord.
  - intros m c Hm Hc. specialize (A m Hm). destruct (I2 m c (or_intror Hm) Hc) as (E1 & E2 & E3). destruct (O c) as (O1 & O2 & O3).
    { right. unfold ini in Hc. cord. } conjs; congruence.
Qed.
Lemma finv_fold (F : tree -> node -> res tree) : (forall s n, minv s -> In n o -> exists s', F s n = Ok s' /\ minv s' /\ fstep (nkey n) (nodes s) (nodes s') /\ fcut (nkey n) (nodes s) (nodes s')) ->
  forall l d r s, o = d ++ l ++ r -> minv s -> finv d (l ++ r) (nodes s) -> exists s', foldM F s l = Ok s' /\ minv s' /\ finv (d ++ l) r (nodes s').
Proof.
  intros HF. induction l as [|n l IH]; intros d r s Eo Hs Hi; cbn [foldM]. { exists s. rewrite app_nil_r. auto. }
  cbn [app] in *. destruct (HF s n Hs) as (s1 & -> & I1 & S1 & C1). { rewrite Eo. apply in_elt. } cbn [bind].
  destruct (IH (d ++ [n]) r s1) as (s' & E' & I' & H'); auto. { rewrite <- app_assoc. auto. } { eapply finv_step; eauto. }
  exists s'. rewrite <- app_assoc in H'. auto.
Qed.
End Fold.
Lemma flip_map_fcut t o : minv t -> inv k o -> mt_total M = false -> (forall n, In n (nodes o) -> is_absorbable M (nval n) = false) ->
  exists t', m_flip_map X k M t o = Ok t' /\ forall c, bord k (nodes t) c = true \/ bord k (nodes o) c = true -> intr k (nodes t') c = false.
Proof.
  intros Ht Ho Et Ab. pose proof Ho as [Wo So]. assert (N0 : nes k (nodes o)) by (apply (srt_nes X k); auto). unfold nes in N0. rewrite Forall_forall in N0.
  assert (H0 : finv (nodes t) [] (nodes o) (nodes t)).
  { split; auto. intros c [H|(n & [] & _)]. unfold bord in H. apply andb_true_iff in H. destruct H as [_ H]. apply negb_true_iff in H. auto. }
  assert (FI : forall r, finv (nodes t) (nodes o) [] r -> forall c, bord k (nodes t) c = true \/ bord k (nodes o) c = true -> intr k r c = false).
  { intros r [H _] c Hc. apply H. destruct Hc as [Hc|Hc]; auto. right. apply (bord_parts X k) in Hc. destruct Hc as [B|B].
    - apply (starts_in X k HX) in B. destruct B as (n & Hn & E). eauto.
    - apply (ends_in X k HX) in B. destruct B as (n & Hn & E). eauto. }
  unfold m_flip_map. rewrite Et. destruct (common_range_at X k HX o t Ho (proj1 Ht)) as (L & N & R & r & -> & EN & _ & _ & H). cbn [bind].
  destruct H as [(-> & ->)|(-> & _)].
  { unfold m_add_map.
    assert (G : forall l d s h, nodes o = d ++ l -> minv s -> isit s h -> finv (nodes t) d l (nodes s) -> exists s' h', foldM (fun '(t, prior_) n => m_add_hint X k M t prior_ (nkey n) (nval n)) (s, h) l = Ok (s', h') /\
      finv (nodes t) (nodes o) [] (nodes s')).
    { induction l as [|n l IH]; intros d s h E Hs Hh Hi; cbn [foldM]. { exists s, h. rewrite E, app_nil_r. auto. }
      assert (Hn : In n (nodes o)) by (rewrite E; apply in_elt).
      destruct (add_hint_fstep s h (nkey n) (nval n) Hs Hh) as (s1 & h1 & -> & I1 & Hh1 & S1 & C1). cbn [bind].
      apply (IH (d ++ [n]) s1 h1); auto. { rewrite <- app_assoc. auto. } eapply finv_step; eauto. }
    destruct (G (nodes o) [] t (end_ t) eq_refl Ht Logic.I H0) as (t' & h' & E & F). rewrite E. cbn [bind]. exists t'. auto. }
  assert (E1 : range X o (begin_ o) (Tree.hd_it (N ++ R)) = Ok L).
  { unfold begin_. rewrite EN. apply (range_at X o [] L (N ++ R)); auto. }
  assert (E2 : range X o (Tree.hd_it (N ++ R)) (Tree.hd_it R) = Ok N) by (apply (range_at X o L N R); auto).
  assert (E3 : range X o (Tree.hd_it R) (end_ o) = Ok R).
  { unfold end_. pose proof (range_at X o (L ++ N) R []) as H. rewrite app_nil_r in H. apply H; auto. rewrite EN, <- app_assoc. auto. }
  rewrite E1, E2, E3. cbn [bind].
  assert (FA : forall s n, minv s -> In n (nodes o) -> exists s', m_add X k M s (nkey n) (nval n) = Ok s' /\ minv s' /\ fstep (nkey n) (nodes s) (nodes s') /\ fcut (nkey n) (nodes s) (nodes s')).
  { intros s n Hs Hn. destruct (add_fstep s (nkey n) (nval n) Hs) as (s' & E & I' & S' & _ & C'). exists s'. conjs; auto. }
  assert (FF : forall s n, minv s -> In n (nodes o) -> exists s', m_flip_seg X k M s (nkey n) (nval n) = Ok s' /\ minv s' /\ fstep (nkey n) (nodes s) (nodes s') /\ fcut (nkey n) (nodes s) (nodes s')).
  { intros s n Hs Hn. apply sep_flip; auto. }
  rewrite EN in H0. destruct (finv_fold (nodes t) (nodes o) So _ FA L [] (N ++ R) t EN Ht H0) as (t1 & -> & I1 & H1). cbn [bind app] in *.
  destruct (finv_fold (nodes t) (nodes o) So _ FF N L R t1 EN I1 H1) as (t2 & -> & I2 & H2). cbn [bind].
  rewrite <- (app_nil_r R) in H2. destruct (finv_fold (nodes t) (nodes o) So _ FA R (L ++ N) [] t2) as (t3 & -> & I3 & H3); auto. { rewrite app_nil_r, <- app_assoc. auto. }
  exists t3. split; auto. apply FI. rewrite EN, app_assoc. auto.
Qed.
End Steps.
End FlipSep.

Section FlipReach.
Context (X : dom) (k : kind) (HX : dom_ok X k).
Ltac cord := cord_ X k HX.
(** a sequence with exactly the borders of two others *)
Lemma cut_seg {V W} (r t : list (node (D X) V)) (o : list (node (D X) W)) x y : srt k r -> srt k t -> srt k o ->
  (forall c, bord k r c = true -> isin X c (lims X k t ++ lims X k o)) -> (forall c, bord k t c = true \/ bord k o c = true -> intr k r c = false) -> le x y ->
  (same_seg X k (map nkey r) x y <-> Rb k r (pt X x) = true /\
    (same_seg X k (map nkey t) x y \/ forall z, le x z -> le z y -> forall n, In n t -> ~ mem X k (nkey n) z) /\
    (same_seg X k (map nkey o) x y \/ forall z, le x z -> le z y -> forall n, In n o -> ~ mem X k (nkey n) z)).
Proof.
  intros Sr St So A B L. rewrite <- (const_seg X k HX t x y St L), <- (const_seg X k HX o x y So L). split.
  - intros H. apply (same_seg_cut X k HX) in H; auto. destruct H as [H1 H2]. conjs; auto; intros c C1 C2 C3.
    + destruct (bord k t c) eqn:E; auto. rewrite <- (H2 c C1 C2 C3). apply B. auto.
    + destruct (bord k o c) eqn:E; auto. rewrite <- (H2 c C1 C2 C3). apply B. auto.
  - intros (H1 & H2 & H3).
    assert (G : forall U (l : list (node (D X) U)), srt k l -> (forall c, cut_ok X k c -> cltb X (pt X x) c = true -> cltb X (pt X y) c = false -> bord k l c = false) ->
      forall c, cut_ok X k c -> cltb X (pt X x) c = true -> cltb X (pt X y) c = false -> ~ isin X c (lims X k l)).
    { intros U l Sl H c C1 C2 C3 (q & Hq & Eq). apply in_app_iff in Hq. destruct Hq as [Hq|Hq]; apply in_map_iff in Hq; destruct Hq as (n & <- & Hn);
        destruct (intr_ends X k HX l n Sl Hn) as (I1 & I2 & I3 & I4).
      - specialize (H (lc X k (nkey n)) (lc_ok X k _) ltac:(cord) ltac:(cord)). unfold bord in H. rewrite I1, I3, orb_true_r in H. discriminate.
      - specialize (H (uc X k (nkey n)) (uc_ok X k _) ltac:(cord) ltac:(cord)). unfold bord in H. rewrite I2, I4 in H. discriminate. }
    destruct (proj1 (const_seg X k HX r x y Sr L)) as [Q|Q]; auto.
    + intros c C1 C2 C3. destruct (bord k r c) eqn:E; auto. exfalso. apply A in E. apply isin_app in E. destruct E as [E|E]; revert E; apply G; auto.
    + exfalso. apply (Rb_mem X k HX) in H1. destruct H1 as (n & Hn & Mx). apply (Q x) with (n := n); auto. rewrite (le_pt X). cord.
Qed.
Context (CC : codomain) (Hco : eq_ok CC).
Notation mreach := (mreach X k CC).
Lemma clear_nodes {W} (t : tree (D X) W) x y : (forall z, le x z -> le z y -> forall n, In n (nodes t) -> ~ mem X k (nkey n) z) <-> clear_of X (cmem X k t) x y.
Proof.
  split.
  - intros H z Z1 Z2 (a & Ha & Ma). unfold keys in Ha. apply in_map_iff in Ha. destruct Ha as (n & <- & Hn). exact (H z Z1 Z2 n Hn Ma).
  - intros H z Z1 Z2 n Hn Mn. apply (H z Z1 Z2). exists (nkey n). split; auto. unfold keys. apply in_map. auto.
Qed.
Theorem whole_flip_part p p' t o : mreach p t -> mreach p' o -> mp_style p = MSplit -> mt_total (mt CC p) = false ->
  (forall s, In s (segs X CC o) -> absorbed CC p (snd s) = false) ->
  exists r, m_flip_map X k (mt CC p) t o = Ok r /\ forall x y, le x y -> (same_seg X k (keys X r) x y <->
    cmem X k r x /\ (same_seg X k (keys X t) x y \/ clear_of X (cmem X k t) x y) /\ (same_seg X k (keys X o) x y \/ clear_of X (cmem X k o) x y)).
Proof.
  intros R Ro Hs Et Ab. pose proof (mreach_minv X k HX CC Hco p t R) as I. pose proof (mreach_inv X k HX CC Hco p' o Ro) as Io.
  assert (Sp : spl (mt CC p) = true) by (unfold spl; cbn; rewrite Hs; auto).
  destruct (flip_map_fcut X k HX (mt CC p) Hco Sp t o I Io Et) as (r & E & F).
  { intros n Hn. apply (Ab (nkey n, nval n)). unfold segs. apply in_map_iff. eauto. }
  destruct (inQ_flip_map X k HX (mt CC p) Hco (lims X k (nodes t) ++ lims X k (nodes o)) t o I Io) as (r' & E' & I' & Q').
  { apply (inQ_lims X k HX). intros n Hn. split; apply (isin_here X k HX); apply in_app_iff; left; [apply lims_lc|apply lims_uc]; auto. }
  { apply (inQ_lims X k HX). intros n Hn. split; apply (isin_here X k HX); apply in_app_iff; right; [apply lims_lc|apply lims_uc]; auto. }
  rewrite E in E'. injection E' as <-. exists r. split; auto. intros x y L.
  pose proof (cut_seg (nodes r) (nodes t) (nodes o) x y (proj2 (proj1 I')) (proj2 (proj1 I)) (proj2 Io) Q' F L) as P.
  rewrite !clear_nodes in P. rewrite (cmem_Rb X k HX). exact P.
Qed.
Theorem whole_flip_seg p t a v : mreach p t -> mp_style p = MSplit -> mt_total (mt CC p) = false -> (exists x, mem X k a x) ->
  exists r, m_flip_seg X k (mt CC p) t a v = Ok r /\ forall x y, le x y -> (same_seg X k (keys X r) x y <->
    cmem X k r x /\ (same_seg X k (keys X t) x y \/ clear_of X (cmem X k t) x y) /\ ((mem X k a x /\ mem X k a y) \/ clear_of X (mem X k a) x y)).
Proof.
  intros R Hs Et Na'. pose proof (mreach_minv X k HX CC Hco p t R) as I. assert (Sp : spl (mt CC p) = true) by (unfold spl; cbn; rewrite Hs; auto).
  assert (Na : ne k a). { apply (ne_iff X k HX). destruct (is_empty X k a) eqn:Ea; auto. destruct Na' as (z & Mz). exfalso. revert Mz. apply (empty_no_point X k HX); auto. }
  destruct (sep_flip X k HX (mt CC p) Hco Sp t a v I Na Et) as (r & E & I' & _ & F).
  destruct (inQ_flip_part X k HX (mt CC p) Hco (lims X k (nodes t) ++ lims X k (nodes (SizeAnd.one X a))) t a v I Na Et) as (r' & E' & _ & Q').
  { apply (inQ_lims X k HX). intros n Hn. split; apply (isin_here X k HX); apply in_app_iff; left; [apply lims_lc|apply lims_uc]; auto. }
  { intros _. split; apply (isin_here X k HX); apply in_app_iff; right; cbn; auto. }
  rewrite E in E'. injection E' as <-. exists r. split; auto. intros x y L.
  assert (F' : forall c, bord k (nodes t) c = true \/ bord k (nodes (SizeAnd.one X a)) c = true -> intr k (nodes r) c = false).
  { intros c [H|H]; apply F; auto. right. apply (bord_parts X k) in H. destruct H as [B|B].
    - apply (starts_in X k HX) in B. destruct B as (n & [<-|[]] & B). auto.
    - apply (ends_in X k HX) in B. destruct B as (n & [<-|[]] & B). auto. }
  pose proof (cut_seg (nodes r) (nodes t) (nodes (SizeAnd.one X a)) x y (proj2 (proj1 I')) (proj2 (proj1 I)) (proj2 (SizeAnd.one_inv X k a Na)) Q' F' L) as P.
  rewrite !clear_nodes in P. rewrite (cmem_Rb X k HX).
  assert (K : clear_of X (cmem X k (SizeAnd.one X a)) x y <-> clear_of X (mem X k a) x y).
  { split; intros H z Z1 Z2 Z3; apply (H z Z1 Z2); [exists a; split; cbn; auto|]. destruct Z3 as (b & [<-|[]] & Mb). exact Mb. }
  pose proof (SizeAnd.one_seg X k a x y) as K2. unfold keys in *. cbn [mt_co mt] in *. rewrite P, K, <- K2. reflexivity.
Qed.
End FlipReach.

(** Cut-level semantics of sequences of nodes (proof infrastructure).

    A cut is a position between elements (IntervalFacts.v).  Of a node sequence we observe
    at every cut [c]: the value immediately right of it ([vr]), immediately left of it
    ([vl]), and whether [c] lies strictly inside one stored interval ([intr]).
    Elements are the cuts [pt x]; element x has value v iff [vr l (pt x) = Some v]. *)
From Verif Require Export IntervalProps Tree.

Section Seg.
Context (X : dom) (k : kind).
Context (HX : dom_ok X k).
Context {V : Type}.
Notation I := (itv (D X)).
Notation node := (node (D X) V).
Notation tree := (tree (D X) V).
Notation lc := (lc X k).
Notation uc := (uc X k).
Notation pt := (pt X).
Notation cltb := (cltb X).
Notation ceqb := (ceqb X).
Notation cut := (cut X).
Ltac cord := cord_ X k HX.

Definition inr (a : I) (c : cut) : bool := negb (cltb c (lc a)) && cltb c (uc a).
Definition inl (a : I) (c : cut) : bool := cltb (lc a) c && negb (cltb (uc a) c).
Definition ini (a : I) (c : cut) : bool := cltb (lc a) c && cltb c (uc a).

Fixpoint vr (l : list node) (c : cut) : option V :=
  match l with [] => None | n :: l => if inr (nkey n) c then Some (nval n) else vr l c end.
Fixpoint vl (l : list node) (c : cut) : option V :=
  match l with [] => None | n :: l => if inl (nkey n) c then Some (nval n) else vl l c end.
Fixpoint intr (l : list node) (c : cut) : bool :=
  match l with [] => false | n :: l => ini (nkey n) c || intr l c end.

Definition ne (a : I) : Prop := cltb (lc a) (uc a) = true.

(** non-empty, ordered, disjoint *)
Fixpoint srt (l : list node) : Prop :=
  match l with
  | [] => True
  | n :: l => ne (nkey n) /\ Forall (fun m => cltb (lc (nkey m)) (uc (nkey n)) = false) l /\ srt l
  end.

Definition below (l : list node) (d : cut) : Prop := Forall (fun n => cltb d (uc (nkey n)) = false) l.
Definition above (l : list node) (d : cut) : Prop := Forall (fun n => cltb (lc (nkey n)) d = false) l.
Definition nes (l : list node) : Prop := Forall (fun n => ne (nkey n)) l.
(** n overlaps a *)
Definition over (a : I) (n : node) : Prop :=
  cltb (lc (nkey n)) (uc a) = true /\ cltb (lc a) (uc (nkey n)) = true.

Lemma ne_iff a : ne a <-> is_empty X k a = false.
Proof. unfold ne. rewrite is_empty_cut by assumption. destruct (cltb (lc a) (uc a)); cbn [negb]; intuition congruence. Qed.
Lemma not_ne a : is_empty X k a = true <-> cltb (lc a) (uc a) = false.
Proof. rewrite is_empty_cut by assumption. destruct (cltb (lc a) (uc a)); cbn [negb]; intuition congruence. Qed.

(* ------------------------------------------------------------ structure *)
Lemma srt_app l r : srt (l ++ r) <->
  srt l /\ srt r /\ forall n m, In n l -> In m r -> cltb (lc (nkey m)) (uc (nkey n)) = false.
Proof.
  induction l as [|n l IH]; cbn [app srt].
  - split; [intros H|intros (_ & H & _)]; auto. repeat split; auto. intros ? ? [].
  - rewrite IH, Forall_app. split.
    + intros (H1 & (H2 & H3) & H4 & H5 & H6). repeat split; auto.
      intros p q [<-|Hp] Hq; auto. rewrite Forall_forall in H3. auto.
    + intros ((H1 & H2 & H3) & H4 & H5). repeat split; auto.
      * rewrite Forall_forall. intros q Hq. apply H5; cbn; auto.
      * intros p q Hp Hq. apply H5; cbn; auto.
Qed.

Lemma srt_nes l : srt l -> nes l.
Proof. induction l; cbn; [constructor|intros (H & _ & H2); constructor; auto; apply IHl; auto]. Qed.

Lemma srt_mid L n R : srt (L ++ n :: R) <->
  srt L /\ srt R /\ ne (nkey n) /\ below L (lc (nkey n)) /\ above R (uc (nkey n)).
Proof.
  rewrite srt_app. cbn [srt]. unfold below, above. rewrite !Forall_forall. split.
  - intros (H1 & (H2 & H3 & H4) & H5). repeat split; auto.
    intros m Hm. apply H5; cbn; auto.
  - intros (H1 & H2 & H3 & H4 & H5). repeat split; auto.
    intros p q Hp [<-|Hq]; auto. specialize (H4 p Hp). specialize (H5 q Hq). unfold ne in H3. cord.
Qed.

Lemma below_app l r d : below (l ++ r) d <-> below l d /\ below r d.
Proof. apply Forall_app. Qed.
Lemma above_app l r d : above (l ++ r) d <-> above l d /\ above r d.
Proof. apply Forall_app. Qed.
Lemma below_cons n l d : below (n :: l) d <-> cltb d (uc (nkey n)) = false /\ below l d.
Proof. unfold below. rewrite Forall_cons_iff. tauto. Qed.
Lemma above_cons n l d : above (n :: l) d <-> cltb (lc (nkey n)) d = false /\ above l d.
Proof. unfold above. rewrite Forall_cons_iff. tauto. Qed.
Lemma below_nil d : below [] d. Proof. constructor. Qed.
Lemma above_nil d : above [] d. Proof. constructor. Qed.
Lemma below_le l c d : below l c -> cltb d c = false -> below l d.
Proof. unfold below. rewrite !Forall_forall. intros H Hd n Hn. specialize (H n Hn). cord. Qed.
Lemma above_ge l c d : above l c -> cltb c d = false -> above l d.
Proof. unfold above. rewrite !Forall_forall. intros H Hd n Hn. specialize (H n Hn). cord. Qed.

Lemma srt_glue l r d : srt l -> srt r -> below l d -> above r d -> srt (l ++ r).
Proof.
  unfold below, above. rewrite !Forall_forall. intros H1 H2 H3 H4. apply srt_app.
  repeat split; auto. intros n m Hn Hm. specialize (H3 n Hn). specialize (H4 m Hm). cord.
Qed.

Lemma srt_below l r : srt (l ++ r) -> forall m, In m r -> below l (lc (nkey m)).
Proof.
  rewrite srt_app. intros (_ & _ & H) m Hm. unfold below. rewrite Forall_forall. auto.
Qed.
Lemma srt_above l r : srt (l ++ r) -> forall m, In m l -> above r (uc (nkey m)).
Proof.
  rewrite srt_app. intros (_ & _ & H) m Hm. unfold above. rewrite Forall_forall. auto.
Qed.

Lemma ordered_srt l : ordered X k l = true <-> srt l.
Proof.
  induction l as [|n l IH]; cbn [ordered srt]; [tauto|].
  rewrite !andb_true_iff, IH, negb_true_iff, <- ne_iff. unfold less. split.
  - intros ((H1 & H2) & H3). repeat split; auto.
    destruct l as [|m l]; [constructor|].
    destruct H3 as (E & F & G). rewrite ne_exclusive_less_cut in H2 by (auto; apply ne_iff; auto).
    apply negb_true_iff in H2. constructor; auto.
    rewrite Forall_forall in F |- *. intros q Hq. specialize (F q Hq). unfold ne in *. cord.
  - intros (H1 & H2 & H3). repeat split; auto. destruct l as [|m l]; auto.
    destruct H3 as (E & F & G). rewrite ne_exclusive_less_cut by (auto; apply ne_iff; auto).
    inversion H2; subst. apply negb_true_iff. auto.
Qed.

(* ------------------------------------------------------------ observation *)
Definition orelse (a b : option V) : option V := match a with Some _ => a | None => b end.
Lemma vr_app l r c : vr (l ++ r) c = orelse (vr l c) (vr r c).
Proof. induction l; cbn; auto. destruct (inr _ _); auto. Qed.
Lemma vl_app l r c : vl (l ++ r) c = orelse (vl l c) (vl r c).
Proof. induction l; cbn; auto. destruct (inl _ _); auto. Qed.
Lemma intr_app l r c : intr (l ++ r) c = intr l c || intr r c.
Proof. induction l; cbn; auto. rewrite IHl, orb_assoc. auto. Qed.
Lemma orelse_none_r a : orelse a None = a. Proof. destruct a; auto. Qed.

Lemma vr_below l d c : below l d -> cltb c d = false -> vr l c = None.
Proof.
  induction l; cbn; auto. rewrite below_cons. intros (H & Hl) Hc. rewrite IHl by auto.
  unfold inr. destruct (cltb c (lc (nkey a))) eqn:E1, (cltb c (uc (nkey a))) eqn:E2; cbn; auto; cord.
Qed.
Lemma vl_below l d c : below l d -> cltb d c = true -> vl l c = None.
Proof.
  induction l; cbn; auto. rewrite below_cons. intros (H & Hl) Hc. rewrite IHl by auto.
  unfold inl. destruct (cltb (lc (nkey a)) c) eqn:E1, (cltb (uc (nkey a)) c) eqn:E2; cbn; auto; cord.
Qed.
Lemma intr_below l d c : below l d -> cltb c d = false -> intr l c = false.
Proof.
  induction l; cbn; auto. rewrite below_cons. intros (H & Hl) Hc. rewrite IHl by auto.
  unfold ini. destruct (cltb (lc (nkey a)) c) eqn:E1, (cltb c (uc (nkey a))) eqn:E2; cbn; auto; cord.
Qed.
Lemma vr_above l d c : above l d -> cltb c d = true -> vr l c = None.
Proof.
  induction l; cbn; auto. rewrite above_cons. intros (H & Hl) Hc. rewrite IHl by auto.
  unfold inr. destruct (cltb c (lc (nkey a))) eqn:E1, (cltb c (uc (nkey a))) eqn:E2; cbn; auto; cord.
Qed.
Lemma vl_above l d c : above l d -> cltb d c = false -> vl l c = None.
Proof.
  induction l; cbn; auto. rewrite above_cons. intros (H & Hl) Hc. rewrite IHl by auto.
  unfold inl. destruct (cltb (lc (nkey a)) c) eqn:E1, (cltb (uc (nkey a)) c) eqn:E2; cbn; auto; cord.
Qed.
Lemma intr_above l d c : above l d -> cltb d c = false -> intr l c = false.
Proof.
  induction l; cbn; auto. rewrite above_cons. intros (H & Hl) Hc. rewrite IHl by auto.
  unfold ini. destruct (cltb (lc (nkey a)) c) eqn:E1, (cltb c (uc (nkey a))) eqn:E2; cbn; auto; cord.
Qed.

Lemma vr_some l c v : srt l ->
  (vr l c = Some v <-> exists n, In n l /\ inr (nkey n) c = true /\ nval n = v).
Proof.
  induction l as [|n l IH]; cbn [vr srt].
  - split; [discriminate|intros (? & [] & _)].
  - intros (Hn & Hf & Hs). destruct (inr (nkey n) c) eqn:E.
    + split.
      * intros [= <-]. exists n; cbn; auto.
      * intros (m & [<-|Hm] & E2 & <-); auto.
        rewrite Forall_forall in Hf. specialize (Hf m Hm). unfold inr in *. cord.
    + rewrite IH by auto. split; intros (m & Hm & H); exists m; cbn; auto.
      destruct Hm as [<-|]; auto. destruct H; congruence.
Qed.
Lemma vl_some l c v : srt l ->
  (vl l c = Some v <-> exists n, In n l /\ inl (nkey n) c = true /\ nval n = v).
Proof.
  induction l as [|n l IH]; cbn [vl srt].
  - split; [discriminate|intros (? & [] & _)].
  - intros (Hn & Hf & Hs). destruct (inl (nkey n) c) eqn:E.
    + split.
      * intros [= <-]. exists n; cbn; auto.
      * intros (m & [<-|Hm] & E2 & <-); auto.
        rewrite Forall_forall in Hf. specialize (Hf m Hm). unfold inl in *. cord.
    + rewrite IH by auto. split; intros (m & Hm & H); exists m; cbn; auto.
      destruct Hm as [<-|]; auto. destruct H; congruence.
Qed.
Lemma intr_true l c : intr l c = true <-> exists n, In n l /\ ini (nkey n) c = true.
Proof.
  induction l; cbn; [split; [discriminate|intros (? & [] & _)]|].
  rewrite orb_true_iff, IHl. split.
  - intros [H|(n & H & E)]; eauto.
  - intros (n & [<-|H] & E); eauto.
Qed.

(** the node at a cut is unique *)
Lemma srt_uniq_r l n m c : srt l -> In n l -> In m l -> inr (nkey n) c = true -> inr (nkey m) c = true ->
  n = m.
Proof.
  induction l as [|q l IH]; cbn [srt In]; [tauto|].
  intros (Hq & Hf & Hs) [<-|Hn] [<-|Hm] E1 E2; auto; rewrite Forall_forall in Hf.
  - specialize (Hf m Hm). unfold inr in *. cord.
  - specialize (Hf n Hn). unfold inr in *. cord.
Qed.

(** membership *)
Lemma inr_mem a x : inr a (pt x) = true <-> mem X k a x.
Proof. rewrite mem_cut by assumption. unfold inr. rewrite andb_true_iff, negb_true_iff. tauto. Qed.

(* ------------------------------------------------------------ equality *)
(** equal up to the representation of the borders *)
Definition sameseg (a b : node) : Prop :=
  ceqb (lc (nkey a)) (lc (nkey b)) = true /\ ceqb (uc (nkey a)) (uc (nkey b)) = true /\ nval a = nval b.

Lemma same_of_obs l r : srt l -> srt r ->
  (forall c, cut_ok X k c -> vr l c = vr r c) -> (forall c, cut_ok X k c -> intr l c = intr r c) -> Forall2 sameseg l r.
Proof.
  revert r. induction l as [|a l IH]; intros [|b r] Hl Hr Hv Hi.
  - constructor.
  - exfalso. destruct Hr as (Hb & _). specialize (Hv (lc (nkey b)) (lc_ok X k _)). cbn in Hv.
    unfold inr in Hv. replace (_ && _) with true in Hv; [discriminate|]. unfold ne in Hb. cord.
  - exfalso. destruct Hl as (Hb & _). specialize (Hv (lc (nkey a)) (lc_ok X k _)). cbn in Hv.
    unfold inr in Hv. replace (_ && _) with true in Hv; [discriminate|]. unfold ne in Hb. cord.
  - destruct Hl as (Ha & Fa & Sa), Hr as (Hb & Fb & Sb).
    change (above l (uc (nkey a))) in Fa. change (above r (uc (nkey b))) in Fb.
    unfold ne in *.
    assert (L : ceqb (lc (nkey a)) (lc (nkey b)) = true).
    { destruct (cltb (lc (nkey a)) (lc (nkey b))) eqn:E1.
      - specialize (Hv (lc (nkey a)) (lc_ok X k _)). cbn in Hv.
        rewrite (vr_above r (uc (nkey b)) _ Fb) in Hv by cord.
        unfold inr in Hv. destruct (_ && _) eqn:Z1 in Hv; [|cord].
        destruct (_ && _) eqn:Z2 in Hv; [cord|discriminate].
      - destruct (cltb (lc (nkey b)) (lc (nkey a))) eqn:E2; [|cord].
        specialize (Hv (lc (nkey b)) (lc_ok X k _)). cbn in Hv.
        rewrite (vr_above l (uc (nkey a)) _ Fa) in Hv by cord.
        unfold inr in Hv. destruct (_ && _) eqn:Z1 in Hv; [cord|].
        destruct (_ && _) eqn:Z2 in Hv; [discriminate|cord]. }
    assert (U : ceqb (uc (nkey a)) (uc (nkey b)) = true).
    { destruct (cltb (uc (nkey a)) (uc (nkey b))) eqn:E1.
      - specialize (Hi (uc (nkey a)) (uc_ok X k _)). cbn in Hi.
        rewrite (intr_above l (uc (nkey a)) _ Fa) in Hi by cord.
        unfold ini in Hi. rewrite orb_false_r in Hi. symmetry in Hi.
        rewrite cltb_irrefl with (k:=k), andb_false_r in Hi by assumption.
        apply orb_false_elim in Hi. destruct Hi as [Hi _]. cord.
      - destruct (cltb (uc (nkey b)) (uc (nkey a))) eqn:E2; [|cord].
        specialize (Hi (uc (nkey b)) (uc_ok X k _)). cbn in Hi.
        rewrite (intr_above r (uc (nkey b)) _ Fb) in Hi by cord.
        unfold ini in Hi. rewrite (orb_false_r (_ && _)) in Hi.
        rewrite cltb_irrefl with (k:=k) in Hi by assumption.
        rewrite (andb_false_r (cltb (lc (nkey b)) _)) in Hi.
        apply orb_false_elim in Hi. destruct Hi as [Hi _]. cord. }
    constructor.
    + split; [|split]; auto. specialize (Hv (lc (nkey a)) (lc_ok X k _)). cbn in Hv.
      unfold inr in Hv. destruct (_ && _) eqn:Z1 in Hv; [|cord].
      destruct (_ && _) eqn:Z2 in Hv; [congruence|cord].
    + apply IH; auto.
      * intros c Hc. specialize (Hv c Hc). cbn in Hv. unfold inr in Hv.
        destruct (cltb c (uc (nkey a))) eqn:E.
        -- rewrite (vr_above l _ _ Fa), (vr_above r _ _ Fb) by cord. auto.
        -- rewrite andb_false_r in Hv.
           destruct (_ && _) eqn:Z2 in Hv; [cord|auto].
      * intros c Hc. specialize (Hi c Hc). cbn in Hi. unfold ini in Hi.
        destruct (cltb (uc (nkey a)) c) eqn:E.
        -- replace (cltb c (uc (nkey a))) with false in Hi by cord.
           replace (cltb c (uc (nkey b))) with false in Hi by cord.
           rewrite !andb_false_r in Hi. auto.
        -- rewrite (intr_above l _ _ Fa), (intr_above r _ _ Fb) by cord. auto.
Qed.

(** equal segments are observed equally *)
Lemma obs_of_same l r : Forall2 sameseg l r ->
  (forall c, vr l c = vr r c) /\ (forall c, vl l c = vl r c) /\ (forall c, intr l c = intr r c).
Proof.
  induction 1 as [|a b l r (H1 & H2 & H3) H (IH1 & IH2 & IH3)]; auto.
  assert (E : forall c, cltb c (lc (nkey a)) = cltb c (lc (nkey b)) /\ cltb (lc (nkey a)) c = cltb (lc (nkey b)) c
              /\ cltb c (uc (nkey a)) = cltb c (uc (nkey b)) /\ cltb (uc (nkey a)) c = cltb (uc (nkey b)) c).
  { intros c. repeat split; apply bool_iff; cord. }
  repeat split; intros c; destruct (E c) as (E1 & E2 & E3 & E4); cbn; unfold inr, inl, ini.
  - rewrite E1, E3, H3, IH1. auto.
  - rewrite E2, E4, H3, IH2. auto.
  - rewrite E2, E3, IH3. auto.
Qed.

(* ------------------------------------------------------------ joinedness *)
Context (coeq : V -> V -> bool).

Definition joined (l : list node) : Prop :=
  forall n m, In n l -> In m l -> ceqb (uc (nkey n)) (lc (nkey m)) = true -> coeq (nval n) (nval m) = false.

Lemma joined_intr l c : srt l -> joined l -> (forall v, coeq v v = true) ->
  intr l c = match vl l c, vr l c with Some v, Some w => coeq v w | _, _ => false end.
Proof.
  intros Hs Hj Hr.
  destruct (intr l c) eqn:E.
  - apply intr_true in E. destruct E as (n & Hn & E).
    assert (A : vl l c = Some (nval n)) by (apply vl_some; auto; exists n; repeat split; auto; unfold ini, inl in *; cord).
    assert (B : vr l c = Some (nval n)) by (apply vr_some; auto; exists n; repeat split; auto; unfold ini, inr in *; cord).
    rewrite A, B, Hr. auto.
  - destruct (vl l c) as [v|] eqn:A; auto. destruct (vr l c) as [w|] eqn:B; auto.
    apply vl_some in A; auto. apply vr_some in B; auto.
    destruct A as (n & Hn & A & <-), B as (m & Hm & B & <-).
    symmetry. apply Hj; auto.
    assert (N : ini (nkey n) c = false).
    { destruct (ini (nkey n) c) eqn:Z; auto. rewrite (proj2 (intr_true l c)) in E; [discriminate|eauto]. }
    assert (M : ini (nkey m) c = false).
    { destruct (ini (nkey m) c) eqn:Z; auto. rewrite (proj2 (intr_true l c)) in E; [discriminate|eauto]. }
    unfold ini, inl, inr in *. cord.
Qed.

Lemma joined_incl l l' : incl l' l -> joined l -> joined l'.
Proof. intros Hi H n m Hn Hm. apply H; auto. Qed.

(* ------------------------------------------------------------ decomposition *)
Lemma decomp a l : srt l -> ne a -> exists L M R, l = L ++ M ++ R /\
  below L (lc a) /\ Forall (over a) M /\ above R (uc a).
Proof.
  intros Hs Ha. induction l as [|n l IH].
  - exists [], [], []. repeat split; constructor.
  - destruct Hs as (Hn & Hf & Hs). change (above l (uc (nkey n))) in Hf.
    destruct (IH Hs) as (L & M & R & -> & HL & HM & HR).
    unfold ne in *.
    destruct (cltb (lc a) (uc (nkey n))) eqn:E1.
    + apply above_app in Hf. destruct Hf as [Hf1 Hf2]. apply above_app in Hf2. destruct Hf2 as [Hf2 Hf3].
      assert (L = []).
      { destruct L as [|q L]; auto. exfalso.
        apply below_cons in HL. apply above_cons in Hf1. destruct Hs as (Hq & _). unfold ne in Hq. cord. }
      subst L. destruct (cltb (lc (nkey n)) (uc a)) eqn:E2.
      * exists [], (n :: M), R. repeat split; auto. constructor; auto. split; auto.
      * exists [], [], (n :: M ++ R). repeat split; try constructor; auto.
        apply Forall_app. split.
        -- eapply above_ge; [apply Hf2|]. cord.
        -- auto.
    + exists (n :: L), M, R. repeat split; auto. constructor; auto.
Qed.

End Seg.

Arguments vr {X} k {V}. Arguments vl {X} k {V}. Arguments intr {X} k {V}.
Arguments srt {X} k {V}. Arguments below {X} k {V}. Arguments above {X} k {V}.
Arguments over {X} k {V}. Arguments ne {X} k. Arguments inr {X} k. Arguments inl {X} k. Arguments ini {X} k.
Arguments sameseg {X} k {V}. Arguments joined {X} k {V}. Arguments nes {X} k {V}.

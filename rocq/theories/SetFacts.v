(** Semantics of add and subtract on interval sets (proofs). *)
From Verif Require Export JoinFacts SetModel.

(** boolean observation of a node sequence: something stored immediately right / left of a cut *)
Section Bool.
Context (X : dom) (k : kind).
Context (HX : dom_ok X k).
Context {V : Type}.
Notation I := (itv (D X)).
Notation node := (node (D X) V).
Notation lc := (lc X k).
Notation uc := (uc X k).
Notation cltb := (cltb X).
Notation ceqb := (ceqb X).
Notation cut := (cut X).
Notation ne := (@ne X k).
Ltac cord := cord_ X k HX.

Fixpoint Rb (l : list node) (c : cut) : bool :=
  match l with [] => false | n :: l => inr k (nkey n) c || Rb l c end.
Fixpoint Lb (l : list node) (c : cut) : bool :=
  match l with [] => false | n :: l => inl k (nkey n) c || Lb l c end.

Lemma Rb_vr l c : Rb l c = match vr k l c with Some _ => true | None => false end.
Proof. induction l; cbn; auto. rewrite IHl. destruct (inr _ _ _); auto. Qed.
Lemma Lb_vl l c : Lb l c = match vl k l c with Some _ => true | None => false end.
Proof. induction l; cbn; auto. rewrite IHl. destruct (inl _ _ _); auto. Qed.
Lemma Rb_app l r c : Rb (l ++ r) c = Rb l c || Rb r c.
Proof. induction l; cbn; auto. rewrite IHl, orb_assoc. auto. Qed.
Lemma Lb_app l r c : Lb (l ++ r) c = Lb l c || Lb r c.
Proof. induction l; cbn; auto. rewrite IHl, orb_assoc. auto. Qed.
Lemma Rb_iff l c : Rb l c = true <-> exists n, In n l /\ inr k (nkey n) c = true.
Proof.
  induction l; cbn; [split; [discriminate|intros (? & [] & _)]|].
  rewrite orb_true_iff, IHl. split.
  - intros [H|(n & H & E)]; eauto.
  - intros (n & [<-|H] & E); eauto.
Qed.
Lemma Lb_iff l c : Lb l c = true <-> exists n, In n l /\ inl k (nkey n) c = true.
Proof.
  induction l; cbn; [split; [discriminate|intros (? & [] & _)]|].
  rewrite orb_true_iff, IHl. split.
  - intros [H|(n & H & E)]; eauto.
  - intros (n & [<-|H] & E); eauto.
Qed.

Lemma below_b l d c : below k l d ->
  (cltb c d = false -> Rb l c = false) /\ (cltb d c = true -> Lb l c = false) /\
  (cltb c d = false -> intr k l c = false).
Proof.
  intros H. rewrite Rb_vr, Lb_vl. conjs; intros Hc.
  - rewrite (vr_below X k HX l d c); auto.
  - rewrite (vl_below X k HX l d c); auto.
  - rewrite (intr_below X k HX l d c); auto.
Qed.
Lemma above_b l d c : above k l d ->
  (cltb c d = true -> Rb l c = false) /\ (cltb d c = false -> Lb l c = false) /\
  (cltb d c = false -> intr k l c = false).
Proof.
  intros H. rewrite Rb_vr, Lb_vl. conjs; intros Hc.
  - rewrite (vr_above X k HX l d c); auto.
  - rewrite (vl_above X k HX l d c); auto.
  - rewrite (intr_above X k HX l d c); auto.
Qed.
(** an interior cut has something on both sides *)
Lemma intr_b (l : list node) c : intr k l c = true -> Rb l c = true /\ Lb l c = true.
Proof.
  induction l; cbn; [discriminate|]. rewrite orb_true_iff. unfold ini, inr, inl. intros [H|H].
  - cord.
  - destruct (IHl H) as [-> ->]. split; apply orb_true_r.
Qed.

(** borders of a sequence / of an interval *)
Definition bord (l : list node) (c : cut) : bool := (Lb l c || Rb l c) && negb (intr k l c).
Definition bordi (a : I) (c : cut) : bool := (inl k a c || inr k a c) && negb (ini k a c).
Lemma bordi_eq a c : ne a -> bordi a c = ceqb c (lc a) || ceqb c (uc a).
Proof. unfold bordi, inl, inr, ini, Seg.ne. intros. cord. Qed.

(** what a set is after adding a to M, for each way of storing it *)
Definition add_obs (a : I) (M P : list node) : Prop := forall c,
  Rb P c = Rb M c || inr k a c /\ Lb P c = Lb M c || inl k a c.
Definition sep_obs (a : I) (M P : list node) : Prop := forall c,
  intr k P c = intr k M c || ini k a c.
Definition spl_obs (a : I) (M P : list node) : Prop := forall c,
  intr k P c = Lb P c && Rb P c && negb (bord M c) && negb (bordi a c).

(* ------------------------------------------------------------ merging *)
Lemma cover_M M m M' Q q a (h : I) : srt k M -> Forall (over k a) M -> ne a -> M = m :: M' -> M = Q ++ [q] ->
  is_min (lc h) (lc (nkey m)) (lc a) -> is_max (uc h) (uc (nkey q)) (uc a) ->
  ne h /\ forall c, inr k h c = Rb M c || inr k a c /\ inl k h c = Lb M c || inl k a c /\
            ini k h c = intr k M c || ini k a c.
Proof.
  intros S O Na E1 E2 H1 H2.
  destruct (M_range X k HX M m M' Q q S E1 E2) as [AM BM].
  assert (Nm : ne (nkey m) /\ over k a m).
  { split; [apply srt_nes in S|]; unfold nes in *; rewrite Forall_forall in *; [apply S|apply O]; rewrite E1; cbn; auto. }
  assert (Nq : ne (nkey q) /\ over k a q).
  { split; [apply srt_nes in S|]; unfold nes in *; rewrite Forall_forall in *; [apply S|apply O]; rewrite E2, in_app_iff; cbn; auto. }
  destruct Nm as [Nm [Om1 Om2]], Nq as [Nq [Oq1 Oq2]].
  unfold is_min, is_max, Seg.ne in *. split; [cord|]. intros c.
  destruct (below_b M _ c BM) as (B1 & B2 & B3). destruct (above_b M _ c AM) as (A1 & A2 & A3).
  assert (F1 : inr k (nkey m) c = true -> Rb M c = true) by (intros; apply Rb_iff; exists m; rewrite E1; cbn; auto).
  assert (F2 : inr k (nkey q) c = true -> Rb M c = true) by (intros; apply Rb_iff; exists q; rewrite E2, in_app_iff; cbn; auto).
  assert (F3 : inl k (nkey m) c = true -> Lb M c = true) by (intros; apply Lb_iff; exists m; rewrite E1; cbn; auto).
  assert (F4 : inl k (nkey q) c = true -> Lb M c = true) by (intros; apply Lb_iff; exists q; rewrite E2, in_app_iff; cbn; auto).
  assert (F5 : ini k (nkey m) c = true -> intr k M c = true) by (intros; apply intr_true; exists m; rewrite E1; cbn; auto).
  assert (F6 : ini k (nkey q) c = true -> intr k M c = true) by (intros; apply intr_true; exists q; rewrite E2, in_app_iff; cbn; auto).
  clear E1 E2 AM BM S O.
  unfold inr, inl, ini in *.
  conjs; apply bool_iff; rewrite orb_true_iff; split.
  - intros H. destruct (Rb M c); cord.
  - intros [H|H]; [rewrite H in *|]; cord.
  - intros H. destruct (Lb M c); cord.
  - intros [H|H]; [rewrite H in *|]; cord.
  - intros H. destruct (intr k M c); cord.
  - intros [H|H]; [rewrite H in *|]; cord.
Qed.

End Bool.
Arguments Rb {X} k {V}. Arguments Lb {X} k {V}. Arguments bord {X} k {V}. Arguments bordi {X} k.
Arguments add_obs {X} k {V}. Arguments sep_obs {X} k {V}. Arguments spl_obs {X} k {V}.

Section SetFacts.
Context (X : dom) (k : kind).
Context (HX : dom_ok X k).
Notation I := (itv (D X)).
Notation node := (node (D X) unit).
Notation tree := (tree (D X) unit).
Notation lc := (lc X k).
Notation uc := (uc X k).
Notation cltb := (cltb X).
Notation ceqb := (ceqb X).
Notation cut := (cut X).
Notation ne := (@ne X k).
Notation hd_it := (@hd_it X unit).
Notation last_it := (@last_it X unit).
Ltac cord := cord_ X k HX.
Ltac lst := rewrite <- ?app_assoc; cbn [app]; congruence || auto.

Lemma s_coeq_eq v w : s_coeq v w = true <-> v = w.
Proof. destruct v, w. unfold s_coeq. tauto. Qed.

Definition sinv (st : style) (t : tree) : Prop :=
  inv k t /\ match st with Joining => joined k s_coeq (nodes t) | _ => True end.

(** observable result of adding a *)
Definition added (st : style) (a : I) (M P : list node) : Prop :=
  add_obs k a M P /\
  match st with
  | Joining => True
  | Separating => sep_obs k a M P
  | Splitting => spl_obs k a M P
  end.

Lemma inv_new (t : tree) L R a v : inv k t -> nodes t = L ++ R -> ne a -> below k L (lc a) -> above k R (uc a) ->
  inv k (Tree (L ++ Node (fresh t) a v :: R) (S (fresh t))).
Proof.
  intros [W S] E Na B A. split.
  - apply wf_new. rewrite <- E. rewrite tree_eta. auto.
  - cbn. apply (srt_mid X k HX). cbn. rewrite E in S. apply (srt_app X k) in S. tauto.
Qed.

Lemma last_ins (t : tree) L R : nodes t = L ++ R -> isit t (last_it L).
Proof. apply isit_last. Qed.
Lemma cyc_node (t : tree) L n R : wf t -> nodes t = L ++ n :: R ->
  cyclic_prior t (Some (nid n)) = Ok (last_it L).
Proof. intros W E. apply (cyc_at X t L (n :: R) W E). Qed.

Lemma isit_new L i a v R f : @isit X unit (Tree (L ++ Node i a v :: R) f) (Some i).
Proof. unfold isit. cbn [nodes]. rewrite ids_app, ids_cons, in_app_iff. cbn. auto. Qed.

(** collect the facts about sequences in a context *)
Ltac bfacts c :=
  repeat match goal with
  | H : below k ?l ?d |- _ => destruct (below_b X k HX l d c H) as (? & ? & ?); clear H
  | H : above k ?l ?d |- _ => destruct (above_b X k HX l d c H) as (? & ? & ?); clear H
  end.
Ltac bnorm := cbn [Rb Lb intr app nkey]; rewrite ?Rb_app, ?Lb_app, ?intr_app; cbn [Rb Lb intr app nkey].

(* ------------------------------------------------------------ add_rear *)
Lemma s_add_rear_at t L q R a : inv k t -> nodes t = L ++ q :: R -> ne a ->
  below k L (lc a) -> above k R (uc a) -> over k a q -> cltb (lc (nkey q)) (lc a) = false ->
  exists t' it P, s_add_rear X k t a (Some (nid q)) = Ok (t', it) /\ inv k t' /\ isit t' it /\
    nodes t' = L ++ P ++ R /\ above k P (lc a) /\ add_obs k a [q] P /\ spl_obs k a [q] P.
Proof.
  intros Hi E Na BL AR [Oq1 Oq2] Hq. pose proof Hi as [W S].
  pose proof S as S'. rewrite E in S'. apply (srt_mid X k HX) in S'. destruct S' as (SL & SR & Nq & BLq & ARq).
  unfold s_add_rear. rewrite (cyc_node t L q R) by auto. cbn [bind].
  rewrite (key_at X t L q R) by auto. cbn [bind].
  (* lead gap *)
  set (lead := right_subtract X k a (nkey q)).
  assert (HG : exists t1 G, (if negb (is_empty X k lead)
              then ' (t0, _) <- insert_hint X k t (last_it L) lead tt;; Ok t0 else Ok t) = Ok t1 /\
              inv k t1 /\ nodes t1 = L ++ G ++ q :: R /\
              ((G = [] /\ ceqb (lc a) (lc (nkey q)) = true) \/
               exists g, G = [g] /\ cltb (lc a) (lc (nkey q)) = true /\
               ceqb (lc (nkey g)) (lc a) = true /\ ceqb (uc (nkey g)) (lc (nkey q)) = true)).
  { destruct (cltb (lc a) (lc (nkey q))) eqn:El.
    - destruct (rsub_ne X k HX a (nkey q)) as [Q1 Q2]; auto. fold lead in Q1, Q2.
      assert (Nl : ne lead) by (unfold Seg.ne in *; rewrite Q1; cord).
      rewrite (ne_e X k HX lead) by auto. cbn [negb].
      assert (B1 : below k L (lc lead)) by (rewrite Q1; auto).
      assert (A1 : above k (q :: R) (uc lead)).
      { rewrite above_cons. split; [cord|]. apply (above_ge X k HX R _ _ ARq). unfold Seg.ne in *. cord. }
      rewrite (insert_hint_new X k HX t L (q :: R)); auto. 2:{ eapply last_ins; eauto. }
      cbn [bind]. eexists _, [_]. split; [reflexivity|]. split; [apply inv_new; auto|].
      cbn [nodes]. split; [reflexivity|]. right. eexists. split; [reflexivity|]. cbn [nkey]. rewrite Q1. conjs; auto; cord.
    - assert (is_empty X k lead = true) by (apply rsub_e; auto).
      rewrite H. exists t, []. conjs; auto. left. split; auto. cord. }
  destruct HG as (t1 & G & -> & I1 & E1 & HG). cbn [bind]. pose proof I1 as [W1 S1].
  (* end gap *)
  destruct (cltb (uc (nkey q)) (uc a)) eqn:Eu.
  - destruct (lsub_ne X k HX a (nkey q)) as [Q1 Q2]; auto.
    set (eg := left_subtract X k a (nkey q)) in *.
    assert (Q2' : ceqb (uc eg) (uc a) = true) by (rewrite Q2; cord).
    assert (Ne : ne eg) by (unfold Seg.ne in *; rewrite Q2; cord).
    rewrite (ne_e X k HX eg) by auto. cbn [negb].
    assert (Eq : nodes t1 = (L ++ G ++ [q]) ++ R) by (rewrite E1; lst).
    rewrite (insert_hint_new X k HX t1 (L ++ G ++ [q]) R); auto.
    2:{ rewrite !below_app, below_cons. unfold Seg.ne in *. conjs; auto using below_nil; try cord.
        - apply (below_le X k HX L _ _ BLq). cord.
        - destruct HG as [[-> _]|(g & -> & HG1 & HG2 & HG3)]; [constructor|]. rewrite below_cons. split; [cord|constructor]. }
    2:{ rewrite Q2. auto. }
    2:{ apply isit_in. rewrite E1, !in_app_iff. cbn. auto. }
    eexists _, _, (G ++ [q] ++ [_]). split; [reflexivity|]. cbn [nodes].
    split; [|split; [|split; [|split]]].
    + apply inv_new; auto.
      * rewrite !below_app, below_cons. unfold Seg.ne in *. conjs; auto using below_nil; try cord.
        -- apply (below_le X k HX L _ _ BLq). cord.
        -- destruct HG as [[-> _]|(g & -> & HG1 & HG2 & HG3)]; [constructor|]. rewrite below_cons. split; [cord|constructor].
      * rewrite Q2. auto.
    + apply isit_new.
    + lst.
    + rewrite !above_app, !above_cons. cbn [nkey]. unfold Seg.ne in *. conjs; try cord; try constructor.
      destruct HG as [[-> _]|(g & -> & HG1 & HG2 & HG3)]; [constructor|]. rewrite above_cons. split; [cord|constructor].
    + clear Eq S SL SR BL AR BLq ARq E1 E W W1 S1 Hi I1. split; intros c.
      * bnorm. unfold Seg.ne, inr, inl in *.
        destruct HG as [[-> HG]|(g & -> & HG1 & HG2 & HG3)]; bnorm; unfold inr, inl; split; cord.
      * unfold bord, bordi. bnorm. unfold Seg.ne, inr, inl, ini in *.
        destruct HG as [[-> HG]|(g & -> & HG1 & HG2 & HG3)]; bnorm; unfold inr, inl, ini; cord.
  - assert (H : is_empty X k (left_subtract X k a (nkey q)) = true).
    { apply lsub_e; auto. }
    rewrite H. cbn [negb]. clear H.
    destruct (cltb (uc a) (uc (nkey q))) eqn:Eu2.
    + destruct (lsub_ne X k HX (nkey q) a) as [Q1 Q2]; auto.
      set (rr := left_subtract X k (nkey q) a) in *.
      assert (Q2' : ceqb (uc rr) (uc (nkey q)) = true) by (rewrite Q2; cord).
      assert (Nr : ne rr) by (unfold Seg.ne in *; rewrite Q2; cord).
      rewrite (ne_e X k HX rr) by auto. cbn [negb].
      assert (Eq : nodes t1 = (L ++ G) ++ q :: R) by (rewrite E1; lst).
      rewrite (key_at X t1 (L ++ G) q R) by auto. cbn [bind].
      rewrite (set_key_at X t1 (L ++ G) q R) by auto. cbn [bind].
      destruct (rsub_ne X k HX (nkey q) rr) as [Q3 Q4]; auto; try (unfold Seg.ne in *; cord).
      set (kq := right_subtract X k (nkey q) rr) in *.
      assert (Q3' : ceqb (lc kq) (lc (nkey q)) = true) by (rewrite Q3; cord).
      set (q1 := Node (nid q) kq (nval q)).
      set (t2 := Tree ((L ++ G) ++ q1 :: R) (fresh t1)).
      assert (BG : below k G (lc (nkey q))).
      { destruct HG as [[-> _]|(g & -> & HG1 & HG2 & HG3)]; [constructor|]. rewrite below_cons. split; [cord|constructor]. }
      assert (I2 : inv k t2).
      { split.
        - eapply (wf_ids X); [apply (wf_nodes X _ _ W1 Eq)|]. rewrite !ids_app, !ids_cons. auto.
        - cbn. apply (srt_mid X k HX). cbn. rewrite Eq in S1. apply (srt_mid X k HX) in S1.
          destruct S1 as (Sa & Sb & Sc & Sd & Se). unfold Seg.ne in *. rewrite Q3. conjs; auto; try cord.
          apply (above_ge X k HX R _ _ ARq). cord. }
      assert (E2 : nodes t2 = ((L ++ G) ++ [q1]) ++ R) by (cbn; lst).
      assert (BB : below k ((L ++ G) ++ [q1]) (lc rr)).
      { rewrite !below_app, below_cons. unfold q1, Seg.ne in *. cbn. conjs; auto using below_nil; try cord.
        - apply (below_le X k HX L _ _ BLq). cord.
        - apply (below_le X k HX G _ _ BG). cord. }
      assert (AA : above k R (uc rr)) by (rewrite Q2; auto).
      rewrite (insert_hint_new X k HX t2 ((L ++ G) ++ [q1]) R); auto; try apply I2.
      2:{ change (nid q) with (nid q1). apply (isit_in X). cbn. rewrite !in_app_iff. cbn. auto. }
      eexists _, _, (G ++ [q1] ++ [_]). split; [reflexivity|]. cbn [nodes].
      split; [|split; [|split; [|split]]].
      * apply inv_new; auto.
      * apply isit_new.
      * lst.
      * rewrite !above_app, !above_cons. unfold q1. cbn [nkey]. unfold Seg.ne in *. conjs; try cord; try constructor.
        destruct HG as [[-> _]|(g & -> & HG1 & HG2 & HG3)]; [constructor|]. rewrite above_cons. split; [cord|constructor].
      * clear BB AA BG E2 I2 Eq S SL SR BL AR BLq ARq E1 E W W1 S1 Hi I1. unfold q1. split; intros c.
        -- bnorm. unfold Seg.ne, inr, inl in *.
           destruct HG as [[-> HG]|(g & -> & HG1 & HG2 & HG3)]; bnorm; unfold inr, inl; split; cord.
        -- unfold bord, bordi. bnorm. unfold Seg.ne, inr, inl, ini in *.
           destruct HG as [[-> HG]|(g & -> & HG1 & HG2 & HG3)]; bnorm; unfold inr, inl, ini; cord.
    + assert (H : is_empty X k (left_subtract X k (nkey q) a) = true) by (apply lsub_e; auto).
      rewrite H. cbn [negb]. clear H.
      exists t1, (Some (nid q)), (G ++ [q]). split; [reflexivity|].
      split; [auto|]. split; [|split; [|split]].
      * apply isit_in. rewrite E1, !in_app_iff. cbn. auto.
      * rewrite E1. lst.
      * rewrite !above_app, !above_cons. unfold Seg.ne in *. conjs; try cord; try constructor.
        destruct HG as [[-> _]|(g & -> & HG1 & HG2 & HG3)]; [constructor|]. rewrite above_cons. split; [cord|constructor].
      * clear S SL SR BL AR BLq ARq E1 E W W1 S1 Hi I1. split; intros c.
        -- bnorm. unfold Seg.ne, inr, inl in *.
           destruct HG as [[-> HG]|(g & -> & HG1 & HG2 & HG3)]; bnorm; unfold inr, inl; split; cord.
        -- unfold bord, bordi. bnorm. unfold Seg.ne, inr, inl, ini in *.
           destruct HG as [[-> HG]|(g & -> & HG1 & HG2 & HG3)]; bnorm; unfold inr, inl, ini; cord.
Qed.
End SetFacts.

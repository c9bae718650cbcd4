(** Proofs for C75-C77. *)
From Verif Require Import CompareSpec SetThms MapThms3 MapReach MapQuery SetQuery4 IntervalProps ElemSpec ElemTop ElemThms ElemThms2 ElemQuery ElemFacts MapInst.
From Verif Require Import PropInterval PropSet PropMap2 PropElem.

(** a strict order whose incomparability is an equivalence == gives all six operators *)
Lemma comparable_total {T} (P : T -> Prop) (eq ltb : T -> T -> bool) :
  (forall a, P a -> eq a a = true) ->
  (forall a b d, P a -> P b -> P d -> eq a b = true -> eq b d = true -> eq a d = true) ->
  (forall a b, P a -> P b -> ltb a b = true -> ltb b a = false) ->
  (forall a b d, P a -> P b -> P d -> ltb a b = true -> ltb b d = true -> ltb a d = true) ->
  (forall a b, P a -> P b -> (eq a b = true <-> ltb a b = false /\ ltb b a = false)) ->
  total_order P (comparable eq ltb).
Proof.
  intros Re Te As Tr Eq. unfold total_order, comparable, cmp_ne, cmp_le, cmp_ge, cmp_gt; cbn [c_eq c_ne c_lt c_gt c_le c_ge].
  assert (Sy : forall a b, P a -> P b -> eq a b = true -> eq b a = true).
  { intros a b A B E. apply Eq; auto. apply Eq in E; auto. tauto. }
  assert (Cl : forall a b d, P a -> P b -> P d -> eq a b = true -> ltb a d = true -> ltb b d = true).
  { intros a b d A B C E L. destruct (ltb b d) eqn:N; auto. exfalso. destruct (ltb d b) eqn:N'.
    - pose proof (Tr a d b A C B L N') as Q. apply Eq in E; auto. destruct E. congruence.
    - assert (Q : eq a d = true). { apply (Te a b d); auto. apply Eq; auto. } apply Eq in Q; auto. destruct Q. congruence. }
  assert (Cr : forall a b d, P a -> P b -> P d -> eq a b = true -> ltb d a = true -> ltb d b = true).
  { intros a b d A B C E L. destruct (ltb d b) eqn:N; auto. exfalso. destruct (ltb b d) eqn:N'.
    - pose proof (Tr b d a B C A N' L) as Q. apply Eq in E; auto. destruct E. congruence.
    - assert (Q : eq a d = true). { apply (Te a b d); auto. apply Eq; auto. } apply Eq in Q; auto. destruct Q. congruence. }
  repeat apply conj; auto.
  - intros a b A B. pose proof (Eq a b A B) as E. pose proof (As a b A B) as Q.
    destruct (ltb a b) eqn:L, (ltb b a) eqn:L', (eq a b) eqn:Ee; try (discriminate Q; reflexivity); try tauto;
      try (destruct E as [E1 E2]; try (destruct (E1 eq_refl); congruence); try (rewrite E2 in Ee; auto; congruence); try (discriminate E2; auto)); try (specialize (Q eq_refl); discriminate).
  - intros a b d A B C E. split.
    + destruct (ltb a d) eqn:L; symmetry. { apply (Cl a b d); auto. }
      destruct (ltb b d) eqn:L'; auto. rewrite (Cl b a d) in L; auto.
    + destruct (ltb d a) eqn:L; symmetry. { apply (Cr a b d); auto. }
      destruct (ltb d b) eqn:L'; auto. rewrite (Cr b a d) in L; auto.
  - intros a b A B. pose proof (Eq a b A B) as E. pose proof (Eq b a B A) as E'. pose proof (As a b A B) as Q. pose proof (As b a B A) as Q'.
    split; [auto|]. split; [auto|]. split.
    + destruct E as [E0 E], (ltb b a), (ltb a b), (eq a b); cbn [negb]; try specialize (Q eq_refl); try specialize (E (conj eq_refl eq_refl)); try (destruct (E0 eq_refl)); try discriminate; split; auto; intros Z; try discriminate Z; destruct Z; discriminate.
    + destruct E as [E0 E], (ltb b a), (ltb a b), (eq a b); cbn [negb]; try specialize (Q eq_refl); try specialize (E (conj eq_refl eq_refl)); try (destruct (E0 eq_refl)); try discriminate; split; auto; intros Z; try discriminate Z; destruct Z; discriminate.
Qed.

Lemma dictionary_nil_l {A} (same less : A -> A -> Prop) b r : dictionary same less [] (b :: r).
Proof. exists [], [], [], (b :: r). repeat split; auto. left. split; [auto|discriminate]. Qed.
Lemma dictionary_nil_r {A} (same less : A -> A -> Prop) l : ~ dictionary same less l [].
Proof.
  intros (p & l' & q & r' & -> & E & F & H). symmetry in E. apply app_eq_nil in E. destruct E as [-> ->].
  destruct H as [[_ H]|(a & l2 & b & r2 & _ & H & _)]; [congruence|discriminate].
Qed.
Lemma dictionary_cons {A} (same less : A -> A -> Prop) a l b r :
  dictionary same less (a :: l) (b :: r) <-> less a b \/ (same a b /\ dictionary same less l r).
Proof.
  split.
  - intros (p & l' & q & r' & E1 & E2 & F & H). destruct F as [|x y p q S F].
    + cbn in E1, E2. subst l' r'. destruct H as [[H _]|(a' & l2 & b' & r2 & H1 & H2 & H)]; [discriminate|].
      injection H1 as <- <-. injection H2 as <- <-. auto.
    + cbn in E1, E2. injection E1 as <- ->. injection E2 as <- ->. right. split; auto. exists p, l', q, r'. auto.
  - intros [H|[S (p & l' & q & r' & -> & -> & F & H)]].
    + exists [], (a :: l), [], (b :: r). repeat split; auto. right. exists a, l, b, r. auto.
    + exists (a :: p), l', (b :: q), r'. repeat split; auto.
Qed.
Lemma e_lex_dictionary {A} (P : A -> Prop) (lessb : A -> A -> bool) (same less : A -> A -> Prop) :
  (forall a b, P a -> P b -> (lessb a b = true <-> less a b)) ->
  (forall a b, P a -> P b -> lessb a b = true -> lessb b a = false) ->
  (forall a b, P a -> P b -> (same a b <-> lessb a b = false /\ lessb b a = false)) ->
  forall l r, Forall P l -> Forall P r -> (e_lex lessb l r = true <-> dictionary same less l r).
Proof.
  intros HL HA HS l r Hl. revert r. induction Hl as [|a l Pa Hl IH]; intros r Hr; destruct Hr as [|b r Pb Hr]; cbn [e_lex].
  - split; [discriminate|intros H; destruct (dictionary_nil_r _ _ _ H)].
  - split; auto. intros _. apply dictionary_nil_l.
  - split; [discriminate|intros H; destruct (dictionary_nil_r _ _ _ H)].
  - rewrite dictionary_cons, <- HL, HS, <- IH by auto. pose proof (HA a b Pa Pb) as Q. destruct (lessb a b), (lessb b a); intuition congruence.
Qed.

Section Sets.
Context (X : dom) (k : kind) (HX : dom_ok X k).
Notation some_set := (some_set X k).
Lemma set_total : total_order some_set (s_cmp X k).
Proof.
  apply comparable_total.
  - intros a [st A]. apply (thm_equal_segs X k HX st st a a A A). tauto.
  - intros a b d [sa A] [sb B] [sd C] E1 E2. pose proof (proj1 (thm_equal_segs X k HX sa sb a b A B) E1) as E1_; clear E1; rename E1_ into E1. pose proof (proj1 (thm_equal_segs X k HX sb sd b d B C) E2) as E2_; clear E2; rename E2_ into E2.
    apply (thm_equal_segs X k HX sa sd a d A C). intros x y. rewrite E1. auto.
  - intros a b [sa A] [sb B]. apply (thm_order X k HX a b b sa sb sb A B B).
  - intros a b d [sa A] [sb B] [sd C]. apply (thm_order X k HX a b d sa sb sd A B C).
  - intros a b [sa A] [sb B]. apply (thm_order X k HX a b b sa sb sb A B B).
Qed.
Notation full a := (exists x, Spec.mem X k a x).
Lemma same_iff a b : full a -> full b -> (same_points X k a b <-> itv_ltb X k a b = false /\ itv_ltb X k b a = false).
Proof.
  intros A B. apply (is_empty_false X k HX) in A, B.
  pose proof (itv_ltb_total X k HX a b A B) as E. apply (is_empty_false X k HX) in A, B.
  pose proof (itv_eqb_spec X k HX a b (PropInterval.C01_edge_nonempty X k HX a A) (PropInterval.C01_edge_nonempty X k HX b B)) as Q. unfold same_points. rewrite <- Q, E.
  rewrite andb_true_iff, !negb_true_iff. tauto.
Qed.
Lemma before_iff a b : full a -> full b -> (itv_ltb X k a b = true <-> itv_before X k a b).
Proof. intros A B. apply (itv_ltb_spec X k HX); auto. Qed.
Lemma itv_asym a b : itv_ltb X k a b = true -> itv_ltb X k b a = false.
Proof. intros A. destruct (itv_ltb X k b a) eqn:B; auto. pose proof (itv_ltb_trans X k HX _ _ _ A B) as C. rewrite (itv_ltb_irrefl X k HX) in C. auto. Qed.
Lemma set_keys_full t : some_set t -> Forall (fun a => full a) (keys X t).
Proof.
  intros [st A]. eapply Forall_impl; [|exact (keys_ne X k t (reach_inv X k HX _ _ A))]. intros a N.
  apply (is_empty_false X k HX), (ne_iff X k HX). exact N.
Qed.
Lemma keys_lex l r : keys_ltb X k l r = e_lex (itv_ltb X k) l r.
Proof. revert r. induction l as [|a l IH]; intros [|b r]; cbn [keys_ltb e_lex]; auto. rewrite IH. reflexivity. Qed.
Lemma set_dictionary t u : some_set t -> some_set u ->
  (s_ltb X k t u = true <-> dictionary (same_points X k) (itv_before X k) (keys X t) (keys X u)).
Proof.
  intros A B. unfold s_ltb. rewrite keys_lex.
  apply (e_lex_dictionary (fun a => full a)).
  - exact before_iff.
  - intros a b _ _. apply itv_asym.
  - exact same_iff.
  - apply set_keys_full; auto.
  - apply set_keys_full; auto.
Qed.

(** inclusion *)
Lemma set_inclusion t o u : some_set t -> some_set o -> some_set u ->
  sub_super_set X k t t = Ok true /\
  (sub_super_set X k t o = Ok true -> sub_super_set X k o u = Ok true -> sub_super_set X k t u = Ok true) /\
  (sub_super_set X k t o = Ok true /\ sub_super_set X k o t = Ok true <-> is_element_equal X k None t o = Ok true) /\
  super_sub_set X k o t = sub_super_set X k t o.
Proof.
  intros [st A] [so B] [su C]. unfold sub_super_set, super_sub_set.
  destruct (C22_contains_set X k HX _ _ t t A A) as (b1 & E1 & H1). destruct (C22_contains_set X k HX _ _ o t B A) as (b2 & E2 & H2).
  destruct (C22_contains_set X k HX _ _ u o C B) as (b3 & E3 & H3). destruct (C22_contains_set X k HX _ _ u t C A) as (b4 & E4 & H4).
  destruct (C22_contains_set X k HX _ _ t o A B) as (b5 & E5 & H5). destruct (C24_is_element_equal X k HX _ _ t o A B) as (b6 & E6 & H6).
  rewrite E1, E2, E3, E4, E5, E6.
  assert (W : forall b, (Ok b = Ok true) <-> b = true) by (intros b; split; [intros W; injection W; auto|intros ->; auto]).
  rewrite !W, H1, H2, H3, H4, H5, H6. split; [auto|]. split; [auto|]. split; [|reflexivity]. split; [intros [Q1 Q2]; split; auto|]. intros Q; split; intros x; apply Q.
Qed.
End Sets.

Section Maps.
Context (X : dom) (k : kind) (HX : dom_ok X k) (CC : codomain) (Hco : eq_ok CC).
Notation some_map := (some_map X k CC).
Notation seg_same := (seg_same X k CC).
Notation seg_before := (seg_before X k CC).
Lemma map_total p : co_order CC -> total_order some_map (m_cmp X k (mt CC p)).
Proof.
  intros HO. apply comparable_total.
  - intros a [pa A]. apply (thm_meqb X k HX CC Hco pa pa a a A A). split; [auto|tauto].
  - intros a b d [pa A] [pb B] [pd C] E1 E2.
    pose proof (proj1 (thm_meqb X k HX CC Hco pa pb a b A B) E1) as E1_; clear E1; rename E1_ into E1. pose proof (proj1 (thm_meqb X k HX CC Hco pb pd b d B C) E2) as E2_; clear E2; rename E2_ into E2.
    apply (thm_meqb X k HX CC Hco pa pd a d A C). destruct E1 as [E1 F1], E2 as [E2 F2]. split; [intros x; rewrite E1; auto|].
    intros x y. rewrite F1. auto.
  - intros a b [pa A] [pb B]. apply (thm_morder X k HX CC Hco pa pb pb a b b HO A B B).
  - intros a b d [pa A] [pb B] [pd C]. apply (thm_morder X k HX CC Hco pa pb pd a b d HO A B C).
  - intros a b [pa A] [pb B]. apply (thm_morder X k HX CC Hco pa pb pb a b b HO A B B).
Qed.
(** segments as pairs *)
Definition pless (a b : itv (D X) * CC) : bool :=
  itv_ltb X k (fst a) (fst b) || (negb (itv_ltb X k (fst b) (fst a)) && cc_lt (snd a) (snd b)).
Lemma segs_lex p l r : segs_ltb X k (mt CC p) l r = e_lex pless (map (fun n => (nkey n, nval n)) l) (map (fun n => (nkey n, nval n)) r).
Proof. revert r. induction l as [|a l IH]; intros [|b r]; cbn; auto. rewrite IH. reflexivity. Qed.
Lemma map_dictionary p t u : co_order CC -> some_map t -> some_map u ->
  (m_ltb X k (mt CC p) t u = true <-> dictionary seg_same seg_before (segs X CC t) (segs X CC u)).
Proof.
  intros (O1 & O2 & O3) A B. unfold m_ltb. rewrite segs_lex.
  assert (F : forall t, some_map t -> Forall (fun s => exists x, Spec.mem X k (fst s) x) (segs X CC t)).
  { intros w [pw W]. unfold segs. apply Forall_map. cbn [fst].
    eapply Forall_impl; [|exact (nodes_sne X k (mt CC pw) w (mreach_inv X k HX CC Hco _ _ W))]. intros n N.
    apply (is_empty_false X k HX), (ne_iff X k HX). exact N. }
  assert (As : forall v w : CC, cc_lt v w = true -> cc_lt w v = false).
  { intros v w L. destruct (cc_lt w v) eqn:L'; auto. rewrite <- (O1 v). symmetry. eapply O2; eauto. }
  apply (e_lex_dictionary (fun s => exists x, Spec.mem X k (fst s) x)).
  - intros a b Fa Fb. unfold pless, CompareSpec.seg_before. rewrite <- (before_iff X k HX), (same_iff X k HX) by auto.
    destruct (itv_ltb X k (fst a) (fst b)) eqn:E1, (itv_ltb X k (fst b) (fst a)) eqn:E2, (cc_lt (snd a) (snd b)); cbn; intuition congruence.
  - intros a b Fa Fb. unfold pless. pose proof (itv_asym X k HX (fst a) (fst b)) as Q. pose proof (As (snd a) (snd b)) as Q'.
    destruct (itv_ltb X k (fst a) (fst b)) eqn:E1, (itv_ltb X k (fst b) (fst a)) eqn:E2, (cc_lt (snd a) (snd b)), (cc_lt (snd b) (snd a)); cbn; intuition congruence.
  - intros a b Fa Fb. unfold pless, CompareSpec.seg_same. rewrite (same_iff X k HX) by auto.
    assert (V : snd a = snd b <-> cc_lt (snd a) (snd b) = false /\ cc_lt (snd b) (snd a) = false).
    { split; [intros ->; split; apply O1|]. intros [N1 N2]. destruct (O3 (snd a) (snd b)) as [E|[E|E]]; congruence. }
    rewrite V. destruct (itv_ltb X k (fst a) (fst b)) eqn:E1, (itv_ltb X k (fst b) (fst a)) eqn:E2, (cc_lt (snd a) (snd b)), (cc_lt (snd b) (snd a)); cbn; intuition congruence.
  - apply F; auto.
  - apply F; auto.
Qed.
Lemma map_inclusion p co (R : CC -> CC -> Prop) t o u :
  (forall v w, (fst (co v w) = true <-> R v w) /\ (snd (co v w) = true <-> R w v)) ->
  (forall v, R v v) -> (forall v w z, R v w -> R w z -> R v z) ->
  some_map t -> some_map o -> some_map u ->
  let sub := sub_super_map X k (mt CC p) co in
  sub t t = Ok true /\ (sub t o = Ok true -> sub o u = Ok true -> sub t u = Ok true) /\
  (sub t o = Ok true /\ sub o t = Ok true <-> m_element_equal X k (mt CC p) co t o = Ok true) /\
  super_sub_map X k (mt CC p) co o t = sub t o.
Proof.
  intros Hc Rr Rt A B C sub. unfold sub, sub_super_map, super_sub_map. clear sub.
  assert (W : forall b, (Ok b = Ok true) <-> b = true) by (intros b; split; [intros W; injection W; auto|intros ->; auto]).
  assert (G : forall t o, some_map t -> some_map o -> exists b, m_contains_map X k (mt CC p) co o t = Ok b /\ (b = true <-> below_at X k CC R t o)).
  { intros t' o' [pt T] [po O]. destruct (C47_inclusion X k HX CC Hco pt po t' o' co R T O Hc) as (b & _ & H1 & _ & E & _). exists (fst b). split; auto. }
  destruct (G t t A A) as (b1 & E1 & H1). destruct (G t o A B) as (b2 & E2 & H2). destruct (G o u B C) as (b3 & E3 & H3).
  destruct (G t u A C) as (b4 & E4 & H4). destruct (G o t B A) as (b5 & E5 & H5).
  assert (E6 : m_element_equal X k (mt CC p) co t o = Ok (b2 && b5)).
  { destruct A as [pt T], B as [po O]. destruct (C47_inclusion X k HX CC Hco pt po t o co R T O Hc) as (b & _ & Q1 & Q2 & Q3 & Q4).
    change (m_element_equal X k (mt CC p) co t o = Ok (fst b && snd b)) in Q4. rewrite Q4. do 2 f_equal.
    - apply Bool.eq_iff_eq_true. rewrite Q1, H2. tauto.
    - apply Bool.eq_iff_eq_true. rewrite Q2, H5. tauto. }
  rewrite E1, E2, E3, E4, E5, E6, !W, andb_true_iff. split; [|split; [|split; [tauto|reflexivity]]].
  - apply H1. intros x v Q. exists v. auto.
  - rewrite H2, H3, H4. intros Q1 Q2 x v Q. destruct (Q1 x v Q) as (w & Qw & Rw). destruct (Q2 x w Qw) as (z & Qz & Rz). exists z. eauto.
Qed.
End Maps.

Section Elems.
Context (X : dom) (HT : strict_total X).
Lemma emap_total CC (Hco : eq_ok CC) p : co_order CC -> total_order (fun _ => True) (em_cmp X (mt CC p)).
Proof.
  intros HO. destruct (top_less X HT CC Hco p HO) as (I & T & E).
  assert (Q : forall a b, em_eqb X (mt CC p) a b = true <-> a = b).
  { intros a b. unfold em_eqb. apply (ElemQuery.eqb_spec X HT (@cc_eq CC)). intros v w; apply Hco. }
  apply comparable_total; auto.
  - intros a _. apply Q. auto.
  - intros a b d _ _ _ Q1 Q2. apply Q in Q1, Q2. apply Q. congruence.
  - intros a b _ _ L. match goal with |- ?x = false => destruct x eqn:L' end; auto. pose proof (T a b a L L') as N. rewrite I in N. auto.
  - intros a b d _ _ _. apply T.
Qed.
Lemma eset_total : total_order (fun _ => True) (es_cmp X).
Proof.
  assert (U : sto (fun _ _ : unit => false)) by (repeat split; auto; intros [] []; auto).
  destruct (lex_sto _ (pair_sto X HT _ U)) as (I & T & C).
  assert (Q : forall a b, es_eqb X a b = true <-> a = b).
  { intros a b. unfold es_eqb. apply (ElemQuery.eqb_spec X HT). intros [] []. tauto. }
  assert (As : forall a b, es_ltb X a b = true -> es_ltb X b a = false).
  { intros a b L. destruct (es_ltb X b a) eqn:L'; auto. rewrite <- (I a). symmetry. exact (T a b a L L'). }
  apply comparable_total; auto.
  - intros a _. apply Q. auto.
  - intros a b d _ _ _ Q1 Q2. apply Q in Q1, Q2. apply Q. congruence.
  - intros a b d _ _ _. apply T.
  - intros a b _ _. rewrite Q. split; [intros ->; split; apply I|]. intros [N1 N2].
    destruct (C a b) as [E|[E|E]]; auto; unfold es_ltb, e_ltb in *; congruence.
Qed.
End Elems.

(* ------------------------------------------------------------ mapped_reference *)
Section Refs.
Context {K V : Type} (kc : comparison K) (vc : comparison V).
Context (HK : total_order (fun _ => True) kc) (HV : total_order (fun _ => True) vc).
Lemma mr_lex a b :
  (c_eq (mr_cmp kc vc) a b = true <-> c_eq kc (fst a) (fst b) = true /\ c_eq vc (snd a) (snd b) = true) /\
  (c_lt (mr_cmp kc vc) a b = true <-> c_lt kc (fst a) (fst b) = true \/ (c_eq kc (fst a) (fst b) = true /\ c_lt vc (snd a) (snd b) = true)).
Proof.
  destruct HK as (_ & _ & _ & Tk & _ & _ & Rk). pose proof (Tk (fst a) (fst b) Logic.I Logic.I) as T1. destruct (Rk (fst a) (fst b) Logic.I Logic.I) as (_ & G & _).
  cbn. unfold mr_eq, mr_lt. rewrite andb_true_iff. split; [tauto|]. rewrite orb_true_iff, andb_true_iff, negb_true_iff, <- G. intuition congruence.
Qed.
Lemma mr_gt_lt a b : mr_gt kc vc a b = mr_lt kc vc b a.
Proof.
  destruct HK as (_ & _ & _ & _ & _ & _ & Rk), HV as (_ & _ & _ & _ & _ & _ & Rv). unfold mr_gt, mr_lt.
  destruct (Rk (fst a) (fst b) Logic.I Logic.I) as (_ & -> & _). destruct (Rk (fst b) (fst a) Logic.I Logic.I) as (_ & -> & _).
  destruct (Rv (snd a) (snd b) Logic.I Logic.I) as (_ & -> & _). reflexivity.
Qed.
Lemma mr_total : total_order (fun _ => True) (mr_cmp kc vc).
Proof.
  destruct HK as (K1 & K2 & K3 & K4 & K5 & K6 & K7), HV as (V1 & V2 & V3 & V4 & V5 & V6 & V7).
  assert (C : mr_cmp kc vc = Comparison (mr_eq kc vc) (cmp_ne (mr_eq kc vc)) (mr_lt kc vc) (mr_gt kc vc) (mr_le kc vc) (mr_ge kc vc)) by reflexivity.
  assert (T : total_order (fun _ => True) (comparable (mr_eq kc vc) (mr_lt kc vc))).
  { apply comparable_total.
    - intros a _. apply mr_lex. auto.
    - intros a b d _ _ _ E1 E2. apply mr_lex in E1, E2. apply mr_lex. destruct E1, E2. split; [eapply (K3 _ (fst b))|eapply (V3 _ (snd b))]; eauto.
    - intros a b _ _ L. apply mr_lex in L. destruct (mr_lt kc vc b a) eqn:E; auto. apply mr_lex in E.
      pose proof (K4 (fst a) (fst b) Logic.I Logic.I) as T1. pose proof (V4 (snd a) (snd b) Logic.I Logic.I) as T2.
      destruct (K7 (fst a) (fst b) Logic.I Logic.I) as (_ & G1 & _). destruct (V7 (snd a) (snd b) Logic.I Logic.I) as (_ & G2 & _). rewrite G1 in T1. rewrite G2 in T2.
      destruct L as [L|[L L']], E as [E|[E E']]; try (apply K2 in E; auto); intuition congruence.
    - intros a b d _ _ _ L1 L2. apply mr_lex in L1, L2. apply mr_lex. destruct L1 as [L1|[L1 L1']], L2 as [L2|[L2 L2']].
      + left. eapply (K5 _ (fst b)); eauto.
      + left. destruct (K6 (fst b) (fst d) (fst a) Logic.I Logic.I Logic.I L2) as [_ Q]. congruence.
      + left. destruct (K6 (fst a) (fst b) (fst d) Logic.I Logic.I Logic.I L1) as [Q _]. congruence.
      + right. split; [eapply (K3 _ (fst b)); eauto|eapply (V5 _ (snd b)); eauto].
    - intros a b _ _. pose proof (K4 (fst a) (fst b) Logic.I Logic.I) as Q1. pose proof (V4 (snd a) (snd b) Logic.I Logic.I) as Q2.
      destruct (K7 (fst a) (fst b) Logic.I Logic.I) as (_ & G1 & _). destruct (V7 (snd a) (snd b) Logic.I Logic.I) as (_ & G2 & _). rewrite G1 in Q1. rewrite G2 in Q2.
      unfold mr_eq, mr_lt. destruct Q1 as [Q1|[Q1|Q1]]; destruct Q1 as (-> & -> & ->); destruct Q2 as [Q2|[Q2|Q2]]; destruct Q2 as (-> & -> & ->);
        cbn; split; auto; try discriminate; intros [W1 W2]; discriminate. }
  destruct T as (T1 & T2 & T3 & T4 & T5 & T6 & T7). unfold total_order. cbn in *. unfold cmp_ne, cmp_le, cmp_ge, cmp_gt in *.
  repeat apply conj; auto.
  - intros a b Pa Pb. rewrite mr_gt_lt. auto.
  - intros a b Pa Pb. unfold mr_ne, mr_le, mr_ge. rewrite mr_gt_lt. apply T7; auto.
Qed.
Lemma pr_same a b : c_eq (pr_cmp kc vc) a b = c_eq (mr_cmp kc vc) a b /\ c_ne (pr_cmp kc vc) a b = c_ne (mr_cmp kc vc) a b /\
  c_lt (pr_cmp kc vc) a b = c_lt (mr_cmp kc vc) a b /\ c_gt (pr_cmp kc vc) a b = c_gt (mr_cmp kc vc) a b /\
  c_le (pr_cmp kc vc) a b = c_le (mr_cmp kc vc) a b /\ c_ge (pr_cmp kc vc) a b = c_ge (mr_cmp kc vc) a b.
Proof.
  assert (E : mr_eq kc vc b a = mr_eq kc vc a b).
  { destruct mr_total as (_ & S & _). cbn in S. apply Bool.eq_iff_eq_true. split; apply S; auto. }
  cbn. unfold pr_eq, pr_ne, pr_lt, pr_gt, pr_le, pr_ge, mr_ne, mr_le, mr_ge, pr_lt. rewrite !mr_gt_lt, E. auto 10.
Qed.
End Refs.

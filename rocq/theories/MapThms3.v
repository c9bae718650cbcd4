(** Map properties: equality, order, inclusion, laws and safety (proofs). *)
From Verif Require Export MapThms2.
From Verif Require Export MapModel.
From Coq Require Import Sorted.

Section MapThms3.
Context (X : dom) (k : kind).
Context (HX : dom_ok X k).
Context (CC : codomain) (Hco : eq_ok CC).
Notation V := (C CC).
Notation I := (itv (D X)).
Notation node := (node (D X) V).
Notation tree := (tree (D X) V).
Notation iset := (Tree.tree (D X) unit).
Notation pt := (pt X).
Notation minv p := (minv X k (mt CC p)).
Notation vf t := (vr k (nodes t)).
Notation mem := (mem X k).
Notation cmem := (cmem X k).
Notation at_ := (at_ X k CC).
Notation mreach := (mreach X k CC).
Notation reach := (reach X k).
Notation below_at := (below_at X k CC).
Notation and_plain := (and_plain CC).
Notation flip_plain := (flip_plain CC).
Notation cmonoid := (cmonoid CC).
Notation cgroup := (cgroup CC).
Notation law := (law X k CC).
Ltac cord := cord_ X k HX.
Hint Resolve mreach_minv mreach_inv mreach_aok reach_inv proper_good : core.
Ltac at_r := rewrite ?(at_vr X k HX CC).
Ltac mco H := cbn [mt_co mt] in H.

(* ------------------------------------------------------------ equality and order *)
Lemma thm_meqb_joined p p' t o : mp_style p = MJoin -> mp_style p' = MJoin -> mreach p t -> mreach p' o ->
  (m_eqb X k (mt CC p) t o = true <-> forall x, at_ t x = at_ o x).
Proof.
  intros ES ES' Ht Ho. setoid_rewrite (at_vr X k HX CC). apply (m_eqb_joined X k HX (mt CC p) Hco); eauto.
  destruct (mreach_minv X k HX CC Hco p' o Ho) as [H1 H2]. split; auto. unfold MapFacts.J in *. cbn [mt_style mt] in *. rewrite ES, ES' in *. auto.
Qed.
Lemma thm_meqb p p' t o : mreach p t -> mreach p' o ->
  (m_eqb X k (mt CC p) t o = true <-> (forall x, at_ t x = at_ o x) /\
     forall x y, same_seg X k (map fst (segs X CC t)) x y <-> same_seg X k (map fst (segs X CC o)) x y).
Proof.
  intros Ht Ho. setoid_rewrite (at_vr X k HX CC). unfold segs. rewrite !map_map. cbn [fst]. apply (m_eqb_segs X k HX (mt CC p) Hco); eauto.
Qed.
Lemma thm_morder p1 p2 p3 t u w : co_order CC -> mreach p1 t -> mreach p2 u -> mreach p3 w ->
  let lt_ := m_ltb X k (mt CC p1) in
  lt_ t t = false /\ (lt_ t u = true -> lt_ u t = false) /\ (lt_ t u = true -> lt_ u w = true -> lt_ t w = true) /\
  (m_eqb X k (mt CC p1) t u = true <-> lt_ t u = false /\ lt_ u t = false).
Proof.
  intros (H1 & H2 & H3) Ht Hu Hw lt_. unfold lt_, m_ltb, m_eqb. clear lt_.
  pose proof (nodes_sne X k (mt CC p1) t (mreach_inv X k HX CC Hco _ _ Ht)) as N1.
  pose proof (nodes_sne X k (mt CC p1) u (mreach_inv X k HX CC Hco _ _ Hu)) as N2.
  pose proof (nodes_sne X k (mt CC p1) w (mreach_inv X k HX CC Hco _ _ Hw)) as N3.
  assert (Ir : segs_ltb X k (mt CC p1) (nodes t) (nodes t) = false) by (apply (segs_irr X k HX (mt CC p1) H1); auto).
  conjs; auto.
  - intros L. match goal with |- ?b = false => destruct b eqn:E; auto end. exfalso.
    pose proof (segs_tr X k HX (mt CC p1) Hco H1 H2 H3 _ _ _ N1 N2 N1 L E) as Q. mco Q. mco Ir. congruence.
  - intros L1 L2. exact (segs_tr X k HX (mt CC p1) Hco H1 H2 H3 _ _ _ N1 N2 N3 L1 L2).
  - apply (segs_tot X k HX (mt CC p1) Hco H1 H3); auto.
Qed.

(* ------------------------------------------------------------ inclusion *)
Lemma thm_minclusion p p' t o (co : V -> V -> incl) (R : V -> V -> Prop) :
  mreach p t -> mreach p' o -> (forall v w, (fst (co v w) = true <-> R v w) /\ (snd (co v w) = true <-> R w v)) ->
  exists b, m_inclusion_compare X k (mt CC p) co t o = Ok b /\ (fst b = true <-> below_at R t o) /\ (snd b = true <-> below_at R o t) /\
    m_contains_map X k (mt CC p) co o t = Ok (fst b) /\ m_element_equal X k (mt CC p) co t o = Ok (fst b && snd b).
Proof.
  intros Ht Ho Hc. unfold m_inclusion_compare, m_contains_map, m_element_equal, c_within, is_element_equal.
  destruct (subset_compare_at X k HX (Some co) t o (mreach_inv X k HX CC Hco _ _ Ht) (mreach_inv X k HX CC Hco _ _ Ho)) as (b & E & F1 & F2).
  exists b. cbn [mt_co mt]. rewrite E. cbn [bind]. conjs; auto.
  - rewrite F1. unfold subx, MapSpec.below_at, fsub. setoid_rewrite (at_vr X k HX CC). split.
    + intros H x v Hv. specialize (H x). rewrite Hv in H. destruct (vf o (pt x)) as [w|]; [|discriminate]. exists w. split; auto. apply (proj1 (Hc _ _)); auto.
    + intros H x. destruct (vf t (pt x)) as [v|] eqn:Ev; auto. destruct (H x v Ev) as (w & -> & Hw). apply (proj1 (Hc _ _)); auto.
  - rewrite F2. unfold supx, MapSpec.below_at, fsup. setoid_rewrite (at_vr X k HX CC). split.
    + intros H x v Hv. specialize (H x). rewrite Hv in H. destruct (vf t (pt x)) as [w|]; [|discriminate]. exists w. split; auto. apply (proj2 (Hc _ _)); auto.
    + intros H x. destruct (vf o (pt x)) as [v|] eqn:Ev; auto. destruct (H x v Ev) as (w & -> & Hw). apply (proj2 (Hc _ _)); auto.
Qed.
Lemma atomic_eq p v w : (fst (co_atomic (mt CC p) v w) = true <-> v = w) /\ (snd (co_atomic (mt CC p) v w) = true <-> w = v).
Proof.
  unfold co_atomic. cbn [mt_co mt] in *. destruct (cc_eq v w) eqn:E; cbn.
  - apply Hco in E. intuition.
  - assert (v <> w) by (intros ->; assert (cc_eq w w = true) by (apply Hco; auto); congruence). intuition congruence.
Qed.
Lemma thm_melement_equal p p' t o : mreach p t -> mreach p' o ->
  exists b, m_element_equal X k (mt CC p) (co_atomic (mt CC p)) t o = Ok b /\ (b = true <-> forall x, at_ t x = at_ o x).
Proof.
  intros Ht Ho. destruct (thm_minclusion p p' t o (co_atomic (mt CC p)) eq Ht Ho (atomic_eq p)) as (b & _ & F1 & F2 & _ & E).
  eexists. split; [exact E|]. rewrite andb_true_iff, F1, F2. unfold MapSpec.below_at. split.
  - intros [H1 H2] x. specialize (H1 x). specialize (H2 x). destruct (at_ t x) as [v|].
    + destruct (H1 v eq_refl) as (? & ? & ->). auto.
    + destruct (at_ o x) as [w|]; auto. destruct (H2 w eq_refl) as (? & ? & ?). discriminate.
  - intros H. split; intros x v Hv; exists v; split; auto; rewrite <- Hv; auto.
Qed.

(* ------------------------------------------------------------ plain readings *)
Lemma first_plain f (v : V) : f <> F_minus -> first_value CC f v = v.
Proof. destruct f; auto; congruence. Qed.
Lemma add_plain p (v : V) o : mp_combine p <> F_minus ->
  add_val CC p v o = match o with Some w => if absorbed CC p v then Some w else store CC p (combine CC (mp_combine p) w v) | None => store CC p v end.
Proof.
  intros Hf. unfold add_val, plus_val, store. destruct o as [w|]; [|rewrite first_plain by auto]; destruct (absorbed CC p v); auto.
Qed.
Lemma copy_plain p (t : tree) x : mp_combine p <> F_minus -> proper CC p -> mreach p t -> copy_val CC p (at_ t x) = at_ t x.
Proof.
  intros Hf P Ht. destruct (at_ t x) as [w|] eqn:E; auto. cbn. rewrite add_plain by auto. unfold store, absorbed.
  destruct (mp_absorbs p) eqn:Ea; auto. cbn [andb]. destruct (cc_eq w cc_zero) eqn:Ez; auto. apply Hco in Ez. exfalso.
  apply (at_nz X k HX CC Hco p t x Ht P Ea). congruence.
Qed.
Lemma and_plain_eq p (t : tree) x v : mp_combine p <> F_minus -> proper CC p -> mreach p t -> and_val CC p v (at_ t x) = and_plain p v (at_ t x).
Proof.
  intros Hf P Ht. pose proof (copy_plain p t x Hf P Ht) as Q. destruct (at_ t x) as [w|] eqn:E; auto. cbn in Q. unfold and_val. rewrite Q. unfold plus_val, MapSpec.and_plain. auto.
Qed.
Lemma flip_plain_eq p v o : mp_combine p <> F_minus -> flip_val CC p v o = flip_plain p v o.
Proof.
  intros Hf. unfold flip_val, MapSpec.flip_plain. destruct o as [w|]; [|rewrite add_plain; auto]. rewrite add_plain by auto.
  generalize (if cc_set_sem CC then combine CC (inverse CC (section CC p)) v w else cc_zero). intros z.
  unfold copy_val. destruct (store CC p z) as [w'|] eqn:E; auto. rewrite add_plain by auto. unfold store in *. destruct (absorbed CC p z) eqn:E'; [discriminate|].
  injection E as <-. rewrite E'. auto.
Qed.

(* ------------------------------------------------------------ laws *)
Definition good_at p (o : option V) : Prop := mp_absorbs p = true -> o <> Some cc_zero.
Lemma good_at_reach p t x : proper CC p -> mreach p t -> good_at p (at_ t x).
Proof. intros P Ht Ea. exact (at_nz X k HX CC Hco p t x Ht P Ea). Qed.
Definition padd p (o o' : option V) : option V := match o' with Some v => add_val CC p v o | None => o end.
Definition psub p (o o' : option V) : option V := match o' with Some v => sub_val CC p v o | None => o end.
Ltac absb := repeat match goal with
  | |- context [cc_eq ?v cc_zero] => let E := fresh "E" in destruct (cc_eq v cc_zero) eqn:E; [apply Hco in E|] end.
Lemma cc_eq_refl (v : V) : cc_eq v v = true.
Proof. apply Hco; auto. Qed.
Lemma cc_neq (v : V) : cc_eq v cc_zero = false -> v <> cc_zero.
Proof. intros H E. apply Hco in E. congruence. Qed.
Lemma padd_comm p o o' : cmonoid (mp_combine p) -> good_at p o -> good_at p o' -> padd p o o' = padd p o' o.
Proof.
  intros (F & Z & Cm & As) G G'. unfold padd, add_val, plus_val, store, absorbed, good_at in *. destruct o as [v|], o' as [w|]; rewrite ?F; auto.
  - destruct (mp_absorbs p); cbn [andb]; [|rewrite Cm; auto]. rewrite (Cm v w). absb; subst; auto; try (exfalso; first [apply G; auto; congruence|apply G'; auto; congruence]).
  - destruct (mp_absorbs p); cbn [andb]; auto. absb; subst; auto. exfalso. apply G; auto.
  - destruct (mp_absorbs p); cbn [andb]; auto. absb; subst; auto. exfalso. apply G'; auto.
Qed.
Lemma padd_good p o o' : cmonoid (mp_combine p) -> good_at p o -> good_at p (padd p o o').
Proof.
  intros (F & _) G Ea. unfold padd, add_val, plus_val, store, absorbed, good_at in *. rewrite Ea in *. cbn [andb]. destruct o' as [w|]; auto.
  rewrite ?F. absb; subst; auto. destruct o as [v|]; absb; try congruence. - apply cc_neq in E0; congruence. - apply cc_neq in E; congruence.
Qed.
Lemma padd_assoc p o1 o2 o3 : cmonoid (mp_combine p) -> good_at p o1 -> good_at p o2 -> good_at p o3 ->
  padd p (padd p o1 o2) o3 = padd p o1 (padd p o2 o3).
Proof.
  intros H G1 G2 G3. destruct o3 as [w|]; auto. destruct o2 as [v|].
  2:{ cbn [padd]. destruct H as (F & Z & Cm & As). unfold add_val at 2. unfold plus_val. rewrite ?F. unfold good_at, absorbed in *.
      destruct (mp_absorbs p) eqn:Ea; cbn [andb]; auto. destruct (cc_eq w cc_zero) eqn:E; auto. apply Hco in E. subst. exfalso. apply G3; auto. }
  destruct o1 as [u|].
  2:{ destruct H as (F & Z & Cm & As). unfold padd at 2 3 4. unfold padd. unfold add_val, plus_val, store, absorbed, good_at in *. rewrite ?F.
      destruct (mp_absorbs p) eqn:Ea; cbn [andb]; auto. 2:{ rewrite ?F. auto. }
      destruct (cc_eq v cc_zero) eqn:E1. { apply Hco in E1; subst; exfalso; apply G2; auto. }
      destruct (cc_eq w cc_zero) eqn:E2. { rewrite E1, ?F. auto. }
      destruct (cc_eq (combine CC (mp_combine p) v w) cc_zero) eqn:E3; auto. rewrite E3, ?F. auto. }
  destruct H as (F & Z & Cm & As). unfold padd. unfold add_val, plus_val, store, absorbed, good_at in *. rewrite ?F.
  destruct (mp_absorbs p) eqn:Ea; cbn [andb]; [|rewrite As; auto].
  destruct (cc_eq v cc_zero) eqn:E1. { apply Hco in E1; subst; exfalso; apply G2; auto. }
  destruct (cc_eq w cc_zero) eqn:E2. { apply Hco in E2; subst; exfalso; apply G3; auto. }
  destruct (cc_eq (combine CC (mp_combine p) v w) cc_zero) eqn:E3.
  - apply Hco in E3. destruct (cc_eq (combine CC (mp_combine p) u v) cc_zero) eqn:E4.
    + apply Hco in E4. rewrite ?F. f_equal. rewrite <- (Z w), <- E4, As, E3, Cm, Z. auto.
    + rewrite As, E3, Cm, Z. destruct (cc_eq u cc_zero) eqn:E5; auto. apply Hco in E5. subst. exfalso. apply G1; auto.
  - rewrite E3. destruct (cc_eq (combine CC (mp_combine p) u v) cc_zero) eqn:E4.
    + apply Hco in E4. rewrite ?F, <- As, E4, Z, E2. auto.
    + rewrite As. auto.
Qed.
Lemma psub_self p o : (forall v : V, combine CC (inverse CC (mp_combine p)) v v = cc_zero) -> mp_absorbs p = true -> good_at p o -> psub p o o = None.
Proof.
  intros H Ea G. unfold psub, sub_val, plus_val, store, absorbed. rewrite Ea. cbn [andb]. destruct o as [v|]; auto. rewrite H, cc_eq_refl.
  destruct (mp_total p && cc_invertible CC); destruct (cc_eq v cc_zero) eqn:E; auto; apply Hco in E; subst; exfalso; apply G; auto.
Qed.
Section Group.
Context (p : mpar) (Hm : cmonoid (mp_combine p)) (Hg : cgroup (mp_combine p)).
Context (Ea : mp_absorbs p = true) (Et : mp_total p = true) (Ei : cc_invertible CC = true).
Lemma padd_psub o o' : good_at p o -> good_at p o' -> psub p (padd p o o') o' = o.
Proof.
  intros G G'. destruct Hm as (F & Z & Cm & As), Hg as (G1 & G2 & G3). unfold psub, padd. destruct o' as [v|]; auto.
  unfold sub_val, add_val, plus_val, store, absorbed, good_at in *. rewrite Et, Ei, Ea in *. cbn [andb]. rewrite ?F, ?G3.
  destruct (cc_eq v cc_zero) eqn:E1. { apply Hco in E1; subst; exfalso; apply G'; auto. }
  destruct o as [w|].
  - destruct (cc_eq (combine CC (mp_combine p) w v) cc_zero) eqn:E2.
    + apply Hco in E2. rewrite <- E2, G1. auto.
    + rewrite G1. destruct (cc_eq w cc_zero) eqn:E3; auto. apply Hco in E3; subst. exfalso; apply G; auto.
  - rewrite <- (Z v) at 1. rewrite G1, cc_eq_refl. auto.
Qed.
Lemma psub_padd o o' : good_at p o -> good_at p o' -> padd p (psub p o o') o' = o.
Proof.
  intros G G'. destruct Hm as (F & Z & Cm & As), Hg as (G1 & G2 & G3). unfold psub, padd. destruct o' as [v|]; auto.
  unfold sub_val, add_val, plus_val, store, absorbed, good_at in *. rewrite Et, Ei, Ea in *. cbn [andb]. rewrite ?F, ?G3.
  destruct (cc_eq v cc_zero) eqn:E1. { apply Hco in E1; subst; exfalso; apply G'; auto. }
  destruct o as [w|].
  - destruct (cc_eq (combine CC (inverse CC (mp_combine p)) w v) cc_zero) eqn:E2.
    + apply Hco in E2. rewrite ?F, <- (Z v), <- E2, G2. auto.
    + rewrite G2. destruct (cc_eq w cc_zero) eqn:E3; auto. apply Hco in E3; subst. exfalso; apply G; auto.
  - rewrite G2, cc_eq_refl. auto.
Qed.
End Group.

(** computations on whole maps *)
Definition denotes p (r : res tree) (h : D X -> option V) : Prop := exists t, r = Ok t /\ mreach p t /\ forall x, at_ t x = h x.
Lemma den_ok p t : mreach p t -> denotes p (Ok t) (at_ t).
Proof. intros H. exists t. auto. Qed.
Lemma den_add p r s f g : proper CC p -> denotes p r f -> denotes p s g -> denotes p (mplus_ X k CC p r s) (fun x => padd p (f x) (g x)).
Proof.
  intros P (t & -> & Ht & Ft) (u & -> & Hu & Fu). destruct (thm_madd_map X k HX CC Hco p p t u Ht Hu P) as (t' & E & Q).
  exists t'. cbn. split; auto. split. { exact (M_add_map X k CC p p t u t' Ht Hu E). } intros x. rewrite Q, Ft, Fu. auto.
Qed.
Lemma den_sub p r s f g : denotes p r f -> denotes p s g -> denotes p (mminus_ X k CC p r s) (fun x => psub p (f x) (g x)).
Proof.
  intros (t & -> & Ht & Ft) (u & -> & Hu & Fu). destruct (thm_msub_map X k HX CC Hco p p t u Ht Hu) as (t' & E & Q).
  exists t'. cbn. split; auto. split. { exact (M_subtract_map X k CC p p t u t' Ht Hu E). } intros x. rewrite Q, Ft, Fu. auto.
Qed.
Lemma den_eq p r s f g : denotes p r f -> denotes p s g -> (forall x, f x = g x) ->
  meq_fun X k CC r s /\ (mp_style p = MJoin -> meq_seg X k CC p r s).
Proof.
  intros (t & -> & Ht & Ft) (u & -> & Hu & Fu) H. assert (Q : forall x, at_ t x = at_ u x) by (intros; rewrite Ft, Fu; auto).
  split; [|intros ES]; exists t, u; conjs; auto. eapply thm_meqb_joined; eauto.
Qed.
Lemma empty_of_fun p t : mreach p t -> (forall x, at_ t x = None) -> segs X CC t = [].
Proof.
  intros Ht H. unfold segs. assert (N : nodes t = []); [|rewrite N; auto].
  apply (nil_vf X k HX (mt CC p) t (mreach_inv X k HX CC Hco p t Ht)). intros x. cbn [mt_co mt]. rewrite <- (at_vr X k HX CC). auto.
Qed.
Lemma den_empty p r f : denotes p r f -> (forall x, f x = None) -> exists t, r = Ok t /\ segs X CC t = [].
Proof. intros (t & -> & Ht & Ft) H. exists t. split; auto. eapply empty_of_fun; eauto. intros; rewrite Ft; auto. Qed.
Lemma at_empty x : at_ t_empty x = None.
Proof. reflexivity. Qed.
Lemma thm_monoid p a b c : proper CC p -> cmonoid (mp_combine p) -> mreach p a -> mreach p b -> mreach p c ->
  let add := mplus_ X k CC p in
  law p (add (add (Ok a) (Ok b)) (Ok c)) (add (Ok a) (add (Ok b) (Ok c))) /\
  law p (add (Ok a) (Ok b)) (add (Ok b) (Ok a)) /\
  law p (add (Ok a) (Ok t_empty)) (Ok a) /\ law p (add (Ok t_empty) (Ok a)) (Ok a).
Proof.
  intros P H Ha Hb Hc add. unfold add.
  assert (G : forall t x, mreach p t -> good_at p (at_ t x)) by (intros; apply good_at_reach; auto).
  assert (H0 : mreach p t_empty) by constructor.
  refine (conj _ (conj _ (conj _ _))); (eapply den_eq; [repeat apply den_add; auto; apply den_ok; auto..|intros x; cbn beta]).
  - apply padd_assoc; auto.
  - apply padd_comm; auto.
  - reflexivity.
  - rewrite at_empty. rewrite padd_comm by (auto; intros _; discriminate). reflexivity.
Qed.
Lemma thm_minus_self p a : proper CC p -> mp_absorbs p = true -> (forall v : V, combine CC (inverse CC (mp_combine p)) v v = cc_zero) -> mreach p a ->
  exists r, mminus_ X k CC p (Ok a) (Ok a) = Ok r /\ segs X CC r = [].
Proof.
  intros P Ea H Ha. eapply den_empty; [apply den_sub; apply den_ok; eauto|]. intros x. apply psub_self; auto. apply good_at_reach; auto.
Qed.
Lemma thm_group p a b : proper CC p -> cmonoid (mp_combine p) -> cgroup (mp_combine p) ->
  mp_absorbs p = true -> mp_total p = true -> cc_invertible CC = true -> mreach p a -> mreach p b ->
  (exists r, mplus_ X k CC p (mminus_ X k CC p (Ok t_empty) (Ok a)) (Ok a) = Ok r /\ segs X CC r = []) /\
  law p (mminus_ X k CC p (mplus_ X k CC p (Ok a) (Ok b)) (Ok b)) (Ok a) /\
  law p (mplus_ X k CC p (mminus_ X k CC p (Ok a) (Ok b)) (Ok b)) (Ok a).
Proof.
  intros P Hm Hg Ea Et Ei Ha Hb. assert (H0 : mreach p t_empty) by constructor.
  assert (G : forall t x, mreach p t -> good_at p (at_ t x)) by (intros; apply good_at_reach; auto).
  refine (conj _ (conj _ _)).
  - eapply den_empty; [apply den_add; auto; [apply den_sub|]; apply den_ok; auto|]. intros x. cbn beta. rewrite psub_padd; auto.
  - eapply den_eq; [apply den_sub; [apply den_add; auto|]; apply den_ok; auto|apply den_ok; auto|]. intros x. cbn beta. apply padd_psub; auto.
  - eapply den_eq; [apply den_add; auto; [apply den_sub|]; apply den_ok; auto|apply den_ok; auto|]. intros x. cbn beta. apply psub_padd; auto.
Qed.
End MapThms3.

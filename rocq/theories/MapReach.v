(** Reachable maps satisfy the invariants (proofs). *)
From Verif Require Export MapSpec SetThms MapQuery CrashAny ThrowFacts.
From Verif Require Export MapModel.
From Coq Require Import Sorted.

Section MapReach.
Context (X : dom) (k : kind).
Context (HX : dom_ok X k).
Context (CC : codomain) (Hco : eq_ok CC).
Notation V := (C CC).
Notation I := (itv (D X)).
Notation node := (node (D X) V).
Notation tree := (tree (D X) V).
Notation lc := (lc X k).
Notation uc := (uc X k).
Notation pt := (pt X).
Notation cltb := (cltb X).
Notation ceqb := (ceqb X).
Notation ok := (cut_ok X k).
Notation minv p := (minv X k (mt CC p)).
Notation aok p := (aok X k (mt CC p)).
Notation vf t := (vr k (nodes t)).
Notation mem := (mem X k).
Notation at_ := (at_ X k CC).
Notation mreach := (mreach X k CC).
Ltac cord := cord_ X k HX.

Lemma memb_mem a x : memb X k a x = true <-> mem a x.
Proof.
  unfold memb, Spec.mem, le, lt. case_eq k; intros _; rewrite andb_true_iff; try (rewrite ?negb_true_iff; tauto);
    destruct (bl (bd a)), (br (bd a)); rewrite ?negb_true_iff; tauto.
Qed.
Lemma memb_inr a x : memb X k a x = inr k a (pt x).
Proof.
  pose proof (memb_mem a x) as A. pose proof (inr_mem X k HX a x) as B. destruct (memb X k a x), (inr k a (pt x)); auto; intuition congruence.
Qed.
Lemma at_vr (t : tree) x : at_ t x = vf t (pt x).
Proof.
  unfold MapSpec.at_, segs. induction (nodes t) as [|n l IH]; cbn [map find vr]; auto. cbn [fst]. rewrite memb_inr.
  destruct (inr k (nkey n) (pt x)); cbn [orelse]; auto.
Qed.
Lemma mhint_isit (t : tree) h : mhint_ok X CC t h <-> isit t h.
Proof.
  destruct h as [i|]; cbn; [|tauto]. unfold ids. rewrite in_map_iff. split; intros (n & A & B); eauto.
Qed.
Lemma at_some (t : tree) x v : inv k t -> (at_ t x = Some v <-> exists a, In (a, v) (segs X CC t) /\ mem a x).
Proof.
  intros [_ S]. rewrite at_vr, (vr_some X k HX) by auto. unfold segs. split.
  - intros (n & Hn & Ix & <-). exists (nkey n). split; [|apply inr_mem; auto]. apply (in_map (fun n => (nkey n, nval n))). auto.
  - intros (a & Ha & Mx). apply in_map_iff in Ha. destruct Ha as (n & E & Hn). inversion E; subst. exists n. conjs; auto. apply inr_mem; auto.
Qed.
Lemma mtraverse_from (t : tree) : inv k t -> forall R L, nodes t = L ++ R ->
  mtraverse X CC (Datatypes.S (length R)) t (@hd_it X V R) = Ok (map (fun n => (nkey n, nval n)) R).
Proof.
  intros [W S]. induction R as [|n R IH]; intros L E.
  - cbn. auto.
  - cbn [length]. specialize (IH (L ++ [n]) ltac:(rewrite <- app_assoc; auto)).
    revert IH. generalize (Datatypes.S (length R)) as f. intros f IH.
    cbn [mtraverse Tree.hd_it iter_eqb end_]. rewrite (key_at X t L n R W E). cbn [bind].
    rewrite (val_at X t L n R W E). cbn [bind].
    rewrite (incr_at X t L n R W E). cbn [bind]. rewrite IH. auto.
Qed.
Lemma mtraverse_at (t : tree) : inv k t -> exists fuel, mtraverse X CC fuel t (begin_ t) = Ok (segs X CC t).
Proof. intros H. exists (Datatypes.S (length (nodes t))). apply (mtraverse_from t H (nodes t) []). auto. Qed.

(* ------------------------------------------------------------- join *)
Lemma join_minv p (t : tree) : inv k t -> exists t', join X k cc_eq t = Ok t' /\ minv p t' /\ forall c, vf t' c = vf t c.
Proof.
  intros Hi. destruct (join_at X k HX cc_eq Hco t Hi) as (t' & E & I' & J' & [O _]). exists t'. conjs; auto. split; auto.
  unfold MapFacts.J. destruct (mt_style _); auto.
Qed.
Lemma m_join_at p (t : tree) : minv p t -> exists t', join X k cc_eq t = Ok t' /\ minv p t' /\ forall c, vf t' c = vf t c.
Proof. intros [Hi _]. apply join_minv. auto. Qed.

(* ------------------------------------------------------------- flip of an empty interval *)
Lemma look_empty {U} (t : Tree.tree (D X) U) a : inv k t -> is_empty X k a = true -> nodes t <> [] -> equal_range X k t a = Err Empty_key.
Proof.
  intros [W S] Ea En. unfold equal_range, lower_bound, look_ok. pose proof (proj2 (ordered_srt X k HX _) S) as O. rewrite O, Ea.
  destruct (nodes t); [congruence|]. auto.
Qed.
Lemma m_flip_empty p (t : tree) a v : inv k t -> is_empty X k a = true -> mp_total p = false -> nodes t <> [] ->
  m_flip_seg X k (mt CC p) t a v = Err Empty_key.
Proof.
  intros Hi Ea Et En. unfold m_flip_seg. cbn [mt_total mt]. rewrite Et.
  pose proof (@look_empty (C (mt_co (mt CC p))) t a Hi Ea En) as E. rewrite E. auto.
Qed.

Lemma minv_split p (t : tree) : mp_style p = MSplit -> inv k t -> minv p t.
Proof. intros E H. split; auto. unfold J. cbn [mt_style mt]. rewrite E. exact Logic.I. Qed.

Theorem mreach_minv p t : mreach p t -> minv p t.
Proof.
  induction 1.
  - apply minv_empty.
  - destruct (madd_any X k HX (mt CC p) Hco t a v IHmreach) as (u & E & Iu & _). congruence.
  - destruct (add_hint_any X k HX (mt CC p) Hco (codomain_combine (mt CC p)) t h a v IHmreach) as (u & i & E & Iu & _); [apply mhint_isit; auto|].
    unfold m_add_hint in H1. congruence.
  - destruct (madd_any X k HX (mt CC p) Hco t (singleton X k x) v IHmreach) as (u & E & Iu & _). unfold m_add_elem in H0. congruence.
  - destruct (msub_any X k HX (mt CC p) Hco t a v IHmreach) as (u & E & Iu & _). congruence.
  - destruct (msub_any X k HX (mt CC p) Hco t (singleton X k x) v IHmreach) as (u & E & Iu & _). unfold m_subtract_elem in H0. congruence.
  - destruct (mins_any X k HX (mt CC p) Hco t a v IHmreach) as (u & E & Iu & _). congruence.
  - destruct (ins_hint_any X k HX (mt CC p) Hco t h a v IHmreach) as (u & i & E & Iu & _); [apply mhint_isit; auto|]. congruence.
  - destruct (mins_any X k HX (mt CC p) Hco t (singleton X k x) v IHmreach) as (u & E & Iu & _). unfold m_insert_elem in H0. congruence.
  - destruct (erase_seg_any X k HX (mt CC p) Hco t a v IHmreach) as (u & E & Iu & _). congruence.
  - destruct (erase_seg_any X k HX (mt CC p) Hco t (singleton X k x) v IHmreach) as (u & E & Iu & _). unfold m_erase_pair in H0. congruence.
  - destruct (erase_any X k HX (mt CC p) Hco t a IHmreach) as (u & E & Iu & _). congruence.
  - destruct (erase_any X k HX (mt CC p) Hco t (singleton X k x) IHmreach) as (u & E & Iu & _). unfold m_erase_key in H0. congruence.
  - destruct (set_any X k HX (mt CC p) Hco t a v IHmreach) as (u & E & Iu & _). congruence.
  - destruct (set_any X k HX (mt CC p) Hco t (singleton X k x) v IHmreach) as (u & E & Iu & _). unfold m_set_elem in H0. congruence.
  - destruct (mp_total p) eqn:Et; [|destruct (ne_dec X k HX a) as [Ea|Na]; [destruct (nodes t) eqn:En|]].
    + destruct (flip_any X k HX (mt CC p) Hco t a v IHmreach) as (u & E & Iu & _); [cbn; congruence|congruence].
    + destruct (flip_any X k HX (mt CC p) Hco t a v IHmreach) as (u & E & Iu & _); [cbn; auto|congruence].
    + rewrite m_flip_empty in H0; auto; try discriminate. { apply IHmreach. } congruence.
    + destruct (flip_any X k HX (mt CC p) Hco t a v IHmreach) as (u & E & Iu & _); [cbn; auto|congruence].
  - unfold m_flip_elem in H0. set (a := singleton X k x) in *.
    destruct (mp_total p) eqn:Et; [|destruct (ne_dec X k HX a) as [Ea|Na]; [destruct (nodes t) eqn:En|]].
    + destruct (flip_any X k HX (mt CC p) Hco t a v IHmreach) as (u & E & Iu & _); [cbn; congruence|congruence].
    + destruct (flip_any X k HX (mt CC p) Hco t a v IHmreach) as (u & E & Iu & _); [cbn; auto|congruence].
    + rewrite m_flip_empty in H0; auto; try discriminate. { apply IHmreach. } congruence.
    + destruct (flip_any X k HX (mt CC p) Hco t a v IHmreach) as (u & E & Iu & _); [cbn; auto|congruence].
  - destruct (add_map_at X k HX (mt CC p) Hco t o IHmreach1 (proj1 IHmreach2)) as (u & E & Iu & _). congruence.
  - destruct (insert_map_at X k HX (mt CC p) Hco t o IHmreach1 (proj1 IHmreach2)) as (u & E & Iu & _). congruence.
  - destruct (subtract_map_at X k HX (mt CC p) Hco t o IHmreach1 (proj1 IHmreach2)) as (u & E & Iu & _). congruence.
  - destruct (erase_map_at X k HX (mt CC p) Hco t o IHmreach1 (proj1 IHmreach2)) as (u & E & Iu & _). congruence.
  - destruct (erase_set_at X k HX (mt CC p) Hco t o IHmreach (reach_inv X k HX st o H0)) as (u & E & Iu & _). congruence.
  - destruct (flip_map_at X k HX (mt CC p) Hco t o IHmreach1 (proj1 IHmreach2)) as (u & E & Iu & _). congruence.
  - destruct (int_seg_at X k HX (mt CC p) Hco s t a v IHmreach1 (proj1 IHmreach2)) as (u & E & Iu & _). congruence.
  - unfold m_add_intersection_key in H1. match type of H1 with bind ?e _ = _ => destruct e as [i|] end; cbn [bind] in H1; [|discriminate].
    match type of H1 with (if ?b then _ else _) = _ => destruct b end; [|congruence]. match type of H1 with bind ?e _ = _ => destruct e as [w|] end; cbn [bind] in H1; [|discriminate].
    destruct (madd_any X k HX (mt CC p) Hco s (singleton X k x) w IHmreach1) as (u & E & Iu & _). congruence.
  - destruct (int_itv_at X k HX (mt CC p) Hco s t a IHmreach1 (proj1 IHmreach2)) as (u & E & Iu & _). congruence.
  - destruct (int_set_at X k HX (mt CC p) Hco s t o IHmreach1 (proj1 IHmreach2) (reach_inv X k HX st o H1)) as (u & E & Iu & _). congruence.
  - destruct (int_map_at X k HX (mt CC p) Hco s t o IHmreach1 (proj1 IHmreach2) (proj1 IHmreach3)) as (u & E & Iu & _). congruence.
  - destruct (erase_if_all X k HX (mt CC p) q t IHmreach) as (u & E & Iu & _). congruence.
  - destruct (absorb_at X k HX (mt CC p) t IHmreach) as (u & E & Iu & _). congruence.
  - destruct (m_join_at p t IHmreach) as (u & E & Iu & _). congruence.
  - destruct (assign_at X k HX (mt CC p) Hco o (proj1 IHmreach)) as (u & E & Iu & _). congruence.
  - destruct IHmreach as [Hi HJ]. destruct (erase_it_inv X k t t' it Hi H0) as [I' E']. split; auto. eapply J_incl; eauto.
  - destruct IHmreach as [Hi HJ]. destruct (erase_range_inv X k t t' first past Hi H0) as [I' E']. split; auto. eapply J_incl; eauto.
  - apply (insert_thrown X k HX (mt CC p) Hco) in H0; auto. apply H0.
  - apply (insert_hint_thrown X k HX (mt CC p) Hco) in H1; auto; [apply H1|]. apply mhint_isit. auto.
  - apply (erase_seg_thrown X k HX (mt CC p) Hco) in H0; auto. apply H0.
  - apply (erase_thrown X k HX (mt CC p) Hco) in H0; auto. apply H0.
  - apply (add_thrown X k HX (mt CC p) Hco) in H1; auto. apply minv_split; auto. apply H1.
  - apply (add_hint_thrown X k HX (mt CC p) Hco) in H2; auto; [|apply mhint_isit; auto]. apply minv_split; auto. apply H2.
  - apply (subtract_thrown X k HX (mt CC p) Hco) in H1; auto. apply minv_split; auto. apply H1.
  - apply (add_thrown X k HX (mt CC p) Hco) in H0; auto. destruct (join_minv p t1) as (u & E & Iu & _); [apply H0|]. congruence.
  - apply (add_hint_thrown X k HX (mt CC p) Hco) in H1; auto; [|apply mhint_isit; auto]. destruct (join_minv p t1) as (u & E & Iu & _); [apply H1|]. congruence.
  - apply (subtract_thrown X k HX (mt CC p) Hco) in H0; auto. destruct (join_minv p t1) as (u & E & Iu & _); [apply H0|]. congruence.
  - apply (x_add_thrown X k HX (mt CC p) Hco) in H1; auto. apply minv_split; auto. apply H1.
  - apply (x_subtract_thrown X k HX (mt CC p) Hco) in H1; auto. apply minv_split; auto. apply H1.
  - apply (x_add_thrown X k HX (mt CC p) Hco) in H0; auto. destruct (join_minv p t1) as (u & E & Iu & _); [apply H0|]. congruence.
  - apply (x_subtract_thrown X k HX (mt CC p) Hco) in H0; auto. destruct (join_minv p t1) as (u & E & Iu & _); [apply H0|]. congruence.
  - apply minv_split; auto. apply (x_add_hint_inv X k HX (mt CC p) Hco) in H3; auto. apply mhint_isit; auto.
  - apply (x_add_hint_inv X k HX (mt CC p) Hco) in H2; auto; [|apply mhint_isit; auto]. destruct (join_minv p t1) as (u & E & Iu & _); auto. congruence.
Qed.
Corollary mreach_inv p t : mreach p t -> inv k t.
Proof. intros H. apply (mreach_minv p t H). Qed.

(* ------------------------------------------------------------- absorbers *)
Section Par.
Context (p : mpar).
Notation M := (mt CC p).
Lemma proper_good : proper CC p -> good M.
Proof. intros (N & F & _). split; auto. Qed.
Lemma gok_gand v w : proper CC p -> gok M (gand M (codomain_intersect M) (codomain_combine M) v w).
Proof.
  intros (N & F & _ & G) A o Ho. unfold gand. apply (gok_ga M Hco (codomain_intersect M) v G A). apply (gok_ga M Hco (codomain_combine M) w F A). auto.
Qed.
Lemma gok_gsubt v : proper CC p -> gok M (gsubt M v).
Proof.
  intros (N & F & G & _) A o Ho. unfold gsubt. destruct (is_total_invertible M) eqn:Ei; [apply (gok_ga M Hco)|apply (gok_gs M Hco)]; auto. apply G; auto.
Qed.
Lemma aok_ext (l l' : list node) : (forall c, vr k l' c = vr k l c) -> aok p l -> aok p l'.
Proof. intros E A B c. rewrite E. apply A; auto. Qed.
Lemma aok_incl (l l' : list node) : srt k l' -> srt k l -> List.incl l' l -> aok p l -> aok p l'.
Proof.
  intros S' S H A. apply (aok_nodes X k HX M); auto. intros B n Hn. apply (proj1 (aok_nodes X k HX M l S) A B n). apply H. auto.
Qed.
Lemma aok_emp (t : tree) : (mp_absorbs p = true -> nodes t = []) -> aok p (nodes t).
Proof. intros H A c. rewrite H by auto. discriminate. Qed.
Lemma aok_one a v t t' : proper CC p -> gok M v -> chg X k M a v (nodes t) (nodes t') -> aok p (nodes t) -> aok p (nodes t').
Proof. intros P G C A. eapply aok_chg; eauto. Qed.
End Par.

Theorem mreach_aok p t : mreach p t -> proper CC p -> aok p (nodes t).
Proof.
  intros HR. assert (HM := mreach_minv p t HR). revert HM. induction HR; intros HM P; try (pose proof (mreach_minv _ _ HR) as HT; specialize (IHHR HT));
    try (pose proof (mreach_minv _ _ HR1) as HT; specialize (IHHR1 HT P)); try (pose proof (mreach_minv _ _ HR2) as HO; specialize (IHHR2 HO)); pose proof (proper_good _ P) as G.
  - apply aok_nil.
  - destruct (madd_any X k HX (mt CC p) Hco t a v HT) as (u & E & _ & Q). assert (u = t') by congruence; subst. eapply aok_one; [exact P| |exact Q|auto]. apply (gok_ga' (mt CC p) Hco v G).
  - destruct (add_hint_any X k HX (mt CC p) Hco (codomain_combine (mt CC p)) t h a v HT) as (u & i & E & _ & _ & Q); [apply mhint_isit; auto|].
    unfold m_add_hint in H0. assert (u = t') by congruence; subst. eapply aok_one; [exact P| |apply Q; auto; apply G|auto]. apply (gok_ga' (mt CC p) Hco v G).
  - destruct (madd_any X k HX (mt CC p) Hco t (singleton X k x) v HT) as (u & E & _ & Q). unfold m_add_elem in H. assert (u = t') by congruence; subst. eapply aok_one; [exact P| |exact Q|auto]. apply (gok_ga' (mt CC p) Hco v G).
  - destruct (msub_any X k HX (mt CC p) Hco t a v HT) as (u & E & _ & Q). assert (u = t') by congruence; subst. eapply aok_one; [exact P| |exact Q|auto]. apply gok_gsubt; auto.
  - destruct (msub_any X k HX (mt CC p) Hco t (singleton X k x) v HT) as (u & E & _ & Q). unfold m_subtract_elem in H. assert (u = t') by congruence; subst. eapply aok_one; [exact P| |exact Q|auto]. apply gok_gsubt; auto.
  - destruct (mins_any X k HX (mt CC p) Hco t a v HT) as (u & E & _ & Q). assert (u = t') by congruence; subst. eapply aok_one; [exact P| |exact Q|auto]. apply (gok_gi (mt CC p) Hco).
  - destruct (ins_hint_any X k HX (mt CC p) Hco t h a v HT) as (u & i & E & _ & _ & Q); [apply mhint_isit; auto|]. assert (u = t') by congruence; subst. eapply aok_one; [exact P| |exact Q|auto]. apply (gok_gi (mt CC p) Hco).
  - destruct (mins_any X k HX (mt CC p) Hco t (singleton X k x) v HT) as (u & E & _ & Q). unfold m_insert_elem in H. assert (u = t') by congruence; subst. eapply aok_one; [exact P| |exact Q|auto]. apply (gok_gi (mt CC p) Hco).
  - destruct (erase_seg_any X k HX (mt CC p) Hco t a v HT) as (u & E & _ & Q). assert (u = t') by congruence; subst. eapply aok_one; [exact P| |exact Q|auto]. apply gok_ge.
  - destruct (erase_seg_any X k HX (mt CC p) Hco t (singleton X k x) v HT) as (u & E & _ & Q). unfold m_erase_pair in H. assert (u = t') by congruence; subst. eapply aok_one; [exact P| |exact Q|auto]. apply gok_ge.
  - destruct (erase_any X k HX (mt CC p) Hco t a HT) as (u & E & _ & Q). assert (u = t') by congruence; subst. eapply aok_one; [exact P| |exact Q|auto]. apply gok_none.
  - destruct (erase_any X k HX (mt CC p) Hco t (singleton X k x) HT) as (u & E & _ & Q). unfold m_erase_key in H. assert (u = t') by congruence; subst. eapply aok_one; [exact P| |exact Q|auto]. apply gok_none.
  - destruct (set_any X k HX (mt CC p) Hco t a v HT) as (u & E & _ & Q). assert (u = t') by congruence; subst. eapply aok_one; [exact P| |exact Q|auto]. intros A o _. apply (absorb_ok (mt CC p) Hco v A).
  - destruct (set_any X k HX (mt CC p) Hco t (singleton X k x) v HT) as (u & E & _ & Q). unfold m_set_elem in H. assert (u = t') by congruence; subst. eapply aok_one; [exact P| |exact Q|auto]. intros A o _. apply (absorb_ok (mt CC p) Hco v A).
  - assert (Na : mp_total p = false -> ne k a \/ nodes t = []).
    { intros Et. destruct (ne_dec X k HX a) as [Ea|Na]; auto. destruct (nodes t) eqn:En; auto. rewrite m_flip_empty in H; try discriminate; auto; [apply HT|congruence]. }
    destruct (flip_any X k HX (mt CC p) Hco t a v HT Na) as (u & E & _ & Q1 & Q2 & _). assert (u = t') by congruence; subst.
    destruct (mp_total p) eqn:Et; [|apply Q1; auto]. apply aok_emp; intros; apply Q2; auto.
  - unfold m_flip_elem in H. set (a := singleton X k x) in *. assert (Na : mp_total p = false -> ne k a \/ nodes t = []).
    { intros Et. destruct (ne_dec X k HX a) as [Ea|Na]; auto. destruct (nodes t) eqn:En; auto. rewrite m_flip_empty in H; try discriminate; auto; [apply HT|congruence]. }
    destruct (flip_any X k HX (mt CC p) Hco t a v HT Na) as (u & E & _ & Q1 & Q2 & _). assert (u = t') by congruence; subst.
    destruct (mp_total p) eqn:Et; [|apply Q1; auto]. apply aok_emp; intros; apply Q2; auto.
  - destruct (add_map_at X k HX (mt CC p) Hco t o HT (proj1 HO)) as (u & E & _ & Q). assert (u = t') by congruence; subst. apply Q; auto.
  - destruct (insert_map_at X k HX (mt CC p) Hco t o HT (proj1 HO)) as (u & E & _ & Q). assert (u = t') by congruence; subst. eapply aok_pw; [|exact Q|auto]. apply (gok_gi (mt CC p) Hco).
  - destruct (subtract_map_at X k HX (mt CC p) Hco t o HT (proj1 HO)) as (u & E & _ & Q). assert (u = t') by congruence; subst. eapply aok_pw; [|exact Q|auto]. intros; apply gok_gsubt; auto.
  - destruct (erase_map_at X k HX (mt CC p) Hco t o HT (proj1 HO)) as (u & E & _ & Q). assert (u = t') by congruence; subst. eapply aok_pw; [|exact Q|auto]. intros; apply gok_ge; auto.
  - destruct (erase_set_at X k HX (mt CC p) Hco t o HT (reach_inv X k HX st o H)) as (u & E & _ & Q). assert (u = t') by congruence; subst.
    intros A c. rewrite Q. destruct (Rb k (nodes o) c); [discriminate|]. apply IHHR; auto.
  - destruct (flip_map_at X k HX (mt CC p) Hco t o HT (proj1 HO)) as (u & E & _ & Q1 & Q2 & _). assert (u = t') by congruence; subst.
    destruct (mp_total p) eqn:Et; [|apply Q1; auto]. apply aok_emp; intros; apply Q2; auto.
  - destruct (int_seg_at X k HX (mt CC p) Hco s t a v HT (proj1 HO)) as (u & E & _ & Q1 & Q2). assert (u = s') by congruence; subst.
    destruct (mp_total p) eqn:Et; [apply Q2; auto|]. intros A c. pose proof (Q1 Et c) as Z. cbn [mt_co mt] in Z |- *. rewrite Z. clear Z.
    repeat match goal with |- (if ?b then _ else _) <> _ => destruct b | |- match ?o with _ => _ end <> _ => destruct o end; try (apply gok_gand; auto); apply IHHR1; auto.
  - unfold m_add_intersection_key in H. match type of H with bind ?e _ = _ => destruct e as [i|] end; cbn [bind] in H; [|discriminate].
    match type of H with (if ?b then _ else _) = _ => destruct b end; [|replace s' with s by congruence; auto]. match type of H with bind ?e _ = _ => destruct e as [w|] end; cbn [bind] in H; [|discriminate].
    destruct (madd_any X k HX (mt CC p) Hco s (singleton X k x) w HT) as (u & E & _ & Q). assert (u = s') by congruence; subst. eapply aok_one; [exact P| |exact Q|auto]. apply (gok_ga' (mt CC p) Hco w G).
  - destruct (int_itv_at X k HX (mt CC p) Hco s t a HT (proj1 HO)) as (u & E & _ & Q). assert (u = s') by congruence; subst. apply Q; auto.
  - destruct (int_set_at X k HX (mt CC p) Hco s t o HT (proj1 HO) (reach_inv X k HX st o H)) as (u & E & _ & Q). assert (u = s') by congruence; subst. apply Q; auto.
  - destruct (int_map_at X k HX (mt CC p) Hco s t o HT (proj1 HO) (mreach_inv p' o HR3)) as (u & E & _ & Q1 & Q2). assert (u = s') by congruence; subst.
    destruct (mp_total p) eqn:Et; [apply Q2; auto|]. intros A c. pose proof (Q1 Et c) as Z. cbn [mt_co mt] in Z |- *. rewrite Z. clear Z.
    repeat match goal with |- (if ?b then _ else _) <> _ => destruct b | |- match ?o with _ => _ end <> _ => destruct o end; try (apply gok_gand; auto); apply IHHR1; auto.
  - destruct (erase_if_all X k HX (mt CC p) q t HT) as (u & E & Iu & Q). assert (u = t') by congruence; subst.
    apply (aok_nodes X k HX (mt CC p)); [apply Iu|]. intros A n Hn. cbn in Q, Hn. rewrite Q in Hn. apply filter_In in Hn. destruct Hn as [Hn _].
    apply (aok_nodes X k HX (mt CC p)) with (l := nodes t); auto. { apply HT. }
  - destruct (absorb_at X k HX (mt CC p) t HT) as (u & E & _ & Q). assert (u = t') by congruence; subst. intros A c. pose proof (Q c) as Z. cbn [mt_co mt mt_absorbs] in Z, A |- *. rewrite Z, A. apply IHHR; auto.
  - destruct (m_join_at p t HT) as (u & E & _ & Q). assert (u = t') by congruence; subst. eapply aok_ext; [exact Q|auto].
  - destruct (assign_at X k HX (mt CC p) Hco o (proj1 HT)) as (u & E & _ & Q1 & Q2). assert (u = t') by congruence; subst.
    cbn [mt_style mt] in *. destruct (mp_style p); [apply Q2; auto|]. eapply aok_ext; [|exact (IHHR P)]. intros c. apply (vr_segs X k (mt CC p)). apply Q1. auto.
  - eapply aok_incl; [apply HM|apply HT|exact (proj2 (erase_it_inv X k t t' it (proj1 HT) H))|auto].
  - eapply aok_incl; [apply HM|apply HT|exact (proj2 (erase_range_inv X k t t' first past (proj1 HT) H))|auto].
  - apply (insert_thrown X k HX (mt CC p) Hco) in H; auto. eapply apartial_aok; [|apply H|auto]. apply (gok_gi (mt CC p) Hco).
  - apply (insert_hint_thrown X k HX (mt CC p) Hco) in H0; auto; [|apply mhint_isit; auto]. eapply apartial_aok; [|apply H0|auto]. apply (gok_gi (mt CC p) Hco).
  - apply (erase_seg_thrown X k HX (mt CC p) Hco) in H; auto. destruct H as (Na & _ & A & _). apply (adone_apartial X k HX) in A; auto. eapply apartial_aok; [|apply A|auto]. apply gok_ge.
  - apply (erase_thrown X k HX (mt CC p) Hco) in H; auto. destruct H as (Na & _ & A). apply (adone_apartial X k HX) in A; auto. eapply apartial_aok; [|apply A|auto]. apply gok_none.
  - apply (add_thrown X k HX (mt CC p) Hco) in H0; auto. eapply apartial_aok; [|apply H0|auto]. apply (gok_ga' (mt CC p) Hco v G).
  - apply (add_hint_thrown X k HX (mt CC p) Hco) in H1; auto; [|apply mhint_isit; auto]. eapply apartial_aok; [|apply H1|auto]. apply (gok_ga' (mt CC p) Hco v G).
  - apply (subtract_thrown X k HX (mt CC p) Hco) in H0; auto. eapply apartial_aok; [|apply H0|auto]. apply gok_gsubt; auto.
  - apply (add_thrown X k HX (mt CC p) Hco) in H; auto. destruct (join_minv p t1) as (u & E & _ & Q); [apply H|]. assert (u = t') by congruence; subst. eapply aok_ext; [exact Q|].
    eapply apartial_aok; [|apply H|auto]. apply (gok_ga' (mt CC p) Hco v G).
  - apply (add_hint_thrown X k HX (mt CC p) Hco) in H0; auto; [|apply mhint_isit; auto]. destruct (join_minv p t1) as (u & E & _ & Q); [apply H0|]. assert (u = t') by congruence; subst. eapply aok_ext; [exact Q|].
    eapply apartial_aok; [|apply H0|auto]. apply (gok_ga' (mt CC p) Hco v G).
  - apply (subtract_thrown X k HX (mt CC p) Hco) in H; auto. destruct (join_minv p t1) as (u & E & _ & Q); [apply H|]. assert (u = t') by congruence; subst. eapply aok_ext; [exact Q|].
    eapply apartial_aok; [|apply H|auto]. apply gok_gsubt; auto.
  - apply (x_add_thrown X k HX (mt CC p) Hco) in H0; auto. eapply xpartial_aok; [exact HX|apply H0| |apply H0|auto]. apply (gok_ga' (mt CC p) Hco v G).
  - apply (x_subtract_thrown X k HX (mt CC p) Hco) in H0; auto. eapply xpartial_aok; [exact HX|apply H0| |apply H0|auto]. apply gok_gsubt; auto.
  - apply (x_add_thrown X k HX (mt CC p) Hco) in H; auto. destruct (join_minv p t1) as (u & E & _ & Q); [apply H|]. assert (u = t') by congruence; subst. eapply aok_ext; [exact Q|].
    eapply xpartial_aok; [exact HX|apply H| |apply H|auto]. apply (gok_ga' (mt CC p) Hco v G).
  - apply (x_subtract_thrown X k HX (mt CC p) Hco) in H; auto. destruct (join_minv p t1) as (u & E & _ & Q); [apply H|]. assert (u = t') by congruence; subst. eapply aok_ext; [exact Q|].
    eapply xpartial_aok; [exact HX|apply H| |apply H|auto]. apply gok_gsubt; auto.
  - intros A. cbn in A. congruence.
  - intros A. cbn in A. congruence.
Qed.
End MapReach.

(** The map properties, assembled from the cut-level facts. *)
From Verif Require Export MapReach MapCuts.
From Verif Require Export MapModel.
From Coq Require Import Sorted.

Section MapThms.
Context (X : dom) (k : kind).
Context (HX : dom_ok X k).
Context (CC : codomain) (Hco : eq_ok CC).
Notation V := (C CC).
Notation I := (itv (D X)).
Notation node := (node (D X) V).
Notation tree := (tree (D X) V).
Notation lc := (lc X k).
Notation uc := (uc X k).
Notation pt := (pt X).
Notation cltb := (cltb X).
Notation ceqb := (ceqb X).
Notation ok := (cut_ok X k).
Notation minv p := (minv X k (mt CC p)).
Notation aok p := (aok X k (mt CC p)).
Notation vf t := (vr k (nodes t)).
Notation mem := (mem X k).
Notation at_ := (at_ X k CC).
Notation mreach := (mreach X k CC).
Notation changed := (changed X k CC).
Notation combined := (combined X k CC).
Ltac cord := cord_ X k HX.
Hint Resolve mreach_minv mreach_inv mreach_aok : core.
Ltac at_r := rewrite ?(at_vr X k HX CC).

Lemma mbuild_reach p l t : mbuild X k CC p l = Ok t -> mreach p t.
Proof.
  unfold mbuild. assert (G : forall t0, mreach p t0 -> foldM (fun t s => m_add X k (mt CC p) t (fst s) (snd s)) t0 l = Ok t -> mreach p t).
  { induction l as [|a l IH]; cbn [foldM]; intros t0 H E. - congruence.
    - match type of E with bind ?e _ = _ => destruct e as [t1|] eqn:E1 end; cbn [bind] in E; [|discriminate].
      apply (IH t1); auto. eapply M_add; eauto. }
  apply G. constructor.
Qed.

(* ------------------------------------------------------------ bridges *)
Lemma in_mem a x : inr k a (pt x) = true <-> mem a x.
Proof. apply inr_mem; auto. Qed.
Lemma chg_changed p (t t' : tree) a g g' : chg X k (mt CC p) a g (nodes t) (nodes t') -> (forall o, g o = g' o) -> changed t t' (mem a) g'.
Proof.
  intros H E x. rewrite <- in_mem. at_r. rewrite <- E. specialize (H (pt x)). cbn [mt_co mt] in H. rewrite H.
  destruct (inr k a (pt x)); split; intros; auto; congruence.
Qed.
Lemma pw_combined p (t o t' : tree) G G' : pw X k (mt CC p) G (nodes t) (nodes o) (nodes t') -> (forall v o, G v o = G' v o) -> combined t o t' G'.
Proof.
  intros H E x. at_r. specialize (H (pt x)). cbn [mt_co mt] in H. rewrite H. destruct (vf o (pt x)); auto.
Qed.
Lemma changed_elem (t t' : tree) x g : storable X k x -> changed t t' (mem (singleton X k x)) g -> changed t t' (eq x) g.
Proof.
  intros Sx H z. specialize (H z). rewrite (elem_only X k HX x z Sx) in H. destruct H as [H1 H2]. split; intros E; [apply H1|apply H2]; auto.
Qed.
Lemma ga_plus p f v o : ga (mt CC p) f v o = plus_val CC p f v o.
Proof. unfold ga, plus_val, gadd, absorb, is_absorbable, absorbed, store. destruct o; auto. Qed.
Lemma gsubt_sub p v o : gsubt (mt CC p) v o = sub_val CC p v o.
Proof.
  unfold gsubt, sub_val, is_total_invertible. cbn [mt_total mt mt_co]. destruct (mp_total p && cc_invertible CC). - apply ga_plus.
  - unfold gs, gsub, absorb, is_absorbable, absorbed, store. destruct o; auto.
Qed.
Lemma gi_ins p v o : gi (mt CC p) v o = ins_val CC p v o.
Proof. unfold gi, gins, ins_val, is_absorbable, store, absorbed. cbn [mt_absorbs mt mt_co]. destruct o; auto. match goal with |- context [if ?b then _ else _] => destruct b end; auto. Qed.
Lemma gset_set p v o : gset (mt CC p) v o = put_val CC p v o.
Proof. auto. Qed.
Lemma gflip_flip p v o : gflip (mt CC p) v o = flip_val CC p v o.
Proof. unfold gflip, flip_val, yv, copy_val, add_val. destruct o; rewrite ?ga_plus; auto. Qed.

(* ------------------------------------------------------------ invariants *)
Lemma minv_untouched p t : mp_style p = MJoin -> minv p t ->
  forall l a v b w r, segs X CC t = l ++ (a, v) :: (b, w) :: r -> touches X k a b = true -> v <> w.
Proof.
  intros ES H l a v b w r E T. destruct H as [[W S] J]. unfold MapFacts.J in J. cbn [mt mt_style] in J. rewrite ES in J.
  unfold segs in E. apply map_eq_app in E. destruct E as (L & N & En & <- & E). destruct N as [|n [|m N]]; cbn in E; try discriminate.
  injection E as <- <- <- <- <-. cbn [mt_co mt] in *. rewrite En in S, J. pose proof S as S'.
  apply (srt_app X k) in S'. destruct S' as (_ & (Nn & Ab & (Nm & _)) & _). inversion Ab as [|? ? Hnm _]; subst.
  rewrite (touches_ne X k HX) in T by auto. intros Q.
  assert (F : cc_eq (nval n) (nval m) = false) by (apply J; auto; apply in_or_app; cbn; auto).
  apply Hco in Q. congruence.
Qed.
Lemma minv_joined p t : mp_style p = MJoin -> minv p t -> equal_joined X k CC t.
Proof.
  intros ES [I J] x y v Hxy H. unfold MapFacts.J in J. cbn [mt mt_style] in J. rewrite ES in J.
  apply (joined_runs X k HX cc_eq t) with (v := v); auto. intros z Z1 Z2. rewrite <- (at_vr X k HX CC). auto.
Qed.
Lemma thm_joined p t : mp_style p = MJoin -> mreach p t -> equal_joined X k CC t.
Proof. intros ES H. eapply minv_joined; eauto. Qed.
Lemma thm_untouched p t : mp_style p = MJoin -> mreach p t ->
  forall l a v b w r, segs X CC t = l ++ (a, v) :: (b, w) :: r -> touches X k a b = true -> v <> w.
Proof. intros ES H. eapply minv_untouched; eauto. Qed.
Lemma thm_absorber p t a v : mreach p t -> proper CC p -> mp_absorbs p = true -> In (a, v) (segs X CC t) -> v <> cc_zero.
Proof.
  intros H P A Hi. pose proof (mreach_aok X k HX CC Hco p t H P) as Q.
  rewrite (aok_nodes X k HX (mt CC p)) in Q by apply (mreach_inv X k HX CC Hco p t H).
  unfold segs in Hi. apply in_map_iff in Hi. destruct Hi as (n & E & Hn). inversion E; subst. apply (Q A n); auto.
Qed.
Lemma at_nz p t x : mreach p t -> proper CC p -> mp_absorbs p = true -> at_ t x <> Some cc_zero.
Proof. intros H P A. at_r. apply (mreach_aok X k HX CC Hco p t H P A). Qed.

(* ------------------------------------------------------------ one segment *)
Section One.
Context (p : mpar) (t : tree) (Ht : mreach p t).
Notation M := (mt CC p).
Lemma thm_madd a v : exists t', m_add X k M t a v = Ok t' /\ changed t t' (mem a) (add_val CC p v).
Proof.
  destruct (madd_any X k HX M Hco t a v) as (t' & E & _ & Q); eauto. exists t'. split; auto. eapply chg_changed; [exact Q|]. apply ga_plus.
Qed.
Lemma thm_madd_elem x v : storable X k x -> exists t', m_add_elem X k M t x v = Ok t' /\ changed t t' (eq x) (add_val CC p v).
Proof. intros Sx. destruct (thm_madd (singleton X k x) v) as (t' & E & Q). exists t'. split; auto. apply changed_elem; auto. Qed.
Lemma thm_msub a v : exists t', m_subtract X k M t a v = Ok t' /\ changed t t' (mem a) (sub_val CC p v).
Proof.
  destruct (msub_any X k HX M Hco t a v) as (t' & E & _ & Q); eauto. exists t'. split; auto. eapply chg_changed; [exact Q|]. apply gsubt_sub.
Qed.
Lemma thm_msub_elem x v : storable X k x -> exists t', m_subtract_elem X k M t x v = Ok t' /\ changed t t' (eq x) (sub_val CC p v).
Proof. intros Sx. destruct (thm_msub (singleton X k x) v) as (t' & E & Q). exists t'. split; auto. apply changed_elem; auto. Qed.
Lemma thm_mins a v : exists t', m_insert X k M t a v = Ok t' /\ changed t t' (mem a) (ins_val CC p v).
Proof.
  destruct (mins_any X k HX M Hco t a v) as (t' & E & _ & Q); eauto. exists t'. split; auto. eapply chg_changed; [exact Q|]. apply gi_ins.
Qed.
Lemma thm_mins_elem x v : storable X k x -> exists t', m_insert_elem X k M t x v = Ok t' /\ changed t t' (eq x) (ins_val CC p v).
Proof. intros Sx. destruct (thm_mins (singleton X k x) v) as (t' & E & Q). exists t'. split; auto. apply changed_elem; auto. Qed.
Lemma thm_mset a v : exists t', m_set X k M t a v = Ok t' /\ changed t t' (mem a) (put_val CC p v).
Proof.
  destruct (set_any X k HX M Hco t a v) as (t' & E & _ & Q); eauto. exists t'. split; auto. eapply chg_changed; [exact Q|]. apply gset_set.
Qed.
Lemma thm_mset_elem x v : storable X k x -> exists t', m_set_elem X k M t x v = Ok t' /\ changed t t' (eq x) (put_val CC p v).
Proof. intros Sx. destruct (thm_mset (singleton X k x) v) as (t' & E & Q). exists t'. split; auto. apply changed_elem; auto. Qed.
Lemma thm_merase a : exists t', m_erase X k M t a = Ok t' /\ changed t t' (mem a) (fun _ => None).
Proof.
  destruct (erase_any X k HX M Hco t a) as (t' & E & _ & Q); eauto. exists t'. split; auto. eapply chg_changed; [exact Q|]. auto.
Qed.
Lemma thm_merase_key x : storable X k x -> exists t', m_erase_key X k M t x = Ok t' /\ changed t t' (eq x) (fun _ => None).
Proof. intros Sx. destruct (thm_merase (singleton X k x)) as (t' & E & Q). exists t'. split; auto. apply changed_elem; auto. Qed.
Lemma ge_erase (t' : tree) P v : absorbed CC p v = false \/ proper CC p ->
  changed t t' P (ge M v) -> changed t t' P (erase_val CC v).
Proof.
  intros H Q x. destruct (Q x) as [Q1 Q2]. split; auto. intros Px. rewrite Q1 by auto.
  unfold ge, gers, is_absorbable, erase_val. cbn [mt_absorbs mt mt_co]. fold (absorbed CC p v). destruct (absorbed CC p v) eqn:Ea; auto.
  destruct H as [|H]; [discriminate|]. unfold absorbed in Ea. apply andb_true_iff in Ea. destruct Ea as [E1 E2]. apply Hco in E2. subst v.
  pose proof (at_nz p t x Ht H E1) as Nz. destruct (at_ t x) as [w|]; auto. destruct (cc_eq w cc_zero) eqn:E; auto. apply Hco in E. congruence.
Qed.
Lemma thm_merase_seg a v : absorbed CC p v = false \/ proper CC p ->
  exists t', m_erase_seg X k M t a v = Ok t' /\ changed t t' (mem a) (erase_val CC v).
Proof.
  intros H. destruct (erase_seg_any X k HX M Hco t a v) as (t' & E & _ & Q); eauto. exists t'. split; auto. apply ge_erase; auto. eapply chg_changed; [exact Q|]. auto.
Qed.
Lemma thm_merase_pair x v : storable X k x -> absorbed CC p v = false \/ proper CC p ->
  exists t', m_erase_pair X k M t x v = Ok t' /\ changed t t' (eq x) (erase_val CC v).
Proof. intros Sx H. destruct (thm_merase_seg (singleton X k x) v H) as (t' & E & Q). exists t'. split; auto. apply changed_elem; auto. Qed.

(* intersection *)
Lemma thm_mand_itv a : proper CC p -> exists t', m_and_itv X k M t a = Ok t' /\
  forall x, (mem a x -> at_ t' x = copy_val CC p (at_ t x)) /\ (~ mem a x -> at_ t' x = None).
Proof.
  intros P. destruct (int_itv_at X k HX M Hco t_empty t a) as (t' & E & _ & Q); eauto. { apply minv_empty. } exists t'. split; auto.
  destruct (Q (proper_good CC p P) (aok_nil X k M)) as [_ Q']. intros x. rewrite <- in_mem. at_r. specialize (Q' (pt x)). cbn [mt_co mt] in Q'. rewrite Q'.
  destruct (inr k a (pt x)); split; intros H; auto; try congruence.
Qed.
Lemma thm_mand_key x : storable X k x -> exists t', m_and_key X k M t x = Ok t' /\
  at_ t' x = copy_val CC p (at_ t x) /\ forall z, z <> x -> at_ t' z = None.
Proof.
  intros Sx. destruct (int_key_at X k HX M Hco t_empty t x) as (t' & E & _ & Q); eauto. { apply minv_empty. } { apply Sx. } exists t'. split; auto.
  cbn [mt_co mt] in Q. revert Q. rewrite <- (at_vr X k HX CC t x). unfold copy_val. destruct (at_ t x) as [w|].
  - intros Q. apply (chg_changed p t_empty t' _ _ (add_val CC p w)) in Q; [|apply ga_plus]. apply changed_elem in Q; auto. split.
    + apply (Q x); auto.
    + intros z Nz. apply (Q z). congruence.
  - intros ->. split; auto.
Qed.
Lemma thm_mand_seg a v : mp_total p = false -> exists t', m_and_seg X k M t a v = Ok t' /\
  forall x, (mem a x -> at_ t' x = and_val CC p v (at_ t x)) /\ (~ mem a x -> at_ t' x = None).
Proof.
  intros Et. destruct (int_seg_at X k HX M Hco t_empty t a v) as (t' & E & _ & Q & _); eauto. { apply minv_empty. } exists t'. split; auto.
  intros x. rewrite <- in_mem. at_r. specialize (Q Et (pt x)). cbn [mt_co mt] in Q. rewrite Q.
  destruct (inr k a (pt x)); split; intros H; auto; try congruence.
Qed.
Lemma thm_mand_seg_total a v : mp_total p = true -> proper CC p -> exists t', m_and_seg X k M t a v = Ok t' /\
  forall x, (mem a x -> at_ t' x = add_val CC p v (copy_val CC p (at_ t x))) /\ (~ mem a x -> at_ t' x = copy_val CC p (at_ t x)).
Proof.
  intros Et P. destruct (int_seg_at X k HX M Hco t_empty t a v) as (t' & E & _ & _ & Q); eauto. { apply minv_empty. } exists t'. split; auto.
  destruct (Q Et (proper_good CC p P) (aok_nil X k M)) as [_ Q']. intros x. rewrite <- in_mem. at_r. specialize (Q' (pt x)). cbn [mt_co mt] in Q'. rewrite Q'.
  unfold copy_val, add_val. destruct (inr k a (pt x)); split; intros H; try congruence; destruct (vf t (pt x)); cbn [nodes t_empty vr]; rewrite ?ga_plus; auto.
Qed.
(* flip *)
Lemma thm_mflip a v : mp_total p = false -> proper CC p -> (exists x, mem a x) ->
  exists t', m_flip_seg X k M t a v = Ok t' /\ changed t t' (mem a) (flip_val CC p v).
Proof.
  intros Et P Na. apply (ne_ex X k HX) in Na. destruct (flip_any X k HX M Hco t a v) as (t' & E & _ & Q & _); eauto.
  exists t'. split; auto. destruct (Q Et (proper_good CC p P)) as [_ Q']; eauto. eapply chg_changed; [exact Q'|]. apply gflip_flip.
Qed.
Lemma thm_mflip_elem x v : mp_total p = false -> proper CC p -> storable X k x ->
  exists t', m_flip_elem X k M t x v = Ok t' /\ changed t t' (eq x) (flip_val CC p v).
Proof.
  intros Et P Sx. destruct (thm_mflip (singleton X k x) v Et P) as (t' & E & Q).
  { exists x. apply (elem_only X k HX x x Sx). auto. } exists t'. split; auto. apply changed_elem; auto.
Qed.
Lemma thm_mflip_absorber a v : mp_total p = true -> mp_absorbs p = true -> exists t', m_flip_seg X k M t a v = Ok t' /\ segs X CC t' = [].
Proof.
  intros Et Ea. destruct (flip_any X k HX M Hco t a v) as (t' & E & _ & _ & Q & _); eauto. { cbn. congruence. }
  exists t'. split; auto. unfold segs. specialize (Q Et Ea). cbn [mt_co mt] in Q. rewrite Q. auto.
Qed.
Lemma thm_mflip_enricher a v : mp_total p = true -> mp_absorbs p = false -> exists t', m_flip_seg X k M t a v = Ok t' /\
  forall x, at_ t' x = match at_ t x with Some _ => Some cc_zero | None => if memb X k a x then Some cc_zero else None end.
Proof.
  intros Et Ea. destruct (flip_any X k HX M Hco t a v) as (t' & E & _ & _ & _ & Q); eauto. { cbn. congruence. }
  exists t'. split; auto. intros x. at_r. specialize (Q Et Ea (pt x)). cbn [mt_co mt] in Q. rewrite Q, (memb_inr X k HX).
  unfold ga, is_absorbable. cbn [mt_absorbs mt]. rewrite Ea. cbn [andb]. unfold gadd, absorb, is_absorbable. cbn [mt_absorbs mt]. rewrite Ea.
  destruct (inr k a (pt x)), (vf t (pt x)); auto.
Qed.
End One.
End MapThms.

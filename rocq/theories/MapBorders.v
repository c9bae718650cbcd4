(** Segment borders of maps: which keys share a segment after an operation. *)
From Verif Require Export MapThms4.
From Verif Require Export MapModel.

Section MapBorders.
Context (X : dom) (k : kind).
Context (HX : dom_ok X k).
Context (CC : codomain) (Hco : eq_ok CC).
Notation V := (C CC).
Notation tree := (tree (D X) V).
Notation mem := (mem X k).
Notation at_ := (at_ X k CC).
Notation cmem := (SetSpec.cmem X k).
Notation mreach := (mreach X k CC).
Notation same_seg := (same_seg X k).
Hint Resolve mreach_minv mreach_inv : core.
Ltac mco H := cbn [mt_co mt] in H.

Section Split.
Context (p : mpar) (t : tree) (Ht : mreach p t) (Hs : mp_style p = MSplit).
Notation M := (mt CC p).
Lemma spl_true : MapFacts.spl M = true.
Proof. unfold MapFacts.spl. cbn. rewrite Hs. auto. Qed.

(** the borders after an update in a *)
Definition cut_by (t' : tree) (a : itv (D X)) : Prop := forall x y, le x y -> (same_seg (keys X t') x y <->
  cmem t' x /\ (same_seg (keys X t) x y \/ clear_of X (cmem t) x y) /\ ((mem a x /\ mem a y) \/ clear_of X (mem a) x y)).

Lemma post_cut (t' : tree) a g : minv X k M t' -> @Seg.ne X k a -> @Upd.post X k V (MapFacts.spl M) (lc X k a) (uc X k a) g (nodes t) (nodes t') -> cut_by t' a.
Proof. intros [I' _] Na P. rewrite spl_true in P. intros x y. apply (split_borders X k HX t t' a g); eauto. Qed.

Lemma thm_add_borders a v : (exists x, mem a x) -> absorbed CC p v = false -> exists t', m_add X k M t a v = Ok t' /\ cut_by t' a.
Proof.
  intros Na Ex. apply (ne_ex X k HX) in Na. unfold m_add.
  destruct (add_at_ X k HX M Hco (codomain_combine M) t a v) as (t' & it & E & H1 & _ & P); eauto.
  exists t'. rewrite E. split; auto. eapply post_cut; eauto.
Qed.
Lemma thm_subtract_borders a v : (exists x, mem a x) -> absorbed CC p v = false -> exists t', m_subtract X k M t a v = Ok t' /\ cut_by t' a.
Proof.
  intros Na Ex. apply (ne_ex X k HX) in Na. unfold m_subtract. destruct (is_total_invertible M).
  - destruct (add_at_ X k HX M Hco (inverse_codomain_combine M) t a v) as (t' & it & E & H1 & _ & P); eauto.
    exists t'. rewrite E. split; auto. eapply post_cut; eauto.
  - destruct (subtract_at X k HX M Hco (inverse_codomain_combine M) t a v) as (t' & E & H1 & P); eauto.
    exists t'. rewrite E. split; auto. eapply post_cut; eauto.
Qed.
Lemma thm_insert_borders a v : absorbed CC p v = false -> exists t', m_insert X k M t a v = Ok t' /\
  forall x y, le x y -> (same_seg (keys X t') x y <-> same_seg (keys X t) x y \/ (mem a x /\ mem a y /\ clear_of X (cmem t) x y)).
Proof.
  intros Ex. unfold m_insert. destruct (is_empty X k a) eqn:Ea.
  { exists t. unfold m_insert_. rewrite Ea. split; auto. intros x y _. split; auto. intros [H|(H & _)]; auto. exfalso. revert H. apply (empty_no_point X k HX). auto. }
  assert (Na : @Seg.ne X k a) by (apply (ne_iff X k HX); auto).
  destruct (insert_at_ X k HX M Hco t a v) as (t' & it & E & H1 & _ & U & N & _); eauto.
  exists t'. rewrite E. split; auto. apply (fill_borders X k HX t t' a (gins M v)); eauto; try apply H1; try discriminate. apply N. apply spl_true.
Qed.
End Split.

Section Any.
Context (p : mpar) (t : tree) (Ht : mreach p t).
Notation M := (mt CC p).
Lemma thm_merase_borders a : exists t', m_erase X k M t a = Ok t' /\
  forall x y, le x y -> (same_seg (keys X t') x y <-> same_seg (keys X t) x y /\ clear_of X (mem a) x y).
Proof.
  destruct (is_empty X k a) eqn:Ea.
  { exists t. unfold m_erase. rewrite Ea. split; auto. intros x y _. split; [|tauto]. intros H. split; auto. intros z _ _. apply (empty_no_point X k HX). auto. }
  assert (Na : @Seg.ne X k a) by (apply (ne_iff X k HX); auto).
  destruct (erase_itv_at X k HX M Hco t a) as (t' & E & H1 & U & N & _); eauto.
  exists t'. split; auto. intros x y Hxy. rewrite (erase_borders X k HX t t' a (fun _ => None)); eauto; try apply H1.
  intuition congruence.
Qed.
Lemma thm_merase_seg_borders a v : absorbed CC p v = false -> exists t', m_erase_seg X k M t a v = Ok t' /\
  forall x y, le x y -> (same_seg (keys X t') x y <-> same_seg (keys X t) x y /\ (at_ t x <> Some v \/ clear_of X (mem a) x y)).
Proof.
  intros Ex. destruct (is_empty X k a) eqn:Ea.
  { exists t. unfold m_erase_seg. rewrite Ea. split; auto. intros x y _. split; [|tauto]. intros H. split; auto. right. intros z _ _. apply (empty_no_point X k HX). auto. }
  assert (Na : @Seg.ne X k a) by (apply (ne_iff X k HX); auto).
  destruct (erase_seg_at X k HX M Hco t a v) as (t' & E & H1 & U & N & _); eauto.
  exists t'. split; auto. intros x y Hxy. rewrite (erase_borders X k HX t t' a (gers M v)); eauto; try apply H1.
  split; intros [H [Q|Q]]; split; auto; left.
  - rewrite (at_vr X k HX CC). mco Q. destruct (vr k (nodes t) (pt X x)) as [w|]; [|discriminate]. cbn in Q. intros [= ->]. rewrite (proj2 (Hco v v)) in Q; auto.
  - assert (C : cmem t x). { destruct H as (b & Hb & Mx & _). exists b. auto. }
    apply (cmem_vr X k HX) in C. rewrite (at_vr X k HX CC) in Q. destruct (vr k (nodes t) (pt X x)) as [w|]; [|congruence]. cbn.
    destruct (cc_eq w v) eqn:Ew; [|discriminate]. apply Hco in Ew. congruence.
Qed.
End Any.

Lemma thm_set_borders p t a v : mreach p t -> mp_style p = MSplit -> exists t', m_set X k (mt CC p) t a v = Ok t' /\
  forall x y, le x y -> (same_seg (keys X t') x y <->
    (mem a x /\ mem a y /\ absorbed CC p v = false) \/ (same_seg (keys X t) x y /\ clear_of X (mem a) x y)).
Proof.
  intros Ht Hs. unfold m_set. destruct (thm_merase_borders p t Ht a) as (t1 & E1 & B1).
  assert (R1 : mreach p t1) by (eapply M_erase; eauto). rewrite E1. cbn [bind].
  destruct (thm_merase X k HX CC Hco p t Ht a) as (t1' & E1' & C1). assert (t1' = t1) by congruence. subst t1'.
  destruct (absorbed CC p v) eqn:Ab.
  - exists t1. unfold m_insert, m_insert_. change (is_absorbable (mt CC p) v) with (absorbed CC p v). rewrite Ab.
    split; [destruct (is_empty X k a); auto|]. intros x y Hxy. rewrite B1 by auto. intuition congruence.
  - destruct (thm_insert_borders p t1 R1 Hs a v Ab) as (t' & E & B). exists t'. split; auto. intros x y Hxy. rewrite B, B1 by auto.
    assert (Q : mem a x -> mem a y -> clear_of X (cmem t1) x y).
    { intros Mx My z Z1 Z2 Mz. apply (at_cmem X k HX CC Hco p t1 z R1) in Mz. apply Mz. apply C1.
      rewrite (le_pt X) in Z1, Z2. rewrite (mem_inr X k HX) in *. unfold inr in *. clear -Mx My Z1 Z2 HX. cord_ X k HX. }
    tauto.
Qed.
End MapBorders.

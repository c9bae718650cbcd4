(** Intersection tests, equality, ordering, range queries and morphisms of interval
    sets (proofs). *)
From Verif Require Export SetQuery2.

Section SetQuery3.
Context (X : dom) (k : kind).
Context (HX : dom_ok X k).
Notation I := (itv (D X)).
Notation node := (node (D X) unit).
Notation tree := (tree (D X) unit).
Notation lc := (lc X k).
Notation uc := (uc X k).
Notation pt := (pt X).
Notation cltb := (cltb X).
Notation ceqb := (ceqb X).
Notation cut := (cut X).
Notation ok := (cut_ok X k).
Notation ne := (@ne X k).
Notation sinv := (sinv X k).
Notation addsP := (addsP X k).
Notation exr := (exr X k).
Notation same_seg := (same_seg X k).
Ltac cord := cord_ X k HX.
Ltac lst := rewrite <- ?app_assoc; cbn [app]; congruence || auto.

Lemma ne_elem a : ne a -> exists x, mem X k a x.
Proof.
  intros H. destruct (cut_gap X k HX (lc a) (uc a) (lc_ok X k a) (uc_ok X k a) H) as (x & A & B).
  exists x. apply inr_mem; auto. unfold inr. cord.
Qed.
Lemma elem_ne a x : mem X k a x -> ne a.
Proof. intros H. apply inr_mem in H; auto. unfold inr in H. unfold Seg.ne. cord. Qed.
Lemma nil_elem {V} (l : list (Tree.node (D X) V)) : srt k l -> (l = [] <-> forall x, Rb k l (pt x) = false).
Proof.
  intros S. split.
  - intros -> x. auto.
  - destruct l as [|n l]; auto. intros H. destruct S as (Nn & _). destruct (ne_elem _ Nn) as (x & Hx).
    exfalso. specialize (H x). cbn in H. apply inr_mem in Hx; auto. rewrite Hx in H. discriminate.
Qed.

Theorem s_intersects_seg_at t a : inv k t ->
  exists b, s_intersects_seg X k t a = Ok b /\ (b = true <-> exists x, mem X k a x /\ Rb k (nodes t) (pt x) = true).
Proof.
  intros [W S]. unfold s_intersects_seg. destruct (is_empty X k a) eqn:Ea.
  { exists false. split; auto. split; [discriminate|]. intros (x & Hx & _). exfalso. revert Hx. apply empty_no_point; auto. }
  apply (ne_iff X k HX) in Ea. rename Ea into Na.
  destruct (decomp X k HX a (nodes t) S Na) as (L & M & R & E & BL & OM & AR).
  destruct M as [|m M].
  - rewrite (tfind_none X k HX t L R a) by auto. exists false. split; auto. split; [discriminate|].
    intros (x & Hx & Hr). apply inr_mem in Hx; auto. destruct (seg_out X k HX L R a (pt x) Na BL AR) as [F _].
    destruct (F Hx) as (F1 & F2 & _). rewrite E, !Rb_app, F1, F2 in Hr. discriminate.
  - inversion OM as [|? ? Om _]; subst. rewrite (tfind_some X k HX t L m (M ++ R) a) by auto. exists true. split; auto. split; auto.
    intros _. assert (Nm : ne (nkey m)). { apply srt_nes in S. unfold nes in S. rewrite Forall_forall in S. apply S. rewrite E, in_app_iff. cbn. auto. }
    assert (N : ne (inter X k a (nkey m))).
    { unfold Seg.ne. rewrite (inter_lc X k HX), (inter_uc X k HX) by auto. unfold over, Seg.ne in *. unfold cmin, cmax. repeat ifg; cord. }
    destruct (ne_elem _ N) as (x & Hx). apply inr_mem in Hx; auto. destruct (inter_obs X k HX a (nkey m) (pt x) Na Nm) as (O & _).
    rewrite O in Hx. apply andb_true_iff in Hx. destruct Hx as [H1 H2]. exists x. split. { apply inr_mem; auto. }
    rewrite E, Rb_app. cbn. rewrite H2, orb_true_r. auto.
Qed.

Lemma s_intersects_loop_at st (t : tree) : inv k t -> forall l : list node, srt k l -> forall s, sinv st s -> nodes s = [] ->
  exists b, s_intersects_loop X k st s t l = Ok b /\ (b = true <-> exists x, Rb k (nodes t) (pt x) = true /\ Rb k l (pt x) = true).
Proof.
  intros Ht. induction l as [|n l IH]; intros Sl s Hs Es; cbn [s_intersects_loop].
  - exists false. split; auto. split; [discriminate|]. intros (x & _ & H). discriminate.
  - destruct (s_add_intersection_seg_at X k HX st s t (nkey n) Hs Ht) as (s1 & p1 & -> & I1 & [A1 _] & X1). cbn [bind].
    destruct Sl as (Nn & _ & Sl). cbn [Rb].
    assert (F : forall x, Rb k (nodes s1) (pt x) = Rb k (nodes t) (pt x) && inr k (nkey n) (pt x)).
    { intros x. destruct (A1 (pt x)) as [-> _]. rewrite Es. cbn. destruct (X1 (pt x)) as [-> _]. auto. }
    destruct (nodes s1) as [|q s2] eqn:E1.
    + destruct (IH Sl s1 I1 E1) as (b & -> & Hb). exists b. split; auto. rewrite Hb. cbn in F. split.
      * intros (x & H1 & H2). exists x. split; auto. rewrite H2. apply orb_true_r.
      * intros (x & H1 & H2). exists x. split; auto. specialize (F x). rewrite H1 in F. cbn [andb] in F. cbn [Rb] in H2. rewrite <- F in H2. auto.
    + exists true. split; auto. split; auto. intros _.
      assert (exists x, Rb k (q :: s2) (pt x) = true) as (x & Hx).
      { destruct I1 as [[_ S1] _]. rewrite E1 in S1. destruct S1 as (Nq & _). destruct (ne_elem _ Nq) as (x & Hx). exists x. cbn.
        apply inr_mem in Hx; auto. rewrite Hx. auto. }
      exists x. rewrite F in Hx. apply andb_true_iff in Hx. destruct Hx as [-> H2]. split; auto. cbn [Rb]. rewrite H2. auto.
Qed.

Theorem s_intersects_at st (t o : tree) : inv k t -> inv k o ->
  exists b, s_intersects X k st t o = Ok b /\ (b = true <-> exists x, Rb k (nodes t) (pt x) = true /\ Rb k (nodes o) (pt x) = true).
Proof.
  intros Ht Ho. unfold s_intersects.
  destruct (common_range_at X k HX o t Ho Ht) as (L & M & R & r & -> & E & BL & AR & Hr). cbn [bind].
  assert (N1 : nes k (nodes t)) by (apply srt_nes, Ht). assert (N2 : nes k (L ++ M ++ R)) by (rewrite <- E; apply srt_nes, Ho).
  assert (G : forall x, Rb k (nodes t) (pt x) = true -> Rb k (nodes o) (pt x) = Rb k M (pt x)).
  { intros x Hx. destruct (befor_out X k HX (nodes t) L M R (pt x) N1 N2 BL AR) as (F & _). destruct (F Hx) as (F1 & _ & F2 & _).
    rewrite E, !Rb_app, F1, F2, orb_false_r. auto. }
  assert (SM : srt k M). { destruct Ho as [_ S]. rewrite E in S. apply srt_app in S. destruct S as (_ & S & _). apply srt_app in S. tauto. }
  destruct Hr as [[-> ->]|[-> Hn]].
  - exists false. split; auto. split; [discriminate|]. intros (x & H1 & H2). rewrite G in H2 by auto. discriminate.
  - rewrite (range_at X o L M R) by (auto; apply Ho). cbn [bind].
    destruct (s_intersects_loop_at st t Ht M SM t_empty (sinv_empty X k st) eq_refl) as (b & -> & Hb).
    exists b. split; auto. rewrite Hb. split; intros (x & H1 & H2); exists x; split; auto; rewrite ?G in *; auto.
Qed.

(* ------------------------------------------------------------ equality *)
Lemma vr_unit (l : list node) c : vr k l c = if Rb k l c then Some tt else None.
Proof. rewrite Rb_vr. destruct (vr k l c) as [[]|]; auto. Qed.

Lemma sameseg_keys (l r : list node) :
  Forall2 (fun a b => ceqb (lc (nkey a)) (lc (nkey b)) = true /\ ceqb (uc (nkey a)) (uc (nkey b)) = true) l r <-> Forall2 (@sameseg X k unit) l r.
Proof.
  split; intros H; induction H as [|a b l r H H' IH]; constructor; auto.
  - destruct H. unfold sameseg. conjs; auto. destruct (nval a), (nval b). auto.
  - unfold sameseg in H. tauto.
Qed.

Theorem s_eqb_at (l r : tree) : inv k l -> inv k r ->
  (s_eqb X k l r = true <-> forall c, ok c -> Rb k (nodes l) c = Rb k (nodes r) c /\ intr k (nodes l) c = intr k (nodes r) c).
Proof.
  intros [_ Sl] [_ Sr]. unfold s_eqb, keys. rewrite (eqb_keys X k HX) by auto. rewrite sameseg_keys. split.
  - intros H c _. apply (obs_of_same X k HX) in H. destruct H as (H1 & _ & H3). rewrite !Rb_vr, H1, H3. auto.
  - intros H. apply (same_of_obs X k HX); auto; intros c Oc; destruct (H c Oc) as [H1 H2]; auto. rewrite !vr_unit, H1. auto.
Qed.


(** same elements *)
Definition same_elems (l r : list node) : Prop := forall x, Rb k l (pt x) = Rb k r (pt x).
Lemma same_elems_obs (l r : list node) : same_elems l r -> forall c, ok c -> Rb k l c = Rb k r c /\ Lb k l c = Lb k r c.
Proof.
  intros H c Oc. assert (H0 : forall x, vr k l (pt x) = vr k r (pt x)) by (intros x; rewrite !vr_unit, H; auto).
  destruct (elem_obs X k HX l r H0 c Oc) as [H1 H2]. rewrite !Rb_vr, !Lb_vl, H1, H2. auto.
Qed.

Theorem joined_eqb (l r : tree) : sinv Joining l -> sinv Joining r ->
  (s_eqb X k l r = true <-> same_elems (nodes l) (nodes r)).
Proof.
  intros [[Wl Sl] Jl] [[Wr Sr] Jr]. split.
  - intros H x. unfold s_eqb, keys in H. apply (eqb_keys X k HX) in H; auto. apply sameseg_keys in H. apply (obs_of_same X k HX) in H.
    destruct H as (H1 & _). rewrite !Rb_vr, H1. auto.
  - intros H. apply s_eqb_at; [split; auto|split; auto|]. intros c Oc. destruct (same_elems_obs _ _ H c Oc) as [H1 H2].
    rewrite (proj1 (joined_b X k HX _ Sl) Jl), (proj1 (joined_b X k HX _ Sr) Jr), H1, H2. auto.
Qed.

(** equality is having the same segments *)
Lemma same_seg_sym l x y : same_seg l x y -> same_seg l y x.
Proof. intros (a & H1 & H2 & H3). exists a. auto. Qed.
Lemma intr_of_segs {V W} (l : list (Tree.node (D X) V)) (r : list (Tree.node (D X) W)) : srt k l -> srt k r ->
  (forall x y, le x y -> same_seg (map nkey l) x y -> same_seg (map nkey r) x y) ->
  forall c, ok c -> intr k l c = true -> intr k r c = true.
Proof.
  intros Sl Sr H c Oc Hc. apply intr_true in Hc. destruct Hc as (n & Hn & Hc). unfold ini in Hc.
  apply andb_true_iff in Hc. destruct Hc as [C1 C2].
  destruct (cut_gap X k HX (lc (nkey n)) c (lc_ok X k _) Oc C1) as (x & X1 & X2).
  destruct (cut_gap X k HX c (uc (nkey n)) Oc (uc_ok X k _) C2) as (y & Y1 & Y2).
  assert (Hxy : le x y). { rewrite (le_pt X). cord. }
  assert (M : same_seg (map nkey r) x y).
  { apply H; auto. exists (nkey n). split. { apply in_map; auto. } split; apply inr_mem; auto; unfold inr; cord. }
  apply (same_seg_cut X k HX r x y Sr Hxy) in M. apply M; auto.
Qed.
Theorem s_eqb_segs (l r : tree) : inv k l -> inv k r ->
  (s_eqb X k l r = true <-> forall x y, same_seg (map nkey (nodes l)) x y <-> same_seg (map nkey (nodes r)) x y).
Proof.
  intros Hl Hr. split.
  - intros H. unfold s_eqb, keys in H. apply (eqb_keys X k HX) in H; try apply Hl; try apply Hr.
    intros x y. induction H as [|a b l' r' [H1 H2] H IH]; [tauto|].
    assert (E : forall z, mem X k (nkey a) z <-> mem X k (nkey b) z).
    { intros z. rewrite <- !inr_mem by auto. unfold inr. split; intros; cord. }
    unfold Spec.same_seg in *. cbn [map In]. split.
    + intros (p & [<-|Hp] & P1 & P2).
      * exists (nkey b). rewrite <- !E. auto.
      * destruct (proj1 IH) as (q & Hq & Q). { eauto. } exists q. auto.
    + intros (p & [<-|Hp] & P1 & P2).
      * exists (nkey a). rewrite !E. auto.
      * destruct (proj2 IH) as (q & Hq & Q). { eauto. } exists q. auto.
  - intros H. apply s_eqb_at; auto. intros c Oc. destruct Hl as [_ Sl], Hr as [_ Sr]. split.
    + apply same_elems_obs; auto. intros x. specialize (H x x).
      assert (U : forall l : list node, same_seg (map nkey l) x x <-> Rb k l (pt x) = true).
      { intros l0. rewrite (Rb_mem X k HX). split.
        - intros (a & Ha & M & _). apply in_map_iff in Ha. destruct Ha as (n & <- & Hn). eauto.
        - intros (n & Hn & M). exists (nkey n). split; auto. apply in_map; auto. }
      rewrite !U in H. destruct (Rb k (nodes l) (pt x)), (Rb k (nodes r) (pt x)); auto; intuition congruence.
    + assert (A := intr_of_segs (nodes l) (nodes r) Sl Sr (fun x y _ => proj1 (H x y)) c Oc).
      assert (B := intr_of_segs (nodes r) (nodes l) Sr Sl (fun x y _ => proj2 (H x y)) c Oc).
      destruct (intr k (nodes l) c), (intr k (nodes r) c); auto; intuition congruence.
Qed.
End SetQuery3.

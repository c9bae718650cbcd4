(** Queries and morphisms of interval sets (proofs). *)
From Verif Require Export SetQuery.

Section SetQuery2.
Context (X : dom) (k : kind).
Context (HX : dom_ok X k).
Notation I := (itv (D X)).
Notation node := (node (D X) unit).
Notation tree := (tree (D X) unit).
Notation lc := (lc X k).
Notation uc := (uc X k).
Notation pt := (pt X).
Notation cltb := (cltb X).
Notation ceqb := (ceqb X).
Notation cut := (cut X).
Notation ok := (cut_ok X k).
Notation ne := (@ne X k).
Notation sinv := (sinv X k).
Notation addsP := (addsP X k).
Notation exr := (exr X k).
Ltac cord := cord_ X k HX.
Ltac lst := rewrite <- ?app_assoc; cbn [app]; congruence || auto.

(* ------------------------------------------------------------ elements *)
Theorem s_contains_elem_at t x : inv k t -> has_room X k x ->
  s_contains_elem X k t x = Ok (Rb k (nodes t) (pt x)).
Proof.
  intros Hi Hr. unfold s_contains_elem.
  destruct (find_elem_at X k HX t x Hi Hr) as [(L & n & R & -> & E & H)|[-> H]]; cbn [bind].
  - rewrite E, Rb_app. cbn. rewrite H, orb_true_r. auto.
  - rewrite H. auto.
Qed.

Definition elem_ok (x : D X) : Prop := has_room X k x /\ (dynamic k = true \/ disc X = true).

Lemma elem_only x z : elem_ok x -> (mem X k (singleton X k x) z <-> z = x).
Proof.
  intros [H Hd]. split.
  - intros M. unfold has_room in H. destruct (disc X) eqn:Hdd.
    + apply singleton_spec in M; tauto.
    + assert (Hdk : dynamic k = true) by (destruct Hd; congruence).
      apply singleton_spec in M; auto; try congruence; unfold room_up, room_dn; revert Hdk; case_eq k; intros; auto; discriminate.
  - intros ->. apply inr_mem; auto. apply single_in; auto.
Qed.

Lemma elem_flip_sub st t t' x : inv k t -> elem_ok x -> Rb k (nodes t) (pt x) = true ->
  subbed X k (singleton X k x) (nodes t) (nodes t') -> flipped X k st (singleton X k x) (nodes t) (nodes t').
Proof.
  intros Hi Hx Hr HS. pose proof (single_ne X k HX x (proj1 Hx)) as Ns.
  apply (Rb_mem X k HX) in Hr. destruct Hr as (n & Hn & Mx).
  assert (Sub : forall z, mem X k (singleton X k x) z -> mem X k (nkey n) z).
  { intros z Hz. apply elem_only in Hz; auto. subst. auto. }
  apply (subset_cut X k HX) in Sub; [|apply (ne_iff X k HX); auto]. destruct Sub as [S1 S2].
  intros c. destruct (HS c) as (-> & -> & H3).
  assert (F1 : inr k (singleton X k x) c = true -> Rb k (nodes t) c = true).
  { intros H. apply Rb_iff. exists n. split; auto. unfold inr in *. cord. }
  assert (F2 : inl k (singleton X k x) c = true -> Lb k (nodes t) c = true).
  { intros H. apply Lb_iff. exists n. split; auto. unfold inl in *. cord. }
  pose proof (ini_b X k HX (singleton X k x) c) as F3. rewrite H3. clear H3. revert F1 F2 F3.
  generalize (Rb k (nodes t) c) (Lb k (nodes t) c) (intr k (nodes t) c) (inr k (singleton X k x) c)
   (inl k (singleton X k x) c) (ini k (singleton X k x) c). intros. conjs; intros; bcases.
Qed.
Lemma elem_apart t x : inv k t -> elem_ok x -> Rb k (nodes t) (pt x) = false -> apart X k (singleton X k x) (nodes t).
Proof.
  intros [W S] Hx Hr c. pose proof (single_ne X k HX x (proj1 Hx)) as Ns.
  assert (G : forall n, In n (nodes t) -> over k (singleton X k x) n -> False).
  { intros n Hn Ho. assert (Rb k (nodes t) (pt x) = true); [|congruence]. apply Rb_iff. exists n. split; auto.
    apply single_over; auto; try apply Hx. apply srt_nes in S. unfold nes in S. rewrite Forall_forall in S. auto. }
  split; intros H.
  - destruct (Rb k (nodes t) c) eqn:E; auto. exfalso. apply Rb_iff in E. destruct E as (n & Hn & E).
    apply (G n Hn). unfold over, inr in *. split; cord.
  - destruct (Lb k (nodes t) c) eqn:E; auto. exfalso. apply Lb_iff in E. destruct E as (n & Hn & E).
    apply (G n Hn). unfold over, inl in *. split; cord.
Qed.
Theorem s_flip_elem_at st t x : sinv st t -> elem_ok x ->
  exists t', s_flip_elem X k st t x = Ok t' /\ sinv st t' /\ flipped X k st (singleton X k x) (nodes t) (nodes t').
Proof.
  intros Hi Hx. unfold s_flip_elem. rewrite s_contains_elem_at by (auto; apply Hi || apply Hx). cbn [bind].
  pose proof (single_ne X k HX x (proj1 Hx)) as Ns.
  destruct (Rb k (nodes t) (pt x)) eqn:E.
  - destruct (s_subtract_at X k HX t (singleton X k x) (proj1 Hi) Ns) as (t' & H & I' & S').
    exists t'. unfold s_subtract_elem. conjs; auto. { eapply subbed_sinv; eauto. }
    apply elem_flip_sub; auto. apply Hi.
  - destruct (s_add_adds X k HX st t (singleton X k x) Hi) as (t' & it & H & I' & _ & A').
    exists t'. unfold s_add_elem. rewrite H. cbn [bind]. conjs; auto.
    apply (flip_apart X k HX); auto. apply elem_apart; auto. apply Hi.
Qed.

(** &= with an element *)
Theorem s_and_elem_at st t x : inv k t -> elem_ok x ->
  exists t', s_and_elem X k st t x = Ok t' /\ sinv st t' /\
    forall z, Rb k (nodes t') (pt z) = true <-> z = x /\ Rb k (nodes t) (pt x) = true.
Proof.
  intros Hi Hx. unfold s_and_elem, s_add_intersection_elem.
  destruct (find_elem_at X k HX t x Hi (proj1 Hx)) as [(L & n & R & -> & E & H)|[-> H]]; cbn [bind end_ iter_eqb negb].
  - destruct (s_add_adds X k HX st t_empty (singleton X k x) (sinv_empty X k st)) as (t' & it & E' & I' & _ & [A' _]).
    exists t'. unfold s_add_elem. rewrite E'. cbn [bind]. conjs; auto. intros z. destruct (A' (pt z)) as [-> _]. cbn. rewrite orb_false_r, inr_mem, elem_only by auto.
    rewrite E, Rb_app. cbn. rewrite H, orb_true_r. tauto.
  - exists t_empty. conjs; auto. { apply sinv_empty. } intros z. cbn. rewrite H. split; [discriminate|intros []; discriminate].
Qed.

(* ------------------------------------------------------------ contains a segment *)
Fixpoint touchall (l : list node) : bool :=
  match l with
  | n :: (m :: _) as l' => touches X k (nkey n) (nkey m) && touchall l'
  | _ => true
  end.

Lemma is_joinable_loop_at (t : tree) : wf t -> forall M fuel L m R q, nodes t = L ++ m :: M ++ R -> length M < fuel ->
  last_it (m :: M) = Some q ->
  is_joinable_loop X k fuel t (Some (nid m)) (Tree.hd_it (M ++ R)) (Some q) = Ok (touchall (m :: M)).
Proof.
  intros W. induction M as [|m' M IH]; intros [|fuel] L m R q E Hf Hq; try (cbn in Hf; lia); cbn [is_joinable_loop].
  - cbn in Hq. inversion Hq; subst. cbn [iter_eqb]. rewrite Nat.eqb_refl. cbn [negb]. rewrite andb_false_r. auto.
  - cbn [app Tree.hd_it]. change (iter_eqb (Some (nid m')) (end_ t)) with false. cbn [negb andb].
    assert (Nq : iter_eqb (Some (nid m)) (Some q) = false).
    { cbn. apply Nat.eqb_neq. intros Eq. subst q.
      assert (Hin : exists Q p, m' :: M = Q ++ [p]) by (destruct (exists_last (l := m' :: M)) as (Q & p & HQ); [discriminate|eauto]).
      destruct Hin as (Q & p & HQ). change (m :: m' :: M) with ([m] ++ m' :: M) in Hq. rewrite HQ in Hq. rewrite app_assoc, last_it_app in Hq. cbn in Hq.
      inversion Hq as [Hp]. destruct W as [W _]. rewrite E in W. rewrite ids_app, ids_cons in W.
      apply NoDup_remove_2 in W. apply W. rewrite in_app_iff. right. rewrite HQ. rewrite ids_app, ids_app. cbn. rewrite Hp, !in_app_iff. cbn. auto. }
    rewrite Nq. cbn [negb].
    rewrite (key_at X t L m (m' :: M ++ R)) by auto. cbn [bind].
    rewrite (key_at X t (L ++ [m]) m' (M ++ R)) by (auto; lst). cbn [bind].
    rewrite (incr_at X t L m (m' :: M ++ R)) by auto. cbn [bind Tree.hd_it].
    rewrite (incr_at X t (L ++ [m]) m' (M ++ R)) by (auto; lst). cbn [bind].
    cbn [touchall]. destruct (touches X k (nkey m) (nkey m')); auto. cbn [andb].
    apply (IH fuel (L ++ [m])); auto.
    + lst.
    + cbn in Hf. lia.
Qed.

Lemma touchall_to (l : list node) n : srt k (n :: l) -> touchall (n :: l) = true ->
  forall m, In m (n :: l) -> forall c, cltb c (lc (nkey n)) = false -> cltb c (uc (nkey m)) = true -> Rb k (n :: l) c = true.
Proof.
  revert n. induction l as [|m l IH]; intros n S.
  - cbn. intros _ m [<-|[]] c H1 H2. unfold inr. rewrite H1, H2. auto.
  - destruct S as (Nn & F & S). cbn [touchall]. pose proof S as (Nm & Fm & _).
    assert (Fnm : cltb (lc (nkey m)) (uc (nkey n)) = false) by (inversion F; auto).
    rewrite touches_ne by auto. rewrite andb_true_iff. intros [T H] q Hq c H1 H2.
    change (inr k (nkey n) c || Rb k (m :: l) c = true).
    destruct (cltb c (uc (nkey n))) eqn:E. { unfold inr at 1. rewrite H1, E. auto. }
    destruct Hq as [<-|Hq]; [congruence|].
    rewrite (IH m S H q Hq c); auto. { apply orb_true_r. } cord.
Qed.
Lemma touchall_of a (l : list node) n : srt k (n :: l) -> Forall (over k a) (n :: l) ->
  (forall c, ok c -> cltb (lc a) c = true -> cltb c (uc a) = true -> cltb c (lc (nkey n)) = false -> Rb k (n :: l) c = true) -> touchall (n :: l) = true.
Proof.
  revert n. induction l as [|m l IH]; intros n S O H; auto.
  destruct S as (Nn & F & S). cbn [touchall]. pose proof S as (Nm & Fm & _).
  inversion O as [|? ? On O']; subst. inversion O' as [|? ? Om _]; subst.
  assert (Fnm : cltb (lc (nkey m)) (uc (nkey n)) = false) by (inversion F; auto).
  rewrite touches_ne by auto. rewrite andb_true_iff. unfold Seg.ne, over in *.
  split.
  - destruct (ceqb (uc (nkey n)) (lc (nkey m))) eqn:E; auto. exfalso.
    assert (H' : Rb k (n :: m :: l) (uc (nkey n)) = true) by (apply H; [apply uc_ok|cord..]).
    change (inr k (nkey n) (uc (nkey n)) || Rb k (m :: l) (uc (nkey n)) = true) in H'.
    assert (H0 : inr k (nkey n) (uc (nkey n)) = false) by (unfold inr; cord). rewrite H0 in H'. cbn [orb] in H'.
    apply Rb_iff in H'. destruct H' as (q & Hq & H').
    pose proof (srt_first X k HX m l q S Hq). unfold inr in H'. cord.
  - apply IH; auto. intros c Oc H1 H2 H3. specialize (H c Oc H1 H2).
    assert (H' : Rb k (n :: m :: l) c = true) by (apply H; cord).
    change (inr k (nkey n) c || Rb k (m :: l) c = true) in H'.
    assert (H0 : inr k (nkey n) c = false) by (unfold inr; cord). rewrite H0 in H'. auto.
Qed.

Theorem s_contains_seg_at t a : inv k t ->
  exists b, s_contains_seg X k t a = Ok b /\ (b = true <-> forall x, mem X k a x -> Rb k (nodes t) (pt x) = true).
Proof.
  intros [W S]. unfold s_contains_seg. destruct (is_empty X k a) eqn:Ea.
  { exists true. split; auto. split; auto. intros _ x Hx. exfalso. revert Hx. apply empty_no_point; auto. }
  apply (ne_iff X k HX) in Ea. rename Ea into Na.
  destruct (decomp X k HX a (nodes t) S Na) as (L & M & R & E & BL & OM & AR).
  rewrite (equal_range_at X k HX t L M R a) by auto. cbn [bind].
  rewrite (iter_eqb_hd X t L M R W E).
  assert (Out : forall x, mem X k a x -> Rb k (nodes t) (pt x) = Rb k M (pt x)).
  { intros x Hx. apply inr_mem in Hx; auto. destruct (seg_out X k HX L R a (pt x) Na BL AR) as [F _].
    destruct (F Hx) as (F1 & F2 & _). rewrite E, !Rb_app, F1, F2, orb_false_r. auto. }
  assert (SM : srt k M). { rewrite E in S. apply srt_app in S. destruct S as (_ & S & _). apply srt_app in S. tauto. }
  destruct (cut_gap X k HX (lc a) (uc a) (lc_ok X k a) (uc_ok X k a) Na) as (x0 & G1 & G2).
  destruct M as [|m M].
  { exists false. split; auto. split; [discriminate|]. intros H. exfalso.
    assert (Hm : mem X k a x0) by (apply inr_mem; auto; unfold inr; cord).
    specialize (H x0 Hm). rewrite Out in H by auto. discriminate. }
  destruct (M_ends (m :: M)) as (? & ? & Q & q & E1 & E2); [discriminate|]. inversion E1; subst x x1. clear E1.
  rewrite (cyc_at X t (L ++ m :: M) R) by (auto; lst). cbn [bind].
  replace (last_it (L ++ m :: M)) with (Some (nid q)) by (rewrite E2, app_assoc, last_it_app; auto). cbn [app Tree.hd_it].
  rewrite (key_at X t L m (M ++ R)) by auto. cbn [bind].
  rewrite (key_at X t (L ++ Q) q R) by (auto; rewrite E; change (m :: M ++ R) with ((m :: M) ++ R); rewrite E2; lst). cbn [bind].
  assert (Im : In m (m :: M)) by (cbn; auto). assert (Iq : In q (m :: M)) by (rewrite E2, in_app_iff; cbn; auto).
  pose proof (srt_nes X k (m :: M) SM) as NM. unfold nes in NM. rewrite Forall_forall in NM, OM.
  pose proof (NM m Im) as Nm. pose proof (NM q Iq) as Nq. pose proof (OM m Im) as Om. pose proof (OM q Iq) as Oq.
  destruct (M_range X k HX (m :: M) m M Q q SM eq_refl E2) as [A B].
  assert (Hq : cltb (lc (nkey q)) (lc (nkey m)) = false). { unfold above in A. rewrite Forall_forall in A. auto. }
  assert (Hm : cltb (uc (nkey q)) (uc (nkey m)) = false). { unfold below in B. rewrite Forall_forall in B. auto. }
  assert (HE : contains_itv X k (hull X k (nkey m) (nkey q)) a = true <-> cltb (lc a) (lc (nkey m)) = false /\ cltb (uc (nkey q)) (uc a) = false).
  { pose proof (hull_lc X k HX _ _ Nm Nq) as U1. pose proof (hull_uc X k HX _ _ Nm Nq) as U2.
    assert (Nh : ne (hull X k (nkey m) (nkey q))). { unfold Seg.ne in *. rewrite U1, U2. unfold cmin, cmax. destruct (cltb (lc (nkey m)) (lc (nkey q))) eqn:D1, (cltb (uc (nkey m)) (uc (nkey q))) eqn:D2; cord. }
    rewrite (contains_itv_spec X k HX).
    - rewrite (subset_cut X k HX) by (apply (ne_iff X k HX); auto). rewrite U1, U2. unfold cmin, cmax.
      destruct (cltb (lc (nkey m)) (lc (nkey q))) eqn:D1, (cltb (uc (nkey m)) (uc (nkey q))) eqn:D2; split; intros [V1 V2]; split; cord.
    - apply edge_ok_iff, (nonempty_edge X k HX), (ne_iff X k HX); auto.
    - apply edge_ok_iff, (nonempty_edge X k HX), (ne_iff X k HX); auto. }
  assert (Cut : forall c, ok c -> inr k a c = true -> (forall x, mem X k a x -> Rb k (nodes t) (pt x) = true) -> Rb k (m :: M) c = true).
  { intros c Oc Hc H. 
    destruct (probe_r X k HX [m :: M] c (uc a) Oc (uc_ok X k a)) as (x & X1 & X2 & G). { unfold inr in Hc. cord. }
    rewrite Rb_vr, <- (G (m :: M)), <- Rb_vr by (cbn; auto).
    assert (Hx : mem X k a x) by (apply inr_mem; auto; unfold inr in *; cord). rewrite <- Out by auto. auto. }
  destruct (contains_itv X k (hull X k (nkey m) (nkey q)) a) eqn:Ec.
  - unfold is_joinable. change (iter_eqb (Some (nid m)) (end_ t)) with false. cbn match.
    rewrite (incr_at X t L m (M ++ R)) by auto. cbn [bind].
    rewrite (is_joinable_loop_at t W M (Datatypes.S (length (nodes t))) L m R (nid q)).
    + exists (touchall (m :: M)). split; auto. destruct (proj1 HE eq_refl) as [V1 V2]. split.
      * intros H x Hx. rewrite Out by auto. apply inr_mem in Hx; auto. apply (touchall_to M m SM H q Iq); unfold inr in *; cord.
      * intros H. apply (touchall_of a); auto. { apply Forall_forall. auto. }
        intros c Oc H1 H2 _. apply Cut; auto. unfold inr. cord.
    + auto.
    + rewrite E, app_length. cbn. rewrite app_length. lia.
    + rewrite E2. apply last_it_app.
  - exists false. split; auto. split; [discriminate|]. intros H. exfalso.
    enough (false = true) by discriminate. apply HE. unfold over, Seg.ne in *. split.
    + destruct (cltb (lc a) (lc (nkey m))) eqn:D; auto. exfalso.
      assert (Hr : Rb k (m :: M) (lc a) = true). { apply Cut; auto. { apply lc_ok. } unfold inr. cord. }
      apply Rb_iff in Hr. destruct Hr as (p & Hp & Hr). unfold above in A. rewrite Forall_forall in A. specialize (A p Hp). cbn in A. unfold inr in Hr. cord.
    + destruct (cltb (uc (nkey q)) (uc a)) eqn:D; auto. exfalso.
      assert (Hr : Rb k (m :: M) (uc (nkey q)) = true). { apply Cut; auto. { apply uc_ok. } unfold inr. cord. }
      apply Rb_iff in Hr. destruct Hr as (p & Hp & Hr). unfold below in B. rewrite Forall_forall in B. specialize (B p Hp). cbn in B. unfold inr in Hr. cord.
Qed.
End SetQuery2.

(** Queries on interval sets (proofs); the element lookup and the equality of segment
    sequences are generic in the associated value. *)
From Verif Require Export SegElem SetFlip.

Section Query.
Context (X : dom) (k : kind).
Context (HX : dom_ok X k).
Context {V : Type}.
Notation I := (itv (D X)).
Notation node := (node (D X) V).
Notation tree := (tree (D X) V).
Notation lc := (lc X k).
Notation uc := (uc X k).
Notation pt := (pt X).
Notation cltb := (cltb X).
Notation ceqb := (ceqb X).
Notation cut := (cut X).
Notation ok := (cut_ok X k).
Notation ne := (@ne X k).
Ltac cord := cord_ X k HX.
Ltac lst := rewrite <- ?app_assoc; cbn [app]; congruence || auto.

Lemma contains_inr a x : ne a -> contains X k a x = inr k a (pt x).
Proof.
  intros Na. apply (ne_iff X k HX) in Na. rewrite (contains_cut X k HX); auto.
  intros _. apply nonempty_edge; auto.
Qed.

Lemma single_in x : has_room X k x -> inr k (singleton X k x) (pt x) = true.
Proof.
  intros H. apply inr_mem; auto. unfold has_room in H. destruct (disc X) eqn:Hd.
  - apply singleton_spec; tauto.
  - pose proof (ltb_irrefl X k HX x) as Hi. pose proof (disc_kind_disc X k HX) as Hk. unfold disc_kind in Hk.
    revert H Hk. case_eq k; intros Ek H Hk; try (rewrite Hk in Hd by auto; discriminate);
      unfold mem, singleton, construct, lt, le in *; cbn; auto.
Qed.
Lemma single_ne x : has_room X k x -> ne (singleton X k x).
Proof. intros H. apply single_in in H. unfold inr, Seg.ne in *. cord. Qed.

Lemma single_over (n : node) x : has_room X k x -> dynamic k = true \/ disc X = true -> over k (singleton X k x) n -> ne (nkey n) ->
  inr k (nkey n) (pt x) = true.
Proof.
  intros H Hd [O1 O2] Nn. pose proof (single_ne x H) as Ns.
  destruct (cut_gap X k HX (cmax X (lc (nkey n)) (lc (singleton X k x))) (cmin X (uc (nkey n)) (uc (singleton X k x)))) as (z & Z1 & Z2).
  - apply cmax_ok; apply lc_ok.
  - apply cmin_ok; apply uc_ok.
  - unfold cmax, cmin, Seg.ne in *. repeat ifg; cord.
  - assert (Ez : mem X k (singleton X k x) z).
    { apply inr_mem; auto. unfold inr, cmax, cmin in *. revert Z1 Z2. repeat ifg; intros; cord. }
    assert (z = x).
    { unfold has_room in H. destruct (disc X) eqn:Hdd.
      - apply singleton_spec in Ez; tauto.
      - assert (Hdk : dynamic k = true) by (destruct Hd; congruence).
        apply singleton_spec in Ez; auto; try congruence; unfold room_up, room_dn; revert Hdk; case_eq k; intros; auto; discriminate. }
    subst z. unfold inr, cmax, cmin in *. revert Z1 Z2. repeat ifg; intros; cord.
Qed.

Lemma Rb_out (L R : list node) a x : inr k a (pt x) = true -> below k L (lc a) -> above k R (uc a) ->
  Rb k L (pt x) = false /\ Rb k R (pt x) = false.
Proof.
  intros H BL AR. destruct (below_b X k HX L _ (pt x) BL) as (A1 & _). destruct (above_b X k HX R _ (pt x) AR) as (A2 & _).
  unfold inr in H. split; [apply A1|apply A2]; clear A1 A2; cord.
Qed.

Theorem find_elem_at (t : tree) x : inv k t -> has_room X k x ->
  (exists L n R, find_elem X k t x = Ok (Some (nid n)) /\ nodes t = L ++ n :: R /\ inr k (nkey n) (pt x) = true) \/
  (find_elem X k t x = Ok None /\ Rb k (nodes t) (pt x) = false).
Proof.
  intros [W S] Hr. pose proof (single_in x Hr) as Hin. pose proof (single_ne x Hr) as Hne.
  destruct (decomp X k HX (singleton X k x) (nodes t) S Hne) as (L & M & R & E & BL & OM & AR).
  destruct (Rb_out L R _ x Hin BL AR) as [RL RR].
  assert (NS : nes k (nodes t)) by (apply srt_nes; auto).
  unfold nes in NS. rewrite Forall_forall in NS.
  unfold find_elem. rewrite !unit_trail_singleton.
  assert (G : dynamic k = true \/ disc X = true ->
     (exists L n R, tfind X k t (singleton X k x) = Ok (Some (nid n)) /\ nodes t = L ++ n :: R /\ inr k (nkey n) (pt x) = true) \/
     (tfind X k t (singleton X k x) = Ok None /\ Rb k (nodes t) (pt x) = false)).
  { intros Hd. destruct M as [|m M].
    - right. rewrite (tfind_none X k HX t L R) by auto. split; auto. rewrite E, Rb_app. cbn [app]. rewrite RL, RR. auto.
    - left. inversion OM; subst. exists L, m, (M ++ R). rewrite (tfind_some X k HX t L m (M ++ R)) by auto. conjs; auto.
      apply single_over; auto. apply NS. rewrite E, in_app_iff. cbn. auto. }
  destruct (disc X) eqn:Hd; [apply G; auto|].
  assert (Gro : k = RO ->
     (exists L n R, (first_collision <- lower_bound X k t (singleton X k x) ;;
           if iter_eqb first_collision (end_ t) then Ok first_collision
           else kc <- key t first_collision ;;
                Ok (if contains X k kc x then first_collision else end_ t)) = Ok (Some (nid n)) /\ nodes t = L ++ n :: R /\ inr k (nkey n) (pt x) = true) \/
     ((first_collision <- lower_bound X k t (singleton X k x) ;;
           if iter_eqb first_collision (end_ t) then Ok first_collision
           else kc <- key t first_collision ;;
                Ok (if contains X k kc x then first_collision else end_ t)) = Ok None /\ Rb k (nodes t) (pt x) = false)).
  { intros Ek. rewrite (lower_bound_at X k HX t L (M ++ R)); auto.
    2:{ apply (overl_MR X k HX); auto. rewrite E in S. apply (srt_app X k) in S. tauto. }
    cbn [bind]. destruct (M ++ R) as [|h r] eqn:EM.
    { right. cbn. split; auto. rewrite E, app_nil_r. auto. }
    cbn [Tree.hd_it]. change (iter_eqb (Some (nid h)) (end_ t)) with false. cbn match.
    rewrite (key_at X t L h r) by auto. cbn [bind].
    assert (Nh : ne (nkey h)) by (apply NS; rewrite E, in_app_iff; cbn; auto).
    rewrite contains_inr by auto. destruct (inr k (nkey h) (pt x)) eqn:Eh; [left; exists L, h, r; conjs; auto|].
    right. split; auto. rewrite E, Rb_app, RL. cbn [Rb orb]. rewrite Eh. cbn [orb].
    rewrite E in S. apply (srt_mid X k HX) in S. destruct S as (_ & _ & _ & _ & AB).
    destruct (above_b X k HX r _ (pt x) AB) as (A1 & _). apply A1.
    assert (Hlc : ceqb (lc (singleton X k x)) (pt x) = true).
    { subst k. unfold IntervalFacts.lc, singleton, construct, IntervalFacts.pt, left_closed, bounds_of, static_bounds, dynamic. cbn.
      unfold IntervalFacts.ceqb. cord_ X RO HX. }
    clear Ek.
    destruct M as [|m M].
    - cbn [app] in EM. rewrite EM in AR. rewrite above_cons in AR. unfold inr, Seg.ne in *. clear A1. cord.
    - cbn [app] in EM. inversion EM; subst h. inversion OM as [|? ? [O1 O2] _]; subst. unfold inr, Seg.ne in *. clear A1. cord. }
  assert (Glo : k = LO ->
     (exists L n R, (last_collision <- upper_bound X k t (singleton X k x) ;;
           last_collision <- (if negb (iter_eqb last_collision (begin_ t))
                              then decr_it t last_collision else Ok last_collision) ;;
           if iter_eqb last_collision (end_ t) then Ok last_collision
           else kc <- key t last_collision ;;
                Ok (if contains X k kc x then last_collision else end_ t)) = Ok (Some (nid n)) /\ nodes t = L ++ n :: R /\ inr k (nkey n) (pt x) = true) \/
     ((last_collision <- upper_bound X k t (singleton X k x) ;;
           last_collision <- (if negb (iter_eqb last_collision (begin_ t))
                              then decr_it t last_collision else Ok last_collision) ;;
           if iter_eqb last_collision (end_ t) then Ok last_collision
           else kc <- key t last_collision ;;
                Ok (if contains X k kc x then last_collision else end_ t)) = Ok None /\ Rb k (nodes t) (pt x) = false)).
  { intros Ek. rewrite (upper_bound_at X k HX t L M R) by auto. cbn [bind].
    replace (begin_ t) with (@Tree.hd_it X V ((L ++ M) ++ R)) by (rewrite begin_at, E, app_assoc; auto).
    assert (EQ : iter_eqb (Tree.hd_it R) (@Tree.hd_it X V ((L ++ M) ++ R)) = match L ++ M with [] => true | _ => false end).
    { rewrite <- (iter_eqb_hd X t [] (L ++ M) R W) by (cbn [app]; rewrite <- app_assoc; auto).
      destruct (Tree.hd_it R), (Tree.hd_it ((L ++ M) ++ R)); cbn; auto. apply Nat.eqb_sym. }
    rewrite EQ. clear EQ.
    destruct (L ++ M) as [|h0 r0] eqn:ELM.
    - apply app_eq_nil in ELM. destruct ELM; subst L M. cbn [negb bind app].
      right. destruct R as [|r R]; cbn [Tree.hd_it].
      + cbn. rewrite E. auto.
      + change (iter_eqb (Some (nid r)) (end_ t)) with false. cbn match.
        rewrite (key_at X t [] r R) by auto. cbn [bind].
        assert (Nr : ne (nkey r)) by (apply NS; rewrite E; cbn; auto).
        rewrite contains_inr by auto. cbn [Rb] in RR. apply orb_false_iff in RR. destruct RR as [RR1 RR2].
        rewrite RR1. split; auto. rewrite E. cbn [app Rb]. rewrite RR1, RR2. auto.
    - cbn [negb].
      destruct (exists_last (l := L ++ M)) as (Q & q & EQ). { rewrite ELM. discriminate. }
      assert (E' : nodes t = Q ++ q :: R) by (rewrite E, app_assoc, EQ; lst).
      rewrite (decr_hd X t Q q R) by auto. cbn [bind].
      change (iter_eqb (Some (nid q)) (end_ t)) with false. cbn match.
      rewrite (key_at X t Q q R) by auto. cbn [bind].
      assert (Nq : ne (nkey q)) by (apply NS; rewrite E', in_app_iff; cbn; auto).
      rewrite contains_inr by auto. destruct (inr k (nkey q) (pt x)) eqn:Eh; [left; exists Q, q, R; conjs; auto|].
      right. split; auto. rewrite E', Rb_app. cbn [Rb]. rewrite Eh, RR. cbn [orb]. rewrite orb_false_r.
      assert (S' := S). rewrite E' in S'. apply (srt_mid X k HX) in S'. destruct S' as (_ & _ & _ & BB & _).
      destruct (below_b X k HX Q _ (pt x) BB) as (A1 & _). apply A1. clear A1.
      assert (Hq : cltb (lc (nkey q)) (uc (singleton X k x)) = true).
      { assert (Hq : In q (L ++ M)) by (rewrite EQ, in_app_iff; cbn; auto).
        apply in_app_iff in Hq. destruct Hq as [Hq|Hq].
        - unfold below in BL. rewrite Forall_forall in BL. specialize (BL q Hq). unfold Seg.ne in *. cord.
        - rewrite Forall_forall in OM. destruct (OM q Hq). auto. }
      assert (Hq' : cltb (pt x) (lc (nkey q)) = false); [|auto].
      subst k. revert Hq. unfold IntervalFacts.lc, IntervalFacts.uc, singleton, construct, IntervalFacts.pt, left_closed, right_closed, bounds_of, static_bounds, dynamic. cbn.
      intros Hq. destruct (ltb (lo (nkey q)) x); auto. }
  pose proof (disc_kind_disc X k HX) as Hk. unfold disc_kind in Hk.
  destruct k eqn:Ek; auto; try (rewrite Hk in Hd by auto; discriminate).
Qed.

(* ------------------------------------------------------------ equality of sequences *)
Lemma eqb_keys (l : list node) (r : list node) : srt k l -> srt k r ->
  (keys_eqb X k (map nkey l) (map nkey r) = true <->
   Forall2 (fun a b => ceqb (lc (nkey a)) (lc (nkey b)) = true /\ ceqb (uc (nkey a)) (uc (nkey b)) = true) l r).
Proof.
  revert r. induction l as [|a l IH]; intros [|b r] Sl Sr; cbn [map keys_eqb]; try (split; [discriminate|intros H; inversion H]).
  - split; auto.
  - destruct Sl as (Na & _ & Sl), Sr as (Nb & _ & Sr).
    rewrite itv_eqb_cut by (apply (ne_iff X k HX) in Na, Nb; auto).
    rewrite !andb_true_iff, IH by auto. split.
    + intros [[H1 H2] H3]. constructor; auto.
    + intros H. inversion H; subst. tauto.
Qed.

End Query.

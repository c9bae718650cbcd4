(** join(object): proofs. *)
From Verif Require Export ContModel SetQuery4.

Section ContJoin.
Context (X : dom) (k : kind).
Context (HX : dom_ok X k).
Context {V : Type}.
Notation I := (itv (D X)).
Notation node := (node (D X) V).
Notation tree := (tree (D X) V).
Notation lc := (lc X k).
Notation uc := (uc X k).
Notation pt := (pt X).
Notation cltb := (cltb X).
Notation ceqb := (ceqb X).
Notation cut := (cut X).
Notation ne := (@ne X k).
Notation hd_it := (@hd_it X V).
Notation last_it := (@last_it X V).
Notation length := List.length.
Ltac cord := cord_ X k HX.
Ltac lst := rewrite <- ?app_assoc; cbn [app]; congruence || auto.
Context (coeq : V -> V -> bool) (Hco : forall v w, coeq v w = true <-> v = w).

Definition jn (a b : node) : bool := ceqb (uc (nkey a)) (lc (nkey b)) && coeq (nval a) (nval b).
Fixpoint chain (l : list node) : Prop :=
  match l with
  | n :: (m :: _) as l' => jn n m = true /\ chain l'
  | _ => True
  end.
Lemma chain_last m M q M0 : m :: M = M0 ++ [q] -> chain (m :: M) -> nval q = nval m.
Proof.
  revert m M0. induction M as [|m' M IH]; intros m M0 E C.
  - destruct M0 as [|? [|]]; cbn in E; inversion E; auto.
  - destruct M0 as [|x M0]; [discriminate|]. cbn in E. inversion E; subst x. destruct C as [J C].
    rewrite (IH m' M0 H1 C). unfold jn in J. apply andb_true_iff in J. destruct J as [_ J]. apply Hco in J. auto.
Qed.

Lemma chain_obs m M q M0 c : m :: M = M0 ++ [q] -> srt k (m :: M) -> chain (m :: M) ->
  vr k (m :: M) c = (if negb (cltb c (lc (nkey m))) && cltb c (uc (nkey q)) then Some (nval m) else None) /\
  vl k (m :: M) c = (if cltb (lc (nkey m)) c && negb (cltb (uc (nkey q)) c) then Some (nval m) else None).
Proof.
  revert m M0. induction M as [|m' M IH]; intros m M0 E S C.
  - destruct M0 as [|? [|]]; cbn in E; inversion E; auto.
  - destruct M0 as [|x M0]; [discriminate|]. cbn in E. inversion E; subst x. destruct C as [J C].
    destruct S as (Nm & F & S). destruct (IH m' M0 H1 S C) as [H2 H3]. clear IH.
    cbn [vr vl] in *. rewrite H2, H3. unfold jn in J. apply andb_true_iff in J. destruct J as [J1 J2]. apply Hco in J2. rewrite <- J2.
    assert (Q : cltb (uc (nkey q)) (uc (nkey m')) = false).
    { destruct (M_range X k HX (m' :: M) m' M M0 q S eq_refl H1) as [_ B]. unfold below in B. rewrite Forall_forall in B. apply B. cbn; auto. }
    pose proof S as (Nm' & _). unfold inr, inl, Seg.ne in *.
    split; repeat ifg; auto; exfalso; cord.
Qed.

Lemma jn_at t L p n R : inv k t -> nodes t = L ++ p :: n :: R ->
  joinable X k coeq t (Some (nid p)) (Some (nid n)) = Ok (jn p n).
Proof. intros. unfold jn. eapply joinable_at; eauto. Qed.

Lemma join_run_at (t : tree) : inv k t -> forall R fuel L m, nodes t = L ++ m :: R -> length R < fuel ->
  exists M R' M0 q, R = M ++ R' /\ m :: M = M0 ++ [q] /\ chain (m :: M) /\
    (forall r R'', R' = r :: R'' -> jn q r = false) /\
    join_run X k coeq fuel t (Some (nid m)) (hd_it R) = Ok (Some (nid q), hd_it R').
Proof.
  intros Hi. induction R as [|n R IH]; intros [|fuel] L m E Hf; try (cbn in Hf; lia); cbn [join_run].
  - exists [], [], [], m. cbn. conjs; auto. discriminate.
  - cbn [Tree.hd_it]. change (iter_eqb (Some (nid n)) (end_ t)) with false. cbn [negb].
    rewrite (jn_at t L m n R) by auto. cbn [bind]. destruct (jn m n) eqn:J.
    + rewrite (incr_at X t L m (n :: R)) by (auto; apply Hi). cbn [bind Tree.hd_it].
      rewrite (incr_at X t (L ++ [m]) n R) by (try apply Hi; lst). cbn [bind].
      destruct (IH fuel (L ++ [m]) n) as (M & R' & M0 & q & E1 & E2 & C & N & Hr). { lst. } { cbn in Hf. lia. }
      exists (n :: M), R', (m :: M0), q. conjs; auto; cbn [app]; try congruence. split; auto.
    + exists [], (n :: R), [], m. conjs; auto. { exact Logic.I. } intros r R'' [= <- _]. auto.
Qed.

Lemma joined_snoc (P : list node) a b : srt k (P ++ [a; b]) -> joined k coeq (P ++ [a]) -> jn a b = false -> joined k coeq (P ++ [a; b]).
Proof.
  intros S J N n m Hn Hm E.
  assert (G : forall p, In p (P ++ [a]) -> cltb (lc (nkey b)) (uc (nkey p)) = false).
  { intros p Hp. replace (P ++ [a; b]) with ((P ++ [a]) ++ [b]) in S by lst. apply srt_app in S. destruct S as (_ & _ & S). apply S; cbn; auto. }
  assert (NE : forall p, In p (P ++ [a; b]) -> ne (nkey p)). { apply srt_nes in S. unfold nes in S. rewrite Forall_forall in S. auto. }
  assert (Sp : forall p, In p (P ++ [a; b]) -> In p (P ++ [a]) \/ p = b).
  { intros p. rewrite !in_app_iff. cbn. intuition. }
  pose proof (NE n Hn) as Nn. pose proof (NE m Hm) as Nm. unfold Seg.ne in *.
  destruct (Sp n Hn) as [Hn'| ->], (Sp m Hm) as [Hm'| ->].
  - apply J; auto.
  - apply in_app_iff in Hn'. destruct Hn' as [Hn'|[<-|[]]].
    + exfalso. apply srt_app in S. destruct S as (_ & (Na & Fa & _) & S).
      pose proof (S n a Hn' (or_introl eq_refl)). inversion Fa; subst. unfold Seg.ne in *. cord.
    + unfold jn in N. rewrite E in N. auto.
  - exfalso. pose proof (G m Hm'). cord.
  - exfalso. cord.
Qed.

Lemma join_loop_at : forall fuel (t : tree) P n R, inv k t -> nodes t = P ++ n :: R -> joined k coeq (P ++ [n]) -> length R < fuel ->
  exists t', join_loop X k coeq fuel t (Some (nid n)) (hd_it R) = Ok t' /\ inv k t' /\ joined k coeq (nodes t') /\ obs k (nodes t') (nodes t).
Proof.
  induction fuel as [|fuel IH]; intros t P n R Hi E J Hf; [lia|]. cbn [join_loop].
  destruct R as [|r R]; cbn [Tree.hd_it].
  { change (iter_eqb None (end_ t)) with true. cbn [negb]. exists t. conjs; auto. { rewrite E. auto. } split; auto. }
  change (iter_eqb (Some (nid r)) (end_ t)) with false. cbn [negb].
  rewrite (jn_at t P n r R) by auto. cbn [bind].
  pose proof Hi as [W S].
  destruct (jn n r) eqn:Jn.
  - rewrite (incr_at X t P n (r :: R)) by auto. cbn [bind Tree.hd_it].
    rewrite (incr_at X t (P ++ [n]) r R) by (auto; lst). cbn [bind].
    destruct (join_run_at t Hi R (Datatypes.S (length (nodes t))) (P ++ [n]) r) as (M & R' & M0 & q & -> & E2 & C & Nq & ->).
    { lst. } { rewrite E, app_length. cbn. lia. }
    cbn [bind].
    assert (Eq : nodes t = (P ++ n :: M0) ++ q :: R').
    { rewrite E. change (r :: M ++ R') with ((r :: M) ++ R'). rewrite E2. lst. }
    rewrite (key_at X t (P ++ n :: M0) q R') by auto. cbn [bind].
    rewrite (key_at X t P n (r :: M ++ R')) by auto. cbn [bind].
    rewrite (set_key_at X t (P ++ n :: M0) q R') by auto. cbn [bind].
    set (h := Node (nid q) (hull X k (nkey q) (nkey n)) (nval q)).
    assert (W1 : wf (Tree ((P ++ n :: M0) ++ h :: R') (fresh t))).
    { eapply (wf_ids X). { apply (wf_nodes X t _ W Eq). } rewrite !ids_app, !ids_cons. auto. }
    assert (Ee : erase_range (Tree ((P ++ n :: M0) ++ h :: R') (fresh t)) (Some (nid n)) (Some (nid q)) = Ok (Tree (P ++ h :: R') (fresh t))).
    { change (Some (nid n)) with (hd_it ((n :: M0) ++ h :: R')). change (Some (nid q)) with (hd_it (h :: R')).
      rewrite (erase_range_at X (Tree ((P ++ n :: M0) ++ h :: R') (fresh t)) P (n :: M0) (h :: R')); auto. cbn [nodes]. lst. }
    rewrite Ee. cbn [bind].
    set (t1 := Tree (P ++ h :: R') (fresh t)).
    assert (W2 : wf t1). { apply (wf_drop X P (n :: M0) (h :: R')). rewrite <- app_assoc in W1. auto. }
    change (Some (nid q)) with (Some (nid h)). rewrite (incr_at X t1 P h R') by auto. cbn [bind].
    (* semantics *)
    assert (Ch : chain (n :: r :: M)) by (split; auto).
    assert (El : n :: r :: M = (n :: M0) ++ [q]) by (cbn; congruence).
    pose proof (chain_last _ _ _ _ El Ch) as Vq.
    assert (S' : srt k (P ++ (n :: r :: M) ++ R')) by (rewrite E in S; auto).
    pose proof S' as S3. rewrite srt_app in S3. destruct S3 as (SP & S3 & SPR). rewrite srt_app in S3. destruct S3 as (SM & SR & SMR).
    assert (In q (n :: r :: M)) by (rewrite El, in_app_iff; cbn; auto).
    assert (Nn : ne (nkey n)) by (apply SM).
    assert (Nqq : ne (nkey q)). { apply srt_nes in SM. unfold nes in SM. rewrite Forall_forall in SM. auto. }
    destruct (M_range X k HX (n :: r :: M) n (r :: M) (n :: M0) q SM eq_refl El) as [A B].
    assert (A1 : cltb (lc (nkey q)) (lc (nkey n)) = false). { unfold above in A. rewrite Forall_forall in A. auto. }
    assert (B1 : cltb (uc (nkey q)) (uc (nkey n)) = false). { unfold below in B. rewrite Forall_forall in B. apply B. cbn; auto. }
    assert (Lh : ceqb (lc (nkey h)) (lc (nkey n)) = true). { cbn [h nkey]. rewrite (hull_lc X k HX) by auto. unfold cmin. ifg; cord. }
    assert (Uh : ceqb (uc (nkey h)) (uc (nkey q)) = true). { cbn [h nkey]. rewrite (hull_uc X k HX) by auto. unfold cmax. ifg; cord. }
    assert (St1 : srt k (P ++ h :: R')).
    { apply (srt_mid X k HX). conjs; auto.
      - unfold Seg.ne in *. cord.
      - unfold below. apply Forall_forall. intros p Hp. pose proof (SPR p n Hp (or_introl eq_refl)). cord.
      - unfold above. apply Forall_forall. intros p Hp. pose proof (SMR q p H Hp). cord. }
    assert (O1 : obs k (P ++ h :: R') (nodes t)).
    { rewrite E. change (n :: r :: M ++ R') with ((n :: r :: M) ++ R').
      split; intros c; destruct (chain_obs n (r :: M) q (n :: M0) c El SM Ch) as [V1 V2].
      - rewrite !vr_app, V1. change (h :: R') with ([h] ++ R'). rewrite vr_app. f_equal. f_equal. cbn [vr]. cbn [h nval]. fold h. rewrite Vq. unfold inr.
        repeat ifg; auto; exfalso; cord.
      - rewrite !vl_app, V2. change (h :: R') with ([h] ++ R'). rewrite vl_app. f_equal. f_equal. cbn [vl]. cbn [h nval]. fold h. rewrite Vq. unfold inl.
        repeat ifg; auto; exfalso; cord. }
    assert (J1 : joined k coeq (P ++ [h])).
    { intros a b Ha Hb Hab. rewrite in_app_iff in Ha, Hb.
      assert (SPn : srt k (P ++ [n])). { change (P ++ (n :: r :: M) ++ R') with (P ++ [n] ++ (r :: M) ++ R') in S'. rewrite app_assoc in S'. apply srt_app in S'. tauto. }
      apply srt_app in SPn. destruct SPn as (_ & _ & SPn).
      destruct Ha as [Ha|[<-|[]]], Hb as [Hb|[<-|[]]].
      - apply J; auto; rewrite in_app_iff; auto.
      - cbn [h nval]. rewrite Vq. apply (J a n); auto; rewrite ?in_app_iff; cbn; auto. cord.
      - exfalso. pose proof (SPn b n Hb (or_introl eq_refl)).
        assert (ne (nkey b)). { apply srt_nes in SP. unfold nes in SP. rewrite Forall_forall in SP. auto. } unfold Seg.ne in *. cord.
      - exfalso. unfold Seg.ne in *. cord. }
    assert (It1 : inv k t1) by (split; auto).
    destruct R' as [|r' R'].
    + cbn [Tree.hd_it]. change (iter_eqb None (end_ t1)) with true. cbn [negb bind].
      destruct fuel as [|fuel]; [cbn in Hf; lia|]. cbn [join_loop].
      change (iter_eqb None (end_ t1)) with true. cbn [negb]. exists t1. conjs; auto.
    + cbn [Tree.hd_it]. change (iter_eqb (Some (nid r')) (end_ t1)) with false. cbn [negb].
      rewrite (incr_at X t1 (P ++ [h]) r' R') by (auto; cbn [t1 nodes]; lst). cbn [bind].
      destruct (IH t1 (P ++ [h]) r' R') as (t' & -> & I' & J' & O'); auto.
      * cbn [t1 nodes]. lst.
      * rewrite <- app_assoc. cbn [app]. apply joined_snoc; auto.
        -- change (h :: r' :: R') with ([h; r'] ++ R') in St1. rewrite app_assoc in St1. apply srt_app in St1. tauto.
        -- specialize (Nq r' R' eq_refl). unfold jn in *. cbn [h nval]. fold h.
           replace (ceqb (uc (nkey h)) (lc (nkey r'))) with (ceqb (uc (nkey q)) (lc (nkey r'))) by cord. auto.
      * cbn in Hf. rewrite app_length in Hf. cbn in Hf. lia.
      * exists t'. conjs; auto. eapply obs_trans; eauto.
  - rewrite (incr_at X t P n (r :: R)) by auto. cbn [bind Tree.hd_it].
    rewrite (incr_at X t (P ++ [n]) r R) by (auto; lst). cbn [bind].
    apply (IH t (P ++ [n]) r R); auto.
    + lst.
    + rewrite <- app_assoc. cbn [app]. apply joined_snoc; auto.
      rewrite E in S. change (n :: r :: R) with ([n; r] ++ R) in S. rewrite app_assoc in S. apply srt_app in S. tauto.
    + cbn in Hf. lia.
Qed.

Theorem join_at (t : tree) : inv k t ->
  exists t', join X k coeq t = Ok t' /\ inv k t' /\ joined k coeq (nodes t') /\ obs k (nodes t') (nodes t).
Proof.
  intros Hi. unfold join, begin_. destruct (nodes t) as [|n R] eqn:E; cbn [Tree.hd_it].
  - change (iter_eqb None (end_ t)) with true. cbn match. exists t. rewrite E. conjs; auto. { intros ? ? []. } split; auto.
  - change (iter_eqb (Some (nid n)) (end_ t)) with false. cbn match. rewrite (incr_at X t [] n R) by (auto; apply Hi). cbn [bind].
    rewrite <- E. apply (join_loop_at (Datatypes.S (length (nodes t))) t [] n R); auto.
    + cbn. intros a b [<-|[]] [<-|[]] Hab. exfalso. destruct Hi as [_ S]. rewrite E in S. destruct S as (Nn & _). unfold Seg.ne in *. cord.
    + rewrite E. cbn. lia.
Qed.
End ContJoin.

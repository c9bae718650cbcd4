(** The steps of the algorithms of interval maps as region updates (proofs). *)
From Verif Require Export Upd MapModel.

Section MapFacts.
Context (X : dom) (k : kind).
Context (HX : dom_ok X k).
Context (M : mtype).
Notation CC := (mt_co M).
Notation V := (C CC).
Context (Hco : forall v w : CC, cc_eq v w = true <-> v = w).
Notation I := (itv (D X)).
Notation node := (node (D X) V).
Notation tree := (tree (D X) V).
Notation lc := (lc X k).
Notation uc := (uc X k).
Notation cltb := (cltb X).
Notation ceqb := (ceqb X).
Notation cut := (cut X).
Notation ne := (@ne X k).
Notation hd_it := (@hd_it X V).
Notation last_it := (@last_it X V).
Ltac cord := cord_ X k HX.
Ltac lst := rewrite <- ?app_assoc; cbn [app]; congruence || auto.

Definition spl : bool := match mt_style M with MJoin => false | MSplit => true end.
Definition J (l : list node) : Prop :=
  match mt_style M with MJoin => joined k cc_eq l | MSplit => True end.
Definition minv (t : tree) : Prop := inv k t /\ J (nodes t).
Notation post := (post k spl).
Notation same := (same k spl).

Lemma J_incl l l' : (forall n, In n l' -> In n l) -> J l -> J l'.
Proof. unfold J. destruct (mt_style M); auto. intros A B. eapply (joined_incl X k); eauto. Qed.
Lemma J_nil : J [].
Proof. unfold J. destruct (mt_style M); auto. intros a b []. Qed.
Lemma J_app_l l r : J (l ++ r) -> J l.
Proof. apply J_incl. intros. apply in_app_iff. auto. Qed.
Lemma J_app_r l r : J (l ++ r) -> J r.
Proof. apply J_incl. intros. apply in_app_iff. auto. Qed.
Lemma J_tl n r : J (n :: r) -> J r.
Proof. apply J_incl. cbn. auto. Qed.
Lemma srt_in (l : list node) n : srt k l -> In n l -> ne (nkey n).
Proof. intros S Hn. apply srt_nes in S. unfold nes in S. rewrite Forall_forall in S. auto. Qed.
(** two joined lists with a gap in between *)
Lemma J_gap L R d e : srt k (L ++ R) -> J L -> J R -> below k L d -> above k R e -> cltb d e = true -> J (L ++ R).
Proof.
  unfold J. destruct (mt_style M); auto. intros S HL HR B A N a b Ha Hb Q.
  pose proof (srt_in _ a S Ha) as Na. pose proof (srt_in _ b S Hb) as Nb.
  apply in_app_iff in Ha, Hb. unfold below, above in *. rewrite Forall_forall in A, B. unfold Seg.ne in *.
  destruct Ha as [Ha|Ha], Hb as [Hb|Hb]; auto.
  - specialize (B a Ha). specialize (A b Hb). cord.
  - specialize (A a Ha). specialize (B b Hb). cord.
Qed.
Lemma J_one n : ne (nkey n) -> J [n].
Proof.
  unfold J. destruct (mt_style M); auto. intros N a b [<-|[]] [<-|[]] Q. unfold Seg.ne in N. cord.
Qed.
(** values do not matter for the shape of a key-preserving change *)
Lemma srt_chg L (n n' : node) R : ceqb (lc (nkey n')) (lc (nkey n)) = true -> ceqb (uc (nkey n')) (uc (nkey n)) = true ->
  srt k (L ++ n :: R) -> srt k (L ++ n' :: R).
Proof.
  intros A B S. apply (srt_mid X k HX) in S. apply (srt_mid X k HX). unfold Seg.ne in *.
  destruct S as (? & ? & ? & ? & ?). conjs; auto; try cord.
  - eapply (below_le X k HX); eauto. cord.
  - eapply (above_ge X k HX); eauto. cord.
Qed.
Lemma srt_del L (n : node) R : srt k (L ++ n :: R) -> srt k (L ++ R).
Proof.
  intros S. apply (srt_mid X k HX) in S. destruct S as (SL & SR & N & B & A).
  apply (srt_app X k). conjs; auto. intros a b Ha Hb.
  unfold below, above in *. rewrite Forall_forall in A, B. specialize (A b Hb). specialize (B a Ha). unfold Seg.ne in N. cord.
Qed.
Lemma inv_chg (t : tree) L n n' R : inv k t -> nodes t = L ++ n :: R -> nid n' = nid n ->
  ceqb (lc (nkey n')) (lc (nkey n)) = true -> ceqb (uc (nkey n')) (uc (nkey n)) = true ->
  inv k (Tree (L ++ n' :: R) (fresh t)).
Proof.
  intros [W S] E EI A B. split.
  - eapply (wf_ids X); [apply (wf_nodes X _ _ W E)|]. rewrite !ids_app, !ids_cons. congruence.
  - cbn. rewrite E in S. eapply srt_chg; eauto.
Qed.
Lemma inv_del (t : tree) L n R : inv k t -> nodes t = L ++ n :: R -> inv k (Tree (L ++ R) (fresh t)).
Proof.
  intros [W S] E. split.
  - eapply (wf_cons_drop X). apply (wf_nodes X _ _ W E).
  - cbn. rewrite E in S. eapply srt_del; eauto.
Qed.
Lemma inv_ins (t : tree) L R a v : inv k t -> nodes t = L ++ R -> ne a -> below k L (lc a) -> above k R (uc a) ->
  inv k (Tree (L ++ Node (fresh t) a v :: R) (S (fresh t))).
Proof.
  intros [W S] E Na B A. split.
  - apply wf_new. rewrite <- E. rewrite tree_eta. auto.
  - cbn. apply (srt_mid X k HX). cbn. rewrite E in S. apply (srt_app X k) in S. tauto.
Qed.
Lemma mcyc (t : tree) L n R : wf t -> nodes t = L ++ n :: R -> cyclic_prior t (Some (nid n)) = Ok (last_it L).
Proof. intros W E. apply (cyc_at X t L (n :: R) W E). Qed.
Definition itin (it : Tree.iter) (l : list node) : Prop := match it with None => True | Some i => In i (ids l) end.
Lemma itin_app_l it l r : itin it l -> itin it (l ++ r).
Proof. destruct it; cbn; auto. rewrite ids_app, in_app_iff. auto. Qed.
Lemma itin_last l : itin (last_it l) l.
Proof.
  destruct l as [|p l] using rev_ind; [exact Logic.I|]. rewrite last_it_app. cbn. rewrite ids_app, in_app_iff. cbn. auto.
Qed.
Lemma itin_isit (t : tree) it L R : nodes t = L ++ R -> itin it L -> isit t it.
Proof. unfold isit, itin. destruct it; auto. intros ->. rewrite ids_app, in_app_iff. auto. Qed.
Lemma isit_mid (t : tree) L n R : nodes t = L ++ n :: R -> isit t (Some (nid n)).
Proof. intros E. apply isit_in. rewrite E. apply in_app_iff. cbn. auto. Qed.
Lemma srt_below L (n : node) R : srt k (L ++ n :: R) -> below k L (lc (nkey n)).
Proof. intros S. apply (srt_mid X k HX) in S. tauto. Qed.
Lemma srt_above L (n : node) R : srt k (L ++ n :: R) -> above k R (uc (nkey n)).
Proof. intros S. apply (srt_mid X k HX) in S. tauto. Qed.
Lemma srt_ne L (n : node) R : srt k (L ++ n :: R) -> ne (nkey n).
Proof. intros S. apply (srt_mid X k HX) in S. tauto. Qed.
Lemma below_snoc L (n : node) R d : srt k (L ++ n :: R) -> cltb d (uc (nkey n)) = false -> below k (L ++ [n]) d.
Proof.
  intros S A. pose proof (srt_ne _ _ _ S) as N. unfold Seg.ne in N. rewrite below_app, below_cons. conjs; auto using below_nil.
  eapply (below_le X k HX); [eapply srt_below; eauto|cord].
Qed.

(* ------------------------------------------------------------ joining handlers *)
Definition jl (t : tree) it := match mt_style M with MJoin => join_left X k cc_eq t it | MSplit => Ok (t, it) end.
Definition jr (t : tree) it := match mt_style M with MJoin => join_right X k cc_eq t it | MSplit => Ok (t, it) end.
Definition jn (t : tree) it := match mt_style M with MJoin => join_neighbours X k cc_eq t it | MSplit => Ok (t, it) end.

Lemma ext_refl (n : node) : ext k n n.
Proof. unfold ext. conjs; auto; cord. Qed.
Lemma kp_join (L L' R R' : list node) n n' : ne (nkey n) ->
  (L' = L \/ exists p, L = L' ++ [p] /\ ceqb (uc (nkey p)) (lc (nkey n)) = true) ->
  (R' = R \/ exists s, R = s :: R' /\ ceqb (uc (nkey n)) (lc (nkey s)) = true /\ cc_eq (nval n) (nval s) = true) ->
  srt k (L ++ n :: R) -> kp k false (lc (nkey n)) (uc (nkey n)) (L ++ n :: R) (L' ++ n' :: R').
Proof.
  intros N HL HR S y Hy F. pose proof (srt_in _ y S Hy) as Ny. unfold far, Seg.ne in *. rewrite in_app_iff in *. cbn [In] in *.
  pose proof (srt_below _ _ _ S) as B. pose proof (srt_above _ _ _ S) as A. unfold below, above in *. rewrite Forall_forall in A, B.
  destruct Hy as [Hy|[<-|Hy]].
  - specialize (B y Hy). destruct HL as [->|(p & -> & Q)]; auto. apply in_app_iff in Hy. destruct Hy as [Hy|[<-|[]]]; auto.
    exfalso. destruct F; cord.
  - exfalso. destruct F; cord.
  - specialize (A y Hy). destruct HR as [->|(s & -> & Q & _)]; auto. destruct Hy as [<-|Hy]; auto. exfalso. destruct F; cord.
Qed.
Lemma jl_at (t : tree) L n R : inv k t -> nodes t = L ++ n :: R -> J L ->
  exists t' L' n', jl t (Some (nid n)) = Ok (t', Some (nid n')) /\
    nodes t' = L' ++ n' :: R /\ inv k t' /\ same (lc (nkey n)) (uc (nkey n)) (nodes t) (nodes t') /\
    J (L' ++ [n']) /\ ext k n n' /\ ceqb (uc (nkey n')) (uc (nkey n)) = true.
Proof.
  unfold jl, J, Upd.same, spl. destruct (mt_style M) eqn:ES; intros Hi E HJ.
  - destruct (join_left_at X k HX cc_eq Hco t L n R Hi E HJ) as (t' & L' & n' & A1 & A2 & A3 & A4 & A5 & A6 & A7 & A8 & A9).
    exists t', L', n'. conjs; auto; [discriminate|]. rewrite E, A2. pose proof Hi as [_ S]. rewrite E in S. apply kp_join; auto. eapply srt_ne; eauto.
  - exists t, L, n. conjs; auto; try apply (obs_refl X k); try apply ext_refl; try apply kp_refl; cord.
Qed.
Lemma jr_at (t : tree) L n R : inv k t -> nodes t = L ++ n :: R -> J (L ++ [n]) -> J R ->
  exists t' n' R', jr t (Some (nid n)) = Ok (t', Some (nid n')) /\
    nodes t' = L ++ n' :: R' /\ inv k t' /\ same (lc (nkey n)) (uc (nkey n)) (nodes t) (nodes t') /\
    J (nodes t') /\ ext k n n'.
Proof.
  unfold jr, J, Upd.same, spl. destruct (mt_style M) eqn:ES; intros Hi E HJ HR.
  - destruct (join_right_at X k HX cc_eq Hco t L n R Hi E HJ HR) as (t' & n' & R' & A1 & A2 & A3 & A4 & A5 & A6 & A7 & A8).
    exists t', n', R'. conjs; auto; [discriminate|]. rewrite E, A2. pose proof Hi as [_ S]. rewrite E in S. apply kp_join; auto. eapply srt_ne; eauto.
  - exists t, n, R. conjs; auto; try apply (obs_refl X k); try apply ext_refl; try apply kp_refl; cord.
Qed.
Lemma jr_noop (t : tree) L n R : inv k t -> nodes t = L ++ n :: R -> J (n :: R) -> jr t (Some (nid n)) = Ok (t, Some (nid n)).
Proof.
  unfold jr, J. destruct (mt_style M) eqn:ES; intros Hi E HJ; auto. pose proof Hi as [W S].
  unfold join_right, end_. cbn [iter_eqb].
  rewrite (incr_at X t L n R) by auto. cbn [bind].
  destruct R as [|s R]; [auto|]. cbn [Tree.hd_it iter_eqb].
  rewrite (joinable_at X k HX cc_eq t L n s R) by auto. cbn [bind].
  destruct (ceqb _ _) eqn:Q; [|auto]. rewrite (HJ n s); cbn; auto.
Qed.
Lemma jn_at (t : tree) L n R : inv k t -> nodes t = L ++ n :: R -> J L -> J R ->
  exists t' L' n' R', jn t (Some (nid n)) = Ok (t', Some (nid n')) /\
    nodes t' = L' ++ n' :: R' /\ inv k t' /\ same (lc (nkey n)) (uc (nkey n)) (nodes t) (nodes t') /\
    J (nodes t') /\ ext k n n' /\
    (R' = R \/ exists s, R = s :: R' /\ ceqb (uc (nkey n)) (lc (nkey s)) = true /\ cc_eq (nval n) (nval s) = true).
Proof.
  unfold jn, J, Upd.same, spl. destruct (mt_style M) eqn:ES; intros Hi E HJ HR.
  - destruct (join_neighbours_at X k HX cc_eq Hco t L n R Hi E HJ HR) as (t' & L' & n' & R' & A1 & A2 & A3 & A4 & A5 & A6 & A7 & A8 & A9).
    exists t', L', n', R'. conjs; auto; [discriminate|]. rewrite E, A2. pose proof Hi as [_ S]. rewrite E in S. apply kp_join; auto. eapply srt_ne; eauto.
  - exists t, L, n, R. conjs; auto; try apply (obs_refl X k); try apply ext_refl; try apply kp_refl; cord.
Qed.

(* the handlers in terms of these *)
Lemma hi_eq t it : m_handle_inserted X k M t it = jn t it.
Proof. unfold m_handle_inserted, jn. destruct (mt_style M); auto. Qed.
Lemma hlc_eq t it : m_handle_left_combined X k M t it =
  (v <- val t it ;; if is_absorbable M v then erase_it t it else ' (t, _) <- jl t it ;; Ok t).
Proof. unfold m_handle_left_combined, jl. destruct (mt_style M); auto. Qed.
Lemma hc_eq t it : m_handle_combined X k M t it =
  (v <- val t it ;; if is_absorbable M v then erase_it t it else ' (t, _) <- jn t it ;; Ok t).
Proof. unfold m_handle_combined, jn. destruct (mt_style M); auto. Qed.
Lemma hpc_eq t p it : m_handle_preceeded_combined X k M t p it =
  (v <- val t it ;; if is_absorbable M v then t <- erase_it t it ;; Ok (t, p) else jn t it).
Proof. unfold m_handle_preceeded_combined, jn. destruct (mt_style M); auto. Qed.
Lemma hsc_eq t it nx : m_handle_succeeded_combined X k M t it nx =
  (v <- val t it ;;
   if is_absorbable M v then t <- erase_it t it ;; ' (t, _) <- jr t nx ;; Ok t
   else ' (t, _) <- jl t it ;; ' (t, _) <- jn t nx ;; Ok t).
Proof. unfold m_handle_succeeded_combined, jl, jn, jr. destruct (mt_style M); auto. Qed.
Lemma hr_eq t it : m_handle_reinserted X k M t it = (' (t, _) <- jr t it ;; Ok t).
Proof. unfold m_handle_reinserted, jr. destruct (mt_style M); auto. Qed.
Lemma gia_eq f t it p a x : m_gap_insert_at X k M f t it p a x =
  (v <- val t it ;;
   if is_absorbable M v then t <- erase_it t it ;; ' (t, it) <- gap_insert X k M f t p a x ;; jr t it
   else ' (t, it) <- jl t it ;; ' (t, i) <- gap_insert X k M f t it a x ;; jn t i).
Proof.
  unfold m_gap_insert_at, jl, jn, jr. destruct (mt_style M) eqn:ES; auto.
  destruct (val t it) as [v|]; auto. cbn [bind]. destruct (is_absorbable M v).
  - destruct (erase_it t it) as [t0|]; auto.
  - destruct (gap_insert X k M f t it a x) as [[]|]; auto.
Qed.

(* ------------------------------------------------------------ the effects on a value *)
Definition absorb (v : V) : option V := if is_absorbable M v then None else Some v.
(** add: a missing value becomes version(x), a present value is combined with x *)
Definition gadd (f : functor) (x : V) (o : option V) : option V :=
  match o with None => Some (version CC f x) | Some v => absorb (combine CC f v x) end.
Definition gsub (f : functor) (x : V) (o : option V) : option V :=
  match o with None => None | Some v => absorb (combine CC f v x) end.
Definition gins (x : V) (o : option V) : option V := match o with None => Some x | Some v => Some v end.

(* ------------------------------------------------------------ combining one node *)
Lemma combine_at_at f (t : tree) L n R x : wf t -> nodes t = L ++ n :: R ->
  combine_at X M f t (Some (nid n)) x = Ok (Tree (L ++ Node (nid n) (nkey n) (combine CC f (nval n) x) :: R) (fresh t)).
Proof.
  intros W E. unfold combine_at. rewrite (val_at X t L n R) by auto. cbn [bind]. rewrite (set_val_at X t L n R) by auto. auto.
Qed.
(** the value at node [q] is changed by [g]; the code distinguishes the absorbed case *)
Lemma post_val g L (n : node) R v (t' : list node) : srt k (L ++ n :: R) -> g (Some (nval n)) = absorb v ->
  (is_absorbable M v = true -> t' = L ++ R) ->
  (is_absorbable M v = false -> same (lc (nkey n)) (uc (nkey n)) (L ++ Node (nid n) (nkey n) v :: R) t') ->
  post (lc (nkey n)) (uc (nkey n)) g (L ++ n :: R) t'.
Proof.
  intros S G A B. unfold absorb in G. destruct (is_absorbable M v) eqn:Ev.
  - rewrite A by auto. apply (post_erase X k HX); auto.
  - eapply post_same; [|apply B; auto]. apply (post_node X k HX); auto.
Qed.

Lemma seg_at g f (t : tree) L q R x : inv k t -> nodes t = L ++ q :: R -> J L ->
  g (Some (nval q)) = absorb (combine CC f (nval q) x) ->
  exists t' L',
    (t <- combine_at X M f t (Some (nid q)) x ;;
     next_ <- incr_it t (Some (nid q)) ;;
     t <- m_handle_left_combined X k M t (Some (nid q)) ;; Ok (t, next_)) = Ok (t', hd_it R) /\
    inv k t' /\ nodes t' = L' ++ R /\ J L' /\ below k L' (uc (nkey q)) /\
    post (lc (nkey q)) (uc (nkey q)) g (nodes t) (nodes t').
Proof.
  intros Hi E HJ G. pose proof Hi as [W S].
  rewrite (combine_at_at f t L q R) by auto. cbn [bind].
  set (v := combine CC f (nval q) x) in *. set (q1 := Node (nid q) (nkey q) v). set (t1 := Tree _ _).
  assert (I1 : inv k t1) by (apply (inv_chg t L q q1 R); auto; cbn; cord). pose proof I1 as [W1 S1].
  change (Some (nid q)) with (Some (nid q1)).
  rewrite (incr_at X t1 L q1 R) by auto. cbn [bind].
  rewrite hlc_eq. rewrite (val_at X t1 L q1 R) by auto. cbn [bind nval q1].
  rewrite E in S. pose proof (srt_ne _ _ _ S) as N. unfold Seg.ne in N.
  destruct (is_absorbable M v) eqn:Ev.
  - change (Some (nid q)) with (Some (nid q1)). rewrite (erase_at X t1 L q1 R) by auto. cbn [bind].
    eexists _, L. split; [reflexivity|]. split; [apply (inv_del t1 L q1 R); auto|]. conjs; auto.
    + eapply (below_le X k HX); [eapply srt_below; eauto|cord].
    + rewrite E. apply (post_val g L q R v); auto. congruence.
  - destruct (jl_at t1 L q1 R I1 eq_refl HJ) as (t2 & L2 & q2 & EQ & E2 & I2 & S2 & J2 & X2 & U2).
    change (Some (nid q)) with (Some (nid q1)). rewrite EQ. cbn [bind].
    exists t2, (L2 ++ [q2]). conjs; auto.
    + lst.
    + destruct I2 as [_ I2]. rewrite E2 in I2. eapply below_snoc; eauto. cbn in U2. cord.
    + rewrite E. apply (post_val g L q R v); auto. congruence.
Qed.

(* ------------------------------------------------------------ filling a gap *)
Lemma gap_insert_at f (t : tree) L R a x h : inv k t -> nodes t = L ++ R -> ne a -> below k L (lc a) -> above k R (uc a) ->
  is_absorbable M x = false -> isit t h ->
  gap_insert X k M f t h a x =
    Ok (Tree (L ++ Node (fresh t) a (version CC f x) :: R) (S (fresh t)), Some (fresh t)).
Proof.
  intros [W S] E N B A Ex Hh. unfold gap_insert.
  rewrite (tfind_none X k HX t L R) by auto. cbn. rewrite Ex. cbn.
  apply (insert_hint_new X k HX t L R); auto.
Qed.

(** a later interval does not touch an earlier one, provided something lies behind it *)
Lemma touches_rev a b c : ne a -> ne b -> ne c -> cltb (lc b) (uc a) = false -> cltb (lc c) (uc b) = false ->
  touches X k b a = false.
Proof.
  intros Na Nb Nc H1 H2. rewrite (touches_cut X k HX).
  - unfold Seg.ne in *. cord.
  - apply nonempty_edge; auto. apply ne_e; auto.
  - apply nonempty_edge; auto. apply ne_e; auto.
  - destruct (nonempty_point X k HX c) as (y & Hy); [apply ne_e; auto|].
    apply (mem_cut X k HX) in Hy. destruct Hy as [Hy1 Hy2]. unfold room_above.
    assert (cltb (uc b) (y, true) = true).
    { assert (cltb (pt X y) (y, true) = true).
      { unfold IntervalFacts.cltb, IntervalFacts.pt; cbn. apply negb_true_iff. apply (ltb_swo X k HX). }
      unfold Seg.ne in *. cord. }
    case_eq k; intros Ek; auto; exists y; rewrite <- Ek; auto.
Qed.

Lemma lead_at g f (t : tree) L q R a x prior_ : inv k t -> nodes t = L ++ q :: R -> J L -> ne a -> below k L (lc a) ->
  cltb (lc (nkey q)) (uc a) = false -> is_absorbable M x = false -> g None = Some (version CC f x) ->
  (prior_ = last_it L \/ (L = [] /\ prior_ = Some (nid q) /\ R <> [])) ->
  exists t' L',
    (' (t, inserted_) <- gap_insert X k M f t prior_ a x ;; m_handle_inserted2 X k M t prior_ inserted_) = Ok t' /\
    inv k t' /\ nodes t' = L' ++ q :: R /\ J L' /\ below k L' (uc a) /\ itin (last_it L) L' /\
    post (lc a) (uc a) g (nodes t) (nodes t').
Proof.
  intros Hi E HJ Na B U Ex G HP. pose proof Hi as [W S]. pose proof S as S'. rewrite E in S'.
  pose proof (srt_ne _ _ _ S') as Nq. pose proof Na as Na'. unfold Seg.ne in Nq, Na'.
  assert (A : above k (q :: R) (uc a)).
  { rewrite above_cons. split; auto. eapply (above_ge X k HX); [eapply srt_above; eauto|cord]. }
  assert (Hh : isit t prior_).
  { destruct HP as [->|(-> & -> & _)]; [eapply isit_last; eauto|eapply isit_mid; eauto]. }
  rewrite (gap_insert_at f t L (q :: R)) by auto. cbn [bind].
  set (n := Node (fresh t) a (version CC f x)). set (t1 := Tree _ _).
  assert (I1 : inv k t1) by (apply inv_ins; auto). pose proof I1 as [W1 S1]. cbn [t1 nodes] in S1.
  assert (P1 : post (lc a) (uc a) g (nodes t) (nodes t1)).
  { rewrite E. unfold t1. cbn [nodes]. change a with (nkey n). apply (post_gap X k HX); auto. }
  assert (D : J (L ++ [n]) -> m_handle_inserted2 X k M t1 prior_ (Some (nid n)) = Ok t1 ->
    exists t' L', m_handle_inserted2 X k M t1 prior_ (Some (nid n)) = Ok t' /\
    inv k t' /\ nodes t' = L' ++ q :: R /\ J L' /\ below k L' (uc a) /\ itin (last_it L) L' /\
    post (lc a) (uc a) g (nodes t) (nodes t')).
  { intros DJ ->. exists t1, (L ++ [n]). conjs; auto.
    - unfold t1. cbn [nodes]. lst.
    - eapply below_snoc; eauto. cbn. cord.
    - apply itin_app_l, itin_last. }
  change (Some (fresh t)) with (Some (nid n)).
  unfold m_handle_inserted2 in *. unfold J, spl in *. destruct (mt_style M) eqn:ES; [|auto].
  destruct L as [|p L] using rev_ind.
  - (* nothing to the left: no join *)
    assert (DJ : joined k cc_eq ([] ++ [n])).
    { pose proof (J_one n Na) as Q. unfold J in Q. rewrite ES in Q. auto. }
    destruct HP as [->|(_ & -> & NR)]; [apply D; auto|].
    apply D; auto. unfold end_. cbn [iter_eqb negb]. unfold joinable.
    destruct R as [|r R]; [congruence|].
    rewrite (deref_at X t1 [n] q (r :: R)) by auto. cbn [bind].
    rewrite (deref_at X t1 [] n (q :: r :: R)) by auto. cbn [bind].
    rewrite (touches_rev (nkey n) (nkey q) (nkey r)); auto.
    + apply (srt_ne ([n; q]) r R). auto.
    + pose proof (srt_above _ _ _ S') as Q. rewrite above_cons in Q. tauto.
  - clear IHL. destruct HP as [->|(Q & _)]; [|destruct L; discriminate].
    rewrite last_it_app in *. unfold end_ in *. cbn [iter_eqb negb] in *.
    assert (E1 : nodes t1 = L ++ p :: n :: q :: R) by (unfold t1; cbn [nodes]; lst).
    rewrite (joinable_at X k HX cc_eq t1 L p n (q :: R)) in * by auto. cbn [bind] in *.
    destruct (_ && _) eqn:EJ.
    + apply andb_true_iff in EJ. destruct EJ as [EJ EC].
      destruct (join_on_at X k HX cc_eq t1 L p n (q :: R) I1 E1 EJ EC) as (_ & H & W').
      rewrite H. cbn [bind]. clear D.
      set (h := Node (nid p) (hull X k (nkey p) (nkey n)) (nval p)) in *.
      destruct (glue_obs X k HX L p n (q :: R) h) as (Q1 & Q2 & Sh & Oh); auto. { rewrite <- E1. apply I1. } { apply Hco; auto. }
      eexists _, (L ++ [h]). split; [reflexivity|]. cbn [nodes]. conjs; auto.
      * split; auto.
      * lst.
      * (* joined: h ends where n ends, begins where p begins *)
        intros y z Hy Hz Q. apply in_app_iff in Hy, Hz.
        pose proof (srt_below _ _ _ Sh) as Bh. unfold below in Bh. rewrite Forall_forall in Bh.
        pose proof (srt_ne _ _ _ Sh) as Nh. unfold Seg.ne in Nh.
        destruct Hy as [Hy|[<-|[]]], Hz as [Hz|[<-|[]]].
        -- apply HJ; auto; apply in_app_iff; auto.
        -- change (nval h) with (nval p). apply HJ; auto; try (apply in_app_iff; cbn; auto). cord.
        -- pose proof (srt_in _ z Sh) as Nz. rewrite in_app_iff in Nz. specialize (Nz (or_introl Hz)).
           specialize (Bh z Hz). unfold Seg.ne in Nz. cord.
        -- cord.
      * eapply below_snoc; eauto. change (nkey n) with a in Q2. cord.
      * cbn. rewrite ids_app, in_app_iff. cbn. auto.
      * eapply post_obs_r; [exact P1| |]; rewrite E1; auto.
        assert (S0 : srt k ((L ++ [p]) ++ n :: q :: R)) by (rewrite <- app_assoc; cbn [app]; rewrite <- E1; apply I1).
        pose proof (kp_join (L ++ [p]) L (q :: R) (q :: R) n h) as KP. rewrite <- app_assoc in KP. cbn [app] in KP. change (nkey n) with a in KP. apply KP; auto.
        right. exists p. auto.
        rewrite <- E1. apply I1.
    + apply D; auto.
      intros y z Hy Hz Q. rewrite <- app_assoc in Hy, Hz. cbn [app] in Hy, Hz.
      rewrite E1 in S1 || idtac.
      assert (S2 : srt k (L ++ p :: n :: q :: R)) by (rewrite <- E1; apply I1).
      assert (HJ' := HJ y z).
      pose proof (srt_below _ _ _ S2) as Bp. unfold below in Bp. rewrite Forall_forall in Bp.
      pose proof (srt_ne _ _ _ S2) as Np. unfold Seg.ne in Np.
      assert (Ny : ne (nkey y)). { apply (srt_in _ y S2). rewrite !in_app_iff in *. cbn in *. intuition. }
      assert (Nz : ne (nkey z)). { apply (srt_in _ z S2). rewrite !in_app_iff in *. cbn in *. intuition. }
      unfold Seg.ne in Ny, Nz.
      assert (Bn : forall w, In w (L ++ [p]) -> cltb (lc a) (uc (nkey w)) = false).
      { unfold below in B. rewrite Forall_forall in B. auto. }
      apply in_app_iff in Hy, Hz. cbn [In] in Hy, Hz.
      assert (Hin : forall w, In w L \/ p = w \/ n = w \/ False -> In w (L ++ [p]) \/ n = w).
      { intros w [?|[?|[?|[]]]]; auto; left; apply in_app_iff; cbn; auto. }
      pose proof (Hin _ Hy) as [Py|<-]; pose proof (Hin _ Hz) as [Pz|<-]; auto.
      * (* y before, z = n *)
        destruct Hy as [Hy|[<-|[<-|[]]]].
        -- specialize (Bp y Hy). pose proof (Bn p) as Bn'. rewrite in_app_iff in Bn'. cbn in Bn'.
           specialize (Bn' (or_intror (or_introl eq_refl))). cbn [nkey n] in Q. cord.
        -- rewrite Q in EJ. auto.
        -- cbn [nkey n] in *. cord.
      * specialize (Bn z Pz). cbn [nkey n] in Q. cord.
      * cbn [nkey n] in Q. cord.
Qed.

End MapFacts.

(** Operators applied to one container twice (proofs). *)
From Verif Require Import AliasModel MapSpec MapReach MapThms MapThms2 MapThms3 MapThms4 SetSpec SetThms SetProps SetOps SetFlip SetWhole MapFacts MapAdd MapSub MapWhole TreeFacts JoinFacts.
From Verif Require Import MapModel.
From Coq Require Import Sorted.

Section Own.
Context (X : dom) (k : kind) (HX : dom_ok X k).
Context {V : Type}.
Notation K := (D X).
Notation I := (itv K).
Notation tree := (tree K V).
Notation node := (node K V).
Notation lc := (lc X k).
Notation uc := (uc X k).
Notation cltb := (cltb X).
Notation ceqb := (ceqb X).
Notation ne := (@ne X k).
Notation hd_it := (@Tree.hd_it X V).
Ltac cord := cord_ X k HX.

Section At.
Context (t : tree) (L : list node) (n : node) (R : list node) (Hi : inv k t) (E : nodes t = L ++ n :: R).
Lemma own_srt : srt k (L ++ n :: R). Proof. rewrite <- E. apply Hi. Qed.
Lemma own_parts : ne (nkey n) /\ below k L (lc (nkey n)) /\ above k R (uc (nkey n)) /\ over k (nkey n) n.
Proof.
  pose proof own_srt as S. apply (srt_mid X k HX) in S. destruct S as (_ & _ & N & B & A). split; [exact N|]. split; [exact B|]. split; [exact A|].
  split; exact N.
Qed.
Lemma own_ne : ne (nkey n). Proof. apply own_parts. Qed.
Lemma own_rsub : is_empty X k (right_subtract X k (nkey n) (nkey n)) = true.
Proof. pose proof own_ne as N. apply (rsub_e X k HX); auto. cord. Qed.
Lemma own_lsub : is_empty X k (left_subtract X k (nkey n) (nkey n)) = true.
Proof. pose proof own_ne as N. apply (lsub_e X k HX); auto. cord. Qed.
Lemma own_range : equal_range X k t (nkey n) = Ok (Some (nid n), hd_it R).
Proof.
  destruct own_parts as (N & B & A & O). apply (SetWhole.equal_range_at X k HX t L [n] R); auto. apply Hi.
Qed.
Lemma own_insert h v : isit t h -> insert_hint X k t h (nkey n) v = Ok (t, Some (nid n)).
Proof. destruct own_parts as (N & B & A & O). intros Hh. apply (insert_hint_old X k HX t L n R); auto. apply Hi. Qed.
Lemma own_insert_plain v : insert X k t (nkey n) v = Ok (t, Some (nid n), false).
Proof. destruct own_parts as (N & B & A & O). apply (insert_old X k HX t L n R); auto. apply Hi. Qed.
Lemma own_lower : lower_bound X k t (nkey n) = Ok (Some (nid n)).
Proof. pose proof own_range as Q. unfold equal_range in Q. destruct (lower_bound X k t (nkey n)) as [a|]; cbn [bind] in Q; [|discriminate Q].
  destruct (upper_bound X k t (nkey n)); cbn [bind] in Q; [|discriminate Q]. injection Q as Q1 Q2. subst. reflexivity. Qed.
Lemma own_upper : upper_bound X k t (nkey n) = Ok (hd_it R).
Proof. pose proof own_range as Q. unfold equal_range in Q. destruct (lower_bound X k t (nkey n)) as [a|]; cbn [bind] in Q; [|discriminate Q].
  destruct (upper_bound X k t (nkey n)); cbn [bind] in Q; [|discriminate Q]. injection Q as Q1 Q2. subst. reflexivity. Qed.
Lemma own_past : iter_eqb (Some (nid n)) (hd_it R) = false.
Proof. apply (iter_eqb_hd X t L [n] R); auto. apply Hi. Qed.
Lemma own_decr : decr_it t (hd_it R) = Ok (Some (nid n)).
Proof.
  destruct Hi as [W S]. destruct R as [|m R'].
  - cbn [Tree.hd_it]. unfold decr_it. rewrite E. rewrite last_it_app. reflexivity.
  - cbn [Tree.hd_it]. apply (decr_at X t L n m R'); auto.
Qed.
Lemma own_last : cyclic_prior t (hd_it R) = Ok (Some (nid n)).
Proof. rewrite (cyc_at X t (L ++ [n]) R); [rewrite last_it_app; reflexivity|apply Hi|rewrite <- app_assoc; exact E]. Qed.
Lemma own_eq : itv_eqb X k (nkey n) (nkey n) = true.
Proof. pose proof own_ne as N. rewrite (itv_eqb_cut X k HX) by (rewrite (ne_e X k HX) by exact N; reflexivity). cord. Qed.
Lemma own_join (coeq : V -> V -> bool) :
  (forall L' p, L = L' ++ [p] -> ceqb (uc (nkey p)) (lc (nkey n)) = true -> coeq (nval p) (nval n) = false) ->
  (forall s R', R = s :: R' -> ceqb (uc (nkey n)) (lc (nkey s)) = true -> coeq (nval n) (nval s) = false) ->
  join_neighbours X k coeq t (Some (nid n)) = Ok (t, Some (nid n)).
Proof.
  intros H1 H2. pose proof Hi as [W S]. assert (Q : join_left X k coeq t (Some (nid n)) = Ok (t, Some (nid n))).
  { unfold join_left. destruct L as [|p L' _] eqn:EL using rev_ind.
    - unfold begin_. rewrite E. cbn [app Tree.hd_it]. rewrite iter_eqb_refl. reflexivity.
    - rewrite <- app_assoc in E. cbn [app] in E.
      destruct (iter_eqb (Some (nid n)) (begin_ t)) eqn:Q; [reflexivity|].
      rewrite (decr_at X t L' p n R) by auto. cbn [bind]. rewrite (joinable_at X k HX coeq t L' p n R) by auto. cbn [bind].
      destruct (ceqb (uc (nkey p)) (lc (nkey n))) eqn:C; [|reflexivity]. rewrite (H1 L' p); auto. }
  unfold join_neighbours. rewrite Q. cbn [bind]. unfold join_right, end_. cbn [iter_eqb]. rewrite (incr_at X t L n R) by auto. cbn [bind].
  destruct R as [|s R']; [reflexivity|]. cbn [Tree.hd_it iter_eqb]. rewrite (joinable_at X k HX coeq t L n s R') by auto. cbn [bind].
  destruct (ceqb (uc (nkey n)) (lc (nkey s))) eqn:C; [|reflexivity]. rewrite (H2 s R'); auto.
Qed.
Lemma joined_own (coeq : V -> V -> bool) : joined k coeq (nodes t) -> join_neighbours X k coeq t (Some (nid n)) = Ok (t, Some (nid n)).
Proof.
  intros HJ. apply own_join.
  - intros L' p -> C. apply HJ; auto; rewrite E; rewrite !in_app_iff; cbn; auto.
  - intros s R' -> C. apply HJ; auto; rewrite E; rewrite !in_app_iff; cbn; auto.
Qed.
End At.
Lemma self_range (t : tree) : inv k t -> nodes t <> [] -> common_range X k t t = Ok (Some (begin_ t, None)).
Proof.
  intros Hi Ht. destruct (common_range_at X k HX t t Hi Hi) as (L & M & R & r & E & Q & B1 & B2 & H).
  assert (N : forall n, In n (nodes t) -> cltb (lc (nkey n)) (uc (nkey n)) = true).
  { intros n Hn. pose proof (srt_nes X k _ (proj2 Hi)) as S. unfold nes in S. rewrite Forall_forall in S. exact (S n Hn). }
  destruct L as [|a L].
  2:{ specialize (B1 a a (or_introl eq_refl)). rewrite Q in B1 at 1. rewrite N in B1; [|rewrite Q; left; reflexivity]. discriminate B1. left. reflexivity. }
  destruct R as [|a R].
  2:{ assert (Ha : In a (nodes t)) by (rewrite Q; apply in_or_app; right; apply in_or_app; right; left; reflexivity).
      specialize (B2 a a Ha (or_introl eq_refl)). rewrite N in B2 by exact Ha. discriminate B2. }
  cbn [app] in Q. rewrite app_nil_r in Q. destruct H as [[_ H]|[H _]].
  - subst M. contradiction.
  - rewrite E, H. rewrite app_nil_r. unfold begin_. rewrite Q. reflexivity.
Qed.

Lemma inv_tail (t : tree) n R : inv k t -> nodes t = n :: R -> inv k (Tree R (fresh t)).
Proof.
  intros [W S] E. split.
  - apply (wf_cons_drop X [] n R). cbn [app]. apply (wf_nodes X _ _ W E).
  - cbn. rewrite E in S. apply S.
Qed.

(** the loops over one's own segments *)
Lemma self_for_same {S0} (step : tree -> S0 -> node -> res (tree * S0)) (Ps : S0 -> Prop) t L R fuel s :
  wf t -> nodes t = L ++ R -> length R < fuel -> Ps s ->
  (forall s n, In n (nodes t) -> Ps s -> exists s', step t s n = Ok (t, s') /\ Ps s') ->
  self_for X step fuel t s (hd_it R) = Ok t.
Proof.
  intros W E F Hs H. revert L s fuel E F Hs. induction R as [|n R IH]; intros L s fuel E F Hs; (destruct fuel as [|fuel]; [cbn in F; lia|]).
  - reflexivity.
  - cbn [self_for Tree.hd_it]. unfold end_. cbn [iter_eqb]. rewrite (deref_at X t L n R) by auto. cbn [bind].
    destruct (H s n) as (s' & Q & Hs'); [rewrite E; apply in_elt|exact Hs|]. rewrite Q. cbn [bind].
    rewrite (incr_at X t L n R) by auto. cbn [bind]. apply (IH (L ++ [n])).
    + rewrite <- app_assoc. exact E.
    + cbn in F. lia.
    + exact Hs'.
Qed.
Lemma self_while_drop (step : tree -> node -> res tree) R t fuel :
  inv k t -> nodes t = R -> length R < fuel ->
  (forall t n R, inv k t -> nodes t = n :: R -> exists t', step t n = Ok t' /\ inv k t' /\ nodes t' = R) ->
  exists t', self_while X step fuel t (hd_it R) None = Ok (t', None) /\ nodes t' = [].
Proof.
  revert t fuel. induction R as [|n R IH]; intros t fuel Hi E F H; (destruct fuel as [|fuel]; [cbn in F; lia|]).
  - exists t. split; [reflexivity|exact E].
  - cbn [self_while Tree.hd_it iter_eqb]. rewrite (deref_at X t [] n R) by (try apply Hi; auto). cbn [bind].
    rewrite (incr_at X t [] n R) by (try apply Hi; auto). cbn [bind]. destruct (H t n R Hi E) as (t1 & Q & Hi1 & E1). rewrite Q. cbn [bind].
    apply IH; auto. cbn in F. lia.
Qed.
End Own.

Section Sets.
Context (X : dom) (k : kind) (HX : dom_ok X k) (st : style).
Notation K := (D X).
Notation I := (itv K).
Notation tree := (tree K unit).
Notation node := (node K unit).
Notation lc := (lc X k).
Notation uc := (uc X k).
Notation cltb := (cltb X).
Notation ceqb := (ceqb X).
Notation hd_it := (@Tree.hd_it X unit).
Ltac cord := cord_ X k HX.

Lemma s_own_add (t : tree) L n R h : inv k t -> nodes t = L ++ n :: R -> (st = Joining -> joined k s_coeq (nodes t)) -> isit t h ->
  s_add_hint X k st t h (nkey n) = Ok (t, Some (nid n)).
Proof.
  intros Hi E HJ Hh. unfold s_add_hint. rewrite (ne_e X k HX) by (apply (own_ne X k HX t L n R); auto).
  rewrite (own_insert X k HX t L n R) by auto. cbn [bind]. rewrite (key_at X t L n R) by (try apply Hi; auto). cbn [bind].
  rewrite (own_eq X k HX t L n R) by auto. unfold s_handle_inserted. destruct st; auto.
  apply (joined_own X k HX t L n R); auto.
Qed.
Lemma s_own_subtract (t : tree) L n R a : inv k t -> nodes t = L ++ n :: R -> ceqb (lc a) (lc (nkey n)) = true -> ceqb (uc a) (uc (nkey n)) = true ->
  s_subtract X k t a = Ok (Tree (L ++ R) (fresh t)).
Proof.
  intros Hi E El Eu. destruct (own_parts X k HX t L n R Hi E) as (N & B & A & O). unfold ne in N.
  assert (Na : ne k a) by (unfold ne; cord).
  assert (Q : equal_range X k t a = Ok (Some (nid n), hd_it R)).
  { apply (SetWhole.equal_range_at X k HX t L [n] R); auto.
    - apply Hi.
    - unfold below in *. rewrite Forall_forall in *. intros m Hm. specialize (B m Hm). cord.
    - constructor; [|constructor]. split; cord.
    - unfold above in *. rewrite Forall_forall in *. intros m Hm. specialize (A m Hm). cord. }
  unfold s_subtract. rewrite (ne_e X k HX) by auto. rewrite Q. cbn [bind]. rewrite (own_past X k t L n R) by auto.
  rewrite (own_decr X k t L n R) by auto. cbn [bind negb]. rewrite (key_at X t L n R) by (try apply Hi; auto). cbn [bind].
  pose proof (erase_range_at X t L [n] R (proj1 Hi) E) as Er. cbn [app Tree.hd_it] in Er. unfold Tree.iter in *.
  rewrite Er. cbn [bind]. rewrite (rsub_e X k HX), (lsub_e X k HX) by (auto; cord). reflexivity.
Qed.
Lemma s_own_flip (t : tree) n R : inv k t -> nodes t = n :: R -> s_flip_seg X k st t (nkey n) = Ok (Tree R (fresh t)).
Proof.
  intros Hi E. pose proof (own_ne X k HX t [] n R Hi E) as N. unfold s_flip_seg. rewrite (own_range X k HX t [] n R) by auto. cbn [bind].
  cbn [s_flip_loop]. rewrite (own_past X k t [] n R) by auto. cbn [negb]. rewrite (key_at X t [] n R) by (try apply Hi; auto). cbn [bind].
  rewrite (incr_at X t [] n R) by (try apply Hi; auto). cbn [bind].
  rewrite (s_own_subtract t [] n R) by (auto; rewrite ?(inter_lc X k HX), ?(inter_uc X k HX) by auto; unfold cmax, cmin; repeat ifg; cord). cbn [bind app].
  assert (Z : forall t a, is_empty X k a = true -> s_add X k st t a = Ok (t, None)) by (intros ? ? H; unfold s_add; rewrite H; reflexivity).
  rewrite Z by (apply (rsub_e X k HX); unfold ne in N; auto; cord). cbn [bind].
  rewrite E. cbn [length s_flip_loop]. rewrite iter_eqb_refl. cbn [negb bind]. rewrite Z by (apply (lsub_e X k HX); unfold ne in N; auto; cord). reflexivity.
Qed.
Lemma thm_self_add t : reach X k st t -> s_self_add X k st t = Ok t.
Proof.
  intros R. pose proof (reach_sinv X k HX _ _ R) as [Hi HJ]. unfold s_self_add, begin_.
  apply (self_for_same X (fun t prior_ n => s_add_hint X k st t prior_ (nkey n)) (isit t) t [] (nodes t)); auto.
  - apply Hi.
  - exact Logic.I.
  - intros s n Hn Hs. apply in_split in Hn. destruct Hn as (L & R' & E). exists (Some (nid n)). split.
    + apply (s_own_add t L n R'); auto. destruct st; intros Q; try discriminate Q. exact HJ.
    + apply (isit_hd X t L (n :: R')). exact E.
Qed.
Lemma thm_self_subtract t : reach X k st t -> exists t', s_self_subtract X k t = Ok t' /\ nodes t' = [].
Proof.
  intros R. pose proof (reach_inv X k HX _ _ R) as Hi. unfold s_self_subtract. destruct (nodes t) as [|n l] eqn:E; [exists t; auto|].
  rewrite (self_range X k HX t) by (auto; rewrite E; discriminate). cbn [bind]. unfold begin_. rewrite <- E.
  destruct (self_while_drop X k (fun t n => s_subtract X k t (nkey n)) (nodes t) t (S (length (nodes t))) Hi eq_refl ltac:(lia)) as (t' & Q & Z).
  { intros t1 n1 R1 H1 E1. exists (Tree R1 (fresh t1)). split; [|split; auto].
    - apply (s_own_subtract t1 [] n1 R1); auto; cord.
    - apply (inv_tail X k t1 n1 R1); auto. }
  rewrite Q. cbn [bind]. exists t'. auto.
Qed.
Lemma thm_self_flip t : reach X k st t -> exists t', s_self_flip X k st t = Ok t' /\ nodes t' = [].
Proof.
  intros R. pose proof (reach_inv X k HX _ _ R) as Hi. unfold s_self_flip. destruct (nodes t) as [|n l] eqn:E; [exists t; auto|].
  rewrite (self_range X k HX t) by (auto; rewrite E; discriminate). cbn [bind]. unfold begin_. rewrite <- E.
  match goal with |- context [self_while X ?f ?fuel t ?a ?b] => replace (self_while X f fuel t a b) with (Ok (t, hd_it (nodes t))) end.
  2:{ cbn [self_while]. rewrite iter_eqb_refl. reflexivity. }
  cbn [bind].
  destruct (self_while_drop X k (fun t n => s_flip_seg X k st t (nkey n)) (nodes t) t (S (length (nodes t))) Hi eq_refl ltac:(lia)) as (t' & Q & Z).
  { intros t1 n1 R1 H1 E1. exists (Tree R1 (fresh t1)). split; [|split; auto].
    - apply s_own_flip; auto.
    - apply (inv_tail X k t1 n1 R1); auto. }
  rewrite Q. cbn [bind]. exists t'. split; auto.
Qed.
End Sets.

Section Maps.
Context (X : dom) (k : kind) (HX : dom_ok X k) (M : mtype).
Notation CC := (mt_co M).
Notation K := (D X).
Notation I := (itv K).
Notation V := (C CC).
Notation tree := (tree K V).
Notation node := (node K V).
Notation lc := (lc X k).
Notation uc := (uc X k).
Notation cltb := (cltb X).
Notation ceqb := (ceqb X).
Notation hd_it := (@Tree.hd_it X V).
Notation abs v := (is_absorbable M v).
Ltac cord := cord_ X k HX.

(** the own node, combined with its own value *)
Definition own_free (t : tree) (L : list node) (n : node) (R : list node) : Prop :=
  mt_style M = MJoin ->
  (forall L' q, L = L' ++ [q] -> ceqb (uc (nkey q)) (lc (nkey n)) = true -> cc_eq (nval q) (nval n) = false) /\
  (forall s R', R = s :: R' -> ceqb (uc (nkey n)) (lc (nkey s)) = true -> cc_eq (nval n) (nval s) = false).
Lemma own_jn (t : tree) L n R : inv k t -> nodes t = L ++ n :: R -> own_free t L n R -> jn X k M t (Some (nid n)) = Ok (t, Some (nid n)).
Proof.
  intros Hi E F. unfold jn. unfold own_free in F. destruct (mt_style M); [|reflexivity]. destruct F as [F1 F2]; [reflexivity|].
  apply (own_join X k HX t L n R); auto.
Qed.

Lemma ceq_refl c : ceqb c c = true. Proof. cord. Qed.
Section Step.
Context (f : functor) (t : tree) (L : list node) (n : node) (R : list node) (Hi : inv k t) (E : nodes t = L ++ n :: R) (Hv : abs (nval n) = false).
Let n2 := Node (nid n) (nkey n) (combine CC f (nval n) (nval n)).
Let t2 := Tree (L ++ n2 :: R) (fresh t).
Lemma own_inv : inv k t2.
Proof. pose proof (own_ne X k HX t L n R Hi E) as N. unfold ne in N. apply (inv_chg X k HX M t L n n2 R); auto; apply ceq_refl. Qed.
Definition own_out : res (tree * Tree.iter) :=
  if abs (nval n2) then Ok (Tree (L ++ R) (fresh t), @last_it X V L) else jn X k M t2 (Some (nid n)).
Lemma own_val : val t2 (Some (nid n)) = Ok (nval n2).
Proof. apply (val_at X t2 L n2 R); [apply own_inv|reflexivity]. Qed.
Lemma own_erase : erase_it t2 (Some (nid n)) = Ok (Tree (L ++ R) (fresh t)).
Proof. apply (erase_at X t2 L n2 R); [apply own_inv|reflexivity]. Qed.
Ltac rew H := match goal with |- bind ?e _ = _ => let Q := fresh in pose proof H as Q; match type of Q with _ = ?r => replace e with r by (symmetry; exact Q) end; clear Q; cbn [bind] end.
Lemma own_hpc : m_handle_preceeded_combined X k M t2 (@last_it X V L) (Some (nid n)) = own_out.
Proof.
  rewrite (hpc_eq X k M). rew own_val. unfold own_out. destruct (abs (nval n2)); [|reflexivity]. rew own_erase. reflexivity.
Qed.
Lemma own_add_over : m_add_over X k M f t (nkey n) (nval n) = own_out.
Proof.
  pose proof Hi as [W S]. unfold m_add_over. rewrite (own_lower X k HX t L n R) by auto. cbn [bind]. rewrite (own_upper X k HX t L n R) by auto. cbn [bind].
  rewrite (own_decr X k t L n R) by auto. cbn [bind]. unfold m_add_front. rewrite (key_at X t L n R) by auto. cbn [bind].
  rewrite (own_rsub X k HX t L n R) by auto. cbn [negb bind m_add_main]. rewrite iter_eqb_refl. cbn [negb bind].
  unfold m_add_rear. rew (cyc_at X t L (n :: R) W E).
  rewrite (key_at X t L n R) by auto. cbn [bind]. rewrite (own_rsub X k HX t L n R), (own_lsub X k HX t L n R) by auto. cbn [negb bind].
  rewrite (combine_at_at X M f t L n R) by auto. cbn [bind]. apply own_hpc.
Qed.
Lemma own_m_add : m_add_ X k M f t (nkey n) (nval n) = own_out.
Proof.
  unfold m_add_. rewrite (ne_e X k HX) by (apply (own_ne X k HX t L n R); auto). rewrite Hv.
  rewrite (own_insert_plain X k HX t L n R) by auto. cbn [bind]. apply own_add_over.
Qed.
Lemma own_m_add_hint h : isit t h -> abs (nval n2) = false -> m_add_hint_ X k M f t h (nkey n) (nval n) = own_out.
Proof.
  intros Hh A2. pose proof Hi as [W S]. unfold m_add_hint_. rewrite (ne_e X k HX) by (apply (own_ne X k HX t L n R); auto). rewrite Hv.
  unfold add_at. rewrite Hv. cbn [negb assert bind]. rewrite (own_insert X k HX t L n R) by auto. cbn [bind].
  rewrite (deref_at X t L n R) by auto. cbn [bind]. rewrite (own_eq X k HX t L n R) by auto. cbn [andb].
  destruct (cc_eq (nval n) cc_zero).
  - rewrite (combine_at_at X M f t L n R) by auto. cbn [bind]. rewrite (hi_eq X k M). unfold own_out. rewrite A2. reflexivity.
  - cbn [bind]. apply own_add_over.
Qed.
Lemma own_m_subtract : m_subtract_ X k M f t (nkey n) (nval n) = (' (t, _) <- own_out ;; Ok t).
Proof.
  pose proof Hi as [W S]. unfold m_subtract_. rewrite (ne_e X k HX) by (apply (own_ne X k HX t L n R); auto). rewrite Hv.
  rewrite (own_range X k HX t L n R) by auto. cbn [bind]. rewrite (own_past X k t L n R) by auto. rewrite (own_decr X k t L n R) by auto. cbn [bind].
  unfold m_add_front. rewrite (key_at X t L n R) by auto. cbn [bind].
  rewrite (own_rsub X k HX t L n R) by auto. cbn [negb bind m_subtract_main]. rewrite iter_eqb_refl. cbn [negb bind].
  unfold m_subtract_rear. rewrite (key_at X t L n R) by auto. cbn [bind]. rewrite (own_lsub X k HX t L n R) by auto.
  rewrite (combine_at_at X M f t L n R) by auto. cbn [bind]. rewrite (hc_eq X k M).
  fold n2. fold t2. rew own_val. unfold own_out. destruct (abs (nval n2)).
  - rewrite own_erase. reflexivity.
  - reflexivity.
Qed.
End Step.

(** the values of all segments are combined with themselves *)
Definition dbl (f : functor) (n : node) : node := Node (nid n) (nkey n) (combine CC f (nval n) (nval n)).
(** no segment changes its neighbours when it is combined with itself *)
Definition apart (f : functor) (N : list node) : Prop :=
  mt_style M = MJoin -> forall L n s R, N = L ++ n :: s :: R -> ceqb (uc (nkey n)) (lc (nkey s)) = true ->
    cc_eq (combine CC f (nval n) (nval n)) (nval s) = false /\
    cc_eq (combine CC f (nval n) (nval n)) (combine CC f (nval s) (nval s)) = false.
Definition lasting (f : functor) (N : list node) : Prop :=
  forall n, In n N -> abs (nval n) = false /\ abs (combine CC f (nval n) (nval n)) = false.

Lemma own_keep f (t : tree) L n R : inv k t -> nodes t = map (dbl f) L ++ n :: R -> apart f (L ++ n :: R) -> lasting f (L ++ n :: R) ->
  own_out f t (map (dbl f) L) n R = Ok (Tree (map (dbl f) L ++ dbl f n :: R) (fresh t), Some (nid n)).
Proof.
  intros Hi E A La. unfold own_out. destruct (La n) as [_ Q]; [rewrite in_app_iff; cbn; auto|]. cbn [nval]. rewrite Q.
  apply (own_jn _ (map (dbl f) L) (dbl f n) R).
  - apply (own_inv f t (map (dbl f) L) n R); auto.
  - reflexivity.
  - intros J. split.
    + intros L' q EL C. destruct L as [|q0 L0 _] using rev_ind; [destruct L'; discriminate EL|].
      rewrite map_app in EL. cbn [map] in EL. apply app_inj_tail in EL. destruct EL as [_ <-]. cbn [dbl nkey nval] in *.
      rewrite <- app_assoc in A. apply (A J L0 q0 n R eq_refl C).
    + intros s R' -> C. cbn [dbl nkey nval] in *. apply (A J L n s R' eq_refl C).
Qed.
Lemma self_for_map {S0} (f : functor) (step : tree -> S0 -> node -> res (tree * S0)) (Ps : tree -> S0 -> Prop) N :
  (forall t s L n R, inv k t -> nodes t = map (dbl f) L ++ n :: R -> N = L ++ n :: R -> Ps t s ->
     exists s', step t s n = Ok (Tree (map (dbl f) L ++ dbl f n :: R) (fresh t), s') /\ Ps (Tree (map (dbl f) L ++ dbl f n :: R) (fresh t)) s') ->
  forall R L t s fuel, inv k t -> nodes t = map (dbl f) L ++ R -> N = L ++ R -> Ps t s -> length R < fuel ->
  exists t', self_for X step fuel t s (hd_it R) = Ok t' /\ nodes t' = map (dbl f) N /\ inv k t'.
Proof.
  intros H. induction R as [|n R IH]; intros L t s fuel Hi E EN Hs F; (destruct fuel as [|fuel]; [cbn in F; lia|]).
  - exists t. split; [reflexivity|]. rewrite app_nil_r in *. subst L. auto.
  - cbn [self_for Tree.hd_it]. unfold end_. cbn [iter_eqb]. rewrite (deref_at X t (map (dbl f) L) n R) by (try apply Hi; auto). cbn [bind].
    destruct (H t s L n R Hi E EN Hs) as (s' & Q & Hs'). rewrite Q. cbn [bind].
    assert (Hi2 := own_inv f t (map (dbl f) L) n R Hi E). fold (dbl f n) in Hi2.
    match goal with |- context [incr_it ?u _] => set (t2 := u) in * end.
    change (Some (nid n)) with (Some (nid (dbl f n))).
    pose proof (incr_at X t2 (map (dbl f) L) (dbl f n) R (proj1 Hi2) eq_refl) as Q2. unfold Tree.iter in *. rewrite Q2. cbn [bind].
    apply (IH (L ++ [n])); auto.
    + unfold t2. cbn [nodes]. rewrite map_app, <- app_assoc. reflexivity.
    + rewrite <- app_assoc. exact EN.
    + cbn in F. lia.
Qed.
Lemma self_add_at (t : tree) : inv k t -> apart (codomain_combine M) (nodes t) -> lasting (codomain_combine M) (nodes t) ->
  exists t', m_self_add X k M t = Ok t' /\ nodes t' = map (dbl (codomain_combine M)) (nodes t) /\ inv k t'.
Proof.
  intros Hi A La. unfold m_self_add, begin_.
  apply (self_for_map (codomain_combine M) (fun t prior_ n => m_add_hint X k M t prior_ (nkey n) (nval n)) (fun t h => isit t h) (nodes t)) with (L := []); auto.
  - intros t1 h L n R Hi1 E1 EN Hh. rewrite EN in A, La. assert (Hn : In n (L ++ n :: R)) by (rewrite in_app_iff; cbn; auto).
    destruct (La n Hn) as [V1 V2]. exists (Some (nid n)). split.
    + unfold m_add_hint. rewrite (own_m_add_hint (codomain_combine M) t1 (map (dbl (codomain_combine M)) L) n R) by auto. apply own_keep; auto.
    + apply (isit_mid X M _ (map (dbl (codomain_combine M)) L) (dbl (codomain_combine M) n) R). reflexivity.
  - exact Logic.I.
Qed.
Notation icomb := (inverse_codomain_combine M).
Lemma self_subtract_at (t : tree) : inv k t -> apart icomb (nodes t) -> lasting icomb (nodes t) ->
  exists t', m_self_subtract X k M t = Ok t' /\ nodes t' = map (dbl icomb) (nodes t) /\ inv k t'.
Proof.
  intros Hi A La. unfold m_self_subtract, begin_.
  apply (self_for_map icomb (fun t s n => t <- m_subtract X k M t (nkey n) (nval n) ;; Ok (t, s)) (fun _ _ => True) (nodes t)) with (L := []); auto.
  intros t1 h L n R Hi1 E1 EN _. rewrite EN in A, La. assert (Hn : In n (L ++ n :: R)) by (rewrite in_app_iff; cbn; auto).
  destruct (La n Hn) as [V1 V2]. exists h. split; [|exact Logic.I]. unfold m_subtract. destruct (is_total_invertible M).
  - rewrite (own_m_add icomb t1 (map (dbl icomb) L) n R) by auto. rewrite own_keep by auto. reflexivity.
  - rewrite (own_m_subtract icomb t1 (map (dbl icomb) L) n R) by auto. rewrite own_keep by auto. reflexivity.
Qed.
Lemma split_at_in i (l : list node) q : split_at i l = Some q -> In i (ids l).
Proof.
  revert q. induction l as [|m l IH]; intros q; cbn [split_at]; [discriminate|]. rewrite ids_cons. destruct (Nat.eqb (nid m) i) eqn:Q.
  - intros _. left. apply Nat.eqb_eq. exact Q.
  - destruct (split_at i l) as [[[a b] c]|]; [|discriminate]. intros _. right. apply (IH _ eq_refl).
Qed.
Lemma self_subtract_dead (t : tree) n R : inv k t -> nodes t = n :: R -> abs (nval n) = false -> abs (combine CC icomb (nval n) (nval n)) = true ->
  m_self_subtract X k M t = Err Dangling.
Proof.
  intros Hi E V1 V2. unfold m_self_subtract, begin_. rewrite E. cbn [length Tree.hd_it self_for]. unfold end_. cbn [iter_eqb].
  rewrite (deref_at X t [] n R) by (try apply Hi; auto). cbn [bind].
  assert (Q : m_subtract X k M t (nkey n) (nval n) = Ok (Tree R (fresh t))).
  { unfold m_subtract. destruct (is_total_invertible M).
    - rewrite (own_m_add icomb t [] n R) by auto. unfold own_out. cbn [nval]. rewrite V2. reflexivity.
    - rewrite (own_m_subtract icomb t [] n R) by auto. unfold own_out. cbn [nval]. rewrite V2. reflexivity. }
  rewrite Q. cbn [bind]. unfold incr_it. cbn [nodes]. destruct (split_at (nid n) R) as [[[l m] r]|] eqn:S; [|reflexivity].
  exfalso. apply split_at_in in S. destruct Hi as [[W _] _]. rewrite E, ids_cons in W. apply NoDup_cons_iff in W. apply W. exact S.
Qed.
Lemma self_insert_at (t : tree) : minv X k M t -> m_self_insert X k M t = Ok t.
Proof.
  intros [Hi HJ]. unfold m_self_insert, begin_.
  apply (self_for_same X (fun t prior_ n => ' (t, _) <- m_insert_hint X k M t prior_ (nkey n) (nval n) ;; Ok (t, prior_)) (fun h => h = None) t [] (nodes t)); auto.
  - apply Hi.
  - intros s n Hn ->. apply in_split in Hn. destruct Hn as (L & R & E). exists None. split; [|reflexivity].
    unfold m_insert_hint. rewrite (ne_e X k HX) by (apply (own_ne X k HX t L n R); auto). destruct (abs (nval n)); [reflexivity|].
    unfold insert_at. rewrite (own_insert X k HX t L n R) by (auto; exact Logic.I). cbn [bind iter_eqb].
    rewrite (key_at X t L n R) by (try apply Hi; auto). cbn [bind]. rewrite (own_eq X k HX t L n R) by auto. cbn [bind].
    rewrite (hi_eq X k M). unfold jn, J in *. destruct (mt_style M); [|reflexivity].
    rewrite (joined_own X k HX t L n R) by auto. reflexivity.
Qed.
Lemma self_erase_at (t : tree) : inv k t -> (forall v : V, cc_eq v v = true) -> (forall n, In n (nodes t) -> abs (nval n) = false) ->
  exists t', m_self_erase X k M t = Ok t' /\ nodes t' = [].
Proof.
  intros Hi Heq Ha. unfold m_self_erase. destruct (nodes t) as [|n l] eqn:E; [exists t; auto|].
  rewrite (self_range X k HX t) by (auto; rewrite E; discriminate). cbn [bind]. unfold begin_. rewrite <- E in *. clear n l E.
  assert (G : forall R t fuel, inv k t -> nodes t = R -> (forall n, In n R -> abs (nval n) = false) -> length R < fuel ->
    exists t', self_while X (fun t n => m_erase_seg X k M t (nkey n) (nval n)) fuel t (hd_it R) None = Ok (t', None) /\ nodes t' = []).
  { clear - HX Heq. intros R. induction R as [|n R IH]; intros t fuel Hi E Ha F; (destruct fuel as [|fuel]; [cbn in F; lia|]).
    - exists t. auto.
    - cbn [self_while Tree.hd_it iter_eqb]. rewrite (deref_at X t [] n R) by (try apply Hi; auto). cbn [bind].
      pose proof (incr_at X t [] n R (proj1 Hi) E) as Q2. unfold Tree.iter in *. rewrite Q2. cbn [bind].
      assert (Q : m_erase_seg X k M t (nkey n) (nval n) = Ok (Tree R (fresh t))).
      { unfold m_erase_seg. rewrite (ne_e X k HX) by (apply (own_ne X k HX t [] n R); auto). rewrite Ha by (left; reflexivity).
        rewrite (own_range X k HX t [] n R) by auto. cbn [bind]. rewrite (own_past X k t [] n R) by auto.
        rewrite (own_last X k t [] n R) by auto. cbn [bind]. pose proof (incr_at X t [] n R (proj1 Hi) E) as Q3. unfold Tree.iter in *. rewrite Q3. cbn [bind].
        rewrite (deref_at X t [] n R) by (try apply Hi; auto). cbn [bind]. rewrite iter_eqb_refl, Heq.
        rewrite (own_rsub X k HX t [] n R), (own_lsub X k HX t [] n R) by auto. cbn [negb].
        apply (erase_at X t [] n R); auto. apply Hi. }
      rewrite Q. cbn [bind]. apply IH; auto.
      + apply (inv_tail X k t n R); auto.
      + intros m Hm. apply Ha. right. exact Hm.
      + cbn in F. lia. }
  destruct (G (nodes t) t (S (length (nodes t))) Hi eq_refl Ha ltac:(lia)) as (t' & Q & Z). rewrite Q. cbn [bind]. exists t'. auto.
Qed.

(** x ^= x on a partial absorber: every segment erases itself *)
Lemma one_add st a : ne k a -> s_add X k st t_empty a = Ok (Tree [Tree.Node 0 a tt] 1, Some 0).
Proof.
  intros N. unfold s_add. rewrite (ne_e X k HX) by auto.
  assert (Q : insert X k (@t_empty X unit) a tt = Ok (Tree [Tree.Node 0 a tt] 1, Some 0, true)).
  { reflexivity. }
  rewrite Q. cbn [bind]. unfold s_handle_inserted. destruct st; reflexivity.
Qed.
Lemma own_erase_itv (t : tree) n R a : inv k t -> nodes t = n :: R -> ceqb (lc a) (lc (nkey n)) = true -> ceqb (uc a) (uc (nkey n)) = true ->
  m_erase X k M t a = Ok (Tree R (fresh t)).
Proof.
  intros Hi E El Eu. destruct (own_parts X k HX t [] n R Hi E) as (N & B & A & O). unfold ne in N.
  assert (Na : ne k a) by (unfold ne; cord).
  assert (Q : equal_range X k t a = Ok (Some (nid n), hd_it R)).
  { apply (SetWhole.equal_range_at X k HX t [] [n] R); auto.
    - apply Hi.
    - constructor.
    - constructor; [|constructor]. split; cord.
    - unfold above in *. rewrite Forall_forall in *. intros m Hm. specialize (A m Hm). cord. }
  unfold m_erase. rewrite (ne_e X k HX) by auto. rewrite Q. cbn [bind]. rewrite (own_past X k t [] n R) by auto.
  rewrite (own_decr X k t [] n R) by auto. cbn [bind]. rewrite (deref_at X t [] n R) by (try apply Hi; auto). cbn [bind].
  rewrite (key_at X t [] n R) by (try apply Hi; auto). cbn [bind]. rewrite iter_eqb_refl.
  rewrite (rsub_e X k HX), (lsub_e X k HX) by (auto; cord). cbn [negb]. apply (erase_at X t [] n R); auto. apply Hi.
Qed.
Lemma one_erase (t : tree) n R a : inv k t -> nodes t = n :: R -> ceqb (lc a) (lc (nkey n)) = true -> ceqb (uc a) (uc (nkey n)) = true ->
  m_erase_set X k M t (Tree [Tree.Node 0 a tt] 1) = Ok (Tree R (fresh t)).
Proof.
  intros Hi E El Eu. pose proof (own_ne X k HX t [] n R Hi E) as N. unfold ne in N.
  assert (I1 : inv k (Tree [Tree.Node 0 a tt] 1)).
  { split; [|cbn; repeat split; auto; unfold ne; cord]. split; cbn; repeat constructor; cbn; tauto. }
  unfold m_erase_set. cbn [nodes].
  destruct (common_range_at X k HX (Tree [Tree.Node 0 a tt] 1) t I1 Hi) as (L & M0 & R0 & r & Ec & Q & B1 & B2 & H).
  cbn [nodes] in Q. destruct L as [|a1 L].
  2:{ exfalso. cbn [app] in Q. injection Q as Q1 Q2. specialize (B1 a1 n (or_introl eq_refl)). rewrite E in B1. specialize (B1 (or_introl eq_refl)). subst a1. cbn [nkey] in B1. cord. }
  destruct M0 as [|a1 M0].
  { exfalso. cbn [app] in Q. subst R0. specialize (B2 n (Tree.Node 0 a tt)). rewrite E in B2. specialize (B2 (or_introl eq_refl) (or_introl eq_refl)). cbn [nkey] in B2. cord. }
  cbn [app] in Q. injection Q as Q1 Q2. symmetry in Q2. apply app_eq_nil in Q2. destruct Q2 as [-> ->]. subst a1.
  destruct H as [[_ H]|[H _]]; [discriminate H|]. rewrite Ec, H. cbn [bind app Tree.hd_it]. unfold range. cbn.
  rewrite (own_erase_itv t n R a) by auto. reflexivity.
Qed.
Definition flip_own (v : V) : V := if cc_set_sem CC then combine CC (inverse_codomain_intersect M) v v else cc_zero.
Lemma own_flip (t : tree) n R : inv k t -> nodes t = n :: R -> mt_total M = false -> abs (flip_own (nval n)) = true ->
  m_flip_seg X k M t (nkey n) (nval n) = Ok (Tree R (fresh t)).
Proof.
  intros Hi E HT V2. pose proof (own_ne X k HX t [] n R Hi E) as N. unfold ne in N. unfold m_flip_seg. rewrite HT.
  rewrite (own_range X k HX t [] n R) by auto. cbn [bind]. cbn [m_flip_loop]. rewrite (own_past X k t [] n R) by auto. cbn [negb].
  rewrite (deref_at X t [] n R) by (try apply Hi; auto). cbn [bind]. rewrite (incr_at X t [] n R) by (try apply Hi; auto). cbn [bind].
  set (c := inter X k (nkey n) (nkey n)).
  assert (C1 : ceqb (lc c) (lc (nkey n)) = true) by (unfold c; rewrite (inter_lc X k HX) by auto; unfold cmax; repeat ifg; cord).
  assert (C2 : ceqb (uc c) (uc (nkey n)) = true) by (unfold c; rewrite (inter_uc X k HX) by auto; unfold cmin; repeat ifg; cord).
  assert (Nc : ne k c) by (unfold ne; cord). rewrite (ne_e X k HX c Nc). cbn [negb]. rewrite one_add by auto. cbn [bind].
  assert (Z : forall (u : tree) b v, abs v = true -> m_add X k M u b v = Ok u).
  { intros u b v H. unfold m_add, m_add_. rewrite H. destruct (is_empty X k b); reflexivity. }
  assert (Z2 : forall (u : tree) b v, is_empty X k b = true -> m_add X k M u b v = Ok u).
  { intros u b v H. unfold m_add, m_add_. rewrite H. reflexivity. }
  fold (flip_own (nval n)). rewrite Z by exact V2. cbn [bind]. rewrite Z2 by (apply (own_rsub X k HX t [] n R); auto). cbn [bind].
  rewrite E. cbn [length m_flip_loop]. rewrite iter_eqb_refl. cbn [negb bind]. rewrite Z2 by (apply (own_lsub X k HX t [] n R); auto). cbn [bind].
  rewrite (one_erase t n R c) by auto. cbn [bind]. reflexivity.
Qed.
Lemma self_flip_at (t : tree) : inv k t -> mt_total M = false -> (forall n, In n (nodes t) -> abs (flip_own (nval n)) = true) ->
  exists t', m_self_flip X k M t = Ok t' /\ nodes t' = [].
Proof.
  intros Hi HT Ha. unfold m_self_flip. rewrite HT. destruct (nodes t) as [|n l] eqn:E.
  { unfold common_range. rewrite E. cbn [bind]. unfold m_self_add, begin_. rewrite E. exists t. auto. }
  rewrite (self_range X k HX t) by (auto; rewrite E; discriminate). cbn [bind]. unfold begin_. rewrite <- E in *. clear n l E.
  match goal with |- context [self_while X ?f ?fuel t ?a ?b] => replace (self_while X f fuel t a b) with (Ok (t, hd_it (nodes t))) end.
  2:{ cbn [self_while]. rewrite iter_eqb_refl. reflexivity. }
  cbn [bind].
  assert (G : forall R t fuel, inv k t -> nodes t = R -> (forall n, In n R -> abs (flip_own (nval n)) = true) -> length R < fuel ->
    exists t', self_while X (fun t n => m_flip_seg X k M t (nkey n) (nval n)) fuel t (hd_it R) None = Ok (t', None) /\ nodes t' = []).
  { clear - HX HT. intros R. induction R as [|n R IH]; intros t fuel Hi E Ha F; (destruct fuel as [|fuel]; [cbn in F; lia|]).
    - exists t. auto.
    - cbn [self_while Tree.hd_it iter_eqb]. rewrite (deref_at X t [] n R) by (try apply Hi; auto). cbn [bind].
      pose proof (incr_at X t [] n R (proj1 Hi) E) as Q2. unfold Tree.iter in *. rewrite Q2. cbn [bind].
      rewrite (own_flip t n R) by (auto; apply Ha; left; reflexivity). cbn [bind]. apply IH; auto.
      + apply (inv_tail X k t n R); auto.
      + intros m Hm. apply Ha. right. exact Hm.
      + cbn in F. lia. }
  destruct (G (nodes t) t (S (length (nodes t))) Hi eq_refl Ha ltac:(lia)) as (t' & Q & Z). rewrite Q. cbn [bind]. exists t'. split; auto.
Qed.
End Maps.

(* ------------------------------------------------------------------ in terms of the specification *)
Section Top.
Context (X : dom) (k : kind) (HX : dom_ok X k) (CC : codomain) (Hco : eq_ok CC) (p : mpar).
Notation M := (mt CC p).
Notation V := (C CC).
Notation tree := (tree (D X) V).
Notation mreach := (mreach X k CC).
Notation segs := (segs X CC).
Notation at_ := (at_ X k CC).

Lemma segs_nil (t : tree) : nodes t = [] -> segs t = [].
Proof. unfold MapSpec.segs. intros ->. reflexivity. Qed.
Lemma at_map (t t' : tree) (g : V -> V) : segs t' = map (fun s => (fst s, g (snd s))) (segs t) -> forall x, at_ t' x = option_map g (at_ t x).
Proof.
  intros E x. unfold MapSpec.at_. rewrite E. clear E. induction (segs t) as [|[a v] l IH]; [reflexivity|]. cbn [map find fst snd].
  destruct (memb X k a x); [reflexivity|exact IH].
Qed.
Lemma nabs (t : tree) : mreach p t -> proper CC p -> forall n, In n (nodes t) -> is_absorbable M (nval n) = false.
Proof.
  intros R P n Hn. assert (S : srt k (nodes t)) by apply (mreach_minv X k HX CC Hco p t R).
  pose proof (proj1 (aok_nodes X k HX M (nodes t) S) (mreach_aok X k HX CC Hco p t R P)) as A.
  unfold is_absorbable. cbn [mt_absorbs mt mt_co] in *. destruct (mp_absorbs p); [|reflexivity]. cbn [andb].
  destruct (cc_eq (nval n) cc_zero) eqn:Q; [|reflexivity]. exfalso. apply (A eq_refl n Hn). apply Hco. exact Q.
Qed.
(** what must hold for the values of neighbouring segments *)
Lemma apart_of f (t : tree) : mreach p t ->
  (mp_style p = MJoin -> forall l a v b w r, segs t = l ++ (a, v) :: (b, w) :: r -> touches X k a b = true ->
     combine CC f v v <> w /\ combine CC f v v <> combine CC f w w) -> apart X k M f (nodes t).
Proof.
  intros R H J L n s R' E C. assert (Hi : inv k t) by apply (mreach_minv X k HX CC Hco p t R).
  destruct (H J (map (fun n => (nkey n, nval n)) L) (nkey n) (nval n) (nkey s) (nval s) (map (fun n => (nkey n, nval n)) R')) as [A B].
  - unfold MapSpec.segs. rewrite E, map_app. reflexivity.
  - pose proof (proj2 Hi) as S. rewrite E in S. apply (srt_mid X k HX) in S. destruct S as (_ & S & N & _ & Ab). cbn [srt] in S.
    rewrite (touches_ne X k HX); [exact C|exact N|apply S|]. apply above_cons in Ab. apply Ab.
  - split; (match goal with |- ?e = false => destruct e eqn:Q; [|reflexivity] end); apply Hco in Q; contradiction.
Qed.
Lemma lasting_of f (t : tree) : mreach p t -> proper CC p ->
  (forall a v, In (a, v) (segs t) -> absorbed CC p (combine CC f v v) = false) -> lasting X M f (nodes t).
Proof.
  intros R P H n Hn. split; [apply (nabs t R P n Hn)|]. apply (H (nkey n) (nval n)). unfold MapSpec.segs. apply in_map_iff. exists n. auto.
Qed.
Lemma segs_dbl f (t t' : tree) : nodes t' = map (dbl X M f) (nodes t) -> segs t' = map (fun s => (fst s, combine CC f (snd s) (snd s))) (segs t).
Proof. intros E. unfold MapSpec.segs. rewrite E, !map_map. reflexivity. Qed.

Lemma thm_mself_add (t : tree) : proper CC p -> mreach p t ->
  (forall a v, In (a, v) (segs t) -> absorbed CC p (combine CC (mp_combine p) v v) = false) ->
  (mp_style p = MJoin -> forall l a v b w r, segs t = l ++ (a, v) :: (b, w) :: r -> touches X k a b = true ->
     combine CC (mp_combine p) v v <> w /\ combine CC (mp_combine p) v v <> combine CC (mp_combine p) w w) ->
  exists t', m_self_add X k M t = Ok t' /\ segs t' = map (fun s => (fst s, combine CC (mp_combine p) (snd s) (snd s))) (segs t) /\
    forall x, at_ t' x = option_map (fun v => combine CC (mp_combine p) v v) (at_ t x).
Proof.
  intros P R Ha Hn. destruct (self_add_at X k HX M t) as (t' & E & S & _).
  - apply (mreach_minv X k HX CC Hco p t R).
  - apply apart_of; auto.
  - apply lasting_of; auto.
  - apply segs_dbl in S. exists t'. split; [exact E|]. split; [exact S|]. apply (at_map t t' (fun v => combine CC (mp_combine p) v v)). exact S.
Qed.
Lemma thm_mself_subtract (t : tree) : proper CC p -> mreach p t -> let inv := inverse CC (mp_combine p) in
  (forall a v, In (a, v) (segs t) -> absorbed CC p (combine CC inv v v) = false) ->
  (mp_style p = MJoin -> forall l a v b w r, segs t = l ++ (a, v) :: (b, w) :: r -> touches X k a b = true ->
     combine CC inv v v <> w /\ combine CC inv v v <> combine CC inv w w) ->
  exists t', m_self_subtract X k M t = Ok t' /\ segs t' = map (fun s => (fst s, combine CC inv (snd s) (snd s))) (segs t) /\
    forall x, at_ t' x = option_map (fun v => combine CC inv v v) (at_ t x).
Proof.
  intros P R iv Ha Hn. destruct (self_subtract_at X k HX M t) as (t' & E & S & _).
  - apply (mreach_minv X k HX CC Hco p t R).
  - apply apart_of; auto.
  - apply lasting_of; auto.
  - apply segs_dbl in S. exists t'. split; [exact E|]. split; [exact S|]. apply (at_map t t' (fun v => combine CC iv v v)). exact S.
Qed.
Lemma thm_mself_subtract_dead (t : tree) : proper CC p -> mreach p t -> mp_absorbs p = true ->
  (forall v : V, combine CC (inverse CC (mp_combine p)) v v = cc_zero) -> segs t <> [] -> m_self_subtract X k M t = Err Dangling.
Proof.
  intros P R A Z Ht. destruct (nodes t) as [|n l] eqn:E; [exfalso; apply Ht; apply segs_nil; exact E|].
  apply (self_subtract_dead X k HX M t n l).
  - apply (mreach_minv X k HX CC Hco p t R).
  - exact E.
  - apply (nabs t R P). rewrite E. left. reflexivity.
  - unfold is_absorbable. cbn [mt_absorbs mt mt_co]. rewrite A. cbn [andb]. apply Hco. apply Z.
Qed.
Lemma thm_mself_insert (t : tree) : mreach p t -> m_self_insert X k M t = Ok t.
Proof. intros R. apply (self_insert_at X k HX M). apply (mreach_minv X k HX CC Hco p t R). Qed.
Lemma thm_mself_erase (t : tree) : proper CC p -> mreach p t -> exists t', m_self_erase X k M t = Ok t' /\ segs t' = [].
Proof.
  intros P R. destruct (self_erase_at X k HX M t) as (t' & E & Z).
  - apply (mreach_minv X k HX CC Hco p t R).
  - intros v. apply Hco. reflexivity.
  - apply (nabs t R P).
  - exists t'. split; [exact E|apply segs_nil; exact Z].
Qed.
Lemma thm_mself_flip (t : tree) : mreach p t -> mp_absorbs p = true ->
  (mp_total p = false -> cc_set_sem CC = true -> forall v : V, combine CC (inverse CC (mp_section p)) v v = cc_zero) ->
  exists t', m_self_flip X k M t = Ok t' /\ segs t' = [].
Proof.
  intros R A Z. destruct (mp_total p) eqn:T.
  - exists t_empty. split; [|reflexivity]. unfold m_self_flip. cbn [mt_total mt_absorbs mt]. rewrite T, A. reflexivity.
  - destruct (self_flip_at X k HX M t) as (t' & E & Q).
    + apply (mreach_minv X k HX CC Hco p t R).
    + exact T.
    + intros n _. unfold is_absorbable, flip_own, inverse_codomain_intersect, codomain_intersect. cbn [mt_absorbs mt mt_co mt_section]. rewrite A. cbn [andb]. apply Hco.
      destruct (cc_set_sem CC); [apply Z; reflexivity|reflexivity].
    + exists t'. split; [exact E|apply segs_nil; exact Q].
Qed.
End Top.

(** Symbolic execution of the tree operations (proof infrastructure). *)
From Verif Require Export Seg.

Lemma NoDup_app_remove_l {A} (l r : list A) : NoDup (l ++ r) -> NoDup r.
Proof. induction l; auto. cbn. intros H. inversion H; auto. Qed.

Section TreeFacts.
Context (X : dom) (k : kind).
Context (HX : dom_ok X k).
Context {V : Type}.
Notation I := (itv (D X)).
Notation node := (node (D X) V).
Notation tree := (tree (D X) V).
Notation lc := (lc X k).
Notation uc := (uc X k).
Notation pt := (pt X).
Notation cltb := (cltb X).
Notation ceqb := (ceqb X).
Notation cut := (cut X).
Notation ne := (@ne X k).
Notation hd_it := (@hd_it X V).
Notation last_it := (@last_it X V).
Notation split_at := (@split_at X V).
Ltac cord := cord_ X k HX.

Definition ids (l : list node) : list nat := map nid l.
(** node identities are distinct and below the next fresh one *)
Definition wf (t : tree) : Prop := NoDup (ids (nodes t)) /\ Forall (fun n => nid n < fresh t) (nodes t).
Definition inv (t : tree) : Prop := wf t /\ srt k (nodes t).

Lemma tree_eta (t : tree) : Tree (nodes t) (fresh t) = t.
Proof. destruct t; auto. Qed.

(* ------------------------------------------------------------ identities *)
Lemma ids_app l r : ids (l ++ r) = ids l ++ ids r. Proof. apply map_app. Qed.
Lemma ids_cons n l : ids (n :: l) = nid n :: ids l. Proof. auto. Qed.

Lemma split_at_spec L n R : ~ In (nid n) (ids L) -> split_at (nid n) (L ++ n :: R) = Some (L, n, R).
Proof.
  induction L as [|m L IH]; cbn; intros H.
  - rewrite Nat.eqb_refl. auto.
  - destruct (Nat.eqb_spec (nid m) (nid n)); [intuition congruence|]. rewrite IH by tauto. auto.
Qed.
Lemma split_at_some i l L n R : split_at i l = Some (L, n, R) -> l = L ++ n :: R /\ nid n = i.
Proof.
  revert L. induction l as [|m l IH]; cbn; [discriminate|]. intros L.
  destruct (Nat.eqb_spec (nid m) i).
  - intros [= <- <- <-]. auto.
  - destruct (split_at i l) as [[[a b] c]|]; [|discriminate].
    intros [= <- <- <-]. destruct (IH a) as [-> <-]; auto.
Qed.
Lemma split_at_in i l : In i (ids l) -> exists L n R, split_at i l = Some (L, n, R).
Proof.
  induction l as [|m l IH]; cbn; [tauto|].
  destruct (Nat.eqb_spec (nid m) i); eauto.
  intros [?|H]; [congruence|]. destruct (IH H) as (L & n' & R & ->). eauto.
Qed.

Lemma wf_notin (t : tree) L n R : wf t -> nodes t = L ++ n :: R -> ~ In (nid n) (ids L).
Proof.
  intros [H _] E. rewrite E, ids_app, ids_cons in H. apply NoDup_remove_2 in H.
  rewrite in_app_iff in H. tauto.
Qed.
Lemma split_at_wf (t : tree) L n R : wf t -> nodes t = L ++ n :: R -> split_at (nid n) (nodes t) = Some (L, n, R).
Proof. intros H E. rewrite E. apply split_at_spec. eapply wf_notin; eauto. Qed.

Lemma wf_inj (t : tree) n m : wf t -> In n (nodes t) -> In m (nodes t) -> nid n = nid m -> n = m.
Proof.
  intros [H _] Hn Hm E. apply in_split in Hn. destruct Hn as (L & R & EL). rewrite EL in *.
  rewrite ids_app, ids_cons in H. apply NoDup_remove_2 in H. rewrite in_app_iff in H.
  apply in_app_iff in Hm. destruct Hm as [Hm|[Hm|Hm]]; auto;
    exfalso; apply H; rewrite E; [left|right]; apply in_map; auto.
Qed.

(* ------------------------------------------------------------ iterators *)
Lemma last_it_app (l : list node) n : last_it (l ++ [n]) = Some (nid n).
Proof. induction l as [|a l IH]; auto. cbn. destruct (l ++ [n]) eqn:E; auto. destruct l; discriminate. Qed.
Lemma hd_it_app (l r : list node) : hd_it (l ++ r) = match l with [] => hd_it r | n :: _ => Some (nid n) end.
Proof. destruct l; auto. Qed.

Definition isit (t : tree) (it : iter) : Prop :=
  match it with None => True | Some i => In i (ids (nodes t)) end.
Lemma valid_iff (t : tree) it : valid t it = true <-> isit t it.
Proof.
  destruct it as [i|]; cbn; [|tauto]. split; intros H.
  - destruct (split_at i (nodes t)) as [[[L n] R]|] eqn:E; [|discriminate].
    apply split_at_some in E. destruct E as [-> <-]. rewrite ids_app. apply in_app_iff. right. cbn. auto.
  - destruct (split_at_in _ _ H) as (L & n & R & ->). auto.
Qed.
Lemma isit_in (t : tree) n : In n (nodes t) -> isit t (Some (nid n)).
Proof. intros H. cbn. apply in_map. auto. Qed.
Lemma isit_hd (t : tree) L R : nodes t = L ++ R -> isit t (hd_it R).
Proof. intros E. destruct R; cbn; auto. rewrite E, ids_app, in_app_iff. right. cbn. auto. Qed.
Lemma isit_last (t : tree) L R : nodes t = L ++ R -> isit t (last_it L).
Proof.
  intros E. destruct L as [|n L] using rev_ind; cbn; auto. rewrite last_it_app.
  apply isit_in. rewrite E, !in_app_iff. cbn. auto.
Qed.

Lemma deref_at (t : tree) L n R : wf t -> nodes t = L ++ n :: R -> deref t (Some (nid n)) = Ok n.
Proof. intros H E. unfold deref. rewrite (split_at_wf t L n R); auto. Qed.
Lemma key_at (t : tree) L n R : wf t -> nodes t = L ++ n :: R -> key t (Some (nid n)) = Ok (nkey n).
Proof. intros H E. unfold key. rewrite (deref_at t L n R); auto. Qed.
Lemma val_at (t : tree) L n R : wf t -> nodes t = L ++ n :: R -> val t (Some (nid n)) = Ok (nval n).
Proof. intros H E. unfold val. rewrite (deref_at t L n R); auto. Qed.
Lemma incr_at (t : tree) L n R : wf t -> nodes t = L ++ n :: R -> incr_it t (Some (nid n)) = Ok (hd_it R).
Proof. intros H E. unfold incr_it. rewrite (split_at_wf t L n R); auto. Qed.
Lemma decr_hd (t : tree) L n R : wf t -> nodes t = L ++ n :: R ->
  decr_it t (hd_it R) = Ok (Some (nid n)).
Proof.
  intros H E. unfold decr_it. destruct R as [|m R]; cbn [hd_it].
  - rewrite E, last_it_app. auto.
  - rewrite (split_at_wf t (L ++ [n]) m R), last_it_app; auto. rewrite <- app_assoc. auto.
Qed.
Lemma decr_at (t : tree) L p n R : wf t -> nodes t = L ++ p :: n :: R ->
  decr_it t (Some (nid n)) = Ok (Some (nid p)).
Proof. intros H E. apply (decr_hd t L p (n :: R) H E). Qed.
Lemma begin_at (t : tree) : begin_ t = hd_it (nodes t). Proof. auto. Qed.

Lemma iter_eqb_refl it : iter_eqb it it = true.
Proof. destruct it; cbn; auto. apply Nat.eqb_refl. Qed.
Lemma iter_eqb_hd (t : tree) L M R : wf t -> nodes t = L ++ M ++ R ->
  iter_eqb (hd_it (M ++ R)) (hd_it R) = match M with [] => true | _ => false end.
Proof.
  intros [H _] E. destruct M as [|m M]; cbn [app]. { apply iter_eqb_refl. }
  destruct R as [|r R]; cbn; auto.
  apply Nat.eqb_neq. rewrite E, !ids_app, !ids_cons in H.
  apply NoDup_app_remove_l in H. cbn in H.
  inversion H; subst. intros e. apply H2. rewrite e, in_app_iff. right. cbn. auto.
Qed.
Lemma iter_eqb_end (M R : list node) : iter_eqb (hd_it (M ++ R)) None = match M ++ R with [] => true | _ => false end.
Proof. destruct (M ++ R); auto. Qed.

Lemma cyc_at (t : tree) L R : wf t -> nodes t = L ++ R -> cyclic_prior t (hd_it R) = Ok (last_it L).
Proof.
  intros H E. unfold cyclic_prior, begin_. rewrite E.
  destruct L as [|n L] using rev_ind.
  - cbn [app]. rewrite iter_eqb_refl. auto.
  - replace (iter_eqb _ _) with false.
    + rewrite (decr_hd t L n R), last_it_app; auto. rewrite E, <- app_assoc. auto.
    + pose proof (iter_eqb_hd t [] (L ++ [n]) R H E) as Q.
      destruct (L ++ [n]) as [|m M] eqn:EM; [destruct L; discriminate|].
      rewrite <- Q. destruct R; cbn; auto. apply Nat.eqb_sym.
Qed.

Lemma set_key_at (t : tree) L n R a : wf t -> nodes t = L ++ n :: R ->
  set_key t (Some (nid n)) a = Ok (Tree (L ++ Node (nid n) a (nval n) :: R) (fresh t)).
Proof. intros H E. unfold set_key. rewrite (split_at_wf t L n R); auto. Qed.
Lemma set_val_at (t : tree) L n R v : wf t -> nodes t = L ++ n :: R ->
  set_val t (Some (nid n)) v = Ok (Tree (L ++ Node (nid n) (nkey n) v :: R) (fresh t)).
Proof. intros H E. unfold set_val. rewrite (split_at_wf t L n R); auto. Qed.
Lemma erase_at (t : tree) L n R : wf t -> nodes t = L ++ n :: R ->
  erase_it t (Some (nid n)) = Ok (Tree (L ++ R) (fresh t)).
Proof. intros H E. unfold erase_it. rewrite (split_at_wf t L n R); auto. Qed.

Lemma from_it_at (t : tree) L M R : wf t -> nodes t = L ++ M ++ R -> from_it (hd_it R) (M ++ R) = Some R.
Proof.
  intros [H _] E. destruct R as [|r R]; cbn; auto.
  rewrite split_at_spec; auto.
  rewrite E, !ids_app, ids_cons in H. apply NoDup_app_remove_l in H. apply NoDup_remove_2 in H.
  rewrite in_app_iff in H. tauto.
Qed.
Lemma erase_range_at (t : tree) L M R : wf t -> nodes t = L ++ M ++ R ->
  erase_range t (hd_it (M ++ R)) (hd_it R) = Ok (Tree (L ++ R) (fresh t)).
Proof.
  intros H E. unfold erase_range.
  destruct (M ++ R) as [|n r] eqn:EM.
  - apply app_eq_nil in EM. destruct EM; subst. cbn. rewrite <- (tree_eta t), E. auto.
  - cbn [hd_it]. rewrite (split_at_wf t L n r), <- EM, (from_it_at t L M R); congruence.
Qed.

(* ------------------------------------------------------------ well-formedness *)
Lemma wf_ids l l' f : wf (Tree l f) -> ids l' = ids l -> wf (Tree l' f).
Proof.
  intros [H1 H2] E. split; cbn [nodes fresh] in *; [congruence|].
  rewrite Forall_forall in *. intros n Hn.
  assert (In (nid n) (ids l)) by (rewrite <- E; apply in_map; auto).
  apply in_map_iff in H. destruct H as (m & <- & Hm). auto.
Qed.
Lemma wf_drop l m r f : wf (Tree (l ++ m ++ r) f) -> wf (Tree (l ++ r) f).
Proof.
  intros [H1 H2]. cbn [nodes fresh] in *. split; cbn [nodes fresh].
  - rewrite !ids_app in *. revert H1. induction (ids m) as [|x xs IH]; auto. cbn. intros H.
    apply IH. apply NoDup_remove_1 in H. auto.
  - rewrite !Forall_app in *. tauto.
Qed.
Lemma wf_cons_drop l n r f : wf (Tree (l ++ n :: r) f) -> wf (Tree (l ++ r) f).
Proof. intros H. apply (wf_drop l [n] r f). auto. Qed.
Lemma wf_new l r f a v : wf (Tree (l ++ r) f) -> wf (Tree (l ++ Node f a v :: r) (S f)).
Proof.
  intros [H1 H2]. cbn [nodes fresh] in *. split; cbn [nodes fresh].
  - rewrite ids_app, ids_cons. cbn [nid].
    apply (NoDup_Add (Add_app f (ids l) (ids r))). rewrite ids_app in H1. split; auto.
    + rewrite <- ids_app. intros Hi. apply in_map_iff in Hi. destruct Hi as (n & E & Hn).
      rewrite Forall_forall in H2. specialize (H2 n Hn). lia.
  - rewrite Forall_app, Forall_cons_iff in *. cbn.
    destruct H2 as [H2 H3]. repeat split; auto.
    + eapply Forall_impl; [|apply H2]. cbn; lia.
    + eapply Forall_impl; [|apply H3]. cbn; lia.
Qed.
Lemma wf_nodes (t : tree) l : wf t -> nodes t = l -> wf (Tree l (fresh t)).
Proof. intros H <-. rewrite tree_eta. auto. Qed.
Lemma wf_empty : wf (@t_empty X V). Proof. split; constructor. Qed.
Lemma inv_empty : inv (@t_empty X V). Proof. split; [apply wf_empty|]. cbn. auto. Qed.

(* ------------------------------------------------------------ lookup *)
Lemma look_ok_ok (t : tree) a : srt k (nodes t) -> ne a -> look_ok X k t a = Ok tt.
Proof.
  intros Hs Ha. unfold look_ok. destruct (nodes t) eqn:E; auto. rewrite <- E.
  rewrite <- E in Hs. apply (ordered_srt X k HX) in Hs. rewrite Hs.
  apply (ne_iff X k HX) in Ha. rewrite Ha. auto.
Qed.
Lemma less_cut a b : ne a -> ne b -> less X k a b = negb (cltb (lc b) (uc a)).
Proof. intros Ha Hb. apply ne_exclusive_less_cut; auto; apply ne_iff; auto. Qed.

Lemma split_lb_at (L R : list node) a : nes k L -> nes k R -> ne a -> below k L (lc a) ->
  (match R with [] => True | n :: _ => cltb (lc a) (uc (nkey n)) = true end) ->
  split_lb X k a (L ++ R) = (L, R).
Proof.
  intros HL HR Ha HB Hh. induction L as [|n L IH]; cbn [split_lb app].
  - destruct R as [|n R]; auto. cbn. inversion HR; subst. rewrite less_cut by auto. rewrite Hh. auto.
  - inversion HL; subst. apply below_cons in HB. rewrite less_cut by auto.
    destruct HB as [HB1 HB2]. rewrite HB1. cbn. rewrite IH by auto. auto.
Qed.
Lemma split_ub_at (L R : list node) a : nes k L -> nes k R -> ne a ->
  Forall (fun n => cltb (lc (nkey n)) (uc a) = true) L -> above k R (uc a) ->
  split_ub X k a (L ++ R) = (L, R).
Proof.
  intros HL HR Ha HB Hh. induction L as [|n L IH]; cbn [split_ub app].
  - destruct R as [|n R]; auto. cbn. inversion HR; subst. rewrite less_cut by auto.
    inversion Hh; subst. rewrite H3. auto.
  - inversion HL; subst. inversion HB; subst. rewrite less_cut by auto.
    rewrite H3. cbn. rewrite IH by auto. auto.
Qed.

Lemma nes_app (l r : list node) : nes k (l ++ r) <-> nes k l /\ nes k r.
Proof. apply Forall_app. Qed.

Definition overl (a : I) (R : list node) : Prop :=
  match R with [] => True | n :: _ => cltb (lc a) (uc (nkey n)) = true end.
Lemma overl_MR a M R : ne a -> srt k (M ++ R) -> Forall (over k a) M -> above k R (uc a) -> overl a (M ++ R).
Proof.
  intros Ha Hs HM HR. destruct M as [|m M]; cbn.
  - destruct R as [|r R]; cbn; auto. inversion HR; subst. destruct Hs as (Hn & _).
    unfold Seg.ne in *. cord.
  - inversion HM; subst. destruct H1; auto.
Qed.

Lemma lower_bound_at (t : tree) L R a : srt k (nodes t) -> nodes t = L ++ R -> ne a -> below k L (lc a) -> overl a R ->
  lower_bound X k t a = Ok (hd_it R).
Proof.
  intros Hs E Ha HL HR. unfold lower_bound. rewrite look_ok_ok by auto. cbn.
  pose proof (srt_nes X k _ Hs) as Hn. rewrite E in *. apply nes_app in Hn.
  rewrite split_lb_at; tauto.
Qed.
Lemma below_lt L a : nes k L -> ne a -> below k L (lc a) ->
  Forall (fun n : node => cltb (lc (nkey n)) (uc a) = true) L.
Proof.
  unfold below, nes. rewrite !Forall_forall. intros H1 Ha H2 n Hn.
  specialize (H1 n Hn). specialize (H2 n Hn). unfold Seg.ne in *. cord.
Qed.
Lemma upper_bound_at (t : tree) L M R a : srt k (nodes t) -> nodes t = L ++ M ++ R -> ne a ->
  below k L (lc a) -> Forall (over k a) M -> above k R (uc a) ->
  upper_bound X k t a = Ok (hd_it R).
Proof.
  intros Hs E Ha HL HM HR. unfold upper_bound. rewrite look_ok_ok by auto. cbn.
  pose proof (srt_nes X k _ Hs) as Hn. rewrite E in *. rewrite app_assoc in *. apply nes_app in Hn.
  rewrite split_ub_at; try tauto. apply Forall_app. split.
  - apply below_lt; auto. destruct Hn as [Hn _]. apply nes_app in Hn. tauto.
  - eapply Forall_impl; [|apply HM]. intros n []. auto.
Qed.

Lemma insert_new (t : tree) L R a v : srt k (nodes t) -> nodes t = L ++ R -> ne a ->
  below k L (lc a) -> above k R (uc a) ->
  insert X k t a v = Ok (Tree (L ++ Node (fresh t) a v :: R) (S (fresh t)), Some (fresh t), true).
Proof.
  intros Hs E Ha HL HR. unfold insert. rewrite look_ok_ok by auto. cbn [bind].
  assert (Ho : overl a R).
  { apply (overl_MR a [] R); auto. rewrite E in Hs. apply (srt_app X k) in Hs. tauto. }
  pose proof (srt_nes X k _ Hs) as Hn. rewrite E in *. apply nes_app in Hn. destruct Hn.
  rewrite split_lb_at by auto.
  destruct R as [|r R]; auto. inversion HR; subst. inversion H0; subst.
  rewrite less_cut by auto. rewrite H3. auto.
Qed.
Lemma insert_old (t : tree) L m R a v : srt k (nodes t) -> nodes t = L ++ m :: R -> ne a ->
  below k L (lc a) -> over k a m ->
  insert X k t a v = Ok (t, Some (nid m), false).
Proof.
  intros Hs E Ha HL [Ho1 Ho2]. unfold insert. rewrite look_ok_ok by auto. cbn [bind].
  pose proof (srt_nes X k _ Hs) as Hn. rewrite E in *. apply nes_app in Hn. destruct Hn.
  rewrite split_lb_at by auto. inversion H0; subst. rewrite less_cut by auto.
  rewrite Ho1. auto.
Qed.
Lemma insert_hint_new (t : tree) L R a v h : srt k (nodes t) -> nodes t = L ++ R -> ne a ->
  below k L (lc a) -> above k R (uc a) -> isit t h ->
  insert_hint X k t h a v = Ok (Tree (L ++ Node (fresh t) a v :: R) (S (fresh t)), Some (fresh t)).
Proof.
  intros Hs E Ha HL HR Hh. unfold insert_hint, check_it. apply valid_iff in Hh. rewrite Hh.
  cbn [bind]. rewrite (insert_new t L R) by auto. auto.
Qed.
Lemma insert_hint_old (t : tree) L m R a v h : srt k (nodes t) -> nodes t = L ++ m :: R -> ne a ->
  below k L (lc a) -> over k a m -> isit t h ->
  insert_hint X k t h a v = Ok (t, Some (nid m)).
Proof.
  intros Hs E Ha HL Ho Hh. unfold insert_hint, check_it. apply valid_iff in Hh. rewrite Hh.
  cbn [bind]. rewrite (insert_old t L m R) by auto. auto.
Qed.
Lemma tfind_none (t : tree) L R a : srt k (nodes t) -> nodes t = L ++ R -> ne a ->
  below k L (lc a) -> above k R (uc a) -> tfind X k t a = Ok None.
Proof.
  intros Hs E Ha HL HR. unfold tfind. rewrite look_ok_ok by auto. cbn [bind].
  assert (Ho : overl a R).
  { apply (overl_MR a [] R); auto. rewrite E in Hs. apply (srt_app X k) in Hs. tauto. }
  pose proof (srt_nes X k _ Hs) as Hn. rewrite E in *. apply nes_app in Hn. destruct Hn.
  rewrite split_lb_at by auto. cbn [snd].
  destruct R as [|r R]; auto. inversion HR; subst. inversion H0; subst.
  rewrite less_cut by auto. rewrite H3. auto.
Qed.
Lemma tfind_some (t : tree) L m R a : srt k (nodes t) -> nodes t = L ++ m :: R -> ne a ->
  below k L (lc a) -> over k a m -> tfind X k t a = Ok (Some (nid m)).
Proof.
  intros Hs E Ha HL [Ho1 Ho2]. unfold tfind. rewrite look_ok_ok by auto. cbn [bind].
  pose proof (srt_nes X k _ Hs) as Hn. rewrite E in *. apply nes_app in Hn. destruct Hn.
  rewrite split_lb_at by auto. cbn [snd]. inversion H0; subst. rewrite less_cut by auto.
  rewrite Ho1. auto.
Qed.

End TreeFacts.
Arguments wf {X V}. Arguments inv {X} k {V}. Arguments ids {X V}. Arguments isit {X V}.
Arguments overl {X} k {V}.

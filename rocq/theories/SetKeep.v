(** Nodes that adding and subtracting an interval leave alone, for interval sets (proofs). *)
From Verif Require Export SetOps Upd.

Section SetKeep.
Context (X : dom) (k : kind).
Context (HX : dom_ok X k).
Notation I := (itv (D X)).
Notation node := (node (D X) unit).
Notation tree := (tree (D X) unit).
Notation lc := (lc X k).
Notation uc := (uc X k).
Notation cltb := (cltb X).
Notation ceqb := (ceqb X).
Notation ne := (@ne X k).
Notation sinv := (sinv X k).
Ltac cord := cord_ X k HX.
Ltac lst := rewrite <- ?app_assoc; cbn [app]; congruence || auto.

Definition sspl (st : style) : bool := match st with Joining => false | _ => true end.
Notation kp := (Upd.kp (V := unit) k).

Lemma kp_LMR sp a L M P R : ne a -> Forall (over k a) M -> nes k M -> kp sp (lc a) (uc a) (L ++ M ++ R) (L ++ P ++ R).
Proof.
  intros Na OM NM n Hn F. unfold nes in *. rewrite Forall_forall in OM, NM. rewrite !in_app_iff in *. destruct Hn as [Hn|[Hn|Hn]]; auto.
  exfalso. destruct (OM n Hn) as [O1 O2]. specialize (NM n Hn). unfold Seg.ne, far in *. destruct sp, F; cord.
Qed.

Lemma s_handle_kp st t L n R d e : inv k t -> nodes t = L ++ n :: R ->
  (st = Joining -> joined k s_coeq L /\ joined k s_coeq R) ->
  (forall m, In m L -> cltb (uc (nkey m)) d = true -> cltb (uc (nkey m)) (lc (nkey n)) = true) ->
  (forall m, In m R -> cltb e (lc (nkey m)) = true -> cltb (uc (nkey n)) (lc (nkey m)) = true) ->
  cltb d (uc (nkey n)) = true -> cltb (lc (nkey n)) e = true -> cltb d e = true ->
  forall t' it, s_handle_inserted X k st t (Some (nid n)) = Ok (t', it) -> kp (sspl st) d e (nodes t) (nodes t').
Proof.
  intros Hi E HJ HL HR N1 N2 DE t' it H. pose proof Hi as [W S].
  destruct st; cbn [s_handle_inserted] in H; try (inversion H; subst; apply kp_refl).
  destruct (HJ eq_refl) as [JL JR].
  destruct (join_neighbours_at X k HX s_coeq s_coeq_eq t L n R Hi E JL JR)
    as (t1 & L' & n' & R' & Q & E' & I' & F' & O' & J' & X' & Y' & Z'). rewrite Q in H. inversion H; subst t1 it.
  rewrite E' , E. rewrite E in S. pose proof (srt_nes X k _ S) as NN. unfold nes in NN. rewrite Forall_forall in NN.
  intros m Hm F. specialize (NN m Hm). unfold far, sspl, Seg.ne in *. apply (srt_mid X k HX) in S. destruct S as (_ & _ & Nn & B & A). unfold Seg.ne, below, above in *. rewrite Forall_forall in A, B.
  rewrite in_app_iff in *. cbn [In] in *. destruct Hm as [Hm|[<-|Hm]].
  - destruct Z' as [->|(p & -> & Z')]; auto. apply in_app_iff in Hm. destruct Hm as [Hm|[<-|[]]]; auto. exfalso.
    specialize (B p). specialize (HL p). rewrite in_app_iff in *. cbn [In] in *. destruct F as [F|F]; [specialize (HL ltac:(auto) F); cord|specialize (B ltac:(auto)); cord].
  - exfalso. destruct F; cord.
  - destruct Y' as [->|(s & -> & Y' & _)]; auto. destruct Hm as [<-|Hm]; auto. exfalso.
    specialize (A s). specialize (HR s). cbn [In] in *. destruct F as [F|F]; [specialize (A ltac:(auto)); cord|specialize (HR ltac:(auto) F); cord].
Qed.

Lemma s_add_over_kp st t L M R a Q q : sinv st t -> nodes t = L ++ M ++ R -> ne a -> M = Q ++ [q] ->
  below k L (lc a) -> Forall (over k a) M -> above k R (uc a) ->
  forall t' it, s_add_over X k st t a (Some (nid q)) = Ok (t', it) -> kp (sspl st) (lc a) (uc a) (nodes t) (nodes t').
Proof.
  intros [Hi HJ] E Na EQ BL OM AR t' it H. pose proof Hi as [W S].
  assert (NM : M <> []) by (rewrite EQ; destruct Q; discriminate).
  destruct (M_ends M NM) as (m & M' & _ & _ & Em & _).
  assert (SM : srt k (L ++ M ++ R)) by congruence.
  assert (SM' : srt k M) by (rewrite !srt_app in SM; tauto).
  assert (NMs : nes k M) by (apply srt_nes; auto).
  assert (Hm : ne (nkey m) /\ over k a m).
  { unfold nes in NMs. rewrite Forall_forall in *. split; [apply NMs|apply OM]; rewrite Em; cbn; auto. }
  assert (Hq : ne (nkey q) /\ over k a q).
  { unfold nes in NMs. rewrite Forall_forall in *. split; [apply NMs|apply OM]; rewrite EQ, in_app_iff; cbn; auto. }
  destruct Hm as [Nm [Om1 Om2]], Hq as [Nq [Oq1 Oq2]].
  assert (BLm : below k L (lc (nkey m))) by (apply (srt_below X k L (M ++ R) SM); rewrite Em; cbn; auto).
  assert (ARq : above k R (uc (nkey q))).
  { rewrite app_assoc in SM. apply (srt_above X k (L ++ M) R SM). rewrite EQ, !in_app_iff. cbn. auto. }
  destruct (join_under_at X k HX t L M R m M' Q q a Hi E Na BL OM AR Em EQ) as [HU WU].
  set (h := Node (nid m) (under k (nkey m) (nkey q) a) (nval m)) in *.
  destruct (under_cut X k HX (nkey m) (nkey q) a Nm Nq Na Om2 Oq1) as [Mi Ma].
  destruct (cover_M X k HX M m M' Q q a (nkey h) SM' OM Na Em EQ Mi Ma) as [Nh HC].
  assert (SU : srt k (L ++ h :: R)).
  { apply (srt_mid X k HX). rewrite !srt_app in SM. conjs; try tauto; unfold is_min, is_max in *.
    - unfold below in *. rewrite Forall_forall in *. intros n Hn. specialize (BL n Hn). specialize (BLm n Hn). cbn in *. cord.
    - unfold above in *. rewrite Forall_forall in *. intros n Hn. specialize (AR n Hn). specialize (ARq n Hn). cbn in *. cord. }
  set (tu := Tree (L ++ h :: R) (fresh t)) in *.
  assert (IU : inv k tu) by (split; auto).
  assert (K1 : forall sp, kp sp (lc a) (uc a) (nodes t) (nodes tu)).
  { intros sp. rewrite E. apply (kp_LMR sp a L M [h] R); auto. }
  destruct st; cbn [s_add_over] in H.
  - rewrite HU in H. cbn [bind] in H.
    rewrite E in HJ. apply (kp_step X k _ _ _ (nodes t) (nodes tu)); auto. 
    apply (s_handle_kp Joining tu L h R (lc a) (uc a) IU eq_refl) with (it := it); auto.
    + intros _. split; [apply joined_app_l in HJ; auto|apply joined_app_r, joined_app_r in HJ; auto].
    + intros p Hp P. unfold below in *. rewrite Forall_forall in *. specialize (BLm p Hp).
      assert (J1 : ceqb (uc (nkey p)) (lc (nkey m)) = false).
      { destruct (ceqb _ _) eqn:Ec; auto. pose proof (HJ p m) as HJ'. rewrite Em, !in_app_iff in HJ'. cbn [In] in HJ'. specialize (HJ' ltac:(auto) ltac:(auto) Ec). unfold s_coeq in HJ'. congruence. }
      unfold is_min in Mi. cbn [nkey h] in *. clear - HX Mi J1 P BLm. cord.
    + intros p Hp P. unfold above in *. rewrite Forall_forall in *. specialize (ARq p Hp).
      assert (J1 : ceqb (uc (nkey q)) (lc (nkey p)) = false).
      { destruct (ceqb _ _) eqn:Ec; auto. pose proof (HJ q p) as HJ'. rewrite EQ, !in_app_iff in HJ'. cbn [In] in HJ'. specialize (HJ' ltac:(auto) ltac:(auto) Ec). unfold s_coeq in HJ'. congruence. }
      unfold is_max in Ma. cbn [nkey h] in *. clear - HX Ma J1 P ARq. cord.
    + unfold is_max, is_min, Seg.ne in *. cbn [nkey h] in *. clear - HX Mi Ma Na. cord.
    + unfold is_max, is_min, Seg.ne in *. cbn [nkey h] in *. clear - HX Mi Ma Na. cord.
  - rewrite HU in H. inversion H; subst. apply K1.
  - destruct (s_add_over_split X k HX t L M R a Hi E Na NM BL OM AR Q q EQ)
      as (t1 & it1 & P & H1 & I' & V' & E' & A' & S'). cbn [s_add_over] in H1. rewrite H1 in H. inversion H; subst. rewrite E, E'. apply kp_LMR; auto.
Qed.

Theorem s_add_kp st t a t' it : sinv st t -> ne a -> s_add X k st t a = Ok (t', it) -> kp (sspl st) (lc a) (uc a) (nodes t) (nodes t').
Proof.
  intros Hi0 Na H. pose proof Hi0 as [Hi HJ]. pose proof Hi as [W S].
  destruct (decomp X k HX a (nodes t) S Na) as (L & M & R & E & BL & OM & AR).
  unfold s_add in H. rewrite (ne_e X k HX a Na) in H. destruct (nil_or_not M) as [->|NM].
  - cbn [app] in E. rewrite (insert_new X k HX t L R) in H by auto. cbn [bind] in H.
    change (Some (fresh t)) with (Some (nid (Node (fresh t) a tt))) in H.
    apply (kp_step X k _ _ _ (nodes t) (L ++ [Node (fresh t) a tt] ++ R)); [rewrite E; apply kp_ins|]. cbn [app].
    apply s_handle_kp with (L := L) (R := R) (d := lc a) (e := uc a) in H; auto.
    + apply inv_new; auto.
    + intros ->. rewrite E in HJ. split; [apply joined_app_l in HJ|apply joined_app_r in HJ]; auto.
  - destruct (M_ends M NM) as (m & M' & Q & q & Em & EQ).
    assert (Em' : nodes t = L ++ m :: M' ++ R) by (rewrite E, Em; auto).
    rewrite (insert_old X k HX t L m (M' ++ R)) in H; auto.
    2:{ rewrite Forall_forall in OM. apply OM. rewrite Em. cbn. auto. }
    cbn [bind] in H. rewrite (upper_bound_at X k HX t L M R) in H by auto. cbn [bind] in H.
    rewrite (decr_hd X t (L ++ Q) q R) in H by (auto; rewrite E, EQ; lst). cbn [bind] in H.
    apply s_add_over_kp with (L := L) (M := M) (R := R) (Q := Q) in H; auto.
Qed.

Theorem s_add_hint_kp st t h a t' it : sinv st t -> isit t h -> ne a -> s_add_hint X k st t h a = Ok (t', it) ->
  kp (sspl st) (lc a) (uc a) (nodes t) (nodes t').
Proof.
  intros Hi0 Vh Na H. pose proof Hi0 as [Hi HJ]. pose proof Hi as [W S].
  destruct (decomp X k HX a (nodes t) S Na) as (L & M & R & E & BL & OM & AR).
  unfold s_add_hint in H. rewrite (ne_e X k HX a Na) in H. destruct (nil_or_not M) as [->|NM].
  - cbn [app] in E. rewrite (insert_hint_new X k HX t L R) in H by auto. cbn [bind] in H.
    set (n := Node (fresh t) a tt) in *. change (Some (fresh t)) with (Some (nid n)) in H.
    assert (I1 : inv k (Tree (L ++ n :: R) (Datatypes.S (fresh t)))) by (apply inv_new; auto).
    rewrite (key_at X _ L n R) in H by (auto; apply I1). cbn [bind n nkey] in H.
    replace (itv_eqb X k a a) with true in H.
    2:{ rewrite itv_eqb_cut; auto using ne_e. cord. }
    apply (kp_step X k _ _ _ (nodes t) (L ++ [n] ++ R)); [rewrite E; apply kp_ins|]. cbn [app].
    apply s_handle_kp with (L := L) (R := R) (d := lc a) (e := uc a) in H; auto.
    + intros ->. rewrite E in HJ. split; [apply joined_app_l in HJ|apply joined_app_r in HJ]; auto.
  - destruct (M_ends M NM) as (m & M' & Q & q & Em & EQ).
    assert (Em' : nodes t = L ++ m :: M' ++ R) by (rewrite E, Em; auto).
    assert (Om : over k a m). { rewrite Forall_forall in OM. apply OM. rewrite Em. cbn. auto. }
    rewrite (insert_hint_old X k HX t L m (M' ++ R)) in H; auto.
    cbn [bind] in H. rewrite (key_at X t L m (M' ++ R)) in H by auto. cbn [bind] in H.
    destruct (itv_eqb X k (nkey m) a) eqn:Eq.
    + rewrite itv_eqb_cut in Eq; auto using ne_e.
      2:{ apply ne_e; auto. apply srt_nes in S. unfold nes in S. rewrite Forall_forall in S. apply S. rewrite Em', in_app_iff. cbn. auto. }
      pose proof Em' as Em2. rewrite Em2 in S. apply (srt_mid X k HX) in S. destruct S as (_ & _ & Nm & B & A). unfold below, above in A, B. rewrite Forall_forall in A, B.
      apply s_handle_kp with (L := L) (R := M' ++ R) (d := lc a) (e := uc a) in H; auto.
      * intros ->. rewrite Em' in HJ. split; [apply joined_app_l in HJ; auto|apply joined_app_r in HJ; eapply joined_incl; [|exact HJ]; intros y Hy; cbn; auto].
      * intros p Hp P. cord.
      * intros p Hp P. cord.
      * unfold Seg.ne in *; cord.
      * unfold Seg.ne in *; cord.
    + rewrite (upper_bound_at X k HX t L M R) in H by auto. cbn [bind] in H.
      rewrite (decr_hd X t (L ++ Q) q R) in H by (auto; rewrite E, EQ; lst). cbn [bind] in H.
      apply s_add_over_kp with (L := L) (M := M) (R := R) (Q := Q) in H; auto.
Qed.

Theorem s_subtract_kp t a t' : inv k t -> ne a -> s_subtract X k t a = Ok t' -> kp true (lc a) (uc a) (nodes t) (nodes t').
Proof.
  intros Hi Na H. pose proof Hi as [W S].
  destruct (decomp X k HX a (nodes t) S Na) as (L & M & R & E & BL & OM & AR).
  destruct (s_subtract_dec X k HX t L M R a Hi Na E BL OM AR) as (t1 & P & Q & I1 & E1 & _). rewrite Q in H. inversion H; subst.
  rewrite E, E1. apply kp_LMR; auto. rewrite E in S. apply (srt_app X k) in S. destruct S as (_ & S & _). apply (srt_app X k) in S. apply (srt_nes X k). tauto.
Qed.
End SetKeep.

(** join_neighbours and join_under (detail/interval_set_algo.hpp 225-361): proofs. *)
From Verif Require Export TreeFacts.

Ltac ifg := match goal with |- context [if ?b then _ else _] => destruct b eqn:? end.

Ltac conjs := repeat match goal with |- _ /\ _ => split end.

Section JoinFacts.
Context (X : dom) (k : kind).
Context (HX : dom_ok X k).
Context {V : Type}.
Notation I := (itv (D X)).
Notation node := (node (D X) V).
Notation tree := (tree (D X) V).
Notation lc := (lc X k).
Notation uc := (uc X k).
Notation pt := (pt X).
Notation cltb := (cltb X).
Notation ceqb := (ceqb X).
Notation cut := (cut X).
Notation ne := (@ne X k).
Notation hd_it := (@hd_it X V).
Notation last_it := (@last_it X V).
Ltac cord := cord_ X k HX.
Context (coeq : V -> V -> bool) (Hco : forall v w, coeq v w = true <-> v = w).

Definition obs (l r : list node) : Prop :=
  (forall c, vr k l c = vr k r c) /\ (forall c, vl k l c = vl k r c).

Lemma obs_refl l : obs l l. Proof. split; auto. Qed.
Lemma obs_trans a b c : obs a b -> obs b c -> obs a c.
Proof. intros [H1 H2] [H3 H4]. split; intros; congruence. Qed.

(* ------------------------------------------------------------ primitives on cuts *)
Lemma hull_lc a b : ne a -> ne b -> lc (hull X k a b) = cmin X (lc a) (lc b).
Proof. intros Ha Hb. apply ne_iff in Ha, Hb; auto. apply (hull_cut X k HX a b Ha Hb). Qed.
Lemma hull_uc a b : ne a -> ne b -> uc (hull X k a b) = cmax X (uc a) (uc b).
Proof. intros Ha Hb. apply ne_iff in Ha, Hb; auto. apply (hull_cut X k HX a b Ha Hb). Qed.
Lemma inter_lc a b : ne a -> ne b -> lc (inter X k a b) = cmax X (lc a) (lc b).
Proof. intros Ha Hb. apply ne_iff in Ha, Hb; auto. apply (inter_cut X k HX a b Ha Hb). Qed.
Lemma inter_uc a b : ne a -> ne b -> uc (inter X k a b) = cmin X (uc a) (uc b).
Proof. intros Ha Hb. apply ne_iff in Ha, Hb; auto. apply (inter_cut X k HX a b Ha Hb). Qed.

(** right_subtract l r: the part of l before r; left_subtract r l: the part of r after l *)
Lemma rsub_ne l r : ne l -> ne r -> cltb (lc r) (uc l) = true -> cltb (lc l) (lc r) = true ->
  lc (right_subtract X k l r) = lc l /\ ceqb (uc (right_subtract X k l r)) (lc r) = true.
Proof.
  intros Hl Hr H1 H2. apply ne_iff in Hl, Hr; auto.
  pose proof (right_subtract_cut X k HX l r Hl Hr H1) as H. rewrite H2 in H. auto.
Qed.
Lemma rsub_e l r : ne l -> ne r -> cltb (lc r) (uc l) = true -> cltb (lc l) (lc r) = false ->
  is_empty X k (right_subtract X k l r) = true.
Proof.
  intros Hl Hr H1 H2. apply ne_iff in Hl, Hr; auto.
  pose proof (right_subtract_cut X k HX l r Hl Hr H1) as H. rewrite H2 in H. auto.
Qed.
Lemma lsub_ne r l : ne l -> ne r -> cltb (lc r) (uc l) = true -> cltb (uc l) (uc r) = true ->
  ceqb (lc (left_subtract X k r l)) (uc l) = true /\ uc (left_subtract X k r l) = uc r.
Proof.
  intros Hl Hr H1 H2. apply ne_iff in Hl, Hr; auto.
  pose proof (left_subtract_cut X k HX r l Hl Hr H1) as H. rewrite H2 in H. auto.
Qed.
Lemma lsub_e r l : ne l -> ne r -> cltb (lc r) (uc l) = true -> cltb (uc l) (uc r) = false ->
  is_empty X k (left_subtract X k r l) = true.
Proof.
  intros Hl Hr H1 H2. apply ne_iff in Hl, Hr; auto.
  pose proof (left_subtract_cut X k HX r l Hl Hr H1) as H. rewrite H2 in H. auto.
Qed.

Lemma ne_e a : ne a -> is_empty X k a = false. Proof. apply ne_iff; auto. Qed.

Lemma touches_ne a b : ne a -> ne b -> cltb (lc b) (uc a) = false ->
  touches X k a b = ceqb (uc a) (lc b).
Proof.
  intros Ha Hb H. pose proof (ne_e a Ha) as Ea. pose proof (ne_e b Hb) as Eb.
  apply touches_cut; auto.
  - apply nonempty_edge; auto.
  - apply nonempty_edge; auto.
  - destruct (nonempty_point X k HX b Eb) as (y & Hy). apply mem_cut in Hy; auto. destruct Hy as [Hy1 Hy2]. unfold room_above.
    assert (cltb (uc a) (y, true) = true).
    { assert (cltb (pt y) (y, true) = true).
      { unfold IntervalFacts.cltb, IntervalFacts.pt; cbn. apply negb_true_iff. apply (ltb_swo X k HX). }
      unfold Seg.ne in *. cord. }
    destruct k; eauto.
Qed.

(* ------------------------------------------------------------ one join *)
Lemma glue_obs L p n R h : srt k (L ++ p :: n :: R) -> ceqb (uc (nkey p)) (lc (nkey n)) = true ->
  nval p = nval n -> nkey h = hull X k (nkey p) (nkey n) -> nval h = nval p ->
  ceqb (lc (nkey h)) (lc (nkey p)) = true /\ ceqb (uc (nkey h)) (uc (nkey n)) = true /\
  srt k (L ++ h :: R) /\ obs (L ++ h :: R) (L ++ p :: n :: R).
Proof.
  intros Hs He Hv Hh Hvh.
  pose proof Hs as Hs'. apply (srt_mid X k HX) in Hs'. destruct Hs' as (SL & SR & Np & BL & AR).
  cbn [srt] in SR. destruct SR as (Nn & FR & SR). change (above k R (uc (nkey n))) in FR.
  apply above_cons in AR. destruct AR as [A1 A2].
  assert (EL : ceqb (lc (nkey h)) (lc (nkey p)) = true).
  { rewrite Hh, hull_lc by auto. unfold cmin. unfold Seg.ne in *. ifg; cord. }
  assert (EU : ceqb (uc (nkey h)) (uc (nkey n)) = true).
  { rewrite Hh, hull_uc by auto. unfold cmax. unfold Seg.ne in *. ifg; cord. }
  split; auto. split; auto.
  assert (Nh : ne (nkey h)) by (unfold Seg.ne in *; cord).
  split.
  - apply (srt_mid X k HX). repeat split; auto.
    + apply (below_le X k HX L (lc (nkey p))); auto. cord.
    + apply (above_ge X k HX R (uc (nkey n))); auto. cord.
  - split; intros c.
    + rewrite !vr_app. f_equal. cbn [vr]. rewrite Hvh.
      unfold inr. unfold Seg.ne in *.
      repeat ifg; try congruence; exfalso; cord.
    + rewrite !vl_app. f_equal. cbn [vl]. rewrite Hvh.
      unfold inl. unfold Seg.ne in *.
      repeat ifg; try congruence; exfalso; cord.
Qed.

Lemma joinable_at t L p n R : inv k t -> nodes t = L ++ p :: n :: R ->
  joinable X k coeq t (Some (nid p)) (Some (nid n)) =
    Ok (ceqb (uc (nkey p)) (lc (nkey n)) && coeq (nval p) (nval n)).
Proof.
  intros [W S] E. unfold joinable.
  rewrite (deref_at X t L p (n :: R)) by auto. cbn [bind].
  rewrite (deref_at X t (L ++ [p]) n R) by (auto; rewrite <- app_assoc; auto). cbn [bind].
  rewrite E in S. apply (srt_mid X k HX) in S. destruct S as (_ & S & Np & _ & A).
  cbn in S. destruct S as (Nn & _). apply above_cons in A. destruct A as [A _].
  rewrite touches_ne by auto. auto.
Qed.

Lemma join_on_at t L p n R : inv k t -> nodes t = L ++ p :: n :: R ->
  ceqb (uc (nkey p)) (lc (nkey n)) = true -> coeq (nval p) (nval n) = true ->
  let t' := Tree (L ++ Node (nid p) (hull X k (nkey p) (nkey n)) (nval p) :: R) (fresh t) in
  join_on_left X k coeq t (Some (nid p)) (Some (nid n)) = Ok (t', Some (nid p)) /\
  join_on_right X k coeq t (Some (nid p)) (Some (nid n)) = Ok (t', Some (nid p)) /\ wf t'.
Proof.
  intros Hi E He Hc t'. pose proof Hi as [W S].
  assert (A : join_asserts X k coeq t (Some (nid p)) (Some (nid n)) = Ok tt).
  { unfold join_asserts.
    rewrite (key_at X t L p (n :: R)) by auto. cbn [bind].
    rewrite (key_at X t (L ++ [p]) n R) by (auto; rewrite <- app_assoc; auto). cbn [bind].
    rewrite (joinable_at t L p n R) by auto. cbn [bind].
    rewrite He, Hc. cbn [andb bind assert].
    rewrite E in S. apply (srt_mid X k HX) in S. destruct S as (_ & S & Np & _ & A).
    cbn in S. destruct S as (Nn & _). apply above_cons in A. destruct A as [A _].
    unfold exclusive_less. rewrite (ne_e _ Np), (ne_e _ Nn). cbn [orb].
    rewrite excl_core_cut by (auto; apply ne_e; auto). rewrite A. auto. }
  assert (W1 : wf (Tree (L ++ p :: R) (fresh t))).
  { apply (wf_nodes X) with (l := L ++ p :: n :: R) in W; auto.
    change (L ++ p :: n :: R) with (L ++ [p] ++ n :: R) in W. rewrite app_assoc in W.
    apply wf_cons_drop in W. rewrite <- app_assoc in W. auto. }
  assert (B : join_nodes X k t (Some (nid p)) (Some (nid n)) = Ok t').
  { unfold join_nodes.
    rewrite (key_at X t (L ++ [p]) n R) by (auto; rewrite <- app_assoc; auto). cbn [bind].
    rewrite (erase_at X t (L ++ [p]) n R) by (auto; rewrite <- app_assoc; auto). cbn [bind].
    rewrite <- app_assoc. cbn [app].
    rewrite (key_at X (Tree (L ++ p :: R) (fresh t)) L p R) by auto. cbn [bind].
    rewrite (set_key_at X (Tree (L ++ p :: R) (fresh t)) L p R) by auto. reflexivity. }
  unfold join_on_left, join_on_right. rewrite A. cbn [bind]. rewrite B. cbn [bind].
  repeat split; auto; eapply (wf_ids X); try apply W1; cbn; rewrite !ids_app, !ids_cons; auto.
Qed.

(* ------------------------------------------------------------ join_left / join_right *)
Definition ext (n n' : node) : Prop :=
  cltb (lc (nkey n)) (lc (nkey n')) = false /\ cltb (uc (nkey n')) (uc (nkey n)) = false /\ nval n' = nval n.

Lemma join_left_at t L n R : inv k t -> nodes t = L ++ n :: R -> joined k coeq L ->
  exists t' L' n', join_left X k coeq t (Some (nid n)) = Ok (t', Some (nid n')) /\
    nodes t' = L' ++ n' :: R /\ inv k t' /\ fresh t' = fresh t /\ obs (nodes t') (nodes t) /\
    joined k coeq (L' ++ [n']) /\ ext n n' /\ ceqb (uc (nkey n')) (uc (nkey n)) = true /\
    (L' = L \/ exists p, L = L' ++ [p] /\ ceqb (uc (nkey p)) (lc (nkey n)) = true).
Proof.
  intros Hi E HJ. pose proof Hi as [W S]. unfold join_left.
  replace (begin_ t) with (hd_it (L ++ n :: R)) by (unfold begin_; congruence).
  destruct L as [|p L] using rev_ind.
  - cbn [app hd_it]. rewrite iter_eqb_refl. exists t, [], n. conjs; auto; try apply obs_refl; [|unfold ext; conjs; auto; cord|cord].
    rewrite E in S. apply (srt_mid X k HX) in S. destruct S as (_ & _ & N & _).
      intros a b [<-|[]] [<-|[]] Q. unfold Seg.ne in *. cord.
  - clear IHL. replace (iter_eqb _ _) with false.
    2:{ pose proof (iter_eqb_hd X t [] (L ++ [p]) (n :: R) W E) as Q. destruct (L ++ [p]) eqn:EL; [destruct L; discriminate|].
        rewrite <- Q. cbn. apply Nat.eqb_sym. }
    rewrite <- app_assoc in E. cbn [app] in E.
    rewrite (decr_at X t L p n R) by auto. cbn [bind].
    rewrite (joinable_at t L p n R) by auto. cbn [bind].
    pose proof S as S'. rewrite E in S'. pose proof (proj1 (srt_mid X k HX _ _ _) S') as (SL & SR & Np & BL & AR).
    cbn [srt] in SR. destruct SR as (Nn & FR & SR). apply above_cons in AR. destruct AR as [A1 A2].
    match goal with |- context [if ?b then _ else _] => destruct b eqn:EJ end.
    + apply andb_true_iff in EJ. destruct EJ as [EJ EC].
      destruct (join_on_at t L p n R Hi E EJ EC) as (_ & H & W').
      set (h := Node (nid p) (hull X k (nkey p) (nkey n)) (nval p)) in *. rewrite H.
      destruct (glue_obs L p n R h) as (E1 & E2 & Sh & Oh); auto. { apply Hco; auto. }
      eexists _, L, h. cbn [nodes nid]. conjs; try reflexivity; auto.
      * split; auto.
      * rewrite E. apply Oh.
      * intros a b Ha Hb Q. apply in_app_iff in Ha, Hb.
        assert (Nh : ne (nkey h)) by (unfold Seg.ne in *; cord).
        destruct Ha as [Ha|[<-|[]]], Hb as [Hb|[<-|[]]].
        -- apply HJ; auto; rewrite in_app_iff; auto.
        -- change (nval h) with (nval p). apply HJ; auto; try (rewrite in_app_iff; cbn; auto). cord.
        -- unfold below in BL. rewrite Forall_forall in BL. specialize (BL b Hb).
           assert (ne (nkey b)) by (pose proof (srt_nes X k _ SL) as NL; unfold nes in NL; rewrite Forall_forall in NL; auto).
           unfold Seg.ne in *. cord.
        -- unfold Seg.ne in *. cord.
      * apply Hco in EC. unfold ext, Seg.ne in *. conjs; auto; cord.
      * right. exists p. auto.
    + exists t, (L ++ [p]), n. conjs; auto; try apply obs_refl; [| |unfold ext; conjs; auto; cord|cord].
      * rewrite <- app_assoc. auto.
      * intros a b Ha Hb Q. rewrite <- app_assoc in Ha, Hb. cbn [app] in Ha, Hb.
        apply in_app_iff in Ha, Hb. cbn [In] in Ha, Hb.
        assert (G : forall q, In q L -> ne (nkey q) /\ cltb (lc (nkey p)) (uc (nkey q)) = false).
        { intros q Hq. unfold below in BL. rewrite Forall_forall in BL. split; auto.
          pose proof (srt_nes X k _ SL) as NL; unfold nes in NL; rewrite Forall_forall in NL; auto. }
        destruct Ha as [Ha|[<-|[<-|[]]]], Hb as [Hb|[<-|[<-|[]]]];
          try (apply HJ; auto; rewrite in_app_iff; cbn; auto; fail);
          try (destruct (G _ Ha)); try (destruct (G _ Hb)); unfold Seg.ne in *; try (exfalso; cord).
        rewrite Q in EJ. auto.
Qed.

Lemma join_right_at t L n R : inv k t -> nodes t = L ++ n :: R -> joined k coeq (L ++ [n]) -> joined k coeq R ->
  exists t' n' R', join_right X k coeq t (Some (nid n)) = Ok (t', Some (nid n')) /\
    nodes t' = L ++ n' :: R' /\ inv k t' /\ fresh t' = fresh t /\ obs (nodes t') (nodes t) /\
    joined k coeq (nodes t') /\ ext n n' /\
    (R' = R \/ exists s, R = s :: R' /\ ceqb (uc (nkey n)) (lc (nkey s)) = true /\ coeq (nval n) (nval s) = true).
Proof.
  intros Hi E HJL HJR. pose proof Hi as [W S]. unfold join_right, end_. cbn [iter_eqb].
  rewrite (incr_at X t L n R) by auto. cbn [bind].
  destruct R as [|s R].
  - cbn. exists t, n, []. conjs; auto; try apply obs_refl; [|unfold ext; conjs; auto; cord]. rewrite E. auto.
  - cbn [hd_it iter_eqb].
    rewrite (joinable_at t L n s R) by auto. cbn [bind].
    pose proof S as S'. rewrite E in S'. pose proof (proj1 (srt_mid X k HX _ _ _) S') as (SL & SR & Np & BL & AR).
    cbn [srt] in SR. destruct SR as (Nn & FR & SR). apply above_cons in AR. destruct AR as [A1 A2].
    assert (G : forall q, In q L -> ne (nkey q) /\ cltb (lc (nkey n)) (uc (nkey q)) = false).
    { intros q Hq. unfold below in BL. rewrite Forall_forall in BL. split; auto.
      pose proof (srt_nes X k _ SL) as NL; unfold nes in NL; rewrite Forall_forall in NL; auto. }
    assert (G2 : forall q, In q R -> ne (nkey q) /\ cltb (lc (nkey q)) (uc (nkey s)) = false).
    { intros q Hq. rewrite Forall_forall in FR. split; auto.
      pose proof (srt_nes X k _ SR) as NL; unfold nes in NL; rewrite Forall_forall in NL; auto. }
    match goal with |- context [if ?b then _ else _] => destruct b eqn:EJ end.
    + apply andb_true_iff in EJ. destruct EJ as [EJ EC].
      destruct (join_on_at t L n s R Hi E EJ EC) as (H & _ & W').
      set (h := Node (nid n) (hull X k (nkey n) (nkey s)) (nval n)) in *. rewrite H.
      destruct (glue_obs L n s R h) as (E1 & E2 & Sh & Oh); auto. { apply Hco; auto. }
      pose proof EC as EC'. apply Hco in EC.
      eexists _, h, R. cbn [nodes nid]. conjs; try reflexivity; auto.
      * split; auto.
      * rewrite E. apply Oh.
      * intros a b Ha Hb Q. apply in_app_iff in Ha, Hb. cbn [In] in Ha, Hb.
        destruct Ha as [Ha|[<-|Ha]], Hb as [Hb|[<-|Hb]];
          try (destruct (G _ Ha)); try (destruct (G _ Hb)); try (destruct (G2 _ Ha)); try (destruct (G2 _ Hb));
          unfold Seg.ne in *; try (exfalso; cord).
        -- apply HJL; auto; rewrite in_app_iff; auto.
        -- change (nval h) with (nval n). apply HJL; auto; try (rewrite in_app_iff; cbn; auto). cord.
        -- change (nval h) with (nval n). rewrite EC. apply HJR; cbn; auto. cord.
        -- apply HJR; cbn; auto.
      * unfold ext, Seg.ne in *. conjs; auto; cord.
      * right. exists s. auto.
    + exists t, n, (s :: R). conjs; auto; try apply obs_refl; [|unfold ext; conjs; auto; cord]. rewrite E.
      intros a b Ha Hb Q. apply in_app_iff in Ha, Hb. cbn [In] in Ha, Hb.
      destruct Ha as [Ha|[<-|[<-|Ha]]], Hb as [Hb|[<-|[<-|Hb]]];
        try (apply HJL; auto; rewrite in_app_iff; cbn; auto; fail);
        try (apply HJR; auto; cbn; auto; fail);
        try (destruct (G _ Ha)); try (destruct (G _ Hb)); try (destruct (G2 _ Ha)); try (destruct (G2 _ Hb));
        unfold Seg.ne in *; try (exfalso; cord).
      rewrite Q in EJ. auto.
Qed.

Lemma join_neighbours_at t L n R : inv k t -> nodes t = L ++ n :: R -> joined k coeq L -> joined k coeq R ->
  exists t' L' n' R', join_neighbours X k coeq t (Some (nid n)) = Ok (t', Some (nid n')) /\
    nodes t' = L' ++ n' :: R' /\ inv k t' /\ fresh t' = fresh t /\ obs (nodes t') (nodes t) /\
    joined k coeq (nodes t') /\ ext n n' /\
    (R' = R \/ exists s, R = s :: R' /\ ceqb (uc (nkey n)) (lc (nkey s)) = true /\ coeq (nval n) (nval s) = true) /\
    (L' = L \/ exists p, L = L' ++ [p] /\ ceqb (uc (nkey p)) (lc (nkey n)) = true).
Proof.
  intros Hi E HL HR. unfold join_neighbours.
  destruct (join_left_at t L n R Hi E HL) as (t1 & L1 & n1 & -> & E1 & I1 & F1 & O1 & J1 & X1 & U1 & LL1). cbn [bind].
  destruct (join_right_at t1 L1 n1 R I1 E1 J1 HR) as (t2 & n2 & R2 & -> & E2 & I2 & F2 & O2 & J2 & X2 & Y2).
  exists t2, L1, n2, R2. conjs; auto; try congruence.
  - eapply obs_trans; eauto.
  - destruct X1 as (? & ? & ?), X2 as (? & ? & ?). unfold ext; conjs; try congruence; cord.
  - destruct Y2 as [->|(s & -> & Y2 & Z2)]; [auto|right; exists s; split; auto; split; [cord|]].
    destruct X1 as (_ & _ & V1). congruence.
Qed.

(* ------------------------------------------------------------ join_under *)
Lemma hull_e_l a b : is_empty X k a = true -> is_empty X k b = false -> hull X k a b = b.
Proof. intros H1 H2. unfold hull. rewrite H1, H2. auto. Qed.
Lemma hull_e_r a b : is_empty X k b = true -> hull X k a b = a.
Proof. intros H. unfold hull. rewrite H. auto. Qed.

(** the interval that join_under leaves covers the addend and everything it overlaps *)
Definition under (m q a : I) : I :=
  hull X k (hull X k (right_subtract X k m a) a) (left_subtract X k q a).

Definition is_min (c a b : cut) : Prop :=
  cltb a c = false /\ cltb b c = false /\ (ceqb c a = true \/ ceqb c b = true).
Definition is_max (c a b : cut) : Prop :=
  cltb c a = false /\ cltb c b = false /\ (ceqb c a = true \/ ceqb c b = true).

Lemma under_cut m q a : ne m -> ne q -> ne a ->
  cltb (lc a) (uc m) = true -> cltb (lc q) (uc a) = true -> 
  is_min (lc (under m q a)) (lc m) (lc a) /\ is_max (uc (under m q a)) (uc q) (uc a).
Proof.
  intros Nm Nq Na H1 H2. unfold under, is_min, is_max.
  set (l := right_subtract X k m a). set (r := left_subtract X k q a).
  assert (A : (cltb (lc m) (lc a) = false /\ hull X k l a = a) \/
              (cltb (lc m) (lc a) = true /\ ne (hull X k l a) /\ ceqb (lc (hull X k l a)) (lc m) = true /\ ceqb (uc (hull X k l a)) (uc a) = true)).
  { destruct (cltb (lc m) (lc a)) eqn:E; [right|left]; split; auto.
    - destruct (rsub_ne m a) as [Q1 Q2]; auto. fold l in Q1, Q2.
      assert (Nl : ne l) by (unfold Seg.ne in *; rewrite Q1; cord).
      unfold Seg.ne. rewrite hull_lc, hull_uc by auto. rewrite Q1. unfold cmin, cmax, Seg.ne in *.
      conjs; repeat ifg; cord.
    - apply hull_e_l; [apply rsub_e; auto|apply ne_e; auto]. }
  assert (Nh : ne (hull X k l a)) by (destruct A as [[_ ->]|(_ & ? & _)]; auto).
  assert (B : ceqb (uc (hull X k l a)) (uc a) = true).
  { destruct A as [[_ ->]|(_ & _ & _ & ?)]; auto. cord. }
  assert (C : is_min (lc (hull X k l a)) (lc m) (lc a)).
  { unfold is_min. destruct A as [[? ->]|(? & _ & ? & ?)]; conjs; cord. }
  destruct (cltb (uc a) (uc q)) eqn:E.
  - destruct (lsub_ne q a) as [Q1 Q2]; auto. fold r in Q1, Q2.
    assert (Nr : ne r) by (unfold Seg.ne in *; rewrite Q2; cord).
    rewrite hull_lc, hull_uc by auto. rewrite Q2. unfold cmin, cmax, is_min, Seg.ne in *.
    conjs; repeat ifg; cord.
  - rewrite (hull_e_r (hull X k l a) r); [|apply lsub_e; auto].
    unfold is_min, Seg.ne in *. conjs; cord.
Qed.

Lemma join_under_at (t : tree) L M R m M' Q q a : inv k t -> nodes t = L ++ M ++ R -> ne a ->
  below k L (lc a) -> Forall (over k a) M -> above k R (uc a) -> M = m :: M' -> M = Q ++ [q] ->
  let h := Node (nid m) (under (nkey m) (nkey q) a) (nval m) in
  join_under X k t a (Some (nid q)) = Ok (Tree (L ++ h :: R) (fresh t), Some (nid m)) /\
  wf (Tree (L ++ h :: R) (fresh t)).
Proof.
  intros [W S] E Na BL OM AR E1 E2 h. unfold join_under.
  assert (Em : nodes t = L ++ m :: M' ++ R) by (rewrite E, E1; auto).
  assert (Eq : nodes t = (L ++ Q) ++ q :: R) by (rewrite E, E2, <- !app_assoc; auto).
  assert (EM : nodes t = (L ++ [m]) ++ M' ++ R) by (rewrite Em, <- app_assoc; auto).
  rewrite (lower_bound_at X k HX t L (M ++ R)); auto.
  2:{ apply (overl_MR X k HX); auto. rewrite E in S. apply (srt_app X k) in S. tauto. }
  rewrite E1. cbn [bind app Tree.hd_it].
  rewrite (incr_at X t L m (M' ++ R)) by auto. cbn [bind].
  rewrite (incr_at X t (L ++ Q) q R) by auto. cbn [bind].
  rewrite (key_at X t L m (M' ++ R)) by auto. cbn [bind].
  rewrite (key_at X t (L ++ Q) q R) by auto. cbn [bind].
  rewrite (erase_range_at X t (L ++ [m]) M' R) by auto. cbn [bind].
  assert (W1 : wf (Tree (L ++ m :: R) (fresh t))).
  { apply (wf_nodes X) with (l := (L ++ [m]) ++ M' ++ R) in W; auto.
    apply wf_drop in W. rewrite <- app_assoc in W. auto. }
  rewrite <- app_assoc. cbn [app].
  rewrite (set_key_at X (Tree (L ++ m :: R) (fresh t)) L m R) by auto. cbn [bind fresh].
  split; auto. eapply (wf_ids X); [apply W1|]. rewrite !ids_app, !ids_cons. auto.
Qed.

Lemma M_ends {A} (M : list A) : M <> [] -> exists m M' Q q, M = m :: M' /\ M = Q ++ [q].
Proof.
  intros H. destruct M as [|m M]; [congruence|].
  destruct (exists_last H) as (Q & q & E). exists m, M, Q, q. auto.
Qed.

(** everything in M lies between the borders of its first and last node *)
Lemma M_range (M : list node) m M' Q q : srt k M -> M = m :: M' -> M = Q ++ [q] ->
  above k M (lc (nkey m)) /\ below k M (uc (nkey q)).
Proof.
  intros S E1 E2. split.
  - rewrite E1 in *. destruct S as (N & F & S). apply above_cons. split; [cord|].
    apply (above_ge X k HX M' (uc (nkey m))); auto. unfold Seg.ne in *. cord.
  - rewrite E2 in *. apply (srt_mid X k HX) in S. destruct S as (_ & _ & N & B & _).
    apply below_app. split.
    + apply (below_le X k HX Q (lc (nkey q))); auto. unfold Seg.ne in *. cord.
    + apply below_cons. split; [cord|constructor].
Qed.
End JoinFacts.
Arguments obs {X} k {V}. Arguments ext {X} k {V}. Arguments under {X} k. Arguments is_min {X}. Arguments is_max {X}.

(** How many segments & of maps can have (proofs): every segment of the result begins at a border of an operand, inside both of them. *)
From Verif Require Import SetThms MapThms MapCuts MapReach SetWhole SetFlip LookSpec MapWhole SizeThms SegElem.
From Verif Require Import MapModel.

Section AndSize.
Context (X : dom) (k : kind) (HX : dom_ok X k).
Context (M : mtype).
Notation CC := (mt_co M).
Notation V := (C CC).
Context (Hco : forall v w : CC, cc_eq v w = true <-> v = w).
Notation I := (itv (D X)).
Notation node := (node (D X) V).
Notation tree := (tree (D X) V).
Notation lc := (lc X k).
Notation uc := (uc X k).
Notation cltb := (cltb X).
Notation ceqb := (ceqb X).
Notation ne := (@ne X k).
Notation minv := (minv X k M).
Notation core := (core X k).
Notation step := (step X k M).
Notation isin := (isin X).
Ltac cord := cord_ X k HX.

Definition lims {W} (l : list (Tree.node (D X) W)) : list (cut X) := map (fun n => lc (nkey n)) l ++ map (fun n => uc (nkey n)) l.
Lemma lims_lc {W} (l : list (Tree.node (D X) W)) n : In n l -> In (lc (nkey n)) (lims l).
Proof. intros H. apply in_app_iff. left. apply (in_map (fun n => lc (nkey n))). auto. Qed.
Lemma lims_uc {W} (l : list (Tree.node (D X) W)) n : In n l -> In (uc (nkey n)) (lims l).
Proof. intros H. apply in_app_iff. right. apply (in_map (fun n => uc (nkey n))). auto. Qed.
Lemma not_inside {W} (l : list (Tree.node (D X) W)) c : srt k l -> isin c (lims l) -> intr k l c = false.
Proof.
  intros S (q & Hq & E). destruct (intr k l c) eqn:Q; auto. exfalso. apply (intr_true X k) in Q. destruct Q as (m & Hm & Q).
  pose proof (srt_nes X k l S) as N. unfold nes in N. rewrite Forall_forall in N. apply in_app_iff in Hq. destruct Hq as [Hq|Hq]; apply in_map_iff in Hq; destruct Hq as (n & <- & Hn).
  - specialize (N n Hn). assert (n = m). { apply (srt_uniq_r X k HX l n m c); auto; unfold inr, ini, Seg.ne in *; cord. } subst m. unfold ini in Q. cord.
  - pose proof (N n Hn) as Nn. pose proof (N m Hm) as Nm. apply in_split in Hn. destruct Hn as (l1 & l2 & ->). apply (srt_mid X k HX) in S. destruct S as (_ & _ & _ & B & A).
    apply in_app_iff in Hm. unfold Seg.below, Seg.above in *. rewrite Forall_forall in A, B. unfold ini, Seg.ne in *. destruct Hm as [Hm|[->|Hm]]; [specialize (B m Hm)| |specialize (A m Hm)]; cord.
Qed.

(** steps of splitting maps join nothing outside of [a] *)
Definition cstep (a : I) (s s' : tree) : Prop := step a s s' /\
  (spl M = true -> forall c, intr k (nodes s') c = true -> intr k (nodes s) c = true \/ (ne a /\ ini k a c = true)).
Lemma cstep_id a s : cstep a s s.
Proof. split; [left; auto|auto]. Qed.
Lemma post_cstep a g s s' : minv s -> minv s' -> ne a -> post k (spl M) (lc a) (uc a) g (nodes s) (nodes s') -> cstep a s s'.
Proof.
  intros H H' Na P. split; [right; split; auto; eapply (post_core X k HX M Hco); eauto|]. intros Sp c B. destruct P as (_ & N & _). rewrite (N Sp c) in B. unfold ini.
  destruct (cltb (lc a) c && cltb c (uc a)); auto.
  all: left; apply andb_true_iff in B; destruct B as [B _]; apply andb_true_iff in B; tauto.
Qed.
Lemma add_cstep f t a x : minv t -> exists t' it, m_add_ X k M f t a x = Ok (t', it) /\ minv t' /\ isit t' it /\ cstep a t t'.
Proof.
  intros H. destruct (is_empty X k a) eqn:Ea.
  { unfold m_add_. rewrite Ea. eexists _, _. split; [reflexivity|]. conjs; auto using isit_end, cstep_id. }
  destruct (is_absorbable M x) eqn:Ex.
  { unfold m_add_. rewrite Ea, Ex. eexists _, _. split; [reflexivity|]. conjs; auto using isit_end, cstep_id. }
  assert (Na : ne a) by (apply (ne_iff X k HX); auto).
  destruct (add_at_ X k HX M Hco f t a x) as (t' & it & E & H1 & H2 & H3); auto.
  exists t', it. conjs; auto. eapply post_cstep; eauto.
Qed.
Lemma add_hint_cstep f t h a x : minv t -> isit t h -> exists t' it, m_add_hint_ X k M f t h a x = Ok (t', it) /\ minv t' /\ isit t' it /\ cstep a t t'.
Proof.
  intros H Hh. destruct (is_empty X k a) eqn:Ea.
  { unfold m_add_hint_. rewrite Ea. eexists _, _. split; [reflexivity|]. conjs; auto using cstep_id. }
  destruct (is_absorbable M x) eqn:Ex.
  { unfold m_add_hint_. rewrite Ea, Ex. eexists _, _. split; [reflexivity|]. conjs; auto using cstep_id. }
  assert (Na : ne a) by (apply (ne_iff X k HX); auto). pose proof H as [[W S] HJ].
  destruct (decomp X k HX a (nodes t) S Na) as (L & N & R & E & BL & ON & AR). destruct N as [|m N'] eqn:EN.
  - destruct (add_hint_at_free X k HX M Hco f t h L R a x) as (t' & it & E' & H1 & H2 & H3); auto.
    exists t', it. conjs; auto. eapply post_cstep; eauto.
  - destruct (add_hint_over_any X k HX M Hco f t h L (m :: N') R a x) as (t' & it & g & E' & H1 & H2 & H3 & H4); auto; try discriminate.
    exists t', it. conjs; auto. eapply post_cstep; eauto.
Qed.

Section Operand.
Context {W : Type} (t : list node) (o : list (Tree.node (D X) W)).
Definition fits (s : list node) : Prop := forall c, (Rb k s c = true -> Rb k t c = true /\ Rb k o c = true) /\ (bord k s c = true -> isin c (lims t ++ lims o)) /\
  (spl M = true -> intr k s c = true -> intr k t c = true /\ intr k o c = true).
Lemma fits_nil : fits [].
Proof. intros c. repeat split; discriminate. Qed.
Lemma fits_step n m s s' : In n t -> In m o -> ne (nkey n) -> ne (nkey m) -> cstep (inter X k (nkey n) (nkey m)) s s' -> fits (nodes s) -> fits (nodes s').
Proof.
  intros Hn Hm Nn Nm [[->|[Ni CR]] IS] F; auto. intros c. destruct (F c) as (F1 & F2 & F3). conjs.
  - intros R. destruct (CR c) as (C1 & _ & C3 & _). destruct (inr k (inter X k (nkey n) (nkey m)) c) eqn:E.
    + destruct (inter_obs X k HX (nkey n) (nkey m) c Nn Nm) as (E' & _). rewrite E' in E. apply andb_true_iff in E. destruct E as [E1 E2].
      split; apply Rb_iff; eauto.
    + apply F1. destruct (ceqb c (uc (inter X k (nkey n) (nkey m)))) eqn:E2; [rewrite <- C3; auto|].
      destruct C1 as (Q & _ & _); [|congruence]. unfold inr in E. clear - E E2 HX. cord.
  - intros B. destruct (core_bord X k HX _ _ _ _ CR c B) as [Q|(q & Hq & E)]; auto. exists q. split; auto. apply in_app_iff.
    rewrite (inter_lc X k HX), (inter_uc X k HX) in Hq by auto. unfold IntervalFacts.cmin, IntervalFacts.cmax in Hq.
    destruct Hq as [<-|[<-|[]]]; match goal with |- context [if ?b then _ else _] => destruct b end; auto using lims_lc, lims_uc.
  - intros Sp B. destruct (IS Sp c B) as [P|[_ P]]; auto. destruct (inter_obs X k HX (nkey n) (nkey m) c Nn Nm) as (_ & _ & E). rewrite E in P.
    apply andb_true_iff in P. destruct P. split; apply (intr_true X k); eauto.
Qed.
Lemma fits_size s : srt k t -> srt k o -> srt k s -> fits s -> length s <= length t + length o.
Proof.
  intros St So Ss F. rewrite <- (map_length (fun n => lc (nkey n)) o). apply (count_starts X k HX); auto. intros c H. destruct (F c) as (F1 & F2 & _).
  unfold starts in H. apply andb_true_iff in H. destruct H as [H1 H2]. destruct (F1 H1) as [R1 R2].
  assert (B : bord k s c = true) by (unfold bord; rewrite H1, H2, orb_true_r; auto). apply F2 in B. apply isin_app in B. destruct B as [B|B].
  - left. apply (starts_in X k HX). unfold starts. rewrite R1, (not_inside t c St B). auto.
  - right. apply in_starts; auto. unfold starts. rewrite R2, (not_inside o c So B). auto.
Qed.
Lemma fits_segs s x y : srt k t -> srt k o -> srt k s -> fits s -> spl M = true -> le x y ->
  (same_seg X k (map nkey s) x y <-> Rb k s (pt X x) = true /\ same_seg X k (map nkey t) x y /\ same_seg X k (map nkey o) x y).
Proof.
  intros St So Ss F Sp L. split.
  - rewrite !(same_seg_cut X k HX) by auto. intros [A B]. destruct (F (pt X x)) as (F1 & _). destruct (F1 A) as [A1 A2]. conjs; auto; intros c C1 C2 C3;
      destruct (F c) as (_ & _ & F3); apply F3; auto.
  - intros (A & B & C). apply (Rb_mem X k HX) in A. destruct A as (n & Hn & Mx).
    destruct (inr k (nkey n) (pt X y)) eqn:My. { exists (nkey n). conjs; auto. { apply in_map. auto. } apply (mem_inr X k HX). auto. } exfalso.
    rewrite (same_seg_cut X k HX) in B by auto. rewrite (same_seg_cut X k HX) in C by auto. destruct B as [_ B], C as [_ C].
    pose proof (srt_nes X k s Ss) as N. unfold nes in N. rewrite Forall_forall in N. specialize (N n Hn).
    assert (Bd : bord k s (uc (nkey n)) = true).
    { unfold bord. rewrite (not_inside s (uc (nkey n)) Ss). 2:{ exists (uc (nkey n)). split; [apply lims_uc; auto|cord]. }
      replace (Lb k s (uc (nkey n))) with true; auto. symmetry. apply Lb_iff. exists n. split; auto. unfold inl, Seg.ne in *. cord. }
    assert (C1 : cltb (pt X x) (uc (nkey n)) = true) by (rewrite (mem_inr X k HX) in Mx; unfold inr in Mx; cord).
    assert (C2 : cltb (pt X y) (uc (nkey n)) = false).
    { rewrite (mem_inr X k HX) in Mx. unfold inr in *. rewrite (le_pt X) in L. cord. }
    specialize (B _ (uc_ok X k (nkey n)) C1 C2). specialize (C _ (uc_ok X k (nkey n)) C1 C2). destruct (F (uc (nkey n))) as (_ & F2 & _).
    apply F2 in Bd. apply isin_app in Bd. destruct Bd as [Bd|Bd]; apply not_inside in Bd; auto; congruence.
Qed.
End Operand.

Lemma over_in {U} (t : Tree.tree (D X) U) a : inv k t -> ne a -> exists N f p, equal_range X k t a = Ok (f, p) /\
  (iter_eqb f p = false -> range X t f p = Ok N) /\ List.incl N (nodes t).
Proof.
  intros [Wf S] Na. destruct (decomp X k HX a (nodes t) S Na) as (L & N & R & E & BL & ON & AR). exists N, (Tree.hd_it (N ++ R)), (Tree.hd_it R). conjs.
  - apply (SetWhole.equal_range_at X k HX t L N R); auto.
  - intros _. apply (range_at X t L N R); auto.
  - rewrite E. intros n Hn. rewrite !in_app_iff. auto.
Qed.
Lemma minv_node t n : minv t -> In n (nodes t) -> ne (nkey n).
Proof. intros [[_ S] _] Hn. pose proof (srt_nes X k _ S) as N. unfold nes in N. rewrite Forall_forall in N. auto. Qed.

Lemma and_itv_fits {W} (o : list (Tree.node (D X) W)) t m s : minv t -> In m o -> ne (nkey m) -> minv s -> fits (nodes t) o (nodes s) ->
  exists s', m_add_intersection_itv X k M s t (nkey m) = Ok s' /\ minv s' /\ fits (nodes t) o (nodes s').
Proof.
  intros Ht Hm Nm Hs F. unfold m_add_intersection_itv. assert (Ea : is_empty X k (nkey m) = false) by (apply (ne_iff X k HX); auto). rewrite Ea.
  destruct (over_in t (nkey m) (proj1 Ht) Nm) as (N & f & p & -> & ER & IN). cbn [bind]. destruct (iter_eqb f p). { exists s. auto. }
  rewrite (ER eq_refl). cbn [bind].
  assert (G : forall l s h, List.incl l (nodes t) -> minv s -> isit s h -> fits (nodes t) o (nodes s) -> exists s' h',
    foldM (fun '(s, prior_) n => let common_interval := inter X k (nkey n) (nkey m) in
             if negb (is_empty X k common_interval) then m_add_hint X k M s prior_ common_interval (nval n) else Ok (s, prior_)) (s, h) l = Ok (s', h') /\
    minv s' /\ fits (nodes t) o (nodes s')).
  { induction l as [|n l IH]; intros s0 h Hl H0 Hh F0; cbn [foldM]. { exists s0, h. auto. }
    assert (Hn : In n (nodes t)) by (apply Hl; cbn; auto). assert (Hl' : List.incl l (nodes t)) by (intros x Hx; apply Hl; cbn; auto).
    cbv zeta. destruct (negb (is_empty X k (inter X k (nkey n) (nkey m)))); cbn [bind]; [|apply IH; auto].
    unfold m_add_hint at 1. destruct (add_hint_cstep (codomain_combine M) s0 h (inter X k (nkey n) (nkey m)) (nval n) H0 Hh) as (s1 & h1 & -> & I1 & J1 & S1). cbn [bind].
    apply IH; auto. apply (fits_step _ _ n m s0 s1); auto. apply (minv_node t); auto. }
  destruct (G N s (end_ s) IN Hs Logic.I F) as (s' & h' & E & I' & F'). exists s'. split; [exact (f_equal (fun r => bind r (fun '(s, _) => Ok s)) E)|auto].
Qed.
Lemma and_seg_fits {W} (o : list (Tree.node (D X) W)) t m v s : minv t -> In m o -> ne (nkey m) -> minv s -> fits (nodes t) o (nodes s) ->
  exists s', m_partial_add_intersection X k M s t (nkey m) v = Ok s' /\ minv s' /\ fits (nodes t) o (nodes s').
Proof.
  intros Ht Hm Nm Hs F. unfold m_partial_add_intersection. assert (Ea : is_empty X k (nkey m) = false) by (apply (ne_iff X k HX); auto). rewrite Ea.
  destruct (over_in t (nkey m) (proj1 Ht) Nm) as (N & f & p & -> & ER & IN). cbn [bind]. destruct (iter_eqb f p). { exists s. auto. }
  rewrite (ER eq_refl). cbn [bind]. clear ER f p. revert s Hs F. induction N as [|n l IH]; intros s0 H0 F0; cbn [foldM]. { exists s0. auto. }
  assert (Hn : In n (nodes t)) by (apply IN; cbn; auto). assert (Hl' : List.incl l (nodes t)) by (intros x Hx; apply IN; cbn; auto). specialize (IH Hl').
  cbv zeta. destruct (negb (is_empty X k (inter X k (nkey n) (nkey m)))); cbn [bind]; [|apply IH; auto].
  destruct (add_cstep (codomain_combine M) s0 (inter X k (nkey n) (nkey m)) (nval n) H0) as (s1 & h1 & -> & I1 & _ & S1). cbn [bind].
  destruct (add_cstep (codomain_intersect M) s1 (inter X k (nkey n) (nkey m)) v I1) as (s2 & h2 & -> & I2 & _ & S2). cbn [bind].
  assert (Nn : ne (nkey n)) by (apply (minv_node t); auto).
  apply IH; auto. apply (fits_step _ _ n m s1 s2); auto. apply (fits_step _ _ n m s0 s1); auto.
Qed.
Lemma and_common {W} (F : tree -> Tree.node (D X) W -> res tree) t (o : Tree.tree (D X) W) : minv t -> inv k o ->
  (forall s m, minv s -> In m (nodes o) -> ne (nkey m) -> fits (nodes t) (nodes o) (nodes s) -> exists s', F s m = Ok s' /\ minv s' /\ fits (nodes t) (nodes o) (nodes s')) ->
  exists s',
  (match nodes o with
   | [] => Ok t_empty
   | _ =>
      cr <- common_range X k o t ;;
      match cr with
      | None => Ok t_empty
      | Some (lwb, upb) => l <- range X o lwb upb ;; foldM F t_empty l
      end
   end) = Ok s' /\ minv s' /\ fits (nodes t) (nodes o) (nodes s').
Proof.
  intros Ht Ho HF. destruct (common_range_at X k HX o t Ho (proj1 Ht)) as (L & N & R & r & E & EN & _ & _ & H).
  assert (N0 : nes k (nodes o)) by (apply (srt_nes X k); apply Ho). unfold nes in N0. rewrite Forall_forall in N0.
  assert (H0 : minv t_empty) by apply (minv_empty X k M).
  assert (G : forall l s, List.incl l (nodes o) -> minv s -> fits (nodes t) (nodes o) (nodes s) -> exists s', foldM F s l = Ok s' /\ minv s' /\ fits (nodes t) (nodes o) (nodes s')).
  { induction l as [|n l IH]; intros s Hl Hs Fs; cbn [foldM]. { exists s. auto. }
    assert (Hn : In n (nodes o)) by (apply Hl; cbn; auto).
    destruct (HF s n Hs Hn (N0 n Hn) Fs) as (s1 & -> & I1 & F1). cbn [bind]. apply IH; auto. intros x Hx. apply Hl. cbn. auto. }
  destruct (nodes o) as [|n0 l0] eqn:Eo. { exists t_empty. conjs; auto. apply fits_nil. }
  rewrite E. cbn [bind]. destruct H as [(-> & ->)|(-> & _)]. { exists t_empty. conjs; auto. apply fits_nil. }
  rewrite <- Eo in *. rewrite (range_at X o L N R) by (auto; apply Ho). cbn [bind].
  destruct (G N t_empty) as (s' & E' & I' & F'); auto. { rewrite EN. intros x Hx. rewrite !in_app_iff. auto. } { apply fits_nil. }
  exists s'. auto.
Qed.

(** total maps: two additions *)
Lemma add_map_within t o : minv t -> exists t', m_add_map X k M t o = Ok t' /\ minv t' /\ SizeThms.within X k M t (nodes o) t'.
Proof.
  intros Ht. unfold m_add_map.
  assert (G : forall l t h, minv t -> isit t h -> exists t' h', foldM (fun '(t, prior_) n => m_add_hint X k M t prior_ (nkey n) (nval n)) (t, h) l = Ok (t', h') /\ minv t' /\ SizeThms.within X k M t l t').
  { induction l as [|n l IH]; intros t0 h H0 Hh; cbn [foldM].
    - exists t0, h. conjs; auto. apply within_nil.
    - unfold m_add_hint at 1. destruct (add_hint_step X k HX M Hco (codomain_combine M) t0 h (nkey n) (nval n) H0 Hh) as (t1 & h1 & -> & I1 & Hh1 & S1). cbn [bind].
      destruct (IH t1 h1 I1 Hh1) as (t' & h' & E & I' & W). exists t', h'. conjs; auto. eapply (within_cons X k HX M); eauto. }
  destruct (G (nodes o) t (end_ t) Ht Logic.I) as (t' & h' & E & I' & W). rewrite E. cbn [bind]. exists t'. conjs; auto.
Qed.
Lemma lims_size {W} (t : list node) (o : list (Tree.node (D X) W)) (s : list node) : srt k s -> (forall c, bord k s c = true -> isin c (lims t ++ lims o)) -> length s <= 2 * length t + 2 * length o.
Proof.
  intros S H. replace (2 * length t + 2 * length o) with (length (@nil node) + length (lims t ++ lims o)).
  2:{ unfold lims. cbn [length]. rewrite !app_length, !map_length. lia. }
  apply (count_starts X k HX); auto. intros c Q. right. apply H. unfold starts in Q. unfold bord. apply andb_true_iff in Q. destruct Q as [-> ->]. rewrite orb_true_r. auto.
Qed.
Lemma total_and_map t o : minv t -> exists s', (s <- m_add_map X k M t_empty t ;; m_add_map X k M s o) = Ok s' /\ minv s' /\ length (nodes s') <= 2 * length (nodes t) + 2 * length (nodes o).
Proof.
  intros Ht. destruct (add_map_within t_empty t (minv_empty X k M)) as (s & -> & I1 & W1). cbn [bind]. destruct (add_map_within s o I1) as (s' & E & I' & W2).
  exists s'. conjs; auto. apply lims_size; [apply I'|]. intros c B. apply isin_app. destruct (W2 c B) as [Q|Q]; auto. destruct (W1 c Q) as [Q'|Q']; auto. discriminate.
Qed.
Lemma total_and_seg t a v : minv t -> exists s', m_total_add_intersection X k M t_empty t a v = Ok s' /\ minv s' /\ length (nodes s') <= 2 * length (nodes t) + 2.
Proof.
  intros Ht. unfold m_total_add_intersection, m_add. destruct (add_map_within t_empty t (minv_empty X k M)) as (s & -> & I1 & W1). cbn [bind].
  destruct (add_step X k HX M Hco (codomain_combine M) s a v I1) as (s' & h & -> & I' & _ & S). cbn [bind]. exists s'. conjs; auto.
  change 2 with (2 * length [Node 0 a v]) at 2. apply lims_size; [apply I'|]. intros c B. apply isin_app.
  assert (Q : bord k (nodes s) c = true \/ isin c [lc a; uc a]). { destruct S as [->|[_ S]]; auto. apply (core_bord X k HX _ _ _ _ S); auto. }
  destruct Q as [Q|Q]; auto. left. destruct (W1 c Q) as [Q'|Q']; auto. discriminate.
Qed.
End AndSize.

Section AndReach.
Context (X : dom) (k : kind) (HX : dom_ok X k) (CC : codomain) (Hco : eq_ok CC).
Notation mreach := (mreach X k CC).
Notation count t := (interval_count X t).

Lemma fits_reach {W} p t (o : tree (D X) W) t' : minv X k (mt CC p) t -> inv k o -> minv X k (mt CC p) t' -> fits X k (mt CC p) (nodes t) (nodes o) (nodes t') ->
  count t' <= count t + count o /\ (mp_style p = MSplit -> forall x y, le x y -> (same_seg X k (keys X t') x y <->
    cmem X k t' x /\ same_seg X k (keys X t) x y /\ same_seg X k (keys X o) x y)).
Proof.
  intros I Io I' F. split. { unfold interval_count. apply (fits_size X k HX (mt CC p) (nodes t) (nodes o)); auto; [apply I|apply Io|apply I']. }
  intros Sp x y L. assert (Sp' : spl (mt CC p) = true) by (unfold spl; cbn; rewrite Sp; auto).
  pose proof (fits_segs X k HX (mt CC p) (nodes t) (nodes o) (nodes t') x y (proj2 (proj1 I)) (proj2 Io) (proj2 (proj1 I')) F Sp' L) as Q.
  unfold keys. cbn [mt_co mt] in *. rewrite Q, (Rb_mem X k HX). unfold cmem, keys.
  assert (E : (exists n, In n (nodes t') /\ mem X k (nkey n) x) <-> (exists a, In a (map nkey (nodes t')) /\ mem X k a x)); [|tauto].
  split; [intros (n & Hn & Mn); exists (nkey n); split; auto; apply in_map; auto|]. intros (a & Ha & Ma). apply in_map_iff in Ha. destruct Ha as (n & <- & Hn). eauto.
Qed.
(** one segment as a tree *)
Definition one (a : itv (D X)) : tree (D X) unit := Tree [Node 0 a tt] 1.
Lemma one_inv a : ne k a -> inv k (one a).
Proof. intros Na. split; [|cbn; auto]. repeat constructor; cbn; auto. Qed.
Lemma one_seg a x y : same_seg X k (keys X (one a)) x y <-> mem X k a x /\ mem X k a y.
Proof. split; [intros (b & [<-|[]] & Q); auto|]. intros Q. exists a. split; cbn; auto. Qed.
Theorem and_itv_reach p t a : mreach p t -> exists t', m_and_itv X k (mt CC p) t a = Ok t' /\
  count t' <= count t + 1 /\ (mp_style p = MSplit -> forall x y, le x y -> (same_seg X k (keys X t') x y <->
    cmem X k t' x /\ same_seg X k (keys X t) x y /\ mem X k a x /\ mem X k a y)).
Proof.
  intros R. pose proof (mreach_minv X k HX CC Hco p t R) as I. unfold m_and_itv. destruct (is_empty X k a) eqn:Ea.
  { exists t_empty. unfold m_add_intersection_itv. rewrite Ea. conjs; auto. { cbn. lia. } intros _ x y _. split; [intros (b & [] & _)|intros ((b & [] & _) & _)]. }
  assert (Na : ne k a) by (apply (ne_iff X k HX); auto).
  destruct (and_itv_fits X k HX (mt CC p) Hco (nodes (one a)) t (Node 0 a tt) t_empty) as (t' & E & I' & F); auto; [cbn; auto|apply minv_empty|apply fits_nil|].
  exists t'. split; auto. destruct (fits_reach p t (one a) t' I (one_inv a Na) I' F) as [L B]. split; auto. intros Sp x y Lxy. rewrite (B Sp x y Lxy), one_seg. tauto.
Qed.
Theorem and_seg_reach p t a v : mreach p t -> mt_total (mt CC p) = false -> exists t', m_and_seg X k (mt CC p) t a v = Ok t' /\
  count t' <= count t + 1 /\ (mp_style p = MSplit -> forall x y, le x y -> (same_seg X k (keys X t') x y <->
    cmem X k t' x /\ same_seg X k (keys X t) x y /\ mem X k a x /\ mem X k a y)).
Proof.
  intros R Et. pose proof (mreach_minv X k HX CC Hco p t R) as I. unfold m_and_seg, m_add_intersection_seg. rewrite Et. destruct (is_empty X k a) eqn:Ea.
  { exists t_empty. unfold m_partial_add_intersection. rewrite Ea. conjs; auto. { cbn. lia. } intros _ x y _. split; [intros (b & [] & _)|intros ((b & [] & _) & _)]. }
  assert (Na : ne k a) by (apply (ne_iff X k HX); auto).
  destruct (and_seg_fits X k HX (mt CC p) Hco (nodes (one a)) t (Node 0 a tt) v t_empty) as (t' & E & I' & F); auto; [cbn; auto|apply minv_empty|apply fits_nil|].
  exists t'. split; auto. destruct (fits_reach p t (one a) t' I (one_inv a Na) I' F) as [L B]. split; auto. intros Sp x y Lxy. rewrite (B Sp x y Lxy), one_seg. tauto.
Qed.
Theorem and_set_reach p st t o : mreach p t -> reach X k st o -> exists t', m_and_set X k (mt CC p) t o = Ok t' /\
  count t' <= count t + count o /\ (mp_style p = MSplit -> forall x y, le x y -> (same_seg X k (keys X t') x y <->
    cmem X k t' x /\ same_seg X k (keys X t) x y /\ same_seg X k (keys X o) x y)).
Proof.
  intros R Ro. pose proof (mreach_minv X k HX CC Hco p t R) as I. pose proof (proj1 (reach_sinv X k HX st o Ro)) as Io. unfold m_and_set, m_add_intersection_set.
  destruct (and_common X k HX (mt CC p) (fun s (n : node (D X) unit) => m_add_intersection_itv X k (mt CC p) s t (nkey n)) t o I Io) as (t' & E & I' & F).
  { intros s m Hs Hm Nm F. apply (and_itv_fits X k HX (mt CC p) Hco (nodes o) t m s); auto. }
  exists t'. split; [exact E|]. apply fits_reach; auto.
Qed.
Theorem and_map_reach p p' t o : mreach p t -> mreach p' o -> mt_total (mt CC p) = false -> exists t', m_and_map X k (mt CC p) t o = Ok t' /\
  count t' <= count t + count o /\ (mp_style p = MSplit -> forall x y, le x y -> (same_seg X k (keys X t') x y <->
    cmem X k t' x /\ same_seg X k (keys X t) x y /\ same_seg X k (keys X o) x y)).
Proof.
  intros R Ro Et. pose proof (mreach_minv X k HX CC Hco p t R) as I. pose proof (mreach_inv X k HX CC Hco p' o Ro) as Io. unfold m_and_map, m_add_intersection_map. rewrite Et.
  destruct (and_common X k HX (mt CC p) (fun s n => m_add_intersection_seg X k (mt CC p) s t (nkey n) (nval n)) t o I Io) as (t' & E & I' & F).
  { intros s m Hs Hm Nm F. unfold m_add_intersection_seg. rewrite Et. apply (and_seg_fits X k HX (mt CC p) Hco (nodes o) t m (nval m) s); auto. }
  exists t'. split; [exact E|]. apply fits_reach; auto.
Qed.

Theorem msize_and_itv p t a : mreach p t -> exists t', m_and_itv X k (mt CC p) t a = Ok t' /\ count t' <= count t + 1.
Proof. intros R. destruct (and_itv_reach p t a R) as (t' & E & L & _). eauto. Qed.
Theorem msize_and_seg p t a v : mreach p t -> exists t', m_and_seg X k (mt CC p) t a v = Ok t' /\
  (mt_total (mt CC p) = false -> count t' <= count t + 1) /\ count t' <= 2 * count t + 2.
Proof.
  intros R. destruct (mt_total (mt CC p)) eqn:Et.
  - unfold m_and_seg, m_add_intersection_seg. rewrite Et. destruct (total_and_seg X k HX (mt CC p) Hco t a v (mreach_minv X k HX CC Hco p t R)) as (s' & E & _ & L).
    exists s'. split; auto. split; auto. discriminate.
  - destruct (and_seg_reach p t a v R Et) as (t' & E & L & _). exists t'. split; auto. split; auto. lia.
Qed.
Theorem msize_and_set p st t o : mreach p t -> reach X k st o -> exists t', m_and_set X k (mt CC p) t o = Ok t' /\ count t' <= count t + count o.
Proof. intros R Ro. destruct (and_set_reach p st t o R Ro) as (t' & E & L & _). eauto. Qed.
Theorem msize_and_map p p' t o : mreach p t -> mreach p' o -> exists t', m_and_map X k (mt CC p) t o = Ok t' /\
  (mt_total (mt CC p) = false -> count t' <= count t + count o) /\ count t' <= 2 * count t + 2 * count o.
Proof.
  intros R Ro. destruct (mt_total (mt CC p)) eqn:Et.
  - unfold m_and_map, m_add_intersection_map. rewrite Et. destruct (total_and_map X k HX (mt CC p) Hco t o (mreach_minv X k HX CC Hco p t R)) as (s' & E & _ & L).
    exists s'. split; auto. split; auto. discriminate.
  - destruct (and_map_reach p p' t o R Ro Et) as (t' & E & L & _). exists t'. split; auto. split; auto. lia.
Qed.

(** borders of the results of split maps *)
Theorem whole_and_itv p t a : mreach p t -> mp_style p = MSplit -> exists r, m_and_itv X k (mt CC p) t a = Ok r /\
  forall x y, le x y -> (same_seg X k (keys X r) x y <-> cmem X k r x /\ same_seg X k (keys X t) x y /\ mem X k a x /\ mem X k a y).
Proof. intros R Sp. destruct (and_itv_reach p t a R) as (r & E & _ & B). eauto. Qed.
Theorem whole_and_set p st t o : mreach p t -> reach X k st o -> mp_style p = MSplit -> exists r, m_and_set X k (mt CC p) t o = Ok r /\
  forall x y, le x y -> (same_seg X k (keys X r) x y <-> cmem X k r x /\ same_seg X k (keys X t) x y /\ same_seg X k (keys X o) x y).
Proof. intros R Ro Sp. destruct (and_set_reach p st t o R Ro) as (r & E & _ & B). eauto. Qed.
Theorem whole_and_seg p t a v : mreach p t -> mp_style p = MSplit -> mt_total (mt CC p) = false -> exists r, m_and_seg X k (mt CC p) t a v = Ok r /\
  forall x y, le x y -> (same_seg X k (keys X r) x y <-> cmem X k r x /\ same_seg X k (keys X t) x y /\ mem X k a x /\ mem X k a y).
Proof. intros R Sp Et. destruct (and_seg_reach p t a v R Et) as (r & E & _ & B). eauto. Qed.
Theorem whole_and_map p p' t o : mreach p t -> mreach p' o -> mp_style p = MSplit -> mt_total (mt CC p) = false -> exists r, m_and_map X k (mt CC p) t o = Ok r /\
  forall x y, le x y -> (same_seg X k (keys X r) x y <-> cmem X k r x /\ same_seg X k (keys X t) x y /\ same_seg X k (keys X o) x y).
Proof. intros R Ro Sp Et. destruct (and_map_reach p p' t o R Ro Et) as (r & E & _ & B). eauto. Qed.
End AndReach.

(** What an exception leaves of an interval map, for all arguments (proofs). *)
From Verif Require Export CrashAdd MapWhole.

Section CrashAny.
Context (X : dom) (k : kind).
Context (HX : dom_ok X k).
Context (M : mtype).
Notation CC := (mt_co M).
Notation V := (C CC).
Context (Hco : forall v w : CC, cc_eq v w = true <-> v = w).
Notation I := (itv (D X)).
Notation node := (node (D X) V).
Notation tree := (tree (D X) V).
Notation lc := (lc X k).
Notation uc := (uc X k).
Notation cltb := (cltb X).
Notation ne := (@ne X k).
Notation spl := (spl M).
Notation minv := (minv X k M).
Notation apartial := (apartial X k M).
Ltac cord := cord_ X k HX.

Lemma ipart_apartial a x l (t' : tree) : ne a -> ipart X k M (lc a) (uc a) x l t' ->
  minv t' /\ apartial a (gins M x) l t' /\ forall c, inr k a c = false -> vr k (nodes t') c = vr k l c.
Proof.
  intros Na (Hm & f & F1 & F2 & (U & _) & _ & K). split; auto.
  assert (HO : forall c, inr k a c = false -> vr k (nodes t') c = vr k l c).
  { intros c Hc. rewrite U. unfold inr in Hc. ifg; auto. exfalso. cord. }
  split; auto. split; [apply Hm|]. split.
  - exists f. conjs; auto. intros c. split; [|left; auto]. intros Hc. rewrite U. unfold inr in Hc. replace (negb (cltb c (lc a))) with true by cord. auto.
  - intros n Hn Fn. apply K; auto. unfold far in *. destruct spl; cord.
Qed.
(** the whole of a done *)
Definition adone (a : I) g (l : list node) (t' : tree) : Prop := inv k t' /\
  (forall c, (inr k a c = true -> vr k (nodes t') c = g (vr k l c)) /\
    (inr k a c = false -> vr k (nodes t') c = vr k l c \/
        vr k (nodes t') c = None /\ exists n, In n l /\ over k a n /\ inr k (nkey n) c = true)) /\
  kp k true (lc a) (uc a) l (nodes t').
Lemma adone_apartial a g l t' : ne a -> adone a g l t' -> apartial a g l t'.
Proof.
  intros Na (Hi & H & K). split; auto. split.
  - exists (uc a). unfold Seg.ne in Na. conjs; [cord|cord|]. intros c. destruct (H c) as [H1 H2]. split; auto.
    intros Hc. rewrite H1 by auto. unfold inr in Hc. replace (cltb c (uc a)) with true by cord. auto.
  - intros n Hn Fn. apply K; auto. unfold far in *. destruct spl; auto. cord.
Qed.
Lemma epart_adone a g (t t' : tree) : inv k t -> ne a -> epart X k M a g (nodes t) t' -> minv t' /\ adone a g (nodes t) t'.
Proof.
  intros [W S] Na (Hm & L & m & R & E & B1 & B2 & G & (U & _) & _ & K). split; auto. split; [apply Hm|]. rewrite E in S. split.
  - intros c. rewrite U. unfold inr. split; intros Hc.
    + replace (negb (cltb c (lc a)) && cltb c (uc (nkey m))) with true by cord. auto.
    + destruct (negb (cltb c (lc a)) && cltb c (uc (nkey m))) eqn:Q; auto. right.
      assert (Im : inr k (nkey m) c = true) by (unfold inr; cord).
      assert (Vm : vr k (nodes t) c = Some (nval m)). { rewrite E. apply (vr_some X k HX); auto. exists m. rewrite in_app_iff. cbn. auto. }
      rewrite Vm. split; auto. exists m. rewrite E, in_app_iff. cbn. unfold over. unfold Seg.ne in Na. conjs; auto; cord.
  - intros n Hn Fn. apply K; auto. rewrite E in Hn. unfold far in *. destruct Fn as [Fn|Fn]; auto. right.
    pose proof (srt_nes X k _ S) as NS. unfold nes in NS. rewrite Forall_forall in NS. specialize (NS n Hn).
    apply (srt_mid X k HX) in S. destruct S as (_ & _ & Nm & Bm & Am). unfold below, above in Bm, Am. rewrite Forall_forall in Bm, Am.
    unfold Seg.ne in *. apply in_app_iff in Hn. destruct Hn as [Hn|[<-|Hn]].
    + specialize (Bm n Hn). cord.
    + cord.
    + specialize (Am n Hn). cord.
Qed.

(* ------------------------------------------------------------------- any argument *)
Lemma insert_thrown (t : tree) a x n t' : minv t -> cm_insert X k M t a x n = Thrown t' ->
  ne a /\ minv t' /\ apartial a (gi M x) (nodes t) t' /\ forall c, inr k a c = false -> vr k (nodes t') c = vr k (nodes t) c.
Proof.
  intros Hm H. destruct (is_empty X k a) eqn:Ea. { unfold cm_insert, cm_insert_ in H. rewrite Ea in H. discriminate. }
  pose proof (proj2 (ne_iff X k HX a) Ea) as Na. split; auto.
  assert (Ex : is_absorbable M x = false). { destruct (is_absorbable M x) eqn:Ex; auto. unfold cm_insert, cm_insert_ in H. rewrite Ea, Ex in H. discriminate. }
  assert (T : throws (cm_insert X k M t a x) (ipart X k M (lc a) (uc a) x (nodes t))).
  { unfold cm_insert. eapply throws_bind; [apply follows_m_insert_|apply (insert_throws_ X k HX M Hco); auto|]. intros [u i] _. apply throws_ret. }
  apply T in H. apply ipart_apartial in H; auto. unfold gi. rewrite Ex. destruct H as (A & B & C). conjs; auto.
Qed.
Lemma insert_hint_thrown (t : tree) h a x n t' : minv t -> isit t h -> cm_insert_hint X k M t h a x n = Thrown t' ->
  ne a /\ minv t' /\ apartial a (gi M x) (nodes t) t' /\ forall c, inr k a c = false -> vr k (nodes t') c = vr k (nodes t) c.
Proof.
  intros Hm Hh H. destruct (is_empty X k a) eqn:Ea. { unfold cm_insert_hint in H. rewrite Ea in H. discriminate. }
  pose proof (proj2 (ne_iff X k HX a) Ea) as Na. split; auto.
  assert (Ex : is_absorbable M x = false). { destruct (is_absorbable M x) eqn:Ex; auto. unfold cm_insert_hint in H. rewrite Ea, Ex in H. discriminate. }
  apply (insert_hint_throws_ X k HX M Hco) in H; auto. apply ipart_apartial in H; auto. unfold gi. rewrite Ex. destruct H as (A & B & C). conjs; auto.
Qed.
Lemma erase_thrown (t : tree) a n t' : minv t -> cm_erase X k M t a n = Thrown t' -> ne a /\ minv t' /\ adone a (fun _ => None) (nodes t) t'.
Proof.
  intros Hm H. destruct (is_empty X k a) eqn:Ea. { unfold cm_erase in H. rewrite Ea in H. discriminate. }
  pose proof (proj2 (ne_iff X k HX a) Ea) as Na. split; auto. apply (erase_throws X k HX M Hco) in H; auto. apply epart_adone; auto. apply Hm.
Qed.
Lemma adone_ext a g g' l t' : (forall o, g o = g' o) -> adone a g l t' -> adone a g' l t'.
Proof. intros E (A & H & K). split; auto. split; auto. intros c. destruct (H c) as [H1 H2]. split; auto. intros Hc. rewrite <- E. auto. Qed.
Lemma erase_seg_thrown (t : tree) a x n t' : minv t -> cm_erase_seg X k M t a x n = Thrown t' ->
  ne a /\ minv t' /\ adone a (ge M x) (nodes t) t' /\ is_absorbable M x = false.
Proof.
  intros Hm H. destruct (is_empty X k a) eqn:Ea. { unfold cm_erase_seg in H. rewrite Ea in H. discriminate. }
  pose proof (proj2 (ne_iff X k HX a) Ea) as Na. split; auto.
  assert (Ex : is_absorbable M x = false). { destruct (is_absorbable M x) eqn:Ex; auto. unfold cm_erase_seg in H. rewrite Ea, Ex in H. discriminate. }
  apply (erase_seg_throws X k HX M Hco) in H; auto. apply epart_adone in H; auto; [|apply Hm]. destruct H as [A B]. conjs; auto.
  eapply adone_ext; [|exact B]. intros o. unfold ge. rewrite Ex. auto.
Qed.
Lemma add_thrown_ f (t : tree) a x n t' : minv t -> cm_add_ X k M f t a x n = Thrown t' -> ne a /\ apartial a (ga M f x) (nodes t) t'.
Proof.
  intros Hm H. destruct (is_empty X k a) eqn:Ea. { unfold cm_add_ in H. rewrite Ea in H. discriminate. }
  pose proof (proj2 (ne_iff X k HX a) Ea) as Na. split; auto.
  assert (Ex : is_absorbable M x = false). { destruct (is_absorbable M x) eqn:Ex; auto. unfold cm_add_ in H. rewrite Ea, Ex in H. discriminate. }
  apply (add_throws_ X k HX M Hco) in H; auto. eapply apartial_ext; [|exact H]. intros o. unfold ga. rewrite Ex. auto.
Qed.
Lemma add_hint_thrown f (t : tree) h a x n t' : minv t -> isit t h -> cm_add_hint_ X k M f t h a x n = Thrown t' -> ne a /\ apartial a (ga M f x) (nodes t) t'.
Proof.
  intros Hm Hh H. destruct (is_empty X k a) eqn:Ea. { unfold cm_add_hint_ in H. rewrite Ea in H. discriminate. }
  pose proof (proj2 (ne_iff X k HX a) Ea) as Na. split; auto.
  assert (Ex : is_absorbable M x = false). { destruct (is_absorbable M x) eqn:Ex; auto. unfold cm_add_hint_ in H. rewrite Ea, Ex in H. discriminate. }
  apply (add_hint_throws_ X k HX M Hco) in H; auto. eapply apartial_ext; [|exact H]. intros o. unfold ga. rewrite Ex. auto.
Qed.
Lemma bind_fst_thrown {A B} (m : cm tree (A * B)) n t' : cbind m (fun '(t, _) => cret t) n = Thrown t' -> m n = Thrown t'.
Proof. unfold cbind. destruct (m n) as [n' [u i]|u|e]; try discriminate. intros Q. inversion Q. auto. Qed.
Lemma add_thrown (t : tree) a x n t' : minv t -> cm_add X k M t a x n = Thrown t' -> ne a /\ apartial a (ga M (codomain_combine M) x) (nodes t) t'.
Proof. intros Hm H. apply bind_fst_thrown in H. eapply add_thrown_; eauto. Qed.
Lemma subtract_thrown (t : tree) a x n t' : minv t -> cm_subtract X k M t a x n = Thrown t' -> ne a /\ apartial a (gsubt M x) (nodes t) t'.
Proof.
  intros Hm H. unfold cm_subtract, gsubt in *. destruct (is_total_invertible M). { apply bind_fst_thrown in H. eapply add_thrown_; eauto. }
  destruct (is_empty X k a) eqn:Ea. { unfold cm_subtract_ in H. rewrite Ea in H. discriminate. }
  pose proof (proj2 (ne_iff X k HX a) Ea) as Na. split; auto.
  assert (Ex : is_absorbable M x = false). { destruct (is_absorbable M x) eqn:Ex; auto. unfold cm_subtract_ in H. rewrite Ea, Ex in H. discriminate. }
  apply (subtract_throws_ X k HX M Hco) in H; auto. eapply apartial_ext; [|exact H]. intros o. unfold gs. rewrite Ex. auto.
Qed.
Lemma apartial_aok a g l t' : gok M g -> apartial a g l t' -> aok X k M l -> aok X k M (nodes t').
Proof.
  intros G (_ & (f & _ & _ & H) & _) A B c. destruct (H c) as [H1 H2]. destruct (inr k a c).
  - rewrite H1 by auto. destruct (cltb c f); [apply G|apply A]; auto.
  - destruct (H2 eq_refl) as [->|[-> _]]; [apply A; auto|discriminate].
Qed.
End CrashAny.

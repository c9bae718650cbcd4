(** Cardinality over dense domains: proofs. *)
From Verif Require Export ContElems.

(** there are more than any number of elements satisfying P *)
Definition infinitely {A} (P : A -> Prop) : Prop :=
  forall n, exists l, NoDup l /\ length l = n /\ forall x, In x l -> P x.

Section Dense.
Context (X : dom) (k : kind).
Context (HX : dom_ok X k).
Context (Hc : disc X = false) (Hdense : dense_ok X).
Context (sub : D X -> D X -> Z).
Notation I := (itv (D X)).
Notation mem := (mem X k).
Ltac cord := cord_ X k HX.

Definition counts (P : D X -> Prop) (s : size_t) : Prop :=
  match s with
  | Fin z => exists l, enumerates X P l /\ z = Z.of_nat (length l)
  | Infinite => infinitely P
  end.

Lemma dense_inf (x y : D X) : ltb x y = true -> infinitely (fun z => lt x z /\ lt z y).
Proof.
  intros H n. revert y H. induction n as [|n IH]; intros y H.
  - exists []. conjs; auto. { constructor. } intros ? [].
  - destruct (Hdense x y H) as (z & H1 & H2). destruct (IH z H1) as (l & N & E & F).
    exists (z :: l). conjs; cbn [length]; auto.
    + constructor; auto. intros Hz. destruct (F z Hz) as [_ K]. unfold lt in K. destruct HX as ((S1 & _) & _). rewrite S1 in K. discriminate.
    + intros w [<-|Hw]; auto. destruct (F w Hw) as [K1 K2]. split; auto. unfold lt in *. destruct HX as ((_ & S2 & _) & _). eauto.
Qed.
Lemma infinitely_impl {A} (P Q : A -> Prop) : (forall x, P x -> Q x) -> infinitely P -> infinitely Q.
Proof. intros H K n. destruct (K n) as (l & N & E & F). exists l. auto. Qed.

Lemma cardinality_dense a : counts (mem a) (cardinality X k sub a).
Proof.
  assert (E0 : is_empty X k a = true -> counts (mem a) (Fin 0)).
  { intros E. exists []. split; auto. split; [constructor|]. intros x. split; [intros []|]. intros M; exfalso; revert M; eapply (empty_no_point X k HX); eauto. }
  assert (Er : ltb (lo a) (up a) = true -> counts (mem a) Infinite).
  { intros H. eapply infinitely_impl; [|apply (dense_inf _ _ H)]. intros x [H1 H2]. unfold Spec.mem.
    unfold lt, le in *. destruct HX as ((S1 & S2 & _) & _).
    assert (ltb x (lo a) = false). { destruct (ltb x (lo a)) eqn:E; auto. pose proof (S2 _ _ _ H1 E) as Q. rewrite S1 in Q. discriminate. }
    assert (ltb (up a) x = false). { destruct (ltb (up a) x) eqn:E; auto. pose proof (S2 _ _ _ H2 E) as Q. rewrite S1 in Q. discriminate. }
    unfold lt, le. case k; auto; destruct (bl (bd a)), (br (bd a)); auto. }
  unfold cardinality. rewrite Hc.
  assert (K : k = RO \/ k = LO \/ k = DC).
  { destruct HX as (_ & _ & K). revert K. case k; auto; intros; exfalso; first [congruence | destruct K; congruence]. }
  destruct (is_empty X k a) eqn:E.
  - destruct K as [->|[->| ->]]; auto.
  - destruct K as [K|[K|K]]; rewrite K in *.
    + apply Er. unfold is_empty, upper, lower, leb in E. destruct (ltb (lo a) (up a)); auto.
    + apply Er. unfold is_empty, upper, lower, leb in E. destruct (ltb (lo a) (up a)); auto.
    + destruct (b_eqb (bounds_of X DC a) b_closed && eqb (lower X a) (upper X a)) eqn:E2.
      * apply andb_true_iff in E2. destruct E2 as [E2 E3]. unfold eqb, lower, upper in E3.
        exists [lo a]. split; auto. split; [repeat constructor; intros []|].
        destruct HX as ((S1 & S2 & S3) & _). 
        assert (lo a = up a) as Q. { destruct (S3 (lo a) (up a)) as [Q|[Q|Q]]; auto; rewrite Q in E3; cbn in E3; try rewrite andb_false_r in E3; discriminate. }
        intros x. unfold Spec.mem. cbn [In]. unfold bounds_of in E2. cbn [dynamic] in E2.
        destruct (bd a) as [[] []]; cbn in E2; try discriminate. cbn [bl br]. unfold le. rewrite <- Q. split.
        -- intros [<-|[]]. rewrite S1. auto.
        -- intros [H1 H2]. left. destruct (S3 (lo a) x) as [P|[P|P]]; congruence.
      * apply Er. unfold is_empty, upper, lower, leb, eqb, bounds_of in *. try rewrite Hc in E. cbn [dynamic] in *.
        destruct (bd a) as [[] []]; cbn in *; destruct (ltb (lo a) (up a)), (ltb (up a) (lo a)); cbn in *; auto; try discriminate.
Qed.

Context {V : Type}.
Notation node := (node (D X) V).
Lemma card_nodes_fin : forall (l : list node) acc z, srt k l -> card_nodes X k sub l acc = Fin z ->
  exists e, enumerates X (emem X k l) e /\ (z = acc + Z.of_nat (length e))%Z.
Proof.
  induction l as [|n l IH]; intros acc z S; cbn [card_nodes].
  - intros [= <-]. exists []. split; [|cbn; lia]. split; [constructor|]. intros x. split; [intros []|]. intros (m & [] & _).
  - pose proof (cardinality_dense (nkey n)) as C. destruct (cardinality X k sub (nkey n)); [|discriminate].
    destruct C as (e1 & [N1 E1] & ->). pose proof S as (Nn & F & S'). intros E.
    destruct (IH _ _ S' E) as (e2 & [N2 E2] & ->).
    exists (e1 ++ e2). split; [|rewrite app_length; lia]. split.
    + apply NoDup_app; auto. intros x Hx Hx2. apply E1 in Hx. apply E2 in Hx2. destruct Hx2 as (m & Hm & Mm). eapply (srt_disj X k HX n m l x); eauto.
    + intros x. rewrite in_app_iff, E1, E2. unfold emem. cbn [In]. split.
      * intros [H|(m & H1 & H2)]; eauto.
      * intros (m & [<-|H1] & H2); eauto.
Qed.
Lemma card_nodes_inf : forall (l : list node) acc, card_nodes X k sub l acc = Infinite -> infinitely (emem X k l).
Proof.
  induction l as [|n l IH]; intros acc; cbn [card_nodes]; [discriminate|].
  pose proof (cardinality_dense (nkey n)) as C. destruct (cardinality X k sub (nkey n)).
  - intros E. eapply infinitely_impl; [|eapply IH; eauto]. intros x (m & Hm & M). exists m. cbn; auto.
  - intros _. eapply infinitely_impl; [|exact C]. intros x M. exists n. cbn; auto.
Qed.
Theorem c_cardinality_dense (t : Tree.tree (D X) V) : inv k t -> counts (emem X k (nodes t)) (c_cardinality X k sub t).
Proof.
  intros [_ S]. unfold c_cardinality, counts. destruct (card_nodes X k sub (nodes t) 0) eqn:E.
  - destruct (card_nodes_fin _ _ _ S E) as (e & H & ->). exists e. split; auto.
  - eapply card_nodes_inf; eauto.
Qed.
End Dense.

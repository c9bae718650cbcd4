(** Lookup by interval and erasure through iterators (proofs). *)
From Verif Require Export LookSpec MapReach EraseIter SetWhole.

Section LookThms.
Context (X : dom) (k : kind).
Context (HX : dom_ok X k).

Section Any.
Context {V : Type}.
Notation I := (itv (D X)).
Notation node := (node (D X) V).
Notation tree := (tree (D X) V).
Notation lc := (lc X k).
Notation uc := (uc X k).
Notation pt := (pt X).
Notation cltb := (cltb X).
Notation ne := (@ne X k).
Notation mem := (mem X k).
Notation shows := (shows X).
Notation seg := (fun n : node => (nkey n, nval n)).
Ltac cord := cord_ X k HX.

Lemma walk_at (t : tree) : wf t -> forall B A C, nodes t = A ++ B ++ C -> walk X (length B) t (hd_it (B ++ C)) (hd_it C) = Ok (map seg B).
Proof.
  intros W. induction B as [|b B IH]; intros A C E.
  - cbn [length app walk map]. rewrite iter_eqb_refl. auto.
  - cbn [length walk map]. change ((b :: B) ++ C) with (b :: B ++ C) in *.
    pose proof (iter_eqb_hd X t A (b :: B) C W E) as Q. cbn [app] in Q.
    replace (iter_eqb (hd_it (b :: B ++ C)) (hd_it C)) with false by (symmetry; exact Q). cbn [hd_it].
    rewrite (key_at X t A b (B ++ C) W E). cbn [bind]. rewrite (val_at X t A b (B ++ C) W E). cbn [bind].
    rewrite (incr_at X t A b (B ++ C) W E). cbn [bind].
    rewrite (IH (A ++ [b]) C) by (rewrite <- app_assoc; auto). auto.
Qed.
Lemma shows_at (t : tree) A B C : wf t -> nodes t = A ++ B ++ C -> shows t (hd_it (B ++ C)) (hd_it C) (map seg B).
Proof. intros W E. eexists. eapply walk_at; eauto. Qed.

Lemma walk_inv (t : tree) : wf t -> forall fuel A S p l, nodes t = A ++ S -> walk X fuel t (hd_it S) p = Ok l ->
  exists B C, S = B ++ C /\ p = hd_it C /\ l = map seg B.
Proof.
  intros W. induction fuel as [|fuel IH]; intros A S p l E H; cbn [walk] in H.
  - destruct (iter_eqb (hd_it S) p) eqn:Q; [|discriminate]. exists [], S. conjs; auto; [|cbn; congruence].
    unfold iter_eqb in Q. destruct (hd_it S), p; auto; try discriminate. apply Nat.eqb_eq in Q. congruence.
  - destruct (iter_eqb (hd_it S) p) eqn:Q.
    + exists [], S. conjs; auto; [|cbn; congruence].
      unfold iter_eqb in Q. destruct (hd_it S), p; auto; try discriminate. apply Nat.eqb_eq in Q. congruence.
    + destruct S as [|n S]; [cbn in H; discriminate|]. cbn [hd_it] in H.
      rewrite (key_at X t A n S W E) in H. cbn [bind] in H. rewrite (val_at X t A n S W E) in H. cbn [bind] in H.
      rewrite (incr_at X t A n S W E) in H. cbn [bind] in H.
      destruct (walk X fuel t (hd_it S) p) as [l'|] eqn:F; [|discriminate].
      destruct (IH (A ++ [n]) S p l') as (B & C & -> & -> & ->); auto. { rewrite <- app_assoc. auto. }
      exists (n :: B), C. conjs; auto. cbn in H. cbn. congruence.
Qed.
Lemma shows_split (t : tree) first past A B C : wf t -> shows t (begin_ t) first A -> shows t first past B -> shows t past (end_ t) C ->
  exists L M R, nodes t = L ++ M ++ R /\ first = hd_it (M ++ R) /\ past = hd_it R /\ A = map seg L /\ B = map seg M /\ C = map seg R.
Proof.
  intros W [f1 H1] [f2 H2] [f3 H3]. unfold begin_ in H1.
  destruct (walk_inv t W f1 [] (nodes t) first A eq_refl H1) as (L & S & E & -> & ->).
  destruct (walk_inv t W f2 L S past B E H2) as (M & R & -> & -> & ->).
  destruct (walk_inv t W f3 (L ++ M) R (end_ t) C) as (R' & N & -> & Q & ->); auto. { rewrite <- app_assoc. auto. }
  destruct N; [|discriminate]. rewrite app_nil_r in *. exists L, M, R'. conjs; auto.
Qed.

Lemma sorted_before (a b : I) : cltb (lc b) (uc a) = false -> before X k a b.
Proof.
  intros H x y Mx My. apply (inr_mem X k HX) in Mx, My. apply (lt_pt X). unfold inr in *. cord.
Qed.

Lemma range_at (t : tree) a : inv k t -> ne a ->
  exists f p L M R, equal_range X k t a = Ok (f, p) /\ lower_bound X k t a = Ok f /\ upper_bound X k t a = Ok p /\
    nodes t = L ++ M ++ R /\ f = hd_it (M ++ R) /\ p = hd_it R /\
    below k L (lc a) /\ Forall (over k a) M /\ above k R (uc a).
Proof.
  intros [W S] Na. destruct (decomp X k HX a (nodes t) S Na) as (L & M & R & E & BL & OM & AR).
  assert (U := upper_bound_at X k HX t L M R a S E Na BL OM AR).
  assert (Lb : lower_bound X k t a = Ok (hd_it (M ++ R))).
  { apply (lower_bound_at X k HX t L (M ++ R) a S E Na BL). apply (overl_MR X k HX a M R); auto. rewrite E in S. apply (srt_app X k) in S. tauto. }
  exists (hd_it (M ++ R)), (hd_it R), L, M, R. conjs; auto. unfold equal_range. rewrite Lb. cbn [bind]. rewrite U. auto.
Qed.
Lemma ne_mem a : (exists x, mem a x) -> ne a.
Proof. intros [x Mx]. apply (inr_mem X k HX) in Mx. unfold inr in Mx. unfold Seg.ne. cord. Qed.

Theorem equal_range_ok (t : tree) a : inv k t -> (exists x, mem a x) ->
  exists f p A B C, equal_range X k t a = Ok (f, p) /\ lower_bound X k t a = Ok f /\ upper_bound X k t a = Ok p /\
    shows t (begin_ t) f A /\ shows t f p B /\ shows t p (end_ t) C /\ shows t (begin_ t) (end_ t) (A ++ B ++ C) /\
    (forall s, In s A -> before X k (fst s) a) /\ (forall s, In s B -> meets X k (fst s) a) /\ (forall s, In s C -> before X k a (fst s)).
Proof.
  intros Hi Ha. apply ne_mem in Ha. destruct (range_at t a Hi Ha) as (f & p & L & M & R & E1 & E2 & E3 & E & -> & -> & BL & OM & AR).
  pose proof Hi as [W S]. exists (hd_it (M ++ R)), (hd_it R), (map seg L), (map seg M), (map seg R).
  assert (Ns : forall n, In n (nodes t) -> ne (nkey n)) by (intros n Hn; apply srt_nes in S; unfold nes in S; rewrite Forall_forall in S; auto).
  conjs; auto.
  - unfold begin_. rewrite E. apply (shows_at t [] L (M ++ R)); auto.
  - apply (shows_at t L M R); auto.
  - change (end_ t) with (@hd_it X V []). replace (hd_it R) with (@hd_it X V (R ++ [])) by (rewrite app_nil_r; auto). apply (shows_at t (L ++ M) R []); auto. rewrite app_nil_r, <- app_assoc. auto.
  - rewrite <- !map_app, <- E. unfold begin_. replace (nodes t) with (nodes t ++ []) at 1 by apply app_nil_r. apply (shows_at t [] (nodes t) []); auto. cbn. rewrite app_nil_r. auto.
  - intros s Hs. apply in_map_iff in Hs. destruct Hs as (n & <- & Hn). unfold below in BL. rewrite Forall_forall in BL. apply sorted_before. cbn. auto.
  - intros s Hs. apply in_map_iff in Hs. destruct Hs as (n & <- & Hn). rewrite Forall_forall in OM. cbn.
    assert (Nn : ne (nkey n)) by (apply Ns; rewrite E, !in_app_iff; auto).
    destruct (over_elem X k HX a n Ha Nn (OM n Hn)) as (x & M1 & M2). exists x. auto.
  - intros s Hs. apply in_map_iff in Hs. destruct Hs as (n & <- & Hn). unfold above in AR. rewrite Forall_forall in AR. apply sorted_before. cbn. auto.
Qed.

Lemma shows_all (t : tree) : wf t -> shows t (begin_ t) (end_ t) (map seg (nodes t)).
Proof.
  intros W. unfold begin_. replace (nodes t) with (nodes t ++ []) at 1 by apply app_nil_r. apply (shows_at t [] (nodes t) []); auto. cbn. rewrite app_nil_r. auto.
Qed.
Theorem find_ok (t : tree) a : inv k t -> (exists x, mem a x) ->
  exists it, tfind X k t a = Ok it /\
    ((it = end_ t /\ forall b, In b (keys X t) -> ~ meets X k b a) \/
     (exists A s C, shows t (begin_ t) it A /\ shows t it (end_ t) (s :: C) /\ (forall r, In r A -> before X k (fst r) a) /\ meets X k (fst s) a)).
Proof.
  intros Hi Ha. apply ne_mem in Ha. pose proof Hi as [W S]. destruct (decomp X k HX a (nodes t) S Ha) as (L & M & R & E & BL & OM & AR).
  assert (F : forall n, (In n L -> before X k (nkey n) a) /\ (In n R -> before X k a (nkey n))).
  { intros n. unfold below in BL. unfold above in AR. rewrite Forall_forall in BL, AR. split; intros Hn; apply sorted_before; auto. }
  assert (NB : forall a b, before X k a b -> meets X k a b -> False).
  { intros c d B (x & M1 & M2). specialize (B x x M1 M2). unfold lt in B. rewrite (ltb_irrefl X k HX) in B. discriminate. }
  destruct M as [|m M].
  - exists (end_ t). split; [apply (tfind_none X k HX t L R); auto|]. left. split; auto. intros b Hb Mb. unfold keys in Hb. apply in_map_iff in Hb.
    destruct Hb as (n & <- & Hn). rewrite E in Hn. cbn in Hn. apply in_app_iff in Hn. destruct Hn as [Hn|Hn]; apply F in Hn.
    + eapply NB; eauto.
    + apply (NB a (nkey n)); auto. destruct Mb as (x & ? & ?). exists x. auto.
  - inversion OM as [|? ? Om _]; subst. exists (Some (nid m)). split; [apply (tfind_some X k HX t L m (M ++ R)); auto|]. right.
    exists (map seg L), (nkey m, nval m), (map seg (M ++ R)). conjs.
    + unfold begin_. rewrite E. change (Some (nid m)) with (@hd_it X V ((m :: M) ++ R)). apply (shows_at t [] L ((m :: M) ++ R)); auto.
    + change ((nkey m, nval m) :: map seg (M ++ R)) with (map seg ((m :: M) ++ R)). change (Some (nid m)) with (@hd_it X V ((m :: M) ++ R)).
      change (end_ t) with (@hd_it X V []). replace ((m :: M) ++ R) with (((m :: M) ++ R) ++ []) at 1 by apply app_nil_r. apply (shows_at t L ((m :: M) ++ R) []); auto.
      rewrite app_nil_r. auto.
    + intros r Hr. apply in_map_iff in Hr. destruct Hr as (n & <- & Hn). apply F; auto.
    + cbn. assert (Nm : ne (nkey m)). { apply srt_nes in S. unfold nes in S. rewrite Forall_forall in S. apply S. rewrite E, in_app_iff. cbn. auto. }
      destruct (over_elem X k HX a m Ha Nm Om) as (x & M1 & M2). exists x. auto.
Qed.

Lemma at_seg_iff (t : tree) j r : wf t -> (at_seg X t j r <-> exists n, In n (nodes t) /\ j = Some (nid n) /\ r = seg n).
Proof.
  intros W. split.
  - intros [H1 H2]. unfold key, val, deref in *. destruct j as [i|]; [|discriminate]. destruct (split_at i (nodes t)) as [[[L n] R]|] eqn:E; [|discriminate].
    apply split_at_some in E. destruct E as [E <-]. exists n. conjs; auto. { rewrite E, in_app_iff. cbn. auto. }
    cbn [bind] in H1, H2. destruct r as [a v]. cbn [fst snd] in *. congruence.
  - intros (n & Hn & -> & ->). apply in_split in Hn. destruct Hn as (L & R & E). split; [rewrite (key_at X t L n R W E)|rewrite (val_at X t L n R W E)]; auto.
Qed.
Lemma begin_L (t : tree) L R : nodes t = L ++ R -> wf t -> shows t (begin_ t) (hd_it R) (map seg L).
Proof. intros E W. unfold begin_. rewrite E. apply (shows_at t [] L R); auto. Qed.

Lemma seg_inj (t : tree) n n' : inv k t -> In n (nodes t) -> In n' (nodes t) -> nkey n = nkey n' -> n = n'.
Proof.
  intros [_ S] Hn Hn' K. assert (Nn : ne (nkey n)) by (apply srt_nes in S; unfold nes in S; rewrite Forall_forall in S; auto).
  apply (srt_uniq_r X k HX (nodes t) n n' (lc (nkey n)) S Hn Hn'); [|rewrite <- K]; unfold inr, Seg.ne in *; cord.
Qed.
Lemma disjoint (t : tree) n m x : inv k t -> In n (nodes t) -> In m (nodes t) -> mem (nkey n) x -> mem (nkey m) x -> n = m.
Proof. intros [_ S] Hn Hm H1 H2. apply (srt_uniq_r X k HX (nodes t) n m (pt x) S Hn Hm); apply (inr_mem X k HX); auto. Qed.
Lemma cmem_nodes {U} (t : Tree.tree (D X) U) x : SetSpec.cmem X k t x <-> exists n, In n (nodes t) /\ mem (nkey n) x.
Proof.
  unfold SetSpec.cmem, keys. split.
  - intros (a & Ha & Mx). apply in_map_iff in Ha. destruct Ha as (n & <- & Hn). eauto.
  - intros (n & Hn & Mx). exists (nkey n). split; auto. apply in_map; auto.
Qed.
Theorem erase_range_spec (t : tree) first past A B C : inv k t ->
  shows t (begin_ t) first A -> shows t first past B -> shows t past (end_ t) C ->
  exists t', erase_range t first past = Ok t' /\ shows t' (begin_ t') (end_ t') (A ++ C) /\ shows t' (begin_ t') past A /\
    (forall j r, at_seg X t j r -> In r A \/ In r C -> at_seg X t' j r) /\
    forall x, SetSpec.cmem X k t' x <-> SetSpec.cmem X k t x /\ ~ exists s, In s B /\ mem (fst s) x.
Proof.
  intros Hi H1 H2 H3. pose proof Hi as [W S]. destruct (shows_split t first past A B C W H1 H2 H3) as (L & M & R & E & -> & -> & -> & -> & ->).
  exists (Tree (L ++ R) (fresh t)). destruct (inv_drop X k t L M R Hi E) as [W' S'].
  split; [apply (erase_range_at X t L M R W E)|]. conjs.
  - rewrite <- map_app. apply (shows_all _ W').
  - apply begin_L; auto.
  - intros j r Hj Hr. apply at_seg_iff in Hj; auto. apply at_seg_iff; auto. destruct Hj as (n & Hn & -> & ->). exists n. conjs; auto. cbn [nodes].
    rewrite !in_map_iff in Hr. rewrite in_app_iff. destruct Hr as [(m & Q & Hm)|(m & Q & Hm)]; [left|right];
      (replace n with m; auto; apply (seg_inj t); auto; [rewrite E, !in_app_iff; auto|congruence]).
  - intros x. rewrite !cmem_nodes. cbn [nodes]. split.
    + intros (n & Hn & Mx). split. { exists n. split; auto. rewrite E, !in_app_iff. rewrite in_app_iff in Hn. tauto. }
      intros (s & Hs & Ms). apply in_map_iff in Hs. destruct Hs as (m & <- & Hm). cbn in Ms.
      assert (n = m). { apply (disjoint t n m x); auto; rewrite E, !in_app_iff; rewrite in_app_iff in Hn; tauto. } subst m.
      destruct W as [W _]. rewrite E in W. unfold ids in W. rewrite !map_app in W. apply in_app_iff in Hn. destruct Hn as [Hn|Hn].
      * apply in_split in Hn, Hm. destruct Hn as (l1 & l2 & ->), Hm as (m1 & m2 & ->). rewrite !map_app in W. cbn in W. rewrite <- !app_assoc in W. cbn in W. apply NoDup_app_remove_l in W.
        inversion W as [|? ? N _]; subst. apply N. rewrite !in_app_iff. cbn. auto 6.
      * apply NoDup_app_remove_l in W. apply in_split in Hn, Hm. destruct Hn as (l1 & l2 & ->), Hm as (m1 & m2 & ->). rewrite !map_app in W. cbn in W. rewrite <- !app_assoc in W. cbn in W. apply NoDup_app_remove_l in W.
        inversion W as [|? ? N _]; subst. apply N. rewrite ?in_app_iff. cbn. rewrite ?in_app_iff. cbn. auto 8.
    + intros ((n & Hn & Mx) & Nx). exists n. split; auto. rewrite E, !in_app_iff in Hn. rewrite in_app_iff. destruct Hn as [Hn|[Hn|Hn]]; auto.
      exfalso. apply Nx. exists (nkey n, nval n). split; auto. apply (in_map seg). auto.
Qed.
Theorem erase_it_spec (t : tree) it A s C : inv k t -> shows t (begin_ t) it A -> shows t it (end_ t) (s :: C) ->
  exists t', erase_it t it = Ok t' /\ shows t' (begin_ t') (end_ t') (A ++ C) /\
    (forall j r, at_seg X t j r -> j <> it -> at_seg X t' j r) /\
    forall x, SetSpec.cmem X k t' x <-> SetSpec.cmem X k t x /\ ~ mem (fst s) x.
Proof.
  intros Hi H1 H2. pose proof Hi as [W S].
  destruct H1 as [f1 H1], H2 as [f2 H2]. unfold begin_ in H1.
  destruct (walk_inv t W f1 [] (nodes t) it A eq_refl H1) as (L & S1 & E & -> & ->). cbn [app] in E.
  destruct (walk_inv t W f2 L S1 (end_ t) (s :: C) E H2) as (M & R & -> & Q & Q2).
  destruct R; [|discriminate]. rewrite app_nil_r in *. destruct M as [|m M]; [discriminate|]. cbn [map] in Q2. injection Q2 as -> ->.
  assert (E' : erase_it t (Some (nid m)) = Ok (Tree (L ++ M) (fresh t))) by (apply (erase_at X t L m M W E)).
  destruct (erase_range_spec t (Some (nid m)) (hd_it M) (map seg L) [seg m] (map seg M) Hi) as (t' & E2 & P1 & _ & P2 & P3).
  - unfold begin_. rewrite E. apply (shows_at t [] L (m :: M)); auto.
  - apply (shows_at t L [m] M); auto.
  - change (end_ t) with (@hd_it X V []). replace (hd_it M) with (@hd_it X V (M ++ [])) by (rewrite app_nil_r; auto). apply (shows_at t (L ++ [m]) M []); auto. rewrite app_nil_r, <- app_assoc. auto.
  - assert (t' = Tree (L ++ M) (fresh t)).
    { pose proof (erase_range_at X t L [m] M W E) as Q3. cbn [app hd_it] in Q3. congruence. }
    subst t'. exists (Tree (L ++ M) (fresh t)). split; [exact E'|]. conjs; auto.
    + intros j r Hj Nj. apply P2; auto. apply at_seg_iff in Hj; auto. destruct Hj as (n & Hn & -> & ->). rewrite E, in_app_iff in Hn. cbn in Hn.
      destruct Hn as [Hn|[->|Hn]]; [left|exfalso; apply Nj; auto|right]; apply (in_map seg); auto.
    + intros x. rewrite P3. split; intros [G1 G2]; split; auto.
      * intros Mx. apply G2. exists (nkey m, nval m). cbn. auto.
      * intros (s & [<-|[]] & Ms). auto.
Qed.
End Any.

Section Map.
Context (CC : codomain) (Hco : eq_ok CC).
Notation tree := (tree (D X) (C CC)).
Notation at_ := (at_ X k CC).
Lemma at_cmem (t : tree) x : inv k t -> (SetSpec.cmem X k t x <-> exists v, at_ t x = Some v).
Proof.
  intros Hi. split.
  - intros H. apply cmem_nodes in H. destruct H as (n & Hn & Mx). exists (nval n). apply (at_some X k HX); auto. exists (nkey n). split; auto.
    unfold segs. apply (in_map (fun n => (nkey n, nval n))). auto.
  - intros (v & H). apply (at_some X k HX) in H; auto. destruct H as (a & Ha & Mx). unfold segs in Ha. apply in_map_iff in Ha. destruct Ha as (n & Q & Hn).
    apply cmem_nodes. exists n. split; auto. congruence.
Qed.
Lemma erased_changed (t t' : tree) (P : D X -> Prop) : inv k t -> inv k t' -> List.incl (nodes t') (nodes t) ->
  (forall x, SetSpec.cmem X k t' x <-> SetSpec.cmem X k t x /\ ~ P x) -> changed X k CC t t' P (fun _ => None).
Proof.
  intros Hi Hi' Hn H x. split.
  - intros Px. destruct (at_ t' x) as [v|] eqn:E; auto. exfalso. destruct (proj1 (H x)) as [_ N]; auto. apply at_cmem; eauto.
  - intros Nx. destruct (at_ t x) as [v|] eqn:E.
    + assert (Q : SetSpec.cmem X k t' x). { apply H. split; auto. apply at_cmem; eauto. }
      apply at_cmem in Q; auto. destruct Q as (w & Q). rewrite Q. f_equal.
      apply (at_some X k HX) in Q; auto. destruct Q as (a & Ha & Ma). unfold segs in Ha. apply in_map_iff in Ha. destruct Ha as (n & Q & Hn').
      assert (E2 : at_ t x = Some w). { apply (at_some X k HX); auto. exists a. split; auto. unfold segs. apply in_map_iff. eauto. }
      congruence.
    + destruct (at_ t' x) as [v|] eqn:E'; auto. exfalso. assert (Q : SetSpec.cmem X k t' x) by (apply at_cmem; eauto). apply H in Q. destruct Q as [Q _].
      apply at_cmem in Q; auto. destruct Q as (w & Q). congruence.
Qed.
End Map.
End LookThms.

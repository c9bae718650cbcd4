(** Map properties: assignment and safety (proofs). *)
From Verif Require Export MapThms3 SetThms.
From Verif Require Export MapModel.

Section MapThms4.
Context (X : dom) (k : kind).
Context (HX : dom_ok X k).
Context (CC : codomain) (Hco : eq_ok CC).
Notation V := (C CC).
Notation I := (itv (D X)).
Notation tree := (tree (D X) V).
Notation iset := (Tree.tree (D X) unit).
Notation mem := (mem X k).
Notation cmem := (cmem X k).
Notation at_ := (at_ X k CC).
Notation mreach := (mreach X k CC).
Notation reach := (reach X k).
Hint Resolve mreach_minv mreach_inv mreach_aok reach_inv proper_good : core.
Ltac at_r := rewrite ?(at_vr X k HX CC).
Ltac mco H := cbn [mt_co mt] in H.

Lemma thm_massign p s o : mreach (restyle p s) o -> exists t', m_assign X k (mt CC p) o = Ok t' /\ mreach p t' /\
  (mp_style p = MSplit -> segs X CC t' = segs X CC o) /\
  (mp_style p = MJoin -> equal_joined X k CC t' /\ (proper CC p -> forall x, at_ t' x = copy_val CC p (at_ o x))).
Proof.
  intros Ho. destruct (assign_at X k HX (mt CC p) Hco o) as (t' & E & _ & Q1 & Q2); eauto. exists t'. split; auto.
  assert (R : mreach p t') by (eapply M_assign; eauto). split; auto. split; auto. intros ES. split. { eapply thm_joined; eauto. }
  intros P x. at_r. destruct (Q2 ES (proper_good CC p P)) as [_ Q']. specialize (Q' (pt X x)). mco Q'. rewrite Q'. destruct (vr k (nodes o) (pt X x)); auto.
Qed.

Lemma at_cmem p t x : mreach p t -> (SetSpec.cmem X k t x <-> at_ t x <> None).
Proof.
  intros Ht. pose proof (mreach_inv X k HX CC Hco p t Ht) as It. split.
  - intros (a & Ha & Mx). unfold keys in Ha. apply in_map_iff in Ha. destruct Ha as (n & <- & Hn).
    assert (E : at_ t x = Some (nval n)); [|congruence]. apply (at_some X k HX CC); auto. exists (nkey n). split; auto. apply (in_map (fun n => (nkey n, nval n))). auto.
  - intros H. destruct (at_ t x) as [v|] eqn:Ev; [|congruence]. apply (at_some X k HX CC) in Ev; auto. destruct Ev as (a & Ha & Mx).
    exists a. split; auto. unfold segs in Ha. apply in_map_iff in Ha. destruct Ha as (n & En & Hn). inversion En; subst. apply in_map. auto.
Qed.
Lemma thm_mhull p t : mreach p t -> exists h, c_hull X k t = Ok h /\
  forall x, mem h x <-> exists y z, at_ t y <> None /\ at_ t z <> None /\ le y x /\ le x z.
Proof.
  intros Ht. destruct (thm_hull X k HX t (mreach_inv X k HX CC Hco p t Ht)) as (h & E & P). exists h. split; auto. intros x. rewrite P.
  split; intros (y & z & A & B & Q); exists y, z; (split; [|split]); auto; eapply at_cmem; eauto.
Qed.
Lemma thm_mfirst p t : mreach p t -> has_first X k = true -> (exists x, at_ t x <> None) ->
  exists x, c_first X k t = Ok x /\ at_ t x <> None /\ forall y, at_ t y <> None -> le x y.
Proof.
  intros Ht Hf (x & Hx). destruct (thm_first X k HX t (mreach_inv X k HX CC Hco p t Ht) Hf) as (f & E & Mf & P).
  { exists x. eapply at_cmem; eauto. }
  exists f. split; auto. split; [eapply at_cmem; eauto|]. intros y Hy. apply P. eapply at_cmem; eauto.
Qed.
Lemma thm_mlast p t : mreach p t -> has_last X k = true -> (exists x, at_ t x <> None) ->
  exists x, c_last X k t = Ok x /\ at_ t x <> None /\ forall y, at_ t y <> None -> le y x.
Proof.
  intros Ht Hf (x & Hx). destruct (thm_last X k HX t (mreach_inv X k HX CC Hco p t Ht) Hf) as (f & E & Mf & P).
  { exists x. eapply at_cmem; eauto. }
  exists f. split; auto. split; [eapply at_cmem; eauto|]. intros y Hy. apply P. eapply at_cmem; eauto.
Qed.
Lemma thm_mcardinality p t phi sub : integral X phi sub -> disc X = true -> mreach p t -> headroom X k t ->
  exists e, enumerates X (fun x => at_ t x <> None) e /\ c_cardinality X k sub t = Fin (Z.of_nat (List.length e)) /\
    c_size X k sub t = Fin (Z.of_nat (List.length e)) /\ c_length X k sub t = Z.of_nat (List.length e).
Proof.
  intros Hp Hd Ht Hr. destruct (thm_cardinality X k HX phi sub Hp Hd t (mreach_inv X k HX CC Hco p t Ht) Hr) as (e & [N P] & Q).
  exists e. split; auto. split; auto. intros x. rewrite P. eapply at_cmem; eauto.
Qed.
Lemma thm_mcardinality_dense p t sub : disc X = false -> dense_ok X -> mreach p t ->
  match c_cardinality X k sub t with
  | Fin z => exists e, enumerates X (fun x => at_ t x <> None) e /\ z = Z.of_nat (List.length e)
  | Infinite => forall n, exists l, NoDup l /\ List.length l = n /\ forall x, In x l -> at_ t x <> None
  end.
Proof.
  intros Hd He Ht. pose proof (thm_cardinality_dense X k HX sub t Hd He (mreach_inv X k HX CC Hco p t Ht)) as H. destruct c_cardinality.
  - destruct H as (e & [N P] & Q). exists e. split; auto. split; auto. intros x. rewrite P. eapply at_cmem; eauto.
  - intros n. destruct (H n) as (l & N & L & P). exists l. split; auto. split; auto. intros x Hx. eapply at_cmem; eauto.
Qed.
Lemma thm_mdistance p t phi sub : integral X phi sub -> disc X = true -> mreach p t ->
  exists e, enumerates X (fun x => at_ t x = None /\ (exists y, at_ t y <> None /\ lt y x) /\ (exists z, at_ t z <> None /\ lt x z)) e /\
    c_distance X k sub t = Z.of_nat (List.length e).
Proof.
  intros Hp Hd Ht. destruct (thm_distance X k HX phi sub Hp Hd t (mreach_inv X k HX CC Hco p t Ht)) as (e & [N P] & Q).
  exists e. split; auto. split; auto. intros x. rewrite P. unfold hole.
  assert (A : forall y, SetSpec.cmem X k t y <-> at_ t y <> None) by (intros; eapply at_cmem; eauto).
  split; intros (B & (y & C & E) & (z & F & G)).
  - split; [|split; [exists y|exists z]; split; auto; apply A; auto]. destruct (at_ t x) eqn:Ex; auto. exfalso. apply B, A. congruence.
  - split; [|split; [exists y|exists z]; split; auto; apply A; auto]. intros D. apply A in D. auto.
Qed.
Lemma thm_melements p t phi sub plus minus : integral X phi sub -> disc X = true ->
  (forall x y z, phi y = (phi x + z)%Z -> plus x z = y) -> (forall x y z, phi y = (phi x - z)%Z -> minus x z = y) ->
  mreach p t -> headroom X k t ->
  exists w, Sorted.StronglySorted (fun p q => lt (fst p) (fst q)) w /\ (forall x v, In (x, v) w <-> at_ t x = Some v) /\
    (exists fuel, e_walk X k sub plus fuel t (elements_begin X t) = Ok w) /\
    (exists fuel, e_walk_back X k sub plus fuel t (elements_end X t) = Ok (rev w)) /\
    (exists fuel, r_walk X k sub minus fuel t (elements_end X t) = Ok (rev w)).
Proof.
  intros Hp Hd H1 H2 Ht Hr. pose proof (mreach_inv X k HX CC Hco p t Ht) as It.
  destruct (thm_elements X k HX phi sub Hp Hd plus minus H1 H2 t It Hr) as (w & S & P & Q). exists w. split; auto. split; auto.
  intros x v. rewrite P, (at_some X k HX CC) by auto. unfold segs. split.
  - intros (n & Hn & Mx & <-). exists (nkey n). split; auto. apply (in_map (fun n => (nkey n, nval n))). auto.
  - intros (a & Ha & Mx). apply in_map_iff in Ha. destruct Ha as (n & E & Hn). inversion E; subst. exists n. auto.
Qed.

Lemma thm_mfind p t : mreach p t -> forall x, has_room X k x ->
  (exists n, In n (nodes t) /\ mem (nkey n) x /\ find_elem X k t x = Ok (Some (nid n)) /\ at_ t x = Some (nval n)) \/
  (at_ t x = None /\ find_elem X k t x = Ok (end_ t)).
Proof.
  intros Ht x Hx. pose proof (mreach_inv X k HX CC Hco p t Ht) as It.
  destruct (thm_find X k HX t x It Hx) as [(n & Hn & Mx & E)|[Nm E]].
  - left. exists n. repeat split; auto. apply (at_some X k HX CC); auto. exists (nkey n). split; auto. unfold segs. apply (in_map (fun n => (nkey n, nval n))). auto.
  - right. split; auto. destruct (at_ t x) as [v|] eqn:Ev; auto. exfalso. apply (at_some X k HX CC) in Ev; auto. destruct Ev as (a & Ha & Mx).
    apply Nm. exists a. split; auto. unfold segs in Ha. apply in_map_iff in Ha. destruct Ha as (n & En & Hn). inversion En; subst. apply in_map. auto.
Qed.
Ltac fin := first [solve [eauto 3] | match goal with E : _ = Ok ?r |- _ => exists r; exact E end | eauto].
Lemma thm_msafe p p' st t o s : mreach p t -> mreach p' o -> reach st s ->
  let M := mt CC p in
  (forall a v, safe (m_add X k M t a v) /\ safe (m_subtract X k M t a v) /\ safe (m_insert X k M t a v) /\
     safe (m_set X k M t a v) /\ safe (m_erase_seg X k M t a v) /\ safe (m_and_seg X k M t a v) /\
     safe (m_contains_seg X k M t a v) /\ safe (m_intersects_seg X k M t a v)) /\
  (forall h a v, mhint_ok X CC t h -> safe (m_add_hint X k M t h a v) /\ safe (m_insert_hint X k M t h a v)) /\
  (forall a, safe (m_erase X k M t a) /\ safe (m_and_itv X k M t a) /\ safe (m_contains_itv X k M t a) /\ safe (m_intersects_itv X k M t a)) /\
  (forall a v, mp_total p = true \/ (exists x, mem a x) \/ nodes t = [] -> safe (m_flip_seg X k M t a v)) /\
  (forall x v, safe (m_add_elem X k M t x v) /\ safe (m_subtract_elem X k M t x v) /\ safe (m_insert_elem X k M t x v) /\
     safe (m_set_elem X k M t x v) /\ safe (m_erase_pair X k M t x v) /\ safe (m_erase_key X k M t x)) /\
  (forall x v, has_room X k x -> safe (m_lookup X k M t x) /\ safe (m_contains_key X k M t x) /\ safe (m_contains_pair X k M t x v) /\
     safe (m_and_key X k M t x) /\ safe (find_elem X k t x)) /\
  (safe (m_add_map X k M t o) /\ safe (m_subtract_map X k M t o) /\ safe (m_insert_map X k M t o) /\ safe (m_erase_map X k M t o) /\
   safe (m_and_map X k M t o) /\ safe (m_flip_map X k M t o) /\ safe (m_intersects_map X k M t o) /\ safe (m_disjoint_map X k M t o)) /\
  (safe (m_erase_set X k M t s) /\ safe (m_and_set X k M t s) /\ safe (m_intersects_set X k M t s) /\ safe (m_contains_set X k M t s)) /\
  (forall st', safe (m_domain X k M st' t) /\ safe (m_between X k M st' t)) /\
  (forall q, safe (m_erase_if X M q t)) /\
  (safe (m_absorb_identities X M t) /\ safe (join X k cc_eq t)) /\
  (forall co, safe (m_contains_map X k M co t o) /\ safe (m_inclusion_compare X k M co t o) /\ safe (m_element_equal X k M co t o)) /\
  (forall s', p' = restyle p s' -> safe (m_assign X k M o)) /\
  (exists fuel, safe (mtraverse X CC fuel t (begin_ t))).
Proof.
  intros Ht Ho Hs M. pose proof (mreach_minv X k HX CC Hco p t Ht) as Hm. pose proof (mreach_inv X k HX CC Hco p t Ht) as It.
  pose proof (mreach_inv X k HX CC Hco p' o Ho) as Io. pose proof (reach_inv X k HX st s Hs) as Is.
  assert (H0 : MapFacts.minv X k M t_empty) by apply minv_empty. unfold safe.
  assert (Sadd : forall a v, exists r, m_add X k M t a v = Ok r) by (intros a v; destruct (thm_madd X k HX CC Hco p t Ht a v) as (r & E & _); fin).
  assert (Ssub : forall a v, exists r, m_subtract X k M t a v = Ok r) by (intros a v; destruct (thm_msub X k HX CC Hco p t Ht a v) as (r & E & _); fin).
  assert (Sins : forall a v, exists r, m_insert X k M t a v = Ok r) by (intros a v; destruct (thm_mins X k HX CC Hco p t Ht a v) as (r & E & _); fin).
  assert (Sset : forall a v, exists r, m_set X k M t a v = Ok r) by (intros a v; destruct (thm_mset X k HX CC Hco p t Ht a v) as (r & E & _); fin).
  assert (Sers : forall a v, exists r, m_erase_seg X k M t a v = Ok r) by (intros a v; destruct (erase_seg_any X k HX M Hco t a v Hm) as (r & E & _); fin).
  assert (Ser : forall a, exists r, m_erase X k M t a = Ok r) by (intros a; destruct (thm_merase X k HX CC Hco p t Ht a) as (r & E & _); fin).
  assert (Sint : exists b, m_intersects_map X k M t o = Ok b) by (destruct (thm_mint_map X k HX CC Hco p t Ht p' o Ho) as (r & E & _); fin).
  conjs.
  - intros a v. conjs; auto.
    + destruct (int_seg_at X k HX M Hco t_empty t a v H0 It) as (? & E & _). unfold m_and_seg. rewrite E. eauto.
    + destruct (MapThms2.thm_contains_seg X k HX CC Hco p t Ht a v) as (r & E & _); fin.
    + destruct (thm_mint_seg X k HX CC Hco p t Ht a v) as (r & E & _); fin.
  - intros h a v Hh. apply mhint_isit in Hh. split.
    + destruct (add_hint_any X k HX M Hco (codomain_combine M) t h a v Hm Hh) as (? & ? & E & _). unfold m_add_hint. rewrite E. eauto.
    + destruct (ins_hint_any X k HX M Hco t h a v Hm Hh) as (r1 & r2 & E & _). exists (r1, r2). exact E.
  - intros a. conjs; auto.
    + destruct (int_itv_at X k HX M Hco t_empty t a H0 It) as (? & E & _). unfold m_and_itv. rewrite E. eauto.
    + destruct (thm_contains_itv X k HX CC Hco p t Ht a) as (r & E & _); fin.
    + destruct (thm_mint_itv X k HX CC Hco p t Ht a) as (r & E & _); fin.
  - intros a v H. destruct (flip_any X k HX M Hco t a v Hm) as (r & E & _); fin.
    intros Et. cbn in Et. destruct H as [H|[H|H]]; [congruence|left; apply (ne_ex X k HX); auto|right; auto].
  - intros x v. conjs; unfold m_add_elem, m_subtract_elem, m_insert_elem, m_set_elem, m_erase_pair, m_erase_key; auto.
  - intros x v Hx. conjs.
    + eexists. exact (thm_lookup X k HX CC Hco p t Ht x Hx).
    + destruct (thm_contains_key X k HX CC Hco p t Ht x Hx) as (r & E & _); fin.
    + destruct (thm_contains_pair X k HX CC Hco p t Ht x v Hx) as (r & E & _); fin.
    + destruct (int_key_at X k HX M Hco t_empty t x H0 It Hx) as (? & E & _). unfold m_and_key. rewrite E. eauto.
    + destruct (thm_find X k HX t x It Hx) as [(n & _ & _ & ->)|[_ ->]]; eauto.
  - destruct (add_map_at X k HX M Hco t o Hm) as (r & E & _); fin.
  - destruct (thm_msub_map X k HX CC Hco p p' t o Ht Ho) as (r & E & _); fin.
  - destruct (thm_mins_map X k HX CC Hco p p' t o Ht Ho) as (r & E & _); fin.
  - destruct (erase_map_at X k HX M Hco t o Hm) as (r & E & _); fin.
  - destruct (int_map_at X k HX M Hco t_empty t o H0 It Io) as (? & E & _). unfold m_and_map. rewrite E. eauto.
  - destruct (flip_map_at X k HX M Hco t o Hm Io) as (r & E & _); fin.
  - auto.
  - destruct Sint as (b & E). unfold m_disjoint_map. rewrite E. cbn. eauto.
  - destruct (erase_set_at X k HX M Hco t s) as (r & E & _); fin.
  - destruct (int_set_at X k HX M Hco t_empty t s H0 It Is) as (? & E & _). unfold m_and_set. rewrite E. eauto.
  - destruct (intersects_set_at X k HX M Hco t s) as (r & E & _); fin.
  - destruct (thm_mcontains_set X k HX CC Hco p st t s Ht Hs) as (r & E & _); fin.
  - intros st'. split.
    + destruct (thm_mdomain X k HX CC p t st') as (r & E & _); fin.
    + destruct (thm_mbetween X k HX CC Hco p t Ht st') as (r & E & _); fin.
  - intros q. destruct (thm_merase_if X k HX CC Hco p t Ht q) as (r & E & _); fin.
  - destruct (thm_mabsorb X k HX CC Hco p t Ht) as (r & E & _); fin.
  - destruct (thm_mjoin X k HX CC Hco p t Ht) as (r & E & _); fin.
  - intros co.
    destruct (subset_compare_at X k HX (Some co) t o It Io) as (b & E1 & _). destruct (subset_compare_at X k HX (Some co) o t Io It) as (b' & E2 & _).
    conjs.
    + exists (fst b'). change (bind (subset_compare X k (Some co) o t) (fun r => Ok (fst r)) = Ok (fst b')). rewrite E2. auto.
    + exists b. exact E1.
    + exists (fst b && snd b). change (bind (subset_compare X k (Some co) t o) (fun x => Ok (fst x && snd x)) = Ok (fst b && snd b)). rewrite E1. auto.
  - intros s' ->. destruct (thm_massign p s' o Ho) as (r & E & _); fin.
  - destruct (mtraverse_at X k CC t It) as (f & E). exists f. eauto.
Qed.
End MapThms4.

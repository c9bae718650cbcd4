(** Iterators that stay valid in operations with whole containers (proofs). *)
From Verif Require Export StableAllSpec CrashMapThms CrashFlip.

(** a loop keeps an invariant about the part done *)
Lemma cfold_both {T A B} (f : A -> B -> cm T A) g (P : T -> Prop) (J : list B -> A -> Prop) : (forall a b, follows (f a b) (g a b)) ->
  forall l l0 a, J l0 a ->
  (forall l1 b l2 a, l = l1 ++ b :: l2 -> J (l0 ++ l1) a -> throws (f a b) P /\ forall a', g a b = Ok a' -> J (l0 ++ l1 ++ [b]) a') ->
  throws (cfold f a l) P /\ forall a', foldM g a l = Ok a' -> J (l0 ++ l) a'.
Proof.
  intros AG l. induction l as [|b l IH]; intros l0 a Ja H; cbn [cfold foldM].
  - split; [apply throws_ret|]. intros a' E. injection E as <-. rewrite app_nil_r. auto.
  - destruct (H [] b l a eq_refl) as [T1 G1]; [rewrite app_nil_r; auto|]. cbn [app] in G1.
    assert (ST : forall a', g a b = Ok a' -> throws (cfold f a' l) P /\ forall a'', foldM g a' l = Ok a'' -> J (l0 ++ b :: l) a'').
    { intros a' E. replace (l0 ++ b :: l) with ((l0 ++ [b]) ++ l) by (rewrite <- app_assoc; auto). apply IH; auto.
      intros l1 b' l2 a1 -> J1. destruct (H (b :: l1) b' l2 a1 eq_refl) as [T2 G2]; [rewrite <- app_assoc in J1; auto|]. split; auto. intros a2 E2. rewrite <- app_assoc. apply (G2 a2 E2). }
    split.
    + eapply throws_bind; [apply AG|exact T1|]. intros a' E. apply ST; auto.
    + intros a' E. destruct (g a b) as [a1|] eqn:E1; [|discriminate]. apply (ST a1); auto.
Qed.
Lemma survives_throws {T A} (m : cm T A) r (P : T -> Prop) : survives m r P -> throws m P.
Proof.
  intros (c & a & _ & H) n t E. destruct (H n) as [H1 H2]. destruct (Nat.lt_ge_cases n c) as [Hn|Hn].
  - destruct (H2 Hn) as (t' & E' & Q). assert (t' = t) by congruence. subst. auto.
  - rewrite (H1 Hn) in E. discriminate.
Qed.
Lemma any_case {T} (m : cm T T) r P : follows m r -> (exists t', r = Ok t') -> throws m P /\ (forall t', r = Ok t' -> P t') -> in_any_case m r P.
Proof. intros F (t' & E) (H1 & H2). split; auto. eapply survives_intro; eauto. Qed.

Section StableAll.
Context (X : dom) (k : kind).
Context (HX : dom_ok X k).
Notation I := (itv (D X)).
Notation node V := (node (D X) V).
Notation tree V := (tree (D X) V).
Notation lc := (lc X k).
Notation uc := (uc X k).
Notation ne := (@ne X k).
Notation mem := (mem X k).
Notation stable := (stable X k).
Notation stable_all := (stable_all X k).
Notation keys := (keys X).
Ltac cord := cord_ X k HX.

(* ---------------------------------------------------------------- segments out of reach *)
Lemma out_sub j s a b : (forall x, mem b x -> mem a x) -> out_of_reach X k j s a -> out_of_reach X k j s b.
Proof.
  intros H. unfold out_of_reach. destruct j.
  - intros (z & [[H1 H2]|[H1 H2]]); exists z; [left|right]; split; auto.
  - intros H1 (x & M1 & M2). apply H1. exists x. auto.
Qed.
Lemma lt_irr (x z : D X) : lt x z -> lt z x -> False.
Proof. rewrite !(lt_pt X). intros. cord. Qed.
Lemma out_weak j s a : out_of_reach X k j s a -> out_of_reach X k false s a.
Proof.
  destruct j; auto. cbn [out_of_reach]. intros (z & [[H1 H2]|[H1 H2]]) (x & M1 & M2); apply (lt_irr x z); auto.
Qed.
Section Any.
Context {V : Type}.
Lemma stable_weak j a (t t' : tree V) : stable false a t t' -> stable j a t t'.
Proof. intros H i s A O. apply H; auto. eapply out_weak; eauto. Qed.
Lemma stable_sub j a b (t t' : tree V) : (forall x, mem b x -> mem a x) -> stable j b t t' -> stable j a t t'.
Proof. intros Q H i s A O. apply H; auto. eapply out_sub; eauto. Qed.
Lemma stable_trans j a (t u t' : tree V) : stable j a t u -> stable j a u t' -> stable j a t t'.
Proof. intros H1 H2 i s A O. auto. Qed.
Lemma all_stable j l a (t t' : tree V) : (forall b x, In b l -> mem b x -> mem a x) -> stable_all j l t t' -> stable j a t t'.
Proof. intros Q H i s A O. apply H; auto. intros b Hb. eapply out_sub; [|exact O]. intros x. apply Q. auto. Qed.
Lemma all_refl j l (t : tree V) : stable_all j l t t.
Proof. intros i s A _. auto. Qed.
Lemma all_snoc j l a (t u t' : tree V) : stable_all j l t u -> stable j a u t' -> stable_all j (l ++ [a]) t t'.
Proof. intros H1 H2 i s A O. apply H2; [|apply O; rewrite in_app_iff; cbn; auto]. apply H1; auto. intros b Hb. apply O. rewrite in_app_iff. auto. Qed.
Lemma all_incl j l l' (t t' : tree V) : (forall b, In b l -> In b l') -> stable_all j l t t' -> stable_all j l' t t'.
Proof. intros Q H i s A O. apply H; auto. Qed.
Lemma all_trans j l (t u t' : tree V) : stable_all j l t u -> stable_all j l u t' -> stable_all j l t t'.
Proof. intros H1 H2 i s A O. auto. Qed.
(** one step after the steps of d *)
Lemma all_step {W} j (o : Tree.tree (D X) W) d b r (t u t' : tree V) : nodes o = d ++ b :: r -> stable_all j (map nkey d) t u -> stable j (nkey b) u t' -> stable_all j (keys o) t t'.
Proof.
  intros E H1 H2. apply (all_incl j (map nkey d ++ [nkey b])); [|eapply all_snoc; eauto]. intros c. unfold keys. rewrite E, map_app, !in_app_iff. cbn. tauto.
Qed.
End Any.

(* ---------------------------------------------------------------- interval sets *)
Notation is_joining := (fun st => match st with Joining => true | _ => false end).
Notation reach := (reach X k).
Definition okJ st (j : bool) (t : tree unit) (d : list (node unit)) (u : tree unit) : Prop := reach st u /\ stable_all j (map nkey d) t u.
Lemma okJ_nil st j t : reach st t -> okJ st j t [] t. Proof. intros R. split; auto. apply all_refl. Qed.
Lemma okJ_snoc st j t d b u u' : reach st u' -> okJ st j t d u -> stable j (nkey b) u u' -> okJ st j t (d ++ [b]) u'.
Proof. intros R (_ & H1) H2. split; auto. rewrite map_app. cbn. eapply all_snoc; eauto. Qed.

Lemma s_add_both st t a : reach st t -> throws (c_add X k st t a) (stable (is_joining st) a t) /\
  forall t' h, s_add X k st t a = Ok (t', h) -> reach st t' /\ stable (is_joining st) a t t'.
Proof.
  intros R. split.
  - eapply throws_impl; [apply (add_throws' X k HX); auto|]. intros t' (_ & _ & _ & _ & _ & S). apply stable_weak. auto.
  - intros t' h E. split; [eapply R_add; eauto|]. destruct (thm_s_add X k HX st t a R) as (u & i & E' & S). assert (u = t') by (rewrite E in E'; inversion E'; auto). subst. auto.
Qed.
Lemma s_add_hint_both st t h a : reach st t -> hint_ok X t h -> throws (c_add_hint X k st t h a) (stable (is_joining st) a t) /\
  forall t' h', s_add_hint X k st t h a = Ok (t', h') -> reach st t' /\ hint_ok X t' h' /\ stable (is_joining st) a t t'.
Proof.
  intros R Hh. split.
  - eapply throws_impl; [apply (add_hint_throws' X k HX); auto|]. intros t' (_ & _ & _ & _ & _ & S). apply stable_weak. auto.
  - intros t' h' E. destruct (hint_step X k HX st t h a t' h' R Hh E) as (R' & Hh' & _). conjs; auto.
    destruct (thm_s_add_hint X k HX st t h a R Hh) as (u & i & E' & S). assert (u = t') by (rewrite E in E'; inversion E'; auto). subst. auto.
Qed.
Lemma s_subtract_both st t a : reach st t -> throws (c_subtract X k t a) (stable false a t) /\
  forall t', s_subtract X k t a = Ok t' -> reach st t' /\ stable false a t t'.
Proof.
  intros R. split.
  - eapply throws_impl; [apply (subtract_throws' X k HX st); auto|]. intros t' (_ & _ & _ & S). auto.
  - intros t' E. split; [eapply R_subtract; eauto|]. destruct (thm_s_subtract X k HX st t a R) as (u & E' & S). assert (u = t') by congruence. subst. auto.
Qed.

Lemma add_set_both st t (o : tree unit) : reach st t -> throws (c_add_set X k st t o) (stable_all (is_joining st) (keys o) t) /\
  forall t', s_add_set X k st t o = Ok t' -> stable_all (is_joining st) (keys o) t t'.
Proof.
  intros R. unfold c_add_set, s_add_set.
  destruct (cfold_both (fun '(t, prior_) (n : node unit) => c_add_hint X k st t prior_ (nkey n)) (fun '(t, prior_) (n : node unit) => s_add_hint X k st t prior_ (nkey n))
    (stable_all (is_joining st) (keys o) t) (fun d '(u, h) => okJ st (is_joining st) t d u /\ hint_ok X u h)) with (l := nodes o) (l0 := @nil (node unit)) (a := (t, end_ t)) as [T1 G1].
  - intros [u h] b. apply follows_add_hint.
  - split; [apply okJ_nil; auto|exact Logic.I].
  - intros l1 b l2 [u h] E (Ju & Hh). destruct (s_add_hint_both st u h (nkey b) (proj1 Ju) Hh) as [T G]. split.
    + eapply throws_impl; [exact T|]. intros t' S. eapply all_step; [exact E|apply Ju|exact S].
    + intros [u' h'] E'. destruct (G u' h' E') as (R' & Hh' & S). split; auto. eapply okJ_snoc; eauto.
  - split.
    + eapply throws_bind; [|exact T1|intros [u h] _; apply throws_ret].
      apply (follows_cfold (fun '(t, prior_) (n : node unit) => c_add_hint X k st t prior_ (nkey n)) (fun '(t, prior_) (n : node unit) => s_add_hint X k st t prior_ (nkey n))). intros [u h] b. apply follows_add_hint.
    + intros t' E. match type of E with bind ?m _ = _ => destruct m as [[u h]|] eqn:Q; [|discriminate] end. cbn [bind] in E. injection E as <-.
      destruct (G1 _ eq_refl) as [[_ S] _]. exact S.
Qed.
Theorem any_add_set st st' t o : reach st t -> reach st' o -> in_any_case (c_add_set X k st t o) (s_add_set X k st t o) (stable_all (is_joining st) (keys o) t).
Proof.
  intros R Ro. apply any_case; [apply follows_add_set| |apply add_set_both; auto]. destruct (thm_add_set X k HX st st' t o R Ro) as (t' & E & _). eauto.
Qed.
Theorem any_insert_set st st' t o : reach st t -> reach st' o -> in_any_case (c_insert_set X k st t o) (s_insert_set X k st t o) (stable_all (is_joining st) (keys o) t).
Proof.
  intros R Ro. apply any_case; [apply follows_insert_set| |]. { destruct (thm_insert_set X k HX st t o R) as (t' & E & _). eauto. }
  unfold c_insert_set, s_insert_set.
  destruct (cfold_both (fun u (n : node unit) => cbind (c_add_hint X k st u None (nkey n)) (fun '(t, _) => cret t)) (fun u (n : node unit) => ' (t, _) <- s_add_hint X k st u None (nkey n) ;; Ok t)
    (stable_all (is_joining st) (keys o) t) (okJ st (is_joining st) t)) with (l := nodes o) (l0 := @nil (node unit)) (a := t) as [T1 G1].
  - intros u b. apply follows_bind; [apply follows_add_hint|]. intros [v h]. apply follows_ret.
  - apply okJ_nil; auto.
  - intros l1 b l2 u E Ju. destruct (s_add_hint_both st u None (nkey b) (proj1 Ju) Logic.I) as [T G]. split.
    + eapply throws_bind; [apply follows_add_hint| |intros [v h] _; apply throws_ret]. eapply throws_impl; [exact T|]. intros t' S. eapply all_step; [exact E|apply Ju|exact S].
    + intros u' E'. destruct (s_add_hint X k st u None (nkey b)) as [[v h]|] eqn:E1; [|discriminate]. injection E' as <-. destruct (G v h eq_refl) as (R' & _ & S). eapply okJ_snoc; eauto.
  - split; auto. intros t' E. apply (G1 t' E).
Qed.
(** the loops over a common range of the operand *)
Lemma all_range {V W} j (o : Tree.tree (D X) W) f e l d b r (t u t' : tree V) : range X o f e = Ok l -> l = d ++ b :: r ->
  stable_all j (map nkey d) t u -> stable j (nkey b) u t' -> stable_all j (keys o) t t'.
Proof.
  intros E Q H1 H2. apply (all_incl j (map nkey d ++ [nkey b])); [|eapply all_snoc; eauto]. intros c Hc. unfold keys. apply range_incl in E.
  assert (Hc' : In c (map nkey l)) by (rewrite Q, map_app, in_app_iff; rewrite in_app_iff in Hc; cbn in *; tauto).
  apply in_map_iff in Hc'. destruct Hc' as (n & <- & Hn). apply in_map. auto.
Qed.
Lemma all_range' {V W} j (o : Tree.tree (D X) W) f e l (t t' : tree V) : range X o f e = Ok l -> stable_all j (map nkey l) t t' -> stable_all j (keys o) t t'.
Proof.
  intros E. apply all_incl. intros c Hc. apply in_map_iff in Hc. destruct Hc as (n & <- & Hn). unfold keys. apply in_map. eapply range_incl; eauto.
Qed.
Theorem any_subtract_set st st' t o : reach st t -> reach st' o -> in_any_case (c_subtract_set X k t o) (s_subtract_set X k t o) (stable_all false (keys o) t).
Proof.
  intros R Ro. apply any_case; [apply follows_subtract_set| |]. { destruct (thm_subtract_set X k HX st st' t o R Ro) as (t' & E & _). eauto. }
  unfold c_subtract_set, s_subtract_set. destruct (nodes o) as [|n0 l0] eqn:Eo; [split; [apply throws_ret|]; intros t' E; injection E as <-; apply all_refl|]. clear n0 l0 Eo.
  destruct (common_range X k o t) as [[[lw up]|]|] eqn:EC; cbn [bind].
  2:{ split; [apply throws_ok, throws_ret|]. intros t' E. injection E as <-. apply all_refl. }
  2:{ split; [eapply throws_bind; [apply follows_lift|apply throws_lift|]; discriminate|discriminate]. }
  destruct (range X o lw up) as [l|] eqn:ER; cbn [bind].
  2:{ split; [apply throws_ok; eapply throws_bind; [apply follows_lift|apply throws_lift|]; intros; congruence|discriminate]. }
  destruct (cfold_both (fun u (n : node unit) => c_subtract X k u (nkey n)) (fun u (n : node unit) => s_subtract X k u (nkey n))
    (stable_all false (keys o) t) (okJ st false t)) with (l := l) (l0 := @nil (node unit)) (a := t) as [T1 G1].
  - intros u b. apply follows_subtract.
  - apply okJ_nil; auto.
  - intros l1 b l2 u E Ju. destruct (s_subtract_both st u (nkey b) (proj1 Ju)) as [T G]. split.
    + eapply throws_impl; [exact T|]. intros t' S. eapply all_range; [exact ER|exact E|apply Ju|exact S].
    + intros u' E'. destruct (G u' E') as (R' & S). eapply okJ_snoc; eauto.
  - split; [apply throws_ok; cbv beta iota; rewrite ER; apply throws_ok, T1|]. intros t' E. eapply all_range'; [exact ER|]. apply (G1 t' E).
Qed.

(** symmetric difference *)
Notation hd_it := (@hd_it X unit).
Lemma flip_loop_both st : forall M fuel t L R a, reach st t -> nodes t = L ++ M ++ R ->
  (is_empty X k a = true /\ M = [] \/ ne a /\ below k L (lc a) /\ Forall (over k a) M /\ above k R (uc a)) ->
  throws (c_flip_loop X k fuel st t a (hd_it (M ++ R)) (hd_it R)) (stable (is_joining st) a t) /\
  forall t' b, s_flip_loop X k fuel st t a (hd_it (M ++ R)) (hd_it R) = Ok (t', b) ->
    reach st t' /\ stable (is_joining st) a t t' /\ forall x, mem b x -> mem a x.
Proof.
  induction M as [|m M IH]; intros [|fuel] t L R a Rt E HA; cbn [c_flip_loop s_flip_loop]; try (split; [apply throws_lift|discriminate]).
  - cbn [app]. rewrite iter_eqb_refl. cbn [negb]. split; [apply throws_ret|]. intros t' b Q. injection Q as <- <-. split; auto. split; auto. apply stable_refl.
  - destruct HA as [[_ HA]|(Na & BL & OM & AR)]; [discriminate|]. pose proof (reach_sinv X k HX st t Rt) as Hi.
    rewrite (iter_eqb_hd X t L (m :: M) R) by (auto; apply Hi). cbn [negb app Tree.hd_it].
    rewrite (key_at X t L m (M ++ R)) by (auto; apply Hi). rewrite (incr_at X t L m (M ++ R)) by (auto; apply Hi). cbn [bind].
    destruct (flip_round X k HX st t L m M R a Hi E Na BL OM AR) as (t1 & t2 & h2 & LP & E1 & E2 & Hi2 & N2 & BLP & AP & Ni & Hb & Mi & Mlo & Mb).
    set (i := inter X k a (nkey m)) in *. set (lo := right_subtract X k a (nkey m)) in *. set (b := left_subtract X k a (nkey m)) in *.
    destruct (s_subtract_both st t i Rt) as [T1 G1]. destruct (G1 t1 E1) as [R1 S1].
    destruct (s_add_both st t1 lo R1) as [T2 G2]. destruct (G2 t2 h2 E2) as [R2 S2].
    assert (S1' : stable (is_joining st) a t t1) by (apply stable_weak, (stable_sub false a i); auto; intros x Hx; apply Mi; auto).
    assert (S2' : stable (is_joining st) a t1 t2) by (apply (stable_sub _ a lo); auto).
    destruct (IH fuel t2 LP R b R2 N2 Hb) as [TH OKS]. split.
    + apply throws_ok. apply throws_ok. eapply throws_bind; [apply follows_subtract| |].
      { eapply throws_impl; [exact T1|]. intros t' S. apply stable_weak, (stable_sub false a i); auto. intros x Hx. apply Mi. auto. }
      intros t1' E1'. assert (t1' = t1) by (fold i in E1'; rewrite E1 in E1'; inversion E1'; auto). subst t1'. eapply throws_bind; [apply follows_add| |].
      { eapply throws_impl; [exact T2|]. intros t' S. eapply stable_trans; [exact S1'|]. apply (stable_sub _ a lo); auto. }
      intros [t2' h2'] E2'. assert (t2' = t2) by (fold lo in E2'; rewrite E2 in E2'; inversion E2'; auto). subst t2'. eapply throws_impl; [exact TH|].
      intros t' S. eapply stable_trans; [exact S1'|]. eapply stable_trans; [exact S2'|]. apply (stable_sub _ a b); auto. intros x Hx. apply Mb. auto.
    + intros t' b' Q. fold i lo b in Q. rewrite E1 in Q. cbn [bind] in Q. rewrite E2 in Q. cbn [bind] in Q. destruct (OKS t' b' Q) as (R' & O1 & O2). split; auto. split.
      * eapply stable_trans; [exact S1'|]. eapply stable_trans; [exact S2'|]. apply (stable_sub _ a b); auto. intros x Hx. apply Mb. auto.
      * intros x H. apply Mb. auto.
Qed.
Lemma flip_both st t a : reach st t -> ne a -> throws (c_flip_seg X k st t a) (stable (is_joining st) a t) /\
  forall t', s_flip_seg X k st t a = Ok t' -> reach st t' /\ stable (is_joining st) a t t'.
Proof.
  intros Rt Na. pose proof (reach_sinv X k HX st t Rt) as Hi.
  assert (RF : forall t', s_flip_seg X k st t a = Ok t' -> reach st t') by (intros t' E'; eapply R_flip; eauto; apply (ne_ex X k HX); auto). revert RF.
  unfold c_flip_seg, s_flip_seg.
  destruct (decomp X k HX a (nodes t) (proj2 (proj1 Hi)) Na) as (L & M & R & E & BL & OM & AR).
  rewrite (equal_range_at X k HX t L M R a); auto; [|apply Hi]. cbn [bind]. intros RF.
  destruct (flip_loop_both st M (S (length (nodes t))) t L R a Rt E) as [TH OKS]; [right; auto|].
  destruct (s_flip_loop_at X k HX st M (S (length (nodes t))) t L R a Hi E) as (t1 & b & E1 & I1 & A1 & _).
  { rewrite E, !app_length. lia. }
  { right. auto. }
  destruct (OKS t1 b E1) as (R1 & O1 & O2). destruct (s_add_both st t1 b R1) as [T2 G2].
  split.
  - apply throws_ok. eapply throws_bind; [apply follows_flip_loop|exact TH|]. intros [t1' b'] E1'. assert (t1' = t1 /\ b' = b) as [-> ->] by (rewrite E1 in E1'; inversion E1'; auto).
    eapply throws_bind; [apply follows_add| |intros [v h] _; apply throws_ret]. eapply throws_impl; [exact T2|]. intros t' S. eapply stable_trans; [exact O1|]. apply (stable_sub _ a b); auto.
  - intros t' Q. split; auto. rewrite E1 in Q. cbn [bind] in Q. destruct (s_add X k st t1 b) as [[t2 h]|] eqn:E2; [|discriminate]. cbn [bind] in Q. injection Q as <-.
    destruct (G2 t2 h eq_refl) as [_ S]. eapply stable_trans; [exact O1|]. apply (stable_sub _ a b); auto.
Qed.
Theorem any_flip st t a : reach st t -> (exists x, mem a x) -> in_any_case (c_flip_seg X k st t a) (s_flip_seg X k st t a) (stable (is_joining st) a t).
Proof.
  intros R Hx. destruct (thm_flip X k HX st t a R Hx) as (t' & E & _). apply (ne_ex X k HX) in Hx. destruct (flip_both st t a R Hx) as [T G].
  apply any_case; [apply follows_flip_seg|eauto|]. split; auto. intros u Eu. apply (G u Eu).
Qed.
Theorem any_flip_set st st' t o : reach st t -> reach st' o -> in_any_case (c_flip_set X k st t o) (s_flip_set X k st t o) (stable_all (is_joining st) (keys o) t).
Proof.
  intros R Ro. apply any_case; [apply follows_flip_set| |]. { destruct (thm_flip_set X k HX st st' t o R Ro) as (t' & E & _). eauto. }
  pose proof (reach_sinv X k HX st t R) as Hi. pose proof (reach_inv X k HX st' o Ro) as Io. pose proof Io as [W S].
  unfold c_flip_set, s_flip_set. destruct (nodes o) as [|n0 l0] eqn:Eo; [split; [apply throws_ret|]; intros t' E; injection E as <-; apply all_refl|]. rewrite <- Eo in *. clear n0 l0 Eo.
  destruct (common_range_at X k HX o t Io (proj1 Hi)) as (L & M & RR & r & -> & E & HL & HR & Hr). cbn [bind].
  destruct Hr as [[-> ->]|[-> _]].
  { split; [apply throws_ok|]; apply add_set_both; auto. }
  assert (FA : forall (u : tree unit) (n : node unit), follows (T := tree unit) (cbind (c_add X k st u (nkey n)) (fun '(t, _) => cret t)) (' (t, _) <- s_add X k st u (nkey n) ;; Ok t)).
  { intros u b. apply follows_bind; [apply follows_add|]. intros [v h]. apply follows_ret. }
  assert (SA : forall l1 (b : node unit) l2 u, nodes o = l1 ++ b :: l2 -> okJ st (is_joining st) t l1 u ->
      throws (cbind (c_add X k st u (nkey b)) (fun '(t, _) => cret t)) (stable_all (is_joining st) (keys o) t) /\
      forall u', (' (t, _) <- s_add X k st u (nkey b) ;; Ok t) = Ok u' -> okJ st (is_joining st) t (l1 ++ [b]) u').
  { intros l1 b l2 u Q Ju. destruct (s_add_both st u (nkey b) (proj1 Ju)) as [T G]. split.
    - eapply throws_bind; [apply follows_add| |intros [v h] _; apply throws_ret]. eapply throws_impl; [exact T|]. intros t' H. eapply all_step; [exact Q|apply Ju|exact H].
    - intros u' E'. destruct (s_add X k st u (nkey b)) as [[v h]|] eqn:E1; [|discriminate]. injection E' as <-. destruct (G v h eq_refl) as (R' & H). eapply okJ_snoc; eauto. }
  assert (SF : forall l1 (b : node unit) l2 u, nodes o = l1 ++ b :: l2 -> okJ st (is_joining st) t l1 u ->
      throws (c_flip_seg X k st u (nkey b)) (stable_all (is_joining st) (keys o) t) /\
      forall u', s_flip_seg X k st u (nkey b) = Ok u' -> okJ st (is_joining st) t (l1 ++ [b]) u').
  { intros l1 b l2 u Q Ju. assert (Nb : ne (nkey b)). { rewrite Q in S. apply (srt_mid X k HX) in S. tauto. } destruct (flip_both st u (nkey b) (proj1 Ju) Nb) as [T G]. split.
    - eapply throws_impl; [exact T|]. intros t' H. eapply all_step; [exact Q|apply Ju|exact H].
    - intros u' E'. destruct (G u' E') as (R' & H). eapply okJ_snoc; eauto. }
  pose proof (okJ_nil st (is_joining st) t R) as J0.
  replace (begin_ o) with (hd_it (L ++ M ++ RR)) by (rewrite begin_at, E; auto).
  pose proof (range_at X o [] L (M ++ RR) W E) as RA1. pose proof (range_at X o L M RR W E) as RA2.
  pose proof (range_at X o (L ++ M) RR []) as RA3. rewrite app_nil_r in RA3. cbn [Tree.hd_it] in RA3. specialize (RA3 W). rewrite <- app_assoc in RA3. specialize (RA3 E). unfold end_.
  cbn [bind]. rewrite RA1. cbn [bind].
  destruct (cfold_both (fun u n => cbind (c_add X k st u (nkey n)) (fun '(t, _) => cret t)) (fun u n => ' (t, _) <- s_add X k st u (nkey n) ;; Ok t) (stable_all (is_joining st) (keys o) t) (okJ st (is_joining st) t) FA L [] t J0) as [T1 G1].
  { intros l1 b l2 u Q Ju. cbn [app] in *. apply (SA l1 b (l2 ++ M ++ RR)); auto. rewrite E, Q, <- app_assoc; auto. }
  cbn [app] in G1.
  assert (MID : forall t1, okJ st (is_joining st) t L t1 -> throws (cfold (fun u n => c_flip_seg X k st u (nkey n)) t1 M) (stable_all (is_joining st) (keys o) t) /\
     forall t2, foldM (fun u n => s_flip_seg X k st u (nkey n)) t1 M = Ok t2 -> okJ st (is_joining st) t (L ++ M) t2).
  { intros t1 J1. apply (cfold_both (fun u n => c_flip_seg X k st u (nkey n)) (fun u n => s_flip_seg X k st u (nkey n))); auto.
    - intros u b. apply follows_flip_seg.
    - intros l1 b l2 u Q Ju. rewrite app_assoc. apply (SF (L ++ l1) b (l2 ++ RR)); auto. rewrite E, Q, <- !app_assoc. auto. }
  assert (LAST : forall t2, okJ st (is_joining st) t (L ++ M) t2 -> throws (cfold (fun u n => cbind (c_add X k st u (nkey n)) (fun '(t, _) => cret t)) t2 RR) (stable_all (is_joining st) (keys o) t) /\
     forall t3, foldM (fun u n => ' (t, _) <- s_add X k st u (nkey n) ;; Ok t) t2 RR = Ok t3 -> okJ st (is_joining st) t ((L ++ M) ++ RR) t3).
  { intros t2 J2. apply (cfold_both (fun u n => cbind (c_add X k st u (nkey n)) (fun '(t, _) => cret t)) (fun u n => ' (t, _) <- s_add X k st u (nkey n) ;; Ok t)); auto.
    intros l1 b l2 u Q Ju. rewrite app_assoc. apply (SA ((L ++ M) ++ l1) b l2); auto. rewrite E, Q, <- !app_assoc. auto. }
  split.
  - apply throws_ok. cbv beta iota. rewrite RA1. apply throws_ok. eapply throws_bind with (r := foldM _ t L); [apply follows_cfold; intros u b; apply FA|exact T1|]. intros t1 Q1. destruct (MID t1 (G1 t1 Q1)) as [T2 G2].
    rewrite RA2. apply throws_ok. eapply throws_bind with (r := foldM _ t1 M); [apply follows_cfold; intros u b; apply follows_flip_seg|exact T2|]. intros t2 Q2. rewrite RA3. apply throws_ok. apply LAST. auto.
  - intros t' Q. match type of Q with bind ?m _ = _ => destruct m as [t1|] eqn:Q1; [|discriminate] end. cbn [bind] in Q. destruct (MID t1 (G1 t1 eq_refl)) as [_ G2]. rewrite RA2 in Q. cbn [bind] in Q.
    match type of Q with bind ?m _ = _ => destruct m as [t2|] eqn:Q2; [|discriminate] end. cbn [bind] in Q. destruct (LAST t2 (G2 t2 eq_refl)) as [_ G3]. rewrite RA3 in Q. cbn [bind] in Q.
    destruct (G3 t' Q) as [_ H]. rewrite <- app_assoc, <- E in H. exact H.
Qed.

(* ---------------------------------------------------------------- interval maps *)
Section Maps.
Context (CC : codomain) (Hco : eq_ok CC).
Notation V := (C CC).
Notation mreach := (mreach X k CC).
Notation mhint_ok := (mhint_ok X CC).
Definition okM p j (t : tree V) {W} (d : list (node W)) (u : tree V) : Prop := mreach p u /\ stable_all j (map nkey d) t u.
Lemma okM_nil p j t {W} : mreach p t -> okM p j t (@nil (node W)) t. Proof. intros R. split; auto. apply all_refl. Qed.
Lemma okM_snoc p j t {W} (d : list (node W)) b u u' : mreach p u' -> okM p j t d u -> stable j (nkey b) u u' -> okM p j t (d ++ [b]) u'.
Proof. intros R (_ & H1) H2. split; auto. rewrite map_app. cbn. eapply all_snoc; eauto. Qed.

Lemma m_add_both p t a v : mreach p t -> throws (cm_add X k (mt CC p) t a v) (stable (joins p) a t) /\
  forall t', m_add X k (mt CC p) t a v = Ok t' -> mreach p t' /\ stable (joins p) a t t'.
Proof.
  intros R. split.
  - eapply throws_impl; [apply (m_add_throws X k HX CC Hco); auto|]. intros t' (_ & _ & _ & S). exact S.
  - intros t' E. split; [eapply M_add; eauto|]. destruct (thm_m_add X k HX CC Hco p t R a v) as (u & E' & S). assert (u = t') by congruence. subst. auto.
Qed.
Lemma m_add_hint_both p t h a v : mreach p t -> proper CC p -> mhint_ok t h -> throws (cm_add_hint X k (mt CC p) t h a v) (stable (joins p) a t) /\
  forall t' h', m_add_hint X k (mt CC p) t h a v = Ok (t', h') -> mreach p t' /\ mhint_ok t' h' /\ stable (joins p) a t t'.
Proof.
  intros R P Hh. split.
  - eapply throws_impl; [apply (m_add_hint_throws X k HX CC Hco); auto|]. intros t' (_ & _ & _ & S). exact S.
  - intros t' h' E. split; [eapply M_add_hint; eauto|].
    destruct (add_hint_any X k HX (mt CC p) Hco (codomain_combine (mt CC p)) t h a v) as (u2 & i2 & E2 & _ & I2 & _); [eapply mreach_minv; eauto|apply mhint_isit; auto|].
    destruct (thm_m_add_hint X k HX CC Hco p t R h a v Hh P) as (u & i & E' & S).
    pose proof (eq_trans (eq_sym E2) E) as Q1. pose proof (eq_trans (eq_sym E') E) as Q2. inversion Q1. inversion Q2. subst. split; auto. apply mhint_isit. auto.
Qed.
Lemma m_insert_hint_both p t a v : mreach p t -> throws (cm_insert_hint X k (mt CC p) t None a v) (stable (joins p) a t) /\
  forall t' h', m_insert_hint X k (mt CC p) t None a v = Ok (t', h') -> mreach p t' /\ stable (joins p) a t t'.
Proof.
  intros R. split.
  - eapply throws_impl; [apply (m_insert_hint_throws X k HX CC Hco); auto; exact Logic.I|]. intros t' (_ & _ & _ & S). exact S.
  - intros t' h' E. split; [eapply M_insert_hint; eauto; exact Logic.I|]. destruct (thm_m_insert_hint X k HX CC Hco p t R None a v Logic.I) as (u & i & E' & S).
    pose proof (eq_trans (eq_sym E') E) as Q2. inversion Q2. subst. auto.
Qed.
Lemma m_subtract_both p t a v : mreach p t -> throws (cm_subtract X k (mt CC p) t a v) (stable (joins p) a t) /\
  forall t', m_subtract X k (mt CC p) t a v = Ok t' -> mreach p t' /\ stable (joins p) a t t'.
Proof.
  intros R. split.
  - eapply throws_impl; [apply (m_subtract_throws X k HX CC Hco); auto|]. intros t' (_ & _ & _ & S). exact S.
  - intros t' E. split; [eapply M_subtract; eauto|]. destruct (thm_m_subtract X k HX CC Hco p t R a v) as (u & E' & S). assert (u = t') by congruence. subst. auto.
Qed.
Lemma m_erase_both p t a : mreach p t -> throws (cm_erase X k (mt CC p) t a) (stable false a t) /\
  forall t', m_erase X k (mt CC p) t a = Ok t' -> mreach p t' /\ stable false a t t'.
Proof.
  intros R. split.
  - eapply throws_impl; [apply (m_erase_throws X k HX CC Hco); auto|]. intros t' (_ & _ & _ & S). exact S.
  - intros t' E. split; [eapply M_erase; eauto|]. destruct (thm_m_erase X k HX CC Hco p t R a) as (u & E' & _ & S). assert (u = t') by congruence. subst. auto.
Qed.
Lemma m_erase_seg_both p t a v : mreach p t -> throws (cm_erase_seg X k (mt CC p) t a v) (stable false a t) /\
  forall t', m_erase_seg X k (mt CC p) t a v = Ok t' -> mreach p t' /\ stable false a t t'.
Proof.
  intros R. split.
  - eapply throws_impl; [apply (m_erase_seg_throws X k HX CC Hco); auto|]. intros t' (_ & _ & _ & S). exact S.
  - intros t' E. split; [eapply M_erase_seg; eauto|]. destruct (thm_m_erase_seg X k HX CC Hco p t R a v) as (u & E' & S). assert (u = t') by congruence. subst. auto.
Qed.

Theorem any_add_map p p' t o : mreach p t -> mreach p' o -> proper CC p ->
  in_any_case (cm_add_map X k (mt CC p) t o) (m_add_map X k (mt CC p) t o) (stable_all (joins p) (keys o) t).
Proof.
  intros R Ro P. apply any_case; [apply (follows_add_map X k (mt CC p))| |]. { destruct (thm_madd_map X k HX CC Hco p p' t o R Ro P) as (t' & E & _). eauto. }
  unfold cm_add_map, m_add_map.
  destruct (cfold_both (fun '(t, prior_) (n : node V) => cm_add_hint X k (mt CC p) t prior_ (nkey n) (nval n)) (fun '(t, prior_) (n : node V) => m_add_hint X k (mt CC p) t prior_ (nkey n) (nval n))
    (stable_all (joins p) (keys o) t) (fun d '(u, h) => okM p (joins p) t d u /\ mhint_ok u h)) with (l := nodes o) (l0 := @nil (node V)) (a := (t, end_ t)) as [T1 G1].
  - intros [u h] b. apply (follows_m_add_hint X k (mt CC p)).
  - split; [apply okM_nil; auto|exact Logic.I].
  - intros l1 b l2 [u h] E (Ju & Hh). destruct (m_add_hint_both p u h (nkey b) (nval b) (proj1 Ju) P Hh) as [T G]. split.
    + eapply throws_impl; [exact T|]. intros t' S. eapply all_step; [exact E|apply Ju|exact S].
    + intros [u' h'] E'. destruct (G u' h' E') as (R' & Hh' & S). split; auto. eapply okM_snoc; eauto.
  - split.
    + eapply throws_bind; [|exact T1|intros [u h] _; apply throws_ret].
      apply (follows_cfold (fun '(t, prior_) (n : node V) => cm_add_hint X k (mt CC p) t prior_ (nkey n) (nval n)) (fun '(t, prior_) (n : node V) => m_add_hint X k (mt CC p) t prior_ (nkey n) (nval n))). intros [u h] b. apply (follows_m_add_hint X k (mt CC p)).
    + intros t' E. match type of E with bind ?m _ = _ => destruct m as [[u h]|] eqn:Q; [|discriminate] end. cbn [bind] in E. injection E as <-.
      destruct (G1 (u, h) Q) as [[_ S] _]. exact S.
Qed.
Theorem any_insert_map p p' t o : mreach p t -> mreach p' o ->
  in_any_case (cm_insert_map X k (mt CC p) t o) (m_insert_map X k (mt CC p) t o) (stable_all (joins p) (keys o) t).
Proof.
  intros R Ro. apply any_case; [apply (follows_insert_map X k (mt CC p))| |]. { destruct (thm_mins_map X k HX CC Hco p p' t o R Ro) as (t' & E & _). eauto. }
  unfold cm_insert_map, m_insert_map.
  destruct (cfold_both (fun u (n : node V) => cbind (cm_insert_hint X k (mt CC p) u None (nkey n) (nval n)) (fun '(t, _) => cret t)) (fun u (n : node V) => ' (t, _) <- m_insert_hint X k (mt CC p) u None (nkey n) (nval n) ;; Ok t)
    (stable_all (joins p) (keys o) t) (fun d => okM p (joins p) t d)) with (l := nodes o) (l0 := @nil (node V)) (a := t) as [T1 G1].
  - intros u b. apply follows_bind; [apply (follows_m_insert_hint X k (mt CC p))|]. intros [v h]. apply follows_ret.
  - apply okM_nil; auto.
  - intros l1 b l2 u E Ju. destruct (m_insert_hint_both p u (nkey b) (nval b) (proj1 Ju)) as [T G]. split.
    + eapply throws_bind; [apply (follows_m_insert_hint X k (mt CC p))| |intros [v h] _; apply throws_ret]. eapply throws_impl; [exact T|]. intros t' S. eapply all_step; [exact E|apply Ju|exact S].
    + intros u' E'. match type of E' with bind ?m _ = _ => destruct m as [[v h]|] eqn:E1; [|discriminate] end. injection E' as <-. destruct (G v h eq_refl) as (R' & S). eapply okM_snoc; eauto.
  - split; [exact T1|]. intros t' E. apply (G1 t' E).
Qed.
Theorem any_subtract_map p p' t o : mreach p t -> mreach p' o ->
  in_any_case (cm_subtract_map X k (mt CC p) t o) (m_subtract_map X k (mt CC p) t o) (stable_all (joins p) (keys o) t).
Proof.
  intros R Ro. apply any_case; [apply (follows_subtract_map X k (mt CC p))| |]. { destruct (thm_msub_map X k HX CC Hco p p' t o R Ro) as (t' & E & _). eauto. }
  unfold cm_subtract_map, m_subtract_map.
  destruct (cfold_both (fun u (n : node V) => cm_subtract X k (mt CC p) u (nkey n) (nval n)) (fun u (n : node V) => m_subtract X k (mt CC p) u (nkey n) (nval n))
    (stable_all (joins p) (keys o) t) (fun d => okM p (joins p) t d)) with (l := nodes o) (l0 := @nil (node V)) (a := t) as [T1 G1].
  - intros u b. apply (follows_m_subtract X k (mt CC p)).
  - apply okM_nil; auto.
  - intros l1 b l2 u E Ju. destruct (m_subtract_both p u (nkey b) (nval b) (proj1 Ju)) as [T G]. split.
    + eapply throws_impl; [exact T|]. intros t' S. eapply all_step; [exact E|apply Ju|exact S].
    + intros u' E'. destruct (G u' E') as (R' & S). eapply okM_snoc; eauto.
  - split; [exact T1|]. intros t' E. apply (G1 t' E).
Qed.
(** the loop over the common range *)
Lemma range_both {W} p j t (o : Tree.tree (D X) W) (f : tree V -> node W -> cm (tree V) (tree V)) g : mreach p t -> (forall u b, follows (f u b) (g u b)) ->
  (forall u b, mreach p u -> throws (f u b) (stable j (nkey b) u) /\ forall u', g u b = Ok u' -> mreach p u' /\ stable j (nkey b) u u') ->
  let m := match nodes o with [] => cret t | _ => cbind (lift (common_range X k o t)) (fun cr => match cr with None => cret t | Some (lwb, upb) => cbind (lift (range X o lwb upb)) (fun l => cfold f t l) end) end in
  let r := match nodes o with [] => Ok t | _ => cr <- common_range X k o t ;; match cr with None => Ok t | Some (lwb, upb) => l <- range X o lwb upb ;; foldM g t l end end in
  throws m (stable_all j (keys o) t) /\ forall t', r = Ok t' -> stable_all j (keys o) t t'.
Proof.
  intros R F ST. cbv zeta. destruct (nodes o) as [|n0 l0] eqn:Eo; [split; [apply throws_ret|]; intros t' E; injection E as <-; apply all_refl|]. clear n0 l0 Eo.
  destruct (common_range X k o t) as [[[lw up]|]|] eqn:EC; cbn [bind].
  2:{ split; [apply throws_ok, throws_ret|]. intros t' E. injection E as <-. apply all_refl. }
  2:{ split; [eapply throws_bind; [apply follows_lift|apply throws_lift|]; discriminate|discriminate]. }
  destruct (range X o lw up) as [l|] eqn:ER; cbn [bind].
  2:{ split; [apply throws_ok; eapply throws_bind; [apply follows_lift|apply throws_lift|]; intros; congruence|discriminate]. }
  destruct (cfold_both f g (stable_all j (keys o) t) (fun d => okM p j t d)) with (l := l) (l0 := @nil (node W)) (a := t) as [T1 G1].
  - exact F.
  - apply okM_nil; auto.
  - intros l1 b l2 u E Ju. destruct (ST u b (proj1 Ju)) as [T G]. split.
    + eapply throws_impl; [exact T|]. intros t' S. eapply all_range; [exact ER|exact E|apply Ju|exact S].
    + intros u' E'. destruct (G u' E') as (R' & S). eapply okM_snoc; eauto.
  - split; [apply throws_ok; cbv beta iota; rewrite ER; apply throws_ok, T1|]. intros t' E. eapply all_range'; [exact ER|]. apply (G1 t' E).
Qed.
Theorem any_erase_map p p' t o : mreach p t -> mreach p' o ->
  in_any_case (cm_erase_map X k (mt CC p) t o) (m_erase_map X k (mt CC p) t o) (stable_all false (keys o) t).
Proof.
  intros R Ro. apply any_case; [apply (follows_erase_map X k (mt CC p))| |].
  { destruct (erase_map_at X k HX (mt CC p) Hco t o) as (t' & E & _); [eapply mreach_minv; eauto|eapply mreach_inv; eauto|]. exists t'. exact E. }
  apply (range_both p false t o (fun t n => cm_erase_seg X k (mt CC p) t (nkey n) (nval n)) (fun t n => m_erase_seg X k (mt CC p) t (nkey n) (nval n))); auto.
  - intros u b. apply (follows_m_erase_seg X k (mt CC p)).
  - intros u b Ru. apply m_erase_seg_both. auto.
Qed.
Theorem any_erase_set p st t o : mreach p t -> reach st o ->
  in_any_case (cm_erase_set X k (mt CC p) t o) (m_erase_set X k (mt CC p) t o) (stable_all false (keys o) t).
Proof.
  intros R Ro. apply any_case; [apply (follows_erase_set X k (mt CC p))| |].
  { destruct (thm_merase_set X k HX CC Hco p st t o R Ro) as (t' & E & _). eauto. }
  apply (range_both p false t o (fun t n => cm_erase X k (mt CC p) t (nkey n)) (fun t n => m_erase X k (mt CC p) t (nkey n))); auto.
  - intros u b. apply (follows_m_erase X k (mt CC p)).
  - intros u b Ru. apply m_erase_both. auto.
Qed.
End Maps.
End StableAll.

(** How many segments an operation can add (proofs): every segment of the result begins at a border of an operand. *)
From Verif Require Import SetThms MapThms MapCuts MapReach SetWhole SetFlip LookSpec.
From Verif Require Import MapModel.

Section Count.
Context (X : dom) (k : kind) (HX : dom_ok X k) {V : Type}.
Notation node := (node (D X) V).
Notation lc := (lc X k).
Notation uc := (uc X k).
Notation cltb := (cltb X).
Notation ceqb := (ceqb X).
Notation cut := (cut X).
Notation ne := (@ne X k).
Ltac cord := cord_ X k HX.

Definition starts (l : list node) (c : cut) : bool := Rb k l c && negb (intr k l c).
Definition ends (l : list node) (c : cut) : bool := Lb k l c && negb (intr k l c).
Definition isin (c : cut) (Q : list cut) : Prop := exists q, In q Q /\ ceqb c q = true.

Lemma starts_lc (l : list node) n : srt k l -> In n l -> starts l (lc (nkey n)) = true.
Proof.
  intros S Hn. pose proof (srt_nes X k l S) as N. unfold nes in N. rewrite Forall_forall in N. pose proof (N n Hn) as Nn.
  unfold starts. apply andb_true_iff. split; [apply Rb_iff; exists n; split; auto; unfold inr, Seg.ne in *; cord|].
  rewrite negb_true_iff. destruct (intr k l (lc (nkey n))) eqn:E; auto. exfalso. apply (intr_true X k) in E. destruct E as (m & Hm & E).
  assert (Q : n = m). { apply (srt_uniq_r X k HX l n m (lc (nkey n))); auto; unfold inr, ini, Seg.ne in *; cord. }
  subst m. unfold ini in E. cord.
Qed.
Lemma starts_in (l : list node) c : starts l c = true -> exists n, In n l /\ ceqb c (lc (nkey n)) = true.
Proof.
  unfold starts. rewrite andb_true_iff, negb_true_iff. intros [R N]. apply Rb_iff in R. destruct R as (n & Hn & R). exists n. split; auto.
  destruct (ini k (nkey n) c) eqn:E. { exfalso. rewrite (proj2 (intr_true X k l c)) in N; [discriminate|eauto]. } unfold inr, ini in *. cord.
Qed.
Lemma ends_in (l : list node) c : ends l c = true -> exists n, In n l /\ ceqb c (uc (nkey n)) = true.
Proof.
  unfold ends. rewrite andb_true_iff, negb_true_iff. intros [R N]. apply Lb_iff in R. destruct R as (n & Hn & R). exists n. split; auto.
  destruct (ini k (nkey n) c) eqn:E. { exfalso. rewrite (proj2 (intr_true X k l c)) in N; [discriminate|eauto]. } unfold inl, ini in *. cord.
Qed.

Lemma isin_app c Q R : isin c (Q ++ R) <-> isin c Q \/ isin c R.
Proof.
  unfold isin. split.
  - intros (q & Hq & E). apply in_app_iff in Hq. destruct Hq; [left|right]; eauto.
  - intros [(q & Hq & E)|(q & Hq & E)]; exists q; rewrite in_app_iff; auto.
Qed.
Lemma isin_one c q : ceqb c q = true -> isin c [q].
Proof. exists q. cbn; auto. Qed.

(** as many begins as segments *)
Lemma count (A B : list cut) : ForallOrdPairs (fun a b => ceqb a b = false) A -> (forall a, In a A -> isin a B) -> length A <= length B.
Proof.
  intros P. revert B. induction P as [|a A F P IH]; intros B H; cbn; [lia|].
  destruct (H a (or_introl eq_refl)) as (b & Hb & E). apply in_split in Hb. destruct Hb as (B1 & B2 & ->).
  assert (L : length A <= length (B1 ++ B2)).
  { apply IH. intros a' Ha'. destruct (H a' (or_intror Ha')) as (b' & Hb' & E').
    rewrite Forall_forall in F. specialize (F a' Ha'). exists b'. split; auto.
    apply in_app_iff in Hb'. apply in_app_iff. destruct Hb' as [Hb'|[->|Hb']]; auto. exfalso. cord. }
  rewrite app_length in *. cbn. lia.
Qed.
Lemma lcs_apart (l : list node) : srt k l -> ForallOrdPairs (fun a b => ceqb a b = false) (map (fun n => lc (nkey n)) l).
Proof.
  induction l as [|n l IH]; cbn [srt map]; [constructor|]. intros (N & F & S). constructor; auto.
  rewrite Forall_map. rewrite Forall_forall in *. intros m Hm. specialize (F m Hm). unfold Seg.ne in N. cord.
Qed.
Lemma count_starts {W} (l' : list node) (l : list (Tree.node (D X) W)) (Q : list cut) : srt k l' ->
  (forall c, starts l' c = true -> (exists n, In n l /\ ceqb c (lc (nkey n)) = true) \/ isin c Q) -> length l' <= length l + length Q.
Proof.
  intros S H. rewrite <- (map_length (fun n => lc (nkey n)) l), <- (map_length (fun n => lc (nkey n)) l'), <- app_length.
  apply count; [apply lcs_apart; auto|]. intros c Hc. apply in_map_iff in Hc. destruct Hc as (n & <- & Hn).
  apply isin_app. destruct (H _ (starts_lc l' n S Hn)) as [(m & Hm & E)|H']; auto. left. exists (lc (nkey m)). split; auto.
  apply (in_map (fun n => lc (nkey n))). auto.
Qed.

(* ------------------------------------------------------------ changes in [d, e] *)
Definition core (d e : cut) (l l' : list node) : Prop := forall c,
  ((cltb c d = true \/ cltb e c = true) -> Rb k l' c = Rb k l c /\ Lb k l' c = Lb k l c /\ intr k l' c = intr k l c) /\
  (cltb d c = true -> cltb c e = true -> bord k l c = false -> bord k l' c = false) /\
  (ceqb c e = true -> Rb k l' c = Rb k l c) /\
  (ceqb c d = true -> Lb k l' c = Lb k l c).
Lemma core_id d e l : core d e l l.
Proof. intros c. auto. Qed.
Lemma bord_parts (l : list node) c : bord k l c = true -> starts l c = true \/ ends l c = true.
Proof. unfold bord, starts, ends. destruct (Lb k l c), (Rb k l c), (intr k l c); auto. Qed.

Lemma core_bord d e l l' : core d e l l' -> forall c, bord k l' c = true -> bord k l c = true \/ isin c [d; e].
Proof.
  intros H c B. destruct (H c) as (H1 & H2 & _). destruct (ceqb c d) eqn:E1; [right; exists d; cbn; auto|].
  destruct (ceqb c e) eqn:E2; [right; exists e; cbn; auto|]. left.
  destruct (cltb d c) eqn:E3, (cltb c e) eqn:E4.
  - destruct (bord k l c) eqn:E; auto. rewrite H2 in B; auto.
  - destruct H1 as (A1 & A2 & A3); [right; cord|]. unfold bord in *. rewrite A1, A2, A3 in B. auto.
  - destruct H1 as (A1 & A2 & A3); [left; cord|]. unfold bord in *. rewrite A1, A2, A3 in B. auto.
  - destruct H1 as (A1 & A2 & A3); [left; cord|]. unfold bord in *. rewrite A1, A2, A3 in B. auto.
Qed.

Definition cmin (c d : cut) : cut := if cltb c d then c else d.
Lemma core_grow (a : itv (D X)) l l' (ms : list (itv (D X))) : ne a -> srt k l -> srt k l' -> core (lc a) (uc a) l l' ->
  (forall n, In n l -> cltb (lc a) (uc (nkey n)) = true -> cltb (lc (nkey n)) (uc a) = true -> In (nkey n) ms) ->
  length l' <= length l + length ms + 1.
Proof.
  intros Na S S' H HM.
  replace (length l + length ms + 1) with (length l + length (lc a :: map (fun b => cmin (uc b) (uc a)) ms)) by (cbn; rewrite map_length; lia).
  apply count_starts; auto. intros c B. destruct (H c) as (H1 & H2 & H3 & H4).
  assert (G : starts l c = true -> (exists n, In n l /\ ceqb c (lc (nkey n)) = true) \/ isin c (lc a :: map (fun b => cmin (uc b) (uc a)) ms)).
  { intros Q. left. apply starts_in. auto. }
  assert (G' : forall b, In b ms -> ceqb c (cmin (uc b) (uc a)) = true -> isin c (lc a :: map (fun b => cmin (uc b) (uc a)) ms)).
  { intros b Hb E. exists (cmin (uc b) (uc a)). split; auto. right. apply (in_map (fun b => cmin (uc b) (uc a))). auto. }
  destruct (ceqb c (lc a)) eqn:E1. { right. exists (lc a). cbn. auto. }
  destruct (ceqb c (uc a)) eqn:E2.
  { unfold starts in B. apply andb_true_iff in B. destruct B as [B _]. rewrite H3 in B by auto.
    destruct (intr k l c) eqn:I. 2:{ apply G. unfold starts. rewrite B, I. auto. }
    right. apply (intr_true X k) in I. destruct I as (n & Hn & I). unfold ini in I.
    apply (G' (nkey n)); [apply HM; auto; unfold Seg.ne in *; cord|]. unfold cmin. destruct (cltb (uc (nkey n)) (uc a)) eqn:E; auto. exfalso. cord. }
  destruct (cltb (lc a) c) eqn:E3, (cltb c (uc a)) eqn:E4.
  - destruct (bord k l c) eqn:E.
    + unfold starts in G. unfold bord in E. apply andb_true_iff in E. destruct E as [E I]. rewrite I in G. destruct (Rb k l c) eqn:R; [apply G; auto|].
      rewrite orb_false_r in E. destruct (ends_in l c) as (n & Hn & Q). { unfold ends. rewrite E, I. auto. }
      right. pose proof (srt_nes X k l S) as N. unfold nes in N. rewrite Forall_forall in N. specialize (N n Hn).
      apply (G' (nkey n)); [apply HM; auto; unfold Seg.ne in *; cord|]. unfold cmin. destruct (cltb (uc (nkey n)) (uc a)) eqn:E'; auto. exfalso. cord.
    + exfalso. specialize (H2 eq_refl eq_refl eq_refl). unfold bord in H2. unfold starts in B. apply andb_true_iff in B. destruct B as [B1 B2].
      rewrite B1, B2, orb_true_r in H2. discriminate.
  - destruct H1 as (A1 & A2 & A3); [right; cord|]. apply G. unfold starts in *. rewrite A1, A3 in B. auto.
  - destruct H1 as (A1 & A2 & A3); [left; cord|]. apply G. unfold starts in *. rewrite A1, A3 in B. auto.
  - destruct H1 as (A1 & A2 & A3); [left; cord|]. apply G. unfold starts in *. rewrite A1, A3 in B. auto.
Qed.
Lemma core_shrink d e l l' : srt k l' -> core d e l l' -> (forall c, Rb k l' c = true -> Rb k l c = true) ->
  length l' <= length l + 2.
Proof.
  intros S' H HR. change 2 with (length [d; e]). apply count_starts; auto. intros c B.
  destruct (core_bord d e l l' H c) as [Q|Q]; auto.
  { unfold starts in B. unfold bord. apply andb_true_iff in B. destruct B as [-> ->]. rewrite orb_true_r. auto. }
  left. apply starts_in. unfold starts in *. apply andb_true_iff in B. rewrite (HR c) by tauto. unfold bord in Q. apply andb_true_iff in Q. tauto.
Qed.
(** the begins of a result with the borders of two operands *)
Lemma count_bord (l l' : list node) {W} (o : list (Tree.node (D X) W)) : srt k l' ->
  (forall c, bord k l' c = true -> bord k l c = true \/ isin c (map (fun n => lc (nkey n)) o ++ map (fun n => uc (nkey n)) o)) ->
  length l' <= 2 * length l + 2 * length o.
Proof.
  intros S' H. replace (2 * length l + 2 * length o) with (length l + length (map (fun n => uc (nkey n)) l ++ map (fun n => lc (nkey n)) o ++ map (fun n => uc (nkey n)) o)).
  2:{ rewrite !app_length, !map_length. lia. }
  apply count_starts; auto. intros c B. destruct (H c) as [Q|Q].
  - unfold starts in B. unfold bord. apply andb_true_iff in B. destruct B as [-> ->]. rewrite orb_true_r. auto.
  - apply bord_parts in Q. destruct Q as [Q|Q].
    + left. apply starts_in. auto.
    + right. apply isin_app. left. apply ends_in in Q. destruct Q as (n & Hn & E). exists (uc (nkey n)). split; auto. apply (in_map (fun n => uc (nkey n))); auto.
  - right. apply isin_app. auto.
Qed.
End Count.

(* ------------------------------------------------------------ sets *)
Section SizeSet.
Context (X : dom) (k : kind) (HX : dom_ok X k).
Notation I := (itv (D X)).
Notation node := (node (D X) unit).
Notation sset := (tree (D X) unit).
Notation lc := (lc X k).
Notation uc := (uc X k).
Notation cltb := (cltb X).
Notation ceqb := (ceqb X).
Notation cut := (cut X).
Notation ne := (@ne X k).
Notation count t := (interval_count X t).
Ltac cord := cord_ X k HX.

(** ms contains every stored interval that has an element in common with a *)
Notation meeting t a ms := (forall b, In b (keys X t) -> meets X k b a -> In b ms).

Lemma over_meets a b : cltb (lc a) (uc b) = true -> cltb (lc b) (uc a) = true -> ne a -> ne b -> meets X k b a.
Proof.
  intros H1 H2 Na Nb. unfold Seg.ne in *. unfold meets.
  assert (Q : exists c d, cut_ok X k c /\ cut_ok X k d /\ cltb c d = true /\ cltb c (lc a) = false /\ cltb c (lc b) = false /\ cltb (uc a) d = false /\ cltb (uc b) d = false).
  { destruct (cltb (lc a) (lc b)) eqn:E, (cltb (uc a) (uc b)) eqn:F; [exists (lc b), (uc a)|exists (lc b), (uc b)|exists (lc a), (uc a)|exists (lc a), (uc b)];
      (conjs; [first [apply lc_ok|apply uc_ok]|first [apply lc_ok|apply uc_ok]|..]); cord. }
  destruct Q as (c & d & Oc & Od & L & A1 & A2 & A3 & A4). destruct (cut_gap X k HX c d Oc Od L) as (x & P1 & P2).
  exists x. rewrite !(mem_inr X k HX). unfold inr. split; cord.
Qed.
Lemma meeting_cut {V} (t : tree (D X) V) a ms : srt k (nodes t) -> ne a -> meeting t a ms ->
  forall n, In n (nodes t) -> cltb (lc a) (uc (nkey n)) = true -> cltb (lc (nkey n)) (uc a) = true -> In (nkey n) ms.
Proof.
  intros S Na H n Hn H1 H2. apply H; [unfold keys; apply in_map; auto|]. apply over_meets; auto.
  pose proof (srt_nes X k _ S) as N. unfold nes in N. rewrite Forall_forall in N. auto.
Qed.

Lemma starts_iff {V} (l : list (Tree.node (D X) V)) c : starts X k l c = true <-> Rb k l c = true /\ intr k l c = false.
Proof. unfold starts. rewrite andb_true_iff, negb_true_iff. tauto. Qed.
Lemma in_starts {V} (Q : list (Tree.node (D X) V)) c : starts X k Q c = true ->
  isin X c (map (fun n => lc (nkey n)) Q).
Proof. intros H. apply (starts_in X k HX) in H. destruct H as (n & Hn & E). exists (lc (nkey n)). split; auto. apply (in_map (fun n => lc (nkey n))). auto. Qed.
Lemma in_ends {V} (Q : list (Tree.node (D X) V)) c : ends X k Q c = true -> isin X c (map (fun n => uc (nkey n)) Q).
Proof. intros H. apply (ends_in X k HX) in H. destruct H as (n & Hn & E). exists (uc (nkey n)). split; auto. apply (in_map (fun n => uc (nkey n))). auto. Qed.

Lemma sinv_joined t : sinv X k Joining t -> forall c, intr k (nodes t) c = Lb k (nodes t) c && Rb k (nodes t) c.
Proof. intros [[_ S] J]. apply (joined_b X k HX); auto. Qed.

Lemma added_size st a t t' : sinv X k st t -> sinv X k st t' -> ne a -> added X k st a (nodes t) (nodes t') -> st <> Splitting ->
  length (nodes t') <= length (nodes t) + 1.
Proof.
  intros Ht Ht' Na [A O] Hst. change 1 with (length [lc a]). apply (count_starts X k HX); [apply Ht'|]. intros c H. apply starts_iff in H. destruct H as [H1 H2].
  destruct (A c) as [A1 A2]. rewrite A1 in H1.
  assert (K : intr k (nodes t) c = false /\ ini k a c = false /\ (Rb k (nodes t) c = false -> inl k a c = false \/ ini k a c = false)).
  { pose proof (intr_b X k HX (nodes t) c) as B. pose proof (ini_b X k HX a c) as B'. destruct st; [..|congruence].
    - rewrite (sinv_joined _ Ht'), A1, A2 in H2.
      clear - H1 H2 B B'. destruct (Rb k (nodes t) c), (Lb k (nodes t) c), (intr k (nodes t) c), (inr k a c), (inl k a c), (ini k a c); cbn in *; intuition congruence.
    - specialize (O c). rewrite O in H2. apply orb_false_iff in H2. tauto. }
  destruct K as (K1 & K2 & K3). destruct (Rb k (nodes t) c) eqn:R.
  - left. apply (starts_in X k HX). apply starts_iff. auto.
  - right. apply isin_one. cbn in H1. clear - H1 K2 HX Na. unfold inr, ini, Seg.ne in *. cord.
Qed.
Lemma added_core a l l' : ne a -> added X k Splitting a l l' -> core X k (lc a) (uc a) l l'.
Proof.
  intros Na [A O] c. destruct (A c) as [A1 A2]. specialize (O c). rewrite A1, A2 in *. pose proof (intr_b X k HX l c) as B.
  rewrite (bordi_eq X k HX) in O by auto. unfold bord in *. rewrite O, A1, A2. unfold inr, inl, Seg.ne in *.
  conjs; intros.
  - replace (negb (cltb c (lc a)) && cltb c (uc a)) with false by cord. replace (cltb (lc a) c && negb (cltb (uc a) c)) with false by cord.
    replace (ceqb c (lc a) || ceqb c (uc a)) with false by cord. rewrite !orb_false_r. conjs; auto.
    clear - B. destruct (Rb k l c), (Lb k l c), (intr k l c); cbn in *; intuition congruence.
  - replace (negb (cltb c (lc a)) && cltb c (uc a)) with true by cord. replace (cltb (lc a) c && negb (cltb (uc a) c)) with true by cord.
    replace (ceqb c (lc a) || ceqb c (uc a)) with false by cord. rewrite !orb_true_r. rewrite H1. auto.
  - replace (negb (cltb c (lc a)) && cltb c (uc a)) with false by cord. rewrite orb_false_r. auto.
  - replace (cltb (lc a) c && negb (cltb (uc a) c)) with false by cord. rewrite orb_false_r. auto.
Qed.
Lemma added_size_split a ms t t' : inv k t -> inv k t' -> ne a -> added X k Splitting a (nodes t) (nodes t') -> meeting t a ms ->
  length (nodes t') <= length (nodes t) + length ms + 1.
Proof.
  intros [_ S] [_ S'] Na A HM. apply (core_grow X k HX a); auto; [apply added_core; auto|]. apply (meeting_cut t a ms); auto.
Qed.

Theorem size_add st t a : reach X k st t -> exists t' it, s_add X k st t a = Ok (t', it) /\
  (st <> Splitting -> count t' <= count t + 1) /\ (forall ms, meeting t a ms -> count t' <= count t + length ms + 1).
Proof.
  intros R. apply (reach_sinv X k HX) in R. unfold interval_count. destruct (is_empty X k a) eqn:Ea.
  - rewrite (s_add_empty X k st t a Ea). eexists _, _. split; [reflexivity|]. split; intros; lia.
  - apply (ne_iff X k HX) in Ea. destruct (s_add_at X k HX st t a R Ea) as (t' & it & E & I' & _ & A). exists t', it. split; auto.
    assert (G : st <> Splitting -> length (nodes t') <= length (nodes t) + 1) by (intros N; apply (added_size st a); auto).
    split; auto. intros ms HM. destruct st; [assert (length (nodes t') <= length (nodes t) + 1) by (apply G; discriminate); lia..|].
    apply (added_size_split a); auto; [apply R|apply I'].
Qed.
Theorem size_add_hint st t h a : reach X k st t -> hint_ok X t h -> exists t' it, s_add_hint X k st t h a = Ok (t', it) /\
  (st <> Splitting -> count t' <= count t + 1) /\ (forall ms, meeting t a ms -> count t' <= count t + length ms + 1).
Proof.
  intros R Hh. apply (reach_sinv X k HX) in R. apply (hint_isit X) in Hh. unfold interval_count. destruct (is_empty X k a) eqn:Ea.
  - rewrite (s_add_hint_empty X k st t h a Ea). eexists _, _. split; [reflexivity|]. split; intros; lia.
  - apply (ne_iff X k HX) in Ea. destruct (s_add_hint_at X k HX st t h a R Hh Ea) as (t' & it & E & I' & _ & A). exists t', it. split; auto.
    assert (G : st <> Splitting -> length (nodes t') <= length (nodes t) + 1) by (intros N; apply (added_size st a); auto).
    split; auto. intros ms HM. destruct st; [assert (length (nodes t') <= length (nodes t) + 1) by (apply G; discriminate); lia..|].
    apply (added_size_split a); auto; [apply R|apply I'].
Qed.
Theorem size_subtract st t a : reach X k st t -> exists t', s_subtract X k t a = Ok t' /\ count t' <= count t + 1.
Proof.
  intros R. apply (reach_sinv X k HX) in R. unfold interval_count. destruct (is_empty X k a) eqn:Ea.
  - rewrite (s_subtract_empty X k t a Ea). eexists. split; [reflexivity|]. lia.
  - apply (ne_iff X k HX) in Ea. destruct (s_subtract_at X k HX t a (proj1 R) Ea) as (t' & E & I' & A). exists t'. split; auto.
    change 1 with (length [uc a]). apply (count_starts X k HX); [apply I'|]. intros c H. apply starts_iff in H. destruct H as [H1 H2].
    destruct (A c) as (A1 & A2 & A3). rewrite A1 in H1. rewrite A3 in H2. apply andb_true_iff in H1. rewrite negb_true_iff in H1. destruct H1 as [H1 H3].
    destruct (intr k (nodes t) c) eqn:E1.
    + right. apply isin_one. rewrite H3 in H2. cbn in H2. clear - H2 H3 Ea HX. unfold inl, inr, Seg.ne in *. cord.
    + left. apply (starts_in X k HX). apply starts_iff. auto.
Qed.

Lemma adds_bord st t (o : list node) t' : srt k o -> sinv X k st t -> sinv X k st t' -> addsP X k st (map nkey o) (nodes t) (nodes t') ->
  (st <> Splitting -> length (nodes t') <= length (nodes t) + length o) /\ length (nodes t') <= 2 * length (nodes t) + 2 * length o.
Proof.
  intros So Ht Ht' [A O].
  assert (G : st <> Splitting -> length (nodes t') <= length (nodes t) + length o).
  { intros N. replace (length o) with (length (map (fun n => lc (nkey n)) o)) by apply map_length.
    apply (count_starts X k HX); [apply Ht'|]. intros c H. apply starts_iff in H. destruct H as [H1 H2].
    destruct (A c) as [A1 A2]. rewrite (exr_keys X k) in A1. rewrite (exl_keys X k) in A2. rewrite A1 in H1.
    pose proof (intr_b X k HX (nodes t) c) as B. pose proof (intr_b X k HX o c) as B'.
    assert (K : intr k (nodes t) c = false /\ intr k o c = false).
    { destruct st; [..|congruence].
      - rewrite (sinv_joined _ Ht'), A1, A2 in H2. clear - H1 H2 B B'.
        destruct (Rb k (nodes t) c), (Lb k (nodes t) c), (intr k (nodes t) c), (Rb k o c), (Lb k o c), (intr k o c); cbn in *; intuition congruence.
      - specialize (O c). rewrite (exi_keys X k) in O. rewrite O in H2. apply orb_false_iff in H2. auto. }
    destruct K as [K1 K2]. destruct (Rb k (nodes t) c) eqn:R.
    - left. apply (starts_in X k HX). apply starts_iff. auto.
    - right. apply in_starts; auto. apply starts_iff. auto. }
  split; auto. destruct st; [assert (length (nodes t') <= length (nodes t) + length o) by (apply G; discriminate); lia..|].
  apply (count_bord X k HX); [apply Ht'|]. intros c H.
  destruct (bord k (nodes t) c) eqn:E1; auto. right. destruct (bord k o c) eqn:E2.
  - apply (bord_parts X k) in E2. apply isin_app. destruct E2; [left; apply in_starts|right; apply in_ends]; auto.
  - exfalso. destruct (A c) as [A1 A2]. specialize (O c). rewrite (exb_keys X k HX) in O by auto. rewrite (exr_keys X k) in A1. rewrite (exl_keys X k) in A2.
    pose proof (intr_b X k HX (nodes t) c) as B. pose proof (intr_b X k HX o c) as B'.
    unfold bord in *. rewrite O, A1, A2 in *. clear - H E1 E2 B B'.
    destruct (Rb k (nodes t) c), (Lb k (nodes t) c), (intr k (nodes t) c), (Rb k o c), (Lb k o c), (intr k o c); cbn in *; intuition congruence.
Qed.
Theorem size_add_set st st' t o : reach X k st t -> reach X k st' o -> exists t', s_add_set X k st t o = Ok t' /\
  (st <> Splitting -> count t' <= count t + count o) /\ count t' <= 2 * count t + 2 * count o.
Proof.
  intros R Ro. apply (reach_sinv X k HX) in R. apply (reach_sinv X k HX) in Ro. destruct (s_add_set_at X k HX st t o R) as (t' & E & I' & A).
  exists t'. split; auto. apply (adds_bord st t (nodes o) t'); auto. apply Ro.
Qed.
Theorem size_insert_set st st' t o : reach X k st t -> reach X k st' o -> exists t', s_insert_set X k st t o = Ok t' /\
  (st <> Splitting -> count t' <= count t + count o) /\ count t' <= 2 * count t + 2 * count o.
Proof.
  intros R Ro. apply (reach_sinv X k HX) in R. apply (reach_sinv X k HX) in Ro. destruct (s_insert_set_at X k HX st t o R) as (t' & E & I' & A).
  exists t'. split; auto. apply (adds_bord st t (nodes o) t'); auto. apply Ro.
Qed.
Theorem size_subtract_set st st' t o : reach X k st t -> reach X k st' o -> exists t', s_subtract_set X k t o = Ok t' /\ count t' <= count t + count o.
Proof.
  intros R Ro. apply (reach_sinv X k HX) in R. apply (reach_sinv X k HX) in Ro. destruct (s_subtract_set_at X k HX st t o R (proj1 Ro)) as (t' & E & I' & A).
  exists t'. split; auto. unfold interval_count. replace (length (nodes o)) with (length (map (fun n => uc (nkey n)) (nodes o))) by apply map_length.
  apply (count_starts X k HX); [apply I'|]. intros c H. apply starts_iff in H. destruct H as [H1 H2].
  destruct (A c) as (A1 & A2 & A3). rewrite (exr_keys X k) in *. rewrite (exl_keys X k) in *. rewrite A1 in H1. rewrite A3 in H2.
  apply andb_true_iff in H1. rewrite negb_true_iff in H1. destruct H1 as [H1 H3]. destruct (intr k (nodes t) c) eqn:E1.
  - right. apply in_ends. rewrite H3, orb_false_r in H2. cbn in H2. apply negb_false_iff in H2. unfold ends. rewrite H2.
    destruct (intr k (nodes o) c) eqn:Q; auto. apply (intr_b X k HX) in Q. destruct Q. congruence.
  - left. apply (starts_in X k HX). apply starts_iff. auto.
Qed.
Theorem size_and_set st st1 st2 t o : reach X k st1 t -> reach X k st2 o -> exists t', s_and_set X k st t o = Ok t' /\ count t' <= count t + count o.
Proof.
  intros R Ro. apply (reach_sinv X k HX) in R. apply (reach_sinv X k HX) in Ro. destruct (s_and_set_at X k HX st t o (proj1 R) (proj1 Ro)) as (t' & E & I' & A).
  exists t'. split; auto. unfold interval_count. replace (length (nodes o)) with (length (map (fun n => lc (nkey n)) (nodes o))) by apply map_length.
  apply (count_starts X k HX); [apply I'|]. intros c H. apply starts_iff in H. destruct H as [H1 H2].
  destruct (A c) as (A1 & A2 & A3). rewrite A1 in H1. apply andb_true_iff in H1. destruct H1 as [H1 H3].
  pose proof (intr_b X k HX (nodes t) c) as B. pose proof (intr_b X k HX (nodes o) c) as B'.
  assert (K : intr k (nodes t) c = false \/ intr k (nodes o) c = false).
  { destruct st; [|rewrite A3 in H2 by discriminate; apply andb_false_iff in H2; auto..].
    rewrite (sinv_joined _ I'), A1, A2, H1, H3 in H2. clear - H2 B B'.
    destruct (Lb k (nodes t) c), (Lb k (nodes o) c), (intr k (nodes t) c), (intr k (nodes o) c); cbn in *; intuition congruence. }
  destruct K as [K|K].
  - left. apply (starts_in X k HX). apply starts_iff. auto.
  - right. apply in_starts; auto. apply starts_iff. auto.
Qed.
Theorem size_flip st t a : reach X k st t -> (exists x, mem X k a x) -> exists t', s_flip_seg X k st t a = Ok t' /\
  forall ms, meeting t a ms -> count t' <= count t + length ms + 1.
Proof.
  intros R Na. apply (reach_sinv X k HX) in R.
  assert (Na' : ne a). { destruct Na as [x Mx]. apply (inr_mem X k HX) in Mx. unfold inr, Seg.ne in *. cord. }
  destruct (s_flip_seg_at X k HX st t a R Na') as (t' & E & I' & A). exists t'. split; auto. intros ms HM. unfold interval_count.
  apply (core_grow X k HX a); auto; [apply R|apply I'| |apply (meeting_cut t a ms); auto; apply R].
  intros c. destruct (A c) as (A1 & A2 & A3). pose proof (intr_b X k HX (nodes t) c) as B. pose proof (intr_b X k HX (nodes t') c) as B'.
  pose proof (ini_b X k HX a c) as B3.
  assert (JJ : st = Joining -> intr k (nodes t) c = Lb k (nodes t) c && Rb k (nodes t) c /\ intr k (nodes t') c = Lb k (nodes t') c && Rb k (nodes t') c).
  { intros ->. split; apply sinv_joined; auto. }
  assert (S3 : st = Joining \/ st <> Joining) by (destruct st; auto; right; discriminate).
  conjs; intros.
  - assert (Q : inr k a c = false /\ inl k a c = false). { unfold inr, inl, Seg.ne in *. split; cord. } destruct Q as [Q1 Q2]. rewrite Q1, Q2 in *.
    rewrite !xorb_false_r in *. conjs; auto. destruct S3 as [S3|S3].
    + destruct (JJ S3) as [-> ->]. rewrite A1, A2. auto.
    + rewrite A3 by auto. destruct (ini k a c); [destruct B3; auto; discriminate|]. rewrite andb_true_r. cbn. rewrite orb_false_r. auto.
  - assert (Q : inr k a c = true /\ inl k a c = true /\ ini k a c = true). { unfold inr, inl, ini, Seg.ne in *. conjs; cord. } destruct Q as (Q1 & Q2 & Q3). rewrite Q1, Q2, Q3 in *.
    unfold bord in *. destruct S3 as [S3|S3].
    + destruct (JJ S3) as [J1 J2]. rewrite J2, A1, A2. rewrite J1 in H1. clear - H1. destruct (Rb k (nodes t) c), (Lb k (nodes t) c); cbn in *; auto.
    + rewrite A3, A1, A2 by auto. clear - H1 B. destruct (Rb k (nodes t) c), (Lb k (nodes t) c), (intr k (nodes t) c); cbn in *; intuition congruence.
  - rewrite A1. replace (inr k a c) with false by (unfold inr, Seg.ne in *; cord). apply xorb_false_r.
  - rewrite A2. replace (inl k a c) with false by (unfold inl, Seg.ne in *; cord). apply xorb_false_r.
Qed.
Theorem size_flip_set st st' t o : reach X k st t -> reach X k st' o -> exists t', s_flip_set X k st t o = Ok t' /\ count t' <= 2 * count t + 2 * count o.
Proof.
  intros R Ro. apply (reach_sinv X k HX) in R. apply (reach_sinv X k HX) in Ro. destruct (s_flip_set_at X k HX st t o R (proj1 Ro)) as (t' & E & I' & A).
  exists t'. split; auto. apply (count_bord X k HX); [apply I'|]. intros c H.
  destruct (bord k (nodes t) c) eqn:E1; auto. right. destruct (bord k (nodes o) c) eqn:E2.
  - apply (bord_parts X k) in E2. apply isin_app. destruct E2; [left; apply in_starts|right; apply in_ends]; auto.
  - exfalso. destruct (A c) as (A1 & A2 & A3). pose proof (intr_b X k HX (nodes t) c) as B. pose proof (intr_b X k HX (nodes o) c) as B'.
    assert (JJ : st = Joining -> intr k (nodes t') c = Lb k (nodes t') c && Rb k (nodes t') c) by (intros ->; apply sinv_joined; auto).
    assert (S3 : st = Joining \/ st <> Joining) by (destruct st; auto; right; discriminate).
    unfold bord in *. destruct S3 as [S3|S3]; [rewrite (JJ S3), A1, A2 in H|rewrite (A3 S3), A1, A2 in H]; clear - H E1 E2 B B';
      destruct (Rb k (nodes t) c), (Lb k (nodes t) c), (intr k (nodes t) c), (Rb k (nodes o) c), (Lb k (nodes o) c), (intr k (nodes o) c); cbn in *; intuition congruence.
Qed.
End SizeSet.

(* ------------------------------------------------------------ maps *)
Section SizeMap.
Context (X : dom) (k : kind) (HX : dom_ok X k).
Context (M : mtype).
Notation CC := (mt_co M).
Notation V := (C CC).
Context (Hco : forall v w : CC, cc_eq v w = true <-> v = w).
Notation I := (itv (D X)).
Notation node := (node (D X) V).
Notation tree := (tree (D X) V).
Notation lc := (lc X k).
Notation uc := (uc X k).
Notation cltb := (cltb X).
Notation ceqb := (ceqb X).
Notation ne := (@ne X k).
Notation minv := (minv X k M).
Notation core := (core X k).
Notation meeting t a ms := (forall b, In b (keys X t) -> meets X k b a -> In b ms).
Ltac cord := cord_ X k HX.

Lemma cc_refl (v : CC) : cc_eq v v = true.
Proof. apply Hco. auto. Qed.
Lemma intr_eq (l : list node) c : srt k l -> intr k l c = true -> exists v, vl k l c = Some v /\ vr k l c = Some v.
Proof.
  intros S E. apply (intr_true X k) in E. destruct E as (n & Hn & E). exists (nval n).
  split; [apply (vl_some X k HX)|apply (vr_some X k HX)]; auto; exists n; conjs; auto; unfold ini, inl, inr in *; cord.
Qed.
(** for joining maps the values decide where the borders are *)
Lemma join_core d e g l l' : srt k l -> srt k l' -> joined k (@cc_eq CC) l -> joined k (@cc_eq CC) l' -> cltb d e = true -> upd k d e g l l' -> core d e l l'.
Proof.
  intros S S' J J' L [UR UL] c. pose proof (joined_intr X k HX (@cc_eq CC) l c S J cc_refl) as E. pose proof (joined_intr X k HX (@cc_eq CC) l' c S' J' cc_refl) as E'.
  unfold bord. rewrite !(vr_Rb X k), !(vl_Lb X k). rewrite E, E', UR, UL. conjs; intros.
  - replace (negb (cltb c d) && cltb c e) with false by cord. replace (cltb d c && negb (cltb e c)) with false by cord. auto.
  - replace (negb (cltb c d) && cltb c e) with true by cord. replace (cltb d c && negb (cltb e c)) with true by cord.
    destruct (vl k l c) as [v|], (vr k l c) as [w|]; cbn in *; try discriminate.
    + apply negb_false_iff in H1. apply Hco in H1. subst. destruct (g (Some w)); cbn; auto. rewrite cc_refl. auto.
    + destruct (g None); cbn; auto. rewrite cc_refl. auto.
  - replace (negb (cltb c d) && cltb c e) with false by cord. auto.
  - replace (cltb d c && negb (cltb e c)) with false by cord. auto.
Qed.
Lemma post_core d e g t t' : minv t -> minv t' -> cltb d e = true -> post k (spl M) d e g (nodes t) (nodes t') -> core d e (nodes t) (nodes t').
Proof.
  intros [[_ S] J] [[_ S'] J'] L (U & N & _). unfold MapFacts.J, spl in *. destruct (mt_style M); [eapply join_core; eauto|].
  specialize (N eq_refl). destruct U as [UR UL]. intros c. pose proof (intr_eq (nodes t) c S) as E. specialize (N c).
  unfold bord. rewrite !(vr_Rb X k), !(vl_Lb X k), N, UR, UL. unfold nn. conjs; intros.
  - replace (negb (cltb c d) && cltb c e) with false by cord. replace (cltb d c && negb (cltb e c)) with false by cord.
    replace (cltb d c && cltb c e) with false by cord. replace (ceqb c d) with false by cord. replace (ceqb c e) with false by cord.
    cbn [negb]. rewrite !andb_true_r. auto.
  - replace (negb (cltb c d) && cltb c e) with true by cord. replace (cltb d c && negb (cltb e c)) with true by cord.
    rewrite H, H0. cbn [andb]. destruct (intr k (nodes t) c) eqn:Q.
    + destruct E as (v & -> & ->); auto. cbn. destruct (g (Some v)); auto.
    + destruct (vl k (nodes t) c), (vr k (nodes t) c); cbn in *; try discriminate. destruct (g None); auto.
  - replace (negb (cltb c d) && cltb c e) with false by cord. auto.
  - replace (cltb d c && negb (cltb e c)) with false by cord. auto.
Qed.
Lemma ipost_core d e x t t' : minv t -> minv t' -> cltb d e = true -> ipost X k M d e x (nodes t) (nodes t') -> core d e (nodes t) (nodes t').
Proof.
  intros [[_ S] J] [[_ S'] J'] L (U & N & _). unfold MapFacts.J, spl in *. destruct (mt_style M); [eapply join_core; eauto|].
  specialize (N eq_refl). destruct U as [UR UL]. intros c. specialize (N c).
  unfold bord. rewrite !(vr_Rb X k), !(vl_Lb X k), N, UR, UL. unfold nn. conjs; intros.
  - replace (negb (cltb c d) && cltb c e) with false by cord. replace (cltb d c && negb (cltb e c)) with false by cord.
    replace (cltb d c && cltb c e) with false by cord. rewrite orb_false_r. auto.
  - replace (negb (cltb c d) && cltb c e) with true by cord. replace (cltb d c && negb (cltb e c)) with true by cord.
    rewrite H, H0. cbn [andb]. destruct (intr k (nodes t) c) eqn:Q; [cbn; apply andb_false_r|].
    destruct (vl k (nodes t) c), (vr k (nodes t) c); cbn in *; auto.
  - replace (negb (cltb c d) && cltb c e) with false by cord. auto.
  - replace (cltb d c && negb (cltb e c)) with false by cord. auto.
Qed.
Lemma epost_size d e g t t' : minv t -> minv t' -> cltb d e = true -> (forall o v, g o = Some v -> o = Some v) ->
  epost X k M d e g (nodes t) (nodes t') -> length (nodes t') <= length (nodes t) + 1.
Proof.
  intros [[_ S] J] [[_ S'] J'] L G ([UR UL] & N & _). change 1 with (length [e]). apply (count_starts X k HX); auto.
  intros c H. apply (starts_iff X k) in H. destruct H as [H1 H2]. rewrite (vr_Rb X k), UR in H1. rewrite N in H2.
  destruct (ceqb c e) eqn:Q; [right; apply isin_one; auto|]. left. apply (starts_in X k HX). apply (starts_iff X k). rewrite (vr_Rb X k).
  destruct (negb (cltb c d) && cltb c e) eqn:E.
  - destruct (g (vr k (nodes t) c)) as [v|] eqn:Eg; [|discriminate]. apply G in Eg as Eg'. rewrite Eg'. cbn. rewrite Eg' in Eg. split; auto.
    cbn in H2. rewrite orb_true_r, andb_true_r in H2. auto.
  - split; auto. replace (cltb c d || cltb e c) with true in H2 by (symmetry; cord). rewrite andb_true_r in H2. auto.
Qed.

Lemma grow_size a (t t' : tree) ms : ne a -> minv t -> minv t' -> core (lc a) (uc a) (nodes t) (nodes t') -> meeting t a ms ->
  length (nodes t') <= length (nodes t) + length ms + 1.
Proof. intros Na [[_ S] _] [[_ S'] _] H HM. apply (core_grow X k HX a); auto. apply (meeting_cut X k HX t a ms); auto. Qed.

(** a step changes at most [a]: it adds no other border than those of [a] *)
Definition step (a : I) (t t' : tree) : Prop := t' = t \/ ne a /\ core (lc a) (uc a) (nodes t) (nodes t').
Lemma step_size a t t' ms : minv t -> minv t' -> step a t t' -> meeting t a ms -> length (nodes t') <= length (nodes t) + length ms + 1.
Proof. intros Ht Ht' [->|[Na H]] HM; [lia|]. apply (grow_size a); auto. Qed.

Lemma add_step f t a x : minv t -> exists t' it, m_add_ X k M f t a x = Ok (t', it) /\ minv t' /\ isit t' it /\ step a t t'.
Proof.
  intros H. destruct (is_empty X k a) eqn:Ea.
  { unfold m_add_. rewrite Ea. eexists _, _. split; [reflexivity|]. conjs; auto using isit_end. left. auto. }
  destruct (is_absorbable M x) eqn:Ex.
  { unfold m_add_. rewrite Ea, Ex. eexists _, _. split; [reflexivity|]. conjs; auto using isit_end. left. auto. }
  assert (Na : ne a) by (apply (ne_iff X k HX); auto).
  destruct (add_at_ X k HX M Hco f t a x) as (t' & it & E & H1 & H2 & H3); auto.
  exists t', it. conjs; auto. right. split; auto. eapply post_core; eauto.
Qed.
Lemma add_hint_step f t h a x : minv t -> isit t h -> exists t' it, m_add_hint_ X k M f t h a x = Ok (t', it) /\ minv t' /\ isit t' it /\ step a t t'.
Proof.
  intros H Hh. destruct (is_empty X k a) eqn:Ea.
  { unfold m_add_hint_. rewrite Ea. eexists _, _. split; [reflexivity|]. conjs; auto. left. auto. }
  destruct (is_absorbable M x) eqn:Ex.
  { unfold m_add_hint_. rewrite Ea, Ex. eexists _, _. split; [reflexivity|]. conjs; auto. left. auto. }
  assert (Na : ne a) by (apply (ne_iff X k HX); auto). pose proof H as [[W S] HJ].
  destruct (decomp X k HX a (nodes t) S Na) as (L & N & R & E & BL & ON & AR). destruct N as [|m N'] eqn:EN.
  - destruct (add_hint_at_free X k HX M Hco f t h L R a x) as (t' & it & E' & H1 & H2 & H3); auto.
    exists t', it. conjs; auto. right. split; auto. eapply post_core; eauto.
  - destruct (add_hint_over_any X k HX M Hco f t h L (m :: N') R a x) as (t' & it & g & E' & H1 & H2 & H3 & H4); auto; try discriminate.
    exists t', it. conjs; auto. right. split; auto. eapply post_core; eauto.
Qed.
Lemma ins_step t a x : minv t -> exists t' it, m_insert_ X k M t a x = Ok (t', it) /\ minv t' /\ isit t' it /\ step a t t'.
Proof.
  intros H. destruct (is_empty X k a) eqn:Ea.
  { unfold m_insert_. rewrite Ea. eexists _, _. split; [reflexivity|]. conjs; auto using isit_end. left. auto. }
  destruct (is_absorbable M x) eqn:Ex.
  { unfold m_insert_. rewrite Ea, Ex. eexists _, _. split; [reflexivity|]. conjs; auto using isit_end. left. auto. }
  assert (Na : ne a) by (apply (ne_iff X k HX); auto).
  destruct (insert_at_ X k HX M Hco t a x) as (t' & it & E & H1 & H2 & H3); auto.
  exists t', it. conjs; auto. right. split; auto. eapply ipost_core; eauto.
Qed.
Lemma ins_hint_step t h a x : minv t -> isit t h -> exists t' it, m_insert_hint X k M t h a x = Ok (t', it) /\ minv t' /\ isit t' it /\ step a t t'.
Proof.
  intros H Hh. destruct (is_empty X k a) eqn:Ea.
  { unfold m_insert_hint. rewrite Ea. eexists _, _. split; [reflexivity|]. conjs; auto. left. auto. }
  destruct (is_absorbable M x) eqn:Ex.
  { unfold m_insert_hint. rewrite Ea, Ex. eexists _, _. split; [reflexivity|]. conjs; auto. left. auto. }
  assert (Na : ne a) by (apply (ne_iff X k HX); auto).
  destruct (insert_hint_at_ X k HX M Hco t h a x) as (t' & it & E & H1 & H2 & H3); auto.
  exists t', it. conjs; auto. right. split; auto. eapply ipost_core; eauto.
Qed.
Lemma sub_step f t a x : minv t -> exists t', m_subtract_ X k M f t a x = Ok t' /\ minv t' /\ step a t t' /\ length (nodes t') <= length (nodes t) + 2.
Proof.
  intros H. destruct (is_empty X k a) eqn:Ea.
  { unfold m_subtract_. rewrite Ea. eexists. split; [reflexivity|]. conjs; auto; [left; auto|lia]. }
  destruct (is_absorbable M x) eqn:Ex.
  { unfold m_subtract_. rewrite Ea, Ex. eexists. split; [reflexivity|]. conjs; auto; [left; auto|lia]. }
  assert (Na : ne a) by (apply (ne_iff X k HX); auto).
  destruct (subtract_at X k HX M Hco f t a x) as (t' & E & H1 & H3); auto.
  assert (CR : core (lc a) (uc a) (nodes t) (nodes t')) by (eapply post_core; eauto).
  exists t'. conjs; auto; [right; auto|]. apply (core_shrink X k HX (lc a) (uc a)); auto; [apply H1|].
  intros c. destruct H3 as [[UR _] _]. rewrite !(vr_Rb X k), UR. destruct (negb (cltb c (lc a)) && cltb c (uc a)); auto. destruct (vr k (nodes t) c); auto.
Qed.
Lemma sub_any_step t a x : minv t -> exists t', m_subtract X k M t a x = Ok t' /\ minv t' /\ step a t t' /\
  (is_total_invertible M = false -> length (nodes t') <= length (nodes t) + 2).
Proof.
  intros H. unfold m_subtract. destruct (is_total_invertible M).
  - destruct (add_step (inverse_codomain_combine M) t a x H) as (t' & it & -> & I' & _ & C'). exists t'. cbn [bind]. conjs; auto. discriminate.
  - destruct (sub_step (inverse_codomain_combine M) t a x H) as (t' & E & I' & C' & L). exists t'. auto.
Qed.
Lemma erase_seg_size t a x : minv t -> exists t', m_erase_seg X k M t a x = Ok t' /\ minv t' /\ length (nodes t') <= length (nodes t) + 1.
Proof.
  intros H. destruct (is_empty X k a) eqn:Ea.
  { unfold m_erase_seg. rewrite Ea. eexists. split; [reflexivity|]. split; auto; lia. }
  destruct (is_absorbable M x) eqn:Ex.
  { unfold m_erase_seg. rewrite Ea, Ex. eexists. split; [reflexivity|]. split; auto; lia. }
  assert (Na : ne a) by (apply (ne_iff X k HX); auto).
  destruct (erase_seg_at X k HX M Hco t a x) as (t' & E & H1 & H3); auto.
  exists t'. conjs; auto. eapply (epost_size (lc a) (uc a)); [..|exact H3]; auto. apply (gers_sub M).
Qed.
Lemma erase_size t a : minv t -> exists t', m_erase X k M t a = Ok t' /\ minv t' /\ length (nodes t') <= length (nodes t) + 1.
Proof.
  intros H. destruct (is_empty X k a) eqn:Ea.
  { unfold m_erase. rewrite Ea. eexists. split; [reflexivity|]. split; auto; lia. }
  assert (Na : ne a) by (apply (ne_iff X k HX); auto).
  destruct (erase_itv_at X k HX M Hco t a) as (t' & E & H1 & H3); auto.
  exists t'. conjs; auto. eapply (epost_size (lc a) (uc a)); [..|exact H3]; auto. discriminate.
Qed.
Lemma set_size t a x : minv t -> exists t', m_set X k M t a x = Ok t' /\ minv t' /\ length (nodes t') <= length (nodes t) + 2.
Proof.
  intros H. unfold m_set. destruct (erase_size t a H) as (t1 & E1 & I1 & L1). destruct (erase_any X k HX M Hco t a H) as (t1' & E1' & _ & C1).
  assert (t1' = t1) by congruence. subst t1'. rewrite E1. cbn [bind]. unfold m_insert.
  destruct (ins_step t1 a x I1) as (t2 & it & -> & I2 & _ & C2). cbn [bind]. exists t2. conjs; auto.
  enough (length (nodes t2) <= length (nodes t1) + length (@nil I) + 1) by (cbn in *; lia).
  apply (step_size a); auto. intros b Hb (z & M1 & M2). exfalso. rewrite (mem_inr X k HX) in M1, M2. specialize (C1 (pt X z)). rewrite M2 in C1.
  unfold keys in Hb. apply in_map_iff in Hb. destruct Hb as (n & <- & Hn).
  assert (Q : vr k (nodes t1) (pt X z) = Some (nval n)) by (apply (vr_some X k HX); [apply I1|eauto]). congruence.
Qed.

(* ------------------------------------------------------------ whole maps *)
Definition within (t : tree) (o : list node) (t' : tree) : Prop :=
  forall c, bord k (nodes t') c = true -> bord k (nodes t) c = true \/ isin X c (map (fun n => lc (nkey n)) o ++ map (fun n => uc (nkey n)) o).
Lemma within_nil t : within t [] t.
Proof. intros c. auto. Qed.
Lemma within_cons t n o t1 t' : step (nkey n) t t1 -> within t1 o t' -> within t (n :: o) t'.
Proof.
  intros H G c B. destruct (G c B) as [Q|Q].
  - destruct H as [->|[_ H]]; auto. destruct (core_bord X k HX _ _ _ _ H c Q) as [R|(q & Hq & E)]; auto. right. exists q. split; auto.
    cbn [map app]. destruct Hq as [<-|[<-|[]]]; [left; auto|]. right. apply in_app_iff. right. left. auto.
  - right. destruct Q as (q & Hq & E). exists q. split; auto. apply in_app_iff in Hq. apply in_app_iff. cbn [map]. destruct Hq; [left|right]; right; auto.
Qed.
Lemma within_size t o t' : minv t' -> within t o t' -> length (nodes t') <= 2 * length (nodes t) + 2 * length o.
Proof. intros H G. apply (count_bord X k HX); auto. apply H. Qed.

Lemma add_map_size t o : minv t -> exists t', m_add_map X k M t o = Ok t' /\ minv t' /\ length (nodes t') <= 2 * length (nodes t) + 2 * length (nodes o).
Proof.
  intros Ht. unfold m_add_map.
  assert (G : forall l t h, minv t -> isit t h -> exists t' h', foldM (fun '(t, prior_) n => m_add_hint X k M t prior_ (nkey n) (nval n)) (t, h) l = Ok (t', h') /\ minv t' /\ within t l t').
  { induction l as [|n l IH]; intros t0 h H0 Hh; cbn [foldM].
    - exists t0, h. conjs; auto. apply within_nil.
    - unfold m_add_hint at 1. destruct (add_hint_step (codomain_combine M) t0 h (nkey n) (nval n) H0 Hh) as (t1 & h1 & -> & I1 & Hh1 & S1). cbn [bind].
      destruct (IH t1 h1 I1 Hh1) as (t' & h' & E & I' & W). exists t', h'. conjs; auto. eapply within_cons; eauto. }
  destruct (G (nodes o) t (end_ t) Ht Logic.I) as (t' & h' & E & I' & W). rewrite E. cbn [bind]. exists t'. conjs; auto. apply within_size; auto.
Qed.
Lemma insert_map_size t o : minv t -> exists t', m_insert_map X k M t o = Ok t' /\ minv t' /\ length (nodes t') <= 2 * length (nodes t) + 2 * length (nodes o).
Proof.
  intros Ht. unfold m_insert_map.
  assert (G : forall l t, minv t -> exists t', foldM (fun t n => ' (t, _) <- m_insert_hint X k M t None (nkey n) (nval n) ;; Ok t) t l = Ok t' /\ minv t' /\ within t l t').
  { induction l as [|n l IH]; intros t0 H0; cbn [foldM].
    - exists t0. conjs; auto. apply within_nil.
    - destruct (ins_hint_step t0 None (nkey n) (nval n) H0 Logic.I) as (t1 & h1 & -> & I1 & _ & S1). cbn [bind].
      destruct (IH t1 I1) as (t' & E & I' & W). exists t'. conjs; auto. eapply within_cons; eauto. }
  destruct (G (nodes o) t Ht) as (t' & E & I' & W). exists t'. conjs; auto. apply within_size; auto.
Qed.
Lemma subtract_map_size t o : minv t -> exists t', m_subtract_map X k M t o = Ok t' /\ minv t' /\ length (nodes t') <= 2 * length (nodes t) + 2 * length (nodes o) /\
  (is_total_invertible M = false -> length (nodes t') <= length (nodes t) + 2 * length (nodes o)).
Proof.
  intros Ht. unfold m_subtract_map.
  assert (G : forall l t, minv t -> exists t', foldM (fun t n => m_subtract X k M t (nkey n) (nval n)) t l = Ok t' /\ minv t' /\ within t l t' /\
    (is_total_invertible M = false -> length (nodes t') <= length (nodes t) + 2 * length l)).
  { induction l as [|n l IH]; intros t0 H0; cbn [foldM].
    - exists t0. conjs; auto. apply within_nil. intros; lia.
    - destruct (sub_any_step t0 (nkey n) (nval n) H0) as (t1 & -> & I1 & S1 & L1). cbn [bind].
      destruct (IH t1 I1) as (t' & E & I' & W & L'). exists t'. conjs; auto. eapply within_cons; eauto. intros Q. specialize (L1 Q). specialize (L' Q). cbn [length]. lia. }
  destruct (G (nodes o) t Ht) as (t' & E & I' & W & L'). exists t'. conjs; auto. apply within_size; auto.
Qed.
Lemma common_size {W} (F : tree -> Tree.node (D X) W -> res tree) t (o : Tree.tree (D X) W) : minv t -> inv k o ->
  (forall s n, minv s -> exists s', F s n = Ok s' /\ minv s' /\ length (nodes s') <= length (nodes s) + 1) ->
  exists s',
  (match nodes o with
   | [] => Ok t
   | _ =>
      cr <- common_range X k o t ;;
      match cr with
      | None => Ok t
      | Some (lwb, upb) =>
          l <- range X o lwb upb ;;
          foldM F t l
      end
   end) = Ok s' /\ minv s' /\ length (nodes s') <= length (nodes t) + length (nodes o).
Proof.
  intros Ht Ho HF. destruct (common_range_at X k HX o t Ho (proj1 Ht)) as (L & N & R & r & E & EN & _ & _ & H).
  assert (G : forall l s, minv s -> exists s', foldM F s l = Ok s' /\ minv s' /\ length (nodes s') <= length (nodes s) + length l).
  { induction l as [|n l IH]; intros s Hs; cbn [foldM].
    - exists s. conjs; auto. lia.
    - destruct (HF s n Hs) as (s1 & -> & I1 & L1). cbn [bind]. destruct (IH s1 I1) as (s' & E' & I' & L'). exists s'. conjs; auto. cbn [length]. lia. }
  destruct (nodes o) as [|n0 l0] eqn:Eo. { exists t. conjs; auto. lia. }
  rewrite E. cbn [bind]. destruct H as [(-> & ->)|(-> & _)]. { exists t. conjs; auto. lia. }
  rewrite <- Eo in *. rewrite (range_at X o L N R) by (auto; apply Ho). cbn [bind]. destruct (G N t Ht) as (s' & E' & I' & L'). exists s'. conjs; auto.
  rewrite EN, !app_length. lia.
Qed.
End SizeMap.

Section SizeReach.
Context (X : dom) (k : kind) (HX : dom_ok X k) (CC : codomain) (Hco : eq_ok CC).
Notation mreach := (mreach X k CC).
Notation count t := (interval_count X t).
Notation meeting t a ms := (forall b, In b (keys X t) -> meets X k b a -> In b ms).

Theorem msize_add p t : mreach p t -> forall a v, exists t', m_add X k (mt CC p) t a v = Ok t' /\
  forall ms, meeting t a ms -> count t' <= count t + length ms + 1.
Proof.
  intros R a v. pose proof (mreach_minv X k HX CC Hco p t R) as I. unfold m_add.
  destruct (add_step X k HX (mt CC p) Hco (codomain_combine (mt CC p)) t a v I) as (t' & it & -> & I' & _ & S). exists t'. split; auto.
  intros ms HM. apply (step_size X k HX (mt CC p) a t t' ms I I' S HM).
Qed.
Theorem msize_add_hint p t : mreach p t -> forall h a v, mhint_ok X CC t h -> exists t' it, m_add_hint X k (mt CC p) t h a v = Ok (t', it) /\
  forall ms, meeting t a ms -> count t' <= count t + length ms + 1.
Proof.
  intros R h a v Hh. pose proof (mreach_minv X k HX CC Hco p t R) as I. apply (mhint_isit X CC) in Hh. unfold m_add_hint.
  destruct (add_hint_step X k HX (mt CC p) Hco (codomain_combine (mt CC p)) t h a v I Hh) as (t' & it & -> & I' & _ & S). exists t', it. split; auto.
  intros ms HM. apply (step_size X k HX (mt CC p) a t t' ms I I' S HM).
Qed.
Theorem msize_insert p t : mreach p t -> forall a v, exists t', m_insert X k (mt CC p) t a v = Ok t' /\
  forall ms, meeting t a ms -> count t' <= count t + length ms + 1.
Proof.
  intros R a v. pose proof (mreach_minv X k HX CC Hco p t R) as I. unfold m_insert.
  destruct (ins_step X k HX (mt CC p) Hco t a v I) as (t' & it & -> & I' & _ & S). exists t'. split; auto.
  intros ms HM. apply (step_size X k HX (mt CC p) a t t' ms I I' S HM).
Qed.
Theorem msize_insert_hint p t : mreach p t -> forall h a v, mhint_ok X CC t h -> exists t' it, m_insert_hint X k (mt CC p) t h a v = Ok (t', it) /\
  forall ms, meeting t a ms -> count t' <= count t + length ms + 1.
Proof.
  intros R h a v Hh. pose proof (mreach_minv X k HX CC Hco p t R) as I. apply (mhint_isit X CC) in Hh.
  destruct (ins_hint_step X k HX (mt CC p) Hco t h a v I Hh) as (t' & it & E & I' & _ & S). exists t', it. split; auto.
  intros ms HM. apply (step_size X k HX (mt CC p) a t t' ms I I' S HM).
Qed.
Theorem msize_subtract p t : mreach p t -> forall a v, exists t', m_subtract X k (mt CC p) t a v = Ok t' /\
  (forall ms, meeting t a ms -> count t' <= count t + length ms + 1) /\
  (is_total_invertible (mt CC p) = false -> count t' <= count t + 2).
Proof.
  intros R a v. pose proof (mreach_minv X k HX CC Hco p t R) as I.
  destruct (sub_any_step X k HX (mt CC p) Hco t a v I) as (t' & E & I' & S & L). exists t'. conjs; auto.
  intros ms HM. apply (step_size X k HX (mt CC p) a t t' ms I I' S HM).
Qed.
Theorem msize_erase p t : mreach p t -> forall a, exists t', m_erase X k (mt CC p) t a = Ok t' /\ count t' <= count t + 1.
Proof.
  intros R a. pose proof (mreach_minv X k HX CC Hco p t R) as I. destruct (erase_size X k HX (mt CC p) Hco t a I) as (t' & E & _ & L). exists t'. auto.
Qed.
Theorem msize_erase_seg p t : mreach p t -> forall a v, exists t', m_erase_seg X k (mt CC p) t a v = Ok t' /\ count t' <= count t + 1.
Proof.
  intros R a v. pose proof (mreach_minv X k HX CC Hco p t R) as I. destruct (erase_seg_size X k HX (mt CC p) Hco t a v I) as (t' & E & _ & L). exists t'. auto.
Qed.
Theorem msize_set p t : mreach p t -> forall a v, exists t', m_set X k (mt CC p) t a v = Ok t' /\ count t' <= count t + 2.
Proof.
  intros R a v. pose proof (mreach_minv X k HX CC Hco p t R) as I. destruct (set_size X k HX (mt CC p) Hco t a v I) as (t' & E & _ & L). exists t'. auto.
Qed.
Theorem msize_add_map p p' t o : mreach p t -> mreach p' o -> exists t', m_add_map X k (mt CC p) t o = Ok t' /\ count t' <= 2 * count t + 2 * count o.
Proof.
  intros R _. pose proof (mreach_minv X k HX CC Hco p t R) as I. destruct (add_map_size X k HX (mt CC p) Hco t o I) as (t' & E & _ & L). exists t'. auto.
Qed.
Theorem msize_insert_map p p' t o : mreach p t -> mreach p' o -> exists t', m_insert_map X k (mt CC p) t o = Ok t' /\ count t' <= 2 * count t + 2 * count o.
Proof.
  intros R _. pose proof (mreach_minv X k HX CC Hco p t R) as I. destruct (insert_map_size X k HX (mt CC p) Hco t o I) as (t' & E & _ & L). exists t'. auto.
Qed.
Theorem msize_subtract_map p p' t o : mreach p t -> mreach p' o -> exists t', m_subtract_map X k (mt CC p) t o = Ok t' /\
  count t' <= 2 * count t + 2 * count o /\ (is_total_invertible (mt CC p) = false -> count t' <= count t + 2 * count o).
Proof.
  intros R _. pose proof (mreach_minv X k HX CC Hco p t R) as I. destruct (subtract_map_size X k HX (mt CC p) Hco t o I) as (t' & E & _ & L). exists t'. auto.
Qed.
Theorem msize_erase_map p p' t o : mreach p t -> mreach p' o -> exists t', m_erase_map X k (mt CC p) t o = Ok t' /\ count t' <= count t + count o.
Proof.
  intros R Ro. pose proof (mreach_minv X k HX CC Hco p t R) as I. pose proof (mreach_inv X k HX CC Hco p' o Ro) as Io. unfold m_erase_map.
  destruct (common_size X k HX (mt CC p) (fun t n => m_erase_seg X k (mt CC p) t (nkey n) (nval n)) t o I Io) as (t' & E & _ & L).
  { intros s n Hs. apply (erase_seg_size X k HX (mt CC p) Hco); auto. }
  exists t'. auto.
Qed.
Theorem msize_erase_set p st t o : mreach p t -> reach X k st o -> exists t', m_erase_set X k (mt CC p) t o = Ok t' /\ count t' <= count t + count o.
Proof.
  intros R Ro. pose proof (mreach_minv X k HX CC Hco p t R) as I. pose proof (proj1 (reach_sinv X k HX st o Ro)) as Io. unfold m_erase_set.
  destruct (common_size X k HX (mt CC p) (fun t (n : node (D X) unit) => m_erase X k (mt CC p) t (nkey n)) t o I Io) as (t' & E & _ & L).
  { intros s n Hs. apply (erase_size X k HX (mt CC p) Hco); auto. }
  exists t'. auto.
Qed.
End SizeReach.

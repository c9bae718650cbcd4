(** Sizes and element iteration: proofs. *)
From Coq Require Import Sorted.
From Verif Require Export ContCompare IntervalProps.

Lemma NoDup_app {A} (l r : list A) : NoDup l -> NoDup r -> (forall x, In x l -> In x r -> False) -> NoDup (l ++ r).
Proof.
  intros H1 H2 H. induction H1 as [|x l Hx H1 IH]; cbn; auto. constructor.
  - rewrite in_app_iff. intros [|K]; auto. apply (H x); cbn; auto.
  - apply IH. intros y Hy. apply H. cbn; auto.
Qed.
Lemma iter_eqb_sym a b : iter_eqb a b = iter_eqb b a.
Proof. destruct a, b; cbn; auto. apply Nat.eqb_sym. Qed.
Section ContElems.
Context (X : dom) (k : kind).
Context (HX : dom_ok X k).
Context {V : Type}.
Notation I := (itv (D X)).
Notation node := (node (D X) V).
Notation tree := (tree (D X) V).
Notation hd_it := (@hd_it X V).
Notation length := List.length.
Notation mem := (mem X k).
Ltac cord := cord_ X k HX.
Context (phi : D X -> Z) (sub : D X -> D X -> Z) (Hphi : integral X phi sub) (Hd : disc X = true).

(** x is an element of the stored intervals of [l] *)
Definition emem (l : list node) (x : D X) : Prop := exists n, In n l /\ mem (nkey n) x.
Definition roomy (l : list node) : Prop :=
  forall n, In n l -> open_right k (nkey n) = false -> exists y, forall x, mem (nkey n) x -> lt x y.

Lemma srt_disj (n m : node) R x : srt k (n :: R) -> In m R -> mem (nkey n) x -> ~ mem (nkey m) x.
Proof.
  clear Hphi Hd. intros (N & F & _) Hm M1 M2. rewrite Forall_forall in F. apply F in Hm. apply (mem_cut X k HX) in M1, M2. destruct M1, M2. cord_ X k HX.
Qed.

Lemma card_nodes_at : forall l acc, srt k l -> roomy l ->
  exists e, enumerates X (emem l) e /\ card_nodes X k sub l acc = Fin (acc + Z.of_nat (length e)).
Proof.
  induction l as [|n l IH]; intros acc S R; cbn [card_nodes].
  - exists []. split. { split; [constructor|]. intros x. split; [intros []|]. intros (m & [] & _). } f_equal. cbn. lia.
  - destruct (cardinality_spec X k HX phi sub Hphi Hd (nkey n)) as (e1 & [N1 E1] & -> & _). { apply R. cbn; auto. }
    pose proof S as (Nn & F & S'). destruct (IH (acc + Z.of_nat (length e1))%Z S') as (e2 & [N2 E2] & ->). { intros m Hm. apply R. cbn; auto. }
    exists (e1 ++ e2). split; [|rewrite app_length; f_equal; lia]. split.
    + apply NoDup_app; auto. intros x Hx Hx2. apply E1 in Hx. apply E2 in Hx2. destruct Hx2 as (m & Hm & Mm). eapply (srt_disj n m l x); eauto.
    + intros x. rewrite in_app_iff, E1, E2. unfold emem. cbn [In]. split.
      * intros [H|(m & H1 & H2)]; eauto.
      * intros (m & [<-|H1] & H2); eauto.
Qed.
Theorem c_cardinality_at (t : tree) : inv k t -> roomy (nodes t) ->
  exists e, enumerates X (emem (nodes t)) e /\ c_cardinality X k sub t = Fin (Z.of_nat (length e)).
Proof. intros [_ S] R. unfold c_cardinality. destruct (card_nodes_at (nodes t) 0 S R) as (e & H & E). eauto. Qed.

Lemma c_length_fold : forall (l : list node) acc, (forall n, In n l -> exists z, cardinality X k sub (nkey n) = Fin z /\ length_ X k sub (nkey n) = z) ->
  card_nodes X k sub l acc = Fin (fold_left (fun acc n => acc + length_ X k sub (nkey n))%Z l acc).
Proof.
  induction l as [|n l IH]; intros acc H; cbn [card_nodes fold_left]; auto.
  destruct (H n (or_introl eq_refl)) as (z & -> & ->). apply IH. intros m Hm. apply H. cbn; auto.
Qed.
Theorem c_length_at (t : tree) : roomy (nodes t) -> c_cardinality X k sub t = Fin (c_length X k sub t).
Proof.
  intros R. apply c_length_fold. intros n Hn. destruct (cardinality_spec X k HX phi sub Hphi Hd (nkey n)) as (e & _ & A & B). { apply R; auto. } eauto.
Qed.

(* ---------------------------------------------------------------- distance *)
(** an element between two elements of the container that is not in it *)
Definition gap (l : list node) (x : D X) : Prop :=
  ~ emem l x /\ exists y z, emem l y /\ emem l z /\ lt y x /\ lt x z.

Lemma gap_cut (l : list node) x : srt k l ->
  (exr X k (map (fun '(p, n) => between X k (nkey p) (nkey n)) (pairs l)) (pt X x) = true <-> gap l x).
Proof.
  intros S. rewrite (between_pairs X k HX) by auto. unfold gap, emem.
  pose proof (srt_nes X k _ S) as NS. unfold nes in NS. rewrite Forall_forall in NS.
  rewrite (Rb_mem_f X k HX). split.
  - intros (H1 & (n & Hn & H2) & (m & Hm & H3)). split. { intros (p & Hp & Mp). eapply H1; eauto. }
    destruct (ne_elem X k HX _ (NS n Hn)) as (y & Hy). destruct (ne_elem X k HX _ (NS m Hm)) as (z & Hz).
    exists y, z. conjs; eauto; rewrite (lt_pt X); apply (mem_cut X k HX) in Hy, Hz; destruct Hy, Hz; cord.
  - intros (H1 & y & z & (n & Hn & Mn) & (m & Hm & Mm) & L1 & L2). rewrite (lt_pt X) in L1, L2.
    assert (N : forall n, In n l -> ~ mem (nkey n) x) by eauto. conjs; auto.
    + exists n. split; auto. destruct (cltb X (pt X x) (uc X k (nkey n))) eqn:E; auto. exfalso. apply (N n Hn). apply (mem_cut X k HX) in Mn. apply (mem_cut X k HX). destruct Mn. split; cord.
    + exists m. split; auto. destruct (cltb X (pt X x) (lc X k (nkey m))) eqn:E; auto. exfalso. apply (N m Hm). apply (mem_cut X k HX) in Mm. apply (mem_cut X k HX). destruct Mm. split; cord.
Qed.

Lemma distance_fold : forall (l : list node) acc, srt k l ->
  exists e, enumerates X (fun x => exr X k (map (fun '(p, n) => between X k (nkey p) (nkey n)) (pairs l)) (pt X x) = true) e /\
    fold_left (fun acc '(p, n) => acc + distance X k sub (nkey p) (nkey n))%Z (pairs l) acc = (acc + Z.of_nat (length e))%Z.
Proof.
  induction l as [|n l IH]; intros acc S.
  { exists []. split; [|cbn; lia]. split; [constructor|]. intros x. cbn. split; [intros []|discriminate]. }
  destruct l as [|m l].
  { exists []. split; [|cbn; lia]. split; [constructor|]. intros x. cbn. split; [intros []|discriminate]. }
  pose proof S as (Nn & F & S'). pose proof S' as (Nm & F' & _).
  destruct (IH (acc + distance X k sub (nkey n) (nkey m))%Z S') as (e2 & [N2 E2] & Ef).
  destruct (distance_spec X k HX phi sub Hphi Hd (nkey n) (nkey m)) as (e1 & [N1 E1] & Ed).
  exists (e1 ++ e2).
  change (pairs (n :: m :: l)) with ((n, m) :: pairs (m :: l)). cbn [fold_left map].
  split; [|rewrite app_length; etransitivity; [exact Ef|]; lia].
  assert (Fm : cltb X (lc X k (nkey m)) (uc X k (nkey n)) = false) by (inversion F; auto).
  split.
  - apply NoDup_app; auto. intros x H1 H2. apply E1 in H1. apply E2 in H2.
    apply (inr_mem X k HX) in H1. change (inner_complement X k (nkey n) (nkey m)) with (between X k (nkey n) (nkey m)) in H1. rewrite (between_at X k HX) in H1 by auto.
    apply (between_pairs X k HX) in H2; auto. destruct H2 as (_ & (p & Hp & H2) & _).
    assert (cltb X (uc X k (nkey p)) (lc X k (nkey m)) = false).
    { destruct Hp as [<-|Hp]; [unfold Seg.ne in *; cord|]. rewrite Forall_forall in F'. pose proof (F' p Hp). 
      pose proof (srt_nes X k _ S') as NS. unfold nes in NS. rewrite Forall_forall in NS. pose proof (NS p (or_intror Hp)). unfold Seg.ne in *. cord. }
    apply andb_true_iff in H1. destruct H1. cord.
  - intros x. rewrite in_app_iff, E1, E2.
    change (exr X k (between X k (nkey n) (nkey m) :: map (fun '(p, n0) => between X k (nkey p) (nkey n0)) (pairs (m :: l))) (pt X x)) with
      (inr k (between X k (nkey n) (nkey m)) (pt X x) || exr X k (map (fun '(p, n0) => between X k (nkey p) (nkey n0)) (pairs (m :: l))) (pt X x)).
    rewrite orb_true_iff, (inr_mem X k HX). tauto.
Qed.
Theorem c_distance_at (t : tree) : inv k t ->
  exists e, enumerates X (gap (nodes t)) e /\ c_distance X k sub t = Z.of_nat (length e).
Proof.
  intros [_ S]. unfold c_distance. destruct (distance_fold (nodes t) 0 S) as (e & [N E] & ->). exists e. split; auto. split; auto.
  intros x. rewrite E. apply gap_cut; auto.
Qed.

(* ---------------------------------------------------------- element iteration *)
Context (plus minus : D X -> Z -> D X).
Context (Hplus : forall x y z, phi y = (phi x + z)%Z -> plus x z = y).
Context (Hminus : forall x y z, phi y = (phi x - z)%Z -> minus x z = y).

Definition cnt (n : node) : nat := Z.to_nat (length_ X k sub (nkey n)).
Definition el (n : node) (i : nat) : D X * V := (plus (first X k (nkey n)) (Z.of_nat i), nval n).
Definition pts (n : node) : list (D X * V) := map (el n) (seq 0 (cnt n)).

Ltac rw H := match type of H with ?a = _ => match goal with |- context [bind ?b _] => change b with a end end; rewrite H.
Section Walk.
Context (t : tree) (Hi : inv k t) (Hr : roomy (nodes t)).
Lemma cnt_spec n : In n (nodes t) -> ne k (nkey n) /\ 0 < cnt n /\ length_ X k sub (nkey n) = Z.of_nat (cnt n) /\
  (phi (Interval.last X k (nkey n)) = phi (first X k (nkey n)) + Z.of_nat (cnt n) - 1)%Z.
Proof.
  intros Hn. destruct Hi as [_ S]. pose proof (srt_nes X k _ S) as NS. unfold nes in NS. rewrite Forall_forall in NS. pose proof (NS n Hn) as N.
  assert (W : exists x, mem (nkey n) x) by (apply (ne_elem X k HX); auto).
  pose proof (last_next_phi X k HX phi sub Hphi Hd (nkey n) W (Hr n Hn)) as L.
  pose proof (mem_first_last X k HX phi sub Hphi Hd (nkey n)) as M.
  destruct (first_spec X k HX (nkey n) (has_first_disc X k Hd) W) as [F1 _]. apply M in F1; auto.
  pose proof Hphi as (_ & Sb & _).
  assert (E : length_ X k sub (nkey n) = (phi (Interval.last X k (nkey n)) + 1 - phi (first X k (nkey n)))%Z).
  { rewrite length_unfold by (auto; apply (disc_not_DC X k HX Hd)). rewrite (proj1 (ne_iff X k HX _) N), Sb, L. lia. }
  unfold cnt. split; auto. rewrite E. lia.
Qed.

Lemma walk_in n L R : nodes t = L ++ n :: R ->
  e_walk X k sub plus (Datatypes.S (length (flat_map pts R))) t (hd_it R, 0%Z) = Ok (flat_map pts R) ->
  forall m i, i + m = cnt n -> 0 < m ->
  e_walk X k sub plus (m + Datatypes.S (length (flat_map pts R))) t (Some (nid n), Z.of_nat i) = Ok (map (el n) (seq i m) ++ flat_map pts R).
Proof.
  intros E IH. assert (Hn : In n (nodes t)) by (rewrite E, in_app_iff; cbn; auto).
  destruct (cnt_spec n Hn) as (N & C0 & C & _).
  induction m as [|m IHm]; intros i Em Hm; [lia|].
  cbn [Nat.add e_walk]. unfold e_eqb, elements_end, end_. cbn [fst snd iter_eqb andb].
  unfold e_deref. cbn [fst snd]. rewrite (deref_at X t L n R) by (auto; apply Hi). cbn [bind].
  unfold e_incr. cbn [fst snd]. rewrite (key_at X t L n R) by (auto; apply Hi). cbn [bind]. rewrite C.
  cbn [seq map app]. change (plus (first X k (nkey n)) (Z.of_nat i), nval n) with (el n i).
  destruct (Z.ltb_spec (Z.of_nat i) (Z.of_nat (cnt n) - 1)).
  - cbn [bind]. replace (Z.of_nat i + 1)%Z with (Z.of_nat (Datatypes.S i)) by lia. assert (Q2 := IHm (Datatypes.S i) ltac:(lia) ltac:(lia)). rw Q2. auto.
  - rewrite (incr_at X t L n R) by (auto; apply Hi). cbn [bind]. assert (m = 0) as -> by lia. cbn [Nat.add]. rw IH. auto.
Qed.
Lemma walk_from : forall R L, nodes t = L ++ R ->
  e_walk X k sub plus (Datatypes.S (length (flat_map pts R))) t (hd_it R, 0%Z) = Ok (flat_map pts R).
Proof.
  induction R as [|n R IH]; intros L E; [reflexivity|].
  assert (Hn : In n (nodes t)) by (rewrite E, in_app_iff; cbn; auto). destruct (cnt_spec n Hn) as (N & C0 & C & _).
  cbn [flat_map Tree.hd_it]. rewrite app_length. unfold pts at 1. rewrite map_length, seq_length.
  replace (Datatypes.S (cnt n + length (flat_map pts R))) with (cnt n + Datatypes.S (length (flat_map pts R))) by lia.
  change 0%Z with (Z.of_nat 0). erewrite walk_in; eauto. apply (IH (L ++ [n])). rewrite <- app_assoc. auto.
Qed.

Lemma back_in n L R : nodes t = L ++ n :: R ->
  e_walk_back X k sub plus (Datatypes.S (length (flat_map pts L))) t (Some (nid n), 0%Z) = Ok (rev (flat_map pts L)) ->
  forall i, e_walk_back X k sub plus (i + Datatypes.S (length (flat_map pts L))) t (Some (nid n), Z.of_nat i) = Ok (rev (map (el n) (seq 0 i)) ++ rev (flat_map pts L)).
Proof.
  intros E IH. induction i as [|i IHi]; [auto|].
  cbn [Nat.add e_walk_back]. unfold e_eqb, elements_begin, begin_. cbn [fst snd].
  replace (Z.eqb (Z.of_nat (Datatypes.S i)) 0) with false by (symmetry; apply Z.eqb_neq; lia). rewrite andb_false_r.
  unfold e_decr. cbn [fst snd]. replace (0 <? Z.of_nat (Datatypes.S i))%Z with true by (symmetry; apply Z.ltb_lt; lia). cbn [bind].
  replace (Z.of_nat (Datatypes.S i) - 1)%Z with (Z.of_nat i) by lia.
  unfold e_deref. cbn [fst snd]. rewrite (deref_at X t L n R) by (auto; apply Hi). cbn [bind]. rw IHi. cbn [bind].
  f_equal. rewrite seq_S, map_app, rev_app_distr. cbn [map rev app]. auto.
Qed.
Lemma back_from : forall L R, nodes t = L ++ R ->
  e_walk_back X k sub plus (Datatypes.S (length (flat_map pts L))) t (hd_it R, 0%Z) = Ok (rev (flat_map pts L)).
Proof.
  induction L as [|n L IH] using rev_ind; intros R E.
  - cbn [app] in E. cbn [flat_map length]. cbn [e_walk_back]. unfold e_eqb, elements_begin, begin_. rewrite E. cbn [fst snd]. rewrite iter_eqb_refl. auto.
  - rewrite <- app_assoc in E. cbn [app] in E.
    assert (Hn : In n (nodes t)) by (rewrite E, in_app_iff; cbn; auto). destruct (cnt_spec n Hn) as (N & C0 & C & _).
    pose proof (back_in n L R E (IH (n :: R) E)) as B. specialize (B (cnt n - 1)).
    rewrite flat_map_app, app_length. cbn [flat_map]. rewrite app_nil_r. unfold pts at 2. rewrite map_length, seq_length.
    cbn [e_walk_back]. unfold e_eqb at 1, elements_begin, begin_. cbn [fst snd].
    replace (iter_eqb (hd_it R) (hd_it (nodes t))) with false.
    2:{ rewrite E. destruct L as [|n0 L]; cbn [app Tree.hd_it].
        - pose proof (iter_eqb_hd X t [] [n] R (proj1 Hi)) as Q. cbn [app Tree.hd_it] in Q. rewrite iter_eqb_sym, Q; auto.
        - pose proof (iter_eqb_hd X t [] (n0 :: L ++ [n]) R (proj1 Hi)) as Q. cbn [app Tree.hd_it] in Q. rewrite <- app_assoc in Q. cbn [app] in Q. rewrite iter_eqb_sym, Q; auto. }
    cbn [andb]. unfold e_decr. cbn [fst snd]. cbn [Z.ltb Z.compare].
    rewrite (decr_hd X t L n R) by (auto; apply Hi). cbn [bind]. rewrite (key_at X t L n R) by (auto; apply Hi). cbn [bind]. rewrite C.
    unfold e_deref. cbn [fst snd]. rewrite (deref_at X t L n R) by (auto; apply Hi). cbn [bind].
    replace (Z.of_nat (cnt n) - 1)%Z with (Z.of_nat (cnt n - 1)) by lia.
    replace (length (flat_map pts L) + cnt n) with (cnt n - 1 + Datatypes.S (length (flat_map pts L))) by lia. rw B. cbn [bind].
    f_equal. assert (Ep : pts n = map (el n) (seq 0 (cnt n - 1)) ++ [el n (cnt n - 1)]). { unfold pts. replace (cnt n) with (Datatypes.S (cnt n - 1)) at 1 by lia. rewrite seq_S, map_app. auto. } rewrite Ep, !rev_app_distr. cbn [map rev app]. auto.
Qed.

Lemma minus_el n i m : In n (nodes t) -> i + Datatypes.S m = cnt n -> minus (Interval.last X k (nkey n)) (Z.of_nat i) = plus (first X k (nkey n)) (Z.of_nat m).
Proof.
  intros Hn E. destruct (cnt_spec n Hn) as (N & C0 & C & L).
  destruct Hphi as (_ & _ & Q). destruct (Q (first X k (nkey n)) (Interval.last X k (nkey n)) (phi (first X k (nkey n)) + Z.of_nat m)%Z) as (w & Hw); [lia|].
  rewrite (Hplus _ w) by lia. apply Hminus. lia.
Qed.
Lemma rwalk_in n L R : nodes t = L ++ n :: R ->
  r_walk X k sub minus (Datatypes.S (length (flat_map pts L))) t (Some (nid n), 0%Z) = Ok (rev (flat_map pts L)) ->
  forall m i, i + m = cnt n -> 0 < m ->
  r_walk X k sub minus (m + Datatypes.S (length (flat_map pts L))) t (hd_it R, Z.of_nat i) = Ok (rev (map (el n) (seq 0 m)) ++ rev (flat_map pts L)).
Proof.
  intros E IH. assert (Hn : In n (nodes t)) by (rewrite E, in_app_iff; cbn; auto).
  destruct (cnt_spec n Hn) as (N & C0 & C & _).
  induction m as [|m IHm]; intros i Em Hm; [lia|].
  cbn [Nat.add r_walk]. unfold e_eqb, begin_. cbn [fst snd].
  replace (iter_eqb (hd_it R) (hd_it (nodes t))) with false.
  2:{ rewrite E. destruct L as [|n0 L]; cbn [app Tree.hd_it].
      - pose proof (iter_eqb_hd X t [] [n] R (proj1 Hi)) as Q. cbn [app Tree.hd_it] in Q. rewrite iter_eqb_sym, Q; auto.
      - pose proof (iter_eqb_hd X t [] (n0 :: L ++ [n]) R (proj1 Hi)) as Q. cbn [app Tree.hd_it] in Q. rewrite <- app_assoc in Q. cbn [app] in Q. rewrite iter_eqb_sym, Q; auto. }
  cbn [andb]. unfold r_deref. cbn [fst snd].
  rewrite (decr_hd X t L n R) by (auto; apply Hi). cbn [bind]. rewrite (deref_at X t L n R) by (auto; apply Hi). cbn [bind].
  rewrite (minus_el n i m) by auto.
  unfold r_incr. cbn [fst snd]. rewrite (decr_hd X t L n R) by (auto; apply Hi). cbn [bind]. rewrite (key_at X t L n R) by (auto; apply Hi). cbn [bind]. rewrite C.
  rewrite seq_S, map_app, rev_app_distr. cbn [map rev app Nat.add].
  destruct (Z.ltb_spec (Z.of_nat i) (Z.of_nat (cnt n) - 1)).
  - cbn [bind]. replace (Z.of_nat i + 1)%Z with (Z.of_nat (Datatypes.S i)) by lia. assert (Q2 := IHm (Datatypes.S i) ltac:(lia) ltac:(lia)). rw Q2. auto.
  - cbn [bind]. assert (m = 0) as -> by lia. cbn [Nat.add]. rw IH. auto.
Qed.
Lemma rwalk_from : forall L R, nodes t = L ++ R ->
  r_walk X k sub minus (Datatypes.S (length (flat_map pts L))) t (hd_it R, 0%Z) = Ok (rev (flat_map pts L)).
Proof.
  induction L as [|n L IH] using rev_ind; intros R E.
  - cbn [app] in E. cbn [flat_map length]. cbn [r_walk]. unfold e_eqb, begin_. rewrite E. cbn [fst snd]. rewrite iter_eqb_refl. auto.
  - rewrite <- app_assoc in E. cbn [app] in E.
    assert (Hn : In n (nodes t)) by (rewrite E, in_app_iff; cbn; auto). destruct (cnt_spec n Hn) as (N & C0 & C & _).
    pose proof (rwalk_in n L R E (IH (n :: R) E) (cnt n) 0 eq_refl C0) as B.
    rewrite flat_map_app, app_length. cbn [flat_map]. rewrite app_nil_r. unfold pts at 2. rewrite map_length, seq_length.
    replace (Datatypes.S (length (flat_map pts L) + cnt n)) with (cnt n + Datatypes.S (length (flat_map pts L))) by lia.
    change 0%Z with (Z.of_nat 0). rewrite B, rev_app_distr. auto.
Qed.

Lemma pts_in n x v : In n (nodes t) -> (In (x, v) (pts n) <-> mem (nkey n) x /\ v = nval n).
Proof.
  intros Hn. destruct (cnt_spec n Hn) as (N & C0 & C & L).
  assert (W : exists x, mem (nkey n) x) by (apply (ne_elem X k HX); auto).
  rewrite (mem_first_last X k HX phi sub Hphi Hd (nkey n)) by auto. unfold pts. rewrite in_map_iff. pose proof Hphi as (_ & _ & Q).
  assert (P : forall i, i < cnt n -> phi (plus (first X k (nkey n)) (Z.of_nat i)) = (phi (first X k (nkey n)) + Z.of_nat i)%Z).
  { intros i H. destruct (Q (first X k (nkey n)) (Interval.last X k (nkey n)) (phi (first X k (nkey n)) + Z.of_nat i)%Z) as (w & Hw); [lia|].
    rewrite (Hplus _ w) by lia. auto. }
  split.
  - intros (i & [= <- <-] & Hs). apply in_seq in Hs. split; auto. rewrite P by lia. lia.
  - intros [H ->]. exists (Z.to_nat (phi x - phi (first X k (nkey n)))). split; [|apply in_seq; lia].
    unfold el. f_equal. apply Hplus. lia.
Qed.
Lemma pts_sorted n : In n (nodes t) -> StronglySorted (fun p q => lt (fst p) (fst q)) (pts n).
Proof.
  intros Hn. destruct (cnt_spec n Hn) as (N & C0 & C & L). pose proof Hphi as (P1 & _ & Q).
  assert (P : forall i, i < cnt n -> phi (plus (first X k (nkey n)) (Z.of_nat i)) = (phi (first X k (nkey n)) + Z.of_nat i)%Z).
  { intros i H. destruct (Q (first X k (nkey n)) (Interval.last X k (nkey n)) (phi (first X k (nkey n)) + Z.of_nat i)%Z) as (w & Hw); [lia|].
    rewrite (Hplus _ w) by lia. auto. }
  unfold pts. generalize (Nat.le_refl (cnt n)). change (cnt n <= cnt n) with (0 + cnt n <= cnt n). generalize (cnt n) at 1 3 as m. generalize 0 as i.
  intros i m. revert i. induction m as [|m IH]; intros i Hm; cbn [seq map]; constructor; auto.
  - apply IH. lia.
  - apply Forall_forall. intros [x v] Hx. apply in_map_iff in Hx. destruct Hx as (j & [= <- <-] & Hj). apply in_seq in Hj. cbn [fst el].
    unfold lt. rewrite P1, !P by lia. lia.
Qed.
Lemma sorted_app {A} (R : A -> A -> Prop) l1 l2 : StronglySorted R l1 -> StronglySorted R l2 -> (forall x y, In x l1 -> In y l2 -> R x y) -> StronglySorted R (l1 ++ l2).
Proof.
  intros H1 H2 H. induction H1 as [|x l1 H1 IH F]; cbn; auto. constructor.
  - apply IH. intros; apply H; cbn; auto.
  - apply Forall_app. split; auto. apply Forall_forall. intros y Hy. apply H; cbn; auto.
Qed.
Lemma flat_sorted : forall R L, nodes t = L ++ R -> StronglySorted (fun p q => lt (fst p) (fst q)) (flat_map pts R).
Proof.
  induction R as [|n R IH]; intros L E; cbn [flat_map]; [constructor|].
  assert (Hn : In n (nodes t)) by (rewrite E, in_app_iff; cbn; auto).
  apply sorted_app.
  - apply pts_sorted; auto.
  - apply (IH (L ++ [n])). rewrite <- app_assoc. auto.
  - intros [x v] [y w] H1 H2. apply pts_in in H1; auto. apply in_flat_map in H2. destruct H2 as (m & Hm & H2).
    apply pts_in in H2. 2:{ rewrite E, in_app_iff. cbn; auto. }
    destruct Hi as [_ S]. rewrite E, srt_app in S. destruct S as (_ & (_ & F & _) & _). rewrite Forall_forall in F. specialize (F m Hm).
    destruct H1 as [H1 _], H2 as [H2 _]. apply (mem_cut X k HX) in H1, H2. cbn [fst]. rewrite (lt_pt X). destruct H1, H2. cord.
Qed.

Theorem elements_at : exists w,
  StronglySorted (fun p q => lt (fst p) (fst q)) w /\
  (forall x v, In (x, v) w <-> exists n, In n (nodes t) /\ mem (nkey n) x /\ nval n = v) /\
  (exists fuel, e_walk X k sub plus fuel t (elements_begin X t) = Ok w) /\
  (exists fuel, e_walk_back X k sub plus fuel t (elements_end X t) = Ok (rev w)) /\
  (exists fuel, r_walk X k sub minus fuel t (elements_end X t) = Ok (rev w)).
Proof.
  exists (flat_map pts (nodes t)). conjs.
  - apply (flat_sorted (nodes t) []). auto.
  - intros x v. rewrite in_flat_map. split; intros (n & Hn & H); exists n; split; auto; apply pts_in in H || apply pts_in; auto; destruct H; auto.
  - eexists. apply (walk_from (nodes t) []). auto.
  - eexists. apply (back_from (nodes t) []). rewrite app_nil_r. auto.
  - eexists. apply (rwalk_from (nodes t) []). rewrite app_nil_r. auto.
Qed.
End Walk.
End ContElems.

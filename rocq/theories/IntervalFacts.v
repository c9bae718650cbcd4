(** Cuts: positions between domain elements.  Every interval function is
    characterised by its effect on the two cuts of an interval. *)
From Verif Require Export Spec.

Ltac ifs := repeat match goal with
  | |- context [if ?b then _ else _] => destruct b eqn:?
  | H : context [if ?b then _ else _] |- _ => destruct b eqn:?
  end.

Section Facts.
Context (X : dom) (k : kind).
Context (HX : dom_ok X k).
Notation T := (D X).
Notation I := (itv (D X)).

Lemma st : strict_total X. Proof. apply HX. Qed.

Lemma ltb_swo : is_swo (@ltb X).
Proof.
  destruct st as (Hi & Ht & Htri). split; [exact Hi|split; [exact Ht|]].
  intros x y z H. destruct (Htri x z) as [|[->|]]; auto.
  right; eapply Ht; eauto.
Qed.

Lemma ltb_antisym (x y : T) : ltb x y = false -> ltb y x = false -> x = y.
Proof. destruct st as (_ & _ & Htri). destruct (Htri x y) as [|[|]]; congruence. Qed.

Lemma next_ok (x y : T) : disc X = true -> ltb x y = true ->
  ltb x (next x) = true /\ ltb y (next x) = false.
Proof. intros Hd; apply HX; auto. Qed.
Lemma prior_ok (x y : T) : disc X = true -> ltb y x = true ->
  ltb (prior x) x = true /\ ltb (prior x) y = false.
Proof. intros Hd; apply HX; auto. Qed.

Lemma zero_lt_one : k = CL -> @ltb X zero one = true.
Proof. intros ->. apply HX. Qed.

(** kinds that need a discrete domain *)
Definition disc_kind : bool := match k with CL | OP | DD => true | _ => false end.
Lemma disc_kind_disc : disc_kind = true -> disc X = true.
Proof. unfold disc_kind; destruct HX as (_ & _ & H). destruct k; intuition congruence. Qed.
Lemma dc_disc : k = DC -> disc X = false.
Proof. intros ->; apply HX. Qed.

Lemma ltb_irrefl (x : T) : ltb x x = false.
Proof. apply st. Qed.

(* ---------------------------------------------------------------- cuts *)
Definition cut : Type := (T * bool)%type.
Definition cltb (c d : cut) : bool :=
  match snd c, snd d with
  | false, false | true, true => ltb (fst c) (fst d)
  | false, true => negb (ltb (fst d) (fst c))
  | true, false => ltb (fst c) (fst d) && (if disc X then ltb (next (fst c)) (fst d) else true)
  end.
Definition ceqb (c d : cut) : bool := negb (cltb c d) && negb (cltb d c).
Definition lc (a : I) : cut := (lo a, negb (left_closed X k a)).
Definition uc (a : I) : cut := (up a, right_closed X k a).
Definition pt (x : T) : cut := (x, false).

Ltac dord := unfold leb, eqb in *; to_rank (D X) (@ltb X) ltb_swo; lia.

(* all pairs of "x<y" hypotheses feed the step laws *)
Ltac steps :=
  repeat match goal with
  | _ : context [@next X ?x] |- _ =>
      match goal with
      | H : ltb x ?y = true |- _ =>
        lazymatch goal with
        | _ : ltb x (next x) = true, _ : ltb y (next x) = false |- _ => fail
        | _ => destruct (next_ok x y) as [? ?]; [assumption|exact H|]
        end
      end
  | |- context [@next X ?x] =>
      match goal with
      | H : ltb x ?y = true |- _ =>
        lazymatch goal with
        | _ : ltb x (next x) = true, _ : ltb y (next x) = false |- _ => fail
        | _ => destruct (next_ok x y) as [? ?]; [assumption|exact H|]
        end
      end
  | _ : context [@prior X ?x] |- _ =>
      match goal with
      | H : ltb ?y x = true |- _ =>
        lazymatch goal with
        | _ : ltb (prior x) x = true, _ : ltb (prior x) y = false |- _ => fail
        | _ => destruct (prior_ok x y) as [? ?]; [assumption|exact H|]
        end
      end
  | |- context [@prior X ?x] =>
      match goal with
      | H : ltb ?y x = true |- _ =>
        lazymatch goal with
        | _ : ltb (prior x) x = true, _ : ltb (prior x) y = false |- _ => fail
        | _ => destruct (prior_ok x y) as [? ?]; [assumption|exact H|]
        end
      end
  end.

Ltac tri x y :=
  let H := fresh "Tri" in
  destruct (ltb x y) eqn:?;
  [|destruct (ltb y x) eqn:?;
    [|assert (H : x = y) by (apply ltb_antisym; assumption);
     first [subst x | subst y | rewrite H in *]]].

Lemma cltb_swo : is_swo cltb.
Proof.
  split; [|split].
  - intros [x []]; unfold cltb; cbn [fst snd]; apply st.
  - destruct (disc X) eqn:Hd.
    + intros [x bx] [y by_] [z bz]; unfold cltb; cbn [fst snd]; rewrite Hd.
      tri x y; try tri y z; try tri x z;
      destruct bx, by_, bz; intros H1 H2; try discriminate; steps; dord.
    + intros [x bx] [y by_] [z bz]; unfold cltb; cbn [fst snd]; rewrite Hd.
      destruct bx, by_, bz; dord.
  - destruct (disc X) eqn:Hd.
    + intros [x bx] [y by_] [z bz]; unfold cltb; cbn [fst snd]; rewrite Hd.
      tri x y; try tri y z; try tri x z;
      destruct bx, by_, bz; intros H1; try discriminate; steps; dord.
    + intros [x bx] [y by_] [z bz]; unfold cltb; cbn [fst snd]; rewrite Hd.
      destruct bx, by_, bz; dord.
Qed.

Ltac cord := unfold ceqb in *; to_rank cut cltb cltb_swo; lia.

Lemma ceqb_refl c : ceqb c c = true. Proof. cord. Qed.
Lemma ceqb_sym c d : ceqb c d = ceqb d c. Proof. cord. Qed.
Lemma cltb_irrefl c : cltb c c = false. Proof. cord. Qed.

Definition edge_l (a : I) : Prop :=
  disc X = true -> left_closed X k a = false -> exists y, lt (lo a) y.
Definition edge_r (a : I) : Prop :=
  disc X = true -> right_closed X k a = false -> exists y, lt y (up a).

Lemma edge_ok_iff a : edge_ok X k a <-> edge_l a /\ edge_r a.
Proof.
  unfold edge_ok, edge_l, edge_r, open_left, open_right, left_closed, right_closed,
    bounds_of, static_bounds, dynamic.
  case_eq k; intros Ek; cbn; destruct (bl (bd a)), (br (bd a)); cbn; intuition congruence.
Qed.

(** membership in terms of cuts *)
Lemma mem_cut a x :
  mem X k a x <-> cltb (pt x) (lc a) = false /\ cltb (pt x) (uc a) = true.
Proof.
  unfold mem, le, lt, cltb, pt, lc, uc, left_closed, right_closed, bounds_of,
    static_bounds, dynamic; cbn [fst snd].
  case_eq k; intros Ek; cbn; destruct (bd a) as [[] []]; cbn; dord.
Qed.

(** is_empty by cuts *)
Lemma is_empty_cut a : is_empty X k a = negb (cltb (lc a) (uc a)).
Proof.
  unfold is_empty, lower, upper, cltb, lc, uc, left_closed, right_closed, bounds_of,
    static_bounds, dynamic; cbn [fst snd].
  pose proof disc_kind_disc as Hd; unfold disc_kind in Hd.
  pose proof dc_disc as Hc.
  revert Hd Hc.
  case_eq k; intros Ek Hd Hc; cbn; destruct a as [l u [b1 b2]]; cbn;
    try (rewrite Hd by reflexivity); try rewrite Hc by reflexivity;
    try destruct b1, b2; cbn; dord.
Qed.

(* case split on the kind, bringing in the discreteness of the domain *)
Ltac kinds Ek Hd :=
  let H1 := fresh in let H2 := fresh in
  pose proof disc_kind_disc as H1; pose proof dc_disc as H2;
  unfold disc_kind in H1; revert H1 H2;
  case_eq k; intros Ek H1 H2;
  first [ assert (Hd : disc X = true) by (apply H1; reflexivity)
        | assert (Hd : disc X = false) by (apply H2; reflexivity)
        | idtac ]; clear H1 H2.

Ltac unb := unfold left_closed, right_closed, bounds_of, static_bounds, dynamic in *.

Lemma empty_itv_empty : is_empty X k (empty_itv X k) = true.
Proof.
  unfold is_empty, empty_itv, construct, lower, upper; unb.
  pose proof zero_lt_one as Hz; revert Hz.
  kinds Ek Hd; intros Hz; cbn; try dord. rewrite Hz; auto.
Qed.

Lemma nonempty_edge a : is_empty X k a = false -> edge_l a /\ edge_r a.
Proof.
  rewrite is_empty_cut. unfold edge_l, edge_r, cltb, lc, uc; cbn [fst snd].
  intros H. apply negb_false_iff in H. unfold lt.
  split; intros Hd Hl; rewrite Hl, Hd in H; cbn in H; eexists; 
    destruct (right_closed X k a), (left_closed X k a); cbn in H; try discriminate;
    repeat match goal with H : _ && _ = true |- _ => apply andb_prop in H; destruct H end; eauto.
Qed.

(** first/last in terms of cuts, where defined *)
Definition has_first : bool := match k with RO | CL => true | _ => disc X end.
Definition has_last : bool := match k with LO | CL => true | _ => disc X end.

Lemma first_cut a : has_first = true -> edge_l a -> ceqb (pt (first X k a)) (lc a) = true.
Proof.
  unfold has_first, edge_l, ceqb, cltb, pt, lc, first, lower, lt; unb; cbn [fst snd].
  case_eq k; intros Ek; cbn; destruct a as [l u [b1 b2]]; cbn; intros Hf He;
    try (pose proof (disc_kind_disc) as Hd; unfold disc_kind in Hd; rewrite Ek in Hd;
         try specialize (Hd eq_refl));
    try rewrite Hf in *; try destruct b1; cbn; try dord;
    destruct He as [y Hy]; auto; steps; dord.
Qed.

Lemma last_cut a : has_last = true -> edge_r a -> ceqb (last X k a, true) (uc a) = true.
Proof.
  unfold has_last, edge_r, ceqb, cltb, uc, last, upper, lt; unb; cbn [fst snd].
  case_eq k; intros Ek; cbn; destruct a as [l u [b1 b2]]; cbn; intros Hf He;
    try (pose proof (disc_kind_disc) as Hd; unfold disc_kind in Hd; rewrite Ek in Hd;
         try specialize (Hd eq_refl));
    try rewrite Hf in *; try destruct b2; cbn; try dord;
    destruct He as [y Hy]; auto; steps;
    tri (next (prior u)) u; steps; dord.
Qed.

Lemma ltb_pt x y : ltb x y = cltb (pt x) (pt y). Proof. reflexivity. Qed.
Lemma ltb_up x y : ltb x y = cltb (x, true) (y, true). Proof. reflexivity. Qed.
Lemma ltb_up_pt x y : disc X = true -> ltb x y = negb (cltb (pt y) (x, true)).
Proof. intros _. unfold cltb, pt; cbn. destruct (ltb x y); reflexivity. Qed.

(* replace first/last by cuts *)
Lemma excl_core_cut l r : is_empty X k l = false -> is_empty X k r = false ->
  excl_core X k l r = negb (cltb (lc r) (uc l)).
Proof.
  intros Hl Hr.
  destruct (nonempty_edge l Hl) as [_ El]. destruct (nonempty_edge r Hr) as [Er _].
  pose proof (last_cut l) as Ll. pose proof (first_cut r) as Lf.
  unfold has_last, has_first in *.
  specialize (fun H => Ll H El). specialize (fun H => Lf H Er).
  unfold excl_core. revert Ll Lf.
  kinds Ek Hd; intros Ll Lf.
  1,2: unfold cltb, lc, uc, lower, upper; unb; cbn [fst snd]; rewrite Ek; cbn; dord.
  1-3: rewrite ltb_up_pt by assumption; try rewrite Hd in *;
       specialize (Ll eq_refl); specialize (Lf eq_refl); cord.
  unfold cltb, lc, uc, lower, upper; unb; cbn [fst snd]; rewrite Ek, Hd; cbn.
  destruct (bd r) as [[] []], (bd l) as [[] []]; cbn; dord.
Qed.

Lemma exclusive_less_cut l r : is_empty X k l = false -> is_empty X k r = false ->
  exclusive_less X k l r = negb (cltb (lc r) (uc l)).
Proof. intros Hl Hr. unfold exclusive_less. rewrite Hl, Hr; cbn. apply excl_core_cut; auto. Qed.

Lemma ne_exclusive_less_cut l r : is_empty X k l = false -> is_empty X k r = false ->
  ne_exclusive_less X k l r = negb (cltb (lc r) (uc l)).
Proof. apply excl_core_cut. Qed.

Lemma lower_less_cut l r : edge_l l -> edge_l r ->
  lower_less X k l r = cltb (lc l) (lc r).
Proof.
  intros El Er. pose proof (first_cut l) as Ll. pose proof (first_cut r) as Lr.
  unfold has_first in *. specialize (fun H => Ll H El). specialize (fun H => Lr H Er).
  unfold lower_less. revert Ll Lr. kinds Ek Hd; intros Ll Lr.
  1-4: unfold cltb, lc, lower; unb; cbn [fst snd]; rewrite Ek; cbn; dord.
  - rewrite ltb_pt. specialize (Ll Hd); specialize (Lr Hd). cord.
  - unfold cltb, lc, lower; unb; cbn [fst snd]; rewrite Ek, Hd; cbn.
    destruct (bd l) as [[] []], (bd r) as [[] []]; cbn; dord.
Qed.

Lemma lower_equal_cut l r : edge_l l -> edge_l r ->
  lower_equal X k l r = ceqb (lc l) (lc r).
Proof.
  intros El Er. pose proof (first_cut l) as Ll. pose proof (first_cut r) as Lr.
  unfold has_first in *. specialize (fun H => Ll H El). specialize (fun H => Lr H Er).
  unfold lower_equal. revert Ll Lr. kinds Ek Hd; intros Ll Lr.
  1-2: unfold ceqb, cltb, lc, lower; unb; cbn [fst snd]; rewrite Ek; cbn; dord.
  1-3: unfold eqb; rewrite !ltb_pt; try rewrite Hd in *;
       specialize (Ll eq_refl); specialize (Lr eq_refl); cord.
  - unfold ceqb, cltb, lc, lower; unb; cbn [fst snd]; rewrite Ek, Hd; cbn.
    destruct (bd l) as [[] []], (bd r) as [[] []]; cbn; dord.
Qed.

Lemma upper_less_cut l r : edge_r l -> edge_r r ->
  upper_less X k l r = cltb (uc l) (uc r).
Proof.
  intros El Er. pose proof (last_cut l) as Ll. pose proof (last_cut r) as Lr.
  unfold has_last in *. specialize (fun H => Ll H El). specialize (fun H => Lr H Er).
  unfold upper_less. revert Ll Lr. kinds Ek Hd; intros Ll Lr.
  1-4: unfold cltb, uc, upper; unb; cbn [fst snd]; rewrite Ek; cbn; dord.
  - rewrite ltb_up. specialize (Ll Hd); specialize (Lr Hd). cord.
  - unfold cltb, uc, upper; unb; cbn [fst snd]; rewrite Ek, Hd; cbn.
    destruct (bd l) as [[] []], (bd r) as [[] []]; cbn; dord.
Qed.

Lemma upper_equal_cut l r : edge_r l -> edge_r r ->
  upper_equal X k l r = ceqb (uc l) (uc r).
Proof.
  intros El Er. pose proof (last_cut l) as Ll. pose proof (last_cut r) as Lr.
  unfold has_last in *. specialize (fun H => Ll H El). specialize (fun H => Lr H Er).
  unfold upper_equal. revert Ll Lr. kinds Ek Hd; intros Ll Lr.
  1-2: unfold ceqb, cltb, uc, upper; unb; cbn [fst snd]; rewrite Ek; cbn; dord.
  1-3: unfold eqb; rewrite !ltb_up; try rewrite Hd in *;
       specialize (Ll eq_refl); specialize (Lr eq_refl); cord.
  - unfold ceqb, cltb, uc, upper; unb; cbn [fst snd]; rewrite Ek, Hd; cbn.
    destruct (bd l) as [[] []], (bd r) as [[] []]; cbn; dord.
Qed.

(** room above the upper border: needed only where the code steps over it *)
Definition room_above (a : I) : Prop :=
  match k with CL | DD => exists y, cltb (uc a) (y, true) = true | _ => True end.

Lemma next_cut x y : disc X = true -> cltb (x, true) (y, true) = true ->
  ceqb (pt (next x)) (x, true) = true.
Proof.
  unfold cltb, ceqb, cltb, pt; cbn [fst snd]. intros Hd H. rewrite Hd. steps. 
  destruct (ltb x (next x)) eqn:E; dord.
Qed.

Lemma touches_cut l r : edge_r l -> edge_l r -> room_above l ->
  touches X k l r = ceqb (uc l) (lc r).
Proof.
  intros El Er Hroom. pose proof (last_cut l) as Ll. pose proof (first_cut r) as Lr.
  unfold has_last, has_first, room_above in *.
  specialize (fun H => Ll H El). specialize (fun H => Lr H Er).
  unfold touches. revert Ll Lr Hroom. kinds Ek Hd; intros Ll Lr Hroom.
  1-2: unfold ceqb, cltb, uc, lc, upper, lower; unb; cbn [fst snd]; rewrite Ek; cbn; dord.
  - specialize (Lr eq_refl). specialize (Ll eq_refl). destruct Hroom as [y Hy].
    assert (E : last_next X k l = next (last X k l)) by (unfold last_next, last; rewrite Ek; auto).
    rewrite <- Ek in Ll, Lr |- *. rewrite E. unfold eqb. rewrite !ltb_pt.
    assert (N : ceqb (pt (next (last X k l))) (last X k l, true) = true)
      by (apply next_cut with y; auto; cord).
    cord.
  - specialize (Lr Hd).
    assert (E : pt (last_next X k l) = uc l) by
       (unfold last_next, pt, uc; unb; rewrite Ek; reflexivity).
    rewrite <- Ek in Ll, Lr |- *. unfold eqb. rewrite !ltb_pt, E. cord.
  - specialize (Lr Hd). specialize (Ll Hd). destruct Hroom as [y Hy].
    rewrite <- Ek in Ll, Lr |- *. unfold eqb. rewrite !ltb_pt.
    assert (N : ceqb (pt (next (last X k l))) (last X k l, true) = true)
      by (apply next_cut with y; auto; cord).
    cord.
  - unfold ceqb, cltb, uc, lc, upper, lower; unb; cbn [fst snd]; rewrite Ek, Hd; cbn.
    destruct (bd l) as [[] []], (bd r) as [[] []]; cbn; dord.
Qed.

Lemma contains_cut a x : (dynamic k = false -> edge_l a /\ edge_r a) ->
  contains X k a x = negb (cltb (pt x) (lc a)) && cltb (pt x) (uc a).
Proof.
  intros He.
  assert (Hcase : (dynamic k = false /\ disc X = true) \/ (dynamic k = true \/ disc X = false))
    by (destruct (dynamic k), (disc X); auto).
  destruct Hcase as [[Hdy Hd]|Hcase].
  - destruct (He Hdy) as [El Er].
    pose proof (last_cut a) as Ll. pose proof (first_cut a) as Lr.
    unfold has_last, has_first in *. rewrite Hd in *.
    assert (Ha : (match k with LO | CL => true | _ => true end) = true) by (destruct k; auto).
    assert (Hb : (match k with RO | CL => true | _ => true end) = true) by (destruct k; auto).
    specialize (Ll Ha Er). specialize (Lr Hb El).
    assert (E : contains X k a x = leb (first X k a) x && leb x (last X k a))
      by (unfold contains; rewrite Hd; revert Hdy; case k; cbn; congruence).
    rewrite E. unfold leb.
    rewrite (ltb_up_pt (last X k a) x) by assumption. rewrite ltb_pt. cord.
  - unfold contains, cltb, pt, lc, uc, lower, upper, first, last; unb; cbn [fst snd].
    revert Hcase; unfold dynamic; kinds Ek Hd; intros [Hcase|Hcase]; try congruence;
      try rewrite Hcase; cbn; destruct (bd a) as [[] []]; cbn; dord.
Qed.

(* cuts of constructed intervals *)
Lemma static_bl : dynamic k = false -> forall l u, lc (construct X k l u) = (l, negb (bl (static_bounds k))).
Proof. intros H l u. unfold lc, construct; unb. unfold dynamic in H. destruct k; try discriminate; auto. Qed.
Lemma static_br : dynamic k = false -> forall l u, uc (construct X k l u) = (u, br (static_bounds k)).
Proof. intros H l u. unfold uc, construct; unb. unfold dynamic in H. destruct k; try discriminate; auto. Qed.

Lemma lc_static a : dynamic k = false -> lc a = (lo a, negb (bl (static_bounds k))).
Proof. intros H. unfold lc; unb. rewrite H. reflexivity. Qed.
Lemma uc_static a : dynamic k = false -> uc a = (up a, br (static_bounds k)).
Proof. intros H. unfold uc; unb. rewrite H. reflexivity. Qed.

Definition cmin (c d : cut) : cut := if cltb c d then c else d.
Definition cmax (c d : cut) : cut := if cltb c d then d else c.

Lemma hull_cut l r : is_empty X k l = false -> is_empty X k r = false ->
  lc (hull X k l r) = cmin (lc l) (lc r) /\ uc (hull X k l r) = cmax (uc l) (uc r).
Proof.
  intros Hl Hr. unfold hull. rewrite Hl, Hr.
  destruct (nonempty_edge l Hl) as [E1 E2]. destruct (nonempty_edge r Hr) as [E3 E4].
  unfold cmin, cmax. destruct (dynamic k) eqn:Hdy.
  - unfold lower_min, upper_max.
    rewrite (lower_less_cut l r), (upper_less_cut l r) by assumption.
    destruct (cltb (lc l) (lc r)), (cltb (uc l) (uc r));
      unfold construct_bounded, bounded_lower, bounded_upper, lc, uc, left_closed,
        right_closed, bounds_of, lower, upper; rewrite Hdy; cbn;
      rewrite ?orb_false_r, ?orb_false_l; auto.
  - rewrite static_bl, static_br, !lc_static, !uc_static by assumption.
    unfold min_c, max_c, cltb, lower, upper; cbn [fst snd].
    split.
    + destruct (negb (bl (static_bounds k))).
      * tri (lo r) (lo l); ifs; try reflexivity; dord || (f_equal; apply ltb_antisym; dord).
      * tri (lo r) (lo l); ifs; try reflexivity; dord || (f_equal; apply ltb_antisym; dord).
    + destruct (br (static_bounds k)); ifs; reflexivity.
Qed.

Lemma inter_cut l r : is_empty X k l = false -> is_empty X k r = false ->
  lc (inter X k l r) = cmax (lc l) (lc r) /\ uc (inter X k l r) = cmin (uc l) (uc r).
Proof.
  intros Hl Hr. unfold inter. rewrite Hl, Hr. cbn [orb].
  destruct (nonempty_edge l Hl) as [E1 E2]. destruct (nonempty_edge r Hr) as [E3 E4].
  unfold cmin, cmax. destruct (dynamic k) eqn:Hdy.
  - unfold lower_max, upper_min.
    rewrite (lower_less_cut l r), (upper_less_cut l r) by assumption.
    destruct (cltb (lc l) (lc r)), (cltb (uc l) (uc r));
      unfold construct_bounded, bounded_lower, bounded_upper, lc, uc, left_closed,
        right_closed, bounds_of, lower, upper; rewrite Hdy; cbn;
      rewrite ?orb_false_r, ?orb_false_l; auto.
  - rewrite static_bl, static_br, !lc_static, !uc_static by assumption.
    unfold min_c, max_c, cltb, lower, upper; cbn [fst snd].
    split.
    + destruct (negb (bl (static_bounds k))); ifs; reflexivity.
    + destruct (br (static_bounds k)).
      * tri (up r) (up l); ifs; try reflexivity; dord || (f_equal; apply ltb_antisym; dord).
      * tri (up r) (up l); ifs; try reflexivity; dord || (f_equal; apply ltb_antisym; dord).
Qed.

(** left_subtract: the part of [r] right of [l] *)
Ltac rwk Ek :=
  rewrite ?Ek;
  repeat match goal with
  | H : context [k] |- _ =>
      lazymatch H with HX => fail | Ek => fail | _ => rewrite Ek in H end
  end.
Ltac fold_k Ek := rewrite <- ?Ek.
Ltac bools := repeat match goal with H : _ && _ = true |- _ => apply andb_prop in H; destruct H end.

Lemma left_subtract_cut r l : is_empty X k l = false -> is_empty X k r = false ->
  cltb (lc r) (uc l) = true ->
  if cltb (uc l) (uc r)
  then ceqb (lc (left_subtract X k r l)) (uc l) = true /\ uc (left_subtract X k r l) = uc r
  else is_empty X k (left_subtract X k r l) = true.
Proof.
  intros Hl Hr H. unfold left_subtract.
  rewrite exclusive_less_cut, H by assumption. cbn [negb].
  destruct (nonempty_edge l Hl) as [E1 E2]. destruct (nonempty_edge r Hr) as [E3 E4].
  assert (Hne : cltb (lc l) (uc l) = true) by (rewrite is_empty_cut in Hl; cord).
  pose proof empty_itv_empty as He. rewrite is_empty_cut in He.
  pose proof (upper_less_cut r l E4 E2) as U1. pose proof (upper_equal_cut r l E4 E2) as U2.
  assert (U : upper_less_equal X k r l = negb (cltb (uc l) (uc r)))
    by (unfold upper_less_equal; rewrite U1, U2; cord). clear U1 U2.
  clear E1 E2 E3 E4 Hl Hr.
  rewrite is_empty_cut. unfold lc, uc in *. unfold left_closed, right_closed, bounds_of in *.
  revert H Hne He U.
  unfold cltb, ceqb, cltb, construct_bounded, construct, reverse_bounded_upper, bounded_upper,
    bounds_of, upper, lower, static_bounds; cbn [fst snd negb].
  kinds Ek Hd; cbn; intros H Hne He U.
  - destruct (ltb (up l) (up r)) eqn:C; split; auto; dord.
  - destruct (ltb (up l) (up r)) eqn:C; split; auto; dord.
  - rewrite U. destruct (ltb (up l) (up r)) eqn:C; cbn.
    + rewrite Hd. split; auto. steps. dord.
    + unfold leb; exact He.
  - rewrite Hd in *. bools. destruct (ltb (up l) (up r)) eqn:C.
    + split; auto. steps. tri (next (prior (up l))) (up l); steps; dord.
    + steps. tri (next (prior (up l))) (up l); steps; dord.
  - rewrite Hd. rewrite ?orb_false_r, ?orb_false_l, ?negb_involutive.
    destruct (bd l) as [[] []], (bd r) as [[] []]; cbn [bl br] in *; rewrite ?Hd in *; cbn;
    ifs; try discriminate; try split; auto; dord.
  - rewrite Hd. rewrite ?orb_false_r, ?orb_false_l, ?negb_involutive.
    destruct (bd l) as [[] []], (bd r) as [[] []]; cbn [bl br] in *; rewrite ?Hd in *; cbn;
    ifs; try discriminate; try split; auto; dord.
Qed.


(** right_subtract: the part of [l] left of [r] *)
Lemma right_subtract_cut l r : is_empty X k l = false -> is_empty X k r = false ->
  cltb (lc r) (uc l) = true ->
  if cltb (lc l) (lc r)
  then lc (right_subtract X k l r) = lc l /\ ceqb (uc (right_subtract X k l r)) (lc r) = true
  else is_empty X k (right_subtract X k l r) = true.
Proof.
  intros Hl Hr H. unfold right_subtract.
  rewrite exclusive_less_cut, H by assumption. cbn [negb].
  destruct (nonempty_edge l Hl) as [E1 E2]. destruct (nonempty_edge r Hr) as [E3 E4].
  assert (Hne : cltb (lc r) (uc r) = true) by (rewrite is_empty_cut in Hr; cord).
  pose proof empty_itv_empty as He. rewrite is_empty_cut in He.
  pose proof (lower_less_cut r l E3 E1) as U1. pose proof (lower_equal_cut r l E3 E1) as U2.
  assert (U : lower_less_equal X k r l = negb (cltb (lc l) (lc r)))
    by (unfold lower_less_equal; rewrite U1, U2; cord). clear U1 U2.
  clear E1 E2 E3 E4 Hl Hr.
  rewrite is_empty_cut. unfold lc, uc in *. unfold left_closed, right_closed, bounds_of in *.
  revert H Hne He U.
  unfold cltb, ceqb, cltb, construct_bounded, construct, reverse_bounded_lower, bounded_lower,
    bounds_of, upper, lower, static_bounds; cbn [fst snd negb].
  kinds Ek Hd; cbn; intros H Hne He U.
  - destruct (ltb (lo l) (lo r)) eqn:C; try split; auto; dord.
  - destruct (ltb (lo l) (lo r)) eqn:C; try split; auto; dord.
  - rewrite U. destruct (ltb (lo l) (lo r)) eqn:C; cbn.
    + rewrite Hd. split; auto. steps. tri (next (prior (lo r))) (lo r); steps; dord.
    + unfold leb; exact He.
  - rewrite Hd in *. bools. destruct (ltb (lo l) (lo r)) eqn:C.
    + split; auto. steps. dord.
    + steps. tri (lo l) (next (lo r)); steps; try dord.
      tri (lo r) (lo l); steps; try dord.
  - rewrite Hd. rewrite ?orb_false_r, ?orb_false_l, ?negb_involutive.
    destruct (bd l) as [[] []], (bd r) as [[] []]; cbn [bl br] in *; rewrite ?Hd in *; cbn;
    ifs; try discriminate; try split; auto; dord.
  - rewrite Hd. rewrite ?orb_false_r, ?orb_false_l, ?negb_involutive.
    destruct (bd l) as [[] []], (bd r) as [[] []]; cbn [bl br] in *; rewrite ?Hd in *; cbn;
    ifs; try discriminate; try split; auto; dord.
Qed.

(** admissible cuts: those that occur as borders of intervals of kind k *)
Definition cut_ok (c : cut) : Prop :=
  match k with RO => snd c = false | LO => snd c = true | _ => True end.
Lemma lc_ok a : cut_ok (lc a).
Proof. unfold cut_ok, lc; unb. case_eq k; cbn; auto. Qed.
Lemma uc_ok a : cut_ok (uc a).
Proof. unfold cut_ok, uc; unb. case_eq k; cbn; auto. Qed.

(** between two different admissible cuts there is an element *)
Lemma cut_gap c d : cut_ok c -> cut_ok d -> cltb c d = true ->
  exists x, cltb (pt x) c = false /\ cltb (pt x) d = true.
Proof.
  destruct c as [x []], d as [y []]; unfold cut_ok; intros Hc Hd H.
  - exists y. unfold cltb, pt in *; cbn in *. dord.
  - unfold cltb, pt in *; cbn [fst snd] in *.
    destruct (disc X) eqn:E.
    + bools. exists (next x). steps. dord.
    + revert Hc Hd. pose proof disc_kind_disc as Hdk. unfold disc_kind in Hdk.
      destruct HX as (_ & _ & Hk). revert Hdk Hk.
      case_eq k; cbn; intros Ek Hdk Hk Hc Hd; try congruence;
        try (rewrite Hdk in E by reflexivity; discriminate).
      destruct Hk as [_ Hdense]. destruct (Hdense x y) as (z & Hz1 & Hz2); [bools; auto|].
      exists z. dord.
  - exists x. unfold cltb, pt in *; cbn in *. dord.
  - exists x. unfold cltb, pt in *; cbn in *. dord.
Qed.

Lemma nonempty_point a : is_empty X k a = false -> exists x, mem X k a x.
Proof.
  rewrite is_empty_cut. intros H. 
  destruct (cut_gap (lc a) (uc a)) as (x & H1 & H2); [apply lc_ok|apply uc_ok|cord|].
  exists x. apply mem_cut; auto.
Qed.

Lemma empty_no_point a x : is_empty X k a = true -> ~ mem X k a x.
Proof. rewrite is_empty_cut, mem_cut. cord. Qed.

Lemma cmin_ok c d : cut_ok c -> cut_ok d -> cut_ok (cmin c d).
Proof. unfold cmin; destruct (cltb c d); auto. Qed.
Lemma cmax_ok c d : cut_ok c -> cut_ok d -> cut_ok (cmax c d).
Proof. unfold cmax; destruct (cltb c d); auto. Qed.

(** cut order is determined by the points below *)
Lemma cut_le_points c d : cut_ok c -> cut_ok d ->
  ((forall x, cltb (pt x) c = true -> cltb (pt x) d = true) <-> cltb d c = false).
Proof.
  intros Hc Hd. split.
  - intros H. destruct (cltb d c) eqn:E; auto.
    destruct (cut_gap d c Hd Hc E) as (x & H1 & H2). rewrite (H x H2) in H1. discriminate.
  - intros H x Hx. cord.
Qed.

(** containment of non-empty intervals *)
Lemma subset_cut a b : is_empty X k a = false ->
  ((forall x, mem X k a x -> mem X k b x) <->
   cltb (lc a) (lc b) = false /\ cltb (uc b) (uc a) = false).
Proof.
  intros Ha. rewrite is_empty_cut in Ha. split.
  - intros H. split.
    + destruct (cltb (lc a) (lc b)) eqn:E; auto.
      destruct (cut_gap (lc a) (cmin (lc b) (uc a))) as (x & H1 & H2).
      * apply lc_ok.
      * apply cmin_ok; [apply lc_ok|apply uc_ok].
      * unfold cmin. destruct (cltb (lc b) (uc a)); auto. cord.
      * assert (Hm : mem X k a x).
        { apply mem_cut. unfold cmin in H2. split; auto. destruct (cltb (lc b) (uc a)) eqn:E2; cord. }
        apply H in Hm. apply mem_cut in Hm. unfold cmin in H2.
        destruct (cltb (lc b) (uc a)) eqn:E2; cord.
    + destruct (cltb (uc b) (uc a)) eqn:E; auto.
      destruct (cut_gap (cmax (uc b) (lc a)) (uc a)) as (x & H1 & H2).
      * apply cmax_ok; [apply uc_ok|apply lc_ok].
      * apply uc_ok.
      * unfold cmax. destruct (cltb (uc b) (lc a)); auto. cord.
      * assert (Hm : mem X k a x).
        { apply mem_cut. unfold cmax in H1. split; auto. destruct (cltb (uc b) (lc a)) eqn:E2; cord. }
        apply H in Hm. apply mem_cut in Hm. unfold cmax in H1.
        destruct (cltb (uc b) (lc a)) eqn:E2; cord.
  - intros [H1 H2] x. rewrite !mem_cut. cord.
Qed.
End Facts.

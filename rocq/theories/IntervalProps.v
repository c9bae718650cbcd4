(** Element-level characterisations of the interval functions (C01-C12). *)
From Verif Require Export Instances IntervalSize.

Ltac cord_ X k HX := unfold ceqb in *; to_rank (cut X) (cltb X) (cltb_swo X k HX); lia.
Ltac dord_ X k HX := unfold leb, eqb in *; to_rank (D X) (@ltb X) (ltb_swo X k HX); lia.

Section Props.
Context (X : dom) (k : kind).
Context (HX : dom_ok X k).
Notation T := (D X).
Notation I := (itv (D X)).
Notation mem := (mem X k).
Notation lc := (lc X k).
Notation uc := (uc X k).
Notation pt := (pt X).
Notation cltb := (cltb X).
Notation ceqb := (ceqb X).
Ltac cord := cord_ X k HX.
Ltac dord := dord_ X k HX.

Lemma bool_iff (a b : bool) : (a = true <-> b = true) -> a = b.
Proof. destruct a, b; intuition congruence. Qed.

Lemma is_empty_spec a : is_empty X k a = true <-> forall x, ~ mem a x.
Proof.
  split.
  - intros H x. apply empty_no_point; auto.
  - intros H. destruct (is_empty X k a) eqn:E; auto.
    destruct (nonempty_point X k HX a E) as [x Hx]. exfalso; exact (H x Hx).
Qed.

Lemma is_empty_false a : is_empty X k a = false <-> exists x, mem a x.
Proof.
  split; [apply nonempty_point; auto|]. intros [x Hx].
  destruct (is_empty X k a) eqn:E; auto. exfalso. revert Hx. apply empty_no_point; auto.
Qed.

Lemma edge_cuts a : edge_ok X k a -> edge_l X k a /\ edge_r X k a.
Proof. apply edge_ok_iff. Qed.

Lemma nonempty_edge_ok a : (exists x, mem a x) -> edge_ok X k a.
Proof. intros H. apply edge_ok_iff. apply nonempty_edge; auto. apply is_empty_false; auto. Qed.

Lemma contains_spec a x : (dynamic k = false -> edge_ok X k a) ->
  contains X k a x = true <-> mem a x.
Proof.
  intros He. rewrite contains_cut, mem_cut; auto; [cord|].
  intros H. apply edge_cuts; auto.
Qed.

Lemma contains_itv_spec a b : edge_ok X k a -> edge_ok X k b ->
  contains_itv X k a b = true <-> forall x, mem b x -> mem a x.
Proof.
  intros Ha Hb. apply edge_cuts in Ha, Hb. destruct Ha as [A1 A2], Hb as [B1 B2].
  unfold contains_itv. destruct (is_empty X k b) eqn:E; cbn.
  - split; auto. intros _ x Hx. exfalso; revert Hx; apply empty_no_point; auto.
  - rewrite subset_cut by assumption. unfold lower_less_equal, upper_less_equal.
    rewrite lower_less_cut, lower_equal_cut, upper_less_cut, upper_equal_cut by assumption. cord.
Qed.

Lemma same_elems_cut a b : is_empty X k a = false ->
  ((forall x, mem a x <-> mem b x) <-> ceqb (lc a) (lc b) = true /\ ceqb (uc a) (uc b) = true).
Proof.
  intros Ha. split.
  - intros H.
    assert (Hb : is_empty X k b = false).
    { apply is_empty_false. apply is_empty_false in Ha. destruct Ha as [x Hx]. exists x; apply H; auto. }
    pose proof (proj1 (subset_cut X k HX a b Ha) (fun x Hx => proj1 (H x) Hx)).
    pose proof (proj1 (subset_cut X k HX b a Hb) (fun x Hx => proj2 (H x) Hx)). cord.
  - intros [H1 H2] x. rewrite !mem_cut; auto. cord.
Qed.

Lemma itv_eqb_spec a b : edge_ok X k a -> edge_ok X k b ->
  itv_eqb X k a b = true <-> forall x, mem a x <-> mem b x.
Proof.
  intros Ha Hb. apply edge_cuts in Ha, Hb. destruct Ha as [A1 A2], Hb as [B1 B2].
  unfold itv_eqb. rewrite lower_equal_cut, upper_equal_cut by assumption.
  destruct (is_empty X k a) eqn:Ea.
  - destruct (is_empty X k b) eqn:Eb; cbn.
    + split; auto. intros _ x. split; intros H; exfalso; revert H; apply empty_no_point; auto.
    + rewrite is_empty_cut in Ea, Eb; auto. split; [intros; cord|].
      intros H. exfalso. rewrite <- is_empty_cut in Eb; auto.
      apply is_empty_false in Eb. destruct Eb as [x Hx]. apply H in Hx. revert Hx.
      apply empty_no_point; auto. rewrite is_empty_cut; auto.
  - cbn. rewrite same_elems_cut by assumption. rewrite andb_true_iff. reflexivity.
Qed.

(* ---------------------------------------------------------------- order *)
Lemma itv_ltb_cut a b : is_empty X k a = false -> is_empty X k b = false ->
  itv_ltb X k a b = cltb (lc a) (lc b) || (ceqb (lc a) (lc b) && cltb (uc a) (uc b)).
Proof.
  intros Ha Hb. destruct (nonempty_edge X k HX a Ha), (nonempty_edge X k HX b Hb).
  unfold itv_ltb. rewrite Ha, Hb. cbn.
  rewrite lower_less_cut, lower_equal_cut, upper_less_cut by assumption. reflexivity.
Qed.
Lemma itv_eqb_cut a b : is_empty X k a = false -> is_empty X k b = false ->
  itv_eqb X k a b = ceqb (lc a) (lc b) && ceqb (uc a) (uc b).
Proof.
  intros Ha Hb. destruct (nonempty_edge X k HX a Ha), (nonempty_edge X k HX b Hb).
  unfold itv_eqb. rewrite Ha, Hb. cbn.
  rewrite lower_equal_cut, upper_equal_cut by assumption. reflexivity.
Qed.

Lemma itv_ltb_empty a b : itv_ltb X k a b = true -> is_empty X k a = false /\ is_empty X k b = false.
Proof.
  unfold itv_ltb. destruct (is_empty X k a), (is_empty X k b); cbn; auto; discriminate.
Qed.

Lemma itv_ltb_irrefl a : itv_ltb X k a a = false.
Proof.
  destruct (itv_ltb X k a a) eqn:E; auto.
  destruct (itv_ltb_empty _ _ E). rewrite itv_ltb_cut in E by assumption. cord.
Qed.
Lemma itv_ltb_trans a b c : itv_ltb X k a b = true -> itv_ltb X k b c = true -> itv_ltb X k a c = true.
Proof.
  intros H1 H2. destruct (itv_ltb_empty _ _ H1), (itv_ltb_empty _ _ H2).
  rewrite itv_ltb_cut in * by assumption. cord.
Qed.
Lemma itv_ltb_total a b : is_empty X k a = false -> is_empty X k b = false ->
  itv_eqb X k a b = negb (itv_ltb X k a b) && negb (itv_ltb X k b a).
Proof. intros. rewrite itv_eqb_cut, !itv_ltb_cut by assumption. cord. Qed.

(** begins before / ends before, at element level *)
Definition begins_before (a b : I) : Prop := exists x, mem a x /\ forall y, mem b y -> lt x y.
Definition ends_before (a b : I) : Prop := exists y, mem b y /\ forall x, mem a x -> lt x y.

Lemma pt_ltb x y : ltb x y = cltb (pt x) (pt y). Proof. reflexivity. Qed.

Lemma begins_before_cut a b : is_empty X k a = false -> is_empty X k b = false ->
  (begins_before a b <-> cltb (lc a) (lc b) = true).
Proof.
  intros Ha Hb. rewrite is_empty_cut in Ha, Hb by assumption. split.
  - intros (x & Hx & H). destruct (cltb (lc a) (lc b)) eqn:E; auto. exfalso.
    rewrite mem_cut in Hx by assumption.
    destruct (cltb (pt x) (uc b)) eqn:Eu.
    + assert (Hm : mem b x) by (apply mem_cut; auto; cord).
      apply H in Hm. unfold lt in Hm. rewrite pt_ltb in Hm. cord.
    + destruct (cut_gap X k HX (lc b) (uc b)) as (y & Hy1 & Hy2);
        [apply lc_ok|apply uc_ok|cord|].
      assert (Hm : mem b y) by (apply mem_cut; auto).
      apply H in Hm. unfold lt in Hm. rewrite pt_ltb in Hm. cord.
  - intros H.
    destruct (cut_gap X k HX (lc a) (cmin X (lc b) (uc a))) as (x & H1 & H2).
    + apply lc_ok.
    + apply cmin_ok; [apply lc_ok|apply uc_ok].
    + unfold cmin. destruct (cltb (lc b) (uc a)); auto. cord.
    + unfold cmin in H2. exists x. split.
      * apply mem_cut; auto. destruct (cltb (lc b) (uc a)) eqn:E; cord.
      * intros y Hy. apply mem_cut in Hy; auto. unfold lt. rewrite pt_ltb.
        destruct (cltb (lc b) (uc a)) eqn:E; cord.
Qed.

Lemma ends_before_cut a b : is_empty X k a = false -> is_empty X k b = false ->
  (ends_before a b <-> cltb (uc a) (uc b) = true).
Proof.
  intros Ha Hb. rewrite is_empty_cut in Ha, Hb by assumption. split.
  - intros (y & Hy & H). destruct (cltb (uc a) (uc b)) eqn:E; auto. exfalso.
    rewrite mem_cut in Hy by assumption.
    destruct (cltb (pt y) (lc a)) eqn:Eu.
    + destruct (cut_gap X k HX (lc a) (uc a)) as (x & Hx1 & Hx2);
        [apply lc_ok|apply uc_ok|cord|].
      assert (Hm : mem a x) by (apply mem_cut; auto).
      apply H in Hm. unfold lt in Hm. rewrite pt_ltb in Hm. cord.
    + assert (Hm : mem a y) by (apply mem_cut; auto; cord).
      apply H in Hm. unfold lt in Hm. rewrite pt_ltb in Hm. cord.
  - intros H.
    destruct (cut_gap X k HX (cmax X (uc a) (lc b)) (uc b)) as (y & H1 & H2).
    + apply cmax_ok; [apply uc_ok|apply lc_ok].
    + apply uc_ok.
    + unfold cmax. destruct (cltb (uc a) (lc b)); auto. cord.
    + unfold cmax in H1. exists y. split.
      * apply mem_cut; auto. destruct (cltb (uc a) (lc b)) eqn:E; cord.
      * intros x Hx. apply mem_cut in Hx; auto. unfold lt. rewrite pt_ltb.
        destruct (cltb (uc a) (lc b)) eqn:E; cord.
Qed.

Lemma itv_ltb_spec a b : (exists x, mem a x) -> (exists x, mem b x) ->
  (itv_ltb X k a b = true <->
   begins_before a b \/ (~ begins_before b a /\ ends_before a b)).
Proof.
  intros Ha Hb. apply is_empty_false in Ha, Hb.
  rewrite itv_ltb_cut, !begins_before_cut, ends_before_cut by assumption. cord.
Qed.

(* ---------------------------------------------------------------- exclusive_less *)
Lemma exclusive_less_spec a b :
  exclusive_less X k a b = true <-> forall x y, mem a x -> mem b y -> lt x y.
Proof.
  destruct (is_empty X k a) eqn:Ea; [|destruct (is_empty X k b) eqn:Eb].
  - unfold exclusive_less. rewrite Ea. cbn. split; auto. intros _ x y Hx.
    exfalso; revert Hx; apply empty_no_point; auto.
  - unfold exclusive_less. rewrite Ea, Eb. cbn. split; auto. intros _ x y _ Hx.
    exfalso; revert Hx; apply empty_no_point; auto.
  - rewrite exclusive_less_cut by assumption. split.
    + intros H x y. rewrite !mem_cut by assumption. unfold lt. rewrite pt_ltb. cord.
    + intros H. destruct (cltb (lc b) (uc a)) eqn:E; auto. exfalso.
      rewrite is_empty_cut in Ea, Eb by assumption.
      destruct (cut_gap X k HX (cmax X (lc a) (lc b)) (cmin X (uc a) (uc b))) as (x & H1 & H2).
      * apply cmax_ok; apply lc_ok.
      * apply cmin_ok; apply uc_ok.
      * unfold cmax, cmin.
        destruct (cltb (lc a) (lc b)) eqn:?, (cltb (uc a) (uc b)) eqn:?; try cord.
        (* b before a: then lc b < uc a anyway *)
        destruct (cltb (lc a) (uc b)) eqn:?; [cord|].
        exfalso.
        destruct (cut_gap X k HX (lc b) (uc b)) as (y & Y1 & Y2); [apply lc_ok|apply uc_ok|cord|].
        destruct (cut_gap X k HX (lc a) (uc a)) as (z & Z1 & Z2); [apply lc_ok|apply uc_ok|cord|].
        assert (Hlt : lt z y) by (apply H; apply mem_cut; auto).
        unfold lt in Hlt; rewrite pt_ltb in Hlt. cord.
      * assert (Hlt : lt x x).
        { apply H; apply mem_cut; auto; unfold cmax, cmin in *;
          destruct (cltb (lc a) (lc b)) eqn:?, (cltb (uc a) (uc b)) eqn:?; cord. }
        unfold lt in Hlt; rewrite pt_ltb in Hlt. cord.
Qed.

(* ---------------------------------------------------------------- intersection *)
Lemma inter_spec a b x : mem (inter X k a b) x <-> mem a x /\ mem b x.
Proof.
  destruct (is_empty X k a) eqn:Ea; [|destruct (is_empty X k b) eqn:Eb].
  1,2: unfold inter; rewrite Ea, ?Eb; cbn; split;
    [ intros H; exfalso; revert H; apply empty_no_point; auto; apply empty_itv_empty; auto
    | intros [H1 H2]; exfalso; first [revert H1; apply empty_no_point; solve [auto]
                                     | revert H2; apply empty_no_point; solve [auto]] ].
  destruct (inter_cut X k HX a b Ea Eb) as [E1 E2].
  rewrite !mem_cut by assumption. rewrite E1, E2. unfold cmax, cmin.
  destruct (cltb (lc a) (lc b)) eqn:?, (cltb (uc a) (uc b)) eqn:?; cord.
Qed.

Lemma intersects_spec a b : intersects X k a b = true <-> exists x, mem a x /\ mem b x.
Proof.
  assert (E : is_empty X k (inter X k a b) = negb (intersects X k a b)).
  { destruct (is_empty X k a) eqn:Ea; [|destruct (is_empty X k b) eqn:Eb].
    1,2: unfold inter, intersects; rewrite Ea, ?Eb; cbn; apply empty_itv_empty; auto.
    destruct (inter_cut X k HX a b Ea Eb) as [E1 E2]. rewrite is_empty_cut, E1, E2 by assumption.
    unfold intersects. rewrite !exclusive_less_cut, Ea, Eb by assumption.
    rewrite is_empty_cut in Ea, Eb by assumption. unfold cmax, cmin.
    destruct (cltb (lc a) (lc b)) eqn:?, (cltb (uc a) (uc b)) eqn:?; cord. }
  split.
  - intros H. rewrite H in E. apply is_empty_false in E. destruct E as [x Hx].
    exists x. apply inter_spec; auto.
  - intros [x Hx]. apply inter_spec in Hx.
    assert (Hf : is_empty X k (inter X k a b) = false) by (apply is_empty_false; eauto).
    rewrite E in Hf. apply negb_false_iff in Hf. auto.
Qed.

Lemma disjoint_spec a b : disjoint X k a b = negb (intersects X k a b).
Proof. unfold disjoint, intersects. rewrite negb_involutive. reflexivity. Qed.

(* ---------------------------------------------------------------- hull *)
Lemma hull_between a b x :
  mem (hull X k a b) x <->
  exists y z, (mem a y \/ mem b y) /\ (mem a z \/ mem b z) /\ le y x /\ le x z.
Proof.
  unfold le.
  destruct (is_empty X k b) eqn:Eb; [|destruct (is_empty X k a) eqn:Ea].
  - unfold hull; rewrite Eb. split.
    + intros H. exists x, x. repeat split; auto; apply ltb_irrefl with k; auto.
    + intros (y & z & [Hy|Hy] & [Hz|Hz] & H1 & H2);
        try (exfalso; revert Hy; apply empty_no_point; solve [auto]);
        try (exfalso; revert Hz; apply empty_no_point; solve [auto]).
      rewrite mem_cut in * by assumption. rewrite pt_ltb in *. cord.
  - unfold hull; rewrite Eb, Ea. split.
    + intros H. exists x, x. repeat split; auto; apply ltb_irrefl with k; auto.
    + intros (y & z & [Hy|Hy] & [Hz|Hz] & H1 & H2);
        try (exfalso; revert Hy; apply empty_no_point; solve [auto]);
        try (exfalso; revert Hz; apply empty_no_point; solve [auto]).
      rewrite mem_cut in * by assumption. rewrite pt_ltb in *. cord.
  - destruct (hull_cut X k HX a b Ea Eb) as [E1 E2].
    rewrite is_empty_cut in Ea, Eb by assumption. rewrite mem_cut by assumption.
    rewrite E1, E2. clear E1 E2. split.
    + intros [H1 H2].
      destruct (cltb (pt x) (lc a)) eqn:Ca; destruct (cltb (pt x) (lc b)) eqn:Cb;
        destruct (cltb (pt x) (uc a)) eqn:Da; destruct (cltb (pt x) (uc b)) eqn:Db;
        try (exfalso; unfold cmin, cmax in *;
             destruct (cltb (lc a) (lc b)) eqn:?, (cltb (uc a) (uc b)) eqn:?; cord);
        try (exists x, x; rewrite ltb_irrefl with (k := k) by assumption;
             repeat split; auto; first [left; apply mem_cut; solve [auto]
                                       | right; apply mem_cut; solve [auto]]).
      * (* below a, above b *)
        destruct (cut_gap X k HX (lc a) (uc a)) as (z & Z1 & Z2); [apply lc_ok|apply uc_ok|cord|].
        destruct (cut_gap X k HX (lc b) (uc b)) as (y & Y1 & Y2); [apply lc_ok|apply uc_ok|cord|].
        exists y, z. rewrite !pt_ltb. repeat split;
          [right; apply mem_cut; auto|left; apply mem_cut; auto|cord|cord].
      * destruct (cut_gap X k HX (lc a) (uc a)) as (y & Y1 & Y2); [apply lc_ok|apply uc_ok|cord|].
        destruct (cut_gap X k HX (lc b) (uc b)) as (z & Z1 & Z2); [apply lc_ok|apply uc_ok|cord|].
        exists y, z. rewrite !pt_ltb. repeat split;
          [left; apply mem_cut; auto|right; apply mem_cut; auto|cord|cord].
    + intros (y & z & Hy & Hz & H1 & H2). rewrite !mem_cut in * by assumption.
      rewrite pt_ltb in *. unfold cmin, cmax.
      destruct (cltb (lc a) (lc b)) eqn:?, (cltb (uc a) (uc b)) eqn:?; cord.
Qed.

Lemma hull_least a b c : (forall x, mem a x -> mem c x) -> (forall x, mem b x -> mem c x) ->
  forall x, mem (hull X k a b) x -> mem c x.
Proof.
  intros Ha Hb x Hx. apply hull_between in Hx. destruct Hx as (y & z & Hy & Hz & H1 & H2).
  assert (Cy : mem c y) by (destruct Hy; auto). assert (Cz : mem c z) by (destruct Hz; auto).
  rewrite mem_cut in * by assumption. unfold le in *. rewrite pt_ltb in *. cord.
Qed.

Lemma hull_covers a b x : mem a x \/ mem b x -> mem (hull X k a b) x.
Proof.
  intros H. apply hull_between. exists x, x. unfold le. rewrite ltb_irrefl with (k := k); auto.
Qed.

(* ---------------------------------------------------------------- subtraction *)
Lemma left_subtract_spec r l x : (exists y, mem l y) ->
  (mem (left_subtract X k r l) x <-> mem r x /\ forall y, mem l y -> lt y x).
Proof.
  intros Hl0. pose proof Hl0 as Hl. apply is_empty_false in Hl.
  destruct (is_empty X k r) eqn:Er.
  { assert (E : left_subtract X k r l = r).
    { unfold left_subtract, exclusive_less. rewrite Er. rewrite orb_true_r. reflexivity. }
    rewrite E. split; [|tauto]. intros H. exfalso; revert H; apply empty_no_point; auto. }
  destruct (cltb (lc r) (uc l)) eqn:C.
  - pose proof (left_subtract_cut X k HX r l Hl Er C) as H.
    assert (P : (forall y, mem l y -> lt y x) <-> cltb (pt x) (uc l) = false).
    { split.
      - intros Hy. destruct (cltb (pt x) (uc l)) eqn:E; auto. exfalso.
        destruct (cltb (pt x) (lc l)) eqn:E2.
        + destruct Hl0 as [y Hy0]. specialize (Hy y Hy0). apply mem_cut in Hy0; auto.
          unfold lt in Hy; rewrite pt_ltb in Hy. cord.
        + assert (Hm : mem l x) by (apply mem_cut; auto). specialize (Hy x Hm).
          unfold lt in Hy; rewrite ltb_irrefl with (k := k) in Hy; auto. discriminate.
      - intros E y Hy. apply mem_cut in Hy; auto. unfold lt; rewrite pt_ltb. cord. }
    rewrite P. clear P.
    destruct (cltb (uc l) (uc r)) eqn:U.
    + destruct H as [H1 H2]. rewrite !mem_cut by assumption. rewrite H2. cord.
    + rewrite (mem_cut X k HX r). split; [intros H0; exfalso; revert H0; apply empty_no_point; auto|].
      intros [H1 H2]. cord.
  - assert (E : left_subtract X k r l = r).
    { unfold left_subtract. rewrite exclusive_less_cut, C by assumption. reflexivity. }
    rewrite E. split; [|tauto]. intros H. split; auto. intros y Hy.
    rewrite mem_cut in * by assumption. unfold lt; rewrite pt_ltb. cord.
Qed.

Lemma right_subtract_spec l r x : (exists y, mem r y) ->
  (mem (right_subtract X k l r) x <-> mem l x /\ forall y, mem r y -> lt x y).
Proof.
  intros Hr0. pose proof Hr0 as Hr. apply is_empty_false in Hr.
  destruct (is_empty X k l) eqn:El.
  { assert (E : right_subtract X k l r = l).
    { unfold right_subtract, exclusive_less. rewrite El. reflexivity. }
    rewrite E. split; [|tauto]. intros H. exfalso; revert H; apply empty_no_point; auto. }
  destruct (cltb (lc r) (uc l)) eqn:C.
  - pose proof (right_subtract_cut X k HX l r El Hr C) as H.
    assert (P : (forall y, mem r y -> lt x y) <-> cltb (pt x) (lc r) = true).
    { split.
      - intros Hy. destruct (cltb (pt x) (lc r)) eqn:E; auto. exfalso.
        destruct (cltb (pt x) (uc r)) eqn:E2.
        + assert (Hm : mem r x) by (apply mem_cut; auto). specialize (Hy x Hm).
          unfold lt in Hy; rewrite ltb_irrefl with (k := k) in Hy; auto. discriminate.
        + destruct Hr0 as [y Hy0]. specialize (Hy y Hy0). apply mem_cut in Hy0; auto.
          unfold lt in Hy; rewrite pt_ltb in Hy. cord.
      - intros E y Hy. apply mem_cut in Hy; auto. unfold lt; rewrite pt_ltb. cord. }
    rewrite P. clear P.
    destruct (cltb (lc l) (lc r)) eqn:U.
    + destruct H as [H1 H2]. rewrite !mem_cut by assumption. rewrite H1. cord.
    + rewrite (mem_cut X k HX l). split; [intros H0; exfalso; revert H0; apply empty_no_point; auto|].
      intros [H1 H2]. cord.
  - assert (E : right_subtract X k l r = l).
    { unfold right_subtract. rewrite exclusive_less_cut, C by assumption. reflexivity. }
    rewrite E. split; [|tauto]. intros H. split; auto. intros y Hy.
    rewrite mem_cut in * by assumption. unfold lt; rewrite pt_ltb. cord.
Qed.

(* ---------------------------------------------------------------- touches *)
Lemma touches_spec a b : (exists x, mem a x) -> (exists x, mem b x) ->
  (forall x y, mem a x -> mem b y -> lt x y) ->
  (touches X k a b = true <->
   ~ exists z, (forall x, mem a x -> lt x z) /\ (forall y, mem b y -> lt z y)).
Proof.
  intros Ha0 Hb0 Hab. pose proof Ha0 as Ha; pose proof Hb0 as Hb. apply is_empty_false in Ha, Hb.
  apply exclusive_less_spec in Hab. rewrite exclusive_less_cut in Hab by assumption.
  rewrite touches_cut; [| assumption | | | ].
  2: apply nonempty_edge; auto. 2: apply nonempty_edge; auto.
  2: { unfold room_above. destruct Hb0 as [y Hy].
       assert (W : exists y, cltb (uc a) (y, true) = true).
       { exists y. apply mem_cut in Hy; auto.
         assert (cltb (pt y) (y, true) = true).
         { unfold IntervalFacts.cltb, pt; cbn. rewrite ltb_irrefl with (k:=k); auto. }
         cord. }
       revert W. generalize (exists y0, cltb (uc a) (y0, true) = true). intros P HP. case k; auto. }
  assert (Ha' := Ha); assert (Hb' := Hb). rewrite is_empty_cut in Ha', Hb' by assumption.
  split.
  - intros H (z & H1 & H2).
    destruct Ha0 as [x0 Hx0], Hb0 as [y0 Hy0].
    (* z is above every point of a, hence not below uc a *)
    assert (Z1 : cltb (pt z) (uc a) = false).
    { destruct (cltb (pt z) (uc a)) eqn:E; auto. exfalso.
      destruct (cltb (pt z) (lc a)) eqn:E2.
      - specialize (H1 _ Hx0). unfold lt in H1. apply mem_cut in Hx0; auto. rewrite pt_ltb in H1. cord.
      - assert (Hm : mem a z) by (apply mem_cut; auto). specialize (H1 _ Hm). unfold lt in H1.
        rewrite ltb_irrefl with (k:=k) in H1; auto. discriminate. }
    assert (Z2 : cltb (pt z) (lc b) = true).
    { destruct (cltb (pt z) (lc b)) eqn:E; auto. exfalso.
      destruct (cltb (pt z) (uc b)) eqn:E2.
      - assert (Hm : mem b z) by (apply mem_cut; auto). specialize (H2 _ Hm). unfold lt in H2.
        rewrite ltb_irrefl with (k:=k) in H2; auto. discriminate.
      - specialize (H2 _ Hy0). unfold lt in H2. apply mem_cut in Hy0; auto. rewrite pt_ltb in H2. cord. }
    cord.
  - intros H. destruct (ceqb (uc a) (lc b)) eqn:E; auto. exfalso.
    destruct (cut_gap X k HX (uc a) (lc b)) as (z & Z1 & Z2); [apply uc_ok|apply lc_ok|cord|].
    apply H. exists z. split; intros w Hw; apply mem_cut in Hw; auto; unfold lt; rewrite pt_ltb; cord.
Qed.

(* ---------------------------------------------------------------- first/last/constructors *)
Lemma first_spec a : has_first X k = true -> (exists x, mem a x) ->
  mem a (first X k a) /\ forall x, mem a x -> le (first X k a) x.
Proof.
  intros Hf Ha. apply is_empty_false in Ha. pose proof Ha as Ha'. rewrite is_empty_cut in Ha' by assumption.
  pose proof (first_cut X k HX a Hf (proj1 (nonempty_edge X k HX a Ha))) as H.
  split; [apply mem_cut; auto; cord|].
  intros x Hx. apply mem_cut in Hx; auto. unfold le; rewrite pt_ltb. cord.
Qed.

Lemma last_spec a : has_last X k = true -> (exists x, mem a x) ->
  mem a (last X k a) /\ forall x, mem a x -> le x (last X k a).
Proof.
  intros Hf Ha. apply is_empty_false in Ha. pose proof Ha as Ha'. rewrite is_empty_cut in Ha' by assumption.
  pose proof (last_cut X k HX a Hf (proj2 (nonempty_edge X k HX a Ha))) as H.
  destruct (cut_gap X k HX (lc a) (uc a)) as (y & Y1 & Y2); [apply lc_ok|apply uc_ok|cord|].
  set (l := last X k a) in *.
  assert (L : forall x, mem a x -> le x l).
  { intros x Hx. apply mem_cut in Hx; auto. unfold le. 
    assert (E : negb (ltb l x) = cltb (pt x) (l, true)) by reflexivity.
    assert (cltb (pt x) (l, true) = true) by cord. destruct (ltb l x); auto. cbn [negb] in E. congruence. }
  split; auto. apply mem_cut; auto.
  assert (P : cltb (pt l) (l, true) = true) by (unfold IntervalFacts.cltb, pt; cbn; rewrite ltb_irrefl with (k:=k); auto).
  split; [|cord]. 
  assert (M : mem a y) by (apply mem_cut; auto). apply L in M. unfold le in M. rewrite pt_ltb in M. cord.
Qed.

(* ---------------------------------------------------------------- inner complement *)
Definition above (a : I) (z : T) : Prop := forall x, mem a x -> lt x z.
Definition below (a : I) (z : T) : Prop := forall x, mem a x -> lt z x.

Lemma above_cut a z : is_empty X k a = false -> (above a z <-> cltb (pt z) (uc a) = false).
Proof.
  intros Ha. split.
  - intros H. destruct (cltb (pt z) (uc a)) eqn:E; auto. exfalso.
    destruct (cltb (pt z) (lc a)) eqn:E2.
    + apply is_empty_false in Ha. destruct Ha as [y Hy0]. specialize (H y Hy0). apply mem_cut in Hy0; auto.
      unfold lt in H; rewrite pt_ltb in H. cord.
    + assert (Hm : mem a z) by (apply mem_cut; auto). specialize (H z Hm).
      unfold lt in H; rewrite ltb_irrefl with (k := k) in H; auto. discriminate.
  - intros E y Hy. apply mem_cut in Hy; auto. unfold lt; rewrite pt_ltb. cord.
Qed.
Lemma below_cut a z : is_empty X k a = false -> (below a z <-> cltb (pt z) (lc a) = true).
Proof.
  intros Ha. split.
  - intros H. destruct (cltb (pt z) (lc a)) eqn:E; auto. exfalso.
    destruct (cltb (pt z) (uc a)) eqn:E2.
    + assert (Hm : mem a z) by (apply mem_cut; auto). specialize (H z Hm).
      unfold lt in H; rewrite ltb_irrefl with (k := k) in H; auto. discriminate.
    + apply is_empty_false in Ha. destruct Ha as [y Hy0]. specialize (H y Hy0). apply mem_cut in Hy0; auto.
      unfold lt in H; rewrite pt_ltb in H. cord.
  - intros E y Hy. apply mem_cut in Hy; auto. unfold lt; rewrite pt_ltb. cord.
Qed.

Definition ic_case (a b : I) : I :=
  match k with
  | RO | LO => construct X k (upper X a) (lower X b)
  | CL => construct X k (next (upper X a)) (prior (lower X b))
  | OP => construct X k (last X k a) (first X k b)
  | DD | DC => right_subtract X k (left_subtract X k (hull X k a b) a) b
  end.

Lemma ic_case_spec a b z : is_empty X k a = false -> is_empty X k b = false ->
  exclusive_less X k a b = true ->
  (mem (ic_case a b) z <-> above a z /\ below b z).
Proof.
  intros Ha Hb H.
  assert (DynCase : forall c, c = right_subtract X k (left_subtract X k (hull X k a b) a) b ->
            (mem c z <-> above a z /\ below b z)).
  { intros c ->. pose proof Ha as Ha0; pose proof Hb as Hb0. apply is_empty_false in Ha0, Hb0.
    rewrite right_subtract_spec by assumption. rewrite left_subtract_spec by assumption.
    unfold above, below. split; [tauto|]. intros [H1 H2]. repeat split; auto.
    apply hull_between. destruct Ha0 as [x Hx], Hb0 as [y Hy]. exists x, y.
    specialize (H1 x Hx). specialize (H2 y Hy). unfold lt, le in *. repeat split; auto; dord. }
  rewrite above_cut, below_cut by assumption.
  assert (Dyn' : forall c, c = right_subtract X k (left_subtract X k (hull X k a b) a) b ->
            (mem c z <-> cltb (pt z) (uc a) = false /\ cltb (pt z) (lc b) = true))
    by (intros c Hc; rewrite (DynCase c Hc), above_cut, below_cut by assumption; reflexivity).
  rewrite exclusive_less_cut in H by assumption.
  assert (El := proj1 (nonempty_edge X k HX b Hb)). assert (Er := proj2 (nonempty_edge X k HX a Ha)).
  pose proof (first_cut X k HX b) as Lf. pose proof (last_cut X k HX a) as Ll.
  assert (S : dynamic k = false -> forall l u,
     (mem (construct X k l u) z <->
      cltb (pt z) (l, negb (bl (static_bounds k))) = false /\ cltb (pt z) (u, br (static_bounds k)) = true)).
  { intros Hdy l u. rewrite mem_cut, static_bl, static_br by assumption. reflexivity. }
  assert (Sa : dynamic k = false -> uc a = (up a, br (static_bounds k)) /\ lc b = (lo b, negb (bl (static_bounds k))))
    by (intros Hdy; rewrite uc_static, lc_static by assumption; auto).
  unfold ic_case. pose proof (disc_kind_disc X k HX) as Hd. unfold disc_kind in Hd.
  destruct k eqn:Ek; try (apply Dyn'; reflexivity);
    rewrite S by reflexivity; destruct (Sa eq_refl) as [Sa1 Sa2]; rewrite Sa1, Sa2 in *;
    unfold upper, lower in *; cbn [static_bounds bl br negb b_right_open b_left_open b_closed b_open] in *.
  - reflexivity.
  - reflexivity.
  - specialize (Hd eq_refl).
    assert (L : ltb (up a) (lo b) = true).
    { unfold IntervalFacts.cltb in H; cbn in H. dord_ X CL HX. }
    destruct (next_ok X CL HX (up a) (lo b) Hd L) as [N1 N2].
    destruct (prior_ok X CL HX (lo b) (up a) Hd L) as [P1 P2].
    unfold IntervalFacts.cltb, pt; cbn.
    destruct (ltb (up a) z) eqn:Z1; destruct (ltb z (lo b)) eqn:Z2;
      try (destruct (next_ok X CL HX (up a) z Hd Z1));
      try (destruct (prior_ok X CL HX (lo b) z Hd Z2)); dord_ X CL HX.
  - specialize (Hd eq_refl). unfold has_first, has_last in *. rewrite Hd in *.
    specialize (Lf eq_refl El). specialize (Ll eq_refl Er).
    rewrite ?Sa1, ?Sa2 in *. clear -Lf Ll HX.
    assert (A1 : cltb (pt z) (last X OP a, true) = cltb (pt z) (up a, false)) by cord_ X OP HX.
    assert (A2 : cltb (pt z) (first X OP b, false) = cltb (pt z) (lo b, true))
      by (unfold IntervalFacts.pt in Lf; cord_ X OP HX).
    rewrite A1, A2. reflexivity.
Qed.

Lemma inner_complement_spec a b z :
  mem (inner_complement X k a b) z <->
  (exists x, mem a x) /\ (exists y, mem b y) /\
  ((above a z /\ below b z) \/ (above b z /\ below a z)).
Proof.
  assert (NE : ~ mem (empty_itv X k) z) by (apply empty_no_point; auto; apply empty_itv_empty; auto).
  assert (F : inner_complement X k a b =
    if is_empty X k a || is_empty X k b then empty_itv X k
    else if exclusive_less X k a b then ic_case a b
    else if exclusive_less X k b a then ic_case b a else empty_itv X k).
  { unfold inner_complement, ic_case. destruct (is_empty X k a || is_empty X k b); auto. case k; reflexivity. }
  rewrite F; clear F.
  destruct (is_empty X k a) eqn:Ea; [|destruct (is_empty X k b) eqn:Eb]; cbn [orb].
  - split; [tauto|]. intros ([x Hx] & _). exfalso; revert Hx; apply empty_no_point; auto.
  - split; [tauto|]. intros (_ & [x Hx] & _). exfalso; revert Hx; apply empty_no_point; auto.
  - pose proof Ea as Ea0; pose proof Eb as Eb0. apply is_empty_false in Ea0, Eb0.
    pose proof Ea as Ca; pose proof Eb as Cb. rewrite is_empty_cut in Ca, Cb by assumption.
    destruct (exclusive_less X k a b) eqn:E1; [|destruct (exclusive_less X k b a) eqn:E2].
    + rewrite ic_case_spec by assumption. split; [tauto|]. intros (_ & _ & [H|[H1 H2]]); auto.
      exfalso. rewrite above_cut in H1 by assumption. rewrite below_cut in H2 by assumption.
      rewrite exclusive_less_cut in E1 by assumption. cord.
    + rewrite ic_case_spec by assumption. split; [tauto|]. intros (_ & _ & [[H1 H2]|H]); auto.
      exfalso. rewrite above_cut in H1 by assumption. rewrite below_cut in H2 by assumption.
      rewrite exclusive_less_cut in E1, E2 by assumption. cord.
    + split; [tauto|]. intros (_ & _ & [[H1 H2]|[H1 H2]]);
        rewrite above_cut in H1 by assumption; rewrite below_cut in H2 by assumption;
        rewrite exclusive_less_cut in E1, E2 by assumption; exfalso; cord.
Qed.

(* ---------------------------------------------------------------- constructors *)
(** room the constructor needs next to the given element *)
Local Notation room_up := (Spec.room_up X k).
Local Notation room_dn := (Spec.room_dn X k).

Lemma hull_points_spec l r x : (dynamic k = false -> disc X = true) ->
  (room_up l) -> (room_up r) -> (room_dn l) -> (room_dn r) ->
  (mem (hull_points X k l r) x <-> (le l x /\ le x r) \/ (le r x /\ le x l)).
Proof.
  intros Hd U1 U2 D1 D2. unfold Spec.room_up, Spec.room_dn in *.
  assert (P : forall a b, ltb b a = false ->
     (exists y, lt b y) -> disc X = true -> ((le a x /\ lt x (next b)) <-> le a x /\ le x b)).
  { intros a b Hab [y Hy] Hdd. unfold le, lt in *.
    destruct (next_ok X k HX b y Hdd Hy) as [N1 N2].
    destruct (ltb b x) eqn:E; [destruct (next_ok X k HX b x Hdd E)|]; dord. }
  assert (Q : forall a b, ltb b a = false ->
     (exists y, lt y a) -> disc X = true -> ((lt (prior a) x /\ le x b) <-> le a x /\ le x b)).
  { intros a b Hab [y Hy] Hdd. unfold le, lt in *.
    destruct (prior_ok X k HX a y Hdd Hy) as [N1 N2].
    destruct (ltb x a) eqn:E; [destruct (prior_ok X k HX a x Hdd E)|]; dord. }
  assert (R : forall a b, ltb b a = false -> (exists y, lt b y) ->
     (exists y, lt y a) -> disc X = true -> ((lt (prior a) x /\ lt x (next b)) <-> le a x /\ le x b)).
  { intros a b Hab HU HD Hdd. specialize (P a b Hab HU Hdd). specialize (Q a b Hab HD Hdd).
    unfold le, lt in *.
    destruct HU as [y Hy], HD as [z Hz].
    destruct (next_ok X k HX b y Hdd Hy) as [N1 N2]. destruct (prior_ok X k HX a z Hdd Hz) as [N3 N4]. dord. }
  assert (Or : (le l x /\ le x r) \/ (le r x /\ le x l) <-> if ltb l r then le l x /\ le x r else le r x /\ le x l).
  { destruct (ltb l r) eqn:E; unfold le; dord. }
  rewrite Or. clear Or.
  assert (E1 : ltb l r = true -> ltb r l = false) by (intros; dord).
  unfold hull_points, construct, constructb, mem.
  destruct (ltb l r) eqn:E; destruct k; cbn; try specialize (Hd eq_refl); auto; try reflexivity.
Qed.

Lemma singleton_is_hull v : singleton X k v = hull_points X k v v.
Proof. unfold singleton, hull_points. rewrite ltb_irrefl with (k:=k) by assumption. case k; reflexivity. Qed.
Lemma unit_trail_singleton v : unit_trail X k v = singleton X k v.
Proof. unfold singleton, unit_trail. case k; reflexivity. Qed.

Lemma singleton_spec v x : (dynamic k = false -> disc X = true) -> room_up v -> room_dn v ->
  (mem (singleton X k v) x <-> x = v).
Proof.
  intros Hd U D. rewrite singleton_is_hull, hull_points_spec by assumption. unfold le. split.
  - intros H. apply (ltb_antisym X k HX); dord.
  - intros ->. rewrite ltb_irrefl with (k:=k) by assumption. auto.
Qed.

Lemma span_spec l r x :
  mem (span X k l r) x <-> mem (construct X k l r) x \/ mem (construct X k r l) x.
Proof.
  pose proof (ltb_swo X k HX) as Hs. clear HX.
  unfold span, construct, mem, le, lt.
  destruct (ltb l r) eqn:E; destruct k; cbn; to_rank (D X) (@ltb X) Hs; lia.
Qed.

(** interval<T>::open/left_open/right_open/closed when interval<T>::type is statically
    bounded: the represented interval has the elements of the declared one. *)
Lemma static_interval_spec decl l u x : dynamic k = false -> disc X = true -> incr X = true ->
  (bl decl = bl (static_bounds k) \/ (if bl decl then exists y, lt y l else exists y, lt l y)) ->
  (br decl = br (static_bounds k) \/ (if br decl then exists y, lt u y else exists y, lt y u)) ->
  (mem (static_interval X k decl l u) x <->
   (if bl decl then le l x else lt l x) /\ (if br decl then le x u else lt x u)).
Proof.
  intros Hdy Hd Hi HL HU.
  rewrite mem_cut by assumption. unfold static_interval. rewrite static_bl, static_br by assumption.
  unfold shift_lower, shift_upper, pred, succ. rewrite Hi.
  unfold IntervalFacts.cltb, pt, le, lt in *. cbn [fst snd].
  assert (L : ((if negb (bl (static_bounds k)) then negb (ltb (fst (
       (if bl decl && negb (bl (static_bounds k)) then prior l
        else if negb (bl decl) && bl (static_bounds k) then next l else l), true)) x)
     else ltb x (if bl decl && negb (bl (static_bounds k)) then prior l
        else if negb (bl decl) && bl (static_bounds k) then next l else l)) = false
     <-> if bl decl then ltb x l = false else ltb l x = true)).
  { cbn [fst]. destruct (bl decl), (bl (static_bounds k)); cbn [negb andb].
    - tauto.
    - destruct HL as [|[y Hy]]; [discriminate|]. destruct (prior_ok X k HX l y Hd Hy).
      destruct (ltb x l) eqn:E; [destruct (prior_ok X k HX l x Hd E)|]; dord.
    - destruct HL as [|[y Hy]]; [discriminate|]. destruct (next_ok X k HX l y Hd Hy).
      destruct (ltb l x) eqn:E; [destruct (next_ok X k HX l x Hd E)|]; dord.
    - rewrite negb_false_iff. tauto. }
  rewrite <- L. clear L.
  assert (R : ((if br (static_bounds k) then negb (ltb (
        if negb (br decl) && br (static_bounds k) then prior u
        else if br decl && negb (br (static_bounds k)) then next u else u) x)
     else ltb x (if negb (br decl) && br (static_bounds k) then prior u
        else if br decl && negb (br (static_bounds k)) then next u else u)) = true
     <-> if br decl then ltb u x = false else ltb x u = true)).
  { destruct (br decl), (br (static_bounds k)); cbn [negb andb].
    - rewrite negb_true_iff. tauto.
    - destruct HU as [|[y Hy]]; [discriminate|]. destruct (next_ok X k HX u y Hd Hy).
      destruct (ltb u x) eqn:E; [destruct (next_ok X k HX u x Hd E)|]; dord.
    - destruct HU as [|[y Hy]]; [discriminate|]. destruct (prior_ok X k HX u y Hd Hy).
      destruct (ltb x u) eqn:E; [destruct (prior_ok X k HX u x Hd E)|]; dord.
    - tauto. }
  rewrite <- R. cbn [fst]. reflexivity.
Qed.

(* ---------------------------------------------------------------- counting *)
(** [sub] is the difference of an order embedding into the integers with a convex image
    (every built-in integer type is such a domain). *)
Local Notation integral := (Spec.integral X).
Local Notation enumerates := (Spec.enumerates X).

Section Count.
Context (phi : T -> Z) (sub : T -> T -> Z) (Hphi : integral phi sub) (Hd : disc X = true).

Lemma phi_inj x y : phi x = phi y -> x = y.
Proof.
  destruct Hphi as (H & _ & _). intros E. apply (ltb_antisym X k HX); rewrite H; lia.
Qed.
Lemma phi_next x y : ltb x y = true -> phi (next x) = (phi x + 1)%Z.
Proof.
  intros H. destruct (next_ok X k HX x y Hd H) as [H1 H2].
  destruct Hphi as (P & _ & Q). rewrite P in *.
  destruct (Q x y (phi x + 1)%Z) as [w Hw]; [lia|].
  assert (L : ltb x w = true) by (rewrite P; lia).
  destruct (next_ok X k HX x w Hd L) as [_ H3]. rewrite P in H3. lia.
Qed.
Lemma phi_prior x y : ltb y x = true -> phi (prior x) = (phi x - 1)%Z.
Proof.
  intros H. destruct (prior_ok X k HX x y Hd H) as [H1 H2].
  destruct Hphi as (P & _ & Q). rewrite P in *.
  destruct (Q y x (phi x - 1)%Z) as [w Hw]; [lia|].
  assert (L : ltb w x = true) by (rewrite P; lia).
  destruct (prior_ok X k HX x w Hd L) as [_ H3]. rewrite P in H3. lia.
Qed.

Lemma enum_range n : forall p, (forall z, (p <= z < p + Z.of_nat n)%Z -> exists w, phi w = z) ->
  exists l, enumerates (fun x => p <= phi x < p + Z.of_nat n)%Z l /\ length l = n.
Proof.
  induction n as [|n IH]; intros p Hp.
  - exists []. split; auto. split; [constructor|]. intros x; cbn; lia.
  - destruct (IH (p + 1)%Z) as (l & [H1 H2] & H3).
    { intros z Hz. apply Hp. lia. }
    destruct (Hp p) as [w Hw]; [lia|].
    exists (w :: l). split; [|cbn; auto]. split.
    + constructor; auto. rewrite H2. lia.
    + intros x. cbn [In]. rewrite H2. split.
      * intros [<-|H]; lia.
      * intros H. destruct (Z.eq_dec (phi x) p) as [E|E]; [left; apply phi_inj; lia|right; lia].
Qed.

Lemma has_first_disc : has_first X k = true.
Proof. unfold has_first. rewrite Hd. case k; auto. Qed.
Lemma has_last_disc : has_last X k = true.
Proof. unfold has_last. rewrite Hd. case k; auto. Qed.

Lemma mem_first_last a x : (exists x, mem a x) ->
  (mem a x <-> phi (first X k a) <= phi x <= phi (last X k a))%Z.
Proof.
  intros Ha. destruct (first_spec a has_first_disc Ha) as [F1 F2].
  destruct (last_spec a has_last_disc Ha) as [L1 L2].
  destruct Hphi as (P & _ & _). split.
  - intros Hx. specialize (F2 x Hx). specialize (L2 x Hx). unfold le in *. rewrite P in *. lia.
  - intros H. apply mem_cut in F1, L1; auto. apply mem_cut; auto.
    assert (ltb x (first X k a) = false) by (rewrite P; lia).
    assert (ltb (last X k a) x = false) by (rewrite P; lia). rewrite pt_ltb in *. cord.
Qed.

Lemma last_next_phi a : (exists x, mem a x) ->
  (open_right k a = false -> exists y, above a y) ->
  phi (last_next X k a) = (phi (last X k a) + 1)%Z.
Proof.
  intros Ha Hroom. pose proof Ha as Ha'. apply is_empty_false in Ha'.
  destruct (nonempty_edge X k HX a Ha') as [_ Er].
  destruct (last_spec a has_last_disc Ha) as [L1 L2].
  assert (C : open_right k a = negb (right_closed X k a)).
  { unfold open_right, right_closed, bounds_of, static_bounds, dynamic. case k; reflexivity. }
  destruct (right_closed X k a) eqn:E.
  - destruct (Hroom C) as [y Hy]. specialize (Hy _ L1). unfold lt in Hy.
    assert (E1 : last X k a = upper X a /\ last_next X k a = next (upper X a)).
    { clear - E. unfold last, last_next. revert E. unfold right_closed, bounds_of, static_bounds, dynamic.
      case k; cbn; intros; try discriminate; auto; rewrite E; auto. }
    destruct E1 as [E1 E2]. rewrite E1 in *. rewrite E2. eapply phi_next; eauto.
  - destruct (Er Hd E) as [y Hy]. unfold lt in Hy.
    assert (E1 : last X k a = prior (upper X a) /\ last_next X k a = upper X a).
    { clear - E. unfold last, last_next. revert E. unfold right_closed, bounds_of, static_bounds, dynamic.
      case k; cbn; intros; try discriminate; auto; rewrite E; auto. }
    destruct E1 as [E1 E2]. rewrite E1, E2. unfold upper. pose proof (phi_prior (up a) y Hy). lia.
Qed.

Lemma cardinality_unfold a : k <> DC ->
  cardinality X k sub a = if is_empty X k a then Fin 0 else Fin (sub (last_next X k a) (first X k a)).
Proof. unfold cardinality. rewrite Hd. case k; congruence. Qed.
Lemma length_unfold a : k <> DC ->
  length_ X k sub a = if is_empty X k a then 0%Z else sub (last_next X k a) (first X k a).
Proof. unfold length_. rewrite Hd. case k; congruence. Qed.
Lemma disc_not_DC : k <> DC.
Proof. intros E. pose proof (dc_disc X k HX E). congruence. Qed.

Lemma cardinality_spec a : (open_right k a = false -> exists y, above a y) ->
  exists l, enumerates (mem a) l /\ cardinality X k sub a = Fin (Z.of_nat (length l)) /\
            length_ X k sub a = Z.of_nat (length l).
Proof.
  intros Hroom. rewrite cardinality_unfold, length_unfold by apply disc_not_DC.
  destruct (is_empty X k a) eqn:E.
  - exists []. split; [|split; reflexivity]. split; [constructor|]. intros x. split; [intros []|].
    intros H; exfalso; revert H; apply empty_no_point; auto.
  - apply is_empty_false in E.
    destruct (first_spec a has_first_disc E) as [F1 F2].
    destruct (last_spec a has_last_disc E) as [L1 L2].
    pose proof (last_next_phi a E Hroom) as Hn.
    destruct Hphi as (P & S & Q).
    specialize (F2 _ L1). unfold le in F2. rewrite P in F2.
    destruct (enum_range (Z.to_nat (phi (last_next X k a) - phi (first X k a))) (phi (first X k a)))
      as (l & [H1 H2] & H3).
    { intros z Hz. apply (Q (first X k a) (last X k a)). lia. }
    exists l. rewrite S, H3. rewrite Z2Nat.id by lia. split; [|split; reflexivity].
    split; auto. intros x. rewrite H2, mem_first_last by assumption. lia.
Qed.

Lemma distance_spec a b :
  exists l, enumerates (mem (inner_complement X k a b)) l /\ distance X k sub a b = Z.of_nat (length l).
Proof.
  destruct (is_empty X k a) eqn:Ea; [|destruct (is_empty X k b) eqn:Eb].
  1,2: exists []; split; [split; [constructor|]; intros x; split; [intros []|];
      rewrite inner_complement_spec; intros ([u Hu] & [v Hv] & _); exfalso;
      first [revert Hu; apply empty_no_point; solve [auto] | revert Hv; apply empty_no_point; solve [auto]]
    | unfold distance; rewrite Ea, ?Eb; reflexivity].
  pose proof Ea as Ea0; pose proof Eb as Eb0. apply is_empty_false in Ea0, Eb0.
  assert (G : forall a b, (exists x, mem a x) -> (exists x, mem b x) ->
     ltb (last X k a) (first X k b) = true ->
     exists l, enumerates (fun z => above a z /\ below b z) l /\
       (sub (first X k b) (last X k a) - 1)%Z = Z.of_nat (length l)).
  { clear - HX Hphi Hd. intros a b Ha Hb Hlt.
    destruct (first_spec b has_first_disc Hb) as [F1 F2].
    destruct (last_spec a has_last_disc Ha) as [L1 L2].
    destruct Hphi as (P & S & Q). rewrite P in Hlt.
    destruct (enum_range (Z.to_nat (phi (first X k b) - phi (last X k a) - 1)) (phi (last X k a) + 1)%Z)
      as (l & [H1 H2] & H3).
    { intros z Hz. apply (Q (last X k a) (first X k b)). lia. }
    exists l. rewrite S, H3. rewrite Z2Nat.id by lia. split; [|lia]. split; auto.
    intros x. rewrite H2. rewrite Z2Nat.id by lia. split.
    - intros H. split.
      + intros y Hy. specialize (L2 y Hy). unfold le, lt in *. rewrite P in *. lia.
      + intros y Hy. specialize (F2 y Hy). unfold le, lt in *. rewrite P in *. lia.
    - intros [A B]. specialize (A _ L1). specialize (B _ F1). unfold lt in *. rewrite P in *. lia. }
  unfold distance. rewrite Ea, Eb. cbn [orb].
  destruct (first_spec b has_first_disc Eb0) as [Fb1 Fb2].
  destruct (last_spec a has_last_disc Ea0) as [La1 La2].
  destruct (first_spec a has_first_disc Ea0) as [Fa1 Fa2].
  destruct (last_spec b has_last_disc Eb0) as [Lb1 Lb2].
  destruct (ltb (last X k a) (first X k b)) eqn:C1; [|destruct (ltb (last X k b) (first X k a)) eqn:C2].
  - destruct (G a b Ea0 Eb0 C1) as (l & [N H] & E). exists l. split; auto. split; auto.
    intros x. rewrite H, inner_complement_spec. split; [tauto|].
    intros (_ & _ & [K|[K1 K2]]); auto. exfalso.
    specialize (K1 _ Fb1). specialize (K2 _ La1). unfold lt in *. dord.
  - destruct (G b a Eb0 Ea0 C2) as (l & [N H] & E). exists l. split; auto. split; auto.
    intros x. rewrite H, inner_complement_spec. split; [tauto|].
    intros (_ & _ & [[K1 K2]|K]); auto. exfalso.
    specialize (K1 _ La1). specialize (K2 _ Fb1). unfold lt in *. dord.
  - exists []. split; auto. split; [constructor|]. intros x. split; [intros []|].
    rewrite inner_complement_spec. intros (_ & _ & [[K1 K2]|[K1 K2]]).
    + specialize (K1 _ La1). specialize (K2 _ Fb1). unfold lt in *. dord.
    + specialize (K1 _ Lb1). specialize (K2 _ Fa1). unfold lt in *. dord.
Qed.
End Count.
End Props.

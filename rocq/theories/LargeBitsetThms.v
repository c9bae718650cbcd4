(** mini::large_bitset represents a set of numbers. *)
From Verif Require Import MapReach MapThms MapThms2 MapThms3 MapThms4 IntervalProps IntervalFacts SetSpec LargeBitsetSpec LargeBitsetModel.
From Verif Require Import MapModel.
From Coq Require Import ZArith Lia Eqdep_dec.
Open Scope Z_scope.

(* ------------------------------------------------------------ the domain *)
Section Domain.
Context (w : N).
Notation m := (2 ^ Z.of_N w).
Lemma m_pos : 0 < m. Proof. apply Z.pow_pos_nonneg; lia. Qed.
Lemma uw_ext (x y : uwt w) : uz x = uz y -> x = y.
Proof. destruct x as [x Hx], y as [y Hy]; cbn. intros ->. f_equal. apply UIP_dec. apply bool_dec. Qed.
Lemma uw_range (x : uwt w) : 0 <= uz x < m.
Proof. destruct x as [x Hx]; cbn. lia. Qed.
Lemma uz_uof z : 0 <= z < m -> uz (uof w z) = z.
Proof. intros H. cbn. apply Z.mod_small. exact H. Qed.
Lemma udom_ok : dom_ok (udom w) DD.
Proof.
  assert (S : strict_total (udom w)).
  { split; [|split]; cbn; intros; try lia.
    destruct (Z.lt_trichotomy (uz x) (uz y)) as [|[|]]; [left;lia|right; left; apply uw_ext; lia|right; right; lia]. }
  assert (N : discrete_ok (udom w)).
  { split; intros x y; pose proof (uw_range x); pose proof (uw_range y); unfold ltb, next, prior; cbn [udom]; intros Hlt;
      rewrite uz_uof by lia; lia. }
  split; [exact S|]. split; [intros; exact N|]. reflexivity.
Qed.
Lemma uw_le (x y : uwt w) : @le (udom w) x y <-> uz x <= uz y.
Proof. unfold le. cbn. rewrite Z.ltb_ge. reflexivity. Qed.
Lemma uw_lt (x y : uwt w) : @lt (udom w) x y <-> uz x < uz y.
Proof. unfold lt. cbn. apply Z.ltb_lt. Qed.
(** the elements of a nonempty interval *)
Lemma between a x : is_empty (udom w) DD a = false ->
  (mem (udom w) DD a x <-> uz (first (udom w) DD a) <= uz x <= uz (last (udom w) DD a)).
Proof.
  intros E. pose proof (proj1 (is_empty_false (udom w) DD udom_ok a) E) as Ne.
  destruct (first_spec (udom w) DD udom_ok a eq_refl Ne) as [F1 F2].
  destruct (last_spec (udom w) DD udom_ok a eq_refl Ne) as [L1 L2].
  split.
  - intros H. split; [apply uw_le, F2, H|apply uw_le, L2, H].
  - intros [H1 H2]. unfold mem in *. destruct F1 as [F1 _], L1 as [_ L1]. split.
    + destruct (bl (bd a)); [apply uw_le in F1; apply uw_le; lia|apply uw_lt in F1; apply uw_lt; lia].
    + destruct (br (bd a)); [apply uw_le in L1; apply uw_le; lia|apply uw_lt in L1; apply uw_lt; lia].
Qed.
Lemma first_last a : is_empty (udom w) DD a = false -> uz (first (udom w) DD a) <= uz (last (udom w) DD a).
Proof.
  intros E. pose proof (proj1 (is_empty_false (udom w) DD udom_ok a) E) as [x Hx]. apply between in Hx; auto. lia.
Qed.
Lemma mem_ro (lo up x : uwt w) : mem (udom w) DD (ro w lo up) x <-> uz lo <= uz x < uz up.
Proof. unfold ro, mem. cbn. unfold le, lt; cbn. rewrite Z.ltb_ge, Z.ltb_lt. reflexivity. Qed.
End Domain.

Lemma log_log2 p : log_ p = Z.log2 (Z.pos p).
Proof.
  assert (H : forall p, log_ p + 1 = Z.pos (Pos.size p)).
  { intros r; induction r as [q IH|q IH|]; cbn [log_ Pos.size]; rewrite ?Pos2Z.inj_succ; lia. }
  destruct p as [q|q|]; cbn [log_]; auto; specialize (H q); cbn [Z.log2]; lia.
Qed.

(* ------------------------------------------------------------ words *)
Section Words.
Context (w : N) (digits : positive).
Notation d := (Z.pos digits).
Notation m := (2 ^ Z.of_N w).
Notation X := (udom w).
Notation B := (bits digits).
Notation imap := (tree (uwt w) (C B)).

Lemma W_pos : 0 < 2 ^ d. Proof. apply Z.pow_pos_nonneg; lia. Qed.
Lemma d_lt : d < 2 ^ d. Proof. apply Z.pow_gt_lin_r; lia. Qed.
Lemma word_range z : 0 <= word digits z < 2 ^ d.
Proof. unfold word. apply Z.mod_pos_bound. apply W_pos. Qed.
Lemma word_small z : 0 <= z < 2 ^ d -> word digits z = z.
Proof. intros H. apply Z.mod_small. exact H. Qed.
Lemma word_bit z b : 0 <= b < d -> Z.testbit (word digits z) b = Z.testbit z b.
Proof. intros H. unfold word. apply Z.mod_pow2_bits_low. lia. Qed.
Lemma pow_small b : 0 <= b < d -> 0 < 2 ^ b < 2 ^ d.
Proof. intros H. split; [apply Z.pow_pos_nonneg; lia|apply Z.pow_lt_mono_r; lia]. Qed.

Lemma contains_bit v b : 0 <= b < d -> bits_contains digits v b = Z.testbit v b.
Proof.
  intros H. unfold bits_contains. rewrite Z.shiftl_1_l. pose proof (pow_small b H). rewrite word_small by lia.
  destruct (Z.testbit v b) eqn:E.
  - apply negb_true_iff. apply Z.eqb_neq. intros Q. assert (T : Z.testbit (Z.land (2 ^ b) v) b = true).
    { rewrite Z.land_spec, E, Z.pow2_bits_true by lia. reflexivity. }
    rewrite Q, Z.bits_0 in T. discriminate.
  - apply negb_false_iff. apply Z.eqb_eq. apply Z.bits_inj'. intros i Hi. rewrite Z.land_spec, Z.bits_0.
    rewrite Z.pow2_bits_eqb by lia. destruct (b =? i) eqn:Q; auto. apply Z.eqb_eq in Q. subst. rewrite E. reflexivity.
Qed.

Lemma all_ones : all_ digits = Z.ones d.
Proof.
  unfold all_, word. rewrite Z.ones_equiv. replace (Z.lnot 0) with (-1) by reflexivity.
  pose proof W_pos. rewrite <- (Z.mod_add (-1) 1 (2 ^ d)) by lia. rewrite Z.mod_small by lia. lia.
Qed.
Lemma all_bit b : 0 <= b < d -> Z.testbit (all_ digits) b = true.
Proof. intros H. rewrite all_ones. apply Z.ones_spec_low. lia. Qed.
Lemma all_range : 0 < all_ digits < 2 ^ d.
Proof. rewrite all_ones, Z.ones_equiv. pose proof W_pos. pose proof d_lt. lia. Qed.

Lemma lower_bit r b : 0 <= r < d -> 0 <= b < d -> Z.testbit (from_lower_to digits r) b = (b <=? r).
Proof.
  intros Hr Hb. unfold from_lower_to, last_. destruct (r =? d - 1) eqn:E.
  - apply Z.eqb_eq in E. rewrite all_bit by auto. symmetry. apply Z.leb_le. lia.
  - apply Z.eqb_neq in E. rewrite word_bit by auto. rewrite Z.shiftl_1_l. rewrite (word_small (2 ^ (r + 1))).
    2:{ pose proof (pow_small (r + 1)). lia. }
    replace (2 ^ (r + 1) - 1) with (Z.ones (r + 1)) by (rewrite Z.ones_equiv; lia).
    destruct (Z.leb_spec b r); [apply Z.ones_spec_low; lia|apply Z.ones_spec_high; lia].
Qed.
Lemma upper_bit r b : 0 <= r < d -> 0 <= b < d -> Z.testbit (to_upper_from digits r) b = (r <=? b).
Proof.
  intros Hr Hb. unfold to_upper_from, last_, top. destruct (r =? d - 1) eqn:E.
  - apply Z.eqb_eq in E. rewrite word_bit by auto. rewrite Z.shiftl_1_l, Z.pow2_bits_eqb by lia.
    destruct (Z.leb_spec r b); [apply Z.eqb_eq; lia|apply Z.eqb_neq; lia].
  - apply Z.eqb_neq in E. rewrite word_bit by auto. rewrite Z.lnot_spec by lia. rewrite word_bit by auto.
    rewrite Z.shiftl_1_l. rewrite (word_small (2 ^ r)). 2:{ pose proof (pow_small r). lia. }
    replace (2 ^ r - 1) with (Z.ones r) by (rewrite Z.ones_equiv; lia).
    destruct (Z.leb_spec r b); [rewrite Z.ones_spec_high by lia; reflexivity|rewrite Z.ones_spec_low by lia; reflexivity].
Qed.
Lemma lower_range r : 0 <= from_lower_to digits r < 2 ^ d.
Proof. unfold from_lower_to. destruct (_ =? _); [pose proof all_range; lia|apply word_range]. Qed.
Lemma upper_range r : 0 <= to_upper_from digits r < 2 ^ d.
Proof. unfold to_upper_from. destruct (_ =? _); apply word_range. Qed.

Lemma small_bits v : 0 <= v -> (v < 2 ^ d <-> forall b, d <= b -> Z.testbit v b = false).
Proof.
  intros H. split.
  - intros L b Hb. destruct (Z.eq_dec v 0) as [->|]; [apply Z.bits_0|]. apply Z.bits_above_log2; [lia|].
    apply Z.log2_lt_pow2 in L; lia.
  - intros Q. destruct (Z.lt_ge_cases v (2 ^ d)) as [|G]; auto. exfalso.
    assert (v <> 0) by (pose proof W_pos; lia). pose proof (Z.bit_log2 v ltac:(lia)) as T.
    rewrite Q in T; [discriminate|]. apply Z.log2_le_pow2 in G; lia.
Qed.
Lemma small_land u v : 0 <= u < 2 ^ d -> 0 <= v -> 0 <= Z.land u v < 2 ^ d.
Proof.
  intros Hu Hv. assert (0 <= Z.land u v) by (apply Z.land_nonneg; lia). split; auto. apply small_bits; auto.
  intros b Hb. rewrite Z.land_spec, (proj1 (small_bits u ltac:(lia))) by lia. reflexivity.
Qed.
Lemma small_lor u v : 0 <= u < 2 ^ d -> 0 <= v < 2 ^ d -> 0 <= Z.lor u v < 2 ^ d.
Proof.
  intros Hu Hv. assert (0 <= Z.lor u v) by (apply Z.lor_nonneg; lia). split; auto. apply small_bits; auto.
  intros b Hb. rewrite Z.lor_spec, (proj1 (small_bits u ltac:(lia))), (proj1 (small_bits v ltac:(lia))) by lia. reflexivity.
Qed.
Lemma small_lxor u v : 0 <= u < 2 ^ d -> 0 <= v < 2 ^ d -> 0 <= Z.lxor u v < 2 ^ d.
Proof.
  intros Hu Hv. assert (0 <= Z.lxor u v) by (apply Z.lxor_nonneg; lia). split; auto. apply small_bits; auto.
  intros b Hb. rewrite Z.lxor_spec, (proj1 (small_bits u ltac:(lia))), (proj1 (small_bits v ltac:(lia))) by lia. reflexivity.
Qed.
Lemma small_eq u v : 0 <= u < 2 ^ d -> 0 <= v < 2 ^ d -> (forall b, 0 <= b < d -> Z.testbit u b = Z.testbit v b) -> u = v.
Proof.
  intros Hu Hv H. apply Z.bits_inj'. intros b Hb. destruct (Z.lt_ge_cases b d); [apply H; lia|].
  rewrite (proj1 (small_bits u ltac:(lia))), (proj1 (small_bits v ltac:(lia))) by lia. reflexivity.
Qed.

(* ------------------------------------------------------------ the operations on one word *)
Lemma B_ok : eq_ok B. Proof. intros u v. apply Z.eqb_eq. Qed.
Lemma B_prop : proper B bp.
Proof. unfold proper, neutral_ok, first_ok. split; [|split; [|split]]; cbn; auto; discriminate. Qed.
Lemma B_minus : mp_combine bp <> F_minus. Proof. discriminate. Qed.

Definition obit (o : option Z) (b : Z) : bool := match o with Some v => Z.testbit v b | None => false end.
Definition okv (o : option Z) : Prop := match o with Some v => 0 < v < 2 ^ d | None => True end.

Lemma absorbed_eq (v : Z) : absorbed B bp v = (v =? 0). Proof. reflexivity. Qed.
Lemma sub_eq (v : Z) o : sub_val B bp v o = if absorbed B bp v then o else match o with Some u => store B bp (Z.land u (word digits (Z.lnot v))) | None => None end.
Proof. reflexivity. Qed.
Lemma store_bit v b : obit (store B bp v) b = Z.testbit v b.
Proof.
  unfold store, absorbed. cbn. destruct (v =? 0) eqn:E; auto. apply Z.eqb_eq in E. subst. cbn. symmetry. apply Z.bits_0.
Qed.
Lemma store_ok v : 0 <= v < 2 ^ d -> okv (store B bp v).
Proof. intros H. unfold store, absorbed. cbn. destruct (v =? 0) eqn:E; cbn; auto. apply Z.eqb_neq in E. lia. Qed.

Lemma add_bit v o b : obit (add_val B bp v o) b = Z.testbit v b || obit o b.
Proof.
  rewrite (add_plain B bp v o B_minus). destruct o as [u|].
  - rewrite absorbed_eq. destruct (v =? 0) eqn:E.
    + apply Z.eqb_eq in E. subst. cbn [obit]. rewrite Z.bits_0. reflexivity.
    + rewrite store_bit. cbn. rewrite Z.lor_spec. apply orb_comm.
  - rewrite store_bit. cbn. rewrite orb_false_r. reflexivity.
Qed.
Lemma add_okv v o : 0 <= v < 2 ^ d -> okv o -> okv (add_val B bp v o).
Proof.
  intros Hv Ho. rewrite (add_plain B bp v o B_minus). destruct o as [u|]; [|apply store_ok; auto].
  destruct (absorbed B bp v); auto. apply store_ok. cbn. cbn in Ho. apply small_lor; lia.
Qed.
Lemma sub_bit v o b : 0 <= b < d -> obit (sub_val B bp v o) b = negb (Z.testbit v b) && obit o b.
Proof.
  intros Hb. rewrite sub_eq, absorbed_eq. destruct (v =? 0) eqn:E.
  - apply Z.eqb_eq in E. subst. rewrite Z.bits_0. reflexivity.
  - destruct o as [u|]; [|cbn; rewrite andb_false_r; reflexivity].
    rewrite store_bit. cbn. rewrite Z.land_spec, word_bit, Z.lnot_spec by lia. apply andb_comm.
Qed.
Lemma sub_okv v o : okv o -> okv (sub_val B bp v o).
Proof.
  intros Ho. rewrite sub_eq. destruct (absorbed _ _ v); auto. destruct o as [u|]; [|exact I].
  apply store_ok. cbn. cbn in Ho. apply small_land; [lia|]. apply word_range.
Qed.
Lemma flip_bit v o b : obit (flip_val B bp v o) b = xorb (Z.testbit v b) (obit o b).
Proof.
  rewrite (flip_plain_eq B bp v o B_minus). unfold flip_plain. destruct o as [u|].
  - rewrite store_bit. cbn. rewrite Z.lxor_spec. reflexivity.
  - rewrite store_bit. cbn. rewrite xorb_false_r. reflexivity.
Qed.
Lemma flip_okv v o : 0 <= v < 2 ^ d -> okv o -> okv (flip_val B bp v o).
Proof.
  intros Hv Ho. rewrite (flip_plain_eq B bp v o B_minus). unfold flip_plain. destruct o as [u|].
  - apply store_ok. cbn. cbn in Ho. apply small_lxor; lia.
  - apply store_ok; auto.
Qed.
Lemma and_bit v o b : v <> 0 -> obit (and_plain B bp v o) b = Z.testbit v b && obit o b.
Proof.
  intros Hv. unfold and_plain. destruct o as [u|]; [|cbn; rewrite andb_false_r; reflexivity].
  rewrite absorbed_eq. destruct (v =? 0) eqn:E. { apply Z.eqb_eq in E. congruence. }
  rewrite store_bit. cbn. rewrite Z.land_spec. apply andb_comm.
Qed.
Lemma and_okv v o : v <> 0 -> 0 <= v -> okv o -> okv (and_plain B bp v o).
Proof.
  intros Hv Hn Ho. unfold and_plain. destruct o as [u|]; [|exact I].
  rewrite absorbed_eq. destruct (v =? 0) eqn:E. { exact Ho. }
  apply store_ok. cbn. cbn in Ho. apply small_land; lia.
Qed.
End Words.

(* ------------------------------------------------------------ chunks *)
Section Chunks.
Context (w : N) (digits : positive) (Hs : sizes_ok w digits).
Notation d := (Z.pos digits).
Notation m := (2 ^ Z.of_N w).
Notation X := (udom w).
Notation B := (bits digits).
Notation imap := (tree (uwt w) (C B)).
Notation at_ := (MapSpec.at_ X DD B).
Notation M := (BM digits).
(** number of chunks *)
Definition q : Z := m / d.

Lemma sizes : 2 <= d /\ q * d = m /\ 0 < q /\ q * 2 <= m /\ shift_ digits = Z.log2 d /\ 2 ^ Z.log2 d = d.
Proof.
  destruct Hs as (s & S1 & S2). assert (P : 0 < 2 ^ (s - 1)) by (apply Z.pow_pos_nonneg; lia).
  assert (E : d = 2 * 2 ^ (s - 1)). { rewrite S2. replace s with (Z.succ (s - 1)) at 1 by lia. apply Z.pow_succ_r. lia. }
  assert (F : 2 ^ (Z.of_N w - s) * d = m). { rewrite S2, <- Z.pow_add_r by lia. f_equal. lia. }
  assert (Q : q = 2 ^ (Z.of_N w - s)). { unfold q. rewrite <- F. apply Z.div_mul. lia. }
  assert (0 < 2 ^ (Z.of_N w - s)) by (apply Z.pow_pos_nonneg; lia).
  unfold shift_. rewrite log_log2. rewrite Q. repeat split; try lia; try nia.
  rewrite S2 at 1. rewrite Z.log2_pow2 by lia. auto.
Qed.
Lemma shift_div x : 0 <= x -> Z.shiftr x (shift_ digits) = x / d.
Proof. intros H. destruct sizes as (_ & _ & _ & _ & -> & E). rewrite Z.shiftr_div_pow2 by apply Z.log2_nonneg. rewrite E. reflexivity. Qed.
Lemma mask_mod x : 0 <= x -> word digits (Z.land x (mask digits)) = x mod d.
Proof.
  intros H. destruct sizes as (_ & _ & _ & _ & _ & E). unfold mask. replace (d - 1) with (Z.ones (Z.log2 d)) by (rewrite Z.ones_equiv; lia).
  rewrite Z.land_ones by apply Z.log2_nonneg. rewrite E. apply word_small.
  pose proof (Z.mod_pos_bound x d ltac:(lia)). pose proof (d_lt digits). lia.
Qed.
Lemma chunk_lt (x : uwt w) : 0 <= uz x / d < q.
Proof.
  destruct sizes as (D & Q & _). pose proof (uw_range w x). split; [apply Z.div_pos; lia|]. apply Z.div_lt_upper_bound; lia.
Qed.
Lemma q_lt : q < m. Proof. destruct sizes as (_ & _ & ? & ? & _). lia. Qed.

Definition linv (t : imap) : Prop :=
  mreach X DD B bp t /\ forall c v, at_ t c = Some v -> 0 < v < 2 ^ d /\ uz c < q.
Definition bit (t : imap) (c : uwt w) (b : Z) : bool := obit (at_ t c) b.
Lemma linv_okv t c : linv t -> okv digits (at_ t c).
Proof. intros [_ H]. specialize (H c). destruct (at_ t c) as [v|]; cbn; auto. apply H; auto. Qed.

Lemma has_bit t n : has w digits t n = bit t (uof w (uz n / d)) (uz n mod d).
Proof.
  unfold has, bit. destruct (MapSpec.at_ X DD B t (uof w (uz n / d))); auto. apply contains_bit. apply Z.mod_pos_bound. lia.
Qed.

(** what one call of a combiner does *)
Definition acts (comb : imap -> uwt w -> uwt w -> Z -> res imap) (f : bool -> bool -> bool) : Prop :=
  forall t lo up v, linv t -> uz lo < uz up -> uz up <= q -> 0 <= v < 2 ^ d ->
  exists t', comb t lo up v = Ok t' /\ linv t' /\
    forall c b, 0 <= b < d -> bit t' c b = if (uz lo <=? uz c) && (uz c <? uz up) then f (Z.testbit v b) (bit t c b) else bit t c b.

Lemma changed_acts (t t' : imap) lo up v g f : linv t -> uz up <= q -> mreach X DD B bp t' ->
  changed X DD B t t' (mem X DD (ro w lo up)) g -> (forall o, okv digits o -> okv digits (g o)) ->
  (forall o b, 0 <= b < d -> obit (g o) b = f (Z.testbit v b) (obit o b)) ->
  linv t' /\ forall c b, 0 <= b < d -> bit t' c b = if (uz lo <=? uz c) && (uz c <? uz up) then f (Z.testbit v b) (bit t c b) else bit t c b.
Proof.
  intros L U R Q G F. split.
  - split; auto. intros c u E. destruct (Q c) as [Q1 Q2].
    destruct ((uz lo <=? uz c) && (uz c <? uz up)) eqn:In.
    + rewrite Q1 in E by (apply mem_ro; lia). pose proof (G (at_ t c) (linv_okv t c L)) as O. rewrite E in O. split; [exact O|lia].
    + rewrite Q2 in E by (rewrite mem_ro; lia). destruct L as [_ L]. exact (L c u E).
  - intros c b Hb. unfold bit. destruct (Q c) as [Q1 Q2].
    destruct ((uz lo <=? uz c) && (uz c <? uz up)) eqn:In.
    + rewrite Q1 by (apply mem_ro; lia). apply F; auto.
    + rewrite Q2 by (rewrite mem_ro; lia). reflexivity.
Qed.

Lemma add_acts : acts (add_ w digits) orb.
Proof.
  intros t lo up v L _ U V. destruct (thm_madd X DD (udom_ok w) B (B_ok digits) bp t (proj1 L) (ro w lo up) v) as (t' & E & Q).
  exists t'. split; [exact E|]. eapply changed_acts; eauto.
  - exact (M_add X DD B bp t _ _ t' (proj1 L) E).
  - intros o O. apply add_okv; auto.
  - intros o b Hb. apply add_bit.
Qed.
Lemma subtract_acts : acts (subtract_ w digits) (fun x y => negb x && y).
Proof.
  intros t lo up v L _ U V. destruct (thm_msub X DD (udom_ok w) B (B_ok digits) bp t (proj1 L) (ro w lo up) v) as (t' & E & Q).
  exists t'. split; [exact E|]. apply (changed_acts t t' lo up v (sub_val B bp v) (fun x y => negb x && y)); auto.
  - exact (M_subtract X DD B bp t _ _ t' (proj1 L) E).
  - intros o O. apply sub_okv; auto.
  - intros o b Hb. apply sub_bit; auto.
Qed.
Lemma flip_acts : acts (flip_ w digits) xorb.
Proof.
  intros t lo up v L Lt U V. destruct (thm_mflip X DD (udom_ok w) B (B_ok digits) bp t (proj1 L) (ro w lo up) v eq_refl (B_prop digits)) as (t' & E & Q).
  { exists lo. apply mem_ro. lia. }
  exists t'. split; [exact E|]. apply (changed_acts t t' lo up v (flip_val B bp v) xorb); auto.
  - exact (M_flip X DD B bp t _ _ t' (proj1 L) E).
  - intros o O. apply flip_okv; auto.
  - intros o b Hb. apply flip_bit; auto.
Qed.
Lemma intersect_acts (t : imap) lo up v : linv t -> 0 < v < 2 ^ d ->
  exists t', intersect_ w digits t lo up v = Ok t' /\ linv t' /\
    forall c b, 0 <= b < d -> bit t' c b = if (uz lo <=? uz c) && (uz c <? uz up) then Z.testbit v b && bit t c b else false.
Proof.
  intros L V. destruct (thm_mand_seg X DD (udom_ok w) B (B_ok digits) bp t (proj1 L) (ro w lo up) v eq_refl) as (t' & E & Q).
  assert (Q' : forall x, at_ t' x = if (uz lo <=? uz x) && (uz x <? uz up) then and_plain B bp v (at_ t x) else None).
  { intros x. destruct (Q x) as [Q1 Q2]. destruct ((uz lo <=? uz x) && (uz x <? uz up)) eqn:In.
    - rewrite Q1 by (apply mem_ro; lia). apply (and_plain_eq X DD (udom_ok w) B (B_ok digits)); [apply B_minus|apply B_prop|exact (proj1 L)].
    - apply Q2. rewrite mem_ro. lia. }
  exists t'. split; [exact E|]. split.
  - split. { exact (M_isec_seg X DD B bp t_empty t _ _ t' (M_clear X DD B bp) (proj1 L) E). }
    intros c u Eu. rewrite Q' in Eu. destruct ((uz lo <=? uz c) && (uz c <? uz up)); [|discriminate].
    pose proof (and_okv digits v (at_ t c) ltac:(lia) ltac:(lia) (linv_okv t c L)) as O. rewrite Eu in O. split; [exact O|].
    unfold and_plain in Eu. destruct (MapSpec.at_ X DD B t c) as [u'|] eqn:Et; [|discriminate]. destruct L as [_ L]. exact (proj2 (L c u' Et)).
  - intros c b Hb. unfold bit. rewrite Q'. destruct ((uz lo <=? uz c) && (uz c <? uz up)); auto. apply and_bit. lia.
Qed.

(* ------------------------------------------------------------ segment_apply *)
Section Apply.
Context (comb : imap -> uwt w -> uwt w -> Z -> res imap) (f : bool -> bool -> bool).
Context (A : acts comb f) (F0 : forall x, f false x = x).

Lemma apply_spec t a : linv t -> exists t', segment_apply w digits comb t a = Ok t' /\ linv t' /\
  forall n, (mem X DD a n -> has w digits t' n = f true (has w digits t n)) /\ (~ mem X DD a n -> has w digits t' n = has w digits t n).
Proof.
  intros L. unfold segment_apply. destruct (is_empty X DD a) eqn:Em.
  { exists t. split; auto. split; auto. intros n. split; auto. intros H. exfalso. apply (proj1 (is_empty_spec X DD (udom_ok w) a) Em n H). }
  pose proof (first_last w a Em) as FL. pose proof (fun x => between w a x Em) as Bw.
  set (x := first X DD a) in *. set (y := last X DD a) in *.
  pose proof (uw_range w x) as Rx. pose proof (uw_range w y) as Ry. pose proof (chunk_lt x) as Cx. pose proof (chunk_lt y) as Cy.
  pose proof q_lt as QL. destruct sizes as (D2 & QD & Q0 & Q2 & _).
  rewrite !shift_div, !mask_mod by lia.
  pose proof (Z.mod_pos_bound (uz x) d ltac:(lia)) as Mx. pose proof (Z.mod_pos_bound (uz y) d ltac:(lia)) as My.
  pose proof (Z.div_mod (uz x) d ltac:(lia)) as Dx. pose proof (Z.div_mod (uz y) d ltac:(lia)) as Dy.
  rewrite !(uz_uof w (uz x / d)), !(uz_uof w (uz y / d)) by lia.
  assert (Cut : forall n, mem X DD a n <-> uz x <= d * (uz n / d) + uz n mod d <= uz y).
  { intros n. rewrite Bw. rewrite <- Z.div_mod by lia. reflexivity. }
  assert (Mono : uz x / d <= uz y / d) by (apply Z.div_le_mono; lia).
  set (cx := uz x / d) in *. set (cy := uz y / d) in *. set (rx := uz x mod d) in *. set (ry := uz y mod d) in *.
  assert (Fin : forall t', linv t' -> (forall c b, 0 <= c < q -> 0 <= b < d ->
              bit t' (uof w c) b = f ((uz x <=? d * c + b) && (d * c + b <=? uz y)) (bit t (uof w c) b)) ->
            linv t' /\ forall n, (mem X DD a n -> has w digits t' n = f true (has w digits t n)) /\ (~ mem X DD a n -> has w digits t' n = has w digits t n)).
  { intros t' L' Q. split; auto. intros n. rewrite !has_bit. pose proof (chunk_lt n). pose proof (Z.mod_pos_bound (uz n) d ltac:(lia)).
    rewrite (Q (uz n / d) (uz n mod d)) by lia. rewrite Cut. split.
    - intros K. replace ((uz x <=? d * (uz n / d) + uz n mod d) && (d * (uz n / d) + uz n mod d <=? uz y)) with true; auto. symmetry. apply andb_true_iff. lia.
    - intros K. replace ((uz x <=? d * (uz n / d) + uz n mod d) && (d * (uz n / d) + uz n mod d <=? uz y)) with false; auto. symmetry. apply andb_false_iff. lia. }
  destruct (cx =? cy) eqn:Eq.
  - apply Z.eqb_eq in Eq.
    destruct (A t (uof w cx) (uof w (cx + 1)) (Z.land (to_upper_from digits rx) (from_lower_to digits ry)) L) as (t' & E & L' & Q).
    + rewrite !uz_uof by lia. lia.
    + rewrite uz_uof by lia. lia.
    + apply small_land; [apply upper_range|apply lower_range].
    + exists t'. split; auto. apply Fin; auto. intros c b Hc Hb. rewrite Q by auto. rewrite !uz_uof by lia.
      rewrite Z.land_spec, upper_bit, lower_bit by lia.
      destruct (Z.eq_dec c cx) as [->|N].
      * replace ((cx <=? cx) && (cx <? cx + 1)) with true by lia. f_equal. rewrite Dx, Dy, Eq. f_equal; lia.
      * replace ((cx <=? c) && (c <? cx + 1)) with false by lia. rewrite <- (F0 (bit t (uof w c) b)) at 1. f_equal. symmetry. apply andb_false_iff.
        destruct (Z.lt_ge_cases c cx); [left; apply Z.leb_gt; nia|right; apply Z.leb_gt; nia].
  - apply Z.eqb_neq in Eq. assert (Lt : cx < cy) by lia.
    pose proof (all_range digits) as AR. pose proof (d_lt digits) as DL.
    assert (AG : d - 1 <= all_ digits). { rewrite all_ones, Z.ones_equiv. lia. }
    assert (Nall : d - 1 < all_ digits).
    { rewrite all_ones, Z.ones_equiv. lia. }
    replace (ry =? all_ digits) with false by lia. replace (ry <? all_ digits) with true by lia.
    (* the three parts *)
    assert (P1 : exists t1, (if 0 <? rx then comb t (uof w cx) (uof w (cx + 1)) (to_upper_from digits rx) else Ok t) = Ok t1 /\ linv t1 /\
              forall c b, 0 <= c < q -> 0 <= b < d -> bit t1 (uof w c) b = f ((0 <? rx) && (c =? cx) && (rx <=? b)) (bit t (uof w c) b)).
    { destruct (0 <? rx) eqn:E0.
      - destruct (A t (uof w cx) (uof w (cx + 1)) (to_upper_from digits rx) L) as (t1 & E & L1 & Q).
        + rewrite !uz_uof by lia. lia.
        + rewrite uz_uof by lia. lia.
        + apply upper_range.
        + exists t1. split; auto. split; auto. intros c b Hc Hb. rewrite Q by auto. rewrite !uz_uof by lia. rewrite upper_bit by lia.
          destruct (Z.eq_dec c cx) as [->|N].
          * replace ((cx <=? cx) && (cx <? cx + 1)) with true by lia. rewrite Z.eqb_refl. reflexivity.
          * replace ((cx <=? c) && (c <? cx + 1)) with false by lia. replace (c =? cx) with false by lia. cbn. auto.
      - exists t. split; auto. }
    destruct P1 as (t1 & -> & L1 & Q1). cbn [bind].
    destruct (A t1 (uof w cy) (uof w (cy + 1)) (from_lower_to digits ry) L1) as (t2 & E2 & L2 & R2).
    { rewrite !uz_uof by lia. lia. } { rewrite uz_uof by lia. lia. } { apply lower_range. }
    rewrite E2. cbn [bind].
    assert (Q2' : forall c b, 0 <= c < q -> 0 <= b < d -> bit t2 (uof w c) b = f ((c =? cy) && (b <=? ry)) (bit t1 (uof w c) b)).
    { intros c b Hc Hb. rewrite R2 by auto. rewrite !uz_uof by lia. rewrite lower_bit by lia.
      destruct (Z.eq_dec c cy) as [->|N].
      - replace ((cy <=? cy) && (cy <? cy + 1)) with true by lia. rewrite Z.eqb_refl. reflexivity.
      - replace ((cy <=? c) && (c <? cy + 1)) with false by lia. replace (c =? cy) with false by lia. cbn. auto. }
    set (lo := if rx =? 0 then cx else cx + 1).
    assert (Elo : uz (if rx =? 0 then uof w cx else uof w (cx + 1)) = lo).
    { unfold lo. destruct (rx =? 0); apply uz_uof; lia. }
    rewrite Elo, (uz_uof w cy) by lia.
    assert (P3 : exists t3, (if lo <? cy then comb t2 (if rx =? 0 then uof w cx else uof w (cx + 1)) (uof w cy) (all_ digits) else Ok t2) = Ok t3 /\ linv t3 /\
              forall c b, 0 <= c < q -> 0 <= b < d -> bit t3 (uof w c) b = f ((lo <=? c) && (c <? cy)) (bit t2 (uof w c) b)).
    { destruct (lo <? cy) eqn:E0.
      - destruct (A t2 (if rx =? 0 then uof w cx else uof w (cx + 1)) (uof w cy) (all_ digits) L2) as (t3 & E & L3 & Q).
        + rewrite Elo, uz_uof by lia. lia.
        + rewrite uz_uof by lia. lia.
        + lia.
        + exists t3. split; auto. split; auto. intros c b Hc Hb. rewrite Q by auto. rewrite Elo, !uz_uof by lia. rewrite all_bit by lia.
          destruct ((lo <=? c) && (c <? cy)); auto.
      - exists t2. split; auto. split; auto. intros c b Hc Hb. replace ((lo <=? c) && (c <? cy)) with false by lia. auto. }
    destruct P3 as (t3 & -> & L3 & Q3). exists t3. split; auto. apply Fin; auto. intros c b Hc Hb.
    rewrite Q3, Q2', Q1 by auto.
    assert (Lo : lo = cx \/ lo = cx + 1) by (unfold lo; destruct (rx =? 0); auto).
    assert (Lo' : rx = 0 <-> lo = cx) by (unfold lo; destruct (rx =? 0) eqn:E0; lia).
    destruct (Z.lt_trichotomy c cx) as [C1|[C1|C1]].
    + replace ((lo <=? c) && (c <? cy)) with false by lia. replace (c =? cy) with false by lia. replace (c =? cx) with false by lia.
      rewrite andb_false_r. cbn [andb]. rewrite !F0. symmetry. rewrite <- (F0 (bit t (uof w c) b)) at 2. f_equal.
      apply andb_false_iff. left. apply Z.leb_gt. nia.
    + subst c. replace (cx =? cy) with false by lia. rewrite Z.eqb_refl, andb_true_r. cbn [andb]. rewrite F0.
      replace (d * cx + b <=? uz y) with true by (symmetry; apply Z.leb_le; nia). rewrite andb_true_r.
      replace (uz x <=? d * cx + b) with (rx <=? b) by lia.
      destruct (0 <? rx) eqn:E0; cbn [andb].
      * replace ((lo <=? cx) && (cx <? cy)) with false by lia. rewrite F0. reflexivity.
      * replace ((lo <=? cx) && (cx <? cy)) with true by lia. rewrite F0. f_equal. lia.
    + replace (c =? cx) with false by lia. rewrite andb_false_r. cbn [andb]. rewrite F0.
      replace (uz x <=? d * c + b) with true by (symmetry; apply Z.leb_le; nia). cbn [andb].
      destruct (Z.lt_trichotomy c cy) as [C2|[C2|C2]].
      * replace (c =? cy) with false by lia. cbn [andb]. rewrite F0. replace ((lo <=? c) && (c <? cy)) with true by lia. f_equal. symmetry. apply Z.leb_le. nia.
      * subst c. rewrite Z.eqb_refl. cbn [andb]. replace ((lo <=? cy) && (cy <? cy)) with false by lia. rewrite F0. f_equal. lia.
      * replace (c =? cy) with false by lia. cbn [andb]. rewrite F0. replace ((lo <=? c) && (c <? cy)) with false by lia. f_equal. symmetry. apply Z.leb_gt. nia.
Qed.
End Apply.

Lemma intersect_spec t a : linv t -> exists t', lb_intersect w digits t a = Ok t' /\ linv t' /\
  ((forall n, ~ mem X DD a n) -> t' = t) /\
  ((exists n, mem X DD a n) -> one_chunk w digits a ->
     forall n, (mem X DD a n -> has w digits t' n = has w digits t n) /\ (~ mem X DD a n -> has w digits t' n = false)) /\
  (~ one_chunk w digits a -> forall n, has w digits t' n = false).
Proof.
  intros L. unfold lb_intersect, segment_apply. destruct (is_empty X DD a) eqn:Em.
  { pose proof (proj1 (is_empty_spec X DD (udom_ok w) a) Em) as No. exists t. split; auto. split; auto. split; auto. split.
    - intros [n Hn]. destruct (No n Hn).
    - intros N. exfalso. apply N. exists 0. intros n Hn. destruct (No n Hn). }
  pose proof (first_last w a Em) as FL. pose proof (fun x => between w a x Em) as Bw.
  set (x := first X DD a) in *. set (y := last X DD a) in *.
  pose proof (uw_range w x) as Rx. pose proof (uw_range w y) as Ry. pose proof (chunk_lt x) as Cx. pose proof (chunk_lt y) as Cy.
  pose proof q_lt as QL. destruct sizes as (D2 & QD & Q0 & Q2 & _).
  rewrite !shift_div, !mask_mod by lia.
  pose proof (Z.mod_pos_bound (uz x) d ltac:(lia)) as Mx. pose proof (Z.mod_pos_bound (uz y) d ltac:(lia)) as My.
  pose proof (Z.div_mod (uz x) d ltac:(lia)) as Dx. pose proof (Z.div_mod (uz y) d ltac:(lia)) as Dy.
  rewrite !(uz_uof w (uz x / d)), !(uz_uof w (uz y / d)) by lia.
  assert (Mono : uz x / d <= uz y / d) by (apply Z.div_le_mono; lia).
  assert (One : one_chunk w digits a <-> uz x / d = uz y / d).
  { split.
    - intros [c Hc]. transitivity c; [|symmetry]; apply Hc, Bw; lia.
    - intros E. exists (uz x / d). intros n Hn. apply Bw in Hn. assert (uz x / d <= uz n / d) by (apply Z.div_le_mono; lia).
      assert (uz n / d <= uz y / d) by (apply Z.div_le_mono; lia). lia. }
  assert (Nx : exists n, mem X DD a n) by (exists x; apply Bw; lia).
  assert (Tbit : forall v b, 0 <= b < d -> Z.testbit v b = true -> 0 <= v -> 0 < v).
  { intros v b Hb T Hv. destruct (Z.eq_dec v 0) as [->|]; [rewrite Z.bits_0 in T; discriminate|lia]. }
  set (cx := uz x / d) in *. set (cy := uz y / d) in *. set (rx := uz x mod d) in *. set (ry := uz y mod d) in *.
  destruct (cx =? cy) eqn:Eq.
  - apply Z.eqb_eq in Eq.
    destruct (intersect_acts t (uof w cx) (uof w (cx + 1)) (Z.land (to_upper_from digits rx) (from_lower_to digits ry)) L) as (t' & E & L' & Q).
    + pose proof (small_land digits (to_upper_from digits rx) (from_lower_to digits ry) (upper_range digits rx) (proj1 (lower_range digits ry))) as R.
      split; [|apply R]. apply (Tbit _ rx); [lia| |apply R]. rewrite Z.land_spec, upper_bit, lower_bit by lia. rewrite Dx, Dy, Eq in FL. lia.
    + exists t'. split; auto. split; auto. split. { intros No. destruct Nx as [n Hn]. destruct (No n Hn). } split.
      * intros _ _ n. rewrite !has_bit. pose proof (chunk_lt n) as Cn. pose proof (Z.mod_pos_bound (uz n) d ltac:(lia)) as Mn.
        pose proof (Z.div_mod (uz n) d ltac:(lia)) as Dn. rewrite Q by auto. rewrite !uz_uof by lia.
        rewrite Z.land_spec, upper_bit, lower_bit by lia. rewrite Bw.
        set (cn := uz n / d) in *. set (rn := uz n mod d) in *. split.
        -- intros H. assert (cn = cx) by nia. subst cn. replace ((cx <=? uz n / d) && (uz n / d <? cx + 1)) with true by lia.
           assert (rx <= rn <= ry) by nia. replace (rx <=? rn) with true by lia. replace (rn <=? ry) with true by lia. reflexivity.
        -- intros H. destruct (Z.eq_dec cn cx) as [E1|E1].
           ++ replace ((cx <=? cn) && (cn <? cx + 1)) with true by lia. assert (~ rx <= rn <= ry) by nia.
              replace ((rx <=? rn) && (rn <=? ry)) with false by lia. reflexivity.
           ++ replace ((cx <=? cn) && (cn <? cx + 1)) with false by lia. reflexivity.
      * intros N. exfalso. apply N, One, Eq.
  - apply Z.eqb_neq in Eq. assert (Lt : cx < cy) by lia.
    pose proof (all_range digits) as AR. pose proof (d_lt digits) as DL.
    assert (Nall : d - 1 < all_ digits) by (rewrite all_ones, Z.ones_equiv; lia).
    replace (ry =? all_ digits) with false by lia. replace (ry <? all_ digits) with true by lia.
    assert (P1 : exists t1, (if 0 <? rx then intersect_ w digits t (uof w cx) (uof w (cx + 1)) (to_upper_from digits rx) else Ok t) = Ok t1 /\ linv t1 /\
              forall c b, 0 <= c < q -> 0 <= b < d -> 0 < rx -> c <> cx -> bit t1 (uof w c) b = false).
    { destruct (0 <? rx) eqn:E0.
      - destruct (intersect_acts t (uof w cx) (uof w (cx + 1)) (to_upper_from digits rx) L) as (t1 & E & L1 & Q).
        + split; [|apply upper_range]. apply (Tbit _ rx); [lia| |apply upper_range]. rewrite upper_bit by lia. lia.
        + exists t1. split; auto. split; auto. intros c b Hc Hb _ N. rewrite Q by auto. rewrite !uz_uof by lia.
          replace ((cx <=? c) && (c <? cx + 1)) with false by lia. reflexivity.
      - exists t. split; auto. split; auto. intros. lia. }
    destruct P1 as (t1 & -> & L1 & Q1). cbn [bind].
    destruct (intersect_acts t1 (uof w cy) (uof w (cy + 1)) (from_lower_to digits ry) L1) as (t2 & E2 & L2 & R2).
    { split; [|apply lower_range]. apply (Tbit _ ry); [lia| |apply lower_range]. rewrite lower_bit by lia. lia. }
    rewrite E2. cbn [bind].
    assert (Q2' : forall c b, 0 <= c < q -> 0 <= b < d -> (0 < rx \/ c <> cy) -> bit t2 (uof w c) b = false).
    { intros c b Hc Hb H. rewrite R2 by auto. rewrite !uz_uof by lia. destruct ((cy <=? c) && (c <? cy + 1)) eqn:In; auto.
      destruct H as [H|H]; [|lia]. rewrite Q1 by (auto; lia). apply andb_false_r. }
    set (lo := if rx =? 0 then cx else cx + 1).
    assert (Elo : uz (if rx =? 0 then uof w cx else uof w (cx + 1)) = lo).
    { unfold lo. destruct (rx =? 0); apply uz_uof; lia. }
    rewrite Elo, (uz_uof w cy) by lia.
    assert (P3 : exists t3, (if lo <? cy then intersect_ w digits t2 (if rx =? 0 then uof w cx else uof w (cx + 1)) (uof w cy) (all_ digits) else Ok t2) = Ok t3 /\ linv t3 /\
              forall c b, 0 <= c < q -> 0 <= b < d -> bit t3 (uof w c) b = false).
    { destruct (lo <? cy) eqn:E0.
      - destruct (intersect_acts t2 (if rx =? 0 then uof w cx else uof w (cx + 1)) (uof w cy) (all_ digits) L2 ltac:(lia)) as (t3 & E & L3 & Q).
        exists t3. split; auto. split; auto. intros c b Hc Hb. rewrite Q by auto. rewrite Elo, !uz_uof by lia.
        destruct ((lo <=? c) && (c <? cy)) eqn:In; auto. rewrite Q2' by (auto; lia). apply andb_false_r.
      - exists t2. split; auto. split; auto. intros c b Hc Hb. apply Q2'; auto. unfold lo in E0. destruct (rx =? 0) eqn:E1; lia. }
    destruct P3 as (t3 & -> & L3 & Q3). exists t3. split; auto. split; auto. split. { intros No. destruct Nx as [n Hn]. destruct (No n Hn). } split.
    + intros _ O. apply One in O. lia.
    + intros _ n. rewrite has_bit. apply Q3; [apply chunk_lt|apply Z.mod_pos_bound; lia].
Qed.

(* ------------------------------------------------------------ whole bitsets *)
Lemma combined_linv (t o t' : imap) (g : Z -> option Z -> option Z) f : linv t -> linv o -> mreach X DD B bp t' ->
  combined X DD B t o t' g -> (forall v u, 0 <= v < 2 ^ d -> okv digits u -> okv digits (g v u)) ->
  (forall v u b, 0 <= b < d -> obit (g v u) b = f (Z.testbit v b) (obit u b)) -> (forall x, f false x = x) ->
  linv t' /\ forall n, has w digits t' n = f (has w digits o n) (has w digits t n).
Proof.
  intros L Lo R Q G F F0. split.
  - split; auto. intros c u E. rewrite Q in E. pose proof (linv_okv t c L) as Ot. destruct L as [_ L], Lo as [_ Lo]. specialize (Lo c).
    destruct (at_ o c) as [v|] eqn:Eo.
    + destruct (Lo v eq_refl) as [V1 V2]. pose proof (G v (at_ t c) ltac:(lia) Ot) as O. rewrite E in O. split; [exact O|lia].
    + exact (L c u E).
  - intros n. rewrite !has_bit. unfold bit. rewrite Q. destruct (at_ o _) as [v|]; cbn [obit]; [apply F; apply Z.mod_pos_bound; lia|auto].
Qed.
Lemma or_spec t o : linv t -> linv o -> exists t', lb_or w digits t o = Ok t' /\ linv t' /\
  forall n, has w digits t' n = has w digits o n || has w digits t n.
Proof.
  intros L Lo. destruct (thm_madd_map X DD (udom_ok w) B (B_ok digits) bp bp t o (proj1 L) (proj1 Lo) (B_prop digits)) as (t' & E & Q).
  exists t'. split; [exact E|]. apply (combined_linv t o t' (add_val B bp) orb); auto.
  - exact (M_add_map X DD B bp bp t o t' (proj1 L) (proj1 Lo) E).
  - intros. apply add_okv; auto.
  - intros. apply add_bit.
Qed.
Lemma minus_spec t o : linv t -> linv o -> exists t', lb_minus w digits t o = Ok t' /\ linv t' /\
  forall n, has w digits t' n = negb (has w digits o n) && has w digits t n.
Proof.
  intros L Lo. destruct (thm_msub_map X DD (udom_ok w) B (B_ok digits) bp bp t o (proj1 L) (proj1 Lo)) as (t' & E & Q).
  exists t'. split; [exact E|]. apply (combined_linv t o t' (sub_val B bp) (fun x y => negb x && y)); auto.
  - exact (M_subtract_map X DD B bp bp t o t' (proj1 L) (proj1 Lo) E).
  - intros. apply sub_okv; auto.
  - intros. apply sub_bit; auto.
Qed.
Lemma xor_spec t o : linv t -> linv o -> exists t', lb_xor w digits t o = Ok t' /\ linv t' /\
  forall n, has w digits t' n = xorb (has w digits o n) (has w digits t n).
Proof.
  intros L Lo. destruct (thm_mflip_map X DD (udom_ok w) B (B_ok digits) bp bp t o (proj1 L) (proj1 Lo) eq_refl (B_prop digits)) as (t' & E & Q).
  exists t'. split; [exact E|]. apply (combined_linv t o t' (flip_val B bp) xorb); auto.
  - exact (M_flip_map X DD B bp bp t o t' (proj1 L) (proj1 Lo) E).
  - intros. apply flip_okv; auto.
  - intros. apply flip_bit.
  - intros []; reflexivity.
Qed.
Lemma and_spec t o : linv t -> linv o -> exists t', lb_and w digits t o = Ok t' /\ linv t' /\
  forall n, has w digits t' n = has w digits o n && has w digits t n.
Proof.
  intros L Lo. destruct (thm_mand_map X DD (udom_ok w) B (B_ok digits) bp bp t o (proj1 L) (proj1 Lo) eq_refl) as (t' & E & Q).
  assert (Q' : forall x, at_ t' x = match at_ o x with Some v => and_plain B bp v (at_ t x) | None => None end).
  { intros x. rewrite Q. destruct (at_ o x); auto. apply (and_plain_eq X DD (udom_ok w) B (B_ok digits)); [apply B_minus|apply B_prop|exact (proj1 L)]. }
  exists t'. split; [exact E|]. split.
  - split. { exact (M_isec_map X DD B bp bp t_empty t o t' (M_clear X DD B bp) (proj1 L) (proj1 Lo) E). }
    intros c u Eu. rewrite Q' in Eu. destruct (at_ o c) as [v|] eqn:Eo; [|discriminate]. destruct (proj2 Lo c v Eo) as [V1 V2].
    pose proof (and_okv digits v (at_ t c) ltac:(lia) ltac:(lia) (linv_okv t c L)) as O. rewrite Eu in O. split; [exact O|exact V2].
  - intros n. rewrite !has_bit. unfold bit. rewrite Q'. pose proof (linv_okv o (uof w (uz n / d)) Lo) as Ov.
    destruct (at_ o _) as [v|]; [|reflexivity]. cbn in Ov. apply and_bit. lia.
Qed.

(* ------------------------------------------------------------ histories *)
Lemma lreach_linv t : lreach w digits t -> linv t.
Proof.
  induction 1 as [|t a t' _ L E|t a t' _ L E|t a t' _ L E|t a t' _ L E|t o t' _ L _ Lo E|t o t' _ L _ Lo E|t o t' _ L _ Lo E|t o t' _ L _ Lo E].
  - split; [apply M_clear|]. discriminate.
  - destruct (apply_spec _ _ add_acts (fun _ => eq_refl) t a L) as (u & Eu & Lu & _). unfold lb_add in E. congruence.
  - destruct (apply_spec _ _ subtract_acts (fun _ => eq_refl) t a L) as (u & Eu & Lu & _). unfold lb_subtract in E. congruence.
  - destruct (intersect_spec t a L) as (u & Eu & Lu & _). congruence.
  - destruct (apply_spec _ _ flip_acts (fun b => match b with true => eq_refl | false => eq_refl end) t a L) as (u & Eu & Lu & _). unfold lb_flip in E. congruence.
  - destruct (or_spec t o L Lo) as (u & Eu & Lu & _). congruence.
  - destruct (minus_spec t o L Lo) as (u & Eu & Lu & _). congruence.
  - destruct (and_spec t o L Lo) as (u & Eu & Lu & _). congruence.
  - destruct (xor_spec t o L Lo) as (u & Eu & Lu & _). congruence.
Qed.

Lemma equal_spec t o : linv t -> linv o -> (lb_eqb w digits t o = true <-> forall n, has w digits t n = has w digits o n).
Proof.
  intros L Lo. unfold lb_eqb. rewrite (thm_meqb_joined X DD (udom_ok w) B (B_ok digits) bp bp t o eq_refl eq_refl (proj1 L) (proj1 Lo)).
  split.
  - intros H n. unfold has. rewrite H. reflexivity.
  - assert (G : forall t o : imap, linv t -> linv o -> (forall n, has w digits t n = has w digits o n) -> forall c v, at_ t c = Some v -> at_ o c = Some v).
    { clear t o L Lo. intros t o L Lo H c v E. destruct (proj2 L c v E) as [V1 V2]. destruct sizes as (D2 & QD & Q0 & Q2 & _).
      assert (Nb : forall b, 0 <= b < d -> obit (at_ t c) b = obit (at_ o c) b).
      { intros b Hb. pose proof (uw_range w c) as Rc. assert (R : 0 <= uz c * d + b < m) by nia.
        specialize (H (uof w (uz c * d + b))). rewrite !has_bit in H. rewrite uz_uof in H by lia.
        replace ((uz c * d + b) / d) with (uz c) in H by (rewrite Z.div_add_l, Z.div_small by lia; lia).
        replace ((uz c * d + b) mod d) with b in H by (rewrite Z.add_comm, Z.mod_add, Z.mod_small by lia; lia).
        replace (uof w (uz c)) with c in H by (apply uw_ext; rewrite uz_uof by lia; reflexivity). exact H. }
      rewrite E in Nb. cbn [obit] in Nb. destruct (at_ o c) as [u|] eqn:Eo.
      - destruct (proj2 Lo c u Eo) as [U1 U2]. f_equal. apply (small_eq digits); [lia|lia|]. intros b Hb. symmetry. apply Nb. auto.
      - exfalso. assert (v = 0); [|lia]. apply (small_eq digits); [lia|pose proof (W_pos digits); lia|]. intros b Hb. rewrite Nb, Z.bits_0 by auto. reflexivity. }
    intros H c. destruct (at_ t c) as [v|] eqn:E. { symmetry. apply (G t o); auto. }
    destruct (at_ o c) as [u|] eqn:Eo; auto. rewrite (G o t Lo L (fun n => eq_sym (H n)) c u Eo) in E. discriminate.
Qed.
End Chunks.

(* ------------------------------------------------------------ the statements of PropLarge.v *)
Section Top.
Context (w : N) (digits : positive) (Hs : sizes_ok w digits).
Notation X := (udom w).
Notation has := (LargeBitsetSpec.has w digits).
Notation lreach := (LargeBitsetSpec.lreach w digits).

Lemma large_add t : lreach t -> forall a, exists t', lb_add w digits t a = Ok t' /\
  forall n, has t' n = true <-> has t n = true \/ mem X DD a n.
Proof.
  intros L a. destruct (apply_spec w digits Hs _ _ (add_acts w digits) (fun _ => eq_refl) t a (lreach_linv w digits Hs t L)) as (t' & E & _ & Q).
  exists t'. split; [exact E|]. intros n. destruct (Q n) as [Q1 Q2]. pose proof (memb_mem X DD a n) as Mb.
  destruct (memb X DD a n); [rewrite Q1 by (apply Mb; auto)|rewrite Q2 by (rewrite <- Mb; discriminate)]; cbn; rewrite <- Mb; intuition congruence.
Qed.
Lemma large_subtract t : lreach t -> forall a, exists t', lb_subtract w digits t a = Ok t' /\
  forall n, has t' n = true <-> has t n = true /\ ~ mem X DD a n.
Proof.
  intros L a. destruct (apply_spec w digits Hs _ _ (subtract_acts w digits) (fun _ => eq_refl) t a (lreach_linv w digits Hs t L)) as (t' & E & _ & Q).
  exists t'. split; [exact E|]. intros n. destruct (Q n) as [Q1 Q2]. pose proof (memb_mem X DD a n) as Mb.
  destruct (memb X DD a n); [rewrite Q1 by (apply Mb; auto)|rewrite Q2 by (rewrite <- Mb; discriminate)]; cbn; rewrite <- Mb; intuition congruence.
Qed.
Lemma large_flip_eq t : lreach t -> forall a, exists t', lb_flip w digits t a = Ok t' /\
  forall n, (mem X DD a n -> has t' n = negb (has t n)) /\ (~ mem X DD a n -> has t' n = has t n).
Proof.
  intros L a. destruct (apply_spec w digits Hs _ _ (flip_acts w digits) (fun b => match b with true => eq_refl | false => eq_refl end) t a (lreach_linv w digits Hs t L)) as (t' & E & _ & Q).
  exists t'. split; [exact E|]. intros n. destruct (Q n) as [Q1 Q2]. split; auto.
Qed.
Lemma large_flip t : lreach t -> forall a, exists t', lb_flip w digits t a = Ok t' /\
  forall n, has t' n = true <-> (has t n = true /\ ~ mem X DD a n) \/ (has t n = false /\ mem X DD a n).
Proof.
  intros L a. destruct (large_flip_eq t L a) as (t' & E & Q). exists t'. split; auto. intros n. destruct (Q n) as [Q1 Q2].
  pose proof (memb_mem X DD a n) as Mb.
  destruct (memb X DD a n); [rewrite Q1 by (apply Mb; auto)|rewrite Q2 by (rewrite <- Mb; discriminate)]; rewrite <- Mb; destruct (has t n); cbn; intuition congruence.
Qed.
Lemma large_intersect t : lreach t -> forall a, (exists n, mem X DD a n) -> one_chunk w digits a ->
  exists t', lb_intersect w digits t a = Ok t' /\ forall n, has t' n = true <-> has t n = true /\ mem X DD a n.
Proof.
  intros L a Ne O. destruct (intersect_spec w digits Hs t a (lreach_linv w digits Hs t L)) as (t' & E & _ & _ & Q & _). exists t'. split; auto. intros n.
  destruct (Q Ne O n) as [Q1 Q2]. pose proof (memb_mem X DD a n) as Mb.
  destruct (memb X DD a n); [rewrite Q1 by (apply Mb; auto)|rewrite Q2 by (rewrite <- Mb; discriminate)]; rewrite <- Mb; intuition congruence.
Qed.
Lemma large_intersect_lost t : lreach t -> forall a, ~ one_chunk w digits a ->
  exists t', lb_intersect w digits t a = Ok t' /\ forall n, has t' n = false.
Proof.
  intros L a O. destruct (intersect_spec w digits Hs t a (lreach_linv w digits Hs t L)) as (t' & E & _ & _ & _ & Q). exists t'. split; auto.
Qed.
Lemma large_intersect_none t : lreach t -> forall a, (forall n, ~ mem X DD a n) -> lb_intersect w digits t a = Ok t.
Proof.
  intros L a O. destruct (intersect_spec w digits Hs t a (lreach_linv w digits Hs t L)) as (t' & E & _ & Q & _). rewrite (Q O) in E. exact E.
Qed.
Lemma mem_one (x n : uwt w) : mem X DD (singleton X DD x) n <-> n = x.
Proof.
  unfold mem, singleton, constructb. cbn [bl br bd b_closed lo up]. rewrite !uw_le. split; [intros [H1 H2]; apply uw_ext; lia|intros ->; lia].
Qed.
Lemma one_one (x : uwt w) : one_chunk w digits (singleton X DD x).
Proof. exists (uz x / Z.pos digits). intros n H. apply mem_one in H. congruence. Qed.
Lemma large_elements t : lreach t -> forall x,
  (exists t', lb_add_elem w digits t x = Ok t' /\ forall n, has t' n = true <-> has t n = true \/ n = x) /\
  (exists t', lb_subtract_elem w digits t x = Ok t' /\ forall n, has t' n = true <-> has t n = true /\ n <> x) /\
  (exists t', lb_flip_elem w digits t x = Ok t' /\ has t' x = negb (has t x) /\ forall n, n <> x -> has t' n = has t n) /\
  (exists t', lb_intersect_elem w digits t x = Ok t' /\ forall n, has t' n = true <-> has t n = true /\ n = x).
Proof.
  intros L x. repeat split.
  - destruct (large_add t L (singleton X DD x)) as (t' & E & Q). exists t'. split; auto. intros n. rewrite Q, mem_one. reflexivity.
  - destruct (large_subtract t L (singleton X DD x)) as (t' & E & Q). exists t'. split; auto. intros n. rewrite Q, mem_one. reflexivity.
  - destruct (large_flip_eq t L (singleton X DD x)) as (t' & E & Q). exists t'. split; auto. split.
    + apply Q. apply mem_one. auto.
    + intros n Hn. apply Q. rewrite mem_one. auto.
  - destruct (large_intersect t L (singleton X DD x)) as (t' & E & Q).
    + exists x. apply mem_one. auto.
    + apply one_one.
    + exists t'. split; auto. intros n. rewrite Q, mem_one. reflexivity.
Qed.
Lemma large_bitsets t o : lreach t -> lreach o ->
  (exists t', lb_or w digits t o = Ok t' /\ forall n, has t' n = has t n || has o n) /\
  (exists t', lb_minus w digits t o = Ok t' /\ forall n, has t' n = has t n && negb (has o n)) /\
  (exists t', lb_and w digits t o = Ok t' /\ forall n, has t' n = has t n && has o n) /\
  (exists t', lb_xor w digits t o = Ok t' /\ forall n, has t' n = xorb (has t n) (has o n)).
Proof.
  intros L Lo. apply (lreach_linv w digits Hs) in L, Lo. repeat split.
  - destruct (or_spec w digits t o L Lo) as (t' & E & _ & Q). exists t'. split; auto. intros n. rewrite Q. apply orb_comm.
  - destruct (minus_spec w digits t o L Lo) as (t' & E & _ & Q). exists t'. split; auto. intros n. rewrite Q. apply andb_comm.
  - destruct (and_spec w digits t o L Lo) as (t' & E & _ & Q). exists t'. split; auto. intros n. rewrite Q. apply andb_comm.
  - destruct (xor_spec w digits t o L Lo) as (t' & E & _ & Q). exists t'. split; auto. intros n. rewrite Q. apply xorb_comm.
Qed.
Lemma large_equal t o : lreach t -> lreach o -> (lb_eqb w digits t o = true <-> forall n, has t n = has o n).
Proof. intros L Lo. apply (equal_spec w digits Hs); apply (lreach_linv w digits Hs); auto. Qed.
(** operator <: irreflexive, transitive, and exactly one of <, ==, > holds *)
Lemma large_less t u v : lreach t -> lreach u -> lreach v ->
  lb_ltb w digits t t = false /\ (lb_ltb w digits t u = true -> lb_ltb w digits u v = true -> lb_ltb w digits t v = true) /\
  ((forall n, has t n = has u n) <-> lb_ltb w digits t u = false /\ lb_ltb w digits u t = false) /\
  (lb_ltb w digits t u = true -> lb_ltb w digits u t = false).
Proof.
  intros Lt Lu Lv. rewrite <- (large_equal t u Lt Lu). apply (lreach_linv w digits Hs) in Lt, Lu, Lv.
  assert (O : co_order (bits digits)). { split; [|split]; cbn; intros; lia. }
  destruct (thm_morder X DD (udom_ok w) (bits digits) (B_ok digits) bp bp bp t u v O (proj1 Lt) (proj1 Lu) (proj1 Lv)) as (H1 & H2 & H3 & H4).
  split; [exact H1|]. split; [exact H3|]. split; [exact H4|exact H2].
Qed.
End Top.

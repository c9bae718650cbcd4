(** Property C84: example/large_bitset_, mini::large_bitset, a set of unsigned numbers stored as an
    interval_map from chunk numbers to words of bits.  Vocabulary: LargeBitsetSpec.v.  [has w digits t n]:
    the bit n mod digits is set in the word the map associates with n / digits.  w is the number of bits of
    DomainT, digits that of the word type; [sizes_ok] says that digits is 2, 4, 8, ... and that DomainT can
    count the bits of a word.  [lreach]: the large_bitsets of every finite history of operations.  [mem] is
    the membership of a number in the operand interval, which may have any bounds. *)
From Verif Require Import LargeBitsetThms LargeBitsetSpec LargeBitsetModel.
From Verif Require Import MapModel.
From Coq Require Import ZArith.
Open Scope Z_scope.

(* ------------------------------------------------------------------ C84 *)
(** add, subtract and flip of an interval act on every number separately *)
Theorem C84_add : forall w digits, sizes_ok w digits -> forall t, lreach w digits t -> forall a,
  exists t', lb_add w digits t a = Ok t' /\
    forall n, has w digits t' n = true <-> has w digits t n = true \/ mem (udom w) DD a n.
Proof. exact large_add. Qed.
Theorem C84_subtract : forall w digits, sizes_ok w digits -> forall t, lreach w digits t -> forall a,
  exists t', lb_subtract w digits t a = Ok t' /\
    forall n, has w digits t' n = true <-> has w digits t n = true /\ ~ mem (udom w) DD a n.
Proof. exact large_subtract. Qed.
Theorem C84_flip : forall w digits, sizes_ok w digits -> forall t, lreach w digits t -> forall a,
  exists t', lb_flip w digits t a = Ok t' /\
    forall n, has w digits t' n = true <-> (has w digits t n = true /\ ~ mem (udom w) DD a n) \/ (has w digits t n = false /\ mem (udom w) DD a n).
Proof. exact large_flip. Qed.
(** the same for one number *)
Theorem C84_elements : forall w digits, sizes_ok w digits -> forall t, lreach w digits t -> forall x,
  (exists t', lb_add_elem w digits t x = Ok t' /\ forall n, has w digits t' n = true <-> has w digits t n = true \/ n = x) /\
  (exists t', lb_subtract_elem w digits t x = Ok t' /\ forall n, has w digits t' n = true <-> has w digits t n = true /\ n <> x) /\
  (exists t', lb_flip_elem w digits t x = Ok t' /\ has w digits t' x = negb (has w digits t x) /\ forall n, n <> x -> has w digits t' n = has w digits t n) /\
  (exists t', lb_intersect_elem w digits t x = Ok t' /\ forall n, has w digits t' n = true <-> has w digits t n = true /\ n = x).
Proof. exact large_elements. Qed.
(** the operators with a large_bitset: union, difference, intersection, symmetric difference *)
Theorem C84_bitsets : forall w digits, sizes_ok w digits -> forall t o, lreach w digits t -> lreach w digits o ->
  (exists t', lb_or w digits t o = Ok t' /\ forall n, has w digits t' n = has w digits t n || has w digits o n) /\
  (exists t', lb_minus w digits t o = Ok t' /\ forall n, has w digits t' n = has w digits t n && negb (has w digits o n)) /\
  (exists t', lb_and w digits t o = Ok t' /\ forall n, has w digits t' n = has w digits t n && has w digits o n) /\
  (exists t', lb_xor w digits t o = Ok t' /\ forall n, has w digits t' n = xorb (has w digits t n) (has w digits o n)).
Proof. exact large_bitsets. Qed.
(** two large_bitsets compare equal iff they have the same numbers *)
Theorem C84_equal : forall w digits, sizes_ok w digits -> forall t o, lreach w digits t -> lreach w digits o ->
  (lb_eqb w digits t o = true <-> forall n, has w digits t n = has w digits o n).
Proof. exact large_equal. Qed.
(** operator < is a strict total order on sets of numbers *)
Theorem C84_less : forall w digits, sizes_ok w digits -> forall t u v, lreach w digits t -> lreach w digits u -> lreach w digits v ->
  let lt_ := lb_ltb w digits in
  lt_ t t = false /\ (lt_ t u = true -> lt_ u v = true -> lt_ t v = true) /\
  ((forall n, has w digits t n = has w digits u n) <-> lt_ t u = false /\ lt_ u t = false) /\
  (lt_ t u = true -> lt_ u t = false).
Proof. exact large_less. Qed.
(** intersection with an interval is right as long as all its numbers lie in one word *)
Theorem C84_intersect_one_word : forall w digits, sizes_ok w digits -> forall t, lreach w digits t -> forall a,
  (exists n, mem (udom w) DD a n) -> one_chunk w digits a ->
  exists t', lb_intersect w digits t a = Ok t' /\
    forall n, has w digits t' n = true <-> has w digits t n = true /\ mem (udom w) DD a n.
Proof. exact large_intersect. Qed.
(** Finding: otherwise segment_apply intersects with one part of the interval after the other, and nothing is
    left: with an interval whose numbers lie in several words, the result of &= is empty for every bitset. *)
Theorem C84_intersect_several_words : forall w digits, sizes_ok w digits -> forall t, lreach w digits t -> forall a,
  ~ one_chunk w digits a -> exists t', lb_intersect w digits t a = Ok t' /\ forall n, has w digits t' n = false.
Proof. exact large_intersect_lost. Qed.
(** Finding: intersection with an empty interval leaves the bitset as it is. *)
Theorem C84_intersect_empty_interval : forall w digits, sizes_ok w digits -> forall t, lreach w digits t -> forall a,
  (forall n, ~ mem (udom w) DD a n) -> lb_intersect w digits t a = Ok t.
Proof. exact large_intersect_none. Qed.

(** bytes as words and numbers of 16 bits *)
Notation u16 := (uof 16).
(** the segments as triples of numbers: first chunk, chunk past the end, word *)
Definition shown (t : tree (uwt 16) (C (bits 8))) : list (Z * Z * Z) :=
  map (fun s => (uz (lo (fst s)), uz (up (fst s)), snd s)) (segs (udom 16) (bits 8) t).
Lemma computed r l : match r with Ok t => Some (shown t) | Err _ => None end = Some l -> exists t, r = Ok t /\ shown t = l.
Proof. destruct r as [t|]; [|discriminate]. intros H. exists t. split; congruence. Qed.
(** {0,..,19} and {4,..,26} *)
Definition twenty := Itv (u16 0) (u16 20) b_right_open.
Definition from4 := Itv (u16 4) (u16 27) b_right_open.
Lemma bytes_ok : sizes_ok 16 8.
Proof. exists 3. split; [lia|reflexivity]. Qed.
(** hence the intersection property fails: {0,..,19} & [4,12] should be [4,12] *)
Theorem C84_intersect_refuted : exists t, lreach 16 8 t /\ (forall n, has 16 8 t n = (uz n <? 20)) /\
  exists t', lb_intersect 16 8 t (Itv (u16 4) (u16 12) b_closed) = Ok t' /\ shown t' = [].
Proof.
  destruct (large_add 16 8 bytes_ok (lb_empty 16 8) (L_empty 16 8) twenty) as (t & E & Q).
  exists t. split; [exact (L_add 16 8 (lb_empty 16 8) _ t (L_empty 16 8) E)|]. split.
  - intros n. specialize (Q n). pose proof (uw_range 16 n) as R. change twenty with (ro 16 (u16 0) (u16 20)) in Q. rewrite mem_ro, !uz_uof in Q by lia.
    assert (N : has 16 8 (lb_empty 16 8) n = false) by reflexivity. rewrite N in Q.
    destruct (has 16 8 t n), (Z.ltb_spec (uz n) 20) as [K|K]; try reflexivity; exfalso; [destruct (proj1 Q eq_refl); [discriminate|lia]|].
    discriminate (proj2 Q (or_intror (conj (proj1 R) K))).
  - assert (G : exists t', (t <- lb_add 16 8 (lb_empty 16 8) twenty ;; lb_intersect 16 8 t (Itv (u16 4) (u16 12) b_closed)) = Ok t' /\ shown t' = [])
      by (apply computed; vm_compute; reflexivity).
    rewrite E in G. exact G.
Qed.

Example C84_ex : sizes_ok 16 8 /\ sizes_ok 64 64 /\ exists t, lreach 16 8 t /\
  shown t = [(0, 1, 240); (1, 3, 255); (3, 4, 7)] /\
  (exists t', lb_subtract 16 8 t (Itv (u16 10) (u16 17) b_open) = Ok t' /\ shown t' = [(0, 1, 240); (1, 2, 7); (2, 3, 254); (3, 4, 7)]) /\
  (exists t', lb_flip 16 8 t (Itv (u16 6) (u16 24) b_closed) = Ok t' /\ shown t' = [(0, 1, 48); (3, 4, 6)]) /\
  (exists t', lb_intersect 16 8 t (Itv (u16 16) (u16 22) b_closed) = Ok t' /\ shown t' = [(2, 3, 127)]) /\
  one_chunk 16 8 (Itv (u16 16) (u16 22) b_closed) /\ ~ one_chunk 16 8 (Itv (u16 4) (u16 12) b_closed).
Proof.
  split; [apply bytes_ok|]. split. { exists 6. split; [lia|reflexivity]. }
  destruct (large_add 16 8 bytes_ok (lb_empty 16 8) (L_empty 16 8) from4) as (t & E & Q).
  exists t. split; [exact (L_add 16 8 (lb_empty 16 8) _ t (L_empty 16 8) E)|].
  assert (G : forall (f : _ -> res _) l, match (t <- lb_add 16 8 (lb_empty 16 8) from4 ;; f t) with Ok t => Some (shown t) | Err _ => None end = Some l ->
            exists t', f t = Ok t' /\ shown t' = l).
  { intros f l H. rewrite E in H. apply computed. exact H. }
  split. { destruct (G (fun t => Ok t) [(0, 1, 240); (1, 3, 255); (3, 4, 7)]) as (t' & E' & S); [vm_compute; reflexivity|]. congruence. }
  split. { apply (G (fun t => lb_subtract 16 8 t (Itv (u16 10) (u16 17) b_open))). vm_compute. reflexivity. }
  split. { apply (G (fun t => lb_flip 16 8 t (Itv (u16 6) (u16 24) b_closed))). vm_compute. reflexivity. }
  split. { apply (G (fun t => lb_intersect 16 8 t (Itv (u16 16) (u16 22) b_closed))). vm_compute. reflexivity. }
  assert (M : forall a b n, 0 <= a < 65536 -> 0 <= b < 65536 -> (mem (udom 16) DD (Itv (u16 a) (u16 b) b_closed) n <-> a <= uz n <= b)).
  { intros a b n Ha Hb. unfold mem. cbn [bl br bd b_closed lo up]. rewrite !uw_le, !uz_uof by lia. reflexivity. }
  split.
  - exists 2. intros n H. apply M in H; [|lia|lia]. pose proof (Z.div_mod (uz n) 8 ltac:(lia)). pose proof (Z.mod_pos_bound (uz n) 8 ltac:(lia)). lia.
  - intros [c H]. pose proof (H (u16 4)) as H4. pose proof (H (u16 12)) as H12. rewrite M, uz_uof in H4, H12 by lia.
    change (4 / 8) with 0 in H4. change (12 / 8) with 1 in H12. lia.
Qed.

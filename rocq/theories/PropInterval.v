(** Property theorems C01-C12, C50, C52: intervals.
    Statements use [mem] (Spec.v) for "element x is in interval a". *)
From Coq Require Import QArith Qcanon.
From Verif Require Import Spec Instances IntervalProps BoundsProps.

(* ------------------------------------------------------------------ C01 *)
Theorem C01_is_empty : forall X k, dom_ok X k -> forall a,
  is_empty X k a = true <-> forall x, ~ mem X k a x.
Proof. exact is_empty_spec. Qed.

(** [edge_ok] excludes only borders at the very ends of a bounded domain; it holds for
    every non-empty interval (C01_edge_nonempty) and for every interval over an unbounded
    domain (C01_edge_unbounded). *)
Theorem C01_contains : forall X k, dom_ok X k -> forall a x,
  (dynamic k = false -> edge_ok X k a) -> (contains X k a x = true <-> mem X k a x).
Proof. exact contains_spec. Qed.

Theorem C01_edge_nonempty : forall X k, dom_ok X k -> forall a,
  (exists x, mem X k a x) -> edge_ok X k a.
Proof. exact nonempty_edge_ok. Qed.

Theorem C01_edge_unbounded : forall X k,
  (forall x : D X, (exists y, lt x y) /\ (exists y, lt y x)) -> forall a, edge_ok X k a.
Proof. intros X k H a _. split; intros _; apply H. Qed.

(** Finding: without [edge_ok] the claim fails.  For unsigned types the empty static
    right-open interval [0,0) "contains" every element, because last() wraps around. *)
Theorem C01_contains_at_minimum_refuted : exists a x,
  dom_ok u8dom RO /\ is_empty u8dom RO a = true /\ contains u8dom RO a x = true.
Proof.
  exists (construct u8dom RO (u8of 0) (u8of 0)), (u8of 7).
  split; [apply u8_ok; discriminate|]. split; vm_compute; reflexivity.
Qed.

Example C01_ex : dom_ok u8dom DD /\ dom_ok Zrev OP /\ dom_ok Qdom DC /\ dom_ok Zdom CL /\
  edge_ok u8dom RO (construct u8dom RO (u8of 3) (u8of 7)) /\
  mem u8dom RO (construct u8dom RO (u8of 3) (u8of 7)) (u8of 3).
Proof.
  split; [apply u8_ok; discriminate|]. split; [apply Zrev_ok; discriminate|].
  split; [apply Qdom_ok; auto|]. split; [apply Zdom_ok; discriminate|].
  split; [|split; reflexivity].
  intros _. split; intros _; [exists (u8of 200)|exists (u8of 0)]; reflexivity.
Qed.

(* ------------------------------------------------------------------ C02 *)
Theorem C02_contains_subset : forall X k, dom_ok X k -> forall a b,
  edge_ok X k a -> edge_ok X k b ->
  (contains_itv X k a b = true <-> forall x, mem X k b x -> mem X k a x).
Proof. exact contains_itv_spec. Qed.

Theorem C02_within_subset : forall X k, dom_ok X k -> forall a b,
  edge_ok X k a -> edge_ok X k b ->
  (within X k b a = true <-> forall x, mem X k b x -> mem X k a x).
Proof. exact contains_itv_spec. Qed.

Example C02_ex :
  contains_itv Zdom DD (constructb Zdom 0%Z 3%Z b_right_open) (constructb Zdom 0%Z 2%Z b_closed) = true /\
  contains_itv Zdom DD (constructb Zdom 0%Z 3%Z b_right_open) (constructb Zdom 0%Z 3%Z b_closed) = false.
Proof. split; reflexivity. Qed.

(* ------------------------------------------------------------------ C03 *)
Theorem C03_equal : forall X k, dom_ok X k -> forall a b,
  edge_ok X k a -> edge_ok X k b ->
  (itv_eqb X k a b = true <-> forall x, mem X k a x <-> mem X k b x).
Proof. exact itv_eqb_spec. Qed.

Example C03_ex : forallb (fun b => itv_eqb Zdom DD (constructb Zdom 0%Z 2%Z b_closed) b)
  [constructb Zdom 0%Z 3%Z b_right_open; constructb Zdom (-1)%Z 2%Z b_left_open;
   constructb Zdom (-1)%Z 3%Z b_open] = true.
Proof. reflexivity. Qed.

(** Finding: at the ends of a bounded domain == can relate an empty and a non-empty
    interval: open (255,255) == closed [0,254] for discrete_interval<unsigned char>. *)
Theorem C03_equal_at_extremes_refuted : exists a b,
  dom_ok u8dom DD /\ is_empty u8dom DD a = true /\ is_empty u8dom DD b = false /\
  itv_eqb u8dom DD a b = true.
Proof.
  exists (constructb u8dom (u8of 255) (u8of 255) b_open),
         (constructb u8dom (u8of 0) (u8of 254) b_closed).
  split; [apply u8_ok; discriminate|]. repeat split; vm_compute; reflexivity.
Qed.

(* ------------------------------------------------------------------ C04 *)
(** [begins_before a b]: some element of a precedes all of b.
    [ends_before a b]: some element of b follows all of a. *)
Theorem C04_less : forall X k, dom_ok X k -> forall a b,
  (exists x, mem X k a x) -> (exists x, mem X k b x) ->
  (itv_ltb X k a b = true <->
   (exists x, mem X k a x /\ forall y, mem X k b y -> lt x y) \/
   (~ (exists x, mem X k b x /\ forall y, mem X k a y -> lt x y) /\
    exists y, mem X k b y /\ forall x, mem X k a x -> lt x y)).
Proof. exact itv_ltb_spec. Qed.

Theorem C04_irreflexive : forall X k, dom_ok X k -> forall a, itv_ltb X k a a = false.
Proof. exact itv_ltb_irrefl. Qed.

Theorem C04_transitive : forall X k, dom_ok X k -> forall a b c,
  itv_ltb X k a b = true -> itv_ltb X k b c = true -> itv_ltb X k a c = true.
Proof. exact itv_ltb_trans. Qed.

Theorem C04_total_up_to_equal : forall X k, dom_ok X k -> forall a b,
  is_empty X k a = false -> is_empty X k b = false ->
  itv_eqb X k a b = negb (itv_ltb X k a b) && negb (itv_ltb X k b a).
Proof. exact itv_ltb_total. Qed.

(** Finding: with an empty operand the documented induced equivalence fails: the empty
    interval and [1,2) are incomparable under < but not ==. *)
Theorem C04_induced_equivalence_refuted : exists a b,
  dom_ok Zdom RO /\ itv_ltb Zdom RO a b = false /\ itv_ltb Zdom RO b a = false /\
  itv_eqb Zdom RO a b = false.
Proof.
  exists (construct Zdom RO 0%Z 0%Z), (construct Zdom RO 1%Z 2%Z).
  split; [apply Zdom_ok; discriminate|]. repeat split; reflexivity.
Qed.

Example C04_ex : itv_ltb Qdom DC (constructb Qdom (Q2Qc 0) (Q2Qc 1) b_closed) (constructb Qdom (Q2Qc 0) (Q2Qc 1) b_open) = true.
Proof. reflexivity. Qed.

(* ------------------------------------------------------------------ C05 *)
Theorem C05_exclusive_less : forall X k, dom_ok X k -> forall a b,
  exclusive_less X k a b = true <-> forall x y, mem X k a x -> mem X k b y -> lt x y.
Proof. exact exclusive_less_spec. Qed.

(** incomparability of non-empty intervals is overlap *)
Theorem C05_incomparable_overlap : forall X k, dom_ok X k -> forall a b,
  is_empty X k a = false -> is_empty X k b = false ->
  (exclusive_less X k a b = false /\ exclusive_less X k b a = false <->
   exists x, mem X k a x /\ mem X k b x).
Proof.
  intros X k HX a b Ha Hb. rewrite <- (intersects_spec X k HX). unfold intersects.
  rewrite Ha, Hb. destruct (exclusive_less X k a b), (exclusive_less X k b a); cbn; intuition congruence.
Qed.

Example C05_ex : exclusive_less u8dom LO (construct u8dom LO (u8of 3) (u8of 5)) (construct u8dom LO (u8of 5) (u8of 6)) = true.
Proof. reflexivity. Qed.

(* ------------------------------------------------------------------ C06 *)
Theorem C06_intersection : forall X k, dom_ok X k -> forall a b x,
  mem X k (inter X k a b) x <-> mem X k a x /\ mem X k b x.
Proof. exact inter_spec. Qed.

Theorem C06_intersects : forall X k, dom_ok X k -> forall a b,
  intersects X k a b = true <-> exists x, mem X k a x /\ mem X k b x.
Proof. exact intersects_spec. Qed.

Theorem C06_disjoint : forall X k, dom_ok X k -> forall a b,
  disjoint X k a b = true <-> ~ exists x, mem X k a x /\ mem X k b x.
Proof.
  intros X k HX a b. rewrite disjoint_spec, negb_true_iff, <- (intersects_spec X k HX).
  destruct (intersects X k a b); intuition congruence.
Qed.

(** Finding: closed_interval with a descending Compare violates the requirement that the
    default interval is empty ([unit_element, identity_element] = [1,0] has the two elements
    1 and 0 under std::greater), and intersection with an empty interval yields it. *)
Theorem C06_closed_descending_refuted : exists a b x,
  is_empty Zrev CL a = true /\ (forall y, ~ mem Zrev CL a y) /\ mem Zrev CL (inter Zrev CL a b) x.
Proof.
  exists (construct Zrev CL 3%Z 4%Z), (construct Zrev CL 9%Z 5%Z), 1%Z.
  split; [reflexivity|]. split; [|split; reflexivity].
  intros y [H1 H2]. unfold le in *. cbn in *. rewrite Z.gtb_ltb in *. lia.
Qed.

Example C06_ex : mem Qdom DC (inter Qdom DC (constructb Qdom (Q2Qc 0) (Q2Qc 2) b_open) (constructb Qdom (Q2Qc 1) (Q2Qc 3) b_closed)) (Q2Qc 1).
Proof. split; reflexivity. Qed.

(* ------------------------------------------------------------------ C07 *)
Theorem C07_hull_between : forall X k, dom_ok X k -> forall a b x,
  mem X k (hull X k a b) x <->
  exists y z, (mem X k a y \/ mem X k b y) /\ (mem X k a z \/ mem X k b z) /\ le y x /\ le x z.
Proof. exact hull_between. Qed.

Theorem C07_hull_covers : forall X k, dom_ok X k -> forall a b x,
  mem X k a x \/ mem X k b x -> mem X k (hull X k a b) x.
Proof. exact hull_covers. Qed.

Theorem C07_hull_least : forall X k, dom_ok X k -> forall a b c,
  (forall x, mem X k a x -> mem X k c x) -> (forall x, mem X k b x -> mem X k c x) ->
  forall x, mem X k (hull X k a b) x -> mem X k c x.
Proof. exact hull_least. Qed.

Example C07_ex : mem Zdom DD (hull Zdom DD (constructb Zdom 0%Z 1%Z b_closed) (constructb Zdom 6%Z 8%Z b_open)) 4%Z.
Proof. split; reflexivity. Qed.

(* ------------------------------------------------------------------ C08 *)
Theorem C08_left_subtract : forall X k, dom_ok X k -> forall right left x,
  (exists y, mem X k left y) ->
  (mem X k (left_subtract X k right left) x <->
   mem X k right x /\ forall y, mem X k left y -> lt y x).
Proof. exact left_subtract_spec. Qed.

Theorem C08_right_subtract : forall X k, dom_ok X k -> forall left right x,
  (exists y, mem X k right y) ->
  (mem X k (right_subtract X k left right) x <->
   mem X k left x /\ forall y, mem X k right y -> lt x y).
Proof. exact right_subtract_spec. Qed.

Example C08_ex :
  (exists y, mem u8dom OP (construct u8dom OP (u8of 2) (u8of 6)) y) /\
  mem u8dom OP (left_subtract u8dom OP (construct u8dom OP (u8of 3) (u8of 9)) (construct u8dom OP (u8of 2) (u8of 6))) (u8of 6).
Proof. split; [exists (u8of 4)|]; split; reflexivity. Qed.

(* ------------------------------------------------------------------ C09 *)
Theorem C09_touches : forall X k, dom_ok X k -> forall a b,
  (exists x, mem X k a x) -> (exists x, mem X k b x) ->
  (forall x y, mem X k a x -> mem X k b y -> lt x y) ->
  (touches X k a b = true <->
   ~ exists z, (forall x, mem X k a x -> lt x z) /\ (forall y, mem X k b y -> lt z y)).
Proof. exact touches_spec. Qed.

(** Finding: without "a before b" touches can hold for intervals at opposite ends of a
    wrapping domain: [200,255] and [0,5] of unsigned char. *)
Theorem C09_touches_wraps_refuted : exists a b,
  dom_ok u8dom CL /\ touches u8dom CL a b = true /\ exclusive_less u8dom CL b a = true /\
  is_empty u8dom CL a = false /\ is_empty u8dom CL b = false.
Proof.
  exists (construct u8dom CL (u8of 200) (u8of 255)), (construct u8dom CL (u8of 0) (u8of 5)).
  split; [apply u8_ok; discriminate|]. repeat split; vm_compute; reflexivity.
Qed.

Example C09_ex :
  touches Zdom DD (constructb Zdom 0%Z 3%Z b_closed) (constructb Zdom 3%Z 5%Z b_open) = true /\
  touches Zdom DD (constructb Zdom 0%Z 3%Z b_right_open) (constructb Zdom 3%Z 5%Z b_open) = false.
Proof. split; reflexivity. Qed.

(* ------------------------------------------------------------------ C10 *)
Theorem C10_inner_complement : forall X k, dom_ok X k -> forall a b z,
  mem X k (inner_complement X k a b) z <->
  (exists x, mem X k a x) /\ (exists y, mem X k b y) /\
  (((forall x, mem X k a x -> lt x z) /\ (forall x, mem X k b x -> lt z x)) \/
   ((forall x, mem X k b x -> lt x z) /\ (forall x, mem X k a x -> lt z x))).
Proof. exact inner_complement_spec. Qed.

(** distance counts those elements.  [integral phi sub]: [sub] is the difference of an
    order embedding into Z with convex image. *)
Theorem C10_distance : forall X k, dom_ok X k -> forall phi sub, integral X phi sub -> disc X = true ->
  forall a b, exists l, enumerates X (mem X k (inner_complement X k a b)) l /\
                        distance X k sub a b = Z.of_nat (length l).
Proof. exact distance_spec. Qed.

Lemma Z_integral : integral Zdom (fun z => z) Z.sub.
Proof. split; [|split]; cbn; auto. intros x y z _. exists z; auto. Qed.
Lemma u8_integral : integral u8dom u8z (fun y x => u8z y - u8z x)%Z.
Proof.
  split; [|split]; cbn; auto. intros x y z Hz.
  exists (u8of z). pose proof (u8_range x); pose proof (u8_range y).
  unfold u8of; cbn. apply Z.mod_small. lia.
Qed.
Example C10_ex : integral u8dom u8z (fun y x => u8z y - u8z x)%Z /\
  distance Zdom DD Z.sub (constructb Zdom 0%Z 3%Z b_closed) (constructb Zdom 5%Z 9%Z b_open) = 2%Z.
Proof. split; [apply u8_integral|reflexivity]. Qed.

(* ------------------------------------------------------------------ C11 *)
(** [above a y]-style room is needed only for intervals closed on the right: the code
    computes [next(upper)].  Ascending order is part of [integral]. *)
Theorem C11_cardinality : forall X k, dom_ok X k -> forall phi sub, integral X phi sub -> disc X = true ->
  forall a, (open_right k a = false -> exists y, forall x, mem X k a x -> lt x y) ->
  exists l, enumerates X (mem X k a) l /\
            cardinality X k sub a = Fin (Z.of_nat (length l)) /\
            length_ X k sub a = Z.of_nat (length l).
Proof. exact cardinality_spec. Qed.

(** Findings: (1) at the top of a bounded domain the count is wrong: [0,255] of
    unsigned char has cardinality 0.  (2) with std::greater it is negative. *)
Theorem C11_full_range_refuted : exists a,
  is_empty u8dom CL a = false /\
  cardinality u8dom CL (fun y x => u8z y - u8z x)%Z a = Fin 0.
Proof. exists (construct u8dom CL (u8of 0) (u8of 255)). split; vm_compute; reflexivity. Qed.
Theorem C11_descending_refuted : exists a,
  dom_ok Zrev RO /\ is_empty Zrev RO a = false /\ cardinality Zrev RO Z.sub a = Fin (-3).
Proof.
  exists (construct Zrev RO 5%Z 2%Z). split; [apply Zrev_ok; discriminate|]. split; reflexivity.
Qed.

Example C11_ex : integral Zdom (fun z => z) Z.sub /\
  cardinality Zdom OP Z.sub (construct Zdom OP 0%Z 4%Z) = Fin 3.
Proof. split; [apply Z_integral|reflexivity]. Qed.

(* ------------------------------------------------------------------ C12 *)
(** [has_first]/[has_last]: the overload exists (discrete domain, or a closed border). *)
Theorem C12_first : forall X k, dom_ok X k -> forall a, has_first X k = true -> (exists x, mem X k a x) ->
  mem X k a (first X k a) /\ forall x, mem X k a x -> le (first X k a) x.
Proof. exact first_spec. Qed.
Theorem C12_last : forall X k, dom_ok X k -> forall a, has_last X k = true -> (exists x, mem X k a x) ->
  mem X k a (Interval.last X k a) /\ forall x, mem X k a x -> le x (Interval.last X k a).
Proof. exact last_spec. Qed.
(** [room_up]/[room_dn]: the constructor's step has room (trivial for closed bounds). *)
Theorem C12_singleton : forall X k, dom_ok X k -> forall v x, (dynamic k = false -> disc X = true) ->
  room_up X k v -> room_dn X k v -> (mem X k (singleton X k v) x <-> x = v).
Proof. exact singleton_spec. Qed.
Theorem C12_span : forall X k, dom_ok X k -> forall l r x,
  mem X k (span X k l r) x <-> mem X k (construct X k l r) x \/ mem X k (construct X k r l) x.
Proof. exact span_spec. Qed.
Theorem C12_hull_of_points : forall X k, dom_ok X k -> forall l r x, (dynamic k = false -> disc X = true) ->
  room_up X k l -> room_up X k r -> room_dn X k l -> room_dn X k r ->
  (mem X k (hull_points X k l r) x <-> (le l x /\ le x r) \/ (le r x /\ le x l)).
Proof. exact hull_points_spec. Qed.

Example C12_ex : room_up u8dom OP (u8of 254) /\ room_dn u8dom OP (u8of 1) /\
  first u8dom OP (singleton u8dom OP (u8of 9)) = u8of 9.
Proof.
  split; [exists (u8of 255); reflexivity|]. split; [exists (u8of 0); reflexivity|].
  apply u8_ext; reflexivity.
Qed.

(* ------------------------------------------------------------------ C50 *)
Theorem C50_bits : forall a b,
  Bleft (enc a) = enc (b_left a) /\ Bright (enc a) = enc (b_right a) /\
  Ball (enc a) = enc a /\
  Breverse_left (enc a) = enc (b_reverse_left a) /\
  Breverse_right (enc a) = enc (b_reverse_right a) /\
  Beq (enc a) (enc b) = b_eqb a b /\
  Bor (enc a) (enc b) = enc (b_or a b) /\
  Bouter (enc a) (enc b) = enc (outer_bounds a b) /\
  Binner (enc a) (enc b) = enc (inner_bounds a b) /\
  Blefts (enc a) (enc b) = enc (left_bounds a b) /\
  Brights (enc a) (enc b) = enc (right_bounds a b) /\
  Blsub (enc a) (enc b) = enc (left_subtract_bounds a b) /\
  Brsub (enc a) (enc b) = enc (right_subtract_bounds a b) /\
  Bcompl (enc a) = is_complementary a /\
  Bleft_closed (enc a) = bl a /\ Bright_closed (enc a) = br a.
Proof. exact enc_ops. Qed.
Theorem C50_all_bounds : forall n, (n < 4)%N -> exists b, n = enc b.
Proof. exact enc_range. Qed.
Theorem C50_sides : forall a b,
  (bl (outer_bounds a b) = bl a /\ br (outer_bounds a b) = br b) /\
  (bl (inner_bounds a b) = negb (br a) /\ br (inner_bounds a b) = negb (bl b)) /\
  (bl (left_bounds a b) = bl a /\ br (left_bounds a b) = bl b) /\
  (bl (right_bounds a b) = br a /\ br (right_bounds a b) = br b) /\
  (is_complementary a = negb (Bool.eqb (bl a) (br a))).
Proof. exact bounds_sides. Qed.
(** Finding: left_subtract_bounds / right_subtract_bounds (not called by the library)
    ignore the minuend's outer border: subtracting on the left always yields a right-closed
    interval, whatever the minuend's right border is. *)
Theorem C50_subtract_bounds_refuted : exists a b,
  Bright_closed a = false /\ Bright_closed (Blsub a b) = true /\
  Bleft_closed a = false /\ Bleft_closed (Brsub a b) = true.
Proof. exists B_open, B_closed. repeat split; reflexivity. Qed.
Example C50_ex : Binner B_right_open B_right_open = B_right_open /\ Bcompl B_right_open = true.
Proof. split; reflexivity. Qed.

(* ------------------------------------------------------------------ C52 *)
(** interval<T>::open/closed/left_open/right_open(l,u) with statically bounded default
    intervals: the stored interval has the elements of the declared one, for an ascending
    Compare and where the shifted border has room. *)
Theorem C52_static_factory : forall X k, dom_ok X k -> forall decl l u x,
  dynamic k = false -> disc X = true -> incr X = true ->
  (bl decl = bl (static_bounds k) \/ (if bl decl then exists y, lt y l else exists y, lt l y)) ->
  (br decl = br (static_bounds k) \/ (if br decl then exists y, lt u y else exists y, lt y u)) ->
  (mem X k (static_interval X k decl l u) x <->
   (if bl decl then le l x else lt l x) /\ (if br decl then le x u else lt x u)).
Proof. exact static_interval_spec. Qed.
(** Finding: with std::greater the shift goes the wrong way (icl::succ/pred ignore Compare):
    closed [5,3] = {5,4,3} is stored right-open as [5,4) = {5}. *)
Theorem C52_descending_refuted : exists l u x,
  dom_ok Zrev RO /\ (le l x /\ @le Zrev x u) /\ ~ mem Zrev RO (static_interval Zrev RO b_closed l u) x.
Proof.
  exists 5%Z, 3%Z, 3%Z. split; [apply Zrev_ok; discriminate|]. split; [split; reflexivity|].
  intros [_ H]. vm_compute in H. discriminate.
Qed.
Example C52_ex : static_interval Zdom RO b_closed 2%Z 5%Z = construct Zdom RO 2%Z 6%Z /\ incr Zdom = true.
Proof. split; reflexivity. Qed.

(** Property theorems C60-C66: element containers (icl::map, std::set used as an itl set) and
    the morphisms between element and interval containers.  Vocabulary: ElemSpec.v.
    [eat X m x] is the value the map m associates with the key x, [has_elem X s x] says that
    the set s contains x; [echanged X m m' P g]: m' is m with every association o of a key
    satisfying P replaced by g o; [ecombined X m o m' g]: the same with g v wherever the
    operand associates v.  The domain is any totally ordered type; [ereach X CC p raw m]: a
    finite history of operations produces m, [raw] allowing those of std::map as well. *)
From Verif Require Import ElemSpec ElemFacts ElemOps ElemThms ElemThms2 ElemConv ElemRefine ElemTop.
From Verif Require Import MapSpec MapReach MapThms3 SetSpec Instances MapInst PropInterval PropSet PropMap.
From Verif Require Import MapModel ElemModel.
From Coq Require Import Sorted ZArith.
Open Scope nat_scope.

(** concrete containers over the integers *)
Notation emap_ p l := (foldM (fun m n => em_add Zdom (mt Zco p) m (fst n) (snd n)) [] l).
Notation zereach := (ereach Zdom Zco).
Lemma ebuild_reach p raw l : forall m m', zereach p raw m ->
  foldM (fun m n => em_add Zdom (mt Zco p) m (fst n) (snd n)) m l = Ok m' -> zereach p raw m'.
Proof.
  induction l as [|n l IH]; intros m m' R E; cbn [foldM] in E; [injection E as <-; exact R|].
  destruct (em_add Zdom (mt Zco p) m (fst n) (snd n)) as [m1|] eqn:E1; cbn [bind] in E; [|discriminate E]. apply (IH m1); [|exact E]. eapply E_add; eauto.
Qed.
Ltac ebuilt p l :=
  let r := eval vm_compute in (emap_ p l) in
  match r with Ok ?t => exists t; split; [apply (ebuild_reach p _ l []); [constructor|vm_compute; reflexivity]|] end.
Definition zset_ (l : list Z) := fold_left (es_add Zdom) l [].
Lemma zset_reach l : sreach Zdom (zset_ l).
Proof.
  unfold zset_. assert (G : forall s, sreach Zdom s -> sreach Zdom (fold_left (es_add Zdom) l s)); [|apply G; constructor].
  induction l as [|x l IH]; intros s H; [exact H|]. cbn. apply IH. constructor. exact H.
Qed.

(* ------------------------------------------------------------------ C60 *)
(** icl::map: += and add with a value, also with a hint; -= ; insert; erase; ^= ; &=. *)
Theorem C60_add : forall X, strict_total X -> forall CC, eq_ok CC -> forall p raw m, ereach X CC p raw m -> forall x v,
  exists m', em_add X (mt CC p) m x v = Ok m' /\ echanged X m m' (eq x) (add_val CC p v).
Proof. exact top_add. Qed.
Theorem C60_add_hint : forall X, strict_total X -> forall CC, eq_ok CC -> forall p raw m, ereach X CC p raw m -> forall x v,
  proper CC p -> exists m', em_add_hint X (mt CC p) m x v = Ok m' /\ echanged X m m' (eq x) (add_val CC p v).
Proof. exact top_add_hint. Qed.
Theorem C60_subtract : forall X, strict_total X -> forall CC, eq_ok CC -> forall p raw m, ereach X CC p raw m -> forall x v,
  exists m', em_subtract X (mt CC p) m x v = Ok m' /\ echanged X m m' (eq x) (esub_val CC p v).
Proof. exact top_subtract. Qed.
(** insert also reports whether the key was free *)
Theorem C60_insert : forall X, strict_total X -> forall CC, eq_ok CC -> forall p raw m, ereach X CC p raw m -> forall x v,
  echanged X m (fst (fst (em_insert X (mt CC p) m x v))) (eq x) (ins_val CC p v) /\
  (snd (em_insert X (mt CC p) m x v) = true <-> absorbed CC p v = true \/ eat X m x = None).
Proof. exact top_insert. Qed.
(** erase returns the number of erased pairs *)
Theorem C60_erase_pair : forall X, strict_total X -> forall CC, eq_ok CC -> forall p raw m, ereach X CC p raw m -> forall x v,
  exists m' c, em_erase_pair X (mt CC p) m x v = Ok (m', c) /\
    echanged X m m' (eq x) (fun o => if absorbed CC p v then o else erase_val CC v o) /\
    c = (if absorbed CC p v then 0 else match eat X m x with Some w => if cc_eq w v then 1 else 0 | None => 0 end).
Proof. exact top_erase_pair. Qed.
Theorem C60_erase_key : forall X, strict_total X -> forall CC, eq_ok CC -> forall p raw m, ereach X CC p raw m -> forall x,
  exists m' c, e_erase_key X m x = Ok (m', c) /\ echanged X m m' (eq x) (fun _ => None) /\
    c = match eat X m x with Some _ => 1 | None => 0 end.
Proof. exact top_erase_key. Qed.
Theorem C60_flip : forall X, strict_total X -> forall CC, eq_ok CC -> forall p raw m, ereach X CC p raw m -> forall x v,
  mp_total p = false -> exists m', em_flip X (mt CC p) m x v = Ok m' /\ echanged X m m' (eq x) (eflip_val CC p v).
Proof. exact top_flip. Qed.
Theorem C60_flip_total_absorber : forall X (CC : codomain) p m x (v : CC), mp_total p = true -> mp_absorbs p = true ->
  em_flip X (mt CC p) m x v = Ok [].
Proof. exact flip_total_absorber. Qed.
Theorem C60_flip_total_enricher : forall X, strict_total X -> forall CC, eq_ok CC -> forall p raw m, ereach X CC p raw m -> forall x v,
  mp_total p = true -> mp_absorbs p = false -> exists m', em_flip X (mt CC p) m x v = Ok m' /\
    forall y, (y = x \/ eat X m y <> None -> eat X m' y = Some cc_zero) /\ (y <> x -> eat X m y = None -> eat X m' y = None).
Proof. exact top_flip_enricher. Qed.
Theorem C60_and_pair : forall X, strict_total X -> forall CC, eq_ok CC -> forall p raw m, ereach X CC p raw m -> forall x v,
  mp_total p = false -> exists m', em_and_pair X (mt CC p) m x v = Ok m' /\
    forall y, (y = x -> eat X m' y = and_val CC p v (eat X m y)) /\ (y <> x -> eat X m' y = None).
Proof. exact top_and_pair. Qed.
Theorem C60_and_pair_total : forall X, strict_total X -> forall CC, eq_ok CC -> forall p raw m, ereach X CC p raw m -> forall x v,
  mp_total p = true -> exists m', em_and_pair X (mt CC p) m x v = Ok m' /\ echanged X m m' (eq x) (add_val CC p v).
Proof. exact top_and_pair_total. Qed.
(** m &= key keeps at most the pair of the key *)
Theorem C60_and_key : forall X (HT : strict_total X) CC, eq_ok CC -> forall p raw m, ereach X CC p raw m -> forall x,
  proper CC p -> mp_combine p <> F_minus -> mp_absorbs p = false \/ raw = false ->
  exists m', em_and_key X (mt CC p) m x = Ok m' /\ forall y, eat X m' y = if el_dec X HT y x then eat X m y else None.
Proof. exact top_and_key. Qed.
(** operations with a whole map *)
Theorem C60_add_map : forall X, strict_total X -> forall CC, eq_ok CC -> forall p raw m o, ereach X CC p raw m -> ereach X CC p raw o ->
  proper CC p -> exists m', em_add_map X (mt CC p) m o = Ok m' /\ ecombined X m o m' (add_val CC p).
Proof. exact top_add_map. Qed.
Theorem C60_subtract_map : forall X, strict_total X -> forall CC, eq_ok CC -> forall p raw m o, ereach X CC p raw m -> ereach X CC p raw o ->
  exists m', em_subtract_map X (mt CC p) m o = Ok m' /\ ecombined X m o m' (esub_val CC p).
Proof. exact top_subtract_map. Qed.
Theorem C60_insert_map : forall X, strict_total X -> forall CC, eq_ok CC -> forall p raw m o, ereach X CC p raw m -> ereach X CC p raw o ->
  ecombined X m o (em_insert_map X (mt CC p) m o) (ins_val CC p).
Proof. exact top_insert_map. Qed.
Theorem C60_erase_map : forall X, strict_total X -> forall CC, eq_ok CC -> forall p raw m o, ereach X CC p raw m -> ereach X CC p raw o ->
  exists m', em_erase_map X (mt CC p) m o = Ok m' /\
    ecombined X m o m' (fun v w => if absorbed CC p v then w else erase_val CC v w).
Proof. exact top_erase_map. Qed.
Theorem C60_flip_map : forall X, strict_total X -> forall CC, eq_ok CC -> forall p raw m o, ereach X CC p raw m -> ereach X CC p raw o ->
  mp_total p = false -> exists m', em_flip_map X (mt CC p) m o = Ok m' /\ ecombined X m o m' (eflip_val CC p).
Proof. exact top_flip_map. Qed.
Theorem C60_flip_map_total_enricher : forall X, strict_total X -> forall CC, eq_ok CC -> forall p raw m o, ereach X CC p raw m -> ereach X CC p raw o ->
  mp_total p = true -> mp_absorbs p = false -> exists m', em_flip_map X (mt CC p) m o = Ok m' /\
    forall y, (eat X o y <> None \/ eat X m y <> None -> eat X m' y = Some cc_zero) /\ (eat X o y = None -> eat X m y = None -> eat X m' y = None).
Proof. intros X HT CC Hco p raw m o R _. exact (top_flip_map_enricher X HT CC Hco p raw m o R). Qed.
Theorem C60_and_map : forall X, strict_total X -> forall CC, eq_ok CC -> forall p raw m o, ereach X CC p raw m -> ereach X CC p raw o ->
  mp_total p = false -> exists m', em_and_map X (mt CC p) m o = Ok m' /\
    forall x, eat X m' x = match eat X o x with Some v => and_val CC p v (eat X m x) | None => None end.
Proof. exact top_and_map. Qed.
Theorem C60_and_map_total : forall X, strict_total X -> forall CC, eq_ok CC -> forall p raw m o, ereach X CC p raw m -> ereach X CC p raw o ->
  proper CC p -> mp_total p = true -> exists m', em_and_map X (mt CC p) m o = Ok m' /\ ecombined X m o m' (add_val CC p).
Proof. exact top_and_map_total. Qed.
(** operations with a set of keys *)
Theorem C60_erase_set : forall X, strict_total X -> forall CC, eq_ok CC -> forall p raw m s, ereach X CC p raw m -> sreach X s ->
  exists m', em_erase_set X (mt CC p) m s = Ok m' /\ echanged X m m' (has_elem X s) (fun _ => None).
Proof. exact top_erase_set. Qed.
Theorem C60_subtract_set : forall X, strict_total X -> forall CC, eq_ok CC -> forall p raw m s, ereach X CC p raw m -> sreach X s ->
  exists m', em_subtract_set X (mt CC p) m s = Ok m' /\ echanged X m m' (has_elem X s) (fun _ => None).
Proof. exact top_subtract_set. Qed.
Theorem C60_and_set : forall X, strict_total X -> forall CC, eq_ok CC -> forall p raw m s, ereach X CC p raw m -> sreach X s ->
  exists m', em_and_set X (mt CC p) m s = Ok m' /\
    forall x, (has_elem X s x -> eat X m' x = copy_val CC p (eat X m x)) /\ (~ has_elem X s x -> eat X m' x = None).
Proof. exact top_and_set. Qed.

Notation ZA := (mt Zco (absorber MJoin)).
Example C60_ex : exists m, zereach (absorber MJoin) false m /\ m = [(1, 1); (2, 5); (4, 3)]%Z /\
  em_add Zdom ZA m 2%Z (-5)%Z = Ok [(1, 1); (4, 3)]%Z /\ em_subtract Zdom ZA m 4%Z 1%Z = Ok [(1, 1); (2, 5); (4, 2)]%Z /\
  fst (fst (em_insert Zdom ZA m 3%Z 9%Z)) = [(1, 1); (2, 5); (3, 9); (4, 3)]%Z /\ em_flip Zdom ZA m 1%Z 4%Z = Ok [(2, 5); (4, 3)]%Z /\
  em_and_map Zdom ZA m [(2, 1); (3, 7); (4, -3)]%Z = Ok [(2, 6)]%Z /\
  em_erase_set Zdom ZA m (zset_ [4; 1; 9]%Z) = Ok [(2, 5)]%Z.
Proof. ebuilt (absorber MJoin) [(4, 3); (2, 2); (1, 1); (2, 3)]%Z. repeat split; vm_compute; reflexivity. Qed.
(** Findings.  In contrast to interval_map, subtraction in an icl::map does not ignore the
    identity element: with inplace_max in an absorber, m -= (k, 0) changes the value (compare
    [C35_subtract] and [sub_val]). *)
Theorem C60_subtract_identity_refuted : exists m, zereach (with_ F_max (absorber MJoin)) false m /\ m = [(1, 5)]%Z /\
  exists m', em_subtract Zdom (mt Zco (with_ F_max (absorber MJoin))) m 1%Z 0%Z = Ok m' /\ eat Zdom m' 1%Z = None.
Proof. ebuilt (with_ F_max (absorber MJoin)) [(1, 5)]%Z. split; [reflexivity|]. eexists. split; vm_compute; reflexivity. Qed.
(** Without [proper], += of a map and a loop of += of its pairs differ: the former starts from
    max(0, v). *)
Theorem C60_add_map_improper_refuted : exists m o, let p := with_ F_max (enricher MJoin) in zereach p false m /\ zereach p false o /\
  exists r, em_add_map Zdom (mt Zco p) m o = Ok r /\ eat Zdom r 1%Z = Some 0%Z /\ eat Zdom o 1%Z = Some (-3)%Z /\ eat Zdom m 1%Z = None.
Proof.
  exists [], [(1, -3)]%Z. cbv zeta. split; [constructor|]. split; [eapply (ebuild_reach _ _ [(1, -3)]%Z []); [constructor|reflexivity]|].
  eexists. split; [reflexivity|]. repeat split; reflexivity.
Qed.

(* ------------------------------------------------------------------ C61 *)
(** std::set with the functions of concept/element_set.hpp *)
Theorem C61_add : forall X, strict_total X -> forall s, sreach X s -> forall x y,
  has_elem X (es_add X s x) y <-> y = x \/ has_elem X s y.
Proof. intros X HT s R x. apply (es_add_ok X HT). exact (sreach_sorted X HT s R). Qed.
Theorem C61_subtract : forall X, strict_total X -> forall s, sreach X s -> forall x,
  exists s', es_subtract X s x = Ok s' /\ forall y, has_elem X s' y <-> has_elem X s y /\ y <> x.
Proof. intros X HT s R x. destruct (es_subtract_ok X HT s x (sreach_sorted X HT s R)) as (s' & E & _ & H). eauto. Qed.
Theorem C61_flip : forall X, strict_total X -> forall s, sreach X s -> forall x,
  exists s', es_flip X s x = Ok s' /\ forall y, has_elem X s' y <-> (y = x /\ ~ has_elem X s x) \/ (y <> x /\ has_elem X s y).
Proof. intros X HT s R x. destruct (es_flip_ok X HT s x (sreach_sorted X HT s R)) as (s' & E & _ & H). eauto. Qed.
Theorem C61_and : forall X, strict_total X -> forall s, sreach X s -> forall x y,
  has_elem X (es_and_key X s x) y <-> y = x /\ has_elem X s y.
Proof.
  intros X HT s R x y. pose proof (proj2 (es_isec_key_ok X HT [] s x ltac:(constructor) (sreach_sorted X HT s R)) y) as H.
  unfold es_and_key. rewrite H. split; [intros [[]|Q]; exact Q|intros Q; right; exact Q].
Qed.
Theorem C61_add_set : forall X, strict_total X -> forall s o, sreach X s -> sreach X o -> forall y,
  has_elem X (es_add_set X s o) y <-> has_elem X s y \/ has_elem X o y.
Proof. intros X HT s o R _. apply (es_add_set_ok X HT). exact (sreach_sorted X HT s R). Qed.
Theorem C61_subtract_set : forall X, strict_total X -> forall s o, sreach X s -> sreach X o ->
  exists s', es_subtract_set X s o = Ok s' /\ forall y, has_elem X s' y <-> has_elem X s y /\ ~ has_elem X o y.
Proof. intros X HT s o R _. destruct (es_subtract_set_ok X HT s o (sreach_sorted X HT s R)) as (s' & E & _ & H). eauto. Qed.
Theorem C61_and_set : forall X, strict_total X -> forall s o, sreach X s -> sreach X o ->
  exists s', es_and_set X s o = Ok s' /\ forall y, has_elem X s' y <-> has_elem X s y /\ has_elem X o y.
Proof.
  intros X HT s o R Ro. destruct (es_isec_ok X HT [] s o ltac:(constructor) (sreach_sorted X HT s R) (sreach_sorted X HT o Ro)) as (s' & E & _ & H).
  exists s'. split; [exact E|]. intros y. rewrite H. split; [intros [[]|Q]; exact Q|intros Q; right; exact Q].
Qed.
Theorem C61_flip_set : forall X, strict_total X -> forall s o, sreach X s -> sreach X o ->
  exists s', es_flip_set X s o = Ok s' /\ forall y, has_elem X s' y <-> (has_elem X s y /\ ~ has_elem X o y) \/ (~ has_elem X s y /\ has_elem X o y).
Proof.
  intros X HT s o R Ro. destruct (es_flip_set_ok X HT s o (sreach_sorted X HT s R) (sreach_sorted X HT o Ro)) as (s' & E & _ & H). eauto.
Qed.
Example C61_ex : sreach Zdom (zset_ [5; 1; 3; 1]%Z) /\ map fst (zset_ [5; 1; 3; 1]%Z) = [1; 3; 5]%Z /\
  (exists s, es_flip_set Zdom (zset_ [5; 1; 3]%Z) (zset_ [3; 4]%Z) = Ok s /\ map fst s = [1; 4; 5]%Z) /\
  (exists s, es_and_set Zdom (zset_ [5; 1; 3]%Z) (zset_ [3; 4]%Z) = Ok s /\ map fst s = [3]%Z).
Proof. split; [apply zset_reach|]. repeat split; try (eexists; split; vm_compute; reflexivity). Qed.

(* ------------------------------------------------------------------ C62 *)
Theorem C62_map_ascending : forall X, strict_total X -> forall CC, eq_ok CC -> forall p raw m, ereach X CC p raw m -> esorted X m.
Proof. exact ereach_sorted. Qed.
Theorem C62_map_one_value : forall X, strict_total X -> forall CC, eq_ok CC -> forall p raw m, ereach X CC p raw m ->
  forall x v, eat X m x = Some v <-> In (x, v) m.
Proof. intros X HT CC Hco p raw m R x v. symmetry. apply (in_at X HT CC). exact (ereach_sorted X HT CC Hco p raw m R). Qed.
Theorem C62_set_ascending : forall X, strict_total X -> forall s, sreach X s -> esorted X s.
Proof. exact sreach_sorted. Qed.
Theorem C62_no_identity_stored : forall X, strict_total X -> forall CC, eq_ok CC -> forall p, mp_absorbs p = true -> proper CC p ->
  forall m, ereach X CC p false m -> forall x, eat X m x <> Some cc_zero.
Proof. exact ereach_clean. Qed.
(** Finding: the range constructors and operator[] of icl::map store identity elements in an
    absorber, so an absorber built with them can differ from an equal function. *)
Theorem C62_raw_identity_refuted : exists m, zereach (absorber MJoin) true m /\ eat Zdom m 1%Z = Some 0%Z.
Proof. exists [(1, 0)]%Z. split; [|reflexivity]. apply (E_raw Zdom Zco (absorber MJoin) true [] 1%Z 0%Z); [reflexivity|constructor]. Qed.
Example C62_ex : proper Zco (absorber MJoin) /\ exists m, zereach (absorber MJoin) false m /\ m = [(1, 1); (4, 3)]%Z.
Proof. split; [apply Z_proper|]. ebuilt (absorber MJoin) [(4, 3); (2, 2); (1, 1); (2, -2)]%Z. reflexivity. Qed.

(* ------------------------------------------------------------------ C63 *)
Theorem C63_lookup : forall X, strict_total X -> forall CC, eq_ok CC -> forall p raw m, ereach X CC p raw m -> forall x,
  em_lookup X (mt CC p) m x = Ok (match eat X m x with Some v => v | None => cc_zero end).
Proof. exact top_lookup. Qed.
Theorem C63_contains_key : forall X, strict_total X -> forall CC, eq_ok CC -> forall p raw m, ereach X CC p raw m -> forall x,
  e_contains_key X m x = true <-> eat X m x <> None.
Proof. exact top_contains_key. Qed.
Theorem C63_contains_pair : forall X, strict_total X -> forall CC, eq_ok CC -> forall p raw m, ereach X CC p raw m -> forall x v,
  exists b, em_contains_pair X (mt CC p) m x v = Ok b /\ (b = true <-> eat X m x = Some v).
Proof. exact top_contains_pair. Qed.
Theorem C63_within : forall X, strict_total X -> forall CC, eq_ok CC -> forall p raw m o, ereach X CC p raw m -> ereach X CC p raw o ->
  exists b, em_within X (mt CC p) m o = Ok b /\ (b = true <-> forall x v, eat X m x = Some v -> eat X o x = Some v).
Proof. exact top_within. Qed.
Theorem C63_inclusion : forall X, strict_total X -> forall CC, eq_ok CC -> forall p raw m o, ereach X CC p raw m -> ereach X CC p raw o ->
  forall (co : C CC -> C CC -> incl) (Q : C CC -> C CC -> Prop),
  (forall v w, (fst (co v w) = true <-> Q v w) /\ (snd (co v w) = true <-> Q w v)) ->
  exists r, e_inclusion_compare X (Some co) m o = Ok r /\
    (fst r = true <-> forall x v, eat X m x = Some v -> exists w, eat X o x = Some w /\ Q v w) /\
    (snd r = true <-> forall x w, eat X o x = Some w -> exists v, eat X m x = Some v /\ Q w v).
Proof. exact top_inclusion. Qed.
Theorem C63_equal : forall X, strict_total X -> forall CC, eq_ok CC -> forall p raw m o, ereach X CC p raw m -> ereach X CC p raw o ->
  em_eqb X (mt CC p) m o = true <-> forall x, eat X m x = eat X o x.
Proof. exact top_eqb. Qed.
(** is_distinct_equal ignores identity elements *)
Theorem C63_distinct_equal : forall X, strict_total X -> forall CC, eq_ok CC -> forall p raw m o, ereach X CC p raw m -> ereach X CC p raw o ->
  exists b, em_distinct_eqb X (mt CC p) m o = Ok b /\
    (b = true <-> forall x v, v <> cc_zero -> (eat X m x = Some v <-> eat X o x = Some v)).
Proof. exact top_distinct. Qed.
(** operator < is a strict total order whose equivalence is == *)
Theorem C63_less : forall X, strict_total X -> forall CC, eq_ok CC -> forall p, co_order CC -> let f := em_ltb X (mt CC p) in
  (forall m, f m m = false) /\ (forall a b c, f a b = true -> f b c = true -> f a c = true) /\
  (forall a b, em_eqb X (mt CC p) a b = true <-> f a b = false /\ f b a = false).
Proof. exact top_less. Qed.
Theorem C63_intersects_map : forall X, strict_total X -> forall CC, eq_ok CC -> forall p raw m o, ereach X CC p raw m -> ereach X CC p raw o ->
  exists b, em_intersects_map X (mt CC p) m o = Ok b /\
    (b = true <-> mp_total p = true \/ exists x, eat X m x <> None /\ eat X o x <> None).
Proof. exact top_intersects_map. Qed.
Theorem C63_intersects_set : forall X, strict_total X -> forall CC, eq_ok CC -> forall p raw m s, ereach X CC p raw m -> sreach X s ->
  exists b, em_intersects_set X (mt CC p) m s = Ok b /\
    (b = true <-> mp_total p = true \/ exists x, eat X m x <> None /\ has_elem X s x).
Proof. exact top_intersects_set. Qed.
(** domain(m) adds the keys of m to a set *)
Theorem C63_domain : forall X, strict_total X -> forall CC, eq_ok CC -> forall p m s, sreach X s ->
  forall x, has_elem X (em_domain X (mt CC p) s m) x <-> has_elem X s x \/ eat X m x <> None.
Proof. intros X HT CC _ p m s R. exact (top_domain X HT CC p m s R). Qed.
Theorem C63_set_equal : forall X, strict_total X -> forall s o, sreach X s -> sreach X o ->
  es_eqb X s o = true <-> forall x, has_elem X s x <-> has_elem X o x.
Proof. intros X HT s o R Ro. apply (es_eqb_ok X HT); apply (sreach_sorted X HT); assumption. Qed.

Example C63_ex : exists m, zereach (absorber MJoin) false m /\ m = [(1, 1); (2, 5); (4, 3)]%Z /\
  em_lookup Zdom ZA m 2%Z = Ok 5%Z /\ em_lookup Zdom ZA m 3%Z = Ok 0%Z /\ em_contains_pair Zdom ZA m 4%Z 3%Z = Ok true /\
  em_within Zdom ZA [(2, 5)]%Z m = Ok true /\ em_within Zdom ZA [(2, 4)]%Z m = Ok false /\
  em_distinct_eqb Zdom ZA m [(1, 1); (2, 5); (3, 0); (4, 3)]%Z = Ok true /\ em_intersects_map Zdom ZA m [(3, 0); (4, 9)]%Z = Ok true /\
  em_ltb Zdom ZA m [(1, 2)]%Z = true /\ map fst (em_domain Zdom ZA [] m) = [1; 2; 4]%Z.
Proof. ebuilt (absorber MJoin) [(4, 3); (2, 2); (1, 1); (2, 3)]%Z. repeat split; vm_compute; reflexivity. Qed.

(* ------------------------------------------------------------------ C64 *)
(** atomize and cluster: interval containers to element containers and back.  [fuel] bounds
    the steps of the element loop; the theorem says that the loop ends. *)
Theorem C64_atomize_set : forall X k, dom_ok X k -> forall phi sub, integral X phi sub -> disc X = true -> incr X = true -> forall st t,
  reach X k st t -> (forall x, cmem X k t x -> exists y, lt x y) ->
  exists s N, esorted X s /\ sagrees X k t s /\ forall fuel, N < fuel -> atomize_set X k fuel [] t = Ok s.
Proof. exact atomize_set_ok. Qed.
Theorem C64_atomize_map : forall X k, dom_ok X k -> forall phi sub, integral X phi sub -> disc X = true -> incr X = true ->
  forall CC, eq_ok CC -> forall p t, proper CC p -> mreach X k CC p t -> (forall x, at_ X k CC t x <> None -> exists y, lt x y) ->
  exists m N, esorted X m /\ agrees X k CC t m /\ forall fuel, N < fuel -> atomize_map X k (mt CC p) fuel [] t = Ok m.
Proof. exact atomize_map_ok. Qed.
Theorem C64_cluster_set : forall X k, dom_ok X k -> (dynamic k = false -> disc X = true) -> (k = OP -> incr X = true) -> forall st s,
  esorted X s -> (forall x, has_elem X s x -> room_up X k x /\ room_dn X k x) ->
  exists t, cluster_set X k st t_empty s = Ok t /\ reach X k st t /\ sagrees X k t s.
Proof. exact cluster_set_ok. Qed.
Theorem C64_cluster_map : forall X k, dom_ok X k -> (dynamic k = false -> disc X = true) -> (k = OP -> incr X = true) -> forall CC, eq_ok CC ->
  forall p m, mp_combine p <> F_minus -> proper CC p -> ereach X CC p false m ->
  (forall x, eat X m x <> None -> room_up X k x /\ room_dn X k x) ->
  exists t, cluster_map X k (mt CC p) t_empty m = Ok t /\ mreach X k CC p t /\ agrees X k CC t m.
Proof. exact cluster_map_agrees. Qed.

Example C64_ex : (exists t, zreach (absorber MJoin) t /\ segs Zdom Zco t = [sg 0 2 1; sg 4 5 3] /\
    atomize_map Zdom RO ZA 5 [] t = Ok [(0, 1); (1, 1); (4, 3)]%Z) /\
  (exists t, cluster_map Zdom RO ZA t_empty [(0, 1); (1, 1); (2, 5); (4, 3)]%Z = Ok t /\ segs Zdom Zco t = [sg 0 2 1; sg 2 3 5; sg 4 5 3]) /\
  (exists t, cluster_set Zdom RO Joining t_empty (zset_ [1; 2; 5]%Z) = Ok t /\ keys Zdom t = [zi 1 3; zi 5 6]).
Proof. split; [mbuilt Zco (absorber MJoin) [sg 4 5 3; sg 0 2 1]; repeat split; vm_compute; reflexivity|]. split; eexists; split; vm_compute; reflexivity. Qed.
(** Findings.  atomize compares and steps with the raw operators <= and ++ of the domain type.
    With std::greater as the Compare it therefore yields no element at all ... *)
Theorem C64_atomize_reversed_refuted : exists t, reach Zrev RO Joining t /\ keys Zrev t = [construct Zrev RO 5%Z 2%Z] /\
  forall fuel, atomize_set Zrev RO (S fuel) [] t = Ok [].
Proof.
  let r := eval vm_compute in (s_add Zrev RO Joining t_empty (construct Zrev RO 5%Z 2%Z)) in
  match r with Ok (?t, ?it) => exists t; split; [apply (R_add Zrev RO Joining t_empty (construct Zrev RO 5%Z 2%Z) t it); [constructor|reflexivity]|] end.
  split; reflexivity.
Qed.
(** ... and for a closed interval that ends at the greatest value of the type it does not end. *)
Theorem C64_atomize_endless_refuted : exists t, reach u8dom CL Joining t /\ keys u8dom t = [construct u8dom CL (u8of 250) (u8of 255)] /\
  forall fuel, atomize_set u8dom CL fuel [] t = Err Fuel.
Proof.
  let r := eval vm_compute in (s_add u8dom CL Joining t_empty (construct u8dom CL (u8of 250) (u8of 255))) in
  match r with Ok (?t, ?it) => exists t; split; [apply (R_add u8dom CL Joining t_empty (construct u8dom CL (u8of 250) (u8of 255)) t it); [constructor|reflexivity]|] end.
  split; [reflexivity|]. intros fuel. unfold atomize_set. cbn [nodes foldM].
  assert (G : forall A (ins : A -> D u8dom -> A) fuel r x, atomize_loop u8dom fuel ins r x (u8of 255) = Err Fuel).
  { intros A ins. induction fuel0 as [|f IH]; intros r x; [reflexivity|]. cbn [atomize_loop].
    replace (raw_le u8dom x (u8of 255)) with true; [apply IH|]. symmetry. unfold raw_le, leb. cbn [incr u8dom].
    apply Bool.negb_true_iff. apply Z.ltb_ge. pose proof (u8_range x). change (u8z (u8of 255)) with 255%Z. lia. }
  match goal with |- context [atomize_loop u8dom fuel ?i ?r ?x ?l] =>
    replace (atomize_loop u8dom fuel i r x l) with (@Err (list (D u8dom * unit)) Fuel); [reflexivity|symmetry; exact (G _ i fuel r x)] end.
Qed.
(** The constructor of an open_interval from one value also steps with raw -- and ++: with
    std::greater the interval is empty and cluster loses the element. *)
Theorem C64_cluster_reversed_refuted : exists t, cluster_set Zrev OP Joining t_empty [(5%Z, tt)] = Ok t /\ keys Zrev t = [].
Proof. eexists. split; vm_compute; reflexivity. Qed.

(* ------------------------------------------------------------------ C65 *)
(** icl::map under += and -=; equality is equality of the stored sequences. *)
Theorem C65_commutative : forall X, strict_total X -> forall CC, eq_ok CC -> forall p, proper CC p -> cmonoid CC (mp_combine p) ->
  forall a b, ereach X CC p false a -> ereach X CC p false b ->
  exists r, em_add_map X (mt CC p) a b = Ok r /\ em_add_map X (mt CC p) b a = Ok r.
Proof. exact top_comm. Qed.
Theorem C65_associative : forall X, strict_total X -> forall CC, eq_ok CC -> forall p, proper CC p -> cmonoid CC (mp_combine p) ->
  forall a b c, ereach X CC p false a -> ereach X CC p false b -> ereach X CC p false c ->
  exists ab bc r, em_add_map X (mt CC p) a b = Ok ab /\ em_add_map X (mt CC p) b c = Ok bc /\
    em_add_map X (mt CC p) ab c = Ok r /\ em_add_map X (mt CC p) a bc = Ok r.
Proof. exact top_assoc. Qed.
Theorem C65_neutral : forall X, strict_total X -> forall CC, eq_ok CC -> forall p, proper CC p -> cmonoid CC (mp_combine p) ->
  forall a, ereach X CC p false a -> em_add_map X (mt CC p) a [] = Ok a /\ em_add_map X (mt CC p) [] a = Ok a.
Proof. exact top_unit. Qed.
Theorem C65_minus_self : forall X, strict_total X -> forall CC, eq_ok CC -> forall p, proper CC p ->
  forall a, (forall v : C CC, combine CC (inverse CC (mp_combine p)) v v = cc_zero) -> mp_absorbs p = true -> ereach X CC p false a ->
  em_subtract_map X (mt CC p) a a = Ok [].
Proof. exact top_minus_self. Qed.
Theorem C65_group : forall X, strict_total X -> forall CC, eq_ok CC -> forall p, proper CC p -> cmonoid CC (mp_combine p) ->
  forall a b, cgroup CC (mp_combine p) -> mp_absorbs p = true -> mp_total p = true -> cc_invertible CC = true ->
  ereach X CC p false a -> ereach X CC p false b ->
  (exists s, em_add_map X (mt CC p) a b = Ok s /\ em_subtract_map X (mt CC p) s b = Ok a) /\
  (exists d, em_subtract_map X (mt CC p) a b = Ok d /\ em_add_map X (mt CC p) d b = Ok a).
Proof. exact top_group. Qed.
Example C65_ex : proper Zco (tabsorber MJoin) /\ cmonoid Zco F_plus /\ cgroup Zco F_plus /\
  exists a, zereach (tabsorber MJoin) false a /\ a = [(1, 1); (2, 5)]%Z /\
    em_add_map Zdom (mt Zco (tabsorber MJoin)) a [(2, -5); (3, 4)]%Z = Ok [(1, 1); (3, 4)]%Z /\
    em_subtract_map Zdom (mt Zco (tabsorber MJoin)) [(1, 1); (3, 4)]%Z [(2, -5); (3, 4)]%Z = Ok a.
Proof.
  split; [apply Z_proper|]. split; [apply Z_monoid|]. split; [apply Z_group|]. ebuilt (tabsorber MJoin) [(2, 5); (1, 1)]%Z. repeat split; vm_compute; reflexivity.
Qed.

(* ------------------------------------------------------------------ C66 *)
(** add_if(predicate, object, source) of element_associator.hpp adds the pairs of the source
    if all of them satisfy the predicate ... *)
Theorem C66_add_if_partial : forall X, strict_total X -> forall CC, eq_ok CC -> forall p raw m src, ereach X CC p raw m -> ereach X CC p raw src ->
  forall pr : D X -> C CC -> bool, (forall x v, eat X src x = Some v -> pr x v = true) ->
  exists m', em_add_if X (mt CC p) (S (length src)) pr m src = Ok m' /\ ecombined X m src m' (add_val CC p).
Proof.
  intros X HT CC Hco p raw m src R Rs pr H. destruct (add_if_all X HT CC p pr m src) as (m' & E & _ & C);
    [apply (ereach_sorted X HT CC Hco p raw); assumption..|exact H|]. eauto.
Qed.
(** ... and finding: it never ends if one of them does not. *)
Theorem C66_add_if_endless_refuted : forall X, strict_total X -> forall CC, eq_ok CC -> forall p raw (pr : D X -> C CC -> bool) m src,
  ereach X CC p raw m -> (exists x v, In (x, v) src /\ pr x v = false) -> forall fuel, em_add_if X (mt CC p) fuel pr m src = Err Fuel.
Proof. exact top_add_if_endless. Qed.
Example C66_ex : exists src, zereach (absorber MJoin) false src /\ src = [(1, 1); (2, 5)]%Z /\
  em_add_if Zdom ZA 3 (fun _ v => (0 <? v)%Z) [(2, 1)]%Z src = Ok [(1, 1); (2, 6)]%Z.
Proof. ebuilt (absorber MJoin) [(2, 5); (1, 1)]%Z. split; vm_compute; reflexivity. Qed.

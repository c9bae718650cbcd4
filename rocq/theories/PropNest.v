(** Property theorem C90: maps of maps ("Concept Induction" in doc/semantics.qbk).
    [icl_map Y CC absorbs total]: icl::map<Y, CC, Traits> as a type of associated values, NestSpec.v;
    [emap_of]: a map built by adding entries. *)
From Verif Require Import MapSpec MapReach MapThms4 SetSpec Instances MapInst PropMap PropColl PropQuant.
From Verif Require Import NestSpec NestThms CollInst QuantInst.
From Verif Require Import MapModel.
From Coq Require Import ZArith.
Open Scope nat_scope.

(* ------------------------------------------------------------------ C90 *)
(** == of icl::map is equality of the maps *)
Theorem C90_equal : forall Y, strict_total Y -> forall CC, eq_ok CC -> forall absorbs total, eq_ok (icl_map Y CC absorbs total).
Proof. exact icl_map_ok. Qed.
(** + of icl::map adds the values of common keys, in this order, and keeps the other entries *)
Theorem C90_add_entries : forall Y, strict_total Y -> forall CC, eq_ok CC -> forall absorbs total (m o : C (icl_map Y CC absorbs total)),
  (forall v : C CC, cc_add cc_zero v = v) -> forall y,
  entry Y CC absorbs (cc_add m o) y =
  match entry Y CC absorbs m y, entry Y CC absorbs o y with
  | Some v, Some w => if absorbs && cc_eq (cc_add v w) cc_zero then None else Some (cc_add v w)
  | Some v, None => Some v
  | None, r => r
  end.
Proof. exact add_entry_cases. Qed.
(** a map of a (commutative) monoid is a (commutative) monoid; with [proper] the laws of C47-C49 and C89
    hold for interval maps of such maps *)
Theorem C90_monoid : forall Y, strict_total Y -> forall CC, eq_ok CC -> forall absorbs total,
  monoid CC F_plus -> monoid (icl_map Y CC absorbs total) F_plus.
Proof. exact icl_map_monoid. Qed.
Theorem C90_commutative_monoid : forall Y, strict_total Y -> forall CC, eq_ok CC -> forall absorbs total,
  cmonoid CC F_plus -> cmonoid (icl_map Y CC absorbs total) F_plus.
Proof. exact icl_map_cmonoid. Qed.
Theorem C90_proper : forall Y, strict_total Y -> forall CC, eq_ok CC -> forall absorbs total, cmonoid CC F_plus ->
  forall s a t, t = false \/ cc_invertible CC = false \/ (absorbs = true /\ total = true /\ cgroup CC F_plus) ->
  proper (icl_map Y CC absorbs total) (MPar s a t F_plus F_inter_section).
Proof. exact icl_map_proper. Qed.
Theorem C90_no_cancellation : forall Y, strict_total Y -> forall CC, eq_ok CC -> forall absorbs total, absorbs = true ->
  cmonoid CC F_plus -> no_cancellation CC F_plus -> no_cancellation (icl_map Y CC absorbs total) F_plus.
Proof. exact icl_map_free. Qed.
(** a total absorbing map of a commutative group with inverses is a commutative group *)
Theorem C90_group : forall Y, strict_total Y -> forall CC, eq_ok CC -> forall absorbs total, absorbs = true -> total = true ->
  cc_invertible CC = true -> cmonoid CC F_plus -> cgroup CC F_plus -> cgroup (icl_map Y CC absorbs total) F_plus.
Proof. exact icl_map_group. Qed.
(** n total absorbing maps around a group: map<Y, map<Y, ... int, total_absorber>, total_absorber> *)
Fixpoint nested_total (Y : dom) (CC : codomain) (n : nat) : codomain := match n with O => CC | Datatypes.S n => icl_map Y (nested_total Y CC n) true true end.
Theorem C90_nested_group : forall Y, strict_total Y -> forall CC, eq_ok CC -> cc_invertible CC = true -> cmonoid CC F_plus -> cgroup CC F_plus -> forall n,
  let CN := nested_total Y CC n in eq_ok CN /\ cc_invertible CN = true /\ cmonoid CN F_plus /\ cgroup CN F_plus.
Proof.
  intros Y HT CC Hco Ei Hm Hg n. induction n as [|n (IH1 & IH2 & IH3 & IH4)]; [auto|]. cbn [nested_total].
  split; [apply icl_map_ok; assumption|]. split; [exact IH2|]. split; [apply icl_map_cmonoid; assumption|apply icl_map_group; auto].
Qed.
(** so a total interval map of n total maps is a group: (0 - a) + a is empty, (a + b) - b and
    (a - b) + b equal a *)
Theorem C90_total_map_of_maps : forall X k, dom_ok X k -> forall Y, strict_total Y -> forall CC, eq_ok CC -> cc_invertible CC = true ->
  cmonoid CC F_plus -> cgroup CC F_plus -> forall n,
  let CN := nested_total Y CC (Datatypes.S n) in forall s a b, let p := tabsorber s in mreach X k CN p a -> mreach X k CN p b ->
  (exists r, mplus_ X k CN p (mminus_ X k CN p (Ok t_empty) (Ok a)) (Ok a) = Ok r /\ segs X CN r = []) /\
  law X k CN p (mminus_ X k CN p (mplus_ X k CN p (Ok a) (Ok b)) (Ok b)) (Ok a) /\
  law X k CN p (mplus_ X k CN p (mminus_ X k CN p (Ok a) (Ok b)) (Ok b)) (Ok a).
Proof.
  intros X k HX Y HT CC Hco Ei Hm Hg n CN s a b p Ha Hb.
  destruct (C90_nested_group Y HT CC Hco Ei Hm Hg n) as (E1 & E2 & E3 & E4).
  destruct (C90_nested_group Y HT CC Hco Ei Hm Hg (Datatypes.S n)) as (F1 & F2 & F3 & F4).
  apply (thm_group X k HX CN F1 p a b); auto. apply (icl_map_proper Y HT); auto.
Qed.
(** a map of sets is a set (of pairs), so a map of maps of sets is a set, and so on *)
Theorem C90_set : forall Y, strict_total Y -> forall U CC (has : C CC -> U -> bool), set_type CC has ->
  set_type (icl_map Y CC true false) (map_has Y CC has true false).
Proof. exact @icl_map_set_type. Qed.
(** n maps around a set: map<Y, map<Y, ... set>> *)
Fixpoint tuples (Y : dom) (U : Type) (n : nat) : Type := match n with O => U | Datatypes.S n => (D Y * tuples Y U n)%type end.
Fixpoint nested (Y : dom) (CC : codomain) (n : nat) : codomain := match n with O => CC | Datatypes.S n => icl_map Y (nested Y CC n) true false end.
Fixpoint nested_has (Y : dom) {U : Type} (CC : codomain) (has : CC -> U -> bool) (n : nat) : C (nested Y CC n) -> tuples Y U n -> bool :=
  match n with O => has | Datatypes.S n => map_has Y (nested Y CC n) (nested_has Y CC has n) true false end.
Theorem C90_nested : forall Y, strict_total Y -> forall U CC (has : C CC -> U -> bool), set_type CC has -> forall n,
  set_type (nested Y CC n) (nested_has Y CC has n).
Proof. intros Y HT U CC has HS n. induction n as [|n IH]; [exact HS|]. apply (icl_map_set_type Y HT _ _ IH). Qed.
(** Expressions over interval maps of n maps of sets compute with the sets of tuples they represent, and
    == of interval_maps compares these sets. *)
Theorem C90_nested_expressions : forall X k, dom_ok X k -> forall Y, strict_total Y -> forall U CC (has : C CC -> U -> bool), set_type CC has -> forall n,
  let CN := nested Y CC n in let hasN := nested_has Y CC has n in
  forall s b (env : nat -> tree (D X) (C CN)), (forall i, mreach X k CN (coll s b) (env i)) -> forall e e',
  exists t t', value X k CN (coll s b) env e = Ok t /\ value X k CN (coll s b) env e' = Ok t' /\
    (forall x u, pair_in X k CN hasN t x u <-> pairs_of X k CN hasN (fun i => pair_in X k CN hasN (env i)) e x u) /\
    (s = MJoin -> b = true ->
      (m_eqb X k (mt CN (coll s b)) t t' = true <->
       forall x u, pairs_of X k CN hasN (fun i => pair_in X k CN hasN (env i)) e x u <-> pairs_of X k CN hasN (fun i => pair_in X k CN hasN (env i)) e' x u)).
Proof.
  intros X k HX Y HT U CC has HS n CN hasN s b env He e e'. pose proof (C90_nested Y HT U CC has HS n) as HN.
  destruct (C86_expressions X k HX _ CN hasN HN s b env He e) as (t & E & R & P & _).
  destruct (C86_expressions X k HX _ CN hasN HN s b env He e') as (t' & E' & R' & P' & _).
  exists t, t'. split; [exact E|]. split; [exact E'|]. split; [exact P|]. intros Es Eb.
  rewrite (C86_equal X k HX _ CN hasN HN s b t t' Es Eb R R'). split; intros H x u; specialize (H x u); specialize (P x u); specialize (P' x u); tauto.
Qed.

Notation tmap := (icl_map Zdom Zco true true).
Definition tmap_of (l : list (Z * Z)) : C tmap := emap_of Zdom Zco true true l.
Definition tsegs (t : tree Z (C tmap)) : list (itv Z * list (Z * Z)) := map (fun s => (fst s, entries Zdom Zco true (snd s))) (segs Zdom tmap t).
Example C90_group_ex : eq_ok Zco /\ cc_invertible Zco = true /\ cmonoid Zco F_plus /\ cgroup Zco F_plus /\
  exists a, mreach Zdom RO tmap (tabsorber MJoin) a /\ exists b, mreach Zdom RO tmap (tabsorber MJoin) b /\
    tsegs a = [(zi 0 4, [(1, 5)])]%Z /\ tsegs b = [(zi 2 6, [(1, 5); (2, 7)])]%Z /\
    exists m, mminus_ Zdom RO tmap (tabsorber MJoin) (Ok a) (Ok b) = Ok m /\
      tsegs m = [(zi 0 2, [(1, 5)]); (zi 2 4, [(2, -7)]); (zi 4 6, [(1, -5); (2, -7)])]%Z /\
      exists r, mplus_ Zdom RO tmap (tabsorber MJoin) (Ok m) (Ok b) = Ok r /\ tsegs r = [(zi 0 4, [(1, 5)])]%Z.
Proof.
  split; [exact Zco_ok|]. split; [reflexivity|]. split; [apply Z_monoid|]. split; [apply Z_group|].
  mbuilt (icl_map Zdom Zco true true) (tabsorber MJoin) [(zi 0 4, tmap_of [(1, 5)]%Z)].
  mbuilt (icl_map Zdom Zco true true) (tabsorber MJoin) [(zi 2 6, tmap_of [(1, 5); (2, 7)]%Z)].
  split; [vm_compute; reflexivity|]. split; [vm_compute; reflexivity|]. eexists. split; [vm_compute; reflexivity|].
  split; [vm_compute; reflexivity|]. eexists. split; vm_compute; reflexivity.
Qed.
(** Finding: has_inverse<map> follows the codomain also for maps that are not total and have no
    inverse.  A total absorbing interval map of partial maps then inverts values by 0 - v, which is the
    empty map, and stores that identity element although it absorbs identities: subtracting from an
    empty map makes it differ from an empty map, and (0 - a) + a is a. *)
Notation pmap := (icl_map Zdom Zco true false).
Definition pmap_of (l : list (Z * Z)) : C pmap := emap_of Zdom Zco true false l.
Definition psegs (t : tree Z (C pmap)) : list (itv Z * list (Z * Z)) := map (fun s => (fst s, entries Zdom Zco true (snd s))) (segs Zdom pmap t).
Theorem C90_total_map_of_partial_maps_refuted : exists a, mreach Zdom RO pmap (tabsorber MJoin) a /\ psegs a = [(zi 0 4, [(1, 5)])]%Z /\
  (exists m, mminus_ Zdom RO pmap (tabsorber MJoin) (Ok t_empty) (Ok a) = Ok m /\ psegs m = [(zi 0 4, [])]%Z /\
     m_eqb Zdom RO (mt pmap (tabsorber MJoin)) m t_empty = false) /\
  exists r, mplus_ Zdom RO pmap (tabsorber MJoin) (mminus_ Zdom RO pmap (tabsorber MJoin) (Ok t_empty) (Ok a)) (Ok a) = Ok r /\
    psegs r = [(zi 0 4, [(1, 5)])]%Z.
Proof.
  mbuilt (icl_map Zdom Zco true false) (tabsorber MJoin) [(zi 0 4, pmap_of [(1, 5)]%Z)].
  split; [vm_compute; reflexivity|]. split.
  - eexists. split; [vm_compute; reflexivity|]. split; vm_compute; reflexivity.
  - eexists. split; [vm_compute; reflexivity|]. vm_compute. reflexivity.
Qed.

(** an interval map of maps of bit vectors: 1 -> bits {1,2} and 2 -> bit {0}, on overlapping intervals *)
Notation bmap := (icl_map Zdom Bco true false).
Definition bmap_of (l : list (Z * Z)) : C bmap := emap_of Zdom Bco true false l.
Definition bsegs (t : tree Z (C bmap)) : list (itv Z * list (Z * Z)) := map (fun s => (fst s, entries Zdom Bco true (snd s))) (segs Zdom bmap t).
Example C90_ex : set_type (nested Zdom Bco 1) (nested_has Zdom Bco bit_has 1) /\
  exists a, mreach Zdom RO bmap (coll MJoin true) a /\ exists b, mreach Zdom RO bmap (coll MJoin true) b /\
    bsegs a = [(zi 0 4, [(1, 6); (2, 1)])]%Z /\ bsegs b = [(zi 2 6, [(1, 3)])]%Z /\
    exists p m i x, mplus_ Zdom RO bmap (coll MJoin true) (Ok a) (Ok b) = Ok p /\ mminus_ Zdom RO bmap (coll MJoin true) (Ok a) (Ok b) = Ok m /\
      mand_ Zdom RO bmap (coll MJoin true) (Ok a) (Ok b) = Ok i /\ mxor_ Zdom RO bmap (coll MJoin true) (Ok a) (Ok b) = Ok x /\
      bsegs p = [(zi 0 2, [(1, 6); (2, 1)]); (zi 2 4, [(1, 7); (2, 1)]); (zi 4 6, [(1, 3)])]%Z /\
      bsegs m = [(zi 0 2, [(1, 6); (2, 1)]); (zi 2 4, [(1, 4); (2, 1)])]%Z /\
      bsegs i = [(zi 2 4, [(1, 2)])]%Z /\
      bsegs x = [(zi 0 2, [(1, 6); (2, 1)]); (zi 2 4, [(1, 5); (2, 1)]); (zi 4 6, [(1, 3)])]%Z.
Proof.
  split. { apply (C90_nested Zdom); [apply (Zdom_ok RO); discriminate|exact C86_bit_vectors]. }
  mbuilt (icl_map Zdom Bco true false) (coll MJoin true) [(zi 0 4, bmap_of [(1, 6); (2, 1)]%Z)].
  mbuilt (icl_map Zdom Bco true false) (coll MJoin true) [(zi 2 6, bmap_of [(1, 3)]%Z)].
  split; [vm_compute; reflexivity|]. split; [vm_compute; reflexivity|]. eexists _, _, _, _.
  split; [vm_compute; reflexivity|]. split; [vm_compute; reflexivity|]. split; [vm_compute; reflexivity|]. split; [vm_compute; reflexivity|].
  split; [vm_compute; reflexivity|]. split; [vm_compute; reflexivity|]. split; vm_compute; reflexivity.
Qed.

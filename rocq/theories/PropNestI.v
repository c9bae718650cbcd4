(** Property theorem C91: interval containers as associated values ("Concept Induction" in
    doc/semantics.qbk).  [iset Y k]: interval_set<Y>, [icl_imap Y k CC absorbs total]:
    interval_map<Y, CC, Traits>, as types of associated values, NestISpec.v; [iset_of], [imap_of]: values
    built by adding intervals or segments. *)
From Verif Require Import MapSpec MapReach MapThms3 MapThms4 SetSpec Instances MapInst PropMap PropColl PropQuant.
From Verif Require Import NestSpec NestThms NestISpec NestIThms CollInst QuantInst.
From Verif Require Import MapModel.
From Coq Require Import ZArith.
Open Scope nat_scope.

(* ------------------------------------------------------------------ C91 *)
(** interval_set is a set type: the laws C86, C87 hold for interval maps of interval sets *)
Theorem C91_interval_set : forall Y k, dom_ok Y k -> set_type (iset Y k) (iset_has Y k).
Proof. exact iset_set_type. Qed.
(** == of interval_map is equality of the functions *)
Theorem C91_equal : forall Y k, dom_ok Y k -> forall CC, eq_ok CC -> forall absorbs total, eq_ok (icl_imap Y k CC absorbs total).
Proof. exact icl_imap_ok. Qed.
Theorem C91_extensional : forall Y k, dom_ok Y k -> forall CC, eq_ok CC -> forall absorbs total (m o : C (icl_imap Y k CC absorbs total)),
  (forall y, ival Y k CC absorbs total m y = ival Y k CC absorbs total o y) -> m = o.
Proof. exact ival_ext. Qed.
(** + of interval_maps adds the values of common elements, in this order, and keeps the others *)
Theorem C91_add_values : forall Y k, dom_ok Y k -> forall CC, eq_ok CC -> forall absorbs total, proper CC (icl_par absorbs total) ->
  forall (m o : C (icl_imap Y k CC absorbs total)) y,
  let at_y := fun m => ival Y k CC absorbs total m y in
  at_y (cc_add m o) =
  match at_y m, at_y o with
  | Some v, Some w => if absorbs && cc_eq (cc_add v w) cc_zero then None else Some (cc_add v w)
  | Some v, None => Some v
  | None, r => r
  end.
Proof.
  intros Y k HX CC Hco absorbs total P m o y at_y. unfold at_y. rewrite (iadd_entry Y k HX CC Hco absorbs total P).
  pose proof (ival_good Y k HX CC Hco absorbs total P o y) as G. unfold padd, add_val, plus_val.
  destruct (ival Y k CC absorbs total o y) as [w|]; [|destruct (ival Y k CC absorbs total m y); reflexivity].
  rewrite (NestThms.not_absorbed CC Hco absorbs total w G). destruct (ival Y k CC absorbs total m y); reflexivity.
Qed.
(** the structure of the values carries over to the maps *)
Theorem C91_monoid : forall Y k, dom_ok Y k -> forall CC, eq_ok CC -> forall absorbs total, proper CC (icl_par absorbs total) ->
  monoid CC F_plus -> monoid (icl_imap Y k CC absorbs total) F_plus.
Proof. exact icl_imap_monoid. Qed.
Theorem C91_commutative_monoid : forall Y k, dom_ok Y k -> forall CC, eq_ok CC -> forall absorbs total, proper CC (icl_par absorbs total) ->
  cmonoid CC F_plus -> cmonoid (icl_imap Y k CC absorbs total) F_plus.
Proof. exact icl_imap_cmonoid. Qed.
Theorem C91_no_cancellation : forall Y k, dom_ok Y k -> forall CC, eq_ok CC -> forall absorbs total, proper CC (icl_par absorbs total) ->
  absorbs = true -> cmonoid CC F_plus -> no_cancellation CC F_plus -> no_cancellation (icl_imap Y k CC absorbs total) F_plus.
Proof. exact icl_imap_free. Qed.
Theorem C91_group : forall Y k, dom_ok Y k -> forall CC, eq_ok CC -> forall absorbs total, proper CC (icl_par absorbs total) ->
  absorbs = true -> total = true -> cc_invertible CC = true -> cmonoid CC F_plus -> cgroup CC F_plus -> cgroup (icl_imap Y k CC absorbs total) F_plus.
Proof. exact icl_imap_group. Qed.
Theorem C91_set : forall Y k, dom_ok Y k -> forall U CC (has : C CC -> U -> bool), set_type CC has ->
  set_type (icl_imap Y k CC true false) (imap_has Y k CC has true false).
Proof. exact @icl_imap_set_type. Qed.

(** Towers of maps: each layer is icl::map or interval_map. *)
Inductive layer := L_map | L_interval_map.
Definition wrap (Y : dom) (k : kind) (total : bool) (l : layer) (CC : codomain) : codomain :=
  match l with L_map => icl_map Y CC true total | L_interval_map => icl_imap Y k CC true total end.
Fixpoint tower (Y : dom) (k : kind) (total : bool) (CC : codomain) (ls : list layer) : codomain :=
  match ls with [] => CC | l :: ls => wrap Y k total l (tower Y k total CC ls) end.
Fixpoint tower_elem (Y : dom) (U : Type) (ls : list layer) : Type := match ls with [] => U | _ :: ls => (D Y * tower_elem Y U ls)%type end.
Fixpoint tower_has (Y : dom) (k : kind) {U : Type} (CC : codomain) (has : CC -> U -> bool) (ls : list layer) :
    C (tower Y k false CC ls) -> tower_elem Y U ls -> bool :=
  match ls with
  | [] => has
  | L_map :: ls => map_has Y (tower Y k false CC ls) (tower_has Y k CC has ls) true false
  | L_interval_map :: ls => imap_has Y k (tower Y k false CC ls) (tower_has Y k CC has ls) true false
  end.
(** towers over sets are sets of tuples *)
Theorem C91_tower_set : forall Y k, dom_ok Y k -> forall U CC (has : C CC -> U -> bool), set_type CC has -> forall ls,
  set_type (tower Y k false CC ls) (tower_has Y k CC has ls).
Proof.
  intros Y k HX U CC has HS ls. induction ls as [|[|] ls IH]; [exact HS| |].
  - apply (icl_map_set_type Y (proj1 HX) _ _ IH).
  - apply (icl_imap_set_type Y k HX _ _ IH).
Qed.
(** Expressions over interval maps of towers of sets compute with the sets of tuples they represent, and
    == of interval_maps compares these sets. *)
Theorem C91_tower_expressions : forall X k, dom_ok X k -> forall Y k', dom_ok Y k' -> forall U CC (has : C CC -> U -> bool), set_type CC has -> forall ls,
  let CN := tower Y k' false CC ls in let hasN := tower_has Y k' CC has ls in
  forall s b (env : nat -> tree (D X) (C CN)), (forall i, mreach X k CN (coll s b) (env i)) -> forall e e',
  exists t t', value X k CN (coll s b) env e = Ok t /\ value X k CN (coll s b) env e' = Ok t' /\
    (forall x u, pair_in X k CN hasN t x u <-> pairs_of X k CN hasN (fun i => pair_in X k CN hasN (env i)) e x u) /\
    (s = MJoin -> b = true ->
      (m_eqb X k (mt CN (coll s b)) t t' = true <->
       forall x u, pairs_of X k CN hasN (fun i => pair_in X k CN hasN (env i)) e x u <-> pairs_of X k CN hasN (fun i => pair_in X k CN hasN (env i)) e' x u)).
Proof.
  intros X k HX Y k' HY U CC has HS ls CN hasN s b env He e e'. pose proof (C91_tower_set Y k' HY U CC has HS ls) as HN.
  destruct (C86_expressions X k HX _ CN hasN HN s b env He e) as (t & E & R & P & _).
  destruct (C86_expressions X k HX _ CN hasN HN s b env He e') as (t' & E' & R' & P' & _).
  exists t, t'. split; [exact E|]. split; [exact E'|]. split; [exact P|]. intros Es Eb.
  rewrite (C86_equal X k HX _ CN hasN HN s b t t' Es Eb R R'). split; intros H x u; specialize (H x u); specialize (P x u); specialize (P' x u); tauto.
Qed.
(** Total towers over a group are groups, so total interval maps of them are: a TotalQuantifier of
    TotalQuantifiers is a TotalQuantifier. *)
Theorem C91_tower_group : forall Y k, dom_ok Y k -> forall CC, eq_ok CC -> cc_invertible CC = true ->
  (forall s a t, proper CC (MPar s a t F_plus F_inter_section)) -> cmonoid CC F_plus -> cgroup CC F_plus -> forall ls,
  let CN := tower Y k true CC ls in
  eq_ok CN /\ cc_invertible CN = true /\ (forall s a t, proper CN (MPar s a t F_plus F_inter_section)) /\ cmonoid CN F_plus /\ cgroup CN F_plus.
Proof.
  intros Y k HX CC Hco Ei P Hm Hg ls. induction ls as [|[|] ls (I1 & I2 & I3 & I4 & I5)]; [auto| |]; cbn [tower wrap].
  - pose proof (proj1 HX) as HT. split; [apply icl_map_ok; assumption|]. split; [exact I2|]. split; [intros; apply icl_map_proper; auto|].
    split; [apply icl_map_cmonoid; assumption|apply icl_map_group; auto].
  - split; [apply icl_imap_ok; assumption|]. split; [exact I2|]. split; [intros; apply icl_imap_proper; auto; apply I3|].
    split; [apply icl_imap_cmonoid; auto; apply I3|apply icl_imap_group; auto; apply I3].
Qed.
Theorem C91_total_map_of_maps : forall X k, dom_ok X k -> forall Y k', dom_ok Y k' -> forall CC, eq_ok CC -> cc_invertible CC = true ->
  (forall s a t, proper CC (MPar s a t F_plus F_inter_section)) -> cmonoid CC F_plus -> cgroup CC F_plus -> forall ls,
  let CN := tower Y k' true CC ls in forall s a b, let p := tabsorber s in mreach X k CN p a -> mreach X k CN p b ->
  (exists r, mplus_ X k CN p (mminus_ X k CN p (Ok t_empty) (Ok a)) (Ok a) = Ok r /\ segs X CN r = []) /\
  law X k CN p (mminus_ X k CN p (mplus_ X k CN p (Ok a) (Ok b)) (Ok b)) (Ok a) /\
  law X k CN p (mplus_ X k CN p (mminus_ X k CN p (Ok a) (Ok b)) (Ok b)) (Ok a).
Proof.
  intros X k HX Y k' HY CC Hco Ei P Hm Hg ls CN s a b p Ha Hb.
  destruct (C91_tower_group Y k' HY CC Hco Ei P Hm Hg ls) as (F1 & F2 & F3 & F4 & F5).
  apply (thm_group X k HX CN F1 p a b); auto. apply F3.
Qed.

(** Examples compute the segments only. *)
Lemma shows {A B : Type} (f : A -> B) (r : res A) (l : B) : match r with Ok t => Some (f t) | Err _ => None end = Some l -> exists t, r = Ok t /\ f t = l.
Proof. destruct r as [t|e]; intros H; [|discriminate]. exists t. split; [reflexivity|]. injection H as H. exact H. Qed.

(** interval_map<int, interval_set<int>> with discrete_intervals: [1,3] and (0,4) are the same set *)
Notation zs := (iset Zdom DD).
Definition dd (l u : Z) (b c : bool) : itv Z := Itv l u (Bd b c).
Definition zs_segs (t : tree Z (C zs)) : list (itv Z * list (itv Z)) := map (fun s => (fst s, iset_itvs Zdom DD (snd s))) (segs Zdom zs t).
Example C91_ex : dom_ok Zdom DD /\ iset_of Zdom DD [dd 1 3 true true] = iset_of Zdom DD [dd 0 4 false false] /\
  exists a, mreach Zdom RO zs (coll MJoin true) a /\ exists b, mreach Zdom RO zs (coll MJoin true) b /\
    zs_segs a = [(zi 0 4, [dd 1 3 true true; dd 7 8 true true])]%Z /\ zs_segs b = [(zi 2 6, [dd 3 7 true true])]%Z /\
    exists p m i x, mplus_ Zdom RO zs (coll MJoin true) (Ok a) (Ok b) = Ok p /\ mminus_ Zdom RO zs (coll MJoin true) (Ok a) (Ok b) = Ok m /\
      mand_ Zdom RO zs (coll MJoin true) (Ok a) (Ok b) = Ok i /\ mxor_ Zdom RO zs (coll MJoin true) (Ok a) (Ok b) = Ok x /\
      zs_segs p = [(zi 0 2, [dd 1 3 true true; dd 7 8 true true]); (zi 2 4, [dd 1 8 true true]); (zi 4 6, [dd 3 7 true true])]%Z /\
      zs_segs m = [(zi 0 2, [dd 1 3 true true; dd 7 8 true true]); (zi 2 4, [dd 1 2 true true; dd 8 8 true true])]%Z /\
      zs_segs i = [(zi 2 4, [dd 3 3 true true; dd 7 7 true true])]%Z /\
      zs_segs x = [(zi 0 2, [dd 1 3 true true; dd 7 8 true true]); (zi 2 4, [dd 1 2 true true; dd 4 6 true true; dd 8 8 true true]); (zi 4 6, [dd 3 7 true true])]%Z.
Proof.
  assert (HZ : dom_ok Zdom DD) by (apply Zdom_ok; discriminate). split; [exact HZ|].
  split. { apply (iset_eq Zdom DD). vm_compute. reflexivity. }
  destruct (shows zs_segs (mbuild Zdom RO zs (coll MJoin true) [(zi 0 4, iset_of Zdom DD [dd 0 4 false false; dd 6 8 false true]%Z)])
    [(zi 0 4, [dd 1 3 true true; dd 7 8 true true])]%Z) as (a & Ea & Sa); [vm_compute; reflexivity|].
  destruct (shows zs_segs (mbuild Zdom RO zs (coll MJoin true) [(zi 2 6, iset_of Zdom DD [dd 3 8 true false]%Z)])
    [(zi 2 6, [dd 3 7 true true])]%Z) as (b & Eb & Sb); [vm_compute; reflexivity|].
  exists a. split; [exact (mbuild_reach Zdom RO zs (coll MJoin true) _ _ Ea)|]. exists b. split; [exact (mbuild_reach Zdom RO zs (coll MJoin true) _ _ Eb)|].
  split; [exact Sa|]. split; [exact Sb|].
  edestruct (shows zs_segs (mplus_ Zdom RO zs (coll MJoin true) (mbuild Zdom RO zs (coll MJoin true) [(zi 0 4, iset_of Zdom DD [dd 0 4 false false; dd 6 8 false true]%Z)])
    (mbuild Zdom RO zs (coll MJoin true) [(zi 2 6, iset_of Zdom DD [dd 3 8 true false]%Z)]))) as (p & Ep & Sp); [vm_compute; reflexivity|].
  edestruct (shows zs_segs (mminus_ Zdom RO zs (coll MJoin true) (mbuild Zdom RO zs (coll MJoin true) [(zi 0 4, iset_of Zdom DD [dd 0 4 false false; dd 6 8 false true]%Z)])
    (mbuild Zdom RO zs (coll MJoin true) [(zi 2 6, iset_of Zdom DD [dd 3 8 true false]%Z)]))) as (m & Em & Sm); [vm_compute; reflexivity|].
  edestruct (shows zs_segs (mand_ Zdom RO zs (coll MJoin true) (mbuild Zdom RO zs (coll MJoin true) [(zi 0 4, iset_of Zdom DD [dd 0 4 false false; dd 6 8 false true]%Z)])
    (mbuild Zdom RO zs (coll MJoin true) [(zi 2 6, iset_of Zdom DD [dd 3 8 true false]%Z)]))) as (i & Ei & Si); [vm_compute; reflexivity|].
  edestruct (shows zs_segs (mxor_ Zdom RO zs (coll MJoin true) (mbuild Zdom RO zs (coll MJoin true) [(zi 0 4, iset_of Zdom DD [dd 0 4 false false; dd 6 8 false true]%Z)])
    (mbuild Zdom RO zs (coll MJoin true) [(zi 2 6, iset_of Zdom DD [dd 3 8 true false]%Z)]))) as (x & Ex & Sx); [vm_compute; reflexivity|].
  exists p, m, i, x. split; [exact (eq_trans (f_equal2 (mplus_ Zdom RO zs (coll MJoin true)) (eq_sym Ea) (eq_sym Eb)) Ep)|]. split; [exact (eq_trans (f_equal2 (mminus_ Zdom RO zs (coll MJoin true)) (eq_sym Ea) (eq_sym Eb)) Em)|]. split; [exact (eq_trans (f_equal2 (mand_ Zdom RO zs (coll MJoin true)) (eq_sym Ea) (eq_sym Eb)) Ei)|]. split; [exact (eq_trans (f_equal2 (mxor_ Zdom RO zs (coll MJoin true)) (eq_sym Ea) (eq_sym Eb)) Ex)|].
  split; [exact Sp|]. split; [exact Sm|]. split; [exact Si|exact Sx].
Qed.
(** total interval maps of total interval maps of numbers *)
Notation zm := (icl_imap Zdom RO Zco true true).
Definition zm_segs (t : tree Z (C zm)) : list (itv Z * list (itv Z * Z)) := map (fun s => (fst s, imap_list Zdom RO Zco true true (snd s))) (segs Zdom zm t).
Example C91_group_ex : zm = tower Zdom RO true Zco [L_interval_map] /\ eq_ok Zco /\ cc_invertible Zco = true /\
  (forall s a t, proper Zco (MPar s a t F_plus F_inter_section)) /\ cmonoid Zco F_plus /\ cgroup Zco F_plus /\
  exists a, mreach Zdom RO zm (tabsorber MJoin) a /\ exists b, mreach Zdom RO zm (tabsorber MJoin) b /\
    zm_segs a = [(zi 0 4, [(zi 1 3, 5)])]%Z /\ zm_segs b = [(zi 2 6, [(zi 2 5, 5)])]%Z /\
    exists m, mminus_ Zdom RO zm (tabsorber MJoin) (Ok a) (Ok b) = Ok m /\
      zm_segs m = [(zi 0 2, [(zi 1 3, 5)]); (zi 2 4, [(zi 1 2, 5); (zi 3 5, -5)]); (zi 4 6, [(zi 2 5, -5)])]%Z /\
      exists r, mplus_ Zdom RO zm (tabsorber MJoin) (Ok m) (Ok b) = Ok r /\ zm_segs r = [(zi 0 4, [(zi 1 3, 5)])]%Z.
Proof.
  split; [reflexivity|]. split; [exact Zco_ok|]. split; [reflexivity|]. split; [intros; apply Z_proper|]. split; [apply Z_monoid|]. split; [apply Z_group|].
  destruct (shows zm_segs (mbuild Zdom RO zm (tabsorber MJoin) [(zi 0 4, imap_of Zdom RO Zco true true [sg 1 3 5])]) [(zi 0 4, [(zi 1 3, 5)])]%Z)
    as (a & Ea & Sa); [vm_compute; reflexivity|].
  destruct (shows zm_segs (mbuild Zdom RO zm (tabsorber MJoin) [(zi 2 6, imap_of Zdom RO Zco true true [sg 2 5 5])]) [(zi 2 6, [(zi 2 5, 5)])]%Z)
    as (b & Eb & Sb); [vm_compute; reflexivity|].
  exists a. split; [exact (mbuild_reach Zdom RO zm (tabsorber MJoin) _ _ Ea)|]. exists b. split; [exact (mbuild_reach Zdom RO zm (tabsorber MJoin) _ _ Eb)|].
  split; [exact Sa|]. split; [exact Sb|].
  edestruct (shows zm_segs (mminus_ Zdom RO zm (tabsorber MJoin) (mbuild Zdom RO zm (tabsorber MJoin) [(zi 0 4, imap_of Zdom RO Zco true true [sg 1 3 5])])
    (mbuild Zdom RO zm (tabsorber MJoin) [(zi 2 6, imap_of Zdom RO Zco true true [sg 2 5 5])]))) as (m & Em & Sm); [vm_compute; reflexivity|].
  edestruct (shows zm_segs (mplus_ Zdom RO zm (tabsorber MJoin) (mminus_ Zdom RO zm (tabsorber MJoin) (mbuild Zdom RO zm (tabsorber MJoin) [(zi 0 4, imap_of Zdom RO Zco true true [sg 1 3 5])])
    (mbuild Zdom RO zm (tabsorber MJoin) [(zi 2 6, imap_of Zdom RO Zco true true [sg 2 5 5])])) (mbuild Zdom RO zm (tabsorber MJoin) [(zi 2 6, imap_of Zdom RO Zco true true [sg 2 5 5])])))
    as (r & Er & Sr); [vm_compute; reflexivity|].
  exists m. split; [exact (eq_trans (f_equal2 (mminus_ Zdom RO zm (tabsorber MJoin)) (eq_sym Ea) (eq_sym Eb)) Em)|]. split; [exact Sm|]. exists r.
  split; [exact (eq_trans (f_equal2 (mplus_ Zdom RO zm (tabsorber MJoin)) (eq_sym Em) (eq_sym Eb)) Er)|exact Sr].
Qed.

(** Property theorems C75-C77: comparison operators and predicate objects.
    Reading guide (CompareSpec.v): [total_order P c]: on the values with P the six operators of c are those of one
    total order whose equivalence is == .  [some_set t], [some_map t]: some history of operations constructs t.
    [dictionary same less l r]: l comes before r in the dictionary order.  [same_points a b]: a and b have the same
    elements; [itv_before a b]: a begins before b, or they begin together and b goes on longer. *)
From Verif Require Import CompareSpec CompareThms MapReach MapInst SetProps SetSpec MapSpec ElemSpec Instances.
From Verif Require Import PropInterval PropSet PropMap PropElem.
From Coq Require Import ZArith Lia.
Open Scope nat_scope.

(* ------------------------------------------------------------------ C75 *)
Theorem C75_sets : forall X k, dom_ok X k -> total_order (some_set X k) (s_cmp X k).
Proof. exact set_total. Qed.
Theorem C75_maps : forall X k, dom_ok X k -> forall CC, eq_ok CC -> forall p, co_order CC ->
  total_order (some_map X k CC) (m_cmp X k (mt CC p)).
Proof. exact map_total. Qed.
Theorem C75_element_maps : forall X, strict_total X -> forall CC, eq_ok CC -> forall p, co_order CC ->
  total_order (fun _ => True) (em_cmp X (mt CC p)).
Proof. exact emap_total. Qed.
Theorem C75_element_sets : forall X, strict_total X -> total_order (fun _ => True) (es_cmp X).
Proof. exact eset_total. Qed.
(** which order it is *)
Theorem C75_sets_dictionary : forall X k, dom_ok X k -> forall t u, some_set X k t -> some_set X k u ->
  (c_lt (s_cmp X k) t u = true <-> dictionary (same_points X k) (itv_before X k) (keys X t) (keys X u)).
Proof. exact set_dictionary. Qed.
Theorem C75_maps_dictionary : forall X k, dom_ok X k -> forall CC, eq_ok CC -> forall p t u, co_order CC ->
  some_map X k CC t -> some_map X k CC u ->
  (c_lt (m_cmp X k (mt CC p)) t u = true <-> dictionary (seg_same X k CC) (seg_before X k CC) (segs X CC t) (segs X CC u)).
Proof. exact map_dictionary. Qed.

Example C75_ex : exists t, reach Zdom RO Separating t /\ exists u, reach Zdom RO Joining u /\
  keys Zdom t = [zi 0 2; zi 2 4] /\ keys Zdom u = [zi 0 4] /\ let c := s_cmp Zdom RO in
  c_lt c t u = true /\ c_le c t u = true /\ c_gt c u t = true /\ c_ge c t u = false /\ c_ne c t u = true.
Proof. built Separating [zi 0 2; zi 2 4]. built Joining [zi 0 4]. repeat split. Qed.
Example C75_ex_maps : co_order Zco /\ exists t, zreach (absorber MJoin) t /\ exists u, zreach (absorber MSplit) u /\
  segs Zdom Zco t = [sg 0 4 1; sg 6 8 2] /\ segs Zdom Zco u = [sg 0 4 1; sg 6 8 3] /\ let c := m_cmp Zdom RO (mt Zco (absorber MJoin)) in
  c_lt c t u = true /\ c_le c u t = false /\ c_ge c u t = true.
Proof.
  split; [apply Zco_order|]. mbuilt Zco (absorber MJoin) [sg 0 4 1; sg 6 8 2]. mbuilt Zco (absorber MSplit) [sg 0 4 1; sg 6 8 3]. repeat split.
Qed.

(* ------------------------------------------------------------------ C76 *)
(** [kc], [vc]: the operators of the key and of the value type; [mr_cmp]: mapped_reference on the left;
    [pr_cmp]: a std::pair on the left and a mapped_reference on the right. *)
Theorem C76_total_order : forall K V (kc : comparison K) (vc : comparison V),
  total_order (fun _ => True) kc -> total_order (fun _ => True) vc -> total_order (fun _ => True) (mr_cmp kc vc).
Proof. intros K V kc vc. exact (mr_total kc vc). Qed.
(** the key decides, then the value *)
Theorem C76_lexicographic : forall K V (kc : comparison K) (vc : comparison V),
  total_order (fun _ => True) kc -> total_order (fun _ => True) vc -> forall a b,
  (c_eq (mr_cmp kc vc) a b = true <-> c_eq kc (fst a) (fst b) = true /\ c_eq vc (snd a) (snd b) = true) /\
  (c_lt (mr_cmp kc vc) a b = true <->
     c_lt kc (fst a) (fst b) = true \/ (c_eq kc (fst a) (fst b) = true /\ c_lt vc (snd a) (snd b) = true)).
Proof. intros K V kc vc HK _. exact (mr_lex kc vc HK). Qed.
(** it makes no difference on which side the mapped_reference is *)
Theorem C76_pair_on_the_left : forall K V (kc : comparison K) (vc : comparison V),
  total_order (fun _ => True) kc -> total_order (fun _ => True) vc -> forall a b,
  let p := pr_cmp kc vc in let m := mr_cmp kc vc in
  c_eq p a b = c_eq m a b /\ c_ne p a b = c_ne m a b /\ c_lt p a b = c_lt m a b /\
  c_gt p a b = c_gt m a b /\ c_le p a b = c_le m a b /\ c_ge p a b = c_ge m a b.
Proof. intros K V kc vc HK HV a b. exact (pr_same kc vc HK HV a b). Qed.

Definition Zcmp : comparison Z := Comparison Z.eqb (fun a b => negb (Z.eqb a b)) Z.ltb Z.gtb Z.leb Z.geb.
Lemma Zcmp_total : total_order (fun _ => True) Zcmp.
Proof.
  unfold total_order, Zcmp; cbn. repeat apply conj; intros; try lia.
Qed.
Example C76_ex : total_order (fun _ => True) Zcmp /\ let m := mr_cmp Zcmp Zcmp in let p := pr_cmp Zcmp Zcmp in
  c_lt m (1, 5)%Z (2, 3)%Z = true /\ c_lt m (1, 3)%Z (1, 5)%Z = true /\ c_le m (1, 5)%Z (1, 3)%Z = false /\
  c_lt p (1, 3)%Z (1, 5)%Z = true /\ c_ge p (1, 5)%Z (1, 5)%Z = true /\ c_ne p (1, 5)%Z (1, 3)%Z = true.
Proof. split; [exact Zcmp_total|]. repeat split. Qed.

(* ------------------------------------------------------------------ C77 *)
(** sub_super_set / super_sub_set: a partial order on contents, whose equivalence is is_element_equal; the
    sets may have different styles *)
Theorem C77_sets : forall X k, dom_ok X k -> forall t o u, some_set X k t -> some_set X k o -> some_set X k u ->
  sub_super_set X k t t = Ok true /\
  (sub_super_set X k t o = Ok true -> sub_super_set X k o u = Ok true -> sub_super_set X k t u = Ok true) /\
  (sub_super_set X k t o = Ok true /\ sub_super_set X k o t = Ok true <-> is_element_equal X k None t o = Ok true) /\
  super_sub_set X k o t = sub_super_set X k t o.
Proof. exact set_inclusion. Qed.
Theorem C77_sets_meaning : forall X k, dom_ok X k -> forall t o, some_set X k t -> some_set X k o ->
  exists b, sub_super_set X k t o = Ok b /\ (b = true <-> forall x, cmem X k t x -> cmem X k o x).
Proof. intros X k HX t o [st A] [so B]. exact (C22_contains_set X k HX so st o t B A). Qed.
(** maps; R is the inclusion of values, that is equality if the codomain is not a set *)
Theorem C77_maps : forall X k, dom_ok X k -> forall CC, eq_ok CC -> forall p co (R : CC -> CC -> Prop) t o u,
  (forall v w, (fst (co v w) = true <-> R v w) /\ (snd (co v w) = true <-> R w v)) ->
  (forall v, R v v) -> (forall v w z, R v w -> R w z -> R v z) ->
  some_map X k CC t -> some_map X k CC o -> some_map X k CC u ->
  let sub := sub_super_map X k (mt CC p) co in
  sub t t = Ok true /\ (sub t o = Ok true -> sub o u = Ok true -> sub t u = Ok true) /\
  (sub t o = Ok true /\ sub o t = Ok true <-> m_element_equal X k (mt CC p) co t o = Ok true) /\
  super_sub_map X k (mt CC p) co o t = sub t o.
Proof. exact map_inclusion. Qed.

Example C77_ex : exists t, reach Zdom RO Separating t /\ exists o, reach Zdom RO Joining o /\ exists u, reach Zdom RO Splitting u /\
  sub_super_set Zdom RO t o = Ok true /\ sub_super_set Zdom RO o u = Ok true /\ sub_super_set Zdom RO u o = Ok false /\
  sub_super_set Zdom RO o t = Ok true /\ s_eqb Zdom RO t o = false.
Proof. built Separating [zi 0 2; zi 2 4]. built Joining [zi 0 4]. built Splitting [zi 0 3; zi 2 7]. repeat split. Qed.
Example C77_ex_maps : let M := mt Zco (absorber MJoin) in let R := @eq Z in
  (forall v w, (fst (co_atomic M v w) = true <-> R v w) /\ (snd (co_atomic M v w) = true <-> R w v)) /\
  exists t, zreach (absorber MJoin) t /\ exists o, zreach (absorber MSplit) o /\
  sub_super_map Zdom RO M (co_atomic M) t o = Ok true /\ sub_super_map Zdom RO M (co_atomic M) o t = Ok false.
Proof.
  intros M R. split; [exact (MapThms3.atomic_eq Zco Zco_ok (absorber MJoin))|].
  mbuilt Zco (absorber MJoin) [sg 0 4 1]. mbuilt Zco (absorber MSplit) [sg 0 2 1; sg 2 4 1; sg 6 8 3]. split; vm_compute; reflexivity.
Qed.

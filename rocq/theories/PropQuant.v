(** Property theorem C89: the laws of interval maps whose values are not sets ("Quantifiers: Maps of
    Numbers" and "Concept Induction" in doc/semantics.qbk).
    [law p r s]: both sides return and represent the same function; for interval_map they also compare
    equal with ==.  [meq_distinct p r s]: the results compare equal with is_distinct_equal. *)
From Verif Require Import MapSpec MapReach MapThms4 SetSpec Instances MapInst PropMap.
From Verif Require Import QuantSpec QuantThms QuantInst.
From Verif Require Import MapModel.
From Coq Require Import ZArith.
Open Scope nat_scope.

(* ------------------------------------------------------------------ C89 *)
(** Map<D, Monoid> is a monoid with respect to + and the empty map, the values need not commute *)
Theorem C89_monoid : forall X k, dom_ok X k -> forall CC, eq_ok CC -> forall p, proper CC p -> forall a b c,
  mreach X k CC p a -> mreach X k CC p b -> mreach X k CC p c -> monoid CC (mp_combine p) ->
  let plus := mplus_ X k CC p in let A := Ok a in let B := Ok b in let C := Ok c in let none := Ok t_empty in
  law X k CC p (plus A (plus B C)) (plus (plus A B) C) /\ law X k CC p (plus A none) A /\ law X k CC p (plus none A) A.
Proof. intros X k HX CC Hco p P a b c Ha Hb Hc. exact (monoid_laws X k HX CC Hco p P a b c Ha Hb Hc). Qed.
(** a - Q() == a *)
Theorem C89_minus_neutral : forall X k, dom_ok X k -> forall CC, eq_ok CC -> forall p a, mreach X k CC p a ->
  law X k CC p (mminus_ X k CC p (Ok a) (Ok t_empty)) (Ok a).
Proof. exact minus_neutral. Qed.
(** & is commutative for all traits *)
Theorem C89_and_commutative : forall X k, dom_ok X k -> forall CC, eq_ok CC -> forall p, cc_set_sem CC = false -> proper CC p -> forall a b,
  mreach X k CC p a -> mreach X k CC p b -> mp_combine p <> F_minus -> cmonoid CC (mp_combine p) ->
  law X k CC p (mand_ X k CC p (Ok a) (Ok b)) (mand_ X k CC p (Ok b) (Ok a)).
Proof. exact and_comm. Qed.
(** & is associative for enrichers, for total maps, and for all maps of numbers whose sums do not
    cancel *)
Theorem C89_and_associative : forall X k, dom_ok X k -> forall CC, eq_ok CC -> forall p, cc_set_sem CC = false -> proper CC p -> forall a b c,
  mreach X k CC p a -> mreach X k CC p b -> mreach X k CC p c -> mp_combine p <> F_minus -> cmonoid CC (mp_combine p) ->
  mp_absorbs p = false \/ mp_total p = true \/ no_cancellation CC (mp_combine p) ->
  let and := mand_ X k CC p in law X k CC p (and (Ok a) (and (Ok b) (Ok c))) (and (and (Ok a) (Ok b)) (Ok c)).
Proof. exact and_assoc. Qed.
(** & of total maps is + *)
Theorem C89_and_total : forall X k, dom_ok X k -> forall CC, eq_ok CC -> forall p, proper CC p -> forall a b,
  mreach X k CC p a -> mreach X k CC p b -> mp_combine p <> F_minus -> mp_total p = true ->
  law X k CC p (mand_ X k CC p (Ok a) (Ok b)) (mplus_ X k CC p (Ok a) (Ok b)).
Proof. exact and_total. Qed.
(** (a + b) - (a & b) == (a - b) + (b - a) for values with inverses *)
Theorem C89_symmetric_difference : forall X k, dom_ok X k -> forall CC, eq_ok CC -> forall p, cc_set_sem CC = false -> proper CC p -> forall a b,
  mreach X k CC p a -> mreach X k CC p b -> mp_combine p <> F_minus -> cmonoid CC (mp_combine p) -> cgroup CC (mp_combine p) ->
  (mp_total p = true -> cc_invertible CC = true) ->
  let plus := mplus_ X k CC p in let minus := mminus_ X k CC p in let and := mand_ X k CC p in
  law X k CC p (minus (plus (Ok a) (Ok b)) (and (Ok a) (Ok b))) (plus (minus (Ok a) (Ok b)) (minus (Ok b) (Ok a))).
Proof. exact symmetric_difference. Qed.
(** a - a is distinct-equal to Q(), with all traits (for absorbers it is empty, C49_minus_self) *)
Theorem C89_inversion_distinct : forall X k, dom_ok X k -> forall CC, eq_ok CC -> forall p, proper CC p -> forall a,
  mreach X k CC p a -> mp_style p = MJoin -> (forall v : C CC, combine CC (inverse CC (mp_combine p)) v v = cc_zero) ->
  meq_distinct X k CC p (mminus_ X k CC p (Ok a) (Ok a)) (Ok t_empty).
Proof. exact inversion_distinct. Qed.
(** (0 - a) + a is distinct-equal to 0 in total enrichers (in total absorbers it is empty, C49_group) *)
Theorem C89_inverse_distinct : forall X k, dom_ok X k -> forall CC, eq_ok CC -> forall p, proper CC p -> forall a,
  mreach X k CC p a -> mp_style p = MJoin -> cmonoid CC (mp_combine p) -> cgroup CC (mp_combine p) -> mp_total p = true -> cc_invertible CC = true ->
  meq_distinct X k CC p (mplus_ X k CC p (mminus_ X k CC p (Ok t_empty) (Ok a)) (Ok a)) (Ok t_empty).
Proof. exact inverse_distinct. Qed.

(** As documented, & of partial absorbers of signed numbers is not associative. *)
Theorem C89_and_associative_signed_refuted : exists a, zreach (absorber MJoin) a /\ exists b, zreach (absorber MJoin) b /\ exists c, zreach (absorber MJoin) c /\
  let and := mand_ Zdom RO Zco (absorber MJoin) in
  exists l r, and (Ok a) (and (Ok b) (Ok c)) = Ok l /\ and (and (Ok a) (Ok b)) (Ok c) = Ok r /\
    segs Zdom Zco l = [sg 0 4 2] /\ segs Zdom Zco r = [].
Proof.
  mbuilt Zco (absorber MJoin) [sg 0 4 1]. mbuilt Zco (absorber MJoin) [sg 0 4 (-1)]. mbuilt Zco (absorber MJoin) [sg 0 4 2]. cbv zeta.
  eexists _, _. split; [vm_compute; reflexivity|]. split; [vm_compute; reflexivity|]. split; reflexivity.
Qed.
(** Finding: the documentation lists associativity of & for unsigned numbers.  It fails where a sum
    wraps around to 0, here 128 + 128 with 8 bits. *)
Notation u8 := (unsigned_co 8).
Definition u8s (t : tree Z (C u8)) : list (itv Z * N) := map (fun s => (fst s, proj1_sig (snd s))) (segs Zdom u8 t).
Theorem C89_and_associative_unsigned_refuted : exists a, mreach Zdom RO u8 (absorber MJoin) a /\ exists b, mreach Zdom RO u8 (absorber MJoin) b /\
  let and := mand_ Zdom RO u8 (absorber MJoin) in
  u8s a = [(zi 0 4, 128%N)] /\ u8s b = [(zi 0 4, 1%N)] /\
  exists l r, and (Ok a) (and (Ok a) (Ok b)) = Ok l /\ and (and (Ok a) (Ok a)) (Ok b) = Ok r /\ u8s l = [(zi 0 4, 1%N)] /\ u8s r = [].
Proof.
  mbuilt (unsigned_co 8) (absorber MJoin) [(zi 0 4, to_uint 8 128)]. mbuilt (unsigned_co 8) (absorber MJoin) [(zi 0 4, to_uint 8 1)]. cbv zeta.
  split; [reflexivity|]. split; [reflexivity|]. eexists _, _. split; [vm_compute; reflexivity|]. split; [vm_compute; reflexivity|]. split; reflexivity.
Qed.
(** symmetric difference fails for total maps of unsigned numbers *)
Theorem C89_symmetric_difference_unsigned_refuted : exists b, mreach Zdom RO u8 (tabsorber MJoin) b /\
  let plus := mplus_ Zdom RO u8 (tabsorber MJoin) in let minus := mminus_ Zdom RO u8 (tabsorber MJoin) in let and := mand_ Zdom RO u8 (tabsorber MJoin) in
  exists l r, minus (plus (Ok t_empty) (Ok b)) (and (Ok t_empty) (Ok b)) = Ok l /\ plus (minus (Ok t_empty) (Ok b)) (minus (Ok b) (Ok t_empty)) = Ok r /\
    u8s l = [] /\ u8s r = [(zi 0 4, 1%N)].
Proof.
  mbuilt (unsigned_co 8) (tabsorber MJoin) [(zi 0 4, to_uint 8 1)]. cbv zeta.
  eexists _, _. split; [vm_compute; reflexivity|]. split; [vm_compute; reflexivity|]. split; reflexivity.
Qed.

(** The hypotheses hold for strings (a monoid that is not commutative), numbers without bound, signed
    numbers and unsigned numbers of every width; the last are a group for partial maps. *)
Theorem C89_codomains :
  (forall A eqA, eq_ok (string_co A eqA) /\ monoid (string_co A eqA) F_plus /\ forall s a t, proper (string_co A eqA) (MPar s a t F_plus F_inter_section)) /\
  (cmonoid Nco F_plus /\ no_cancellation Nco F_plus /\ forall s a t g, proper Nco (MPar s a t F_plus g)) /\
  (cmonoid Zco F_plus /\ cgroup Zco F_plus /\ forall s a t, proper Zco (MPar s a t F_plus F_inter_section)) /\
  (forall w, eq_ok (unsigned_co w) /\ cmonoid (unsigned_co w) F_plus /\ cgroup (unsigned_co w) F_plus /\ forall s a t g, proper (unsigned_co w) (MPar s a t F_plus g)).
Proof.
  split. { intros A eqA. split; [apply string_ok|]. split; [apply string_monoid|]. apply string_proper. }
  split. { split; [apply N_plus_monoid|]. split; [apply N_plus_free|]. apply N_plus_proper. }
  split. { split; [apply Z_monoid|]. split; [apply Z_group|]. apply Z_proper. }
  intros w. split; [apply unsigned_ok|]. split; [apply unsigned_monoid|]. split; [apply unsigned_group|]. apply unsigned_proper.
Qed.
Notation str := (string_co Z Z.eq_dec).
Example C89_ex :
  (exists a, mreach Zdom RO str (enricher MJoin) a /\ exists b, mreach Zdom RO str (enricher MJoin) b /\
     exists r, mplus_ Zdom RO str (enricher MJoin) (Ok a) (Ok b) = Ok r /\ segs Zdom str r = [(zi 0 2, [1]); (zi 2 4, [1; 2]); (zi 4 6, [2])]%Z /\
     exists r', mplus_ Zdom RO str (enricher MJoin) (Ok b) (Ok a) = Ok r' /\ segs Zdom str r' = [(zi 0 2, [1]); (zi 2 4, [2; 1]); (zi 4 6, [2])]%Z) /\
  exists a, zreach (absorber MJoin) a /\ exists b, zreach (absorber MJoin) b /\
     let plus := mplus_ Zdom RO Zco (absorber MJoin) in let minus := mminus_ Zdom RO Zco (absorber MJoin) in let and := mand_ Zdom RO Zco (absorber MJoin) in
     exists l r, minus (plus (Ok a) (Ok b)) (and (Ok a) (Ok b)) = Ok l /\ plus (minus (Ok a) (Ok b)) (minus (Ok b) (Ok a)) = Ok r /\
       segs Zdom Zco l = [sg 0 2 3; sg 4 6 5] /\ segs Zdom Zco r = [sg 0 2 3; sg 4 6 5].
Proof.
  split.
  - mbuilt (string_co Z Z.eq_dec) (enricher MJoin) [(zi 0 4, [1%Z])]. mbuilt (string_co Z Z.eq_dec) (enricher MJoin) [(zi 2 6, [2%Z])].
    eexists. split; [vm_compute; reflexivity|]. split; [vm_compute; reflexivity|]. eexists. split; vm_compute; reflexivity.
  - mbuilt Zco (absorber MJoin) [sg 0 4 3]. mbuilt Zco (absorber MJoin) [sg 2 6 5]. cbv zeta.
    eexists _, _. split; [vm_compute; reflexivity|]. split; [vm_compute; reflexivity|]. split; reflexivity.
Qed.

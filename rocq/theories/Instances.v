(** Concrete domains: they show that the domain laws are satisfiable, and they carry
    the witnesses of the refuted statements. *)
From Verif Require Export IntervalFacts.
From Coq Require Import QArith Qcanon Eqdep_dec.

(** int without bounds, std::less *)
Definition Zdom : dom := Dom Z Z.ltb Z.succ Z.pred 0%Z 1%Z true true.
(** int without bounds, std::greater: [next] is [--] (type_traits/succ_pred.hpp) *)
Definition Zrev : dom := Dom Z Z.gtb Z.pred Z.succ 0%Z 1%Z true false.
(** unsigned char with std::less: bounded, [++]/[--] wrap around *)
Definition u8t : Type := { z : Z | ((0 <=? z) && (z <? 256))%Z = true }.
Definition u8z (x : u8t) : Z := proj1_sig x.
Lemma u8_mod z : ((0 <=? z mod 256) && (z mod 256 <? 256))%Z = true.
Proof. pose proof (Z.mod_pos_bound z 256 eq_refl). lia. Qed.
Definition u8of (z : Z) : u8t := exist _ (z mod 256)%Z (u8_mod z).
Definition u8dom : dom :=
  Dom u8t (fun x y => u8z x <? u8z y)%Z (fun x => u8of (u8z x + 1)) (fun x => u8of (u8z x - 1))
      (u8of 0) (u8of 1) true true.
(** rationals: a dense domain for the continuous kinds; [++]/[--] add 1 *)
Definition Qdom : dom :=
  Dom Qc (fun x y => if Qclt_le_dec x y then true else false)
      (fun x => x + 1)%Qc (fun x => x - 1)%Qc 0%Qc 1%Qc false true.

Lemma Zdom_ok k : k <> DC -> dom_ok Zdom k.
Proof.
  intros Hk. assert (S : strict_total Zdom).
  { split; [|split]; cbn; intros; try lia. }
  assert (N : discrete_ok Zdom) by (split; cbn; intros; lia).
  split; [exact S|]. split; [intros; exact N|]. destruct k; cbn; auto. congruence.
Qed.

(** with std::greater every discrete kind but closed_interval is admissible *)
Lemma Zrev_ok k : k <> DC -> k <> CL -> dom_ok Zrev k.
Proof.
  intros Hk Hc. assert (S : strict_total Zrev).
  { split; [|split]; cbn; intros; rewrite ?Z.gtb_ltb in *; lia. }
  assert (N : discrete_ok Zrev) by (split; cbn; intros; rewrite ?Z.gtb_ltb in *; lia).
  split; [exact S|]. split; [intros; exact N|]. destruct k; cbn; auto; congruence.
Qed.

Lemma u8_ext (x y : u8t) : u8z x = u8z y -> x = y.
Proof.
  destruct x as [x Hx], y as [y Hy]; cbn. intros ->. f_equal. apply UIP_dec. apply bool_dec.
Qed.
Lemma u8_range (x : u8t) : (0 <= u8z x < 256)%Z.
Proof. destruct x as [x Hx]; cbn. lia. Qed.

Lemma u8_ok k : k <> DC -> dom_ok u8dom k.
Proof.
  intros Hk. assert (S : strict_total u8dom).
  { split; [|split]; cbn; intros; try lia.
    destruct (Z.lt_trichotomy (u8z x) (u8z y)) as [|[|]]; [left;lia|right; left; apply u8_ext; lia|right; right; lia]. }
  assert (N : discrete_ok u8dom).
  { split; intros x y; pose proof (u8_range x); pose proof (u8_range y);
      unfold ltb, next, prior; cbn [u8dom]; intros Hlt; unfold u8of; cbn [u8z proj1_sig];
      rewrite Z.mod_small; unfold u8z in *; lia. }
  split; [exact S|]. split; [intros; exact N|]. destruct k; cbn; auto; congruence.
Qed.

Lemma Qdom_ok k : k = RO \/ k = LO \/ k = DC -> dom_ok Qdom k.
Proof.
  intros Hk. assert (S : strict_total Qdom).
  { split; [|split]; cbn.
    - intros x. destruct (Qclt_le_dec x x) as [H|]; auto. exfalso; exact (Qclt_not_eq _ _ H eq_refl).
    - intros x y z. destruct (Qclt_le_dec x y); try discriminate.
      destruct (Qclt_le_dec y z); try discriminate. intros _ _.
      destruct (Qclt_le_dec x z) as [|H]; auto.
      exfalso. pose proof (Qclt_trans _ _ _ q q0) as H1. exact (Qclt_not_le _ _ H1 H).
    - intros x y. destruct (Qclt_le_dec x y) as [|H1]; auto.
      destruct (Qclt_le_dec y x) as [|H2]; auto. right; left. apply Qcle_antisym; auto. }
  split; [exact S|]. split; [cbn; discriminate|].
  assert (Dn : dense_ok Qdom).
  { intros x y. cbn. destruct (Qclt_le_dec x y) as [H|]; [|discriminate]. intros _.
    exists ((x + y) * Q2Qc (1#2))%Qc.
    assert (E1 : (x < (x + y) * Q2Qc (1 # 2))%Qc /\ ((x + y) * Q2Qc (1 # 2) < y)%Qc).
    { unfold Qclt in *. unfold Qcmult, Qcplus, Q2Qc; cbn [this]. rewrite !Qred_correct.
      destruct x as [[xn xd] ?], y as [[yn yd] ?]; unfold Qlt in *; cbn in *. 
      rewrite !Pos2Z.inj_mul. split; nia. }
    destruct E1 as [E1 E2].
    destruct (Qclt_le_dec x _) as [|K]; [|exfalso; exact (Qclt_not_le _ _ E1 K)].
    destruct (Qclt_le_dec _ y) as [|K]; [|exfalso; exact (Qclt_not_le _ _ E2 K)]. auto. }
  destruct Hk as [->|[->| ->]]; cbn; auto.
Qed.

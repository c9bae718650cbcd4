(** Codomains for C89 and C90: strings and unsigned integers. *)
From Verif Require Import QuantSpec MapInst.
From Verif Require Import MapModel.
From Coq Require Import ZArith Eqdep_dec Lia.

Section Strings.
Context (A : Type) (eqA : forall a b : A, {a = b} + {a <> b}).
Lemma string_ok : eq_ok (string_co A eqA).
Proof. intros v w. cbn. destruct (list_eq_dec eqA v w); split; intros; congruence. Qed.
Lemma string_monoid : monoid (string_co A eqA) F_plus.
Proof. repeat split; cbn; intros; auto using app_nil_r, app_assoc_reverse. Qed.
Lemma string_proper s a b : proper (string_co A eqA) (MPar s a b F_plus F_inter_section).
Proof. unfold proper, neutral_ok, first_ok; cbn. repeat split; auto. intros H. destruct b; discriminate H. Qed.
End Strings.

Lemma N_plus_monoid : cmonoid Nco F_plus.
Proof. repeat split; cbn; intros; lia. Qed.
Lemma N_plus_proper s a b g : proper Nco (MPar s a b F_plus g).
Proof. unfold proper, neutral_ok, first_ok; cbn. repeat split; auto. intros H. destruct b; discriminate H. Qed.
Lemma N_plus_free : no_cancellation Nco F_plus.
Proof. intros v w. cbn. intros H. lia. Qed.

Section Unsigned.
Context (w : N).
Notation UC := (unsigned_co w).
Notation q := (2 ^ w)%N.
Lemma q_pos : q <> 0%N. Proof. apply N.pow_nonzero. discriminate. Qed.
Lemma uint_eq (v u : uint w) : proj1_sig v = proj1_sig u -> v = u.
Proof. destruct v as [v Hv], u as [u Hu]. cbn. intros ->. f_equal. apply UIP_dec. apply Bool.bool_dec. Qed.
Lemma uint_lt (v : uint w) : (proj1_sig v < q)%N. Proof. apply N.ltb_lt. exact (proj2_sig v). Qed.
Lemma to_small v : (v < q)%N -> proj1_sig (to_uint w v) = v. Proof. apply N.mod_small. Qed.
Lemma unsigned_ok : eq_ok UC.
Proof. intros v u. cbn. rewrite N.eqb_eq. split; [apply uint_eq|intros ->; reflexivity]. Qed.
Lemma unsigned_monoid : cmonoid UC F_plus.
Proof.
  pose proof q_pos as Q. repeat split; cbn; intros; apply uint_eq; cbn.
  - apply to_small. apply uint_lt.
  - rewrite N.add_comm. reflexivity.
  - rewrite N.add_mod_idemp_l, N.add_mod_idemp_r by exact Q. rewrite N.add_assoc. reflexivity.
Qed.
Lemma unsigned_proper s a b g : proper UC (MPar s a b F_plus g).
Proof.
  unfold proper, neutral_ok, first_ok; cbn [mp_combine first_value section cc_set_sem unsigned_co mp_total cc_invertible].
  repeat split; auto. - apply unsigned_monoid. - intros H. destruct b; discriminate H.
Qed.
Lemma unsigned_group : cgroup UC F_plus.
Proof.
  pose proof q_pos as Q. assert (K : forall v u : uint w, ((proj1_sig v + proj1_sig u) + (q - proj1_sig u) = proj1_sig v + 1 * q)%N).
  { intros v u. pose proof (uint_lt u). lia. }
  repeat split; cbn; intros; apply uint_eq; cbn.
  - rewrite N.add_mod_idemp_l by exact Q. rewrite K, N.mod_add by exact Q. apply to_small. apply uint_lt.
  - rewrite N.add_mod_idemp_l by exact Q. rewrite <- N.add_assoc, (N.add_comm (q - _)), N.add_assoc, K, N.mod_add by exact Q. apply to_small. apply uint_lt.
Qed.
End Unsigned.

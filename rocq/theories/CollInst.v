(** Set types: std::set and bit vectors are models of [set_type]. *)
From Verif Require Import CollSpec CollThms ElemSpec ElemFacts ElemThms MapInst.
From Verif Require Import MapModel.
From Coq Require Import Sorted ZArith Eqdep_dec.

Section StdSet.
Context (Y : dom) (HT : strict_total Y).
Notation eset := (list (D Y * unit)).

Lemma ascending_sorted (l : eset) : set_sorted Y l = true <-> esorted Y l.
Proof.
  split.
  - intros H. apply Sorted_StronglySorted. { intros a b c. unfold lt. apply HT. }
    induction l as [|n l IH]; [constructor|]. destruct l as [|m l].
    + constructor; constructor.
    + cbn [set_sorted] in H. apply andb_prop in H. destruct H as [H1 H2]. constructor; [apply IH; exact H2|]. constructor. exact H1.
  - induction l as [|n l IH]; intros H; [reflexivity|]. inversion H as [|? ? H1 H2]; subst. destruct l as [|m l]; [reflexivity|].
    specialize (IH H1). cbn [set_sorted] in *. rewrite IH. inversion H2; subst. unfold lt in *. rewrite Bool.andb_true_r. assumption.
Qed.
Lemma elems_sorted (s : sset Y) : esorted Y (elems Y s).
Proof. apply ascending_sorted. exact (proj2_sig s). Qed.
Lemma elems_to (l : eset) : esorted Y l -> elems Y (to_sset Y l) = l.
Proof.
  intros H. apply ascending_sorted in H. unfold to_sset. destruct (Bool.bool_dec (set_sorted Y l) true) as [e|n]; [reflexivity|contradiction].
Qed.
Lemma sset_eq (s o : sset Y) : elems Y s = elems Y o -> s = o.
Proof.
  destruct s as [l Hl], o as [r Hr]. cbn. intros ->. f_equal. apply UIP_dec. apply Bool.bool_dec.
Qed.
Lemma sset_has_elem (s : sset Y) u : sset_has Y s u = true <-> has_elem Y (elems Y s) u.
Proof.
  unfold sset_has, has_elem. rewrite existsb_exists, in_map_iff. split.
  - intros (n & H & E). exists n. split; [|exact H]. apply (ElemFacts.eqb_eq Y HT). exact E.
  - intros (n & E & H). exists n. split; [exact H|]. apply (ElemFacts.eqb_eq Y HT). exact E.
Qed.
Lemma bool_iff (c d : bool) : (c = true <-> d = true) -> c = d.
Proof. destruct c, d; intuition congruence. Qed.
Lemma std_set_type : set_type (std_set Y) (sset_has Y).
Proof.
  assert (Q : eq_ok (std_set Y)).
  { intros v w. cbn. rewrite (es_eqb_ok Y HT _ _ (elems_sorted v) (elems_sorted w)). split; [|intros ->; reflexivity].
    intros H. apply sset_eq. apply (eat_ext Y HT); try apply elems_sorted. intros x. apply (unit_eq Y HT). apply H. }
  split; try reflexivity; try exact Q.
  - intros v w H. apply sset_eq. apply (eat_ext Y HT); try apply elems_sorted. intros x. apply (unit_eq Y HT).
    rewrite <- !sset_has_elem, H. reflexivity.
  - intros v w u. apply bool_iff. rewrite Bool.orb_true_iff, !sset_has_elem. cbn [cc_add std_set].
    destruct (es_add_set_ok Y HT (elems Y v) (elems Y w) (elems_sorted v)) as [S H]. rewrite elems_to by exact S. apply H.
  - intros v w u. apply bool_iff. rewrite b_sub, !sset_has_elem. cbn [cc_sub std_set].
    destruct (es_subtract_set_ok Y HT (elems Y v) (elems Y w) (elems_sorted v)) as (l & -> & S & H). cbn [ok_sset]. rewrite elems_to by exact S. apply H.
  - intros v w u. apply bool_iff. rewrite Bool.andb_true_iff, !sset_has_elem. cbn [cc_and std_set]. unfold es_and_set.
    destruct (es_isec_ok Y HT [] (elems Y v) (elems Y w) ltac:(constructor) (elems_sorted v) (elems_sorted w)) as (l & -> & S & H). cbn [ok_sset].
    rewrite elems_to by exact S. rewrite H. split; [intros [[]|Z]; exact Z|intros Z; right; exact Z].
  - intros v w u. apply bool_iff. rewrite b_xor, !sset_has_elem. cbn [cc_xor std_set].
    destruct (es_flip_set_ok Y HT (elems Y v) (elems Y w) (elems_sorted v) (elems_sorted w)) as (l & -> & S & H). cbn [ok_sset]. rewrite elems_to by exact S. apply H.
Qed.
End StdSet.

(** sets of natural numbers as bit vectors *)
Definition bit_has (v : Bco) (n : N) : bool := Z.testbit v (Z.of_N n).
Lemma bits_set_type : set_type Bco bit_has.
Proof.
  split; try reflexivity; try exact Bco_ok.
  - intros v w H. apply Z.bits_inj'. intros n Hn. specialize (H (Z.to_N n)). unfold bit_has in H. rewrite Z2N.id in H by exact Hn. exact H.
  - intros u. apply Z.bits_0.
  - intros v w u. apply Z.lor_spec.
  - intros v w u. apply Z.ldiff_spec.
  - intros v w u. apply Z.land_spec.
  - intros v w u. apply Z.lxor_spec.
Qed.

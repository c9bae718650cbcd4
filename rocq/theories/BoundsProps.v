(** interval_bounds: the two-boolean functions are the bit-level ones (C50). *)
From Verif Require Export Bounds.

Ltac bb := intros; repeat match goal with b : bounds |- _ => destruct b as [[] []] end;
           try reflexivity; try (cbn; intuition congruence).

Lemma enc_inj a b : enc a = enc b -> a = b.
Proof. destruct a as [[] []], b as [[] []]; vm_compute; congruence. Qed.
Lemma enc_range n : (n < 4)%N -> exists b, n = enc b.
Proof.
  intros H. assert (E : n = 0%N \/ n = 1%N \/ n = 2%N \/ n = 3%N) by lia.
  destruct E as [->|[->|[->| ->]]];
    [exists b_open|exists b_left_open|exists b_right_open|exists b_closed]; reflexivity.
Qed.
Lemma enc_ops a b :
  Bleft (enc a) = enc (b_left a) /\ Bright (enc a) = enc (b_right a) /\
  Ball (enc a) = enc a /\
  Breverse_left (enc a) = enc (b_reverse_left a) /\
  Breverse_right (enc a) = enc (b_reverse_right a) /\
  Beq (enc a) (enc b) = b_eqb a b /\
  Bor (enc a) (enc b) = enc (b_or a b) /\
  Bouter (enc a) (enc b) = enc (outer_bounds a b) /\
  Binner (enc a) (enc b) = enc (inner_bounds a b) /\
  Blefts (enc a) (enc b) = enc (left_bounds a b) /\
  Brights (enc a) (enc b) = enc (right_bounds a b) /\
  Blsub (enc a) (enc b) = enc (left_subtract_bounds a b) /\
  Brsub (enc a) (enc b) = enc (right_subtract_bounds a b) /\
  Bcompl (enc a) = is_complementary a /\
  Bleft_closed (enc a) = bl a /\ Bright_closed (enc a) = br a.
Proof. bb; repeat split. Qed.

(** What each operation does to the closedness of the two borders. *)
Lemma bounds_sides a b :
  (bl (outer_bounds a b) = bl a /\ br (outer_bounds a b) = br b) /\
  (bl (inner_bounds a b) = negb (br a) /\ br (inner_bounds a b) = negb (bl b)) /\
  (bl (left_bounds a b) = bl a /\ br (left_bounds a b) = bl b) /\
  (bl (right_bounds a b) = br a /\ br (right_bounds a b) = br b) /\
  (is_complementary a = negb (Bool.eqb (bl a) (br a))).
Proof. bb; repeat split. Qed.

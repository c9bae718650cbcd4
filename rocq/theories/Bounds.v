(** interval_bounds: the two-bit representation of interval borders. *)
From Verif Require Export Domain.
From Coq Require Export NArith.

(* ------------------------------------------------------------------------- *)
(** * Bit level: exactly the code, on an 8-bit [bound_type] (unsigned char)   *)
(* ------------------------------------------------------------------------- *)
(** [bound_type] values; conversions to unsigned char truncate modulo 256. *)
Definition u8 (n : N) : N := N.land n 255.
(** [~x] on an unsigned char, converted back to unsigned char (integer promotion
    followed by [bound_type(...)]) *)
Definition u8_not (n : N) : N := N.lxor (u8 n) 255.

(** interval_bounds.hpp 29-36 *)
Definition B_open : N := 0.
Definition B_left_open : N := 1.
Definition B_right_open : N := 2.
Definition B_closed : N := 3.
Definition B_right : N := 1.
Definition B_left : N := 2.
Definition B_all : N := 3.

(** interval_bounds.hpp 41-45 and concept/interval_bounds.hpp 18-25 *)
Definition Ball (b : N) : N := N.land b B_all.
Definition Bleft (b : N) : N := N.land b B_left.
Definition Bright (b : N) : N := N.land b B_right.
Definition Breverse_left (b : N) : N := N.land (N.shiftr (u8_not b) 1) B_right.
Definition Breverse_right (b : N) : N := N.land (u8 (N.shiftl (u8_not b) 1)) B_left.
(** concept/interval_bounds.hpp 27-48 *)
Definition Beq (a b : N) : bool := N.eqb a b.
Definition Band (a b : N) : N := N.land a b.
Definition Bor (a b : N) : N := N.lor a b.
Definition Bshl (a s : N) : N := u8 (N.shiftl a s).
Definition Bshr (a s : N) : N := N.shiftr a s.
Definition Bnot (a : N) : N := Ball (u8_not a).
(** concept/interval_bounds.hpp 50-75 *)
Definition Bouter (a b : N) : N := Bor (Bleft a) (Bright b).
Definition Binner (a b : N) : N := Bor (Breverse_right a) (Breverse_left b).
Definition Blefts (a b : N) : N := Bor (Bleft a) (Bshr (Bleft b) 1).
Definition Brights (a b : N) : N := Bor (Bshl (Bright a) 1) (Bright b).
Definition Blsub (a b : N) : N := Bor (Bright a) (Bnot (Bshl (Bright b) 1)).
Definition Brsub (a b : N) : N := Bor (Bleft a) (Bnot (Bshr (Bleft b) 1)).
Definition Bcompl (a : N) : bool := Beq a B_right_open || Beq a B_left_open.
Definition Bleft_closed (a : N) : bool := N.eqb (Bleft a) 2.
Definition Bright_closed (a : N) : bool := N.eqb (Bright a) 1.

(* ------------------------------------------------------------------------- *)
(** * Two-boolean view used by the rest of the model                          *)
(* ------------------------------------------------------------------------- *)
(** [bl]: left border closed, [br]: right border closed.  [enc] gives the bits
    (interval_bounds.hpp 29-32).  Property C50 proves that the functions below
    are the bit-level ones under [enc]. *)
Record bounds := Bd { bl : bool; br : bool }.
Definition enc (b : bounds) : N :=
  (if bl b then B_left else 0) + (if br b then B_right else 0).

Definition b_open := Bd false false.
Definition b_left_open := Bd false true.
Definition b_right_open := Bd true false.
Definition b_closed := Bd true true.

Definition b_eqb (a b : bounds) : bool := Bool.eqb (bl a) (bl b) && Bool.eqb (br a) (br b).
(** interval_bounds.hpp 42-45 *)
Definition b_left (b : bounds) := Bd (bl b) false.
Definition b_right (b : bounds) := Bd false (br b).
Definition b_reverse_left (b : bounds) := Bd false (negb (bl b)).
Definition b_reverse_right (b : bounds) := Bd (negb (br b)) false.
(** concept/interval_bounds.hpp 36-37, 50-60, 68-69 *)
Definition b_or (a b : bounds) := Bd (bl a || bl b) (br a || br b).
Definition inner_bounds (a b : bounds) := b_or (b_reverse_right a) (b_reverse_left b).
Definition outer_bounds (a b : bounds) := b_or (b_left a) (b_right b).
Definition left_bounds (a b : bounds) := Bd (bl a) (bl b).
Definition right_bounds (a b : bounds) := Bd (br a) (br b).
Definition is_complementary (b : bounds) : bool := b_eqb b b_right_open || b_eqb b b_left_open.
(** concept/interval_bounds.hpp 62-66 *)
Definition left_subtract_bounds (a b : bounds) := Bd (negb (br b)) (true).
Definition right_subtract_bounds (a b : bounds) := Bd true (negb (bl b)).

(** shift_lower / shift_upper, concept/interval_bounds.hpp 83-105 *)
Definition shift_lower {X : dom} (decl repr : bounds) (low : D X) : D X :=
  if bl decl && negb (bl repr) then pred low
  else if negb (bl decl) && bl repr then succ low
  else low.
Definition shift_upper {X : dom} (decl repr : bounds) (up : D X) : D X :=
  if negb (br decl) && br repr then pred up
  else if br decl && negb (br repr) then succ up
  else up.

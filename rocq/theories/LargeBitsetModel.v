(** The example example/large_bitset_: mini::large_bitset, a client of interval_map that stores a
    set of unsigned numbers as a map from chunk numbers to words of bits. *)
From Verif Require Export MapSpec MapInst.
From Verif Require Export MapModel.
From Coq Require Import ZArith Eqdep_dec.
Open Scope Z_scope.

(** An unsigned integer type of w bits as DomainT with std::less; [++]/[--] wrap around
    (large_bitset.hpp 25-29: unsigned char, short, long and long long). *)
Definition uwt (w : N) : Type := { z : Z | ((0 <=? z) && (z <? 2 ^ Z.of_N w))%Z = true }.
Definition uz {w : N} (x : uwt w) : Z := proj1_sig x.
Lemma uw_mod (w : N) z : ((0 <=? z mod 2 ^ Z.of_N w) && (z mod 2 ^ Z.of_N w <? 2 ^ Z.of_N w))%Z = true.
Proof. assert (0 < 2 ^ Z.of_N w) by (apply Z.pow_pos_nonneg; lia). pose proof (Z.mod_pos_bound z (2 ^ Z.of_N w) H). lia. Qed.
(** conversion to the type *)
Definition uof (w : N) (z : Z) : uwt w := exist _ (z mod 2 ^ Z.of_N w) (uw_mod w z).
Definition udom (w : N) : dom :=
  Dom (uwt w) (fun x y => uz x <? uz y) (fun x => uof w (uz x + 1)) (fun x => uof w (uz x - 1))
      (uof w 0) (uof w 1) true true.

(** log2_<Argument>, meta_log.hpp 14-21: 1 + log_<Argument/2> down to log_<1> = 0 *)
Fixpoint log_ (argument : positive) : Z :=
  match argument with xH => 0 | xO q | xI q => 1 + log_ q end.

Section LargeBitset.
(** w: number of bits of DomainT; digits: number of bits of word_type, std::numeric_limits<word_type>::digits *)
Context (w : N) (digits : positive).
Notation d := (Z.pos digits).
Notation X := (udom w).
Notation I := (itv (uwt w)).

(** conversion to word_type *)
Definition word (z : Z) : Z := z mod 2 ^ d.
(** bits<NaturalT>, bits.hpp 23-44: |=, &=, ^=, ~, < and == act on the word.  is_set and
    has_set_semantics hold (60-75).  bits has no +=, -=, *=, /= and is no argument of
    icl::insert and icl::erase: the fields for them are fillers that the map type below
    does not use. *)
Definition bits : codomain :=
  Codomain Z Z.eqb Z.ltb 0 (fun v _ => v) (fun v _ => v) (fun v _ => v) (fun v _ => v)
           Z.land Z.lor Z.lxor (fun v => word (Z.lnot v)) (fun v _ => v) (fun v _ => v) true false.
(** bits::contains, bits.hpp 39: ((w1 << element) & _bits) != 0 *)
Definition bits_contains (v : Z) (element : Z) : bool := negb (Z.land (word (Z.shiftl 1 element)) v =? 0).

(** interval_bitmap_type, large_bitset.hpp 74-76: interval_map<DomainT, BitSetT, partial_absorber,
    std::less, inplace_bit_add, inplace_bit_and>.  The interval type is the default, discrete_interval. *)
Definition bp : mpar := MPar MJoin true false F_bit_add F_bit_and.
Definition BM : mtype := mt bits bp.
Notation imap := (tree (uwt w) (C bits)).

(** the constants, large_bitset.hpp 143-154; divisor = digits *)
Definition last_ : Z := d - 1.
Definition shift_ : Z := log_ digits.
Definition mask : Z := d - 1.
Definition all_ : Z := word (Z.lnot 0).
Definition top : Z := word (Z.shiftl 1 (d - 1)).

(** from_lower_to, to_upper_from, large_bitset.hpp 161-162 *)
Definition from_lower_to (bit : Z) : Z := if bit =? last_ then all_ else word (word (Z.shiftl 1 (bit + 1)) - 1).
Definition to_upper_from (bit : Z) : Z := if bit =? last_ then top else word (Z.lnot (word (word (Z.shiftl 1 bit) - 1))).

(** segment_apply, large_bitset.hpp 166-196.  x >> shift and base+1 are element_type. *)
Definition segment_apply (combine_ : imap -> uwt w -> uwt w -> Z -> res imap) (t : imap) (operand : I) : res imap :=
  if is_empty X DD operand then Ok t
  else
    let base := uof w (Z.shiftr (uz (first X DD operand)) shift_) in
    let ceil := uof w (Z.shiftr (uz (last X DD operand)) shift_) in
    let base_rest := word (Z.land (uz (first X DD operand)) mask) in
    let ceil_rest := word (Z.land (uz (last X DD operand)) mask) in
    if uz base =? uz ceil then
      combine_ t base (uof w (uz base + 1)) (Z.land (to_upper_from base_rest) (from_lower_to ceil_rest))
    else
      let mid_low := if base_rest =? 0 then base else uof w (uz base + 1) in
      let mid_up := if ceil_rest =? all_ then uof w (uz ceil + 1) else ceil in
      t <- (if 0 <? base_rest then combine_ t base (uof w (uz base + 1)) (to_upper_from base_rest) else Ok t) ;;
      t <- (if ceil_rest <? all_ then combine_ t ceil (uof w (uz ceil + 1)) (from_lower_to ceil_rest) else Ok t) ;;
      if uz mid_low <? uz mid_up then combine_ t mid_low mid_up all_ else Ok t.

(** add_, subtract_, intersect_, flip_, large_bitset.hpp 200-203; discrete_interval::right_open(lo,up),
    discrete_interval.hpp 77 *)
Definition ro (lo up : uwt w) : I := constructb X lo up b_right_open.
Definition add_ (t : imap) lo up b : res imap := m_add X DD BM t (ro lo up) b.
Definition subtract_ (t : imap) lo up b : res imap := m_subtract X DD BM t (ro lo up) b.
Definition intersect_ (t : imap) lo up b : res imap := m_and_seg X DD BM t (ro lo up) b.
Definition flip_ (t : imap) lo up b : res imap := m_flip_seg X DD BM t (ro lo up) b.

(** the default constructor: an empty map, large_bitset.hpp 206-208 *)
Definition lb_empty : imap := @t_empty X (C bits).
(** add, subtract, intersect, flip and +=, |=, -=, &=, ^= for intervals, large_bitset.hpp 104-115 *)
Definition lb_add (t : imap) (rhs : I) : res imap := segment_apply add_ t rhs.
Definition lb_subtract (t : imap) (rhs : I) : res imap := segment_apply subtract_ t rhs.
Definition lb_intersect (t : imap) (rhs : I) : res imap := segment_apply intersect_ t rhs.
Definition lb_flip (t : imap) (rhs : I) : res imap := segment_apply flip_ t rhs.
(** the operators for elements, large_bitset.hpp 98-102: interval_type(rhs) is [rhs,rhs] *)
Definition lb_add_elem (t : imap) (x : uwt w) : res imap := lb_add t (singleton X DD x).
Definition lb_subtract_elem (t : imap) (x : uwt w) : res imap := lb_subtract t (singleton X DD x).
Definition lb_intersect_elem (t : imap) (x : uwt w) : res imap := lb_intersect t (singleton X DD x).
Definition lb_flip_elem (t : imap) (x : uwt w) : res imap := lb_flip t (singleton X DD x).
(** the operators for large_bitsets, large_bitset.hpp 89-96; |= is += *)
Definition lb_or (t rhs : imap) : res imap := m_add_map X DD BM t rhs.
Definition lb_minus (t rhs : imap) : res imap := m_subtract_map X DD BM t rhs.
Definition lb_and (t rhs : imap) : res imap := m_and_map X DD BM t rhs.
Definition lb_xor (t rhs : imap) : res imap := m_flip_map X DD BM t rhs.
Definition lb_eqb (t rhs : imap) : bool := m_eqb X DD BM t rhs.
Definition lb_ltb (t rhs : imap) : bool := m_ltb X DD BM t rhs.
End LargeBitset.

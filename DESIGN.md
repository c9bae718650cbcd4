# Formal model of Boost.ICL in Rocq (Coq 8.16.1)

## 1. What is modelled, and how

The library is header-only C++ templates.  The model follows it function by
function, in four layers.

1. **Domain** (`Domain.v`).  A domain is a record `dom`: carrier, boolean
   `ltb` (the `Compare` functor), `next`/`prior` (`domain_next`,
   `domain_prior`, i.e. `++`/`--` in `Compare` direction).  Laws are *explicit hypotheses*
   of the theorems: `dom_ok X k` (strict total order, plus -- only where interval kind
   `k` needs it -- discreteness or density).  Discreteness is deliberately weak:
   `x < y -> x < next x <= y` and `y < x -> y <= prior x < x`.  Nothing is
   assumed about `next` of the greatest or `prior` of the least element, so bounded
   and wrapping machine integers are instances.
2. **Intervals** (`Interval.v`, `Bounds.v`).  One record `itv` (lower, upper,
   bounds) and a `kind` (six class templates).  Every function of
   `concept/interval.hpp` is one Gallina function that dispatches on `kind`
   exactly as the overload set does on the traits.
3. **Trees** (`Tree.v`).  `std::set`/`std::map` as a sorted sequence of *nodes
   with identity* (`nid`).  An iterator is a node identity or `end()`.
   Dereferencing `end()`, using an erased node, decrementing `begin()`, calling
   the comparator on an empty interval (a `BOOST_ASSERT` in
   `non_empty::exclusive_less`) and running out of loop fuel are distinct error
   results.  All container functions are in this error monad, so "no undefined
   behaviour, termination" is part of every functional theorem (`= Ok ...`).
4. **Containers**.  `interval_set`, `separate_interval_set`,
   `split_interval_set` (a `style` parameter) and `interval_map`,
   `split_interval_map` (style x traits x codomain operations), the free
   functions of `concept/*.hpp`, and the comparison state machines.

Proof layering: (a) interval lemmas relate every interval function to
*cuts* (positions between elements); (b) the node-level programs are executed
symbolically and shown to compute a pure function on the list of stored
segments; (c) the pure functions are proved correct against element-level
specifications (membership, partial function of a map).

Specifications use only: `mem X k i x` (element x is in interval i), `cmem X k s x`
(some stored interval contains x), `at_ X k CC m x` (value of x), `same_seg` (one stored
interval contains both elements) and plain logic.

## 2. Per-property plan

C01-C12  interval functions: prove the element-level characterisation of each
  function for all six kinds over any `dom_ok` domain. C10/C11 counts: over `Z`.
  C04: also a `_refuted` theorem for the documented induced equivalence.
C13-C18  invariant + membership theorem per operation, then induction over
  operation histories (`set_op` inductive, `run`).
C19 hinted add = unhinted add as an equation on stored lists.
C20 two sorted/disjoint/joined lists with equal membership are `==`.
C21 same-segment relation characterised for separate/split add.
C22-C25 queries: boolean result <-> element-level statement; state machines by
  a loop invariant over list suffixes.
C26 laws: from membership + the same-segment characterisation (C20/C21).
C27 `Ok` part of every theorem; flip of an empty interval and `add_if` are the exceptions
  (separate `_refuted` theorems).
C28 conversion/join: `assign` loops and `join` loop modelled.
C29 element iterator over Z.
C30 lexicographic comparison on stored lists.
C31-C42, C48 maps: as for sets; pointwise `mlook` characterisation.
C43-C47 lookup, domain, canonical form, refinement to `icl::map`, inclusion.
C49 laws from the pointwise characterisation and C45.
C50 finite case analysis over the four bounds values.
C51 algebraic laws over Z and finite-set codomains.

C54-C58 maps: order, overlap, erase_if/absorb_identities, assign/join, sizes and element
  iteration, as for sets.
C59 same-segment relation of split maps, from the division-tracking half of the cut-level lemmas.
C46 refinement: two inductive relations (`smirror`, `mirror`) run an interval program and an
  element program side by side; induction over them with one lemma per operation.
C60-C63, C65, C66 element containers (`ElemModel.v`): a `std::map` is its sorted list of pairs,
  an iterator a position; every operation is characterised on the represented function `eat`.
C64 atomize/cluster: induction over the segments; termination by the distance to the last element.
C67 output iterators (`IterModel.v`): induction over the copied sequence; the iterator is shown to
  stay valid and the result is described element-wise (`in_turn`).
C68, C69 self-application (`AliasModel.v`): the loop over the operand is an iterator of the changing
  tree; symbolic execution of one step on the segment that the iterator shows.
C70, C71 lookup by interval and erasure through iterators (`LookSpec.v`): traversals are runs of
  `++it`; decomposition of the sorted node list at the query; erase(iterator) and
  erase(first, past) are steps of the histories `reach`/`mreach`.
C72 iterator stability (`StableSpec.v`): the invariants of the single steps also say which tree
  nodes are kept (`kp` in `Upd.v`); nodes away from the operand, for joining styles also not touching it.
C73 running out of memory (`CrashModel.v`, `CrashSpec.v`): the set algorithms again, statement by
  statement, in a monad that counts the segments that can still be allocated; an exception is an
  outcome that carries the container as it is at that moment.  Proved: with enough memory the
  result is that of the ordinary function, and symbolic execution gives the state at every
  allocation.  The states left by exceptions are steps of the histories `reach`, so all theorems
  about reachable sets also hold for sets that went through exceptions.
C74 the same for maps (`CrashMapModel.v`, `CrashMapSpec.v`): invariants of the loops at every allocation
  (`CrashIns.v`, `CrashAdd.v`); states left by exceptions are steps of `mreach`, except that an interval_map
  whose addition or subtraction failed is one only after icl::join.
C75 comparison operators (`CompareModel.v`, `CompareSpec.v`): the operators derived in comparable.hpp, from the
  order theorems behind C30, C54, C63; the dictionary order by induction over the segment lists.
C76 mapped_reference: its operators over arbitrary operators of key and value; case analysis over trichotomy.
C77 inclusion predicates: from the element-level meaning of contains (C22, C47) and is_element_equal (C24, C47).
C78 segment counts: every segment of the result begins at a border of the container or of the operand (a cut-level fact from the C19/C42 lemmas); segments of one container begin at different cuts, so counting begins bounds the number of segments. & and ^ of maps (`SizeAnd.v`, `SizeFlip.v`): every border of an intermediate result is a border of an operand, and for & the result stays inside both.
C79 histories: induction over the history from C15/C16, C34/C35; the value at x is the fold of the actions at x, and a stored value is always `store` of the running balance.
C80 order: a permutation lemma over any step function that preserves an equivalence and whose steps commute; equivalence = same elements (joined sets), same segments (C21, C59 border theorems), or same function.
C81 running out of memory in symmetric differences (`CrashFlipModel.v`): the loop is a sequence of subtractions and additions, so C73 gives each state; the loop invariant (segments still to visit are those of the original set, leftovers lie in gaps) bounds what is lost; for whole sets an invariant over the operand's segments already flipped.
C82 running out of memory in symmetric differences of maps (`CrashFlipMapModel.v`): the loop fills gaps only and keeps the common part in local variables, so an interruption leaves the map with some gaps filled; then C74 for the last gap, the erasure and the addition of the intersection, composed through what each step completed.
C83 iterators in whole-container operations: C72 and the stability parts of C73/C74 for each step, composed: a segment out of reach of every operand segment is out of reach in each step.
C84 large_bitset: the client of example/large_bitset_ modelled on top of the map model with words of any power-of-two size and unsigned domains of any width; one lemma about the three parts of segment_apply at the level of (chunk, bit), then C34, C35, C39, C40, C41, C45 and C54 for the map.
C85 a throwing combiner (`ThrowModel.v`): the operations with a bound on the number of combinations that still succeed; the symbolic execution of C34 and C35 is cut at each combination; what is reached there differs from the start by completed combinations in front of the point and by divided segments.
C86 maps of sets (`CollSpec.v`): `set_type` says what it means that codomain values are sets; the pairs of a map; from the pointwise theorems of C34-C40 by cases on the values; std::set with the element-set operators of C60 and bit vectors are instances.
C87 laws of collectors: expressions over maps denote sets of pairs (C86), maps with equal pairs (and keys) are equal functions, so every set identity transfers; the documented laws follow by propositional reasoning at each pair.
C88 is_distinct_equal (`DistinctModel.v`): the lock-step loop over both trees that skips identities; induction over the two segment lists without identities.
C89 laws of quantifiers (`QuantSpec.v`): maps denote functions into option values (MapThms3), the laws follow point by point from the algebra of the values; instances: strings, unbounded, signed and fixed-width unsigned numbers.
C90 maps of maps (`NestSpec.v`): icl::map of C60-C66 as a codomain (its values are the canonical sequences, results outside would become the empty map, which the proofs exclude); each operator acts entry by entry, so monoid, group and set laws transfer; induction over the depth of nesting.
C91 interval containers as values (`NestISpec.v`): interval_set and joining interval_map as codomains. A value is the list of its segments with normalised bounds (C == is Leibniz equality of these lists, proved from the canonical form C07/C33); an operator rebuilds the trees, runs the modelled operator and reads the segments back; the proofs exclude the default results. Towers: induction over the list of layers.
C92 texts (`PrintModel.v`, `PrintSpec.v`): a stream is the list of characters written to it, the printers of domain and associated values are parameters. Texts are cut at the first separator; each printed part starts with a character other than `}`, so a sequence of them can be taken apart; decimal integers (Coq's `DecimalString`) are an instance.
C93 borders of whole-container operations (`WholeBorders.v`): induction over the segments of the operand with the single-segment theorems C21, C59 as the step (the segments are disjoint, so borders absorbed earlier do not matter); &, ^ of sets from the description of results by cuts (`SetLaws.v`); & of maps from the invariant of `SizeAnd.v`. ^ of maps (`FlipBorders.v`): every flipped segment keeps all borders between its limits and changes nothing outside of them.
C52 static factories: element-level characterisation.
C53 not expressible: `element_comparer.hpp` 127/149 call a member `touches()` that no interval
  class has, so the function template cannot be instantiated and has no behaviour.

## 3. Trusted base

* Coq 8.16.1 kernel.  `Assumptions.v` (generated by `tools/assume.py`) puts all property
  theorems into one tuple and runs `Print Assumptions` on it, which covers each component; it
  answers "Closed under the global context": no axioms, not even the standard library's, for
  any of them.  (One listing per theorem would take 25 s each, longer than the proofs.)  (A whole-library listing such as `coqchk -o` also shows the module-type fields
  `Coq.ssr.ssrunder.Under_rel.*` of Coq's own ssreflect files, which get loaded with the standard
  library tactics; no theorem here depends on them.)
* The reading of the C++ sources: each definition cites file and lines.
* `std::set`/`std::map` meet their specification w.r.t. the comparator
  (an insertion that throws has no effect, and one that finds an equivalent key does not allocate;
  lower_bound = first node not less than the key; a hint never changes the
  resulting content; iterators stay valid until their node is erased).

## 4. Not modelled

Stream state, formatting flags and locales (the text itself is C92), memory allocation and exceptions (except for C73, C74, C81-C83: running out of memory, and C85: a combiner that
throws and has no effect then; `erase_if`, `join`, copying, `^=` with a throwing combiner, combiners that change their argument
before they throw, and exceptions thrown by comparisons or copies of domain and codomain values are not covered), move semantics, overload resolution and
enable_if machinery, aliasing of operands other than self-application (C68, C69: the operand `o` of every other
theorem is a separate container, even where it has the same value as the object), complexity claims, `boost::rational`/`ptime`/`gregorian` adaptors,
signed-overflow UB at the interval level (`next`/`prior` are total functions
without any law at the domain's ends).  `is_element_less/greater` (cannot be instantiated),
`detail/interval_set_algo.hpp` 369-640 (unused `Interval_Set::add/subtract`), `assign_if`
(does not compile).

## 5. Recurring hypotheses

* `dom_ok X k`: see section 1.  Instances proved in `Instances.v`: integers, integers under
  `std::greater`, an 8-bit wrapping unsigned type, rationals.
* `edge_ok`, `has_room`, `storable`, `headroom`: the value is not the one extreme value of a
  bounded type that a static half-open interval cannot represent or step over.  Trivially true
  for unbounded domains and for non-static interval types.
* `reach X k st t`: `t` is produced from an empty set of style `st` by some finite history of
  the modelled operations (operands may have any style).  `mreach X k CC p t`: the same for maps
  with codomain `CC` and parameters `p` (style, absorber/enricher, partial/total, combiner, section).
* `eq_ok CC`: the codomain's `==` is equality.  `proper CC p`: the combiner's first-insertion value
  equals combining into the identity, and what is stored first is not changed by storing it again
  (`first_ok`); proved for the default parameters and for plus/max/bit_add/... in `MapInst.v`.

## 6. Findings (`_refuted` theorems, each with a concrete witness)

* C01/C03: `contains`/`==` of static intervals at the extremes of a wrapping type.
* C04: the equivalence induced by `exclusive_less`/`<` is not `==` when an interval is empty.
* C06, C52: `closed_interval` and the static factories assume ascending order; wrong with
  `std::greater`.
* C09: `touches` wraps around at the extremes.
* C11: `cardinality`/`size` of a closed interval ending at the type's last value, and descending order.
* C15: adding the greatest element with static right-open intervals silently does nothing.
* C17: `flip` with an empty interval on a non-empty set fails an assertion.
* C22: looking up the greatest element with static right-open intervals fails an assertion.
* C26: the `=e=` entries of the documented law table that we prove tight; on the other hand
  `(a+b)-c == (a-c)+(b-c)` holds with `==` for split sets too, stronger than documented.
* C29: element iterators over a `std::greater` domain visit one element per interval.
* C50: `left_subtract_bounds`/`right_subtract_bounds` do not match their names (unused).
* C53: `is_element_less/greater` do not compile.
* C33, C51: for combiners whose first-insertion value (`version<Combiner>`) is not what combining
  into the identity gives (`inplace_star`, `inplace_et`, `inplace_bit_subtract`, ...), an absorbing map
  can store identity values.
* C39, C57: with `inplace_minus` restriction (`m &= interval`) and assignment between the two
  styles negate the values, because copying goes through first insertion.
* C39: `&` on partial absorbers keeps v when the operand value is the identity; `&` is not associative there.
* C40: `flip` with an empty interval on a non-empty partial map fails an assertion; flipping
  (i, identity) on a partial absorber erases the overlap.
* C41: `operator+(const A&, A&&)` computes `right += left`: wrong for non-commutative combiners.
* C42: hinted and unhinted `add` differ for combiners with a non-neutral identity (`inplace_max`
  with negative values).
* C49: associativity of `+` does not hold with `==` on `split_interval_map`.
* C46, C60: `icl::map` and `interval_map` differ: `m -= (k, identity)` is not ignored by
  `icl::map` (visible with `inplace_max`), `m ^= (k, identity)` erases in an absorbing
  `interval_map` and does nothing in an `icl::map`; `intersects(m1, m2)` tests common keys in
  `icl::map` and combined values in `interval_map`.
* C62: `icl::map`'s range constructors and `operator[]` store identity elements in absorbers.
* C64: `atomize` compares and steps with raw `<=`, `++`: no elements with `std::greater`, endless loop
  if a closed interval ends at the greatest value.  `open_interval(value)` is empty with `std::greater`.
* C69: `m -= m` on a non-empty absorbing map (e.g. `interval_map<int,int>`) increments an iterator to
  an erased segment; `m += m` on a joining map can give wrong values or the same error; `m ^= m` on a
  joining enricher can do so too.  (Sets are safe, C68.)
* C66: `add_if` does not advance its iterator where the predicate is false: endless loop.
* Not instantiable (read from the text, not modelled): `icl::map::set`/`set_at`
  (`insertion->second`), `erase_if` and `absorb_identities` on element maps, `assign_if`,
  `icl::map::insert(first, last)` lacks a return value.
* C70: `find(a)`, `lower_bound(a)`, `equal_range(a)` with an empty interval a on a container that is not
  empty violate the comparator's precondition (`BOOST_ASSERT` in `non_empty::exclusive_less`).
* C72: a joining container may merge a segment that only touches the added interval: its iterator dangles.
* C73: adding to a split_interval_set and subtracting from any interval set erase or shrink segments before they insert
  the residuals: when an insertion throws, elements outside the operand are lost ({[0,10)} minus [2,4) leaves {}).
* C74: the same in interval maps ({[0,10)->1} plus ([2,4)->1) leaves {[2,10)->1} if the first allocation fails); an
  interval_map may be left with touching segments of equal value ({[0,2)->1,[2,4)->1} if the second one fails).
* C81: an interval_set ^= set that runs out of memory can lose segments that share no element with the operand
  ({[0,2),[4,6)} ^= {[2,4),[5,7)} leaves {} if the second allocation fails).
* C82: an interval_map ^= segment that runs out of memory can lose segments that share no key with the operand
  ({[4,6)->1,[8,10)->1} ^= ([5,8)->1) leaves {[4,5)->1} if the third allocation fails).
* C84: `large_bitset &= interval` leaves nothing if the interval's numbers lie in more than one word ({0,..,19} &= [4,12]
  with 8-bit words gives {}): segment_apply intersects with the parts one after the other.  With an empty interval it changes
  nothing.  (`ceil_rest == all` in segment_apply is never true; it was presumably meant to be `last`.  This is harmless.)
* C85: `add(hint, segment)`, and so `m += n`, inserts the identity element and combines afterwards: if the combiner throws, a
  map that absorbs identities is left with a segment that holds one ({[0,4)->1} += {[6,8)->3} leaves {[0,4)->1,[6,8)->0}).
* C86: a map of sets that absorbs empty sets ignores the operand (i, {}) in `&=` too: {[1,4)->{1,2}} &= ([0,9), {}) changes
  nothing; so does `&=` with an enricher {[0,9)->{}}.
* C88: `is_distinct_equal` is documented as equality on all elements that do not carry an identity; on `split_interval_map` it
  also compares segment borders ({[0,4)->1} and {[0,2)->1,[2,4)->1} are not distinct-equal).
* C89: associativity of `&` is documented for maps of unsigned numbers; it fails for absorbers where a sum wraps around to 0
  (8 bits: {[0,4)->128} & {[0,4)->128} & {[0,4)->1}).
* C90: `has_inverse<icl::map>` follows the codomain even if the map is partial and has no inverse; a total absorbing interval map
  of partial maps stores the identity element: {} - {[0,4)->{1->5}} is {[0,4)->{}}, which is not == {}.
* C92: strings are written as they are: {[0,1)->"x",[5,6)->"y"} and {[0,1)->"x)([5,6)->y"} have the same text; == discrete_intervals
  such as [1,3] and (0,4) have different texts.
* C79, C80: a partial map ignores a subtraction where it has no value, even if the value is added later; on a
  split_interval_map that absorbs identities, the segmentation depends on the order of the additions.
* C55: maps that overlap but whose combined values are absorbed are "disjoint".

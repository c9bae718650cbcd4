{"id": "C01", "title": "Emptiness agrees with containment", "statement": "For every interval i: is_empty(i) is true exactly when no domain element x satisfies contains(i, x); and contains(i, x) is true exactly when x lies between the bounds, each bound included iff it is closed.", "quantifier": "all six interval class templates (right_open, left_open, closed, open, discrete, continuous), every ordered domain admissible for the class (bounded or unbounded, ascending or descending compare), every choice of bounds, every element", "why_tests_cant": "the domain and the bounds are unbounded; tests only sample a few literal intervals of int/double", "anchors": ["include/boost/icl/concept/interval.hpp: is_empty, contains"]}
{"id": "C02", "title": "Interval containment is the subset relation", "statement": "contains(super, sub) (and within(sub, super)) is true exactly when every element contained in sub is contained in super; in particular the empty interval is within every interval.", "quantifier": "all six interval class templates (right_open, left_open, closed, open, discrete, continuous), every ordered domain admissible for the class (bounded or unbounded, ascending or descending compare), every choice of bounds, all pairs of intervals", "why_tests_cant": "the domain and the bounds are unbounded; tests only sample a few literal intervals of int/double", "anchors": ["include/boost/icl/concept/interval.hpp: contains(Type,Type), within, lower_less_equal, upper_less_equal"]}
{"id": "C03", "title": "Interval equality is equality of elements", "statement": "i == j is true exactly when i and j contain the same elements; for dynamically bounded discrete intervals this identifies [0,2], [0,3), (-1,2] and (-1,3), and it identifies all empty intervals.", "quantifier": "all six interval class templates (right_open, left_open, closed, open, discrete, continuous), every ordered domain admissible for the class (bounded or unbounded, ascending or descending compare), every choice of bounds, all pairs of intervals", "why_tests_cant": "the domain and the bounds are unbounded; tests only sample a few literal intervals of int/double", "anchors": ["include/boost/icl/concept/interval.hpp: operator ==, lower_equal, upper_equal"]}
{"id": "C04", "title": "Ordering of intervals", "statement": "On non-empty intervals operator < is the lexicographic order 'begins before, or begins equally and ends before': irreflexive, transitive, total up to ==. With empty intervals admitted it is still a strict partial order, but the documented equivalence x==y := !(x<y)&&!(y<x) fails.", "quantifier": "all six interval class templates (right_open, left_open, closed, open, discrete, continuous), every ordered domain admissible for the class (bounded or unbounded, ascending or descending compare), every choice of bounds, all pairs/triples of intervals", "why_tests_cant": "the domain and the bounds are unbounded; tests only sample a few literal intervals of int/double", "anchors": ["include/boost/icl/concept/interval.hpp: operator <, >, <=, >=, lower_less, upper_less", "doc/functions_equivs_orderings.qbk"]}
{"id": "C05", "title": "exclusive_less separates elements", "statement": "exclusive_less(i, j) for non-empty i, j is true exactly when every element of i is less than every element of j; on non-empty intervals it is a strict partial order whose incomparability is overlap.", "quantifier": "all six interval class templates (right_open, left_open, closed, open, discrete, continuous), every ordered domain admissible for the class (bounded or unbounded, ascending or descending compare), every choice of bounds, all pairs/triples of intervals", "why_tests_cant": "the domain and the bounds are unbounded; tests only sample a few literal intervals of int/double", "anchors": ["include/boost/icl/concept/interval.hpp: exclusive_less, non_empty::exclusive_less", "include/boost/icl/detail/exclusive_less_than.hpp"]}
{"id": "C06", "title": "Intersection of intervals", "statement": "The interval i & j contains exactly the elements contained in both i and j; intersects(i,j) is true exactly when they share an element, disjoint(i,j) is its negation.", "quantifier": "all six interval class templates (right_open, left_open, closed, open, discrete, continuous), every ordered domain admissible for the class (bounded or unbounded, ascending or descending compare), every choice of bounds, all pairs of intervals", "why_tests_cant": "the domain and the bounds are unbounded; tests only sample a few literal intervals of int/double", "anchors": ["include/boost/icl/concept/interval.hpp: operator &, intersects, disjoint"]}
{"id": "C07", "title": "Hull of intervals", "statement": "hull(i, j) contains every element of i and of j, and is contained in every interval that does (least upper bound); an element is in the hull exactly when it lies between two elements of i and j.", "quantifier": "all six interval class templates (right_open, left_open, closed, open, discrete, continuous), every ordered domain admissible for the class (bounded or unbounded, ascending or descending compare), every choice of bounds, all pairs of intervals", "why_tests_cant": "the domain and the bounds are unbounded; tests only sample a few literal intervals of int/double", "anchors": ["include/boost/icl/concept/interval.hpp: hull(Type,Type)"]}
{"id": "C08", "title": "Left and right subtraction", "statement": "left_subtract(right, left) contains exactly the elements of right that are greater than every element of left, right_subtract(left, right) exactly the elements of left that are less than every element of right (for a non-empty subtrahend).", "quantifier": "all six interval class templates (right_open, left_open, closed, open, discrete, continuous), every ordered domain admissible for the class (bounded or unbounded, ascending or descending compare), every choice of bounds, all pairs of intervals", "why_tests_cant": "the domain and the bounds are unbounded; tests only sample a few literal intervals of int/double", "anchors": ["include/boost/icl/concept/interval.hpp: left_subtract, right_subtract"]}
{"id": "C09", "title": "Touching intervals", "statement": "touches(i, j), for non-empty i lying before j, is true exactly when no domain element lies strictly between them, equivalently when the union of their elements is an interval.", "quantifier": "all six interval class templates (right_open, left_open, closed, open, discrete, continuous), every ordered domain admissible for the class (bounded or unbounded, ascending or descending compare), every choice of bounds; density is needed for continuous intervals", "why_tests_cant": "the domain and the bounds are unbounded; tests only sample a few literal intervals of int/double", "anchors": ["include/boost/icl/concept/interval.hpp: touches", "doc/functions_interval_misc.qbk"]}
{"id": "C10", "title": "Inner complement and distance", "statement": "inner_complement(i, j) contains exactly the elements lying strictly between disjoint non-empty i and j (it is empty if they overlap or touch), and for integral domains distance(i,j) is the number of those elements.", "quantifier": "all six interval class templates (right_open, left_open, closed, open, discrete, continuous), every ordered domain admissible for the class (bounded or unbounded, ascending or descending compare), every choice of bounds, all pairs of intervals", "why_tests_cant": "the domain and the bounds are unbounded; tests only sample a few literal intervals of int/double", "anchors": ["include/boost/icl/concept/interval.hpp: inner_complement, between, distance"]}
{"id": "C11", "title": "Size of an interval", "statement": "For integral domains cardinality(i), size(i) and length(i) equal the number of contained elements.", "quantifier": "all discrete interval types over the integers with std::less, all intervals", "why_tests_cant": "unbounded many intervals; overflow only appears at domain extremes", "anchors": ["include/boost/icl/concept/interval.hpp: cardinality, size, length, last_next"]}
{"id": "C12", "title": "Bound accessors and constructors", "statement": "first(i)/last(i) of a non-empty discrete interval are its least/greatest element; singleton(x) contains exactly x; span/hull(x,y) contains exactly the elements between x and y (bounds as documented per interval type).", "quantifier": "all six interval class templates (right_open, left_open, closed, open, discrete, continuous), every ordered domain admissible for the class (bounded or unbounded, ascending or descending compare), every choice of bounds, all elements and intervals", "why_tests_cant": "the domain and the bounds are unbounded; tests only sample a few literal intervals of int/double", "anchors": ["include/boost/icl/concept/interval.hpp: first, last, singleton, unit_trail, construct, span, hull(domain,domain)"]}
{"id": "C13", "title": "Interval sets store disjoint ordered non-empty intervals", "statement": "After any sequence of operations, iterating an interval_set, separate_interval_set or split_interval_set yields non-empty intervals in strictly ascending order, no two of which share an element.", "quantifier": "every finite history of public operations (default/copy construction, add, insert, subtract, erase, flip, hinted add, &=, ^=, +=, -=, clear) with arbitrary arguments, all three set styles, all interval types", "why_tests_cant": "histories and arguments are unbounded; the invariant must hold after each of infinitely many operation sequences", "anchors": ["include/boost/icl/interval_base_set.hpp", "include/boost/icl/detail/interval_set_algo.hpp", "include/boost/icl/interval_set.hpp", "include/boost/icl/separate_interval_set.hpp", "include/boost/icl/split_interval_set.hpp"]}
{"id": "C14", "title": "interval_set is always maximally joined", "statement": "After any sequence of operations no two neighbouring intervals of an interval_set touch: every stored interval is a maximal run of contained elements.", "quantifier": "every finite history of public operations (default/copy construction, add, insert, subtract, erase, flip, hinted add, &=, ^=, +=, -=, clear) with arbitrary arguments, all three set styles, all interval types (interval_set)", "why_tests_cant": "histories and arguments are unbounded; the invariant must hold after each of infinitely many operation sequences", "anchors": ["include/boost/icl/interval_set.hpp: handle_inserted, add_over", "include/boost/icl/detail/interval_set_algo.hpp: join_neighbours, join_under"]}
{"id": "C15", "title": "Addition is set union", "statement": "After s.add(i), s.insert(i) or s += i the set contains x exactly when it contained x before or x is in i; adding an element adds exactly that element; an empty interval changes nothing.", "quantifier": "every reachable set of every style, every interval/element argument", "why_tests_cant": "the number of stored intervals, their positions relative to the argument and the argument are unbounded", "anchors": ["include/boost/icl/interval_base_set.hpp: add, insert, _add", "include/boost/icl/detail/interval_set_algo.hpp: add, join_under", "include/boost/icl/concept/interval_set.hpp: add, insert"]}
{"id": "C16", "title": "Subtraction is set difference", "statement": "After s.subtract(i), s.erase(i) or s -= i the set contains x exactly when it contained x before and x is not in i.", "quantifier": "every reachable set of every style, every interval/element argument", "why_tests_cant": "unbounded number of overlapped intervals", "anchors": ["include/boost/icl/interval_base_set.hpp: subtract, erase", "include/boost/icl/detail/interval_set_algo.hpp: subtract", "include/boost/icl/concept/interval_set.hpp: subtract, erase"]}
{"id": "C17", "title": "Flip is symmetric difference", "statement": "After s.flip(i) or s ^= i (i non-empty) the set contains x exactly when exactly one of the old set and i contained x.", "quantifier": "every reachable set of every style, every non-empty interval / every element", "why_tests_cant": "the loop mutates the container while iterating over it; only a proof over all overlap patterns settles it", "anchors": ["include/boost/icl/concept/interval_set.hpp: flip", "include/boost/icl/concept/interval_associator.hpp: operator ^="]}
{"id": "C18", "title": "Operations with whole sets are elementwise", "statement": "s += t, s -= t, s &= t, s ^= t (t any interval set style, also mixed styles) yield union, difference, intersection and symmetric difference of the contained elements.", "quantifier": "all pairs of reachable interval sets of all style combinations", "why_tests_cant": "unbounded sizes of both operands", "anchors": ["include/boost/icl/concept/interval_associator.hpp: operator +=, -=, &=, ^=, erase, add_intersection", "include/boost/icl/concept/interval_set.hpp: flip, add_intersection", "include/boost/icl/detail/set_algo.hpp: common_range"]}
{"id": "C19", "title": "Hinted addition of set segments is independent of the hint", "statement": "s.add(hint, i) yields the same set as s.add(i) for every valid iterator hint.", "quantifier": "every reachable set of every style, every iterator of it, every interval", "why_tests_cant": "unbounded", "anchors": ["include/boost/icl/interval_base_set.hpp: _add(iterator, ...)", "include/boost/icl/concept/interval_set.hpp: add(Type&, iterator, ...)"]}
{"id": "C20", "title": "Canonical representation of joined sets", "statement": "Two interval_sets that contain the same elements compare equal with operator ==, whatever histories produced them.", "quantifier": "all pairs of histories of interval_set", "why_tests_cant": "quantifies over pairs of unbounded histories", "anchors": ["include/boost/icl/concept/interval_associator.hpp: operator ==", "include/boost/icl/interval_set.hpp"]}
{"id": "C21", "title": "Separate and split sets keep borders as documented", "statement": "In a separate_interval_set two elements lie in the same stored interval after add(i) exactly when they did before or both lie in i joined with the stored intervals overlapping i; in a split_interval_set exactly when neither the old segmentation nor the borders of i separate them.", "quantifier": "every reachable separate/split set, every added interval", "why_tests_cant": "unbounded", "anchors": ["include/boost/icl/separate_interval_set.hpp: add_over", "include/boost/icl/split_interval_set.hpp: add_over", "include/boost/icl/interval_base_set.hpp: add_front, add_main, add_rear"]}
{"id": "C22", "title": "Containment queries on sets", "statement": "contains(s, x), contains(s, i), contains(s, t) and within(...) are true exactly when every element of the argument is an element of the set; find(s, x) returns the stored interval containing x and end() if there is none.", "quantifier": "every reachable set of every style, every element/interval/set argument", "why_tests_cant": "unbounded", "anchors": ["include/boost/icl/concept/interval_set.hpp: contains", "include/boost/icl/concept/interval_associator_base.hpp: find", "include/boost/icl/detail/interval_set_algo.hpp: contains, within, is_joinable"]}
{"id": "C23", "title": "Overlap queries on sets", "statement": "intersects(s, p) is true exactly when s and p (element, interval or set) share an element; disjoint is its negation.", "quantifier": "every reachable set of every style, every argument", "why_tests_cant": "unbounded", "anchors": ["include/boost/icl/concept/interval_associator.hpp: intersects, disjoint", "include/boost/icl/detail/set_algo.hpp: common_range"]}
{"id": "C24", "title": "Element comparison ignores segmentation", "statement": "is_element_equal(a,b) is true exactly when a and b contain the same elements; inclusion_compare(a,b) reports exactly subset/superset/equal/unrelated of the element sets.", "quantifier": "all pairs of reachable interval sets of any style combination", "why_tests_cant": "two-pointer state machine over unbounded inputs", "anchors": ["include/boost/icl/detail/interval_subset_comparer.hpp", "include/boost/icl/detail/interval_set_algo.hpp: is_element_equal, subset_compare"]}
{"id": "C25", "title": "Size and range queries on containers", "statement": "size(s)/cardinality(s) is the number of contained elements, iterative_size the number of intervals, lower/upper/first/last/hull describe the least interval covering all elements.", "quantifier": "every reachable set, integral domains for the counts", "why_tests_cant": "unbounded", "anchors": ["include/boost/icl/concept/interval_associator.hpp: cardinality, size, length, iterative_size, hull, lower, upper, first, last"]}
{"id": "C26", "title": "Documented set laws up to segmentation", "statement": "For interval sets union and intersection are associative and commutative, the empty set is neutral, a-a is empty, the distributivity, De Morgan and symmetric-difference laws hold with exactly the equality (operator == or is_element_equal) given in the documentation table for joining, separating and splitting sets.", "quantifier": "all triples of reachable sets", "why_tests_cant": "the library's own validation is a random law tester; the laws are universally quantified", "anchors": ["doc/semantics.qbk: Sets", "include/boost/icl/concept/interval_associator.hpp"]}
{"id": "C27", "title": "No undefined behaviour and termination of set operations", "statement": "No public operation on an interval set ever dereferences end(), decrements begin(), uses an iterator to an erased node, violates the comparator's non-empty precondition (for non-empty arguments where required) or fails to terminate.", "quantifier": "every reachable set of every style, every operation and argument", "why_tests_cant": "a test only exercises finitely many iterator patterns", "anchors": ["include/boost/icl/interval_base_set.hpp", "include/boost/icl/detail/interval_set_algo.hpp", "include/boost/icl/concept/interval_set.hpp", "include/boost/icl/concept/interval_associator.hpp"]}
{"id": "C28", "title": "Conversion between set styles preserves elements", "statement": "Assigning an interval set of one style to another style preserves the contained elements and establishes the target's invariant; join(s) joins exactly the touching neighbours and preserves the elements.", "quantifier": "all reachable sets, all style pairs", "why_tests_cant": "unbounded", "anchors": ["include/boost/icl/interval_set.hpp: assign, operator =", "include/boost/icl/separate_interval_set.hpp: assign", "include/boost/icl/split_interval_set.hpp: assign", "include/boost/icl/concept/interval_associator_base.hpp: join"]}
{"id": "C29", "title": "Element iteration enumerates exactly the elements", "statement": "Iterating elements_begin(s)..elements_end(s) visits every contained element exactly once in ascending order; the reverse range visits them in descending order; ++ and -- are inverse.", "quantifier": "every reachable set over the integers, every element iterator position", "why_tests_cant": "unbounded", "anchors": ["include/boost/icl/detail/element_iterator.hpp: increment, decrement, dereference", "include/boost/icl/concept/interval_associator.hpp: elements_begin, elements_end"]}
{"id": "C30", "title": "Segment ordering of containers is a strict weak order inducing ==", "statement": "operator < on interval sets is irreflexive, asymmetric and transitive, and !(a<b) && !(b<a) holds exactly when a == b.", "quantifier": "all triples of reachable interval sets", "why_tests_cant": "unbounded", "anchors": ["include/boost/icl/concept/interval_associator.hpp: operator <, operator ==", "doc/semantics.qbk: Orderings and Equivalences"]}
{"id": "C31", "title": "Interval maps store disjoint ordered non-empty intervals", "statement": "After any sequence of operations, iterating an interval_map or split_interval_map yields non-empty, pairwise disjoint key intervals in ascending order; so every domain element has at most one associated value.", "quantifier": "every finite history of public map operations with arbitrary arguments; joining and splitting maps, partial/total, absorber/enricher traits, all interval types", "why_tests_cant": "histories and arguments are unbounded; the invariant must hold after each of infinitely many operation sequences", "anchors": ["include/boost/icl/interval_base_map.hpp"]}
{"id": "C32", "title": "interval_map joins equal neighbours", "statement": "After any sequence of operations no two neighbouring segments of an interval_map both touch and carry equal values.", "quantifier": "every finite history of public map operations with arbitrary arguments; joining and splitting maps, partial/total, absorber/enricher traits, all interval types (interval_map)", "why_tests_cant": "histories and arguments are unbounded; the invariant must hold after each of infinitely many operation sequences", "anchors": ["include/boost/icl/interval_map.hpp: handlers", "include/boost/icl/detail/interval_set_algo.hpp: join_left, join_right, join_neighbours"]}
{"id": "C33", "title": "Absorber maps never store identity values", "statement": "With an absorbing trait, no stored segment of the map carries the identity element of the codomain after any sequence of operations (for combiners for which the identity is neutral).", "quantifier": "every finite history of public map operations with arbitrary arguments; joining and splitting maps, partial/total, absorber/enricher traits, all interval types", "why_tests_cant": "histories and arguments are unbounded; the invariant must hold after each of infinitely many operation sequences", "anchors": ["include/boost/icl/interval_base_map.hpp", "include/boost/icl/detail/on_absorbtion.hpp"]}
{"id": "C34", "title": "Addition aggregates on overlap", "statement": "After m.add((i,v)) or m += (i,v): for x in i already mapped to w the new value is the combination w (+) v (removed if that is the identity and the map absorbs), for x in i not yet mapped it is v (not stored if absorbable), all other elements keep their value.", "quantifier": "every reachable map, every segment", "why_tests_cant": "unbounded overlap patterns and arbitrary codomain functions", "anchors": ["include/boost/icl/interval_base_map.hpp: _add, add_front, add_main, add_segment, add_rear", "include/boost/icl/concept/interval_map.hpp: add"]}
{"id": "C35", "title": "Subtraction on maps", "statement": "After m.subtract((i,v)): mapped elements of i have the inverse combiner applied (removed if the result is the identity and the map absorbs); unmapped elements of i are unchanged for partial maps and get the inverted value for total invertible maps; all other elements keep their value.", "quantifier": "every reachable map, every segment", "why_tests_cant": "unbounded", "anchors": ["include/boost/icl/interval_base_map.hpp: subtract, _subtract, subtract_front, subtract_main, subtract_rear", "include/boost/icl/concept/interval_map.hpp: subtract"]}
{"id": "C36", "title": "Insertion does not overwrite", "statement": "After m.insert((i,v)): elements of i that were unmapped map to v (unless v is absorbed), every other element keeps its value.", "quantifier": "every reachable map, every segment", "why_tests_cant": "unbounded", "anchors": ["include/boost/icl/interval_base_map.hpp: _insert, insert_main", "include/boost/icl/concept/interval_map.hpp: insert"]}
{"id": "C37", "title": "Setting overwrites exactly the interval", "statement": "After m.set((i,v)): every element of i maps to v (is erased if v is absorbed), every other element keeps its value.", "quantifier": "every reachable map, every segment", "why_tests_cant": "unbounded", "anchors": ["include/boost/icl/interval_base_map.hpp: set", "include/boost/icl/concept/interval_map.hpp: set_at"]}
{"id": "C38", "title": "Erasure on maps", "statement": "After m.erase(i) exactly the elements of i are unmapped; after m.erase((i,v)) exactly the elements of i that carried the value v are unmapped; everything else keeps its value.", "quantifier": "every reachable map, every interval or segment", "why_tests_cant": "unbounded", "anchors": ["include/boost/icl/interval_base_map.hpp: erase, erase_rest", "include/boost/icl/concept/interval_map.hpp: erase"]}
{"id": "C39", "title": "Intersection on maps", "statement": "m &= i (interval or interval set) restricts the map to the keys; m &= (i,v) and m &= m2 keep exactly the common keys with values combined by codomain intersection (set codomain) or the codomain combiner (otherwise); for total maps it is addition.", "quantifier": "every reachable map, every operand", "why_tests_cant": "unbounded", "anchors": ["include/boost/icl/interval_base_map.hpp: add_intersection, total_add_intersection, partial_add_intersection", "include/boost/icl/concept/interval_map.hpp: add_intersection"]}
{"id": "C40", "title": "Flip on maps", "statement": "After m.flip((i,v)) for a partial map: unmapped elements of i get v; mapped elements get the codomain symmetric difference (set codomain) or are removed/set to identity (other codomain); other elements keep their value. Total absorbers become empty.", "quantifier": "every reachable map, every segment", "why_tests_cant": "container mutated during iteration; unbounded", "anchors": ["include/boost/icl/interval_base_map.hpp: flip, on_total_absorbable", "include/boost/icl/concept/interval_map.hpp: flip"]}
{"id": "C41", "title": "Operations with whole maps are pointwise", "statement": "m += m2, m -= m2, insert(m,m2), erase(m, m2), erase(m, s) apply the segment operation for each segment of the operand, hence act pointwise on the represented functions.", "quantifier": "all pairs of reachable maps / sets", "why_tests_cant": "unbounded", "anchors": ["include/boost/icl/concept/interval_associator.hpp: operator +=, -=, insert, erase", "include/boost/icl/concept/interval_map.hpp"]}
{"id": "C42", "title": "Hinted addition/insertion equals unhinted", "statement": "m.add(hint, s) and m.insert(hint, s) yield the same map as without hint for every valid hint, provided the codomain's default value is neutral for the combiner; for combiners without that property (e.g. inplace_max on negative numbers) += of maps differs from adding the segments one by one.", "quantifier": "every reachable map, every hint, every segment, every combiner", "why_tests_cant": "unbounded; the violating combiners are not in the test-suite", "anchors": ["include/boost/icl/interval_base_map.hpp: _add(iterator,...), add_at, _insert(iterator,...), insert_at, gap_insert"]}
{"id": "C43", "title": "Lookup on maps", "statement": "m(x) returns the value of the unique segment containing x, or the identity element if none; find(x), contains(m, x), contains(m,(x,v)), contains(m,(i,v)), contains(m,i) agree with the represented partial function.", "quantifier": "every reachable map, every argument", "why_tests_cant": "unbounded", "anchors": ["include/boost/icl/interval_base_map.hpp: operator(), find", "include/boost/icl/detail/interval_map_algo.hpp: contains", "include/boost/icl/concept/interval_map.hpp: contains"]}
{"id": "C44", "title": "Domain and gaps of a map", "statement": "domain(dom, m) makes dom contain exactly the mapped elements; between(gaps, m) exactly the unmapped elements lying between mapped ones.", "quantifier": "every reachable map and set", "why_tests_cant": "unbounded", "anchors": ["include/boost/icl/concept/interval_map.hpp: domain, between", "include/boost/icl/concept/interval_set.hpp: domain, between"]}
{"id": "C45", "title": "Canonical representation of joined maps", "statement": "Two interval_maps that represent the same partial function compare equal with operator ==.", "quantifier": "all pairs of reachable interval_maps", "why_tests_cant": "unbounded", "anchors": ["include/boost/icl/concept/interval_associator.hpp: operator ==", "include/boost/icl/interval_map.hpp"]}
{"id": "C46", "title": "Interval containers refine element containers", "statement": "Performing +=, -=, insert, erase, ^= or &= with an interval or segment on an interval set or map, and performing the corresponding element operation of std::set or icl::map for every element of the interval, lead to containers with the same elements or the same function; the same holds for operations with whole containers, for every history of such operations run side by side, and for the answers of lookup, contains, size, element equality and domain afterwards.", "quantifier": "every pair of containers obtained by mirrored histories, every interval whose elements can be listed; combiners for which subtracting the identity does nothing, operands of ^= that are not absorbed", "why_tests_cant": "unbounded histories; relates two implementations on all inputs", "anchors": ["include/boost/icl/map.hpp: _add, _subtract, insert", "include/boost/icl/concept/element_set.hpp", "include/boost/icl/concept/element_map.hpp", "include/boost/icl/concept/element_associator.hpp", "include/boost/icl/interval_base_map.hpp", "include/boost/icl/concept/interval_map.hpp"]}
{"id": "C47", "title": "Map inclusion and element equality", "statement": "is_element_equal on maps holds exactly when both represent the same function; contains(m, m2)/inclusion_compare reports exactly the inclusion of the graphs.", "quantifier": "all pairs of reachable maps", "why_tests_cant": "unbounded", "anchors": ["include/boost/icl/detail/interval_subset_comparer.hpp", "include/boost/icl/concept/interval_map.hpp: contains"]}
{"id": "C48", "title": "No undefined behaviour and termination of map operations", "statement": "No public operation on an interval map dereferences end(), decrements begin(), uses an iterator to an erased node, calls the comparator with an empty key, or fails to terminate (with the exception of add_if, which never terminates when a segment fails the predicate).", "quantifier": "every reachable map, every operation and argument", "why_tests_cant": "unbounded", "anchors": ["include/boost/icl/interval_base_map.hpp", "include/boost/icl/concept/interval_map.hpp: add_if, erase_if"]}
{"id": "C49", "title": "Documented map laws", "statement": "Maps over a commutative monoid form a commutative monoid under + with the empty map as identity; a-a is empty for absorbers; a total absorber over a commutative group satisfies (0-a)+a == 0.", "quantifier": "all triples of reachable maps, all codomain monoids/groups", "why_tests_cant": "universally quantified laws", "anchors": ["doc/semantics.qbk: Collectors, Quantifiers", "include/boost/icl/concept/interval_associator.hpp"]}
{"id": "C50", "title": "Interval bounds algebra", "statement": "The bit operations on interval_bounds (left, right, outer_bounds, inner_bounds, left_subtract_bounds, right_subtract_bounds, is_complementary) select/flip the closedness of the intended side only.", "quantifier": "all bounds values and pairs", "why_tests_cant": "finite, but stated as the lemma base of all dynamic interval operations", "anchors": ["include/boost/icl/interval_bounds.hpp", "include/boost/icl/concept/interval_bounds.hpp"]}
{"id": "C51", "title": "Codomain combiners and their inverses", "statement": "For each predefined combiner the inverse combiner undoes it on the algebra it is meant for (group inverse for plus/minus, set difference for set union, ...), and the conversion used on first insertion agrees with combining into the identity element.", "quantifier": "all codomain values", "why_tests_cant": "unbounded", "anchors": ["include/boost/icl/functors.hpp"]}
{"id": "C52", "title": "Interval factories with static bounds", "statement": "interval<T>::open/closed/left_open/right_open(l,u), when the library default interval type has fixed bounds, yields an interval with exactly the elements the requested bounds denote.", "quantifier": "all l, u, all requested bounds, all static interval types over discrete ascending domains with room for the border shift", "why_tests_cant": "unbounded pairs of borders, and the shift direction depends on the comparison functor", "anchors": ["include/boost/icl/interval.hpp:29-131", "include/boost/icl/detail/interval_bounds (shift_lower, shift_upper)"]}
{"id": "C53", "title": "is_element_less / is_element_greater order containers by their elements", "statement": "is_element_less(a,b) is the lexicographic order of the ascending element sequences of a and b, is_element_greater its converse.", "quantifier": "all pairs of reachable interval sets of any style combination", "why_tests_cant": "two-pointer state machine over unbounded inputs", "anchors": ["include/boost/icl/detail/element_comparer.hpp: next_left, next_right", "include/boost/icl/detail/interval_set_algo.hpp: is_element_less, is_element_greater"]}
{"id": "C54", "title": "operator < on maps is a strict weak order inducing ==", "statement": "operator < on interval maps is irreflexive, asymmetric and transitive, and two maps are incomparable exactly when operator == holds, provided the codomain's < is a strict order with equality as incomparability.", "quantifier": "all triples of reachable maps of any style and traits over one codomain", "why_tests_cant": "lexicographic comparison of unbounded segment sequences", "anchors": ["include/boost/icl/concept/interval_associator.hpp", "include/boost/icl/detail/std_set.hpp", "include/boost/icl/interval_base_map.hpp: operator <"]}
{"id": "C55", "title": "Overlap queries on maps", "statement": "intersects(m, i) is true exactly when an element of i is mapped; intersects(m, (i,v)) and intersects(m, m2) exactly when m & (i,v) or m & m2 maps an element (always for total maps); intersects(m, s) exactly when an element of the set s is mapped; disjoint is the negation.", "quantifier": "all reachable maps, intervals, segments, maps and sets; set operands: combiners whose first insertion agrees with combining into the identity", "why_tests_cant": "quantifies over all elements", "anchors": ["include/boost/icl/concept/interval_map.hpp: intersects", "include/boost/icl/concept/interval_associator.hpp: disjoint"]}
{"id": "C56", "title": "Conditional erasure on maps", "statement": "erase_if(pred, m) removes exactly the segments the predicate holds for and keeps the others in order; absorb_identities(m) removes exactly the elements mapped to the identity element.", "quantifier": "all reachable maps, all predicates", "why_tests_cant": "iterator invalidation while erasing in a loop over any number of segments", "anchors": ["include/boost/icl/concept/interval_associator.hpp", "include/boost/icl/concept/interval_map.hpp: absorb_identities", "include/boost/icl/detail/map_algo.hpp / concept/container.hpp: erase_if"]}
{"id": "C57", "title": "Assignment between map styles and join", "statement": "Assigning a split_interval_map to an interval_map (or back) preserves the represented function; interval_map then holds the joined form, split_interval_map the same segments; join(m) merges exactly the touching segments with equal values and preserves the function.", "quantifier": "all reachable maps of either style with the same traits and a combiner other than inplace_minus", "why_tests_cant": "unbounded segment sequences", "anchors": ["include/boost/icl/interval_map.hpp: assign", "include/boost/icl/split_interval_map.hpp: assign", "include/boost/icl/concept/interval_associator.hpp: join"]}
{"id": "C58", "title": "Size, range and element iteration on maps", "statement": "cardinality/size/length count the mapped elements, iterative_size the segments, distance the unmapped elements between mapped ones; hull is the least interval around all mapped elements; first/last the least/greatest mapped element; element iteration visits exactly the pairs (x, m(x)) of mapped x in ascending order, backwards in descending order.", "quantifier": "all reachable maps over integral domains (counts also over dense domains), no stored right-closed interval ending at the greatest value of the type", "why_tests_cant": "unbounded number of segments and elements", "anchors": ["include/boost/icl/concept/interval_associator.hpp", "include/boost/icl/detail/element_iterator.hpp"]}
{"id": "C59", "title": "Segment borders of maps", "statement": "A split_interval_map keeps the borders users create: after add or subtract of (i, v), two mapped elements share a segment iff neither the old segments nor the borders of i separate them (equal values on both sides of a border are not joined); insert keeps all old segments and fills each gap of i with one segment; set makes i one segment and keeps the other borders; erase (of an interval or a segment, either style) keeps the borders of what remains.", "quantifier": "all reachable maps, all intervals and all values that are not absorbed", "why_tests_cant": "depends on the whole history of insertions that created the borders and on every way an operand can overlap them", "anchors": ["include/boost/icl/split_interval_map.hpp: handle_inserted, handle_combined, handle_reinserted", "include/boost/icl/interval_base_map.hpp: _add, _subtract, _insert, erase, set"]}
{"id": "C60", "title": "Element operations of icl::map", "statement": "add, +=, -=, insert, erase, ^=, &= with a key-value pair change exactly the association of that key, in the way the traits and the combiner say; with a key, a set of keys or a whole map they change exactly the associations of those keys; insert and erase report correctly whether something changed.", "quantifier": "all icl::maps any history of operations produces (also with the constructors and operator[] of std::map), all keys, values, operand maps and sets, all traits; += of a map: combiners that suit the codomain", "why_tests_cant": "unbounded histories, arbitrary key, value and combiner types", "anchors": ["include/boost/icl/map.hpp: _add, _subtract, insert, erase", "include/boost/icl/concept/element_map.hpp", "include/boost/icl/concept/element_associator.hpp"]}
{"id": "C61", "title": "Element operations of std::set used as an icl set", "statement": "+=, -=, ^=, &= with an element or another set compute union, difference, symmetric difference and intersection.", "quantifier": "all std::sets any history of these operations produces, all operands", "why_tests_cant": "intersection iterates a common range found by binary search; unbounded sizes", "anchors": ["include/boost/icl/concept/element_set.hpp", "include/boost/icl/detail/set_algo.hpp: common_range, add_intersection"]}
{"id": "C62", "title": "Invariants of element containers", "statement": "The keys of an icl::map or std::set are strictly ascending, every key has one value, and an absorbing icl::map never stores the identity element.", "quantifier": "all containers any history of operations produces; identity: histories without the raw std::map constructors and operator[]", "why_tests_cant": "invariant over unbounded histories", "anchors": ["include/boost/icl/map.hpp", "include/boost/icl/concept/element_map.hpp"]}
{"id": "C63", "title": "Queries on element containers", "statement": "operator(), contains, within, ==, is_distinct_equal, inclusion_compare, intersects and domain answer the element-level question for the represented function; operator < is a strict total order whose equivalence is ==.", "quantifier": "all pairs of containers any histories produce", "why_tests_cant": "two-pointer comparison over inputs of any size", "anchors": ["include/boost/icl/map.hpp", "include/boost/icl/detail/set_algo.hpp: common_range, within, intersects", "include/boost/icl/detail/subset_comparer.hpp", "include/boost/icl/concept/element_map.hpp", "include/boost/icl/concept/element_associator.hpp"]}
{"id": "C64", "title": "Morphisms between element and interval containers", "statement": "atomize yields the element container with the same elements or the same function, cluster the interval container; both terminate. The joiner and identity_absorber functors insert the joined (respectively identity-free) content of the second container into the first.", "quantifier": "all reachable interval containers over integral ascending domains whose greatest element is not stored; all element containers whose elements have a unit interval", "why_tests_cant": "element loop over arbitrary intervals; wrap-around at the ends of the type", "anchors": ["include/boost/icl/detail/interval_morphism.hpp: segmental::atomize, segmental::cluster", "include/boost/icl/detail/interval_morphism.hpp: joiner, identity_absorber"]}
{"id": "C65", "title": "Algebraic laws of icl::map", "statement": "Addition of icl::maps is commutative and associative with the empty map as neutral element; a - a is empty for absorbers; for total absorbers over a group (a + b) - b = a and (a - b) + b = a, with equality of the stored sequences.", "quantifier": "all reachable icl::maps, all combiners that form a commutative monoid or group", "why_tests_cant": "quantifies over all triples of maps", "anchors": ["include/boost/icl/map.hpp", "include/boost/icl/concept/element_map.hpp: operator +=, operator -="]}
{"id": "C66", "title": "Conditional addition to element and interval maps", "statement": "add_if(pred, object, source) adds the pairs (segments) of the source that satisfy the predicate and terminates.", "quantifier": "all element maps and interval maps, all predicates", "why_tests_cant": "termination for all predicates", "anchors": ["include/boost/icl/concept/element_associator.hpp: add_if", "include/boost/icl/concept/interval_map.hpp: add_if"]}
{"id": "C67", "title": "Output iterators into interval containers", "statement": "std::copy of a sequence of intervals (segments) through icl::adder or icl::inserter into an interval set yields the union; into an interval map, icl::adder adds and icl::inserter inserts the segments one after the other. No iterator is used after its segment was erased.", "quantifier": "all reachable containers, all starting positions, all finite sequences in any order, empty and overlapping intervals included; adder into maps: combiners whose first value agrees with combining into the identity element", "why_tests_cant": "the iterator kept between the steps must stay valid and harmless for every sequence and every container state", "anchors": ["include/boost/icl/iterator.hpp: add_iterator, insert_iterator, adder, inserter"]}
{"id": "C68", "title": "Operators applied to one interval set twice", "statement": "x += x and x |= x leave x unchanged, x -= x and x ^= x empty it, x &= x keeps its elements, although the loop over the operand runs over the set that is being changed; no iterator to an erased interval is used.", "quantifier": "all reachable interval sets of all styles, domains and interval kinds", "why_tests_cant": "depends on which nodes are erased or kept in every possible tree; use of an erased node often goes unnoticed in a test", "anchors": ["include/boost/icl/concept/interval_associator.hpp: operator +=, operator -=, operator &=, erase", "include/boost/icl/concept/interval_set.hpp: flip"]}
{"id": "C69", "title": "Operators applied to one interval map twice", "statement": "x += x combines every value with itself, x -= x applies the inverse combiner to every value with itself, insert(x, x) changes nothing, erase(x, x) and x ^= x (absorbers) empty x; no iterator to an erased segment is used.", "quantifier": "all reachable interval maps, codomains with ==, and all combiners", "why_tests_cant": "depends on which nodes are erased or joined in every possible tree", "anchors": ["include/boost/icl/concept/interval_associator.hpp: operator +=, operator -=, insert, erase", "include/boost/icl/concept/interval_map.hpp: flip", "include/boost/icl/interval_base_map.hpp: add, subtract, insert, erase, flip"]}
{"id": "C70", "title": "Lookup by interval", "statement": "For a non-empty interval a, lower_bound(a), upper_bound(a) and equal_range(a) delimit exactly the segments that have an element in common with a: the segments in front of the range lie entirely before a, those behind it entirely after a. find(a) shows the first segment that has an element in common with a, and is end() if there is none.", "quantifier": "all reachable interval sets and maps of all styles, domains and interval kinds, all non-empty intervals a", "why_tests_cant": "the ordering used by the tree is not a total order on arbitrary intervals; that it is one on the keys of every container that can be built and is monotone against every query interval is an invariant of all histories", "anchors": ["include/boost/icl/interval_base_set.hpp: find, lower_bound, upper_bound, equal_range", "include/boost/icl/interval_base_map.hpp: find, lower_bound, upper_bound, equal_range", "include/boost/icl/detail/exclusive_less_than.hpp: exclusive_less_than"]}
{"id": "C71", "title": "Erasure through iterators", "statement": "erase(position) removes exactly the segment the iterator shows and erase(first, past) exactly the segments of the range; all other iterators stay valid and keep showing the same segments, and the elements of the container are those that were not in the removed segments. The result is again a well-formed container on which every other property holds.", "quantifier": "all reachable interval sets and maps of all styles, all valid positions and ranges", "why_tests_cant": "ranges over all containers and all positions in them, and over every history that goes on after the erasure", "anchors": ["include/boost/icl/interval_base_set.hpp: erase(iterator), erase(iterator, iterator)", "include/boost/icl/interval_base_map.hpp: erase(iterator), erase(iterator, iterator)"]}
{"id": "C72", "title": "Iterators stay valid", "statement": "add, insert, subtract, set and erase of an interval (segment) a, also with a hint, keep every iterator to a segment out of reach of a valid, and it shows the same interval and value afterwards. Out of reach means: no element in common with a; for the adding operations on joining containers also: not touching a (some element lies strictly between). A touching segment of a joining container may be merged and its iterator becomes dangling.", "quantifier": "all reachable interval sets and maps of all styles, traits, domains and interval kinds; all intervals a, all values, all iterators (hinted add on maps: combiners with a neutral identity element)", "why_tests_cant": "ranges over every container that can be built, every operand and every iterator into it", "anchors": ["include/boost/icl/interval_base_set.hpp: add, subtract", "include/boost/icl/interval_base_map.hpp: add, subtract, insert, set, erase", "include/boost/icl/detail/interval_set_algo.hpp: join_neighbours, join_under, add", "include/boost/icl/interval_map.hpp: handle_inserted, handle_combined"]}
{"id": "C73", "title": "Running out of memory leaves a usable set", "statement": "If an allocation fails inside add, insert, subtract or erase of an interval, the exception leaves an interval set that is well-formed and can be used further (it is covered by every other property). interval_set and separate_interval_set are unchanged by a failed add. A failed add to a split_interval_set has nothing new outside the addend, loses nothing inside it, and loses elements only of segments that meet it; a failed subtract has removed the subtrahend and loses elements only of segments that meet it; iterators to other segments stay valid. A failed += of a set keeps all elements (interval_set, separate_interval_set) and adds only operand elements; a failed -= only loses elements of segments that meet the operand; a failed &= changes nothing. With enough memory every operation has its ordinary result.", "quantifier": "all interval sets reachable by any history, including histories with earlier failed operations; all styles, domains and kinds, all operands, all hints, every number of allocations after which memory runs out", "why_tests_cant": "ranges over every allocation (crash point) of every operation on every container", "anchors": ["include/boost/icl/interval_base_set.hpp: add, _add, add_front, add_main, add_rear, subtract", "include/boost/icl/concept/interval_associator.hpp: operator +=, insert, erase, operator -=, operator &=", "include/boost/icl/concept/interval_set.hpp: add_intersection"]}
{"id": "C74", "title": "Running out of memory leaves a usable map", "statement": "If an allocation fails inside an operation on an interval map, the exception leaves a map whose segments are non-empty, ordered and disjoint. After a failed insert, set or erase, and after any failed operation on a split_interval_map, it is covered by every other property; an interval_map left by a failed add or subtract is so after icl::join, which does not change the function it represents. A failed insert of (a, v) has inserted v up to some point of a and changed nothing else. A failed add or subtract has combined the values up to some point of a, left those behind it, and outside a has lost at most keys of segments that meet a. A failed erase has erased inside a and outside has lost at most keys of segments that meet a; a failed set has erased a and set it up to some point. Iterators to segments out of reach stay valid. After a failed +=, -=, insert or erase of a whole map each key has its old value, its new value, or none (for insert: old or new); a failed &= changes nothing. With enough memory every operation has its ordinary result.", "quantifier": "all interval maps reachable by any history, including histories with earlier failed operations; all styles, traits, combiners, domains, kinds and codomains with equality, all operands, all hints, every number of allocations after which memory runs out; for += of maps combiners that suit the codomain", "why_tests_cant": "ranges over every allocation (crash point) of every operation on every container", "anchors": ["include/boost/icl/interval_base_map.hpp: _add, add_front, add_segment, add_main, add_rear, _subtract, subtract_rear, _insert, insert_main, erase, gap_insert, add_at, insert_at", "include/boost/icl/interval_map.hpp: gap_insert_at, handle_inserted", "include/boost/icl/split_interval_map.hpp: gap_insert_at", "include/boost/icl/concept/interval_associator.hpp: operator +=, insert, erase, operator -=, operator &=, join", "include/boost/icl/concept/interval_map.hpp: set_at, add_intersection"]}
{"id": "C75", "title": "The six comparison operators of a container are one total order", "statement": "For interval sets, interval maps, icl::map and std::set used as an icl container, exactly one of a < b, a == b, a > b holds; == is an equivalence, < is transitive and respects ==; a != b is not a == b, a > b is b < a, a <= b is a < b or a == b, a >= b is a > b or a == b. For interval containers the order is the dictionary order of their segments: behind a common prefix, the container that ends first or whose next segment begins first (if they begin together: ends first; for maps, if the intervals are equal: has the smaller value) is the smaller one.", "quantifier": "all containers reachable by any history, of any and of different styles and traits, all domains and kinds, all codomains with a total order", "why_tests_cant": "ranges over all pairs and triples of containers", "anchors": ["include/boost/icl/concept/comparable.hpp: operator !=, >, <=, >=", "include/boost/icl/concept/interval_associator.hpp: operator ==, <", "include/boost/icl/concept/element_associator.hpp: operator ==, <"]}
{"id": "C76", "title": "Comparing the pairs an element iterator yields", "statement": "The comparison operators of mapped_reference (what element iterators of interval maps dereference to) are those of the lexicographic total order: the key decides, then the value. They agree with the free operators that take a std::pair on the left.", "quantifier": "all keys and values of all types whose six operators describe a total order; all combinations of mapped_reference and std::pair operands", "why_tests_cant": "ranges over all key and value types and all values", "anchors": ["include/boost/icl/detail/mapped_reference.hpp: mapped_reference, operator ==, !=, <, >, <=, >="]}
{"id": "C77", "title": "The inclusion predicates are a partial order on contents", "statement": "sub_super_set(a,b) holds iff every element of a is in b (for maps: every association, up to inclusion of values); it is reflexive and transitive, two containers include each other iff is_element_equal holds, and super_sub_set is its converse. Containers of different styles can be compared.", "quantifier": "all interval sets and maps reachable by any history, of any and of different styles and traits, all domains and kinds, all reflexive and transitive inclusion relations of values", "why_tests_cant": "ranges over all pairs and triples of containers", "anchors": ["include/boost/icl/predicates/sub_super_set.hpp: sub_super_set, super_sub_set", "include/boost/icl/predicates/element_equal.hpp: element_equal"]}
{"id": "C78", "title": "Operations add only a bounded number of segments", "statement": "Adding an interval to a joining or separating interval set increases interval_count by at most 1; adding to a splitting set, or adding/inserting a segment into an interval map, or flipping an interval in a set, by at most 1 plus the number of stored segments the operand overlaps. Subtracting an interval from a set or erasing from a map adds at most 1; subtracting a segment from a map (not both total and invertible) and set() at most 2. For whole containers with n and m segments: += and insert give at most n+m (joining, separating sets) or 2n+2m (splitting sets, maps); -= and erase at most n+m (sets, erase from maps) or n+2m (-= of maps); & of sets, of a map and a set and of partial maps at most n+m, & of total maps 2n+2m; ^ of sets and maps at most 2n+2m.", "quantifier": "all interval sets and maps reachable by any history, all styles and traits, all domains and kinds, all operand intervals, values, hints and operand containers", "why_tests_cant": "a bound on growth over all containers and operands", "anchors": ["include/boost/icl/concept/interval_associator.hpp: interval_count, iterative_size, operator +=, operator -=, insert, erase, operator &=, operator ^=", "include/boost/icl/interval_base_set.hpp: add, subtract, flip", "include/boost/icl/interval_base_map.hpp: add, subtract, insert, erase, set"]}
{"id": "C79", "title": "A container built step by step holds what its history says", "statement": "After any sequence of += and -= of intervals an interval set contains an element iff the last action whose interval contains it was an addition (or it was contained before and no action concerned it). A map built by += of segments associates x with the combination of exactly the values added at x, no association if there are none (absorbers: or if the combination is the identity element); with values 1 it counts the intervals that contain x. After mixed += and -= with an invertible combiner a total map holds the balance of the values at x; an absorbing partial map does, too, if nothing was subtracted where the balance was the identity element (otherwise the subtraction is ignored).", "quantifier": "all finite histories of additions and subtractions of arbitrary intervals and values, all styles, all domains and interval kinds, all codomains whose combiner is a commutative monoid operation (with inverse for -=), all elements", "why_tests_cant": "histories and operands are unbounded", "anchors": ["include/boost/icl/concept/interval_associator.hpp: operator +=, operator -=", "include/boost/icl/interval_base_map.hpp: add, subtract", "include/boost/icl/interval_base_set.hpp: add, subtract"]}
{"id": "C80", "title": "The order of additions does not matter", "statement": "Adding the same intervals in another order to an interval set gives a set that is equal by == in all three styles (also the segmentation); so does subtracting intervals in another order. Adding the same segments in another order to an interval_map with a commutative combiner gives an equal map; to a split_interval_map an equal map if it is an enricher, and a map representing the same function otherwise. On total maps with an invertible combiner additions and subtractions may be reordered among each other. (Not by == on absorbing split maps, and not when mixing additions and subtractions on sets: counterexamples.)", "quantifier": "all permutations of all finite lists of operands, all reachable start containers, all styles, domains, kinds and suitable codomains", "why_tests_cant": "all schedules of unboundedly many operations", "anchors": ["include/boost/icl/concept/interval_associator.hpp: operator +=, operator -=", "include/boost/icl/interval_set.hpp, separate_interval_set.hpp, split_interval_set.hpp: add", "include/boost/icl/interval_map.hpp, split_interval_map.hpp: add"]}
{"id": "C81", "title": "Running out of memory during a symmetric difference leaves a usable set", "statement": "If an allocation fails during set ^= element, set ^= interval or set ^= set, the exception leaves a set that is as good as one built by successful operations (all other properties hold for it). It contains no element that was in neither operand. For an element or interval operand, elements outside the operand are lost only from segments that share an element with it; for a set operand the same holds for separating and splitting sets (for joining sets it is refuted by an example). With enough memory the operation does exactly what it does otherwise.", "quantifier": "all reachable interval sets of the three styles, all domains and interval kinds, all elements, non-empty intervals and operand sets, every number of allocations after which memory runs out", "why_tests_cant": "the failing allocation can be any, in any state, with operands of any size", "anchors": ["include/boost/icl/concept/interval_set.hpp: flip(object, element), flip(object, segment), flip(object, container)", "include/boost/icl/interval_base_set.hpp: _add, subtract"]}
{"id": "C82", "title": "Running out of memory during a symmetric difference leaves a usable map", "statement": "If an allocation fails during map ^= (key, value), map ^= (interval, value) or map ^= map, the exception leaves a map that is again usable (for split maps as good as one built by successful operations; for interval_map after icl::join). Each key has its old value, or (only if the operand covers it) the value the completed operation would give it, or none. Segments out of reach of the operand (no common key and, in joining maps, not touching) are untouched and iterators to them stay valid. Total maps that absorb identities cannot fail at all; in total maps that store them the state is one of the interrupted addition. With enough memory the operation does exactly what it does otherwise. (That segments which only touch the operand survive is refuted for interval_map.)", "quantifier": "all reachable interval maps of both styles and all trait combinations, all domains, kinds and codomains (with a combiner as the operation needs it), all keys, values, non-empty intervals and operand maps, every number of allocations after which memory runs out", "why_tests_cant": "the failing allocation can be any, in any state, with operands of any size", "anchors": ["include/boost/icl/interval_base_map.hpp: flip, on_total_absorbable, on_codomain_model", "include/boost/icl/concept/interval_map.hpp: flip(object, operand)"]}
{"id": "C83", "title": "Iterators stay valid in operations with whole containers", "statement": "When a whole set or map is added to, inserted into, subtracted from, erased from or flipped into a container (and when a single segment is flipped), every iterator to a segment that has no element in common with any segment of the operand (and, in joining containers, does not touch any) stays valid and shows the same interval and value: if the operation completes as well as if it runs out of memory at any point.", "quantifier": "all pairs of reachable containers of any styles, all domains, kinds and codomains, all iterators, every number of allocations after which memory runs out", "why_tests_cant": "iterator validity for all states, operands and failure points", "anchors": ["include/boost/icl/concept/interval_associator.hpp: operator +=, insert, operator -=, erase", "include/boost/icl/concept/interval_set.hpp: flip", "include/boost/icl/concept/interval_map.hpp: flip", "include/boost/icl/interval_base_map.hpp: flip"]}
{"id": "C84", "title": "A large_bitset is a set of numbers", "statement": "mini::large_bitset of the library's examples, an interval_map from chunk numbers to words of bits, behaves as a set of unsigned numbers: adding, subtracting and flipping an interval with any bounds, or a number, changes exactly the numbers of the operand; +=, |=, -=, &=, ^= with another large_bitset are union, difference, intersection and symmetric difference; == holds exactly if both have the same numbers; < is a strict total order. &= with an interval is the intersection if all numbers of the interval lie in one word; otherwise it leaves nothing (finding), and with an empty interval it changes nothing (finding).", "quantifier": "all finite histories of operations, all operand intervals with open and closed bounds, all numbers of the domain type, every word size 2, 4, 8, ... and every width of the unsigned domain type that can count the bits of a word", "why_tests_cant": "the set operations must be right for every position of the operand's ends relative to word borders, for every word size and for every previous content", "anchors": ["example/large_bitset_/large_bitset.hpp: segment_apply, add, subtract, intersect, flip, operator ==, operator <", "example/large_bitset_/bits.hpp: bits", "example/large_bitset_/meta_log.hpp: log2_", "include/boost/icl/interval_base_map.hpp: add, subtract, flip"]}
{"id": "C85", "title": "A combiner that throws leaves a usable map", "statement": "If combining two values throws during map += (interval, value) or map -= (interval, value), and the combiner leaves its argument as it was, the exception leaves a map that can be used further (as good as one built by successful operations, for interval_map after icl::join): up to some point of the interval the keys have the values of the completed operation, behind it and outside the interval their old values, and iterators to segments out of reach stay valid. No key is lost. map -= map leaves every key its old or its new value. map &= interval, segment, map or set leaves the map exactly as it was. Hinted addition and map += map may in addition leave one new segment with the identity element for keys that had no value; a map that absorbs identities is then in a state that no other operations leave (finding), a map that stores them is usable. If no combination throws, the operation does exactly what it does otherwise.", "quantifier": "all reachable interval maps of both styles and all trait combinations, all domains, kinds and codomains, all intervals, values, hints and operand maps and sets, every number of combinations after which one throws", "why_tests_cant": "the throwing combination can be any, in any state, with operands of any size", "anchors": ["include/boost/icl/interval_base_map.hpp: _add, add_segment, add_main, add_rear, add_at, _subtract, subtract_main, subtract_rear", "include/boost/icl/concept/interval_associator.hpp: operator +=, operator -=, operator &=", "include/boost/icl/concept/interval_map.hpp: add_intersection"]}
{"id": "C86", "title": "A map of sets is a set of pairs", "statement": "An interval map whose values are sets (std::set with icl's operators, bit vectors) represents the set of pairs (x, u) such that u is in the set associated with x. m += (i,v), m -= (i,v), m ^= (i,v), m &= (i,v) and their forms with maps are union, difference, symmetric difference and intersection of sets of pairs; m -= i and m &= i remove the pairs with and without a key in i; every expression of +, -, &, ^ returns the map of the corresponding set of pairs. Comparisons (==, is_element_equal, contains) of maps that absorb empty sets are equality and inclusion of sets of pairs. Exception (finding): a map that absorbs empty sets ignores a segment with the empty set also in &=.", "quantifier": "all reachable interval maps of both styles with and without absorption of empty sets (default combiner and section), all set types for values (in particular std::set over every strict total order), all domains and interval kinds, all segments, intervals, operand maps and expressions of any size", "why_tests_cant": "infinitely many maps, value sets, operands and expressions", "anchors": ["include/boost/icl/interval_base_map.hpp: add, subtract, flip, add_intersection, erase", "include/boost/icl/concept/interval_associator.hpp: operator +=, -=, &=, ^=", "include/boost/icl/functors.hpp: inplace_plus, inplace_et, inverse", "include/boost/icl/concept/set_value.hpp, include/boost/icl/concept/element_set.hpp: operators of std::set", "doc/semantics.qbk: Collectors: Maps of Sets", "example/party_/party.cpp"]}
{"id": "C87", "title": "Laws of collectors", "statement": "Every identity between expressions of union, intersection, difference and symmetric difference that holds for sets of pairs holds for interval maps of sets: with == for interval_map and with is_element_equal for split_interval_map if empty sets are absorbed; if they are stored, under the condition that both sides have the same keys, and without the condition with is_distinct_equal for interval_map. In particular the documented tables: associativity, commutativity and neutrality of + and &, a - C() == a, a - a == C() (is_distinct_equal if empty sets are stored), distributivity of + over & and & over +, right distributivity of - over + and &, both De Morgan laws, (a+b)-(a&b) == (a-b)+(b-a) == a^b.", "quantifier": "all reachable interval maps of sets of both styles, with and without absorption of empty sets, all set types, domains and interval kinds, all expressions of any size", "why_tests_cant": "the laws quantify over all containers and all expressions", "anchors": ["doc/semantics.qbk: Collectors: Maps of Sets", "include/boost/icl/concept/interval_associator.hpp: operator +=, -=, &=, ^=", "include/boost/icl/interval_base_map.hpp: add, subtract, flip, add_intersection"]}
{"id": "C88", "title": "Distinct equality of interval maps", "statement": "is_distinct_equal(m, n) on interval maps is true exactly if m and n associate the same keys with the same values other than the identity element and the segments that carry such values have the same borders. For interval_map the borders follow from the function. For maps that absorb identities it is ==. Finding: for split_interval_map it is not equality on all elements that do not carry an identity, as its documentation says.", "quantifier": "all reachable interval maps of both styles and all trait combinations, all domains, kinds and codomains", "why_tests_cant": "infinitely many maps; identities can be interspersed anywhere", "anchors": ["include/boost/icl/concept/interval_associator.hpp: is_distinct_equal", "include/boost/icl/detail/map_algo.hpp: lexicographical_distinct_equal, next_proton"]}
{"id": "C89", "title": "Laws of maps of numbers and other monoids", "statement": "Interval maps whose values are no sets obey the documented laws. + is associative with neutral element Q() for every monoid of values, commutative or not (strings). a - Q() equals a. & is commutative for commutative monoids; it is associative for maps that store identities, for total maps, and for values whose sums never cancel. & of total maps is +. (a + b) - (a & b) equals (a - b) + (b - a) for values with inverses. a - a is distinct-equal to Q(), and (0 - a) + a is distinct-equal to 0 in total maps that store identities. Findings: & of maps of unsigned integers is not associative where sums wrap around to 0, against the documented table; as documented it is not for signed numbers.", "quantifier": "all reachable interval maps a, b, c of both styles and all traits, all domains, interval kinds and codomains that satisfy the named algebraic laws", "why_tests_cant": "the laws range over all triples of maps and over all value types", "anchors": ["doc/semantics.qbk: Quantifiers: Maps of Numbers, Concept Induction", "include/boost/icl/interval_base_map.hpp: add, subtract, add_intersection", "include/boost/icl/concept/interval_map.hpp: operator &=", "include/boost/icl/type_traits/has_inverse.hpp: has_inverse"]}
{"id": "C90", "title": "Maps of maps", "statement": "The algebraic structure of the values carries over to icl::map, so that maps can be nested: icl::map over a (commutative) monoid is a (commutative) monoid with respect to + and the empty map, sums of absorbing maps cancel only if those of the values do, a total absorbing map over a commutative group is a commutative group (at every depth, and then (0 - a) + a is empty for total interval maps of such maps), and a map of sets is a set, at every depth of nesting. Expressions over interval maps of nested maps of sets compute with the sets of tuples they represent, and == of interval_maps compares these sets. Finding: total interval maps of partial maps with invertible values store identity elements that they should absorb, because has_inverse follows the codomain even for partial maps.", "quantifier": "all strictly ordered key types, all value types with the named structure, all depths of nesting, all reachable interval maps and all expressions over + - & ^", "why_tests_cant": "unbounded nesting and all expressions", "anchors": ["doc/semantics.qbk: Concept Induction, Existence of an Inverse", "include/boost/icl/map.hpp: map", "include/boost/icl/concept/element_map.hpp: operator +=, -=, &=, ^=", "include/boost/icl/map.hpp: has_inverse", "include/boost/icl/type_traits/has_set_semantics.hpp: has_set_semantics"]}
{"id": "C91", "title": "Interval containers as values of interval maps", "statement": "An interval_set is a set type, so interval maps of interval sets obey the set laws. An interval_map over a (commutative) monoid of values is a (commutative) monoid with respect to + and the empty map, over a set type it is a set, a total absorbing one over a commutative group is a commutative group, and sums of absorbing ones cancel only if those of the values do. Operators == and + act point by point. Towers of icl::map and interval_map, in any order and of any height, over a set are sets of tuples and expressions over interval maps of them compute with these sets; total towers over a group are groups, and total interval maps of them satisfy (0 - a) + a = 0 and (a + b) - b = a.", "quantifier": "all domains and interval kinds, also for the nested containers, all value types with the named structure, all finite towers, all reachable interval maps and all expressions over + - & ^", "why_tests_cant": "unbounded nesting, all value types and all expressions", "anchors": ["doc/semantics.qbk: Concept Induction", "include/boost/icl/interval_set.hpp: interval_set", "include/boost/icl/interval_map.hpp: interval_map, has_inverse", "include/boost/icl/concept/interval_map.hpp: operator +=, -=, &=, ^=", "include/boost/icl/concept/interval_associator.hpp: operator ==", "include/boost/icl/type_traits/has_set_semantics.hpp: has_set_semantics"]}
{"id": "C92", "title": "Printed text identifies the value", "statement": "operator << writes an interval that is not empty as its borders between brackets that tell whether the borders belong to it. It writes intervals and containers unambiguously: if domain values have distinct texts free of the separators, then intervals, interval sets and interval maps with the same text are ==, and element sets and maps with the same text are the same; associated values may be plain values such as numbers, sets, or maps of such values, nested to any depth. Conversely, == intervals that are not empty, sets and maps have the same text, except for discrete_interval, which writes the borders it was built with; so interval_sets (interval_maps) have the same text if and only if they have the same elements (are the same function). Finding: maps of strings are ambiguous.", "quantifier": "all intervals, all reachable interval sets and maps of all styles and traits, all domains and interval kinds, all ways to print domain and associated values with the named properties", "why_tests_cant": "unambiguity is about all pairs of values and all value types", "anchors": ["include/boost/icl/concept/interval.hpp: left_bracket, right_bracket, operator <<", "include/boost/icl/concept/interval_bounds.hpp: left_bracket, right_bracket", "include/boost/icl/concept/interval_set.hpp: operator <<", "include/boost/icl/concept/interval_map.hpp: operator <<", "include/boost/icl/concept/element_map.hpp: operator <<", "include/boost/icl/concept/element_set.hpp: operator <<"]}
{"id": "C93", "title": "Segment borders after operations with whole containers", "statement": "Operations with whole containers keep borders as the operations with single segments do. split_interval_map and split_interval_set: two elements share a segment of a += b (for maps also a -= b) iff the first is contained in the result and neither the segments of a nor those of b separate them. split_interval_map: insert(b) keeps the segments of a and fills the gaps with the segments of b; two elements share a segment of a & s, for an interval or set s (partial maps: also for a segment or a map s), iff they share one in a and one in s and the result maps them. Split maps: two keys share a segment of a ^ b (partial maps, b a map or a segment; total enrichers, b a map) iff the first is mapped by the result and neither the segments of a nor those of b separate them; so do two keys of a & b for total maps. separate_interval_set: two elements share an interval of a += b iff a chain of intervals of a and b, each sharing an element with the next, links them. Separate and split sets: two elements share an interval of a & b iff they share one in a and one in b; of a ^ b iff they share one in one operand and the other has no element between them. All styles, sets and maps: a -= set and erase keep the borders of what remains; insert(b) on sets is a += b.", "quantifier": "all reachable containers of the named styles, operands of any style, all values that are not absorbed", "why_tests_cant": "depends on the whole history of insertions that created the borders and on every way two segmentations can interleave", "anchors": ["include/boost/icl/concept/interval_associator.hpp: operator +=, insert, erase, operator -=, operator &=, operator ^=", "include/boost/icl/split_interval_map.hpp: handle_inserted, handle_combined", "include/boost/icl/split_interval_set.hpp: add_over", "include/boost/icl/separate_interval_set.hpp: add_over"]}

{
 "C01": {
  "note": "contains(x) on the static kinds needs edge_ok (proved for non-empty intervals and unbounded domains); C01_contains_at_minimum_refuted shows the claim fails without it."
 },
 "C03": {
  "note": "edge_ok needed; C03_equal_at_extremes_refuted shows the failure at the ends of a wrapping domain."
 },
 "C04": {
  "note": "Induced equivalence is == for non-empty intervals; refuted when one interval is empty."
 },
 "C06": {
  "note": "All dom_ok domains; C06_closed_descending_refuted: closed_interval with std::greater."
 },
 "C09": {
  "note": "For a before b; C09_touches_wraps_refuted otherwise."
 },
 "C11": {
  "note": "Room above a right-closed interval is required; refuted at the top of a bounded domain and for descending order."
 },
 "C50": {
  "note": "left/right_subtract_bounds do not do what their name says (refuted part); they are unused in the library."
 },
 "C52": {
  "note": "Ascending order only; refuted for std::greater."
 },
 "C15": {
  "note": "Element addition needs an element whose unit interval exists (storable); refuted for the greatest element of a bounded type with static right-open intervals."
 },
 "C17": {
  "note": "For intervals with an element; flip with an empty interval hits an assertion (refuted)."
 },
 "C22": {
  "note": "Element lookup needs has_room; refuted for the greatest element with static right-open intervals."
 },
 "C24": {
  "note": "is_element_less/greater moved to C53."
 },
 "C25": {
  "note": "Counts for integral domains and for dense domains; headroom excludes right-closed intervals that end at the domain's last value."
 },
 "C26": {
  "note": "All entries of the documented table for sets; two of its weaker entries shown to be tight."
 },
 "C29": {
  "note": "Integral ascending domains; refuted for std::greater domains."
 },
 "C53": {
  "status": "not_applicable",
  "note": "The code cannot be instantiated: element_comparer.hpp 127 and 149 call a member function touches() that no interval class has, so there is no behaviour to model."
 },
 "C33": {
  "note": "Needs a proper combiner (first insertion stores what combining into the identity stores); C33_improper_combiner_refuted shows the failure otherwise."
 },
 "C34": {
  "note": "Combiner-specific first insertion values are part of the spec function add_val."
 },
 "C39": {
  "note": "Restriction copies values only if first insertion does not change them; C39_restrict_minus_refuted: inplace_minus."
 },
 "C40": {
  "note": "Non-empty interval; C40_flip_empty_refuted shows the assertion failure for an empty one."
 },
 "C41": {
  "note": "+= needs a proper combiner; C41_plus_rvalue_refuted: operator+ with an rvalue right operand swaps the operands."
 },
 "C42": {
  "note": "Needs a proper combiner; C42_add_hint_max_refuted: inplace_max with negative values."
 },
 "C43": {
  "note": "Element lookup needs has_room (as for sets)."
 },
 "C45": {
  "note": "interval_map; for split_interval_map equality also compares the segmentation (C45_equal_segments)."
 },
 "C48": {
  "note": "Preconditions: valid hints, non-empty argument of flip on a partial map, has_room for element lookup."
 },
 "C49": {
  "note": "Monoid laws, a-a for absorbers, group laws for total absorbers; == for interval_map, function equality for both styles. C49_split_equality_refuted: associativity fails for == on split_interval_map."
 },
 "C51": {
  "note": "max/min are shown not to be mutual inverses in general; three combiners whose first insertion value differs are refuted."
 },
 "C55": {
  "note": "C55_shared_keys_disjoint_refuted: overlapping maps whose combined values are absorbed count as disjoint."
 },
 "C57": {
  "note": "C57_assign_minus_refuted: inplace_minus negates values."
 },
 "C46": {
  "note": "mirrored CC p states when the two map kinds agree (subtracting the identity does nothing, combiner other than inplace_minus); three refuted theorems show the differences outside of it: subtraction of the identity with inplace_max, ^= with the identity on an absorber, intersects of maps whose combined values vanish."
 },
 "C60": {
  "note": "Element-wise for every operation; C60_add_map needs proper (refuted otherwise); C60_subtract_identity_refuted: the identity operand is not ignored, in contrast to interval maps. erase_if and map::set/set_at do not compile and are not modelled."
 },
 "C61": {
  "note": ""
 },
 "C62": {
  "note": "C62_raw_identity_refuted: operator[] and the range constructors of icl::map store identity elements in absorbers."
 },
 "C63": {
  "note": "intersects of maps tests for common keys (always true for total maps)."
 },
 "C64": {
  "note": "Ascending integral domains; refuted for std::greater (no elements) and for a closed interval ending at the greatest value (endless loop); cluster into open_interval with std::greater loses elements."
 },
 "C65": {
  "note": ""
 },
 "C66": {
  "status": "partial",
  "note": "Proved when every pair (segment) of the source satisfies the predicate; the _endless_refuted theorems show that the code never terminates otherwise, so the full statement is false."
 },
 "C67": {
  "note": ""
 },
 "C68": {
  "note": ""
 },
 "C69": {
  "status": "partial",
  "note": "insert, erase and flip of absorbers are proved in full; += and -= under provisos on the values of touching segments, because the unrestricted claim is false (the _refuted theorems: wrong values, use of an erased segment's iterator)."
 },
 "C70": {
  "note": "For non-empty intervals; C70_empty_refuted shows the assertion an empty query violates."
 },
 "C71": {
  "note": ""
 },
 "C72": {
  "note": "C72_touching_refuted shows that touching segments of joining containers cannot be included."
 },
 "C73": {
  "note": "C73_strong_add_refuted and C73_strong_subtract_refuted show that the strong guarantee fails where it is not claimed."
 },
 "C74": {
  "note": "C74_strong_add_refuted and C74_joined_refuted show that the strong guarantee and the joining of equal neighbours fail where they are not claimed."
 },
 "C75": {
  "note": ""
 },
 "C76": {
  "note": ""
 },
 "C77": {
  "note": ""
 },
 "C79": {
  "note": ""
 },
 "C80": {
  "note": ""
 },
 "C81": {
  "note": "C81_join_refuted shows that the loss bound for whole containers fails for joining sets."
 },
 "C82": {
  "note": "C82_neighbour_refuted: segments touching the operand can be lost in joining maps."
 },
 "C83": {
  "note": "&= builds a new container; total enrichers join in ^=; both are outside the statement."
 },
 "C84": {
  "note": "The full intersection claim is false of the code: C84_intersect_refuted, with the exact behaviour in C84_intersect_several_words and C84_intersect_empty_interval."
 },
 "C85": {
  "note": "That += of maps always leaves a usable map is false of the code: C85_usable_add_map_refuted; C85_add_hint and C85_add_map say exactly what is left."
 },
 "C86": {
  "note": "Exception for &= with an empty set on absorbers: C86_intersect_empty_set_refuted, C86_intersect_enricher_refuted. Codomains are sets with icl operators; the comparison of values in C86_contains is a parameter with the meaning of set inclusion."
 },
 "C87": {
  "note": "For split_interval_map the laws are proved with is_element_equal (equality of functions); C87_split_distributivity_refuted and C87_inversion_enricher_refuted show that entries marked =e= and =d= in the documentation do not hold with ==."
 },
 "C88": {
  "note": "C88_split_refuted: the documented meaning fails for split_interval_map."
 },
 "C89": {
  "note": "Refuted where the documentation overclaims: C89_and_associative_unsigned_refuted. C89_symmetric_difference_unsigned_refuted shows that the group hypothesis is needed for total maps."
 },
 "C90": {
  "note": "Codomain icl::map with default combiner and section. C90_total_map_of_partial_maps_refuted: a total absorber over partial maps stores identities and is not a group."
 },
 "C91": {
  "note": "Codomains interval_set and interval_map with default combiner and section, values represented by their canonical segments."
 },
 "C92": {
  "note": "C92_discrete_interval_refuted: == discrete_intervals may have different texts. C92_strings_refuted: the hypothesis readable is needed."
 },
 "C93": {
  "note": "C93_absorber_operand: the hypothesis on values holds for every operand with the same absorbing traits."
 }
}
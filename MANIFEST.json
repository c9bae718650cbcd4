{
 "claims": [
  {
   "property": "C01",
   "status": "proved",
   "theorems": [
    "C01_is_empty",
    "C01_contains",
    "C01_edge_nonempty",
    "C01_edge_unbounded",
    "C01_contains_at_minimum_refuted"
   ],
   "note": "contains(x) on the static kinds needs edge_ok (proved for non-empty intervals and unbounded domains); C01_contains_at_minimum_refuted shows the claim fails without it."
  },
  {
   "property": "C02",
   "status": "proved",
   "theorems": [
    "C02_contains_subset",
    "C02_within_subset"
   ],
   "note": ""
  },
  {
   "property": "C03",
   "status": "proved",
   "theorems": [
    "C03_equal",
    "C03_equal_at_extremes_refuted"
   ],
   "note": "edge_ok needed; C03_equal_at_extremes_refuted shows the failure at the ends of a wrapping domain."
  },
  {
   "property": "C04",
   "status": "proved",
   "theorems": [
    "C04_less",
    "C04_irreflexive",
    "C04_transitive",
    "C04_total_up_to_equal",
    "C04_induced_equivalence_refuted"
   ],
   "note": "Induced equivalence is == for non-empty intervals; refuted when one interval is empty."
  },
  {
   "property": "C05",
   "status": "proved",
   "theorems": [
    "C05_exclusive_less",
    "C05_incomparable_overlap"
   ],
   "note": ""
  },
  {
   "property": "C06",
   "status": "proved",
   "theorems": [
    "C06_intersection",
    "C06_intersects",
    "C06_disjoint",
    "C06_closed_descending_refuted"
   ],
   "note": "All dom_ok domains; C06_closed_descending_refuted: closed_interval with std::greater."
  },
  {
   "property": "C07",
   "status": "proved",
   "theorems": [
    "C07_hull_between",
    "C07_hull_covers",
    "C07_hull_least"
   ],
   "note": ""
  },
  {
   "property": "C08",
   "status": "proved",
   "theorems": [
    "C08_left_subtract",
    "C08_right_subtract"
   ],
   "note": ""
  },
  {
   "property": "C09",
   "status": "proved",
   "theorems": [
    "C09_touches",
    "C09_touches_wraps_refuted"
   ],
   "note": "For a before b; C09_touches_wraps_refuted otherwise."
  },
  {
   "property": "C10",
   "status": "proved",
   "theorems": [
    "C10_inner_complement",
    "C10_distance"
   ],
   "note": ""
  },
  {
   "property": "C11",
   "status": "proved",
   "theorems": [
    "C11_cardinality",
    "C11_full_range_refuted",
    "C11_descending_refuted"
   ],
   "note": "Room above a right-closed interval is required; refuted at the top of a bounded domain and for descending order."
  },
  {
   "property": "C12",
   "status": "proved",
   "theorems": [
    "C12_first",
    "C12_last",
    "C12_singleton",
    "C12_span",
    "C12_hull_of_points"
   ],
   "note": ""
  },
  {
   "property": "C13",
   "status": "proved",
   "theorems": [
    "C13_ascending"
   ],
   "note": ""
  },
  {
   "property": "C14",
   "status": "proved",
   "theorems": [
    "C14_maximal",
    "C14_no_neighbours_touch"
   ],
   "note": ""
  },
  {
   "property": "C15",
   "status": "proved",
   "theorems": [
    "C15_add",
    "C15_add_element",
    "C15_add_empty",
    "C15_add_greatest_element_refuted"
   ],
   "note": "Element addition needs an element whose unit interval exists (storable); refuted for the greatest element of a bounded type with static right-open intervals."
  },
  {
   "property": "C16",
   "status": "proved",
   "theorems": [
    "C16_subtract",
    "C16_subtract_element"
   ],
   "note": ""
  },
  {
   "property": "C17",
   "status": "proved",
   "theorems": [
    "C17_flip",
    "C17_flip_element",
    "C17_flip_empty_refuted"
   ],
   "note": "For intervals with an element; flip with an empty interval hits an assertion (refuted)."
  },
  {
   "property": "C18",
   "status": "proved",
   "theorems": [
    "C18_add_set",
    "C18_insert_set",
    "C18_subtract_set",
    "C18_intersect_set",
    "C18_flip_set",
    "C18_intersect_segment",
    "C18_intersect_element"
   ],
   "note": ""
  },
  {
   "property": "C19",
   "status": "proved",
   "theorems": [
    "C19_hint_irrelevant"
   ],
   "note": ""
  },
  {
   "property": "C20",
   "status": "proved",
   "theorems": [
    "C20_canonical",
    "C20_equal_segments"
   ],
   "note": ""
  },
  {
   "property": "C21",
   "status": "proved",
   "theorems": [
    "C21_separate_borders",
    "C21_split_borders",
    "C21_subtract_borders"
   ],
   "note": ""
  },
  {
   "property": "C22",
   "status": "proved",
   "theorems": [
    "C22_contains_element",
    "C22_contains_interval",
    "C22_contains_set",
    "C22_within_set",
    "C22_find",
    "C22_find_greatest_element_refuted"
   ],
   "note": "Element lookup needs has_room; refuted for the greatest element with static right-open intervals."
  },
  {
   "property": "C23",
   "status": "proved",
   "theorems": [
    "C23_intersects_interval",
    "C23_intersects_element",
    "C23_intersects_set"
   ],
   "note": ""
  },
  {
   "property": "C24",
   "status": "proved",
   "theorems": [
    "C24_is_element_equal",
    "C24_inclusion_compare"
   ],
   "note": "is_element_less/greater moved to C53."
  },
  {
   "property": "C25",
   "status": "proved",
   "theorems": [
    "C25_cardinality",
    "C25_cardinality_dense",
    "C25_distance",
    "C25_interval_count",
    "C25_hull",
    "C25_first",
    "C25_last",
    "C25_lower",
    "C25_upper",
    "C25_between",
    "C25_domain"
   ],
   "note": "Counts for integral domains and for dense domains; headroom excludes right-closed intervals that end at the domain's last value."
  },
  {
   "property": "C26",
   "status": "proved",
   "theorems": [
    "C26_monoids",
    "C26_distributivity",
    "C26_de_morgan",
    "C26_symmetric_difference",
    "C26_split_distributivity_eq_refuted",
    "C26_separate_de_morgan_eq_refuted"
   ],
   "note": "All entries of the documented table for sets; two of its weaker entries shown to be tight."
  },
  {
   "property": "C27",
   "status": "proved",
   "theorems": [
    "C27_no_undefined_behaviour"
   ],
   "note": ""
  },
  {
   "property": "C28",
   "status": "proved",
   "theorems": [
    "C28_assign",
    "C28_join"
   ],
   "note": ""
  },
  {
   "property": "C29",
   "status": "proved",
   "theorems": [
    "C29_elements",
    "C29_increment_decrement",
    "C29_decrement_increment",
    "C29_elements_descending_refuted"
   ],
   "note": "Integral ascending domains; refuted for std::greater domains."
  },
  {
   "property": "C30",
   "status": "proved",
   "theorems": [
    "C30_less"
   ],
   "note": ""
  },
  {
   "property": "C31",
   "status": "proved",
   "theorems": [
    "C31_ascending",
    "C31_one_value"
   ],
   "note": ""
  },
  {
   "property": "C32",
   "status": "proved",
   "theorems": [
    "C32_equal_neighbours_joined",
    "C32_no_equal_neighbours_touch"
   ],
   "note": ""
  },
  {
   "property": "C33",
   "status": "proved",
   "theorems": [
    "C33_no_identity_stored",
    "C33_improper_combiner_refuted"
   ],
   "note": "Needs a proper combiner (first insertion stores what combining into the identity stores); C33_improper_combiner_refuted shows the failure otherwise."
  },
  {
   "property": "C34",
   "status": "proved",
   "theorems": [
    "C34_add",
    "C34_add_element",
    "C34_add_value"
   ],
   "note": "Combiner-specific first insertion values are part of the spec function add_val."
  },
  {
   "property": "C35",
   "status": "proved",
   "theorems": [
    "C35_subtract",
    "C35_subtract_element"
   ],
   "note": ""
  },
  {
   "property": "C36",
   "status": "proved",
   "theorems": [
    "C36_insert",
    "C36_insert_element"
   ],
   "note": ""
  },
  {
   "property": "C37",
   "status": "proved",
   "theorems": [
    "C37_set",
    "C37_set_element"
   ],
   "note": ""
  },
  {
   "property": "C38",
   "status": "proved",
   "theorems": [
    "C38_erase",
    "C38_erase_element",
    "C38_erase_segment",
    "C38_erase_pair"
   ],
   "note": ""
  },
  {
   "property": "C39",
   "status": "proved",
   "theorems": [
    "C39_intersect_segment",
    "C39_intersect_segment_any_combiner",
    "C39_intersect_map",
    "C39_intersect_map_any_combiner",
    "C39_restrict_interval",
    "C39_restrict_set",
    "C39_restrict_element",
    "C39_total_segment",
    "C39_total_map",
    "C39_restrict_minus_refuted"
   ],
   "note": "Restriction copies values only if first insertion does not change them; C39_restrict_minus_refuted: inplace_minus."
  },
  {
   "property": "C40",
   "status": "proved",
   "theorems": [
    "C40_flip",
    "C40_flip_element",
    "C40_flip_any_combiner",
    "C40_flip_map",
    "C40_flip_total_absorber",
    "C40_flip_map_total_absorber",
    "C40_flip_total_enricher",
    "C40_flip_map_total_enricher",
    "C40_flip_empty_refuted"
   ],
   "note": "Non-empty interval; C40_flip_empty_refuted shows the assertion failure for an empty one."
  },
  {
   "property": "C41",
   "status": "proved",
   "theorems": [
    "C41_add_map",
    "C41_subtract_map",
    "C41_insert_map",
    "C41_erase_map",
    "C41_erase_set",
    "C41_plus_rvalue_refuted"
   ],
   "note": "+= needs a proper combiner; C41_plus_rvalue_refuted: operator+ with an rvalue right operand swaps the operands."
  },
  {
   "property": "C42",
   "status": "proved",
   "theorems": [
    "C42_add_hint",
    "C42_insert_hint",
    "C42_add_hint_max_refuted"
   ],
   "note": "Needs a proper combiner; C42_add_hint_max_refuted: inplace_max with negative values."
  },
  {
   "property": "C43",
   "status": "proved",
   "theorems": [
    "C43_lookup",
    "C43_find",
    "C43_contains_key",
    "C43_contains_pair",
    "C43_contains_interval",
    "C43_contains_segment",
    "C43_contains_set"
   ],
   "note": "Element lookup needs has_room (as for sets)."
  },
  {
   "property": "C44",
   "status": "proved",
   "theorems": [
    "C44_domain",
    "C44_between"
   ],
   "note": ""
  },
  {
   "property": "C45",
   "status": "proved",
   "theorems": [
    "C45_canonical",
    "C45_equal_segments"
   ],
   "note": "interval_map; for split_interval_map equality also compares the segmentation (C45_equal_segments)."
  },
  {
   "property": "C46",
   "status": "proved",
   "theorems": [
    "C46_set_add",
    "C46_set_subtract",
    "C46_set_flip",
    "C46_sets",
    "C46_map_add",
    "C46_map_subtract",
    "C46_map_insert",
    "C46_map_erase",
    "C46_map_erase_segment",
    "C46_map_flip",
    "C46_maps",
    "C46_lookup",
    "C46_contains_pair",
    "C46_contains",
    "C46_size",
    "C46_equal",
    "C46_domain",
    "C46_subtract_identity_refuted",
    "C46_flip_identity_refuted",
    "C46_intersects_refuted"
   ],
   "note": "mirrored CC p states when the two map kinds agree (subtracting the identity does nothing, combiner other than inplace_minus); three refuted theorems show the differences outside of it: subtraction of the identity with inplace_max, ^= with the identity on an absorber, intersects of maps whose combined values vanish."
  },
  {
   "property": "C47",
   "status": "proved",
   "theorems": [
    "C47_element_equal",
    "C47_inclusion",
    "C47_atomic"
   ],
   "note": ""
  },
  {
   "property": "C48",
   "status": "proved",
   "theorems": [
    "C48_no_undefined_behaviour"
   ],
   "note": "Preconditions: valid hints, non-empty argument of flip on a partial map, has_room for element lookup."
  },
  {
   "property": "C49",
   "status": "proved",
   "theorems": [
    "C49_commutative_monoid",
    "C49_minus_self",
    "C49_group",
    "C49_split_equality_refuted"
   ],
   "note": "Monoid laws, a-a for absorbers, group laws for total absorbers; == for interval_map, function equality for both styles. C49_split_equality_refuted: associativity fails for == on split_interval_map."
  },
  {
   "property": "C50",
   "status": "proved",
   "theorems": [
    "C50_bits",
    "C50_all_bounds",
    "C50_sides",
    "C50_subtract_bounds_refuted"
   ],
   "note": "left/right_subtract_bounds do not do what their name says (refuted part); they are unused in the library."
  },
  {
   "property": "C51",
   "status": "proved",
   "theorems": [
    "C51_plus_minus_inverse",
    "C51_set_combiners",
    "C51_star_slash_inverse",
    "C51_max_min",
    "C51_inverse_involutive",
    "C51_first_insertion",
    "C51_first_insertion_refuted"
   ],
   "note": "max/min are shown not to be mutual inverses in general; three combiners whose first insertion value differs are refuted."
  },
  {
   "property": "C52",
   "status": "proved",
   "theorems": [
    "C52_static_factory",
    "C52_descending_refuted"
   ],
   "note": "Ascending order only; refuted for std::greater."
  },
  {
   "property": "C53",
   "status": "not_applicable",
   "theorems": [],
   "note": "The code cannot be instantiated: element_comparer.hpp 127 and 149 call a member function touches() that no interval class has, so there is no behaviour to model."
  },
  {
   "property": "C54",
   "status": "proved",
   "theorems": [
    "C54_less"
   ],
   "note": ""
  },
  {
   "property": "C55",
   "status": "proved",
   "theorems": [
    "C55_intersects_interval",
    "C55_intersects_segment",
    "C55_intersects_map",
    "C55_intersects_set",
    "C55_shared_keys_disjoint_refuted"
   ],
   "note": "C55_shared_keys_disjoint_refuted: overlapping maps whose combined values are absorbed count as disjoint."
  },
  {
   "property": "C56",
   "status": "proved",
   "theorems": [
    "C56_erase_if",
    "C56_absorb_identities"
   ],
   "note": ""
  },
  {
   "property": "C57",
   "status": "proved",
   "theorems": [
    "C57_assign",
    "C57_join",
    "C57_assign_minus_refuted"
   ],
   "note": "C57_assign_minus_refuted: inplace_minus negates values."
  },
  {
   "property": "C58",
   "status": "proved",
   "theorems": [
    "C58_cardinality",
    "C58_cardinality_dense",
    "C58_distance",
    "C58_iterative_size",
    "C58_hull",
    "C58_first",
    "C58_last",
    "C58_elements"
   ],
   "note": ""
  },
  {
   "property": "C59",
   "status": "proved",
   "theorems": [
    "C59_add_borders",
    "C59_subtract_borders",
    "C59_insert_borders",
    "C59_set_borders",
    "C59_erase_borders",
    "C59_erase_segment_borders"
   ],
   "note": ""
  },
  {
   "property": "C60",
   "status": "proved",
   "theorems": [
    "C60_add",
    "C60_add_hint",
    "C60_subtract",
    "C60_insert",
    "C60_erase_pair",
    "C60_erase_key",
    "C60_flip",
    "C60_flip_total_absorber",
    "C60_flip_total_enricher",
    "C60_and_pair",
    "C60_and_pair_total",
    "C60_and_key",
    "C60_add_map",
    "C60_subtract_map",
    "C60_insert_map",
    "C60_erase_map",
    "C60_flip_map",
    "C60_flip_map_total_enricher",
    "C60_and_map",
    "C60_and_map_total",
    "C60_erase_set",
    "C60_subtract_set",
    "C60_and_set",
    "C60_subtract_identity_refuted",
    "C60_add_map_improper_refuted"
   ],
   "note": "Element-wise for every operation; C60_add_map needs proper (refuted otherwise); C60_subtract_identity_refuted: the identity operand is not ignored, in contrast to interval maps. erase_if and map::set/set_at do not compile and are not modelled."
  },
  {
   "property": "C61",
   "status": "proved",
   "theorems": [
    "C61_add",
    "C61_subtract",
    "C61_flip",
    "C61_and",
    "C61_add_set",
    "C61_subtract_set",
    "C61_and_set",
    "C61_flip_set"
   ],
   "note": ""
  },
  {
   "property": "C62",
   "status": "proved",
   "theorems": [
    "C62_map_ascending",
    "C62_map_one_value",
    "C62_set_ascending",
    "C62_no_identity_stored",
    "C62_raw_identity_refuted"
   ],
   "note": "C62_raw_identity_refuted: operator[] and the range constructors of icl::map store identity elements in absorbers."
  },
  {
   "property": "C63",
   "status": "proved",
   "theorems": [
    "C63_lookup",
    "C63_contains_key",
    "C63_contains_pair",
    "C63_within",
    "C63_inclusion",
    "C63_equal",
    "C63_distinct_equal",
    "C63_less",
    "C63_intersects_map",
    "C63_intersects_set",
    "C63_domain",
    "C63_set_equal"
   ],
   "note": "intersects of maps tests for common keys (always true for total maps)."
  },
  {
   "property": "C64",
   "status": "proved",
   "theorems": [
    "C64_atomize_set",
    "C64_atomize_map",
    "C64_cluster_set",
    "C64_cluster_map",
    "C64_atomize_reversed_refuted",
    "C64_atomize_endless_refuted",
    "C64_cluster_reversed_refuted",
    "C64_joiner_set",
    "C64_joiner_map",
    "C64_identity_absorber"
   ],
   "note": "Ascending integral domains; refuted for std::greater (no elements) and for a closed interval ending at the greatest value (endless loop); cluster into open_interval with std::greater loses elements."
  },
  {
   "property": "C65",
   "status": "proved",
   "theorems": [
    "C65_commutative",
    "C65_associative",
    "C65_neutral",
    "C65_minus_self",
    "C65_group"
   ],
   "note": ""
  },
  {
   "property": "C66",
   "status": "partial",
   "theorems": [
    "C66_add_if_partial",
    "C66_add_if_endless_refuted",
    "C66_add_if_interval_map_partial",
    "C66_add_if_interval_map_endless_refuted"
   ],
   "note": "Proved when every pair (segment) of the source satisfies the predicate; the _endless_refuted theorems show that the code never terminates otherwise, so the full statement is false."
  },
  {
   "property": "C67",
   "status": "proved",
   "theorems": [
    "C67_adder_set",
    "C67_adder_map",
    "C67_inserter_map"
   ],
   "note": ""
  },
  {
   "property": "C68",
   "status": "proved",
   "theorems": [
    "C68_add",
    "C68_subtract",
    "C68_flip",
    "C68_and"
   ],
   "note": ""
  },
  {
   "property": "C69",
   "status": "partial",
   "theorems": [
    "C69_insert",
    "C69_erase",
    "C69_flip_absorber",
    "C69_add_partial",
    "C69_subtract_partial",
    "C69_add_refuted",
    "C69_subtract_refuted",
    "C69_flip_refuted"
   ],
   "note": "insert, erase and flip of absorbers are proved in full; += and -= under provisos on the values of touching segments, because the unrestricted claim is false (the _refuted theorems: wrong values, use of an erased segment's iterator)."
  },
  {
   "property": "C70",
   "status": "proved",
   "theorems": [
    "C70_equal_range_set",
    "C70_equal_range_map",
    "C70_find_set",
    "C70_find_map",
    "C70_empty_refuted"
   ],
   "note": "For non-empty intervals; C70_empty_refuted shows the assertion an empty query violates."
  },
  {
   "property": "C71",
   "status": "proved",
   "theorems": [
    "C71_erase_position_set",
    "C71_erase_position_map",
    "C71_erase_range_set",
    "C71_erase_range_map"
   ],
   "note": ""
  },
  {
   "property": "C72",
   "status": "proved",
   "theorems": [
    "C72_set_add",
    "C72_set_add_hint",
    "C72_set_subtract",
    "C72_map_add",
    "C72_map_add_hint",
    "C72_map_subtract",
    "C72_map_insert",
    "C72_map_insert_hint",
    "C72_map_set",
    "C72_map_erase",
    "C72_map_erase_seg",
    "C72_touching_refuted"
   ],
   "note": "C72_touching_refuted shows that touching segments of joining containers cannot be included."
  },
  {
   "property": "C73",
   "status": "proved",
   "theorems": [
    "C73_add",
    "C73_add_hint",
    "C73_subtract",
    "C73_add_set",
    "C73_insert_set",
    "C73_subtract_set",
    "C73_and_seg",
    "C73_and_set",
    "C73_strong_add_refuted",
    "C73_strong_subtract_refuted"
   ],
   "note": "C73_strong_add_refuted and C73_strong_subtract_refuted show that the strong guarantee fails where it is not claimed."
  },
  {
   "property": "C74",
   "status": "proved",
   "theorems": [
    "C74_insert",
    "C74_insert_hint",
    "C74_erase",
    "C74_erase_seg",
    "C74_set",
    "C74_add",
    "C74_add_hint",
    "C74_subtract",
    "C74_add_map",
    "C74_insert_map",
    "C74_subtract_map",
    "C74_erase_map",
    "C74_erase_set",
    "C74_and_itv",
    "C74_and_seg",
    "C74_and_map",
    "C74_and_set",
    "C74_strong_add_refuted",
    "C74_joined_refuted"
   ],
   "note": "C74_strong_add_refuted and C74_joined_refuted show that the strong guarantee and the joining of equal neighbours fail where they are not claimed."
  },
  {
   "property": "C75",
   "status": "proved",
   "theorems": [
    "C75_sets",
    "C75_maps",
    "C75_element_maps",
    "C75_element_sets",
    "C75_sets_dictionary",
    "C75_maps_dictionary"
   ],
   "note": ""
  },
  {
   "property": "C76",
   "status": "proved",
   "theorems": [
    "C76_total_order",
    "C76_lexicographic",
    "C76_pair_on_the_left"
   ],
   "note": ""
  },
  {
   "property": "C77",
   "status": "proved",
   "theorems": [
    "C77_sets",
    "C77_sets_meaning",
    "C77_maps"
   ],
   "note": ""
  },
  {
   "property": "C78",
   "status": "proved",
   "theorems": [
    "C78_set_add",
    "C78_set_add_hint",
    "C78_set_subtract",
    "C78_set_flip",
    "C78_set_plus",
    "C78_set_insert",
    "C78_set_minus",
    "C78_set_and",
    "C78_set_xor",
    "C78_map_add",
    "C78_map_add_hint",
    "C78_map_insert",
    "C78_map_insert_hint",
    "C78_map_subtract",
    "C78_map_erase",
    "C78_map_erase_seg",
    "C78_map_set",
    "C78_map_plus",
    "C78_map_insert_map",
    "C78_map_minus",
    "C78_map_erase_map",
    "C78_map_erase_set",
    "C78_map_and_interval",
    "C78_map_and_segment",
    "C78_map_and_set",
    "C78_map_and",
    "C78_map_flip",
    "C78_map_xor"
   ],
   "note": ""
  },
  {
   "property": "C79",
   "status": "proved",
   "theorems": [
    "C79_set_history",
    "C79_sum",
    "C79_count_overlaps",
    "C79_balance",
    "C79_covered_balance",
    "C79_uncovered_refuted"
   ],
   "note": ""
  },
  {
   "property": "C80",
   "status": "proved",
   "theorems": [
    "C80_set_additions",
    "C80_set_subtractions",
    "C80_map_additions",
    "C80_map_history",
    "C80_split_enricher_additions",
    "C80_split_absorber_refuted",
    "C80_mixed_order_refuted"
   ],
   "note": ""
  },
  {
   "property": "C81",
   "status": "proved",
   "theorems": [
    "C81_flip",
    "C81_flip_elem",
    "C81_flip_set",
    "C81_join_refuted"
   ],
   "note": "C81_join_refuted shows that the loss bound for whole containers fails for joining sets."
  },
  {
   "property": "C82",
   "status": "proved",
   "theorems": [
    "C82_flip",
    "C82_flip_elem",
    "C82_flip_map",
    "C82_flip_enricher",
    "C82_flip_map_enricher",
    "C82_flip_total_absorber",
    "C82_flip_map_total_absorber",
    "C82_neighbour_refuted"
   ],
   "note": "C82_neighbour_refuted: segments touching the operand can be lost in joining maps."
  },
  {
   "property": "C83",
   "status": "proved",
   "theorems": [
    "C83_set_add_set",
    "C83_set_insert_set",
    "C83_set_subtract_set",
    "C83_set_flip",
    "C83_set_flip_set",
    "C83_map_add_map",
    "C83_map_insert_map",
    "C83_map_subtract_map",
    "C83_map_erase_map",
    "C83_map_erase_set",
    "C83_map_flip",
    "C83_map_flip_map"
   ],
   "note": "&= builds a new container; total enrichers join in ^=; both are outside the statement."
  },
  {
   "property": "C84",
   "status": "proved",
   "theorems": [
    "C84_add",
    "C84_subtract",
    "C84_flip",
    "C84_elements",
    "C84_bitsets",
    "C84_equal",
    "C84_less",
    "C84_intersect_one_word",
    "C84_intersect_several_words",
    "C84_intersect_empty_interval",
    "C84_intersect_refuted"
   ],
   "note": "The full intersection claim is false of the code: C84_intersect_refuted, with the exact behaviour in C84_intersect_several_words and C84_intersect_empty_interval."
  },
  {
   "property": "C85",
   "status": "proved",
   "theorems": [
    "C85_add",
    "C85_subtract",
    "C85_add_hint",
    "C85_add_map",
    "C85_subtract_map",
    "C85_and_itv",
    "C85_and_seg",
    "C85_and_map",
    "C85_and_set",
    "C85_usable_add_map_refuted"
   ],
   "note": "That += of maps always leaves a usable map is false of the code: C85_usable_add_map_refuted; C85_add_hint and C85_add_map say exactly what is left."
  },
  {
   "property": "C86",
   "status": "proved",
   "theorems": [
    "C86_add",
    "C86_subtract",
    "C86_flip",
    "C86_intersect_segment",
    "C86_erase",
    "C86_restrict",
    "C86_add_map",
    "C86_subtract_map",
    "C86_flip_map",
    "C86_intersect_map",
    "C86_equal",
    "C86_element_equal",
    "C86_contains",
    "C86_expressions",
    "C86_std_set",
    "C86_bit_vectors",
    "C86_intersect_empty_set_refuted",
    "C86_intersect_enricher_refuted"
   ],
   "note": "Exception for &= with an empty set on absorbers: C86_intersect_empty_set_refuted, C86_intersect_enricher_refuted. Codomains are sets with icl operators; the comparison of values in C86_contains is a parameter with the meaning of set inclusion."
  },
  {
   "property": "C87",
   "status": "proved",
   "theorems": [
    "C87_every_set_law",
    "C87_every_set_law_distinct",
    "C87_fundamental",
    "C87_distributivity",
    "C87_de_morgan_symmetric_difference",
    "C87_inversion_enricher_refuted",
    "C87_split_distributivity_refuted"
   ],
   "note": "For split_interval_map the laws are proved with is_element_equal (equality of functions); C87_split_distributivity_refuted and C87_inversion_enricher_refuted show that entries marked =e= and =d= in the documentation do not hold with ==."
  },
  {
   "property": "C88",
   "status": "proved",
   "theorems": [
    "C88_distinct",
    "C88_distinct_joined",
    "C88_distinct_absorber",
    "C88_split_refuted"
   ],
   "note": "C88_split_refuted: the documented meaning fails for split_interval_map."
  },
  {
   "property": "C89",
   "status": "proved",
   "theorems": [
    "C89_monoid",
    "C89_minus_neutral",
    "C89_and_commutative",
    "C89_and_associative",
    "C89_and_total",
    "C89_symmetric_difference",
    "C89_inversion_distinct",
    "C89_inverse_distinct",
    "C89_and_associative_signed_refuted",
    "C89_and_associative_unsigned_refuted",
    "C89_symmetric_difference_unsigned_refuted",
    "C89_codomains"
   ],
   "note": "Refuted where the documentation overclaims: C89_and_associative_unsigned_refuted. C89_symmetric_difference_unsigned_refuted shows that the group hypothesis is needed for total maps."
  },
  {
   "property": "C90",
   "status": "proved",
   "theorems": [
    "C90_equal",
    "C90_add_entries",
    "C90_monoid",
    "C90_commutative_monoid",
    "C90_proper",
    "C90_no_cancellation",
    "C90_group",
    "C90_nested_group",
    "C90_total_map_of_maps",
    "C90_set",
    "C90_nested",
    "C90_nested_expressions",
    "C90_total_map_of_partial_maps_refuted"
   ],
   "note": "Codomain icl::map with default combiner and section. C90_total_map_of_partial_maps_refuted: a total absorber over partial maps stores identities and is not a group."
  },
  {
   "property": "C91",
   "status": "proved",
   "theorems": [
    "C91_interval_set",
    "C91_equal",
    "C91_extensional",
    "C91_add_values",
    "C91_monoid",
    "C91_commutative_monoid",
    "C91_no_cancellation",
    "C91_group",
    "C91_set",
    "C91_tower_set",
    "C91_tower_expressions",
    "C91_tower_group",
    "C91_total_map_of_maps"
   ],
   "note": "Codomains interval_set and interval_map with default combiner and section, values represented by their canonical segments."
  },
  {
   "property": "C92",
   "status": "proved",
   "theorems": [
    "C92_brackets",
    "C92_interval",
    "C92_interval_text",
    "C92_discrete_interval_refuted",
    "C92_set",
    "C92_set_text",
    "C92_set_elements",
    "C92_map",
    "C92_map_text",
    "C92_map_values",
    "C92_element_map",
    "C92_element_set",
    "C92_plain",
    "C92_numbers",
    "C92_sets_readable",
    "C92_maps_readable",
    "C92_followed",
    "C92_strings_refuted"
   ],
   "note": "C92_discrete_interval_refuted: == discrete_intervals may have different texts. C92_strings_refuted: the hypothesis readable is needed."
  },
  {
   "property": "C93",
   "status": "proved",
   "theorems": [
    "C93_map_add",
    "C93_map_subtract",
    "C93_map_insert",
    "C93_map_erase_set",
    "C93_map_erase_map",
    "C93_map_and_interval",
    "C93_map_and_set",
    "C93_map_and_segment",
    "C93_map_and",
    "C93_map_xor_segment",
    "C93_map_xor",
    "C93_map_and_total",
    "C93_map_xor_total",
    "C93_split_add",
    "C93_separate_add",
    "C93_insert_is_add",
    "C93_set_and",
    "C93_set_xor",
    "C93_set_subtract",
    "C93_absorber_operand"
   ],
   "note": "C93_absorber_operand: the hypothesis on values holds for every operand with the same absorbing traits."
  }
 ]
}
(** Generated by tools/assume.py.  One tuple per property file holds all its theorems;
    Print Assumptions of a tuple covers each of its components, so "Closed under the
    global context" for the tuple says so for every theorem in it. *)
From Verif Require Import PropInterval PropSet PropMap PropMap2 PropMap3 PropElem PropElem2 PropIter PropAlias PropLook PropStable PropCrash PropCrash2 PropCrash3 PropCrash4 PropStable2 PropCompare PropSize PropHist PropLarge PropThrow PropColl PropQuant PropNest PropNestI PropPrint PropWhole.
Definition all_PropInterval := (
  PropInterval.C01_is_empty,
  PropInterval.C01_contains,
  PropInterval.C01_edge_nonempty,
  PropInterval.C01_edge_unbounded,
  PropInterval.C01_contains_at_minimum_refuted,
  PropInterval.C02_contains_subset,
  PropInterval.C02_within_subset,
  PropInterval.C03_equal,
  PropInterval.C03_equal_at_extremes_refuted,
  PropInterval.C04_less,
  PropInterval.C04_irreflexive,
  PropInterval.C04_transitive,
  PropInterval.C04_total_up_to_equal,
  PropInterval.C04_induced_equivalence_refuted,
  PropInterval.C05_exclusive_less,
  PropInterval.C05_incomparable_overlap,
  PropInterval.C06_intersection,
  PropInterval.C06_intersects,
  PropInterval.C06_disjoint,
  PropInterval.C06_closed_descending_refuted,
  PropInterval.C07_hull_between,
  PropInterval.C07_hull_covers,
  PropInterval.C07_hull_least,
  PropInterval.C08_left_subtract,
  PropInterval.C08_right_subtract,
  PropInterval.C09_touches,
  PropInterval.C09_touches_wraps_refuted,
  PropInterval.C10_inner_complement,
  PropInterval.C10_distance,
  PropInterval.C11_cardinality,
  PropInterval.C11_full_range_refuted,
  PropInterval.C11_descending_refuted,
  PropInterval.C12_first,
  PropInterval.C12_last,
  PropInterval.C12_singleton,
  PropInterval.C12_span,
  PropInterval.C12_hull_of_points,
  PropInterval.C50_bits,
  PropInterval.C50_all_bounds,
  PropInterval.C50_sides,
  PropInterval.C50_subtract_bounds_refuted,
  PropInterval.C52_static_factory,
  PropInterval.C52_descending_refuted).
Definition all_PropSet := (
  PropSet.C13_ascending,
  PropSet.C14_maximal,
  PropSet.C14_no_neighbours_touch,
  PropSet.C15_add,
  PropSet.C15_add_element,
  PropSet.C15_add_empty,
  PropSet.C15_add_greatest_element_refuted,
  PropSet.C16_subtract,
  PropSet.C16_subtract_element,
  PropSet.C17_flip,
  PropSet.C17_flip_element,
  PropSet.C17_flip_empty_refuted,
  PropSet.C18_add_set,
  PropSet.C18_insert_set,
  PropSet.C18_subtract_set,
  PropSet.C18_intersect_set,
  PropSet.C18_flip_set,
  PropSet.C18_intersect_segment,
  PropSet.C18_intersect_element,
  PropSet.C19_hint_irrelevant,
  PropSet.C20_canonical,
  PropSet.C20_equal_segments,
  PropSet.C21_separate_borders,
  PropSet.C21_split_borders,
  PropSet.C21_subtract_borders,
  PropSet.C22_contains_element,
  PropSet.C22_contains_interval,
  PropSet.C22_contains_set,
  PropSet.C22_within_set,
  PropSet.C22_find,
  PropSet.C22_find_greatest_element_refuted,
  PropSet.C23_intersects_interval,
  PropSet.C23_intersects_element,
  PropSet.C23_intersects_set,
  PropSet.C24_is_element_equal,
  PropSet.C24_inclusion_compare,
  PropSet.C25_cardinality,
  PropSet.C25_cardinality_dense,
  PropSet.C25_distance,
  PropSet.C25_interval_count,
  PropSet.C25_hull,
  PropSet.C25_first,
  PropSet.C25_last,
  PropSet.C25_lower,
  PropSet.C25_upper,
  PropSet.C25_between,
  PropSet.C25_domain,
  PropSet.C26_monoids,
  PropSet.C26_distributivity,
  PropSet.C26_de_morgan,
  PropSet.C26_symmetric_difference,
  PropSet.C26_split_distributivity_eq_refuted,
  PropSet.C26_separate_de_morgan_eq_refuted,
  PropSet.C27_no_undefined_behaviour,
  PropSet.C28_assign,
  PropSet.C28_join,
  PropSet.C29_elements,
  PropSet.C29_increment_decrement,
  PropSet.C29_decrement_increment,
  PropSet.C29_elements_descending_refuted,
  PropSet.C30_less).
Definition all_PropMap := (
  PropMap.C31_ascending,
  PropMap.C31_one_value,
  PropMap.C32_equal_neighbours_joined,
  PropMap.C32_no_equal_neighbours_touch,
  PropMap.C33_no_identity_stored,
  PropMap.C33_improper_combiner_refuted,
  PropMap.C34_add,
  PropMap.C34_add_element,
  PropMap.C34_add_value,
  PropMap.C35_subtract,
  PropMap.C35_subtract_element,
  PropMap.C36_insert,
  PropMap.C36_insert_element,
  PropMap.C37_set,
  PropMap.C37_set_element,
  PropMap.C38_erase,
  PropMap.C38_erase_element,
  PropMap.C38_erase_segment,
  PropMap.C38_erase_pair,
  PropMap.C39_intersect_segment,
  PropMap.C39_intersect_segment_any_combiner,
  PropMap.C39_intersect_map,
  PropMap.C39_intersect_map_any_combiner,
  PropMap.C39_restrict_interval,
  PropMap.C39_restrict_set,
  PropMap.C39_restrict_element,
  PropMap.C39_total_segment,
  PropMap.C39_total_map,
  PropMap.C39_restrict_minus_refuted,
  PropMap.C40_flip,
  PropMap.C40_flip_element,
  PropMap.C40_flip_any_combiner,
  PropMap.C40_flip_map,
  PropMap.C40_flip_total_absorber,
  PropMap.C40_flip_map_total_absorber,
  PropMap.C40_flip_total_enricher,
  PropMap.C40_flip_map_total_enricher,
  PropMap.C40_flip_empty_refuted).
Definition all_PropMap2 := (
  PropMap2.C41_add_map,
  PropMap2.C41_subtract_map,
  PropMap2.C41_insert_map,
  PropMap2.C41_erase_map,
  PropMap2.C41_erase_set,
  PropMap2.C41_plus_rvalue_refuted,
  PropMap2.C42_add_hint,
  PropMap2.C42_insert_hint,
  PropMap2.C42_add_hint_max_refuted,
  PropMap2.C43_lookup,
  PropMap2.C43_find,
  PropMap2.C43_contains_key,
  PropMap2.C43_contains_pair,
  PropMap2.C43_contains_interval,
  PropMap2.C43_contains_segment,
  PropMap2.C43_contains_set,
  PropMap2.C44_domain,
  PropMap2.C44_between,
  PropMap2.C45_canonical,
  PropMap2.C45_equal_segments,
  PropMap2.C47_element_equal,
  PropMap2.C47_inclusion,
  PropMap2.C47_atomic,
  PropMap2.C48_no_undefined_behaviour,
  PropMap2.C49_commutative_monoid,
  PropMap2.C49_minus_self,
  PropMap2.C49_group,
  PropMap2.C49_split_equality_refuted,
  PropMap2.C51_plus_minus_inverse,
  PropMap2.C51_set_combiners,
  PropMap2.C51_star_slash_inverse,
  PropMap2.C51_max_min,
  PropMap2.C51_inverse_involutive,
  PropMap2.C51_first_insertion,
  PropMap2.C51_first_insertion_refuted,
  PropMap2.C54_less,
  PropMap2.C55_intersects_interval,
  PropMap2.C55_intersects_segment,
  PropMap2.C55_intersects_map,
  PropMap2.C55_intersects_set,
  PropMap2.C55_shared_keys_disjoint_refuted,
  PropMap2.C56_erase_if,
  PropMap2.C56_absorb_identities,
  PropMap2.C57_assign,
  PropMap2.C57_join,
  PropMap2.C57_assign_minus_refuted,
  PropMap2.C58_cardinality,
  PropMap2.C58_cardinality_dense,
  PropMap2.C58_distance,
  PropMap2.C58_iterative_size,
  PropMap2.C58_hull,
  PropMap2.C58_first,
  PropMap2.C58_last,
  PropMap2.C58_elements).
Definition all_PropMap3 := (
  PropMap3.C59_add_borders,
  PropMap3.C59_subtract_borders,
  PropMap3.C59_insert_borders,
  PropMap3.C59_set_borders,
  PropMap3.C59_erase_borders,
  PropMap3.C59_erase_segment_borders).
Definition all_PropElem := (
  PropElem.C60_add,
  PropElem.C60_add_hint,
  PropElem.C60_subtract,
  PropElem.C60_insert,
  PropElem.C60_erase_pair,
  PropElem.C60_erase_key,
  PropElem.C60_flip,
  PropElem.C60_flip_total_absorber,
  PropElem.C60_flip_total_enricher,
  PropElem.C60_and_pair,
  PropElem.C60_and_pair_total,
  PropElem.C60_and_key,
  PropElem.C60_add_map,
  PropElem.C60_subtract_map,
  PropElem.C60_insert_map,
  PropElem.C60_erase_map,
  PropElem.C60_flip_map,
  PropElem.C60_flip_map_total_enricher,
  PropElem.C60_and_map,
  PropElem.C60_and_map_total,
  PropElem.C60_erase_set,
  PropElem.C60_subtract_set,
  PropElem.C60_and_set,
  PropElem.C60_subtract_identity_refuted,
  PropElem.C60_add_map_improper_refuted,
  PropElem.C61_add,
  PropElem.C61_subtract,
  PropElem.C61_flip,
  PropElem.C61_and,
  PropElem.C61_add_set,
  PropElem.C61_subtract_set,
  PropElem.C61_and_set,
  PropElem.C61_flip_set,
  PropElem.C62_map_ascending,
  PropElem.C62_map_one_value,
  PropElem.C62_set_ascending,
  PropElem.C62_no_identity_stored,
  PropElem.C62_raw_identity_refuted,
  PropElem.C63_lookup,
  PropElem.C63_contains_key,
  PropElem.C63_contains_pair,
  PropElem.C63_within,
  PropElem.C63_inclusion,
  PropElem.C63_equal,
  PropElem.C63_distinct_equal,
  PropElem.C63_less,
  PropElem.C63_intersects_map,
  PropElem.C63_intersects_set,
  PropElem.C63_domain,
  PropElem.C63_set_equal,
  PropElem.C64_atomize_set,
  PropElem.C64_atomize_map,
  PropElem.C64_cluster_set,
  PropElem.C64_cluster_map,
  PropElem.C64_atomize_reversed_refuted,
  PropElem.C64_atomize_endless_refuted,
  PropElem.C64_cluster_reversed_refuted,
  PropElem.C65_commutative,
  PropElem.C65_associative,
  PropElem.C65_neutral,
  PropElem.C65_minus_self,
  PropElem.C65_group,
  PropElem.C66_add_if_partial,
  PropElem.C66_add_if_endless_refuted).
Definition all_PropElem2 := (
  PropElem2.C46_set_add,
  PropElem2.C46_set_subtract,
  PropElem2.C46_set_flip,
  PropElem2.C46_sets,
  PropElem2.C46_map_add,
  PropElem2.C46_map_subtract,
  PropElem2.C46_map_insert,
  PropElem2.C46_map_erase,
  PropElem2.C46_map_erase_segment,
  PropElem2.C46_map_flip,
  PropElem2.C46_maps,
  PropElem2.C46_lookup,
  PropElem2.C46_contains_pair,
  PropElem2.C46_contains,
  PropElem2.C46_size,
  PropElem2.C46_equal,
  PropElem2.C46_domain,
  PropElem2.C46_subtract_identity_refuted,
  PropElem2.C46_flip_identity_refuted,
  PropElem2.C46_intersects_refuted).
Definition all_PropIter := (
  PropIter.C67_adder_set,
  PropIter.C67_adder_map,
  PropIter.C67_inserter_map,
  PropIter.C64_joiner_set,
  PropIter.C64_joiner_map,
  PropIter.C64_identity_absorber,
  PropIter.C66_add_if_interval_map_partial,
  PropIter.C66_add_if_interval_map_endless_refuted).
Definition all_PropAlias := (
  PropAlias.C68_add,
  PropAlias.C68_subtract,
  PropAlias.C68_flip,
  PropAlias.C68_and,
  PropAlias.C69_insert,
  PropAlias.C69_erase,
  PropAlias.C69_flip_absorber,
  PropAlias.C69_add_partial,
  PropAlias.C69_subtract_partial,
  PropAlias.C69_add_refuted,
  PropAlias.C69_subtract_refuted,
  PropAlias.C69_flip_refuted).
Definition all_PropLook := (
  PropLook.C70_equal_range_set,
  PropLook.C70_equal_range_map,
  PropLook.C70_find_set,
  PropLook.C70_find_map,
  PropLook.C70_empty_refuted,
  PropLook.C71_erase_position_set,
  PropLook.C71_erase_position_map,
  PropLook.C71_erase_range_set,
  PropLook.C71_erase_range_map).
Definition all_PropStable := (
  PropStable.C72_set_add,
  PropStable.C72_set_add_hint,
  PropStable.C72_set_subtract,
  PropStable.C72_map_add,
  PropStable.C72_map_add_hint,
  PropStable.C72_map_subtract,
  PropStable.C72_map_insert,
  PropStable.C72_map_insert_hint,
  PropStable.C72_map_set,
  PropStable.C72_map_erase,
  PropStable.C72_map_erase_seg,
  PropStable.C72_touching_refuted).
Definition all_PropCrash := (
  PropCrash.C73_add,
  PropCrash.C73_add_hint,
  PropCrash.C73_subtract,
  PropCrash.C73_add_set,
  PropCrash.C73_insert_set,
  PropCrash.C73_subtract_set,
  PropCrash.C73_and_seg,
  PropCrash.C73_and_set,
  PropCrash.C73_strong_add_refuted,
  PropCrash.C73_strong_subtract_refuted).
Definition all_PropCrash2 := (
  PropCrash2.C74_insert,
  PropCrash2.C74_insert_hint,
  PropCrash2.C74_erase,
  PropCrash2.C74_erase_seg,
  PropCrash2.C74_set,
  PropCrash2.C74_add,
  PropCrash2.C74_add_hint,
  PropCrash2.C74_subtract,
  PropCrash2.C74_add_map,
  PropCrash2.C74_insert_map,
  PropCrash2.C74_subtract_map,
  PropCrash2.C74_erase_map,
  PropCrash2.C74_erase_set,
  PropCrash2.C74_and_itv,
  PropCrash2.C74_and_seg,
  PropCrash2.C74_and_map,
  PropCrash2.C74_and_set,
  PropCrash2.C74_strong_add_refuted,
  PropCrash2.C74_joined_refuted).
Definition all_PropCrash3 := (
  PropCrash3.C81_flip,
  PropCrash3.C81_flip_elem,
  PropCrash3.C81_flip_set,
  PropCrash3.C81_join_refuted).
Definition all_PropCrash4 := (
  PropCrash4.C82_flip,
  PropCrash4.C82_flip_elem,
  PropCrash4.C82_flip_map,
  PropCrash4.C82_flip_enricher,
  PropCrash4.C82_flip_map_enricher,
  PropCrash4.C82_flip_total_absorber,
  PropCrash4.C82_flip_map_total_absorber,
  PropCrash4.C82_neighbour_refuted).
Definition all_PropStable2 := (
  PropStable2.C83_set_add_set,
  PropStable2.C83_set_insert_set,
  PropStable2.C83_set_subtract_set,
  PropStable2.C83_set_flip,
  PropStable2.C83_set_flip_set,
  PropStable2.C83_map_add_map,
  PropStable2.C83_map_insert_map,
  PropStable2.C83_map_subtract_map,
  PropStable2.C83_map_erase_map,
  PropStable2.C83_map_erase_set,
  PropStable2.C83_map_flip,
  PropStable2.C83_map_flip_map).
Definition all_PropCompare := (
  PropCompare.C75_sets,
  PropCompare.C75_maps,
  PropCompare.C75_element_maps,
  PropCompare.C75_element_sets,
  PropCompare.C75_sets_dictionary,
  PropCompare.C75_maps_dictionary,
  PropCompare.C76_total_order,
  PropCompare.C76_lexicographic,
  PropCompare.C76_pair_on_the_left,
  PropCompare.C77_sets,
  PropCompare.C77_sets_meaning,
  PropCompare.C77_maps).
Definition all_PropSize := (
  PropSize.C78_set_add,
  PropSize.C78_set_add_hint,
  PropSize.C78_set_subtract,
  PropSize.C78_set_flip,
  PropSize.C78_set_plus,
  PropSize.C78_set_insert,
  PropSize.C78_set_minus,
  PropSize.C78_set_and,
  PropSize.C78_set_xor,
  PropSize.C78_map_add,
  PropSize.C78_map_add_hint,
  PropSize.C78_map_insert,
  PropSize.C78_map_insert_hint,
  PropSize.C78_map_subtract,
  PropSize.C78_map_erase,
  PropSize.C78_map_erase_seg,
  PropSize.C78_map_set,
  PropSize.C78_map_plus,
  PropSize.C78_map_insert_map,
  PropSize.C78_map_minus,
  PropSize.C78_map_erase_map,
  PropSize.C78_map_erase_set,
  PropSize.C78_map_and_interval,
  PropSize.C78_map_and_segment,
  PropSize.C78_map_and_set,
  PropSize.C78_map_and,
  PropSize.C78_map_flip,
  PropSize.C78_map_xor).
Definition all_PropHist := (
  PropHist.C79_set_history,
  PropHist.C79_sum,
  PropHist.C79_count_overlaps,
  PropHist.C79_balance,
  PropHist.C79_covered_balance,
  PropHist.C79_uncovered_refuted,
  PropHist.C80_set_additions,
  PropHist.C80_set_subtractions,
  PropHist.C80_map_additions,
  PropHist.C80_map_history,
  PropHist.C80_split_enricher_additions,
  PropHist.C80_split_absorber_refuted,
  PropHist.C80_mixed_order_refuted).
Definition all_PropLarge := (
  PropLarge.C84_add,
  PropLarge.C84_subtract,
  PropLarge.C84_flip,
  PropLarge.C84_elements,
  PropLarge.C84_bitsets,
  PropLarge.C84_equal,
  PropLarge.C84_less,
  PropLarge.C84_intersect_one_word,
  PropLarge.C84_intersect_several_words,
  PropLarge.C84_intersect_empty_interval,
  PropLarge.C84_intersect_refuted).
Definition all_PropThrow := (
  PropThrow.C85_add,
  PropThrow.C85_subtract,
  PropThrow.C85_add_hint,
  PropThrow.C85_add_map,
  PropThrow.C85_subtract_map,
  PropThrow.C85_and_itv,
  PropThrow.C85_and_seg,
  PropThrow.C85_and_map,
  PropThrow.C85_and_set,
  PropThrow.C85_usable_add_map_refuted).
Definition all_PropColl := (
  PropColl.C86_add,
  PropColl.C86_subtract,
  PropColl.C86_flip,
  PropColl.C86_intersect_segment,
  PropColl.C86_erase,
  PropColl.C86_restrict,
  PropColl.C86_add_map,
  PropColl.C86_subtract_map,
  PropColl.C86_flip_map,
  PropColl.C86_intersect_map,
  PropColl.C86_equal,
  PropColl.C86_element_equal,
  PropColl.C86_contains,
  PropColl.C86_expressions,
  PropColl.C86_std_set,
  PropColl.C86_bit_vectors,
  PropColl.C86_intersect_empty_set_refuted,
  PropColl.C86_intersect_enricher_refuted,
  PropColl.C87_every_set_law,
  PropColl.C87_every_set_law_distinct,
  PropColl.C87_fundamental,
  PropColl.C87_distributivity,
  PropColl.C87_de_morgan_symmetric_difference,
  PropColl.C87_inversion_enricher_refuted,
  PropColl.C87_split_distributivity_refuted,
  PropColl.C88_distinct,
  PropColl.C88_distinct_joined,
  PropColl.C88_distinct_absorber,
  PropColl.C88_split_refuted).
Definition all_PropQuant := (
  PropQuant.C89_monoid,
  PropQuant.C89_minus_neutral,
  PropQuant.C89_and_commutative,
  PropQuant.C89_and_associative,
  PropQuant.C89_and_total,
  PropQuant.C89_symmetric_difference,
  PropQuant.C89_inversion_distinct,
  PropQuant.C89_inverse_distinct,
  PropQuant.C89_and_associative_signed_refuted,
  PropQuant.C89_and_associative_unsigned_refuted,
  PropQuant.C89_symmetric_difference_unsigned_refuted,
  PropQuant.C89_codomains).
Definition all_PropNest := (
  PropNest.C90_equal,
  PropNest.C90_add_entries,
  PropNest.C90_monoid,
  PropNest.C90_commutative_monoid,
  PropNest.C90_proper,
  PropNest.C90_no_cancellation,
  PropNest.C90_group,
  PropNest.C90_nested_group,
  PropNest.C90_total_map_of_maps,
  PropNest.C90_set,
  PropNest.C90_nested,
  PropNest.C90_nested_expressions,
  PropNest.C90_total_map_of_partial_maps_refuted).
Definition all_PropNestI := (
  PropNestI.C91_interval_set,
  PropNestI.C91_equal,
  PropNestI.C91_extensional,
  PropNestI.C91_add_values,
  PropNestI.C91_monoid,
  PropNestI.C91_commutative_monoid,
  PropNestI.C91_no_cancellation,
  PropNestI.C91_group,
  PropNestI.C91_set,
  PropNestI.C91_tower_set,
  PropNestI.C91_tower_expressions,
  PropNestI.C91_tower_group,
  PropNestI.C91_total_map_of_maps).
Definition all_PropPrint := (
  PropPrint.C92_brackets,
  PropPrint.C92_interval,
  PropPrint.C92_interval_text,
  PropPrint.C92_discrete_interval_refuted,
  PropPrint.C92_set,
  PropPrint.C92_set_text,
  PropPrint.C92_set_elements,
  PropPrint.C92_map,
  PropPrint.C92_map_text,
  PropPrint.C92_map_values,
  PropPrint.C92_element_map,
  PropPrint.C92_element_set,
  PropPrint.C92_plain,
  PropPrint.C92_numbers,
  PropPrint.C92_sets_readable,
  PropPrint.C92_maps_readable,
  PropPrint.C92_followed,
  PropPrint.C92_strings_refuted).
Definition all_PropWhole := (
  PropWhole.C93_map_add,
  PropWhole.C93_map_subtract,
  PropWhole.C93_map_insert,
  PropWhole.C93_map_erase_set,
  PropWhole.C93_map_erase_map,
  PropWhole.C93_map_and_interval,
  PropWhole.C93_map_and_set,
  PropWhole.C93_map_and_segment,
  PropWhole.C93_map_and,
  PropWhole.C93_map_xor_segment,
  PropWhole.C93_map_xor,
  PropWhole.C93_map_and_total,
  PropWhole.C93_map_xor_total,
  PropWhole.C93_split_add,
  PropWhole.C93_separate_add,
  PropWhole.C93_insert_is_add,
  PropWhole.C93_set_and,
  PropWhole.C93_set_xor,
  PropWhole.C93_set_subtract,
  PropWhole.C93_absorber_operand).
Definition all_theorems := (all_PropInterval, all_PropSet, all_PropMap, all_PropMap2, all_PropMap3, all_PropElem, all_PropElem2, all_PropIter, all_PropAlias, all_PropLook, all_PropStable, all_PropCrash, all_PropCrash2, all_PropCrash3, all_PropCrash4, all_PropStable2, all_PropCompare, all_PropSize, all_PropHist, all_PropLarge, all_PropThrow, all_PropColl, all_PropQuant, all_PropNest, all_PropNestI, all_PropPrint, all_PropWhole).
Print Assumptions all_theorems.

{
 "claims": [
  {
   "property": "C01",
   "status": "proved",
   "theorems": [
    "C01_intersect_exact",
    "C01_intersect_witness_in_word",
    "C01_merge_least_cover"
   ],
   "note": ""
  },
  {
   "property": "C02",
   "status": "proved",
   "theorems": [
    "C02_pair_preserves_routing",
    "C02_pair_preserves_consistent",
    "C02_unordered_any_order"
   ],
   "note": ""
  },
  {
   "property": "C03",
   "status": "proved",
   "theorems": [
    "C03_pair_total_and_shrinks",
    "C03_pair_index_error"
   ],
   "note": ""
  },
  {
   "property": "C04",
   "status": "proved",
   "theorems": [
    "C04_range_preserves_routing",
    "C04_range_any_table"
   ],
   "note": ""
  },
  {
   "property": "C05",
   "status": "proved",
   "theorems": [
    "C05_range_overlap_only_at_last_key"
   ],
   "note": ""
  },
  {
   "property": "C06",
   "status": "proved",
   "theorems": [
    "C06_range_terminates"
   ],
   "note": ""
  },
  {
   "property": "C07",
   "status": "proved",
   "theorems": [
    "C07_remove_default_safe",
    "C07_remove_default_exact",
    "C07_remove_default_target"
   ],
   "note": ""
  },
  {
   "property": "C10",
   "status": "proved",
   "theorems": [
    "C10_checker_sound"
   ],
   "note": ""
  },
  {
   "property": "C11",
   "status": "proved",
   "theorems": [
    "C11_checker_complete",
    "C11_defaultable_rejected_refuted"
   ],
   "note": "The condition on flags is needed: a faithful table whose first match is defaultable where the original entry is not is rejected."
  },
  {
   "property": "C12",
   "status": "proved",
   "theorems": [
    "C12_remainders_exact_union",
    "C12_covers_exact"
   ],
   "note": ""
  },
  {
   "property": "C51",
   "status": "proved",
   "theorems": [
    "C51_driver_fits",
    "C51_driver_succeeds",
    "C51_pair_driver_preserves_routing"
   ],
   "note": ""
  },
  {
   "property": "C52",
   "status": "proved",
   "theorems": [
    "C52_uncompressed_history",
    "C52_replies",
    "C52_compressed_history",
    "C52_add_exact",
    "C52_equality_same_position"
   ],
   "note": ""
  },
  {
   "property": "C55",
   "status": "proved",
   "theorems": [
    "C55_tables_json_roundtrip"
   ],
   "note": ""
  },
  {
   "property": "C13",
   "status": "proved",
   "theorems": [
    "C13_ranges_exact",
    "C13_ranges_disjoint",
    "C13_ranges_same_size"
   ],
   "note": ""
  },
  {
   "property": "C14",
   "status": "proved",
   "theorems": [
    "C14_get_keys",
    "C14_get_keys_array",
    "C14_slice_keys",
    "C14_slice_keys_in_block"
   ],
   "note": ""
  },
  {
   "property": "C15",
   "status": "proved",
   "theorems": [
    "C15_compress_expand",
    "C15_expand_compress",
    "C15_expand_bits",
    "C15_compress_bits"
   ],
   "note": ""
  },
  {
   "property": "C53",
   "status": "proved",
   "theorems": [
    "C53_route_word"
   ],
   "note": "Links and processors are sets in the code, hence the NoDup hypotheses."
  },
  {
   "property": "C56",
   "status": "proved",
   "theorems": [
    "C56_allocator_bits_least",
    "C56_get_n_bits",
    "C56_is_power_of_2"
   ],
   "note": ""
  },
  {
   "property": "C08",
   "status": "proved",
   "theorems": [
    "C08_ordered_covering_preserves",
    "C08_compress_table_preserves"
   ],
   "note": ""
  },
  {
   "property": "C09",
   "status": "proved",
   "theorems": [
    "C09_ordered_covering_total",
    "C09_compress_table_total",
    "C09_generality_counts_x",
    "C09_empty_table_refuted"
   ],
   "note": "The statement is for non-empty tables; an empty table compressed as far as possible raises IndexError (refutation of the unrestricted claim)."
  },
  {
   "property": "C16",
   "status": "proved",
   "theorems": [
    "C16_machine_block",
    "C16_no_clash",
    "C16_no_app_clash",
    "C16_one_entry",
    "C16_succeeds_iff_fits"
   ],
   "note": "Some machine vertex of the partition asks for a key, and each fixed partition has a machine vertex; the claim without these conditions is C98."
  },
  {
   "property": "C17",
   "status": "proved",
   "theorems": [
    "C17_machine_keys_avoid_fixed",
    "C17_app_keys_avoid_fixed",
    "C17_fixed_keys_used"
   ],
   "note": "Global mode in general is C99."
  },
  {
   "property": "C20",
   "status": "proved",
   "theorems": [
    "C20_one_dimension"
   ],
   "note": ""
  },
  {
   "property": "C21",
   "status": "proved",
   "theorems": [
    "C21_partition",
    "C21_accepts_iff"
   ],
   "note": ""
  },
  {
   "property": "C22",
   "status": "proved",
   "theorems": [
    "C22_key_then_raster",
    "C22_raster_then_key",
    "C22_default_indices",
    "C22_key_order_of_slices"
   ],
   "note": "Index arrays of at most 2^32 atoms (the results are uint32)."
  },
  {
   "property": "C23",
   "status": "proved",
   "theorems": [
    "C23_relative_then_raster",
    "C23_raster_then_relative",
    "C23_raster_ids"
   ],
   "note": ""
  },
  {
   "property": "C50",
   "status": "proved",
   "theorems": [
    "C50_fpga_slices",
    "C50_link_slices"
   ],
   "note": ""
  },
  {
   "property": "C24",
   "status": "proved",
   "theorems": [
    "C24_history",
    "C24_one_to_one",
    "C24_rejected_add"
   ],
   "note": ""
  },
  {
   "property": "C57",
   "status": "partial",
   "theorems": [
    "C57_queries_invisible_partial",
    "C57_query_adds_chip_refuted"
   ],
   "note": "True of every later call except chips_with_placements, which then also lists the queried chip."
  },
  {
   "property": "C39",
   "status": "proved",
   "theorems": [
    "C39_parts_add",
    "C39_totals_add",
    "C39_totals_within_one",
    "C39_commutative",
    "C39_associative",
    "C39_equal_means_equal_totals"
   ],
   "note": "Per-timestep costs are exact rationals in the model (floats in the code)."
  },
  {
   "property": "C58",
   "status": "partial",
   "theorems": [
    "C58_fractional_totals_refuted",
    "C39_totals_within_one"
   ],
   "note": "False: two costs of half a byte per timestep total 1 for one timestep, not 2. The difference is at most one byte per addition."
  },
  {
   "property": "C40",
   "status": "proved",
   "theorems": [
    "C40_counted_once",
    "C40_order_irrelevant",
    "C40_consistent",
    "C40_rejected_only_for_conflict"
   ],
   "note": "Parts of a shared SDRAM are not themselves shared SDRAM."
  },
  {
   "property": "C59",
   "status": "partial",
   "theorems": [
    "C59_rejection_order_refuted",
    "C59_same_kind_succeeds_partial"
   ],
   "note": "False: a ConstantSDRAM never equals a VariableSDRAM but the converse can hold, so one order is rejected. Proved: when values with the same label compare equal both ways, every order succeeds."
  },
  {
   "property": "C43",
   "status": "proved",
   "theorems": [
    "C43_feasible_and_greedy",
    "C43_least",
    "C43_monotone"
   ],
   "note": ""
  },
  {
   "property": "C41",
   "status": "proved",
   "theorems": [
    "C41_regions_sum",
    "C41_cost_rounded"
   ],
   "note": "Values nested directly are constant or variable SDRAM, or MultiRegionSDRAM objects."
  },
  {
   "property": "C60",
   "status": "partial",
   "theorems": [
    "C60_shared_nesting_refuted",
    "C60_late_cost_refuted",
    "C41_regions_sum"
   ],
   "note": "False with aliasing: nesting merges into the nested object in place, and later costs of a nested object are not seen by the total. The claim without aliasing is C41."
  },
  {
   "property": "C42",
   "status": "proved",
   "theorems": [
    "C42_source_segments",
    "C42_destination_segments",
    "C42_constant_shared"
   ],
   "note": "For sizes that are not negative. Looking a destination up by vertex gives the first edge to it, so for that the post-vertices must differ."
  },
  {
   "property": "C61",
   "status": "partial",
   "theorems": [
    "C61_constant_rejected_refuted",
    "C61_source_rejected_partial",
    "C61_destination_rejected_partial"
   ],
   "note": "False for the constant-size partition, which records the size and the edge before it refuses. Proved for the two segmented partitions."
  },
  {
   "property": "C44",
   "status": "proved",
   "theorems": [
    "C44_vertices_kept"
   ],
   "note": ""
  },
  {
   "property": "C45",
   "status": "proved",
   "theorems": [
    "C45_edges_partitioned",
    "C45_accepted_iff",
    "C45_refused"
   ],
   "note": ""
  },
  {
   "property": "C62",
   "status": "partial",
   "theorems": [
    "C62_label_collision_refuted",
    "C62_distinct_partial",
    "C44_vertices_kept"
   ],
   "note": "False: labels a1, a, a give a generated second a1, which replaces the first vertex. It is true if all vertices are given labels and these differ, and by C44 if no label ends with a digit."
  },
  {
   "property": "C63",
   "status": "partial",
   "theorems": [
    "C63_edge_in_two_partitions_refuted",
    "C45_edges_partitioned"
   ],
   "note": "False: the same edge can be added under two identifiers. Within one identifier it is C45."
  },
  {
   "property": "C64",
   "status": "partial",
   "theorems": [
    "C64_unknown_vertex_accepted_refuted",
    "C45_accepted_iff"
   ],
   "note": "False: only labels are checked. Proved: both labels are known."
  },
  {
   "property": "C54",
   "status": "proved",
   "theorems": [
    "C54_breadth_first",
    "C54_every_node_once",
    "C54_len"
   ],
   "note": "For trees in which every sub-tree hangs below a direction."
  },
  {
   "property": "C29",
   "status": "proved",
   "theorems": [
    "C29_path",
    "C29_reaches",
    "C29_longest_first"
   ],
   "note": ""
  },
  {
   "property": "C30",
   "status": "proved",
   "theorems": [
    "C30_loops_removed",
    "C30_no_loops_kept"
   ],
   "note": ""
  },
  {
   "property": "C31",
   "status": "proved",
   "theorems": [
    "C31_walk",
    "C31_detour",
    "C31_repaired",
    "C31_connected",
    "C31_faultless"
   ],
   "note": ""
  },
  {
   "property": "C65",
   "status": "partial",
   "theorems": [
    "C65_loop_removal_refuted",
    "C65_route_refuted",
    "C65_router_refuted",
    "C30_loops_removed",
    "C165_gap"
   ],
   "note": "False: seen_nodes keeps chips of loops already removed, with positions that are no longer theirs; a connected machine with working two-way links is given on which the route uses a dead link. True when no chip inside a loop is visited again after it: C30; so for a shortest direct path of which only one stretch is broken: C165_gap."
  },
  {
   "property": "C66",
   "status": "partial",
   "theorems": [
    "C66_reachable_refused_refuted",
    "C66_exact_partial",
    "C31_connected"
   ],
   "note": "False: the repair tries to reach each working stretch of the direct path, also one on chips that are cut off. C66_exact_partial says exactly when a path is found, for machines whose links work both ways; it always is on connected machines: C31_connected."
  },
  {
   "property": "C35",
   "status": "proved",
   "theorems": [
    "C35_union",
    "C35_exclusive",
    "C35_raises_iff"
   ],
   "note": ""
  },
  {
   "property": "C34",
   "status": "proved",
   "theorems": [
    "C34_targets_kept",
    "C34_targets_only",
    "C34_machine_calls",
    "C34_separate_calls"
   ],
   "note": ""
  },
  {
   "property": "C67",
   "status": "partial",
   "theorems": [
    "C67_targets_leak_refuted",
    "C67_router_refuted",
    "C34_targets_only"
   ],
   "note": "False: __replace_app_vertex gives one pair of lists to all machine vertices. True without that replacement: C34."
  },
  {
   "property": "C32",
   "status": "proved",
   "theorems": [
    "C32_fresh",
    "C32_extended",
    "C32_acyclic",
    "C32_raises_iff",
    "C32_reachable"
   ],
   "note": ""
  },
  {
   "property": "C33",
   "status": "proved",
   "theorems": [
    "C33_entries",
    "C33_ends",
    "C33_application",
    "C33_machine"
   ],
   "note": ""
  },
  {
   "property": "C68",
   "status": "proved",
   "theorems": [
    "C68_default_straight"
   ],
   "note": "RoutingEntry of spinn_machine is modelled: defaultable as computed from the incoming link, merged entries defaultable only if both are with the same route."
  },
  {
   "property": "C69",
   "status": "partial",
   "theorems": [
    "C69_child_twice_refuted",
    "C32_fresh"
   ],
   "note": "False: a shared way is added once for each target behind it, and the conversion visits exponentially many nodes. The resulting tables are right: C33."
  },
  {
   "property": "C36",
   "status": "proved",
   "theorems": [
    "C36_routes",
    "C36_raises",
    "C36_made"
   ],
   "note": ""
  },
  {
   "property": "C37",
   "status": "proved",
   "theorems": [
    "C37_tags",
    "C37_errors"
   ],
   "note": "Ethernet chips have distinct addresses, placements distinct vertices."
  },
  {
   "property": "C38",
   "status": "proved",
   "theorems": [
    "C38_fallback",
    "C38_capacity"
   ],
   "note": ""
  },
  {
   "property": "C70",
   "status": "proved",
   "theorems": [
    "C70_class",
    "C70_shared",
    "C70_refuses"
   ],
   "note": ""
  },
  {
   "property": "C71",
   "status": "partial",
   "theorems": [
    "C71_reverse_fallback_refuted",
    "C71_own_board"
   ],
   "note": "False: the tag of the other board is recorded on the own board and so refused; proved exactly when a reverse request is granted."
  },
  {
   "property": "C72",
   "status": "partial",
   "theorems": [
    "C72_automatic_port_refuted",
    "C72_exact",
    "C72_no_fixed_partial"
   ],
   "note": "False: ports are popped from the automatic range without looking at the fixed ports. C72_exact says which port is given and when; it is granted when no fixed port of the board is in the automatic range."
  },
  {
   "property": "C18",
   "status": "proved",
   "theorems": [
    "C18_merge_exact"
   ],
   "note": ""
  },
  {
   "property": "C19",
   "status": "proved",
   "theorems": [
    "C19_merged_like_basic",
    "C19_merged_table",
    "C19_one_entry"
   ],
   "note": ""
  },
  {
   "property": "C73",
   "status": "proved",
   "theorems": [
    "C73_one_table_per_chip",
    "C73_table_for_chip",
    "C73_statistics"
   ],
   "note": ""
  },
  {
   "property": "C74",
   "status": "partial",
   "theorems": [
    "C74_fixed_machine_keys_lost_refuted",
    "C19_merged_table"
   ],
   "note": "False: fixed machine keys with the machine mask are merged by index although the keys are not consecutive; proved (C19) when the machine masks differ from the machine mask."
  },
  {
   "property": "C75",
   "status": "partial",
   "theorems": [
    "C75_merged_default_refuted",
    "C75_flag_of_sibling",
    "C75_same_flags_partial"
   ],
   "note": "False: the merged entry takes the defaultable flag of its first member.  True for every source whose siblings with the same route have the same flag."
  },
  {
   "property": "C46",
   "status": "proved",
   "theorems": [
    "C46_search_sound",
    "C46_validate_sound",
    "C46_search_ends"
   ],
   "note": ""
  },
  {
   "property": "C47",
   "status": "proved",
   "theorems": [
    "C47_locate_exact",
    "C47_search_accepts",
    "C47_validate_accepts"
   ],
   "note": ""
  },
  {
   "property": "C76",
   "status": "partial",
   "theorems": [
    "C76_adjacent_keys_refuted",
    "C47_search_accepts"
   ],
   "note": "False: the range of the source is taken one key too long; proved (C47) when no entry starts at the next key."
  },
  {
   "property": "C77",
   "status": "partial",
   "theorems": [
    "C77_source_entry_refuted",
    "C77_shadowed_key_refuted",
    "C46_search_sound"
   ],
   "note": "False for masks with holes, on the chip of the source and behind shadowing entries; proved (C46) for contiguous masks."
  },
  {
   "property": "C78",
   "status": "partial",
   "theorems": [
    "C78_chip_without_table_refuted",
    "C46_search_sound"
   ],
   "note": "False: a chip without a table passes the packet on by default routing; proved (C46) when no entry leads to such a chip."
  },
  {
   "property": "C79",
   "status": "proved",
   "theorems": [
    "C79_app_partitions",
    "C79_once"
   ],
   "note": ""
  },
  {
   "property": "C48",
   "status": "proved",
   "theorems": [
    "C48_disjoint",
    "C48_keys_found",
    "C48_pixel_rectangle",
    "C48_slices",
    "C48_slice_of_each",
    "C48_rectangle_exists"
   ],
   "note": ""
  },
  {
   "property": "C80",
   "status": "partial",
   "theorems": [
    "C80_one_column_lost",
    "C80_pixel_lost_refuted",
    "C48_pixel_rectangle"
   ],
   "note": "False: get_n_bits(1) is 1, so with one rectangle in a direction the mask keeps the top bit of the field and half the pixels match nothing; proved (C48) with several rectangles."
  },
  {
   "property": "C81",
   "status": "partial",
   "theorems": [
    "C81_atoms_are_pixels_partial",
    "C81_overhang_refuted"
   ],
   "note": "False when the sub sizes do not divide the sizes: edge slices overhang; proved when they divide."
  },
  {
   "property": "C49",
   "status": "proved",
   "theorems": [
    "C49_iptag",
    "C49_iptags",
    "C49_reverse_iptags",
    "C49_placement",
    "C49_key_mask"
   ],
   "note": ""
  },
  {
   "property": "C82",
   "status": "proved",
   "theorems": [
    "C82_slice_text",
    "C82_mdslice_text"
   ],
   "note": ""
  },
  {
   "property": "C83",
   "status": "partial",
   "theorems": [
    "C83_one_dimension_refuted",
    "C82_mdslice_text"
   ],
   "note": "False: int('') is a ValueError; proved (C82) for two or more dimensions."
  },
  {
   "property": "C84",
   "status": "partial",
   "theorems": [
    "C84_end_partial",
    "C84_mdslice_end",
    "C84_end_refuted"
   ],
   "note": "False: MDSlice.end is the last position in each dimension (C84_mdslice_end), Slice.end the one after it."
  },
  {
   "property": "C25",
   "status": "proved",
   "theorems": [
    "C25_cores",
    "C25_errors"
   ],
   "note": ""
  },
  {
   "property": "C26",
   "status": "proved",
   "theorems": [
    "C26_sdram",
    "C26_covered"
   ],
   "note": ""
  },
  {
   "property": "C27",
   "status": "proved",
   "theorems": [
    "C27_terminates",
    "C27_placed_once",
    "C27_together",
    "C27_fixed"
   ],
   "note": ""
  },
  {
   "property": "C28",
   "status": "proved",
   "theorems": [
    "C28_connected",
    "C28_room_is_found"
   ],
   "note": ""
  },
  {
   "property": "C85",
   "status": "partial",
   "theorems": [
    "C85_fixed_locations_refuted",
    "C27_fixed"
   ],
   "note": "False: a group goes to the chip of its first fixed vertex; proved (C27) when the fixed chips of a group agree."
  },
  {
   "property": "C86",
   "status": "partial",
   "theorems": [
    "C86_free_core_refuted",
    "C86_exact",
    "C86_ascending",
    "C86_single_vertex_partial"
   ],
   "note": "False: 'p not in iterator' consumes the cores before p, so cores 3 then 2 fail. C86_exact says exactly when a group is placed: the cores asked for must come in the order of the set of free cores."
  },
  {
   "property": "C87",
   "status": "partial",
   "theorems": [
    "C87_fixed_sdram_refuted",
    "C26_sdram"
   ],
   "note": "False: no SDRAM check for fixed vertices; proved (C26) for chips with an unfixed vertex."
  },
  {
   "property": "C88",
   "status": "partial",
   "theorems": [
    "C88_unmixed_partial",
    "C88_virtual_placed_refuted",
    "C88_internal_error_refuted",
    "C25_errors"
   ],
   "note": "False: the group is filtered but all its vertices are given cores; proved when groups do not mix virtual and real vertices."
  },
  {
   "property": "C89",
   "status": "partial",
   "theorems": [
    "C89_space_refused_refuted",
    "C28_room_is_found"
   ],
   "note": "False: a chip whose used SDRAM is above the cap counts as full; proved (C28) for chips not above the cap."
  },
  {
   "property": "C90",
   "status": "partial",
   "theorems": [
    "C90_pair_always_returns_refuted",
    "C03_pair_index_error"
   ],
   "note": "False: with more distinct routes than router entries an IndexError escapes, in every mode; otherwise C03."
  },
  {
   "property": "C91",
   "status": "partial",
   "theorems": [
    "C91_range_order_free_refuted",
    "C91_range_then_pair_misroutes_refuted",
    "C05_range_overlap_only_at_last_key"
   ],
   "note": "False: a block may start on the last key of the previous entry, and pair compression of that output misroutes a key. Only such a last key is affected: C05."
  },
  {
   "property": "C92",
   "status": "partial",
   "theorems": [
    "C92_range_always_terminates_refuted",
    "C92_empty_table_index_error_refuted",
    "C06_range_terminates"
   ],
   "note": "False: for a mask with a hole the loop runs for ever; an empty table raises IndexError. True for non-empty tables with contiguous masks: C06."
  },
  {
   "property": "C93",
   "status": "partial",
   "theorems": [
    "C93_zero_target_refuted",
    "C07_remove_default_target"
   ],
   "note": "False: a target of 0 is treated as no target. True for positive targets: C07."
  },
  {
   "property": "C94",
   "status": "partial",
   "theorems": [
    "C94_repeated_key_mask_refuted",
    "C94_last_partial",
    "C10_checker_sound"
   ],
   "note": "False: the dictionary keeps the last entry of a repeated pair, and a wrong table is accepted. What is judged is the table with the last entry of each pair at the place of the first. True without repeated pairs: C10."
  },
  {
   "property": "C95",
   "status": "partial",
   "theorems": [
    "C95_remainders_disjoint_refuted",
    "C12_remainders_exact_union"
   ],
   "note": "False: pieces overlap; their union is right (C12), so the checker is slower but not wrong."
  },
  {
   "property": "C96",
   "status": "partial",
   "theorems": [
    "C96_limit_zero_refuted",
    "C96_offset_refuted",
    "C14_get_keys_array"
   ],
   "note": "False: a limit of 0 on a full mask still gives one key, and the offset is not considered when the number of keys is bounded by the array."
  },
  {
   "property": "C97",
   "status": "partial",
   "theorems": [
    "C97_no_positions_refuted",
    "C15_compress_bits"
   ],
   "note": "False: it raises ValueError."
  },
  {
   "property": "C98",
   "status": "partial",
   "theorems": [
    "C98_no_keys_clash_refuted",
    "C98_stale_vertex_refuted",
    "C16_no_clash"
   ],
   "note": "False: partitions without keys are left out of the zone sizes but still allocated, and a fixed partition without machine vertices reuses the loop variable of the previous one. True with the conditions of C16."
  },
  {
   "property": "C99",
   "status": "partial",
   "theorems": [
    "C99_global_mode_clash_refuted",
    "C17_machine_keys_avoid_fixed"
   ],
   "note": "False: the blocked indexes are computed before the zone is widened. True when one partition is largest in both fields: C17."
  },
  {
   "property": "C100",
   "status": "partial",
   "theorems": [
    "C100_fpga_atoms_lost_refuted",
    "C100_link_raises_refuted",
    "C50_fpga_slices",
    "C50_link_slices"
   ],
   "note": "False: FPGA slices miss the last n mod m atoms, and link slices can raise. Exactly characterised in C50."
  },
  {
   "property": "C101",
   "status": "partial",
   "theorems": [
    "C101_problems_kept_between_calls_refuted",
    "C51_driver_succeeds"
   ],
   "note": "False: the problems of an earlier call are kept and raised again. True of a new compressor: C51."
  },
  {
   "property": "C102",
   "status": "partial",
   "theorems": [
    "C102_equality_ignores_position_refuted",
    "C102_equality_exact",
    "C52_equality_same_position"
   ],
   "note": "False: positions differ only if both x and y differ."
  },
  {
   "property": "C103",
   "status": "partial",
   "theorems": [
    "C103_repeated_pair_refuted",
    "C55_tables_json_roundtrip"
   ],
   "note": "False: a compressed table that repeats a pair is read as an uncompressed one and refused. True without repeated pairs: C55."
  },
  {
   "property": "C104",
   "status": "proved",
   "theorems": [
    "C104_basic_refuses_clash"
   ],
   "note": ""
  },
  {
   "property": "C105",
   "status": "partial",
   "theorems": [
    "C105_merged_accepts_clash_refuted",
    "C104_basic_refuses_clash",
    "C19_merged_table"
   ],
   "note": "False: only the first member of a group of merged entries is recorded, so a later source with the key of another member is accepted and its packets are routed by the merged entry. True of the basic generator: C104. With keys that do not clash both tables route alike: C19."
  },
  {
   "property": "C106",
   "status": "proved",
   "theorems": [
    "C106_delivered",
    "C106_nothing_else"
   ],
   "note": "The conditions of the quantifier are the records graph_ok and unmixed; without them: C110, C65, C67."
  },
  {
   "property": "C107",
   "status": "proved",
   "theorems": [
    "C107_internal",
    "C107_partitions"
   ],
   "note": ""
  },
  {
   "property": "C108",
   "status": "proved",
   "theorems": [
    "C108_once"
   ],
   "note": ""
  },
  {
   "property": "C109",
   "status": "partial",
   "theorems": [
    "C109_internal_leak_refuted",
    "C107_internal"
   ],
   "note": "False: the routes of all senders of the mapping lead to the chips where the application's routes start. Its own targets are reached: C107."
  },
  {
   "property": "C110",
   "status": "partial",
   "theorems": [
    "C110_silent_chip_refuted",
    "C110_silent_error_refuted",
    "C106_delivered"
   ],
   "note": "False: the path is cut at the chip of a machine vertex that does not send, and its rest is not connected to any sender. A device with traffic both ways has such a machine vertex (C113). True when each chip of the source has a sender: C106."
  },
  {
   "property": "C111",
   "status": "partial",
   "theorems": [
    "C111_no_incoming_refuted",
    "C111_self_refuted",
    "C111_errors_partial",
    "C111_unreachable_partial"
   ],
   "note": "False: UnboundLocalError and KeyError.  True when each partition is asked for and each target has incoming vertices: then only a routing exception, or the refusal of an entry for both an application vertex and its machine vertex."
  },
  {
   "property": "C112",
   "status": "proved",
   "theorems": [
    "C112_fixed",
    "C112_one_to_one",
    "C112_one_app",
    "C112_kept"
   ],
   "note": "After a reset one-to-one splitters are different: C116."
  },
  {
   "property": "C113",
   "status": "proved",
   "theorems": [
    "C113_devices"
   ],
   "note": "Which atoms these slices hold: C50, C100."
  },
  {
   "property": "C114",
   "status": "proved",
   "theorems": [
    "C114_succeeds",
    "C114_fails",
    "C114_all_split",
    "C114_chips"
   ],
   "note": ""
  },
  {
   "property": "C115",
   "status": "proved",
   "theorems": [
    "C115_again"
   ],
   "note": "One-to-one splitters: C116."
  },
  {
   "property": "C116",
   "status": "partial",
   "theorems": [
    "C116_one_to_one_reset_refuted",
    "C112_one_to_one"
   ],
   "note": "False: the machine vertex is remembered only when the splitter is set, and reset forgets it. True without a reset: C112."
  },
  {
   "property": "C117",
   "status": "proved",
   "theorems": [
    "C117_links",
    "C117_set",
    "C117_taken"
   ],
   "note": "After a call that raised: C118."
  },
  {
   "property": "C118",
   "status": "partial",
   "theorems": [
    "C118_refused_splitter_kept_refuted",
    "C118_shared_splitter_refuted",
    "C117_links"
   ],
   "note": "False: the setter stores the splitter before asking it."
  },
  {
   "property": "C119",
   "status": "partial",
   "theorems": [
    "C119_governed_twice_refuted",
    "C119_governed",
    "C117_links"
   ],
   "note": "False: with SplitterOneToOneLegacy the mutual call makes two machine vertices."
  },
  {
   "property": "C120",
   "status": "partial",
   "theorems": [
    "C120_twice_refuted",
    "C120_stale_slices_refuted",
    "C112_fixed",
    "C115_again"
   ],
   "note": "False: slices are cached before partitioning, and partitioning twice without reset doubles the machine vertices or gives wrong indices. True for calls in a sensible order: C112, C115."
  },
  {
   "property": "C121",
   "status": "partial",
   "theorems": [
    "C121_set_limit_refuted",
    "C121_accepted_limit"
   ],
   "note": "False: None raises TypeError, and refused limits are stored. Accepted limits: C121_accepted_limit."
  },
  {
   "property": "C122",
   "status": "proved",
   "theorems": [
    "C122_succeeds"
   ],
   "note": ""
  },
  {
   "property": "C123",
   "status": "partial",
   "theorems": [
    "C123_apart_refuted",
    "C123_clash_refuted",
    "C122_succeeds"
   ],
   "note": "False: chips of a target that are not joined (RoutingException), and the whole source with an internal-only sender asked for on one chip (an entry for both raises). Sufficient conditions: C122."
  },
  {
   "property": "C124",
   "status": "proved",
   "theorems": [
    "C124_delivered",
    "C124_nothing_else",
    "C124_once"
   ],
   "note": ""
  },
  {
   "property": "C125",
   "status": "proved",
   "theorems": [
    "C125_pair",
    "C125_range",
    "C125_range_fits",
    "C125_range_made"
   ],
   "note": ""
  },
  {
   "property": "C126",
   "status": "proved",
   "theorems": [
    "C126_covering"
   ],
   "note": ""
  },
  {
   "property": "C127",
   "status": "proved",
   "theorems": [
    "C127_succeeds"
   ],
   "note": ""
  },
  {
   "property": "C128",
   "status": "partial",
   "theorems": [
    "C128_merged_covering_refuted",
    "C128_mapped_refuted",
    "C128_same_flags_partial",
    "C128_fixed_keys_partial",
    "C128_mapped_partial",
    "C128_mapped_fixed_keys_partial",
    "C126_covering"
   ],
   "note": "False: on a chip where packets of one machine vertex go straight through and those of the next start, the merged entry is marked defaultable and left out, so that the latter are lost. True when on each chip the machine vertices of an application vertex with one route agree about going straight through, and for the basic generator: C126."
  },
  {
   "property": "C129",
   "status": "partial",
   "theorems": [
    "C129_range_pair_refuted",
    "C125_pair",
    "C125_range"
   ],
   "note": "False: with eight single keys the first goes to the wrong core. True for each compressor alone: C125."
  },
  {
   "property": "C130",
   "status": "proved",
   "theorems": [
    "C130_succeeds"
   ],
   "note": ""
  },
  {
   "property": "C131",
   "status": "proved",
   "theorems": [
    "C131_delivered",
    "C131_only_targets",
    "C131_pair",
    "C131_range",
    "C131_covering"
   ],
   "note": ""
  },
  {
   "property": "C132",
   "status": "proved",
   "theorems": [
    "C132_add",
    "C132_given_distinct",
    "C132_given_iff",
    "C132_found",
    "C132_missing",
    "C132_partitions",
    "C132_check",
    "C132_single",
    "C132_iter",
    "C132_len",
    "C132_allocated"
   ],
   "note": ""
  },
  {
   "property": "C133",
   "status": "partial",
   "theorems": [
    "C133_lookup_changes_refuted",
    "C133_lookups_partial"
   ],
   "note": "False: get_partitions_from, get_info_from, get_key_from and the deprecated lookup of a vertex with no routing information add it to the default dictionary, after which get_single_info_from raises KeyError (\"more than one outgoing partition\") instead of returning None and the length has grown. True for every other answer; iteration keeps the items but may change the order of vertices."
  },
  {
   "property": "C134",
   "status": "partial",
   "theorems": [
    "C134_len_refuted",
    "C134_len_partial"
   ],
   "note": "False: the length is the number of vertices added or looked up."
  },
  {
   "property": "C135",
   "status": "proved",
   "theorems": [
    "C135_keys",
    "C135_all",
    "C135_too_many",
    "C135_allocated"
   ],
   "note": ""
  },
  {
   "property": "C136",
   "status": "partial",
   "theorems": [
    "C136_no_keys_refuted",
    "C136_no_keys_partial"
   ],
   "note": "False when the mask has no zeros: the key is written to an empty array (IndexError). True for every other mask."
  },
  {
   "property": "C137",
   "status": "proved",
   "theorems": [
    "C137_key_used",
    "C137_delivered",
    "C137_nothing_else",
    "C137_once"
   ],
   "note": ""
  },
  {
   "property": "C138",
   "status": "proved",
   "theorems": [
    "C138_pair",
    "C138_range",
    "C138_covering"
   ],
   "note": ""
  },
  {
   "property": "C139",
   "status": "partial",
   "theorems": [
    "C139_merged_fixed_refuted",
    "C137_delivered"
   ],
   "note": "False: two machine vertices with fixed keys 0x20 and 0x50 of the allocator's mask in one partition; the merged entry covers the wrong keys and packets with key 0x50 are lost. True under the condition of C137."
  },
  {
   "property": "C140",
   "status": "proved",
   "theorems": [
    "C140_key_used",
    "C140_delivered",
    "C140_pair",
    "C140_range",
    "C140_covering"
   ],
   "note": ""
  },
  {
   "property": "C141",
   "status": "proved",
   "theorems": [
    "C141_last_set",
    "C141_refused"
   ],
   "note": ""
  },
  {
   "property": "C142",
   "status": "proved",
   "theorems": [
    "C142_plan",
    "C142_accepted"
   ],
   "note": ""
  },
  {
   "property": "C143",
   "status": "proved",
   "theorems": [
    "C143_required",
    "C143_accepted"
   ],
   "note": ""
  },
  {
   "property": "C144",
   "status": "proved",
   "theorems": [
    "C144_monitor_sdram"
   ],
   "note": "Costs without shared parts; sums of shared costs are C40."
  },
  {
   "property": "C145",
   "status": "proved",
   "theorems": [
    "C145_edges",
    "C145_hard_reset",
    "C145_setup",
    "C145_n_machine_vertices",
    "C145_mapping",
    "C145_index"
   ],
   "note": ""
  },
  {
   "property": "C146",
   "status": "partial",
   "theorems": [
    "C146_setup_forgets_refuted",
    "C146_setup_forgets_partial"
   ],
   "note": "False: setup makes a new graph without resetting the vertices of the old one, so that an old vertex added to the new graph still has its machine vertices. True after a hard reset with the vertex in the graph."
  },
  {
   "property": "C147",
   "status": "partial",
   "theorems": [
    "C147_index_refuted",
    "C145_index"
   ],
   "note": "False: remembering a machine vertex again sets its index to the number of machine vertices, while its place does not change. True if each is remembered once."
  },
  {
   "property": "C148",
   "status": "proved",
   "theorems": [
    "C148_shape",
    "C148_range",
    "C148_pair",
    "C148_covering"
   ],
   "note": ""
  },
  {
   "property": "C149",
   "status": "proved",
   "theorems": [
    "C149_range",
    "C149_pair",
    "C149_covering"
   ],
   "note": "Ordered covering on the tables of basic_routing_table_generator only; see C128 for merged tables."
  },
  {
   "property": "C150",
   "status": "partial",
   "theorems": [
    "C150_gap_range_refuted",
    "C148_range"
   ],
   "note": "False: three machine vertices with fixed keys 9, 10 with mask 0xFFFFFFFB and 15; the loop of _merge_range never ends. True for masks that are blocks."
  },
  {
   "property": "C151",
   "status": "proved",
   "theorems": [
    "C151_succeeds_iff"
   ],
   "note": ""
  },
  {
   "property": "C152",
   "status": "proved",
   "theorems": [
    "C152_tables",
    "C152_mapped",
    "C152_delivered"
   ],
   "note": ""
  },
  {
   "property": "C153",
   "status": "partial",
   "theorems": [
    "C153_spare_refuted",
    "C151_succeeds_iff"
   ],
   "note": "False: a block is counted for each partition, also for those with fixed keys. With one key 0/0x80000000 fixed, a partition that asks for the other 2^31 keys is refused. The exact condition is C151."
  },
  {
   "property": "C154",
   "status": "proved",
   "theorems": [
    "C154_succeeds_iff",
    "C154_table",
    "C154_round_trip"
   ],
   "note": ""
  },
  {
   "property": "C155",
   "status": "proved",
   "theorems": [
    "C155_read_back",
    "C155_text_identifies",
    "C155_text_iff"
   ],
   "note": ""
  },
  {
   "property": "C156",
   "status": "proved",
   "theorems": [
    "C156_first_place_stays",
    "C156_machine_vertex"
   ],
   "note": ""
  },
  {
   "property": "C157",
   "status": "partial",
   "theorems": [
    "C157_place_changes_refuted",
    "C156_machine_vertex"
   ],
   "note": "False: a machine vertex without a place of its own reports that of its application vertex, and a different place can still be set for it afterwards. Exactly what is reported is C156."
  },
  {
   "property": "C158",
   "status": "proved",
   "theorems": [
    "C158_rounded_iff",
    "C158_rejected",
    "C158_integers"
   ],
   "note": ""
  },
  {
   "property": "C159",
   "status": "proved",
   "theorems": [
    "C159_one_entry_each",
    "C159_few_entries"
   ],
   "note": ""
  },
  {
   "property": "C160",
   "status": "proved",
   "theorems": [
    "C160_source_accepts",
    "C160_source_base",
    "C160_destination_accepts",
    "C160_destination_base",
    "C160_constant_accepts",
    "C160_constant_base"
   ],
   "note": ""
  },
  {
   "property": "C161",
   "status": "proved",
   "theorems": [
    "C161_no_more_merges"
   ],
   "note": ""
  },
  {
   "property": "C162",
   "status": "proved",
   "theorems": [
    "C162_grouped_by_route"
   ],
   "note": ""
  },
  {
   "property": "C163",
   "status": "proved",
   "theorems": [
    "C163_in_order",
    "C163_global"
   ],
   "note": ""
  },
  {
   "property": "C164",
   "status": "proved",
   "theorems": [
    "C164_path",
    "C164_minimal",
    "C164_connected",
    "C164_mapping"
   ],
   "note": ""
  },
  {
   "property": "C165",
   "status": "proved",
   "theorems": [
    "C165_detour",
    "C165_gap",
    "C165_fault",
    "C165_mapping"
   ],
   "note": ""
  },
  {
   "property": "C166",
   "status": "proved",
   "theorems": [
    "C166_is_single"
   ],
   "note": ""
  },
  {
   "property": "C167",
   "status": "partial",
   "theorems": [
    "C167_none_refuted",
    "C167_exact"
   ],
   "note": "False: [None] is not counted as one element, and a None in second place hides what follows. C167_exact says what is returned."
  },
  {
   "property": "C168",
   "status": "proved",
   "theorems": [
    "C168_equal_iff",
    "C168_iptags",
    "C168_hash",
    "C168_sets"
   ],
   "note": ""
  },
  {
   "property": "C169",
   "status": "partial",
   "theorems": [
    "C169_equal_tables_not_found_refuted",
    "C168_hash"
   ],
   "note": "False: the hash of a table is its identity. C168_hash has the other classes."
  },
  {
   "property": "C170",
   "status": "partial",
   "theorems": [
    "C170_transitive_refuted",
    "C102_equality_exact"
   ],
   "note": "False: tables of one row or column are compared by entries only. C102_equality_exact says what equality is."
  },
  {
   "property": "C171",
   "status": "partial",
   "theorems": [
    "C171_comparison_raises_refuted",
    "C168_equal_iff",
    "C168_iptags"
   ],
   "note": "False: IPtagResource reads attributes of whatever it is compared with. The other theorems have all remaining cases."
  },
  {
   "property": "C172",
   "status": "partial",
   "theorems": [
    "C172_disagreeing_labels_refuted",
    "C25_errors"
   ],
   "note": "False: the costs are added on the first chip tried, and the error of the addition ends the placement. C25_errors says when this cannot happen."
  },
  {
   "property": "C173",
   "status": "proved",
   "theorems": [
    "C173_allocate",
    "C173_fixed_routes",
    "C173_basic_tables",
    "C173_merged_tables",
    "C173_validate",
    "C173_searches",
    "C173_router",
    "C173_pair_compress",
    "C173_sdram",
    "C173_covering",
    "C173_splitters"
   ],
   "note": ""
  },
  {
   "property": "C174",
   "status": "proved",
   "theorems": [
    "C174_verified",
    "C174_fits",
    "C174_default"
   ],
   "note": ""
  },
  {
   "property": "C175",
   "status": "partial",
   "theorems": [
    "C175_not_placed_partial",
    "C175_lists_nothing",
    "C175_report_refuted"
   ],
   "note": "False: place_application_graph hands the same Placements object to the placer as its placements and as the system placements, so the report lists no placement and gives every chip as unused. Proved: which application vertices are named as not placed when no group is empty or virtual."
  },
  {
   "property": "C176",
   "status": "partial",
   "theorems": [
    "C176_kept_partial",
    "C176_first_ones_partial",
    "C176_call",
    "C176_unchanged_refuted"
   ],
   "note": "False: the placements made before the failure stay in the object. Proved: whatever was in the object is kept, only vertices of the graph are added, and without fixed locations exactly the vertices before the failing one are, placed as if the graph had only those."
  },
  {
   "property": "C177",
   "status": "proved",
   "theorems": [
    "C177_pair",
    "C177_range",
    "C177_covering"
   ],
   "note": "When the compressors return at all: C03, C04, C09, C90, C92."
  },
  {
   "property": "C178",
   "status": "proved",
   "theorems": [
    "C178_pair",
    "C178_range",
    "C178_covering",
    "C178_accepted_delivers"
   ],
   "note": "exact_delivery is spelled out in C124; for merged tables: C179."
  },
  {
   "property": "C179",
   "status": "partial",
   "theorems": [
    "C179_accepted_merged_refuted",
    "C179_same_flags_partial"
   ],
   "note": "False: the graph of C128; the checker trusts the defaultable flag of the merged entry. True when the members of each merged entry agree."
  },
  {
   "property": "C180",
   "status": "proved",
   "theorems": [
    "C180_exact",
    "C180_fixed_keys",
    "C180_spare",
    "C180_mapped"
   ],
   "note": "The model of the checker is that of C46, C47 and C79."
  },
  {
   "property": "C181",
   "status": "partial",
   "theorems": [
    "C180_spare",
    "C180_exact",
    "C181_device_refuted",
    "C181_full_block_refuted"
   ],
   "note": "False: a device as a target of an edge makes get_placement_of_vertex raise PacmanNotPlacedError, and atoms that use all keys of their block next to another block raise PacmanConfigurationException. C180 says exactly when it is true."
  },
  {
   "property": "C182",
   "status": "proved",
   "theorems": [
    "C182_path",
    "C182_fault",
    "C182_connected",
    "C182_mapping"
   ],
   "note": ""
  },
  {
   "property": "C183",
   "status": "partial",
   "theorems": [
    "C183_no_chips_refuted",
    "C183_chips_set_partial",
    "C114_chips"
   ],
   "note": "False: a graph without vertices, or with devices without connections only, is partitioned onto 0 chips, and 0 is refused with a ValueError. True when some vertex has a machine vertex."
  },
  {
   "property": "C184",
   "status": "proved",
   "theorems": [
    "C184_basic",
    "C184_merged",
    "C184_missing"
   ],
   "note": ""
  },
  {
   "property": "C185",
   "status": "partial",
   "theorems": [
    "C185_asked_without_key_refuted",
    "C124_delivered",
    "C127_succeeds"
   ],
   "note": "False: a splitter of a target may ask for a machine vertex that the splitter of the source does not name as outgoing; the vertex is routed but gets no key, and both generators raise KeyError. True when every vertex asked for is outgoing: C124, C127."
  },
  {
   "property": "C186",
   "status": "partial",
   "theorems": [
    "C186_counts_refuted",
    "C186_zero"
   ],
   "note": "False: vertices are counted only if an earlier group of the same application vertex is placed, but an application vertex is placed as a whole or not at all. Proved: without fixed locations and virtual vertices the line always says 0 of 0, and the vertices listed as not placed are the one that failed and those after it."
  },
  {
   "property": "C187",
   "status": "proved",
   "theorems": [
    "C187_blocks",
    "C187_numbered"
   ],
   "note": ""
  },
  {
   "property": "C188",
   "status": "partial",
   "theorems": [
    "C188_two_keys_refuted",
    "C188_blocks_merged_partial",
    "C188_not_split"
   ],
   "note": "False for blocks of two keys: two neighbouring single keys of one route stay two entries. Proved for all blocks of four or more keys, however they are split, and that no entry of the table is split."
  },
  {
   "property": "C189",
   "status": "proved",
   "theorems": [
    "C189_again",
    "C189_nothing_to_merge"
   ],
   "note": ""
  },
  {
   "property": "C190",
   "status": "partial",
   "theorems": [
    "C190_ordered_refuted",
    "C190_unordered_first_partial"
   ],
   "note": "False in ordered mode, the default: the second run counts the routes anew and can put a covering entry before the one it covers. Proved if the first run was unordered, for any second run."
  },
  {
   "property": "C191",
   "status": "proved",
   "theorems": [
    "C191_pixels",
    "C191_pair",
    "C191_range",
    "C191_covering"
   ],
   "note": ""
  },
  {
   "property": "C192",
   "status": "proved",
   "theorems": [
    "C192_pair",
    "C192_range",
    "C192_covering",
    "C192_accepted_delivers"
   ],
   "note": "all_delivered is spelled out in C140; merged tables that the checker accepts need not deliver: C179."
  },
  {
   "property": "C193",
   "status": "partial",
   "theorems": [
    "C193_too_few_refuted",
    "C193_light_partial"
   ],
   "note": "False: a chip with more SDRAM used than the cap counts as full for the placer, not for the counter. True for vertices that are each an application vertex and need at most s bytes (not shared), where the monitors' SDRAM and k-1 times s stay within the cap."
  },
  {
   "property": "C194",
   "status": "partial",
   "theorems": [
    "C194_share_refused_refuted",
    "C194_light_partial",
    "C194_even_share_partial"
   ],
   "note": "False where the monitors need SDRAM: it is taken off the cap and also counted as used. True with no monitor SDRAM (C194_even_share_partial), and with it when the cap leaves room for it (C194_light_partial)."
  },
  {
   "property": "C195",
   "status": "proved",
   "theorems": [
    "C195_exact"
   ],
   "note": "For an application vertex without shared SDRAM between its machine vertices; each needs at most s bytes and each chip has s bytes left for each free core."
  },
  {
   "property": "C196",
   "status": "partial",
   "theorems": [
    "C196_enough_cores_refuted",
    "C196_connected_partial"
   ],
   "note": "False: full chips can separate the free ones. True where all chips with free cores are linked with each other over such chips."
  },
  {
   "property": "C197",
   "status": "proved",
   "theorems": [
    "C197_only_these",
    "C197_never_placed"
   ],
   "note": "Another exception may come first for a graph that is not supported."
  },
  {
   "property": "C198",
   "status": "partial",
   "theorems": [
    "C198_fixed_device_refuted",
    "C198_without_location_partial"
   ],
   "note": "False with a fixed location: NotImplementedError even for a device, or for a system vertex placed exactly where it is fixed. True without."
  },
  {
   "property": "C199",
   "status": "partial",
   "theorems": [
    "C199_exact_size_refuted",
    "C199_smaller_partial",
    "C51_driver_fits"
   ],
   "note": "False for a table that fills its router exactly; true for smaller ones, and (C51) of the other compressors."
  },
  {
   "property": "C200",
   "status": "partial",
   "theorems": [
    "C200_no_cores_refuted",
    "C200_devices_partial"
   ],
   "note": "False: SplitterExternalDevice adds a core for each virtual vertex. True: never fewer than the vertices on cores need, and at most one chip more for each machine vertex of a device."
  },
  {
   "property": "C201",
   "status": "partial",
   "theorems": [
    "C201_least_refuted",
    "C201_three_times_partial",
    "C201_even_share_partial"
   ],
   "note": "False: the order matters. True: less than three times the least number; exact where no request is over an even share of the SDRAM. C43 has the least number for a given order."
  },
  {
   "property": "C202",
   "status": "proved",
   "theorems": [
    "C202_sorted",
    "C202_again"
   ],
   "note": ""
  },
  {
   "property": "C203",
   "status": "partial",
   "theorems": [
    "C203_default_refuted",
    "C203_matched_partial"
   ],
   "note": "False for the keys of entries that the first run dropped as default routes: the second run may merge over them. True for every packet that matches in the first result."
  },
  {
   "property": "C204",
   "status": "proved",
   "theorems": [
    "C204_range_then_ordered"
   ],
   "note": "Prefix masks (block_mask): what the key allocators make. C91 refutes the like for pair compression."
  },
  {
   "property": "C205",
   "status": "proved",
   "theorems": [
    "C205_delivered",
    "C205_merged"
   ],
   "note": "For keys fixed by the user the masks must be prefixes. The refuted counterpart is C129."
  },
  {
   "property": "C206",
   "status": "proved",
   "theorems": [
    "C206_consistent",
    "C206_compress_table",
    "C206_after_unordered_pair"
   ],
   "note": ""
  },
  {
   "property": "C207",
   "status": "partial",
   "theorems": [
    "C207_pair_then_ordered_refuted",
    "C207_ordered_then_pair_refuted",
    "C207_unordered_first_partial"
   ],
   "note": "False: ordered pair compression followed by ordered covering, and ordered covering followed by pair compression in either mode. True if the pair compressor comes first in unordered mode."
  },
  {
   "property": "C208",
   "status": "partial",
   "theorems": [
    "C208_mapping_refuted",
    "C208_label_refuted",
    "C208_unchanged_partial"
   ],
   "note": "False in two points: the view's add_vertex and add_edge mark mapping as required before the graph refuses, and a vertex refused because it belonged to an earlier graph uses up a number for generated labels. Everything else is unchanged."
  },
  {
   "property": "C209",
   "status": "proved",
   "theorems": [
    "C209_table",
    "C209_delivered",
    "C209_merged"
   ],
   "note": "The refuted counterpart for the ordered mode is C207."
  },
  {
   "property": "C210",
   "status": "partial",
   "theorems": [
    "C210_virtual_refuted",
    "C210_exact_partial"
   ],
   "note": "False: an application vertex whose first group begins with a virtual vertex is never named, even if none of its real vertices is placed. Proved instead, for all graphs without empty groups: the report is written, and the application vertices named are exactly those with a group whose first vertex is real and not placed while all groups before it begin with a real vertex that is placed. Missing: the vertices after a virtual one (false)."
  },
  {
   "property": "C211",
   "status": "partial",
   "theorems": [
    "C211_all_unused",
    "C211_used_refuted",
    "C211_colours_partial"
   ],
   "note": "False of the picture that the placer draws: the placements it adds to and the system placements are the same object, so every chip is shown as unused. Proved: that this is so for every graph, and that draw_placements is right for two separate objects of which the first has all placements of the second. Missing: the claim for the calls in application_placer.py (false)."
  },
  {
   "property": "C212",
   "status": "partial",
   "theorems": [
    "C212_stranger_refuted",
    "C212_two_edges_refuted",
    "C212_destination_partial",
    "C212_source_region_partial",
    "C212_destination_region_partial"
   ],
   "note": "False in two points: source-segmented and constant partitions report a region for any vertex, also one that is not in the partition, and a destination-segmented one reports only the first segment if two edges go to the same vertex. Proved: a destination-segmented partition answers for its own vertices only; the region is that of the edges of the vertex if no vertex is both source and destination and (destination-segmented) no two edges have the same destination. Missing: those cases (false)."
  },
  {
   "property": "C213",
   "status": "partial",
   "theorems": [
    "C213_no_vertices_refuted",
    "C213_no_points_refuted",
    "C213_one_dimension_partial",
    "C213_negative_partial",
    "C213_positive_partial"
   ],
   "note": "False: negative limits are accepted; with one (or an odd number) partitioning succeeds and the vertex has no machine vertices, with two the slices have negative sizes. Proved: what every limit does in one dimension, that an odd number of negative limits always gives no slices, and the claim for positive limits. Missing: negative limits (false)."
  },
  {
   "property": "C214",
   "status": "partial",
   "theorems": [
    "C214_no_cores_refuted",
    "C214_packing_partial"
   ],
   "note": "False if the monitors leave no core: the number of free cores becomes -1 and is never 0 again, so that one chip is counted for any number of vertices that fit its SDRAM. Proved: the claim whenever at least one core is left, without any bound on the requests. Missing: no core left (false)."
  }
 ]
}
{"id": "C01", "title": "Key/mask intersection test is exact", "statement": "For two routing entries whose keys lie inside their masks, intersect(a,b) is True exactly when at least one 32-bit packet key is matched by both entries; merge(a,b) yields an entry that matches every key matched by a or b, whose key lies in its mask, and whose mask keeps every bit on which a and b agree.", "quantifier": "all pairs of key/mask pairs with key inside mask, all packet keys", "why_tests_cant": "2^128 pairs of entries; the claim is an equivalence with an existential over packet keys", "anchors": ["pacman/operations/router_compressors/pair_compressor.py:_PairCompressor.intersect,merge", "pacman/operations/router_compressors/ordered_covering_router_compressor/utils.py:intersect"]}
{"id": "C02", "title": "Pair compression preserves routing", "statement": "For every routing table whose entries are pairwise disjoint, each packet key matched by some original entry is sent by the first matching entry of PairCompressor.compress_table's result to exactly the original route (processors and links).", "quantifier": "all orthogonal tables of any size, all targets, all packet keys", "why_tests_cant": "the set of tables and keys is unbounded; a wrong merge only shows on one key of one table", "anchors": ["pacman/operations/router_compressors/pair_compressor.py:_PairCompressor.compress_table,_find_merge,_compress_by_route"]}
{"id": "C03", "title": "Pair compression never grows a table", "statement": "For a table whose entries send each key to one route and that has no more distinct routes than the router has entries, compress_table returns a table with at most as many entries as the input, each with key inside mask and with a route of the input; with more distinct routes it always raises IndexError.", "quantifier": "all consistent tables, all router sizes, every sort and both modes", "why_tests_cant": "needs every number of distinct routes against every router capacity", "anchors": ["pacman/operations/router_compressors/pair_compressor.py:_PairCompressor.compress_table,_update_frequency"]}
{"id": "C04", "title": "Range compression preserves routing", "statement": "For every uncompressed table of contiguous-mask entries accepted by the range compressor's own validation, the first matching entry in the result gives each originally matched packet key its original route; a table it refuses is returned unchanged.", "quantifier": "all tables with contiguous masks, all packet keys", "why_tests_cant": "depends on arithmetic alignment of arbitrary runs of keys", "anchors": ["pacman/operations/router_compressors/ranged_compressor.py:RangeCompressor.compress_table,_merge_range,_validate"]}
{"id": "C05", "title": "Range compression overlaps only at last keys", "statement": "In the table produced by the range compressor an entry of another route overlaps an original entry in at most one key, the last key of that entry; for every other key of the original table the result can be read in any order.", "quantifier": "all tables accepted by the range compressor", "why_tests_cant": "the overlap only arises at particular alignments of a run against its predecessor", "anchors": ["pacman/operations/router_compressors/ranged_compressor.py:RangeCompressor._merge_range", "pacman/operations/router_compressors/abstract_compressor.py:AbstractCompressor.compress_all_tables"]}
{"id": "C06", "title": "Range compression terminates", "statement": "RangeCompressor.compress_table finishes on every non-empty table with contiguous masks, and the result has no more entries than the table.", "quantifier": "all non-empty tables with contiguous masks", "why_tests_cant": "non-termination cannot be observed by a finite test and needs special mask/neighbour combinations", "anchors": ["pacman/operations/router_compressors/ranged_compressor.py:RangeCompressor._merge_range"]}
{"id": "C07", "title": "Removing default routes is safe", "statement": "remove_default_routes returns a subsequence of the table from which only defaultable entries were dropped; every packet key whose first match was not defaultable keeps exactly that first match, and every other key either keeps its first match or matches nothing (and is default routed); the cheap alias shortcut never drops an entry the full check would keep; with a positive target length it fails exactly when the reduced table is longer.", "quantifier": "all tables (also overlapping ones), all positive targets, all packet keys", "why_tests_cant": "first-match semantics over all keys of all overlapping tables", "anchors": ["pacman/operations/router_compressors/ordered_covering_router_compressor/utils.py:remove_default_routes"]}
{"id": "C08", "title": "Ordered covering preserves routing", "statement": "For every table with pairwise disjoint entries, each originally matched packet key is routed to its original route by the first match of the table returned by ordered_covering, whatever sequence of merges the heuristics choose.", "quantifier": "all orthogonal tables, all packet keys, all merge sequences", "why_tests_cant": "correctness relies on an invariant over an unbounded sequence of merges and alias bookkeeping", "anchors": ["pacman/operations/router_compressors/ordered_covering_router_compressor/ordered_covering.py:ordered_covering,_Merge.apply,_refine_downcheck,_refine_upcheck"]}
{"id": "C09", "title": "Ordered covering terminates, shrinks and stays sorted", "statement": "ordered_covering terminates on every non-empty table, never returns more entries than it was given, returns entries in non-decreasing order of generality, and when given a target either stops at or below the target or only when nothing is left to merge: where several entries of one route remain, any entry that covers them all has a key of an original entry of another route, or would come behind an entry that shares keys with one of them.", "quantifier": "all tables of disjoint entries with 32-bit masks, all targets", "why_tests_cant": "termination and sortedness are statements about every run of the refinement loops", "anchors": ["pacman/operations/router_compressors/ordered_covering_router_compressor/ordered_covering.py:ordered_covering,get_generality,_get_insertion_index"]}
{"id": "C10", "title": "The compression checker accepts only faithful tables", "statement": "If compare_tables(original, compressed) does not raise and no two entries of the compressed table have the same key and mask, then each packet key matched by an original entry is, in the compressed table read in order, sent to the same processors and links, or matches nothing while the original entry is defaultable.", "quantifier": "all pairs of tables without repeated pairs in the compressed one, all packet keys", "why_tests_cant": "2^32 keys per entry; the checker is the only oracle users have", "anchors": ["pacman/operations/router_compressors/routing_compression_checker.py:compare_tables,compare_route,calc_remainders,covers,codify"]}
{"id": "C11", "title": "The compression checker accepts every faithful compression that keeps entries non-default", "statement": "If every key of every original entry either has, in the compressed table (no two entries with the same key and mask), a first match with the same processors and links that is not defaultable unless the original entry is, or has no match while the original entry is defaultable, compare_tables does not raise.", "quantifier": "all pairs of tables", "why_tests_cant": "completeness quantifies over all correct tables", "anchors": ["pacman/operations/router_compressors/routing_compression_checker.py:compare_route"]}
{"id": "C12", "title": "Remainders after partial cover are exact", "statement": "For ternary codes o and c of equal length, covers(o,c) is True exactly when they have a common key, and then the codes returned by calc_remainders(o,c) together match exactly the keys matched by o and not by c.", "quantifier": "all pairs of ternary codes of any length", "why_tests_cant": "all lengths and codes", "anchors": ["pacman/operations/router_compressors/routing_compression_checker.py:calc_remainders,covers,codify"]}
{"id": "C13", "title": "Key ranges enumerate exactly the matching keys", "statement": "get_key_ranges(key, mask) yields ranges (base,n) that are pairwise disjoint, all of the same size, whose union is exactly the set of 32-bit keys matching key/mask.", "quantifier": "all key/mask pairs with key inside mask", "why_tests_cant": "2^64 inputs and a set equality on each", "anchors": ["pacman/utilities/utility_calls.py:get_key_ranges"]}
{"id": "C14", "title": "Enumerating the keys of a key and mask", "statement": "BaseKeyAndMask.get_keys without an array returns, for any positive limit, distinct keys in increasing order that all match the mask and have no gaps; without a limit every matching key is returned; the reported count is the number of keys returned, min(limit,total). With an array it writes the same keys at the offset and leaves the other cells alone, or raises IndexError exactly when they do not fit. utility get_keys returns base + i * 2^shift for each atom, all in the base's block.", "quantifier": "all key/mask pairs, offsets, arrays and positive limits", "why_tests_cant": "set equality for all masks", "anchors": ["pacman/model/routing_info/base_key_and_mask.py:BaseKeyAndMask.get_keys,n_keys", "pacman/utilities/utility_calls.py:get_keys"]}
{"id": "C15", "title": "Bit arrays round trip", "statement": "compress_from_bit_array(expand_to_bit_array(v)) = v for every 32-bit v and the converse for every array of 32 bits, and compress_bits_from_bit_array extracts exactly the selected bits in order for every non-empty list of positions.", "quantifier": "all 32-bit words and non-empty bit position lists", "why_tests_cant": "2^32 words times all position lists", "anchors": ["pacman/utilities/utility_calls.py:expand_to_bit_array,compress_from_bit_array,compress_bits_from_bit_array"]}
{"id": "C16", "title": "Allocated keys never clash", "statement": "When ZonedRoutingInfoAllocator succeeds, no 32-bit key is in the range allocated to two different machine vertices/partitions, every range is an aligned block within 32 bits holding at least the requested number of keys, and it lies inside the range of its application vertex/partition, which is disjoint from those of other partitions; without fixed keys it succeeds exactly when the fields fit in 32 bits. (For partitions in which some machine vertex asks for a key, when each fixed partition has a machine vertex.)", "quantifier": "all such graphs, key counts and both flexible and global modes", "why_tests_cant": "key layouts depend on all sizes simultaneously", "anchors": ["pacman/operations/routing_info_allocator_algorithms/zoned_routing_info_allocator.py:ZonedRoutingInfoAllocator.__call__,__allocate,__calculate_zones,__check_zones"]}
{"id": "C17", "title": "Allocated keys avoid user-fixed keys", "statement": "No key allocated automatically by ZonedRoutingInfoAllocator lies in the key space of a user-fixed key and mask, in flexible mode, and in global mode when one partition is largest in both fields; and every user-fixed key is the one allocated.", "quantifier": "all graphs with any set of fixed keys", "why_tests_cant": "only particular combinations of field widths collide", "anchors": ["pacman/operations/routing_info_allocator_algorithms/zoned_routing_info_allocator.py:ZonedRoutingInfoAllocator.__set_fixed_used,__check_zones,__allocate"]}
{"id": "C18", "title": "Merging machine entries matches exactly the merged machine vertices", "statement": "The key/mask pairs yielded by AppVertexRoutingInfo.merge_machine_entries match every key of each machine vertex in the group, no key of any machine vertex of the application vertex outside the group, and no key outside the application key.", "quantifier": "all runs of machine indexes, field widths and machine vertex counts", "why_tests_cant": "alignment arithmetic for all runs", "anchors": ["pacman/model/routing_info/app_vertex_routing_info.py:AppVertexRoutingInfo.merge_machine_entries"]}
{"id": "C19", "title": "Merged tables route exactly like basic tables", "statement": "For the same partition routes and routing info from the zoned allocator (partitions without fixed keys, or with fixed keys whose machine masks differ from the machine mask), every packet key of every source gets the same route (processors, links) from merged_routing_table_generator's table as from basic_routing_table_generator's, the merged table has no more entries, and its entries stay pairwise disjoint.", "quantifier": "all sets of partition entries and allocations", "why_tests_cant": "depends on order and grouping of arbitrarily many sources", "anchors": ["pacman/operations/routing_table_generators/merged_routing_table_generator.py:merged_routing_table_generator", "pacman/operations/routing_table_generators/basic_routing_table_generator.py:basic_routing_table_generator"]}
{"id": "C20", "title": "One-dimensional slicing partitions the atoms", "statement": "get_single_dimension_slices / SplitterFixedLegacy yield slices that are non-empty, consecutive, at most max_atoms_per_core long and together contain each atom 0..n_atoms-1 exactly once.", "quantifier": "all atom counts and core limits", "why_tests_cant": "all n and max", "anchors": ["pacman/utilities/algorithm_utilities/partition_algorithm_utilities.py:get_single_dimension_slices"]}
{"id": "C21", "title": "Multi-dimensional slicing partitions the grid", "statement": "get_multidimensional_slices yields hyper-rectangles within the grid that are pairwise disjoint, cover every grid point, have at most the per-dimension maximum in each dimension and consecutive lo/hi atom numbers covering 0..n_atoms-1.", "quantifier": "all dimensions, shapes and per-dimension limits accepted by the vertex", "why_tests_cant": "any number of dimensions", "anchors": ["pacman/utilities/algorithm_utilities/partition_algorithm_utilities.py:get_multidimensional_slices", "pacman/model/graphs/application/application_vertex.py:__check_atoms_per_core"]}
{"id": "C22", "title": "Raster and key order are inverse permutations", "statement": "get_key_ordered_indices and get_raster_ordered_indices map 0..n_atoms-1 to itself and are mutually inverse; the key-ordered index of an atom equals its slice's lo_atom plus its offset in the slice.", "quantifier": "all shapes, limits and index arrays", "why_tests_cant": "bijectivity over all multi-dimensional shapes", "anchors": ["pacman/model/graphs/application/application_vertex.py:ApplicationVertex.get_key_ordered_indices,get_raster_ordered_indices"]}
{"id": "C23", "title": "Slice-relative and raster indices are inverse", "statement": "For an MDSlice, get_raster_indices(get_relative_indices(r)) = r for each raster index r in the slice and vice versa; relative indices are exactly 0..n_atoms-1.", "quantifier": "all slices and index arrays", "why_tests_cant": "all shapes/starts", "anchors": ["pacman/model/graphs/common/mdslice.py:MDSlice.get_relative_indices,get_raster_indices"]}
{"id": "C24", "title": "Placements is a one-to-one map", "statement": "After any sequence of add_placement calls each vertex has at most one location and each processor at most one vertex; lookups by vertex and by processor agree; an add is accepted exactly when its processor and its vertex are both new, and a rejected add leaves the container unchanged.", "quantifier": "all histories of calls", "why_tests_cant": "all interleavings of queries and adds", "anchors": ["pacman/model/placements/placements.py:Placements.add_placement,get_placement_on_processor,chips_with_placements"]}
{"id": "C25", "title": "The placer never double-books a core", "statement": "When place_application_graph succeeds, no two placements share a core, all system placements are kept, and every other placement is on an existing chip and one of its placable cores. When links lead to existing chips, system placements are on placable cores and groups neither mix virtual and real vertices nor share vertices, a failure is one of the documented exceptions (never an occupied core, a vertex placed twice, a missing key or an empty list), 'too big to place' is raised only for a group that does not fit on a chip without other vertices, and a configuration error only when there are fixed locations or SDRAM costs that do not fit together.", "quantifier": "all machines, graphs, monitor cores and fixed locations", "why_tests_cant": "depends on the whole history of allocation and back-tracking", "anchors": ["pacman/operations/placer_algorithms/application_placer.py:ApplicationPlacer.do_placements,_place_vertex,_prepare_placements"]}
{"id": "C26", "title": "The placer respects chip SDRAM", "statement": "When placement succeeds, costs with the same shared label agree and each group asks for the sum of the SDRAM of its vertices (or more), then on each chip on which the placer put a vertex without a fixed location the SDRAM costs of all placed vertices, monitors included, can be added up and their total for the planned timesteps, shared parts counted once, does not exceed the chip's SDRAM.", "quantifier": "all machines, plans and SDRAM requirements", "why_tests_cant": "cumulative over all vertices on a chip", "anchors": ["pacman/operations/placer_algorithms/application_placer.py:ApplicationPlacer._space_on_chip,_prepare_placements"]}
{"id": "C27", "title": "Placement is complete or fails cleanly", "statement": "place_application_graph terminates; on success every real machine vertex of a group has exactly one placement; the real vertices of a group are on one chip; and a vertex with a fixed location is exactly there if the fixed locations of its group agree on the chip; otherwise an exception is raised.", "quantifier": "all graphs and machines", "why_tests_cant": "termination and completeness over all search histories", "anchors": ["pacman/operations/placer_algorithms/application_placer.py:ApplicationPlacer.do_placements,_place_vertex,_do_fixed_location"]}
{"id": "C28", "title": "The placer does not lose chips", "statement": "From one of the chips used for an application vertex without fixed locations all of them can be reached over links between chips used for it; and after any sequence of application vertices, one more with a single group is placed whenever some chip has enough free cores and SDRAM and its used SDRAM is not above the cap: chips tried and rejected before stay available.", "quantifier": "all machines and vertex sequences", "why_tests_cant": "history-dependent bookkeeping over the queues", "anchors": ["pacman/operations/placer_algorithms/application_placer.py:ApplicationPlacer._get_next_start,_get_next_chip_with_space,_pop_neighbour"]}
{"id": "C29", "title": "Longest-dimension-first routes reach their target", "statement": "longest_dimension_first(vector,start) returns a path whose consecutive chips are joined by the named link direction, of length |x|+|y|+|z|, ending at start plus the vector (with machine wrap-around).", "quantifier": "all vectors, starts and machine sizes", "why_tests_cant": "unbounded vectors and wrap-around", "anchors": ["pacman/utilities/algorithm_utilities/routing_algorithm_utilities.py:longest_dimension_first,vector_to_nodes"]}
{"id": "C30", "title": "Removing loops from a path keeps it a path", "statement": "Given a connected path, possibly with loops, in which no chip that lies inside a loop is visited again after that loop, the application router's loop removal (applied to every route between chips) returns a connected path made of steps of the original, with the same end chip and no repeated chip; a path without loops is returned unchanged.", "quantifier": "all paths", "why_tests_cant": "needs particular nesting of loops", "anchors": ["pacman/operations/router_algorithms/application_router.py:_path_without_loops,_route_pre_to_post"]}
{"id": "C31", "title": "Routes around dead links are valid paths", "statement": "The path that the application router gets by putting detours into the direct path only uses working links between existing chips and starts/ends at the requested chips, and so does the path left after loops are removed when no chip inside a loop is visited again after it; a detour is found whenever one exists, the only exception raised is that of a detour that does not exist, on a machine in which every chip reaches every other chip nothing is raised, and a direct path without faults is used as it is.", "quantifier": "all machines with dead chips/links and all end points", "why_tests_cant": "all fault patterns", "anchors": ["pacman/operations/router_algorithms/application_router.py:_path_without_errors,_find_path,_is_ok"]}
{"id": "C32", "title": "Breadth-first multi-target routing reaches every target", "statement": "Routing from a chip to a set of target chips inside a chip region raises exactly when some target cannot be reached through the region; otherwise it builds (or extends) a routing tree rooted at the first chip (or at the root it had) in which each target is reached along working links, without cycles and without dead ends.", "quantifier": "all machines, chip sets and targets", "why_tests_cant": "all graphs", "anchors": ["pacman/operations/router_algorithms/application_router.py:_route_to_xys"]}
{"id": "C33", "title": "Routing trees become complete table entries", "statement": "The per-chip entries made from a routing tree send a packet along every branch: following links from the source chip visits exactly the tree's chips and delivers to exactly the tree's processors/links; nothing else is reached.", "quantifier": "all routing trees", "why_tests_cant": "unbounded trees", "anchors": ["pacman/operations/router_algorithms/application_router.py:_convert_a_route", "pacman/operations/router_algorithms/application_router.py:_add_routing_entry"]}
{"id": "C34", "title": "Targets of one source do not leak to another", "statement": "In the application router, every core or link added on a target chip for a machine vertex or its application vertex is among the targets recorded for the machine vertex; and if no machine vertex is added after its application vertex (as on chips with sources, or where application vertices and their machine vertices are not mixed), the targets recorded for a machine vertex contain only targets added for it or its application vertex.", "quantifier": "all sequences of target additions", "why_tests_cant": "aliasing bugs only show for particular orders of additions", "anchors": ["pacman/operations/router_algorithms/application_router.py:_Targets.add_sources_for_target,add_machine_sources_for_target"]}
{"id": "C35", "title": "Routes by partition accumulate consistently", "statement": "After any sequence of add_path_entry calls, the entry for (router, source, partition) is the union of the links/processors of all entries added for it; a router never holds both an entry for an application vertex and one for its machine vertices on the same partition; conflicting adds raise.", "quantifier": "all histories of additions", "why_tests_cant": "histories", "anchors": ["pacman/model/routing_table_by_partition/multicast_routing_table_by_partition.py:MulticastRoutingTableByPartition.add_path_entry"]}
{"id": "C36", "title": "Fixed routes lead to the Ethernet chip", "statement": "When fixed_route_router succeeds, from each chip of each board following the chip's fixed route over working links reaches the board's Ethernet chip in finitely many steps, and the Ethernet chip delivers to the monitor core; each chip has exactly one route; if some chip cannot reach it an exception is raised.", "quantifier": "all machines with any dead links/chips", "why_tests_cant": "all fault patterns", "anchors": ["pacman/operations/fixed_route_router/fixed_route_router.py:FixedRouteRouter._route_board,build_fixed_routes"]}
{"id": "C37", "title": "Tags are unique per board", "statement": "When basic_tag_allocator succeeds, every IP tag and reverse IP tag request of every vertex has a tag as asked for (address, port, stripping, traffic, fixed tag, placement of the vertex), no (board, tag) is given twice, be it to IP or reverse IP tags, and reverse tags on one board use distinct ports; when it fails it raises only PacmanNotFoundError or PacmanInvalidParameterException.", "quantifier": "all vertex sets and tag requests", "why_tests_cant": "all orders and combinations", "anchors": ["pacman/operations/tag_allocator_algorithms/basic_tag_allocator.py:basic_tag_allocator", "pacman/model/tags/tags.py:Tags.add_ip_tag,add_reverse_ip_tag"]}
{"id": "C38", "title": "Tag allocation falls back to other boards", "statement": "If a vertex's own board has no free tag but another board has, an IP tag request is satisfied from the other board; it fails only if no board has a suitable free tag, and uses the own board if that has one.", "quantifier": "all machines with at least two boards and all requests", "why_tests_cant": "needs exhaustion of one board", "anchors": ["pacman/operations/tag_allocator_algorithms/basic_tag_allocator.py:basic_tag_allocator,__get_chip_and_tag"]}
{"id": "C39", "title": "SDRAM costs add up", "statement": "For constant, variable and multi-region SDRAM, the fixed and per-timestep costs of a sum are the sums of those costs; when per-timestep costs are whole numbers the total of a sum is the sum of the totals for every number of timesteps (and for an unlimited run), and otherwise it is at most that and at most one byte less; addition is commutative and associative in observable totals; SDRAM values that compare equal have equal costs and totals.", "quantifier": "all SDRAM values and timestep counts", "why_tests_cant": "algebraic laws", "anchors": ["pacman/model/resources/constant_sdram.py", "pacman/model/resources/variable_sdram.py", "pacman/model/resources/multi_region_sdram.py"]}
{"id": "C40", "title": "Shared SDRAM is counted once", "statement": "Summing the SDRAM of several vertices on a chip counts each shared label once and everything else fully, and the result does not depend on the order in which they are added; when the sum succeeds all costs given for one label are the same, and it is rejected only when two costs under one label compare as different.", "quantifier": "all multisets of SDRAM requirements", "why_tests_cant": "all orders", "anchors": ["pacman/model/resources/shared_sdram.py:SharedSDRAM"]}
{"id": "C41", "title": "Region costs always sum to the total", "statement": "In any history of add_cost, nest and merge on any number of MultiRegionSDRAM objects in which an object given to nest or merge is not used afterwards, no call raises, the region costs of every other object add up to its reported total, that total is the sum of everything charged to it, and each region reports everything charged to that region.", "quantifier": "all histories over several objects", "why_tests_cant": "needs aliasing between objects", "anchors": ["pacman/model/resources/multi_region_sdram.py:MultiRegionSDRAM.nest,merge,add_cost"]}
{"id": "C42", "title": "SDRAM edge segments are disjoint", "statement": "After the base address of a source- or destination-segmented SDRAM partition is set, the segments of its edges are pairwise disjoint, consecutive, and fill exactly [base, base+total).", "quantifier": "all partitions and sizes", "why_tests_cant": "any number of edges", "anchors": ["pacman/model/graphs/machine/source_segmented_sdram_machine_partition.py", "pacman/model/graphs/machine/destination_segmented_sdram_machine_partition.py", "pacman/model/graphs/machine/constant_sdram_machine_partition.py"]}
{"id": "C43", "title": "The chip counter's estimate is a feasible packing", "statement": "After any sequence of add_core calls, n_chips chips with the default core and SDRAM limits (when no single request exceeds a chip) suffice to hold the cores in the order added, no smaller number of chips does so in that order, and it never decreases.", "quantifier": "all sequences of requests", "why_tests_cant": "histories", "anchors": ["pacman/utilities/utility_objs/chip_counter.py:ChipCounter.add_core"]}
{"id": "C44", "title": "Vertices stay in the graph under unique labels", "statement": "If no label chosen by the user ends with a digit, then after any sequence of graph calls every vertex passed to add_vertex is enumerated exactly once by the graph, all labels are different, each vertex is found by its label, and only a second add of the same vertex is refused.", "quantifier": "all sequences of labelled and unlabelled vertices", "why_tests_cant": "generated labels may collide with user labels", "anchors": ["pacman/model/graphs/application/application_graph.py:ApplicationGraph.add_vertex"]}
{"id": "C45", "title": "Edges are kept in the partition of their pre-vertex and identifier", "statement": "After any sequence of graph calls there is at most one partition per (pre-vertex, identifier); it holds exactly once, in order, each edge from this vertex accepted under this identifier; the counts and the list of edges agree with the accepted calls; an edge is refused exactly when a vertex label is unknown or the edge is already in that partition.", "quantifier": "all histories", "why_tests_cant": "histories", "anchors": ["pacman/model/graphs/application/application_graph.py:ApplicationGraph.add_edge,_add_outgoing_edge_partition"]}
{"id": "C46", "title": "The route validity checker accepts only complete routes", "statement": "If validate_routes does not raise, and no entry leads to a chip without a table, packets with the first key of each source reach exactly the required destinations without entering a router twice; so do packets with the keys of all its atoms if the masks are contiguous (or, away from the source's chip, the entries are disjoint). The trace ends for all tables.", "quantifier": "all tables, placements and sources", "why_tests_cant": "all tables", "anchors": ["pacman/operations/multi_cast_router_check_functionality/valid_routes_checker.py:validate_routes,_search_route,_recursive_trace_to_destinations"]}
{"id": "C47", "title": "The route validity checker accepts correct routes", "statement": "When tracing a route, the checker uses the entry the router uses, and refuses a table exactly if an entry with a contiguous mask matches some but not all keys of the source and its successor; tables that deliver a source's keys to exactly the required cores, without such entries, are accepted.", "quantifier": "all tables and sources", "why_tests_cant": "off-by-one at the end of a key range", "anchors": ["pacman/operations/multi_cast_router_check_functionality/valid_routes_checker.py:_locate_routing_entry"]}
{"id": "C48", "title": "2D device keys identify sub-rectangles and pixels", "statement": "For an Abstract2DDeviceVertex whose sizes are accepted, keys/masks of different sub-rectangles are disjoint; with more than one sub-rectangle in each direction the key of each pixel matches exactly the sub-rectangle containing it; the raster ids of the slices are exactly the pixels of their rectangles, so that every pixel is in one slice.", "quantifier": "all widths, heights and sub sizes accepted", "why_tests_cant": "all sizes", "anchors": ["pacman/model/graphs/application/abstract/abstract_2d_device_vertex.py"]}
{"id": "C49", "title": "JSON round trips", "statement": "Converting IP tag and reverse IP tag resources, and lists of them, to JSON and back yields equal values; a placement comes back with the label of its vertex and its location; the JSON of a key and mask determines them.", "quantifier": "all values", "why_tests_cant": "all values", "anchors": ["pacman/utilities/json_utils.py"]}
{"id": "C50", "title": "Virtual device slices tile the atoms", "statement": "The slices of an FPGA device with n atoms and m machine vertices per link tile the first m*(n/m) atoms with m slices per link; those of a SpiNNaker-link device tile all n atoms with m slices when ceil(n/m)*(m-1) < n; in the other cases a ValueError is raised.", "quantifier": "all atom counts and numbers of machine vertices", "why_tests_cant": "all divisions", "anchors": ["pacman/model/graphs/application/application_fpga_vertex.py:get_incoming_slice_for_link", "pacman/model/graphs/application/application_spinnaker_link_vertex.py:get_incoming_slice"]}
{"id": "C51", "title": "Compressed tables fit or an error is raised", "statement": "compress_all_tables of a new ordered compressor that does not accept overflow either returns, for each chip with a table, exactly one table with at most the chip's available entries - the very table given if it fits and compression is only done as needed, else the compressor's entries - or raises, and then only because the compressor raised, a chip has two tables or a compressed table is too long; so it succeeds when every table can be compressed to fit.", "quantifier": "all sets of tables and all compressors", "why_tests_cant": "all table sets", "anchors": ["pacman/operations/router_compressors/abstract_compressor.py:AbstractCompressor.compress_tables"]}
{"id": "C52", "title": "Uncompressed tables hold each key/mask once", "statement": "After any sequence of add_multicast_routing_entry calls on an uncompressed table, no key/mask pair occurs twice, entries are in insertion order and a rejected add leaves the table unchanged; two tables of the same chip are equal exactly when their entries agree (as a set if uncompressed, as a list if compressed).", "quantifier": "all histories and pairs of tables", "why_tests_cant": "histories", "anchors": ["pacman/model/routing_tables/uncompressed_multicast_routing_table.py", "pacman/model/routing_tables/compressed_multicast_routing_table.py"]}
{"id": "C53", "title": "Route words identify routes", "statement": "The 32-bit route word computed for reports has exactly the bits of the entry's links (0-5) and processors (6+).", "quantifier": "all routes", "why_tests_cant": "all sets", "anchors": ["pacman/utilities/algorithm_utilities/routes_format.py:_reduce_route_value"]}
{"id": "C54", "title": "Tree traversal visits each hop once", "statement": "RoutingTree.traverse yields every node of the tree exactly once in breadth-first order with the direction of its incoming link and the set of outgoing directions.", "quantifier": "all trees", "why_tests_cant": "unbounded trees", "anchors": ["pacman/utilities/algorithm_utilities/routing_tree.py:RoutingTree.traverse"]}
{"id": "C55", "title": "Routing tables survive JSON", "statement": "Writing a set of routing tables, each without repeated key/mask pairs, to JSON and reading it back gives tables with the same chips, the same entries in the same order and the same key, mask, route and defaultable flag per entry.", "quantifier": "all sets of tables without repeated pairs", "why_tests_cant": "all tables", "anchors": ["pacman/model/routing_tables/multicast_routing_tables.py:to_json", "pacman/model/routing_tables/multicast_routing_tables.py:from_json"]}
{"id": "C56", "title": "Bit-width helpers give the least sufficient width", "statement": "allocator_bits_needed(n) is the least b with n <= 2^b (0 for 0); get_n_bits(n) is at least that width and differs from it only for n = 1; is_power_of_2(v) is True exactly when v = 2^k for some k.", "quantifier": "all non-negative integers", "why_tests_cant": "unbounded integers", "anchors": ["pacman/utilities/utility_calls.py:get_n_bits", "pacman/utilities/utility_calls.py:allocator_bits_needed", "pacman/utilities/utility_calls.py:is_power_of_2"]}
{"id": "C57", "title": "Read-only queries leave Placements unchanged", "statement": "Calling a query method of Placements (lookup by vertex, processor or chip, iteration, counting) does not change the answer of any later call.", "quantifier": "all histories of calls and all queries", "why_tests_cant": "A query has to be combined with every later call after every history.", "anchors": ["pacman/model/placements/placements.py:Placements.get_placement_on_processor,placements_on_chip,chips_with_placements"]}
{"id": "C58", "title": "SDRAM totals add exactly for fractional costs too", "statement": "For constant, variable and multi-region SDRAM with any per-timestep cost, the total of a sum is the sum of the totals for every number of timesteps.", "quantifier": "all SDRAM values and timestep counts", "why_tests_cant": "Depends on rounding for every combination of costs.", "anchors": ["pacman/model/resources/variable_sdram.py:VariableSDRAM.get_total_sdram"]}
{"id": "C59", "title": "Rejection of shared SDRAM does not depend on order", "statement": "If summing the SDRAM of the vertices of a chip succeeds in one order, it succeeds in every order.", "quantifier": "all multisets of SDRAM requirements and all orders", "why_tests_cant": "All orders of all multisets.", "anchors": ["pacman/model/resources/shared_sdram.py:SharedSDRAM.__add__", "pacman/model/resources/variable_sdram.py:VariableSDRAM.__eq__", "pacman/model/resources/constant_sdram.py:ConstantSDRAM.__eq__"]}
{"id": "C60", "title": "Region costs sum to the total whatever is shared", "statement": "In any history of add_cost, nest and merge on any number of MultiRegionSDRAM objects, including ones in which an object is nested twice or used after being nested, the region costs of every object add up to its reported total.", "quantifier": "all histories over several objects with aliasing", "why_tests_cant": "Needs aliasing between objects in every pattern.", "anchors": ["pacman/model/resources/multi_region_sdram.py:MultiRegionSDRAM.nest,merge,add_cost"]}
{"id": "C61", "title": "A refused SDRAM edge leaves its partition unchanged", "statement": "When add_edge of an SDRAM partition (source-segmented, destination-segmented or constant size) raises, the edges, sizes and addresses of the partition are the same as before the call.", "quantifier": "all partition states and edges", "why_tests_cant": "Every failing call in every state.", "anchors": ["pacman/model/graphs/machine/constant_sdram_machine_partition.py:ConstantSDRAMMachinePartition.add_edge", "pacman/model/graphs/abstract_single_source_partition.py:AbstractSingleSourcePartition.add_edge", "pacman/model/graphs/machine/source_segmented_sdram_machine_partition.py:SourceSegmentedSDRAMMachinePartition.add_edge", "pacman/model/graphs/machine/destination_segmented_sdram_machine_partition.py:DestinationSegmentedSDRAMMachinePartition.add_edge"]}
{"id": "C62", "title": "Vertices stay in the graph whatever their labels", "statement": "After any sequence of add_vertex calls, with any labels, every vertex that was added is still enumerated by the graph and all labels are different.", "quantifier": "all labels and sequences", "why_tests_cant": "Generated labels may collide with user labels.", "anchors": ["pacman/model/graphs/application/application_graph.py:ApplicationGraph.add_vertex"]}
{"id": "C63", "title": "An edge is in at most one partition", "statement": "After any sequence of add_edge calls no edge is in two outgoing partitions of the graph, so that it is listed once by the edges property.", "quantifier": "all histories", "why_tests_cant": "All histories.", "anchors": ["pacman/model/graphs/application/application_graph.py:ApplicationGraph.add_edge,edges"]}
{"id": "C64", "title": "Edges only join vertices of the graph", "statement": "After any sequence of calls both ends of every edge of the graph are vertices of the graph.", "quantifier": "all histories", "why_tests_cant": "All histories and label assignments.", "anchors": ["pacman/model/graphs/application/application_graph.py:ApplicationGraph._check_edge"]}
{"id": "C65", "title": "Loop removal keeps every path connected", "statement": "For every connected path the application router's loop removal returns a connected path, so that on a machine whose chips are all connected the path used between two chips only goes over working links.", "quantifier": "all paths and machines", "why_tests_cant": "Needs particular nesting of loops in detours.", "anchors": ["pacman/operations/router_algorithms/application_router.py:_path_without_loops,_path_without_errors"]}
{"id": "C66", "title": "A reachable chip is routed to", "statement": "If there is any path of working links between two chips of a machine, the application router's repair of the direct path between them succeeds.", "quantifier": "all machines", "why_tests_cant": "All fault patterns.", "anchors": ["pacman/operations/router_algorithms/application_router.py:_path_without_errors,_find_path"]}
{"id": "C67", "title": "Targets never leak between machine vertices", "statement": "Whatever the order of additions, the targets recorded on a chip for a source machine vertex contain only targets added for that machine vertex or its application vertex.", "quantifier": "all sequences of target additions", "why_tests_cant": "Aliasing only shows for particular orders of additions.", "anchors": ["pacman/operations/router_algorithms/application_router.py:_Targets.__replace_app_vertex"]}
{"id": "C68", "title": "Default-routable entries pass packets straight on", "statement": "An entry that the application router marks as defaultable has no processor and exactly one link, the one opposite to the link over which packets of that source arrive at the chip, so that leaving the entry out does not change where packets go.", "quantifier": "all routing trees and targets", "why_tests_cant": "needs every shape of tree and every merge of entries", "anchors": ["pacman/operations/router_algorithms/application_router.py:_convert_a_route"]}
{"id": "C69", "title": "Each next hop is recorded once", "statement": "The breadth-first search records each step from one chip to the next once, so that converting the routes visits each chip once.", "quantifier": "all machines, chip sets and targets", "why_tests_cant": "only shows with several targets behind a shared way", "anchors": ["pacman/operations/router_algorithms/application_router.py:_route_to_xys"]}
{"id": "C70", "title": "The tags object grants what it accepts and refuses only conflicts", "statement": "After any sequence of add_ip_tag and add_reverse_ip_tag calls, accepted or refused, each vertex has one tag per accepted call with the board, tag, address, stripping and port it asked for, vertices on one (board, tag) share one IP tag, no (board, tag) is both an IP and a reverse IP tag, reverse tags and their ports are unique per board; a call is refused exactly if it conflicts with an accepted one.", "quantifier": "all call sequences", "why_tests_cant": "Tags are shared and changed by later calls.", "anchors": ["pacman/model/tags/tags.py:Tags.add_ip_tag,add_reverse_ip_tag"]}
{"id": "C71", "title": "Reverse tag allocation falls back to other boards", "statement": "If a vertex's own board has no free tag but another board has, a reverse IP tag request that does not name a board is satisfied from the other board.", "quantifier": "all machines with at least two boards and all requests", "why_tests_cant": "Needs exhaustion of one board.", "anchors": ["pacman/operations/tag_allocator_algorithms/basic_tag_allocator.py:basic_tag_allocator,__create_reverse_tag"]}
{"id": "C72", "title": "Automatic ports avoid fixed ports", "statement": "A reverse IP tag request without a port is given a port that no other reverse tag of the board uses, as long as there is one.", "quantifier": "all requests and orders", "why_tests_cant": "Needs a user port within the automatic range.", "anchors": ["pacman/operations/tag_allocator_algorithms/basic_tag_allocator.py:basic_tag_allocator,__get_port"]}
{"id": "C73", "title": "A collection of routing tables has one table per chip", "statement": "MulticastRoutingTables accepts a sequence of tables exactly if no two are for the same chip, then keeps them in order and returns each for its chip; the maximum and total numbers of entries are those of its tables.", "quantifier": "all sequences of tables", "why_tests_cant": "histories", "anchors": ["pacman/model/routing_tables/multicast_routing_tables.py:MulticastRoutingTables"]}
{"id": "C74", "title": "Merged tables keep fixed machine keys apart", "statement": "For fixed machine keys accepted by the allocator, the merged routing table routes every key of every source like the basic table.", "quantifier": "all allocations with fixed keys", "why_tests_cant": "Needs fixed keys that are not consecutive but have the mask the allocator would choose.", "anchors": ["pacman/operations/routing_table_generators/merged_routing_table_generator.py:__match,__merged_keys_and_masks", "pacman/model/routing_info/app_vertex_routing_info.py:AppVertexRoutingInfo.merge_machine_entries"]}
{"id": "C75", "title": "Merged entries are defaultable only if all members are", "statement": "Removing default routes from a merged routing table loses no key of a source whose own entry is not defaultable.", "quantifier": "all sets of partition entries", "why_tests_cant": "Needs a straight route and a local source in one group.", "anchors": ["pacman/operations/routing_table_generators/merged_routing_table_generator.py:__match", "pacman/model/routing_info/app_vertex_routing_info.py:AppVertexRoutingInfo.merge_machine_entries"]}
{"id": "C76", "title": "Entries for adjacent keys do not disturb the validity check", "statement": "The validity check accepts routes that reach exactly the required destinations when every entry matches all or none of the keys of the source.", "quantifier": "all tables and sources", "why_tests_cant": "Off-by-one at the end of a key range; needs a neighbour that starts at the next key.", "anchors": ["pacman/operations/multi_cast_router_check_functionality/valid_routes_checker.py:_locate_routing_entry"]}
{"id": "C77", "title": "The validity check covers every atom's key", "statement": "If the validity check accepts, the key of every atom of the source reaches exactly the required destinations, whatever the masks of the entries.", "quantifier": "all tables and sources", "why_tests_cant": "Needs masks with holes.", "anchors": ["pacman/operations/multi_cast_router_check_functionality/valid_routes_checker.py:_start_trace_via_routing_tables,_locate_routing_entry,_check_all_keys_hit_entry"]}
{"id": "C78", "title": "The validity check follows packets to chips without a table", "statement": "If the validity check accepts, no packet of the source is delivered to a core that is not a destination, also when an entry leads to a chip without a routing table.", "quantifier": "all tables and sources", "why_tests_cant": "Needs default routing on a chip that is not in the tables.", "anchors": ["pacman/operations/multi_cast_router_check_functionality/valid_routes_checker.py:_recursive_trace_to_destinations"]}
{"id": "C79", "title": "The walked partitions are complete", "statement": "get_app_partitions returns every partition of the graph once, and one partition without edges for each vertex and identifier that has internal partitions only.", "quantifier": "all graphs and splitters", "why_tests_cant": "all combinations of internal and external partitions", "anchors": ["pacman/utilities/algorithm_utilities/routing_algorithm_utilities.py:get_app_partitions"]}
{"id": "C80", "title": "2D devices of one rectangle lose no pixels", "statement": "For every accepted Abstract2DDeviceVertex, also with one sub-rectangle in a direction, the key of each pixel matches the key and mask of some sub-rectangle.", "quantifier": "all widths, heights and sub sizes accepted", "why_tests_cant": "Needs a sub-rectangle as wide as the device.", "anchors": ["pacman/model/graphs/application/abstract/abstract_2d_device_vertex.py:_sub_x_bits,_sub_y_bits,_mask"]}
{"id": "C81", "title": "Slices of 2D devices have an atom for each pixel", "statement": "The slices of an accepted Abstract2DDeviceVertex together have as many atoms as the device has pixels, and no atom of a slice has the raster index of a pixel of another slice.", "quantifier": "all widths, heights and sub sizes accepted", "why_tests_cant": "Needs sizes that do not divide.", "anchors": ["pacman/model/graphs/application/abstract/abstract_2d_device_vertex.py:_get_slice,_n_sub_rectangles"]}
{"id": "C82", "title": "The text of a slice can be read back", "statement": "from_string of the text of a Slice gives an equal slice, and MDSlice.from_string of the text of an MDSlice over two or more dimensions, with as many atoms as its shape says, gives an equal slice.", "quantifier": "all slices", "why_tests_cant": "all numbers of digits and dimensions", "anchors": ["pacman/model/graphs/common/slice.py:Slice.__str__,from_string", "pacman/model/graphs/common/mdslice.py:MDSlice.__str__,from_string"]}
{"id": "C83", "title": "The text of an MDSlice of one dimension can be read back", "statement": "MDSlice.from_string of the text of an MDSlice over one dimension gives an equal slice.", "quantifier": "all MDSlices of one dimension", "why_tests_cant": "Needs the comma of a tuple of one element.", "anchors": ["pacman/model/graphs/common/mdslice.py:MDSlice.__str__,from_string"]}
{"id": "C84", "title": "The end of a slice means the same for all slices", "statement": "In every dimension, the end of a slice is the stop of the built-in slice given by get_slice for that dimension.", "quantifier": "all slices and dimensions", "why_tests_cant": "Compares two properties of two classes.", "anchors": ["pacman/model/graphs/common/slice.py:Slice.end,get_slice", "pacman/model/graphs/common/mdslice.py:MDSlice.end,get_slice"]}
{"id": "C85", "title": "All fixed locations are honoured", "statement": "When placement succeeds every machine vertex with a fixed location is on that chip, and on that core if one is given, also when the fixed locations of one group differ.", "quantifier": "all fixed locations", "why_tests_cant": "Needs two fixed chips in one group.", "anchors": ["pacman/operations/placer_algorithms/application_placer.py:ApplicationPlacer._do_fixed_location"]}
{"id": "C86", "title": "A free fixed core is accepted", "statement": "When the fixed cores of the vertices of a group are different placable cores of one chip and none is in use, the group is placed.", "quantifier": "all orders of fixed cores", "why_tests_cant": "Depends on the order of the vertices and of a set.", "anchors": ["pacman/operations/placer_algorithms/application_placer.py:ApplicationPlacer._do_fixed_location"]}
{"id": "C87", "title": "The SDRAM limit also holds for fixed vertices", "statement": "When placement succeeds, on every chip the SDRAM of all placed vertices does not exceed the chip's SDRAM, also when all of them have fixed locations.", "quantifier": "all fixed locations and SDRAM requirements", "why_tests_cant": "cumulative over all vertices on a chip", "anchors": ["pacman/operations/placer_algorithms/application_placer.py:ApplicationPlacer._do_fixed_location,_place_fixed_vertex"]}
{"id": "C88", "title": "Virtual vertices are never placed", "statement": "No virtual machine vertex is ever given a placement, and a group with a virtual vertex does not make placement fail with an internal error.", "quantifier": "all groups, also with virtual and real vertices", "why_tests_cant": "Needs a group with both kinds of vertices.", "anchors": ["pacman/operations/placer_algorithms/application_placer.py:ApplicationPlacer._prepare_placements,_filter_vertices"]}
{"id": "C89", "title": "A vertex that fits on some chip is placed", "statement": "When some chip has enough free cores and enough free SDRAM for the single group of a new application vertex, placement does not fail for lack of space.", "quantifier": "all earlier vertices and SDRAM requirements", "why_tests_cant": "Depends on the SDRAM used before.", "anchors": ["pacman/operations/placer_algorithms/application_placer.py:ApplicationPlacer._space_on_chip"]}
{"id": "C90", "title": "Pair compression returns a table whatever the number of routes", "statement": "PairCompressor.compress_table returns a table for every table handed in, whatever the number of distinct routes.", "quantifier": "all tables and router sizes", "why_tests_cant": "The number of routes is unbounded.", "anchors": ["pacman/operations/router_compressors/pair_compressor.py:_PairCompressor._update_frequency,compress_table"]}
{"id": "C91", "title": "Range compression yields an order-free table", "statement": "The table produced by the range compressor has no key matched by entries of different routes, so that it can be handed to the pair or ordered-covering compressor (which may reorder it) without changing any route.", "quantifier": "all tables accepted by the range compressor", "why_tests_cant": "The overlap shows on one key of one table.", "anchors": ["pacman/operations/router_compressors/ranged_compressor.py:RangeCompressor.compress_table,_merge_range"]}
{"id": "C92", "title": "Range compression terminates on all tables", "statement": "RangeCompressor.compress_table finishes on every table that passes its own validation, including tables with masks that have holes (as produced for 2D device vertices), and on the empty table.", "quantifier": "all validated tables, arbitrary masks", "why_tests_cant": "Termination cannot be tested.", "anchors": ["pacman/operations/router_compressors/ranged_compressor.py:RangeCompressor.compress_table,_validate"]}
{"id": "C93", "title": "Default route removal enforces every target", "statement": "With a target length, remove_default_routes raises exactly when the reduced table is longer than the target, also for a target of 0.", "quantifier": "all tables and targets", "why_tests_cant": "All targets.", "anchors": ["pacman/operations/router_compressors/ordered_covering_router_compressor/utils.py:remove_default_routes"]}
{"id": "C94", "title": "The compression checker sees repeated entries", "statement": "If compare_tables(original, compressed) does not raise then every key of an original entry is routed the same by the compressed table read in order, also when two compressed entries have the same key and mask.", "quantifier": "all pairs of tables", "why_tests_cant": "All pairs of tables.", "anchors": ["pacman/operations/router_compressors/routing_compression_checker.py:compare_tables,codify_table"]}
{"id": "C95", "title": "Remainders after partial cover are disjoint", "statement": "The codes returned by calc_remainders are pairwise disjoint, so that the checker looks at each key once.", "quantifier": "all pairs of codes", "why_tests_cant": "All pairs of codes.", "anchors": ["pacman/operations/router_compressors/routing_compression_checker.py:calc_remainders"]}
{"id": "C96", "title": "Limits and offsets of key enumeration are honoured", "statement": "BaseKeyAndMask.get_keys returns no more keys than the limit, also for a limit of 0, and given an array writes only as many keys as there is room for after the offset.", "quantifier": "all key/mask pairs, arrays, offsets and limits", "why_tests_cant": "Depends on the combination of mask, array, offset and limit.", "anchors": ["pacman/model/routing_info/base_key_and_mask.py:BaseKeyAndMask.get_keys"]}
{"id": "C97", "title": "Selecting no bits gives zero", "statement": "compress_bits_from_bit_array of an empty list of positions is 0.", "quantifier": "all bit arrays", "why_tests_cant": "Every bit array.", "anchors": ["pacman/utilities/utility_calls.py:compress_bits_from_bit_array"]}
{"id": "C98", "title": "Allocated keys never clash whatever is asked for", "statement": "When ZonedRoutingInfoAllocator succeeds, the keys of different machine vertices and partitions never clash, also when the vertices of a partition ask for no keys, and a fixed partition without machine vertices does not affect the keys of other vertices.", "quantifier": "all graphs and key counts", "why_tests_cant": "All graphs.", "anchors": ["pacman/operations/routing_info_allocator_algorithms/zoned_routing_info_allocator.py:ZonedRoutingInfoAllocator.__calculate_zones,__find_fixed"]}
{"id": "C99", "title": "Allocated keys avoid user-fixed keys in global mode", "statement": "In global mode no key allocated automatically by ZonedRoutingInfoAllocator lies in the key space of a user-fixed key and mask.", "quantifier": "all graphs with any set of fixed keys", "why_tests_cant": "All graphs with fixed keys.", "anchors": ["pacman/operations/routing_info_allocator_algorithms/zoned_routing_info_allocator.py:ZonedRoutingInfoAllocator.__check_zones,__set_fixed_used"]}
{"id": "C100", "title": "Virtual device slices cover all atoms", "statement": "The slices given to the machine vertices of an FPGA or SpiNNaker-link device are non-empty, disjoint and cover every atom of the device, whenever there are at least as many atoms as machine vertices.", "quantifier": "all atom counts and numbers of machine vertices", "why_tests_cant": "All pairs of counts.", "anchors": ["pacman/model/graphs/application/application_fpga_vertex.py:ApplicationFPGAVertex.get_incoming_slice_for_link", "pacman/model/graphs/application/application_spinnaker_link_vertex.py:ApplicationSpiNNakerLinkVertex.get_incoming_slice"]}
{"id": "C101", "title": "A compressor can be used again", "statement": "Whether compress_tables succeeds depends on the tables it is given and not on earlier calls on the same compressor.", "quantifier": "all histories of calls", "why_tests_cant": "All histories.", "anchors": ["pacman/operations/router_compressors/abstract_compressor.py:AbstractCompressor.compress_tables"]}
{"id": "C102", "title": "Tables of different chips are different", "statement": "Two routing tables compare equal only if they are for the same chip.", "quantifier": "all pairs of tables", "why_tests_cant": "All pairs of tables.", "anchors": ["pacman/model/routing_tables/uncompressed_multicast_routing_table.py:UnCompressedMulticastRoutingTable.__eq__", "pacman/model/routing_tables/compressed_multicast_routing_table.py:CompressedMulticastRoutingTable.__eq__"]}
{"id": "C103", "title": "All routing tables survive JSON", "statement": "Every set of routing tables, compressed ones included, can be written to JSON and read back.", "quantifier": "all sets of tables", "why_tests_cant": "All sets of tables.", "anchors": ["pacman/model/routing_tables/multicast_routing_tables.py:to_json,from_json"]}
{"id": "C104", "title": "The basic generator refuses sources with one key", "statement": "When two different sources of one router have the same key and mask, basic_routing_table_generator raises KeyError, whatever the routes; routers without such a clash are accepted.", "quantifier": "all sets of sources, keys and routes", "why_tests_cant": "The clash is between any two of any number of sources.", "anchors": ["pacman/operations/routing_table_generators/basic_routing_table_generator.py:__create_routing_table"]}
{"id": "C105", "title": "The merging generator refuses sources with one key", "statement": "When two different sources of one router have the same key and mask, merged_routing_table_generator raises KeyError, as the basic generator does.", "quantifier": "all sets of sources, keys and routes", "why_tests_cant": "Depends on which sources end up in one group.", "anchors": ["pacman/operations/routing_table_generators/merged_routing_table_generator.py:__create_routing_table"]}
{"id": "C106", "title": "Routed packets reach their targets and nothing else", "statement": "When route_application_graph succeeds, the packets of each outgoing vertex of each partition, following the entries of the table from the chip of the vertex, reach the core or the device link of every target that asked for the vertex or its application vertex; and, when no chip away from the source asks both for the whole source and for single machine vertices of it, they reach no other core or device link.", "quantifier": "all machines, placements, splitters, partitions and iteration orders of sets for which the router succeeds, where each chip of a source has a sending vertex and no repaired path returns into a loop", "why_tests_cant": "Quantifies over whole graphs, placements and machines with dead chips and links, and over the way packets take through many tables.", "anchors": ["pacman/operations/router_algorithms/application_router.py:route_application_graph,_route_source_to_target,_make_source_to_target_routes,_make_source_to_source_routes"]}
{"id": "C107", "title": "Internal partitions are routed", "statement": "Each internal multicast partition of each application vertex is routed exactly once, together with the edge partition of the same name if there is one; its packets reach all its targets, also when its sender is not an outgoing vertex.", "quantifier": "as for the previous property", "why_tests_cant": "Depends on which partitions share a name and on the placement of the vertices.", "anchors": ["pacman/operations/router_algorithms/application_router.py:_route_internal,_get_outgoing_mapping", "pacman/utilities/algorithm_utilities/routing_algorithm_utilities.py:get_app_partitions"]}
{"id": "C108", "title": "Routed packets enter each chip at most once", "statement": "A packet following the table made by route_application_graph enters no chip over two ways and never returns to the chip it came from; so it never loops and no target gets it twice.", "quantifier": "as for the previous properties", "why_tests_cant": "A loop shows only for particular combinations of targets, dead links and placements.", "anchors": ["pacman/operations/router_algorithms/application_router.py:route_application_graph"]}
{"id": "C109", "title": "Packets of internal partitions stay inside", "statement": "The packets of a machine vertex that sends only in an internal partition reach only the targets of that internal partition.", "quantifier": "all graphs with internal partitions", "why_tests_cant": "Needs an application vertex with outgoing and internal senders under one name.", "anchors": ["pacman/operations/router_algorithms/application_router.py:_route_internal,_make_source_to_source_routes"]}
{"id": "C110", "title": "Packets arrive whichever machine vertices send", "statement": "The packets of the outgoing vertices reach their targets also when other machine vertices of the application vertex, on other chips, send nothing.", "quantifier": "all graphs and placements", "why_tests_cant": "Depends on whether a path to a target leads over the chip of a machine vertex that does not send.", "anchors": ["pacman/operations/router_algorithms/application_router.py:_route_pre_to_post,_route_single_source_to_target"]}
{"id": "C111", "title": "The router fails only with routing errors", "statement": "route_application_graph either succeeds or reports that a chip cannot be reached; it does not fail with errors of the language, also when a target has no incoming vertices for a source.", "quantifier": "all graphs and placements", "why_tests_cant": "All graphs.", "anchors": ["pacman/operations/router_algorithms/application_router.py:_find_target_xy,_make_source_to_source_routes"]}
{"id": "C112", "title": "Partitioning gives every atom to one machine vertex", "statement": "After splitter_partitioner each application vertex with a SplitterFixedLegacy has machine vertices whose slices hold every atom exactly once and nothing else, within the limits per core, each with the SDRAM of its slice and with its index in the vertex; a vertex with SplitterOneToOneLegacy (never reset) has one machine vertex with all atoms, one with SplitterOneAppOneMachine its own machine vertex; get_out_going_vertices, get_in_coming_vertices and the slices agree with the machine vertices.", "quantifier": "all sequences of successful calls in which vertices are made, given splitters and limits before partitioning and reset before partitioning again, all SDRAM functions", "why_tests_cant": "Quantifies over sequences of calls on several objects that refer to each other.", "anchors": ["pacman/operations/partition_algorithms/splitter_partitioner.py:splitter_partitioner", "pacman/model/partitioner_splitters/splitter_fixed_legacy.py:SplitterFixedLegacy", "pacman/model/partitioner_splitters/splitter_one_to_one_legacy.py:SplitterOneToOneLegacy", "pacman/model/partitioner_splitters/splitter_one_app_one_machine.py:SplitterOneAppOneMachine", "pacman/model/graphs/application/application_vertex.py:ApplicationVertex.remember_machine_vertex"]}
{"id": "C113", "title": "Partitioning gives devices their machine vertices", "statement": "After splitter_partitioner an FPGA vertex has, for each of its n_machine_vertices_per_link parts and each incoming connection, one machine vertex from the device with the part's slice, a SpiNNaker link vertex with incoming traffic one for each part, and a device with outgoing traffic one more with all atoms; get_out_going_vertices gives the former and get_in_coming_vertices the latter, or PacmanNotExistException if there is none.", "quantifier": "all sequences of calls as in the previous property, all connections and numbers of machine vertices", "why_tests_cant": "All combinations of connections and counts.", "anchors": ["pacman/model/partitioner_splitters/splitter_external_device.py:SplitterExternalDevice"]}
{"id": "C114", "title": "Partitioning succeeds when every vertex can be split", "statement": "splitter_partitioner succeeds when every vertex has a splitter and the limits of the vertices with SplitterFixedLegacy fit their shapes; otherwise it raises because a vertex has no splitter or because its slices cannot be made. Without one-to-one splitters after a reset, the number of chips it returns is that of a ChipCounter given the SDRAM of every machine vertex.", "quantifier": "all sequences of calls as before", "why_tests_cant": "All graphs.", "anchors": ["pacman/operations/partition_algorithms/splitter_partitioner.py:splitter_partitioner", "pacman/model/partitioner_splitters/splitter_fixed_legacy.py:SplitterFixedLegacy.create_machine_vertices"]}
{"id": "C115", "title": "Partitioning after a reset gives the same machine vertices", "statement": "After partitioning, ApplicationGraph.reset and partitioning again succeed and give each vertex without a one-to-one splitter machine vertices with the same slices, SDRAM and connections in the same order, and the same number of chips.", "quantifier": "all sequences of calls as before", "why_tests_cant": "All histories.", "anchors": ["pacman/model/graphs/application/application_graph.py:ApplicationGraph.reset", "pacman/model/graphs/application/application_vertex.py:ApplicationVertex.reset", "pacman/model/partitioner_splitters/splitter_fixed_legacy.py:SplitterFixedLegacy.reset_called"]}
{"id": "C116", "title": "A vertex split one to one survives a reset", "statement": "A vertex with SplitterOneToOneLegacy has its one machine vertex also after a reset and a new partitioning.", "quantifier": "all vertices", "why_tests_cant": "Needs a reset between two partitionings.", "anchors": ["pacman/model/partitioner_splitters/splitter_one_to_one_legacy.py:SplitterOneToOneLegacy.create_machine_vertices,reset_called", "pacman/model/graphs/application/application_vertex.py:ApplicationVertex.reset"]}
{"id": "C117", "title": "Vertices and splitters refer to each other", "statement": "After any successful calls, a vertex has a splitter exactly when the splitter governs the vertex; so no splitter governs two vertices. Setting a free splitter for a vertex without one succeeds exactly when its class and atoms fit and changes no other vertex or splitter; setting the splitter it has does nothing, any other raises PacmanConfigurationException.", "quantifier": "all sequences of successful calls as before", "why_tests_cant": "All histories of calls on several objects.", "anchors": ["pacman/model/graphs/application/application_vertex.py:ApplicationVertex.splitter", "pacman/model/partitioner_splitters/abstract_splitter_common.py:AbstractSplitterCommon.set_governed_app_vertex"]}
{"id": "C118", "title": "A refused splitter is not kept", "statement": "When setting the splitter of a vertex raises, the vertex can still be given another splitter, and partitioning does not use the refused one.", "quantifier": "all vertices and splitters", "why_tests_cant": "Depends on what happens after an exception.", "anchors": ["pacman/model/graphs/application/application_vertex.py:ApplicationVertex.splitter"]}
{"id": "C119", "title": "Governing a vertex is the same as setting its splitter", "statement": "splitter.set_governed_app_vertex(vertex) has the same effect as vertex.splitter = splitter.", "quantifier": "all vertices and splitters", "why_tests_cant": "All pairs of vertices and splitters.", "anchors": ["pacman/model/partitioner_splitters/splitter_one_to_one_legacy.py:SplitterOneToOneLegacy.set_governed_app_vertex", "pacman/model/partitioner_splitters/abstract_splitter_common.py:AbstractSplitterCommon.set_governed_app_vertex"]}
{"id": "C120", "title": "Partitioning depends only on the vertices", "statement": "The machine vertices after splitter_partitioner and their indices depend on the vertices and their limits at the time, not on earlier calls such as get_out_going_slices or an earlier partitioning.", "quantifier": "all sequences of calls", "why_tests_cant": "All histories.", "anchors": ["pacman/model/partitioner_splitters/splitter_fixed_legacy.py:SplitterFixedLegacy.get_out_going_slices,create_machine_vertices", "pacman/model/graphs/application/application_vertex.py:ApplicationVertex.remember_machine_vertex"]}
{"id": "C121", "title": "Setting the limit of atoms per core stores allowed values only", "statement": "set_max_atoms_per_dimension_per_core stores an accepted value and changes nothing else, accepts None to remove the limit, and leaves the limit unchanged when it raises.", "quantifier": "all vertices and limits", "why_tests_cant": "Depends on what happens after an exception.", "anchors": ["pacman/model/graphs/application/application_vertex.py:ApplicationVertex.set_max_atoms_per_dimension_per_core"]}
{"id": "C122", "title": "The router makes tables for joined placements on a connected machine", "statement": "On a connected machine route_application_graph returns tables whenever each routed partition carries something, each of its targets has incoming vertices, these and the source's machine vertices are on chips of the machine, the source's chips are joined with each other by working links and so are those of each other target, self-connections and internal partitions stay on the source's chips, and off those chips a chip that is sent the whole source is otherwise sent only the source's outgoing vertices.", "quantifier": "all machines, faults, placements and graphs", "why_tests_cant": "No finite set of machines and placements covers all routes.", "anchors": ["pacman/operations/router_algorithms/application_router.py:route_application_graph,_route_source_to_target,_route_pre_to_post,_route_to_xys"]}
{"id": "C123", "title": "A connected machine is enough for the router", "statement": "If the machine is connected, every vertex is on one of its chips and each target has incoming vertices, route_application_graph returns tables.", "quantifier": "all machines, placements and graphs", "why_tests_cant": "No finite set of placements covers all failures.", "anchors": ["pacman/operations/router_algorithms/application_router.py:_route_to_xys,_route_single_source_to_target,_convert_a_route"]}
{"id": "C124", "title": "Packets reach their targets through the generated routing tables", "statement": "After route_application_graph and ZonedRoutingInfoAllocator both routing table generators succeed, and a packet sent with any key of a machine vertex, following the first matching entry chip by chip and default routing where none matches, reaches every core and device link that is a target of the vertex in that partition, no other core or device where no chip is asked for both the whole source and one of its machine vertices, and no chip twice.", "quantifier": "all machines, placements, graphs and keys; partitions with free keys", "why_tests_cant": "Composes three algorithms over all graphs; tests check single tables.", "anchors": ["pacman/operations/router_algorithms/application_router.py:route_application_graph", "pacman/operations/routing_info_allocator_algorithms/zoned_routing_info_allocator.py:ZonedRoutingInfoAllocator", "pacman/operations/routing_table_generators/basic_routing_table_generator.py:basic_routing_table_generator", "pacman/operations/routing_table_generators/merged_routing_table_generator.py:merged_routing_table_generator"]}
{"id": "C125", "title": "Packets reach their targets through compressed routing tables", "statement": "The same holds of the tables that the pair compressor makes from the generated tables, and of those that range_compressor makes; without accept_overflow the latter all fit their routers.", "quantifier": "all machines, placements, graphs, keys and compressor settings", "why_tests_cant": "Composes four algorithms over all graphs.", "anchors": ["pacman/operations/router_algorithms/application_router.py:route_application_graph", "pacman/operations/router_compressors/pair_compressor.py:pair_compressor", "pacman/operations/router_compressors/ranged_compressor.py:range_compressor"]}
{"id": "C126", "title": "Packets reach their targets through ordered covering and default routes", "statement": "The same holds of the tables that ordered_covering_compressor makes from the basic tables, although entries for packets that go straight through a chip are left out.", "quantifier": "all machines, placements, graphs and keys", "why_tests_cant": "An entry may be left out only if every packet it matches comes in opposite to where it leaves.", "anchors": ["pacman/operations/router_algorithms/application_router.py:_convert_a_route", "pacman/operations/routing_table_generators/basic_routing_table_generator.py:basic_routing_table_generator", "pacman/operations/router_compressors/ordered_covering_router_compressor/ordered_covering.py:ordered_covering_compressor"]}
{"id": "C127", "title": "Routing, keys and tables are made for every graph that fits", "statement": "When the router's conditions of C122 hold, no key is fixed and the partitions fit into 32 bits, the router, the key allocator and both generators succeed one after the other.", "quantifier": "all machines, placements and graphs", "why_tests_cant": "An exception of any stage would be missed on other graphs.", "anchors": ["pacman/operations/router_algorithms/application_router.py:route_application_graph", "pacman/operations/routing_info_allocator_algorithms/zoned_routing_info_allocator.py:ZonedRoutingInfoAllocator", "pacman/operations/routing_table_generators/merged_routing_table_generator.py:merged_routing_table_generator"]}
{"id": "C128", "title": "Merged tables may be compressed with ordered covering", "statement": "C126 also holds of the tables of merged_routing_table_generator.", "quantifier": "all machines, placements and graphs", "why_tests_cant": "Needs a straight route and a local source next to each other.", "anchors": ["pacman/operations/routing_table_generators/merged_routing_table_generator.py:__match", "pacman/operations/router_compressors/ordered_covering_router_compressor/ordered_covering.py:ordered_covering_compressor"]}
{"id": "C129", "title": "Tables may be range compressed before pair compression", "statement": "C125 also holds of the tables that the pair compressor makes from those of range_compressor.", "quantifier": "all machines, placements and graphs", "why_tests_cant": "The overlap shows on one key.", "anchors": ["pacman/operations/router_compressors/ranged_compressor.py:range_compressor", "pacman/operations/router_compressors/pair_compressor.py:pair_compressor"]}
{"id": "C130", "title": "A graph that is placed is also routed and gets keys and tables", "statement": "When place_application_graph succeeds for application vertices without fixed locations and devices behind links of one chip, on a connected machine whose links work both ways, and the partitions fit into 32 bits, then route_application_graph, ZonedRoutingInfoAllocator and both routing table generators succeed on its placements: the chips the placer chooses for a vertex are always joined as the router needs.", "quantifier": "all machines, faults, graphs, splittings into machine vertices and same-chip groups", "why_tests_cant": "The router fails on placements the placer must never make; no finite set of graphs shows that it does not.", "anchors": ["pacman/operations/placer_algorithms/application_placer.py:place_application_graph,_get_next_neighbour", "pacman/operations/router_algorithms/application_router.py:route_application_graph,_route_to_xys", "pacman/operations/routing_info_allocator_algorithms/zoned_routing_info_allocator.py:ZonedRoutingInfoAllocator"]}
{"id": "C131", "title": "Packets reach the cores on which their targets were placed", "statement": "In the tables made from the placements a packet sent with any key of a machine vertex reaches exactly the cores on which place_application_graph put the incoming vertices of the partition's targets, and the links of target devices; a placed machine vertex that is not a target gets none of them, and no chip gets one twice. The same holds after pair compression, range compression or, for basic tables, ordered covering.", "quantifier": "all machines, faults, graphs, splittings, keys and compressor settings", "why_tests_cant": "Composes five algorithms over all graphs.", "anchors": ["pacman/operations/placer_algorithms/application_placer.py:place_application_graph", "pacman/operations/router_algorithms/application_router.py:route_application_graph", "pacman/operations/routing_info_allocator_algorithms/zoned_routing_info_allocator.py:ZonedRoutingInfoAllocator", "pacman/operations/routing_table_generators/basic_routing_table_generator.py:basic_routing_table_generator", "pacman/operations/routing_table_generators/merged_routing_table_generator.py:merged_routing_table_generator", "pacman/operations/router_compressors/pair_compressor.py:pair_compressor", "pacman/operations/router_compressors/ranged_compressor.py:range_compressor", "pacman/operations/router_compressors/ordered_covering_router_compressor/ordered_covering.py:ordered_covering_compressor"]}
{"id": "C132", "title": "RoutingInfo answers exactly for what was added", "statement": "Whatever calls were made before, add_routing_info raises PacmanAlreadyExistsException exactly when an item for the same vertex and partition was accepted before; get_info_from, get_key_from, get_first_key_from_pre_vertex, has_info_from, get_partitions_from and check_info_from give exactly what the accepted items say; get_single_info_from gives the only item of a vertex and raises KeyError if there are several; iterating yields every accepted item once; and the length is the number of vertices if only vertices with items were looked up. Everything the allocator makes is accepted.", "quantifier": "all histories of calls", "why_tests_cant": "Histories are unbounded, and the object changes under lookups.", "anchors": ["pacman/model/routing_info/routing_info.py:RoutingInfo"]}
{"id": "C133", "title": "Looking up routing information changes nothing", "statement": "No lookup on a RoutingInfo changes a later answer.", "quantifier": "all histories of calls", "why_tests_cant": "Needs a lookup of a vertex without routing information followed by one of two other calls.", "anchors": ["pacman/model/routing_info/routing_info.py:RoutingInfo.get_partitions_from,get_info_from,get_key_from,get_routing_info_from_pre_vertex"]}
{"id": "C134", "title": "The length of RoutingInfo is the number of items iterated", "statement": "len(infos) == len(list(infos)) for every RoutingInfo.", "quantifier": "all histories of calls", "why_tests_cant": "Needs a vertex with two partitions, or a lookup of an unknown one.", "anchors": ["pacman/model/routing_info/routing_info.py:RoutingInfo.__len__,__iter__"]}
{"id": "C135", "title": "A vertex gets the keys it asks for", "statement": "VertexRoutingInfo.get_keys(n) returns the n least keys of the key and mask in increasing order, all of them when n is not given, and raises PacmanConfigurationException exactly when there are fewer than n. For a machine vertex whose keys the allocator chose, every n from one up to the number of keys its partition asked for is available, and the keys are consecutive from its key.", "quantifier": "all keys, masks, numbers, graphs and allocations", "why_tests_cant": "All 2^64 keys and masks; composition with the allocator.", "anchors": ["pacman/model/routing_info/vertex_routing_info.py:VertexRoutingInfo.get_keys", "pacman/model/routing_info/base_key_and_mask.py:BaseKeyAndMask.get_keys"]}
{"id": "C136", "title": "No keys can be asked for", "statement": "VertexRoutingInfo.get_keys(0) returns an empty array.", "quantifier": "all keys and masks", "why_tests_cant": "Only fails for a mask with no zeros.", "anchors": ["pacman/model/routing_info/vertex_routing_info.py:VertexRoutingInfo.get_keys", "pacman/model/routing_info/base_key_and_mask.py:BaseKeyAndMask.get_keys"]}
{"id": "C137", "title": "Fixed keys are used and their packets arrive", "statement": "Where the user fixes a key for a partition (and possibly others inside it for its machine vertices), the machine vertices get these keys; and when the fixed keys are disjoint, the router and the allocator succeed and a generator makes the tables, packets sent with any key of a machine vertex, fixed or chosen, reach exactly the targets, and no chip gets one twice. For merged tables the fixed keys must be laid out as the allocator would, or have masks the allocator would not choose; if the allocator is not flexible, one partition must need both the most machine vertices and the most keys.", "quantifier": "all machines, placements, graphs, fixed keys and masks", "why_tests_cant": "Every fixed key and mask has to be checked against every block the allocator can choose and every table.", "anchors": ["pacman/operations/routing_info_allocator_algorithms/zoned_routing_info_allocator.py:ZonedRoutingInfoAllocator", "pacman/operations/routing_table_generators/basic_routing_table_generator.py:basic_routing_table_generator", "pacman/operations/routing_table_generators/merged_routing_table_generator.py:merged_routing_table_generator", "pacman/operations/router_algorithms/application_router.py:route_application_graph"]}
{"id": "C138", "title": "Tables with fixed keys may be compressed", "statement": "C137 holds of the tables after pair compression, range compression or, for basic tables, ordered covering.", "quantifier": "all machines, placements, graphs, fixed keys and masks, and compressor settings", "why_tests_cant": "Composes four algorithms over all inputs.", "anchors": ["pacman/operations/router_compressors/pair_compressor.py:pair_compressor", "pacman/operations/router_compressors/ranged_compressor.py:range_compressor", "pacman/operations/router_compressors/ordered_covering_router_compressor/ordered_covering.py:ordered_covering_compressor", "pacman/operations/routing_info_allocator_algorithms/zoned_routing_info_allocator.py:ZonedRoutingInfoAllocator"]}
{"id": "C139", "title": "Any disjoint fixed keys may be used with merged tables", "statement": "C137 holds of merged_routing_table_generator without the condition on the layout or masks of the fixed keys.", "quantifier": "all machines, placements, graphs, fixed keys and masks", "why_tests_cant": "Needs fixed keys with the mask the allocator would choose at another place.", "anchors": ["pacman/operations/routing_table_generators/merged_routing_table_generator.py:merged_routing_table_generator,_iterate_entries,__match", "pacman/operations/routing_info_allocator_algorithms/zoned_routing_info_allocator.py:ZonedRoutingInfoAllocator"]}
{"id": "C140", "title": "Devices with fixed keys are mapped with the rest of the graph", "statement": "C131 also holds when keys are fixed for some partitions, for example those of devices, under the conditions of C137; the packets of a device with a fixed key enter over its link and reach exactly the cores on which its targets were placed, also after compression.", "quantifier": "all machines, faults, graphs, splittings, fixed keys and compressor settings", "why_tests_cant": "Composes five algorithms over all graphs.", "anchors": ["pacman/operations/placer_algorithms/application_placer.py:place_application_graph", "pacman/operations/router_algorithms/application_router.py:route_application_graph", "pacman/operations/routing_info_allocator_algorithms/zoned_routing_info_allocator.py:ZonedRoutingInfoAllocator", "pacman/operations/routing_table_generators/basic_routing_table_generator.py:basic_routing_table_generator", "pacman/operations/routing_table_generators/merged_routing_table_generator.py:merged_routing_table_generator"]}
{"id": "C141", "title": "A stage gets what was last set for it", "statement": "After any sequence of calls on PacmanDataWriter and PacmanDataView, the placements, routing infos, tags, uncompressed and precompressed tables and the routing table by partition are each available exactly when they were set since the last setup, mock or hard reset, and are then the object set last. Setting an object of another type raises TypeError; a setter that raises changes nothing.", "quantifier": "all histories of calls", "why_tests_cant": "Histories are unbounded; a reset must clear every item.", "anchors": ["pacman/data/pacman_data_view.py:PacmanDataView.get_routing_infos,get_tags,get_uncompressed,get_precompressed,get_routing_table_by_partition", "pacman/data/pacman_data_writer.py:PacmanDataWriter.set_placements,set_routing_infos,set_tags,set_uncompressed,set_precompressed,set_routing_table_by_partition"]}
{"id": "C142", "title": "The planned timesteps outlive a hard reset", "statement": "get_plan_n_timestep is the number last accepted by set_plan_n_timesteps since the last setup or mock, None if there is none; it is never negative: negative numbers raise PacmanConfigurationException and what is not an int TypeError.", "quantifier": "all histories of calls", "why_tests_cant": "Histories are unbounded.", "anchors": ["pacman/data/pacman_data_view.py:PacmanDataView.get_plan_n_timestep", "pacman/data/pacman_data_writer.py:PacmanDataWriter.set_plan_n_timesteps"]}
{"id": "C143", "title": "The first valid request for boards or chips counts", "statement": "set_n_required returns exactly when both numbers are None, or one is a positive int, the other None and no request was accepted since the last setup or mock. get_n_boards_required, has_n_boards_required, get_n_chips_needed, has_n_chips_needed and get_chips_boards_required_str then all follow this first request; without a request for chips the number needed is that last set for the graph since the last reset. The has-methods agree with the getters, and no number is ever 0 or less.", "quantifier": "all histories of calls", "why_tests_cant": "Histories are unbounded and three stored numbers interact.", "anchors": ["pacman/data/pacman_data_view.py:PacmanDataView.get_n_boards_required,has_n_boards_required,get_n_chips_needed,has_n_chips_needed,get_chips_boards_required_str", "pacman/data/pacman_data_writer.py:PacmanDataWriter.set_n_required,set_n_chips_in_graph"]}
{"id": "C144", "title": "Ethernet chips need at least the monitor SDRAM of all chips", "statement": "get_all_monitor_sdram and get_ethernet_monitor_sdram are the sums over the sample monitors added for all chips, and all sample monitors, since the last reset; if no cost is negative the latter is at least the former for every number of timesteps.", "quantifier": "all histories and costs", "why_tests_cant": "All sequences of monitors and rational costs.", "anchors": ["pacman/data/pacman_data_view.py:PacmanDataView.get_all_monitor_sdram,get_ethernet_monitor_sdram", "pacman/data/pacman_data_writer.py:PacmanDataWriter.add_sample_monitor_vertex"]}
{"id": "C145", "title": "The graph in the view follows the accepted calls", "statement": "The edges in the view are those accepted by the view or the writer since the last setup, each in the partition of its source and name. A hard reset keeps vertices, partitions and edges and forgets all machine vertices; setup and mock give an empty graph. get_n_machine_vertices is the number of machine vertices iterated. The writer refuses to add while mapping is not required; adding through the view makes it required, and is refused without a valid simulator. The index of a machine vertex that is remembered once is its place in the list of its application vertex.", "quantifier": "all histories of calls", "why_tests_cant": "Histories are unbounded.", "anchors": ["pacman/data/pacman_data_view.py:PacmanDataView.add_vertex,add_edge,get_edges,get_n_machine_vertices,iterate_machine_vertices", "pacman/data/pacman_data_writer.py:PacmanDataWriter.add_vertex,add_edge", "pacman/model/graphs/application/application_vertex.py:ApplicationVertex.remember_machine_vertex"]}
{"id": "C146", "title": "Setup forgets the machine vertices", "statement": "After setup the view never iterates a machine vertex that was created before it.", "quantifier": "all histories of calls", "why_tests_cant": "Needs a vertex that is used in two simulations.", "anchors": ["pacman/data/pacman_data_view.py:PacmanDataView.iterate_machine_vertices", "pacman/data/pacman_data_view.py:_PacmanDataModel._clear"]}
{"id": "C147", "title": "The index of a machine vertex is its place", "statement": "The index of every machine vertex is its place in the list of its application vertex, whatever calls were made to remember_machine_vertex.", "quantifier": "all histories of calls", "why_tests_cant": "Needs the same machine vertex to be remembered twice.", "anchors": ["pacman/model/graphs/application/application_vertex.py:ApplicationVertex.remember_machine_vertex"]}
{"id": "C148", "title": "The tables of a graph can be compressed", "statement": "No table that the generators make for a routed graph is empty, and all its masks are blocks of keys if those fixed by the user are. The range compressor (for such masks), the pair compressor (if no table has more different routes than the router has entries) and ordered covering then return one table per chip with at most as many entries, unless a table would not fit; ordered covering that compresses only as needed returns or raises MinimisationFailed and does nothing else.", "quantifier": "all machines, placements, graphs, keys and compressor settings", "why_tests_cant": "Whether the loops end and no index runs out depends on every table the earlier stages can make.", "anchors": ["pacman/operations/router_compressors/ranged_compressor.py:range_compressor,RangeCompressor", "pacman/operations/router_algorithms/application_router.py:route_application_graph", "pacman/operations/routing_info_allocator_algorithms/zoned_routing_info_allocator.py:ZonedRoutingInfoAllocator", "pacman/operations/routing_table_generators/basic_routing_table_generator.py:basic_routing_table_generator", "pacman/operations/routing_table_generators/merged_routing_table_generator.py:merged_routing_table_generator"]}
{"id": "C149", "title": "A mapped graph has compressed tables that deliver its packets", "statement": "After the mapping of a graph each compressor returns, under the conditions of C148, tables that are no longer than those made and with which the packets of each machine vertex reach exactly the cores and links of its targets.", "quantifier": "all machines, faults, graphs, splittings, fixed keys and compressor settings", "why_tests_cant": "Composes six algorithms over all graphs.", "anchors": ["pacman/operations/placer_algorithms/application_placer.py:place_application_graph", "pacman/operations/router_algorithms/application_router.py:route_application_graph", "pacman/operations/routing_info_allocator_algorithms/zoned_routing_info_allocator.py:ZonedRoutingInfoAllocator", "pacman/operations/router_compressors/ranged_compressor.py:range_compressor"]}
{"id": "C150", "title": "The range compressor returns for every mask", "statement": "C148 holds of the range compressor whatever masks the user fixes.", "quantifier": "all machines, placements, graphs, fixed keys and masks", "why_tests_cant": "Needs a mask with a gap beside another entry with the same route.", "anchors": ["pacman/operations/router_compressors/ranged_compressor.py:RangeCompressor._merge_range,_get_endpoint"]}
{"id": "C151", "title": "Keys are found beside fixed keys exactly when there is room", "statement": "For graphs in which machine vertices belong to one source, each partition has its vertices once and partitions without a fixed key ask for keys or have one vertex: flexible_allocate and global_allocate return exactly when (1) a partition without a fixed key has no machine vertex with one, and a partition with one has keys inside it for all of its machine vertices, or for none and has only one; (2) for some split of the 32 bits, every other partition's vertices and keys fit below it, and there are at least as many blocks without a fixed key as there are partitions with senders. Otherwise they raise PacmanRouteInfoAllocationException.", "quantifier": "all graphs, fixed keys and masks, both modes", "why_tests_cant": "The number of blocks in which there is a fixed key depends on every bit of every mask.", "anchors": ["pacman/operations/routing_info_allocator_algorithms/zoned_routing_info_allocator.py:ZonedRoutingInfoAllocator.__find_fixed,__check_zones,__set_fixed_used,__allocate,__allocate_all_fixed"]}
{"id": "C152", "title": "A graph with fixed keys is mapped exactly when its keys fit", "statement": "On a connected machine on which the graph was placed, routes, keys and tables are made exactly when the conditions of C151 hold; otherwise the allocator's exception is raised. The pair compressor then gives tables with which the packets of each machine vertex reach exactly its targets.", "quantifier": "all machines, graphs, splittings, fixed keys and settings", "why_tests_cant": "Composes all stages over all graphs.", "anchors": ["pacman/operations/placer_algorithms/application_placer.py:place_application_graph", "pacman/operations/router_algorithms/application_router.py:route_application_graph", "pacman/operations/routing_info_allocator_algorithms/zoned_routing_info_allocator.py:ZonedRoutingInfoAllocator"]}
{"id": "C153", "title": "Keys are found if there is space for them", "statement": "If the partitions without fixed keys can have blocks of keys apart from each other and from the fixed keys, the allocator finds keys.", "quantifier": "all graphs and fixed keys", "why_tests_cant": "Needs fixed keys that fill nearly all blocks.", "anchors": ["pacman/operations/routing_info_allocator_algorithms/zoned_routing_info_allocator.py:ZonedRoutingInfoAllocator.__check_zones"]}
{"id": "C154", "title": "Tables read from text are those written", "statement": "from_csv reads each line of three fields, or of six (the second to fourth count), whose numbers are in base 16, in order; lines with another number of fields or with something that is no number are left out. It returns exactly when each key lies in its mask and rows with the same key and mask agree on the route; the table then has each key and mask once, no defaultable entries, and routes every packet as the rows do. A table without defaultable entries that is written as hexadecimal rows is read back as it was.", "quantifier": "all files of lines without quotes and minus signs", "why_tests_cant": "All texts and tables.", "anchors": ["pacman/model/routing_tables/uncompressed_multicast_routing_table.py:_from_csv_file,from_csv"]}
{"id": "C155", "title": "The text of a routing entry identifies it", "statement": "format_route gives a text exactly if all links are below 6. Two entries with the same text have the same key, mask, processors, links and defaultable flag; the first three words of the text, as a row of a file, are read back by from_csv as the key, mask and route.", "quantifier": "all entries", "why_tests_cant": "All keys, masks, sets of processors and links.", "anchors": ["pacman/utilities/algorithm_utilities/routes_format.py:format_route,_reduce_route_value,_expand_route_value", "pacman/model/routing_tables/uncompressed_multicast_routing_table.py:_from_csv_file"]}
{"id": "C156", "title": "The place first fixed for a vertex stays", "statement": "Whatever calls of set_fixed_location are made, the fixed location set for a vertex is that of the first call for it; a call is accepted exactly if it names this place again and otherwise raises PacmanConfigurationException and changes nothing. A machine vertex reports its own place, else that of its application vertex.", "quantifier": "all histories of calls", "why_tests_cant": "Histories are unbounded.", "anchors": ["pacman/model/graphs/abstract_vertex.py:AbstractVertex.set_fixed_location,get_fixed_location", "pacman/model/graphs/machine/machine_vertex.py:MachineVertex.get_fixed_location", "pacman/model/graphs/common/chip_and_core.py:ChipAndCore.__eq__"]}
{"id": "C157", "title": "The place a vertex reports does not change", "statement": "Once get_fixed_location of a vertex is not None, it does not change.", "quantifier": "all histories of calls", "why_tests_cant": "Needs the calls for a vertex and its application vertex in a certain order.", "anchors": ["pacman/model/graphs/abstract_vertex.py:AbstractVertex.set_fixed_location", "pacman/model/graphs/machine/machine_vertex.py:MachineVertex.get_fixed_location"]}
{"id": "C158", "title": "Sizes are rounded to the nearest integer or refused", "statement": "round_n_atoms returns an integer as it is, and for a float exactly the integer that is less than a thousandth (the double 0.001) away; if there is none it raises PacmanInvalidParameterException.", "quantifier": "all integers and finite floats", "why_tests_cant": "All numbers.", "anchors": ["pacman/model/graphs/application/application_vertex.py:ApplicationVertex.round_n_atoms"]}
{"id": "C159", "title": "One entry for all machine vertices of an application vertex", "statement": "With keys from the zoned allocator, if the sources on a router are application vertices and, in order of machine index, all machine vertices of other application vertices with one route each, merged_routing_table_generator makes exactly one entry for each application vertex, with its key and route; n consecutive machine vertices with one route never make more than 2 * (log2 n + 1) entries.", "quantifier": "all graphs, routers and routes", "why_tests_cant": "Sizes are unbounded.", "anchors": ["pacman/operations/routing_table_generators/merged_routing_table_generator.py:__create_routing_table,__match,__mask_has_holes,__merged_keys_and_masks", "pacman/model/routing_info/app_vertex_routing_info.py:AppVertexRoutingInfo.merge_machine_entries,__n_sequential_entries"]}
{"id": "C160", "title": "Which edges and base addresses SDRAM partitions accept", "statement": "After any calls, a source-segmented SDRAM partition accepts an edge exactly if its pre-vertex is one of the partition's, has no edge yet, and its post-vertex is that of the edges already there; the other partitions exactly if no base address is set, the edge starts at the partition's pre-vertex and is new (and, for the constant partition, has the size reported so far). Setting the base address succeeds exactly when every pre-vertex has its edge (source-segmented) or there is an edge (others), and otherwise changes nothing.", "quantifier": "all histories of calls", "why_tests_cant": "Histories are unbounded.", "anchors": ["pacman/model/graphs/machine/source_segmented_sdram_machine_partition.py:add_edge,sdram_base_address", "pacman/model/graphs/machine/destination_segmented_sdram_machine_partition.py:add_edge,sdram_base_address", "pacman/model/graphs/machine/constant_sdram_machine_partition.py:add_edge,sdram_base_address"]}
{"id": "C161", "title": "The pair compressor leaves nothing to merge", "statement": "In the result of compress_table, whatever key and mask cover two entries of one route also match some key of an entry of another route; in ordered mode of an entry that comes after both of them.", "quantifier": "all tables of well-formed entries, both orderings and both sorts", "why_tests_cant": "Tables are unbounded.", "anchors": ["pacman/operations/router_compressors/pair_compressor.py:_PairCompressor.compress_table,_find_merge,_compress_by_route"]}
{"id": "C162", "title": "The pair compressor groups entries by route, rarer routes first", "statement": "In the result of compress_table the entries of one route follow each other, and an entry never comes after one whose route more entries of the input have; with the sort written out in the class and with Python's.", "quantifier": "all tables of well-formed entries, both orderings and both sorts", "why_tests_cant": "Tables are unbounded.", "anchors": ["pacman/operations/router_compressors/pair_compressor.py:_PairCompressor.compress_table,_compare_routes,_quicksort_table,_quicksort_routes"]}
{"id": "C163", "title": "Keys follow the order of the atoms", "statement": "When the zoned allocator chooses the keys of a partition, all machine vertices of the application vertex get blocks of one size, noted as n_bits_atoms and machine_mask with the application vertex; the blocks follow each other without gap from the application vertex's key on, in the order of the vertices' first atoms, and each machine vertex's routing info notes its place in that order. In flexible mode the blocks are the smallest that hold the keys of each vertex; in global mode there is one size for all partitions but those that need more, which get the smallest that will do.", "quantifier": "for all graphs, key counts, fixed keys, partitions and both modes in which allocation succeeds", "why_tests_cant": "Tests check the keys of a few graphs whose machine vertices are already listed in order; a missing sort or a size taken from another partition shows only with vertices listed out of order or partitions of different sizes.", "anchors": ["pacman/operations/routing_info_allocator_algorithms/zoned_routing_info_allocator.py:ZonedRoutingInfoAllocator.__allocate,__check_zones,__mask", "pacman/model/routing_info/app_vertex_routing_info.py:AppVertexRoutingInfo"]}
{"id": "C164", "title": "On a machine without faults paths are the vectors' paths", "statement": "If all chips of the machine's rectangle are there and all links between them work, with or without wrap-around, then for a vector without opposing steps that goes around no dimension (in particular one with the fewest steps) the path the application router uses from chip to chip is the longest-dimension-first path unchanged: over working links only, to the destination, no chip twice, with as many steps as the vector. Every chip can be reached from every other, and everything the theorems about mapped graphs assume of paths holds.", "quantifier": "for all machine sizes, wraps, chips and vectors", "why_tests_cant": "Sizes and positions are unbounded; tests use a few machines.", "anchors": ["pacman/utilities/algorithm_utilities/routing_algorithm_utilities.py:longest_dimension_first,vector_to_nodes", "pacman/operations/router_algorithms/application_router.py:_path_without_errors,_path_without_loops,_route_pre_to_post"]}
{"id": "C165", "title": "Faults in one place are routed around", "statement": "Detours found by the application router are shortest. Where links work both ways, a path along a vector with the fewest steps of which at most one stretch is broken is repaired whenever its end can be reached at all: the path used goes over working links only, ends at the destination and comes to no chip twice, also where the detour first runs back along the path. In particular this holds on every machine on which only one chip, or only links of one chip, are missing, for vectors that go around no dimension; there everything the theorems about mapped graphs assume of paths holds. (With two broken stretches it can fail, see C65 and C66.)", "quantifier": "for all machines, vectors and chips", "why_tests_cant": "The fault, the ends and the machine size range over unbounded sets, and that loops of repaired paths are removed correctly depends on distances.", "anchors": ["pacman/operations/router_algorithms/application_router.py:_find_path,_path_without_errors,_path_without_loops,_route_pre_to_post", "pacman/utilities/algorithm_utilities/routing_algorithm_utilities.py:longest_dimension_first"]}
{"id": "C166", "title": "is_single tells whether there is exactly one element", "statement": "For any iterable none of whose elements is None, is_single returns True exactly if it has one element.", "quantifier": "all iterables without None", "why_tests_cant": "Lengths are unbounded.", "anchors": ["pacman/utilities/utility_calls.py:is_single"]}
{"id": "C167", "title": "is_single also counts None", "statement": "is_single returns True exactly if the iterable has one element, whatever its elements are.", "quantifier": "all iterables", "why_tests_cant": "Lengths are unbounded.", "anchors": ["pacman/utilities/utility_calls.py:is_single"]}
{"id": "C168", "title": "Values are equal by contents, also in sets and dictionaries", "statement": "Two slices, fixed locations, placements, key/mask pairs or tag requests are == exactly if they are of one class and all that they were made from is the same (a Slice is never == an MDSlice, from either side); equal ones have equal hashes, so a set or dictionary holds one of each contents, and finds an object exactly if one with its contents was put in, however hashes collide.", "quantifier": "all values, hash functions and sequences of insertions", "why_tests_cant": "Contents and sequences are unbounded.", "anchors": ["pacman/model/graphs/common/slice.py:Slice.__eq__,__hash__", "pacman/model/graphs/common/mdslice.py:MDSlice.__eq__,__hash__", "pacman/model/graphs/common/chip_and_core.py:ChipAndCore.__eq__,__hash__", "pacman/model/placements/placement.py:Placement.__eq__,__hash__", "pacman/model/routing_info/base_key_and_mask.py:BaseKeyAndMask.__eq__,__hash__", "pacman/model/resources/reverse_iptag_resource.py:ReverseIPtagResource.__eq__,__hash__", "pacman/model/resources/iptag_resource.py:IPtagResource.__eq__,__hash__"]}
{"id": "C169", "title": "Equal routing tables are one element of a set", "statement": "Routing tables that compare equal have equal hashes, so that a set that holds a table contains every equal table.", "quantifier": "all tables", "why_tests_cant": "Contents are unbounded.", "anchors": ["pacman/model/routing_tables/uncompressed_multicast_routing_table.py:UnCompressedMulticastRoutingTable.__eq__,__hash__", "pacman/model/routing_tables/compressed_multicast_routing_table.py:CompressedMulticastRoutingTable.__eq__,__hash__"]}
{"id": "C170", "title": "Equality of routing tables is transitive", "statement": "If one routing table equals a second and that a third, then the first equals the third.", "quantifier": "all tables", "why_tests_cant": "Contents are unbounded.", "anchors": ["pacman/model/routing_tables/uncompressed_multicast_routing_table.py:UnCompressedMulticastRoutingTable.__eq__,__hash__", "pacman/model/routing_tables/compressed_multicast_routing_table.py:CompressedMulticastRoutingTable.__eq__,__hash__"]}
{"id": "C171", "title": "Values can be compared with anything", "statement": "Comparing two values with == gives True or False, never an exception.", "quantifier": "all pairs of values", "why_tests_cant": "Any two classes.", "anchors": ["pacman/model/graphs/common/slice.py:Slice.__eq__,__hash__", "pacman/model/graphs/common/mdslice.py:MDSlice.__eq__,__hash__", "pacman/model/graphs/common/chip_and_core.py:ChipAndCore.__eq__,__hash__", "pacman/model/placements/placement.py:Placement.__eq__,__hash__", "pacman/model/routing_info/base_key_and_mask.py:BaseKeyAndMask.__eq__,__hash__", "pacman/model/resources/reverse_iptag_resource.py:ReverseIPtagResource.__eq__,__hash__", "pacman/model/resources/iptag_resource.py:IPtagResource.__eq__,__hash__"]}
{"id": "C172", "title": "Vertices whose shared SDRAM disagrees are put on different chips", "statement": "When some chip has room for a new vertex, placement does not fail because the vertex shares SDRAM under a label that a vertex on another chip uses for another amount.", "quantifier": "all machines and SDRAM costs", "why_tests_cant": "Depends on which chips are tried before.", "anchors": ["pacman/operations/placer_algorithms/application_placer.py:ApplicationPlacer._space_on_chip,_get_next_chip_with_space"]}
{"id": "C173", "title": "Key allocation, routing, table generation, validation, pair compression and ordered covering always end", "statement": "The key allocator (flexible and global), the fixed route router, the basic and merged table generators, validate_routes, the application router (route_application_graph, and each of its searches), PairCompressor.compress_table, ordered covering (also of entries that overlap), the setters that a vertex and its splitter call on each other, and the addition of SDRAM costs return or raise an exception on every input; validate_routes also for tables that send packets round for ever. (place_application_graph: C27; the range compressor does not: C92.)", "quantifier": "all inputs", "why_tests_cant": "Non-termination shows on no finite set of inputs that do terminate.", "anchors": ["pacman/operations/routing_info_allocator_algorithms/zoned_routing_info_allocator.py:ZonedRoutingInfoAllocator.__allocate", "pacman/operations/fixed_route_router/fixed_route_router.py:_route_board", "pacman/operations/routing_table_generators/merged_routing_table_generator.py:merged_routing_table_generator", "pacman/operations/routing_table_generators/basic_routing_table_generator.py:basic_routing_table_generator", "pacman/operations/multi_cast_router_check_functionality/valid_routes_checker.py:validate_routes,_recursive_trace_to_destinations", "pacman/operations/router_algorithms/application_router.py:route_application_graph,_find_path,_route_to_xys,_find_reachable,_convert_a_route", "pacman/operations/router_compressors/pair_compressor.py:_PairCompressor.compress_table"]}
{"id": "C174", "title": "pair_compressor(verify=True) returns only tables that fit, and never in silence", "statement": "pair_compressor with verify=True returns the tables that it returns without the flag if each has at most as many entries as the router of its chip, and otherwise raises PacmanElementAllocationException; an exception raised without the flag is raised with it too. In the default mode (ordered, no accepted overflow) the flag makes no difference.", "quantifier": "all tables, router sizes and flags", "why_tests_cant": "Depends on which tables compress far enough.", "anchors": ["pacman/operations/router_compressors/pair_compressor.py:pair_compressor,verify_lengths", "pacman/operations/router_compressors/abstract_compressor.py:AbstractCompressor.compress_tables"]}
{"id": "C175", "title": "The report of a failed placement tells what was placed and which chips are unused", "statement": "When place_application_graph raises PacmanPlaceException, the report file lists the placements made for the application vertices, names exactly the application vertices that were not (all) placed, and gives as unused the chips on which nothing of the application was placed.", "quantifier": "all machines, graphs and system placements", "why_tests_cant": "Whether the two Placements objects are one object shows only in what the report leaves out.", "anchors": ["pacman/operations/placer_algorithms/application_placer.py:ApplicationPlacer._place_error,do_placements", "pacman/operations/placer_algorithms/application_placer.py:place_application_graph"]}
{"id": "C176", "title": "A failed placement leaves the given placements as they were", "statement": "A call of place_application_graph that raises leaves the Placements object that it was given as it was.", "quantifier": "all machines, graphs and system placements", "why_tests_cant": "The state after an exception depends on how far the placer came.", "anchors": ["pacman/operations/placer_algorithms/application_placer.py:place_application_graph", "pacman/operations/placer_algorithms/application_placer.py:ApplicationPlacer.do_placements,_place_vertex,_do_fixed_location"]}
{"id": "C177", "title": "The checker accepts what the compressors return", "statement": "If no two entries of a routing table share a key, compare_tables of the table and the result of PairCompressor (ordered or not), RangeCompressor or ordered covering does not raise, although entries are merged, reordered and left out and flags change.", "quantifier": "all tables of 32-bit entries without overlaps, all options", "why_tests_cant": "The two programs are written independently; agreement on some tables says nothing of others.", "anchors": ["pacman/operations/router_compressors/routing_compression_checker.py:compare_tables,compare_route", "pacman/operations/router_compressors/pair_compressor.py:_PairCompressor.compress_table", "pacman/operations/router_compressors/ranged_compressor.py:RangeCompressor.compress_table", "pacman/operations/router_compressors/ordered_covering_router_compressor/ordered_covering_compressor.py:_OrderedCoveringCompressor.compress_table"]}
{"id": "C178", "title": "The compressed tables of a mapped graph pass the checker, and tables that pass deliver", "statement": "For the tables generated for a routed graph, compare_tables accepts on every chip the table made by the pair, range or ordered covering compressor; and any tables of 32-bit entries without repeated key and mask that it accepts against the basic tables bring every packet to its targets and nowhere else.", "quantifier": "all machines, graphs and keys as in C124", "why_tests_cant": "Chains router, allocator, generator, compressor and checker.", "anchors": ["pacman/operations/router_compressors/routing_compression_checker.py:compare_tables,compare_route", "pacman/operations/router_compressors/pair_compressor.py:_PairCompressor.compress_table", "pacman/operations/router_compressors/ranged_compressor.py:RangeCompressor.compress_table", "pacman/operations/router_compressors/ordered_covering_router_compressor/ordered_covering_compressor.py:_OrderedCoveringCompressor.compress_table", "pacman/operations/routing_table_generators/basic_routing_table_generator.py:basic_routing_table_generator"]}
{"id": "C179", "title": "Tables that pass the checker against merged tables deliver", "statement": "Any tables that compare_tables accepts against the merged tables of a routed graph bring every packet to its targets.", "quantifier": "all machines, graphs and keys as in C124", "why_tests_cant": "Depends on which entries are merged.", "anchors": ["pacman/operations/router_compressors/routing_compression_checker.py:compare_tables,compare_route", "pacman/operations/routing_table_generators/merged_routing_table_generator.py:merged_routing_table_generator"]}
{"id": "C180", "title": "When the route checker accepts the tables of a graph", "statement": "validate_routes accepts the tables that either generator makes for a routed graph exactly when every vertex that receives something is on a core and no chip that the packets of a source come to has a contiguous entry whose key is the one right after the keys of the atoms; so with more keys than atoms per source, a graph that was placed and mapped is accepted exactly when no device receives.", "quantifier": "all machines, graphs and keys as in C124 and C131 (and fixed keys as in C137) in which no chip is asked for both a whole source and parts of it", "why_tests_cant": "Chains placer, router, allocator, generator and checker, which were written apart.", "anchors": ["pacman/operations/multi_cast_router_check_functionality/valid_routes_checker.py:validate_routes,_search_route,_locate_routing_entry", "pacman/operations/router_algorithms/application_router.py:route_application_graph", "pacman/operations/routing_info_allocator_algorithms/zoned_routing_info_allocator.py:allocate", "pacman/operations/routing_table_generators/basic_routing_table_generator.py:basic_routing_table_generator", "pacman/operations/routing_table_generators/merged_routing_table_generator.py:merged_routing_table_generator"]}
{"id": "C181", "title": "The route checker accepts the tables of every graph that was routed", "statement": "If all packets of a routed graph reach their targets and nothing else, validate_routes accepts the tables.", "quantifier": "all machines, graphs and keys as in C124", "why_tests_cant": "The unit tests check graphs without devices whose sources leave keys unused.", "anchors": ["pacman/operations/multi_cast_router_check_functionality/valid_routes_checker.py:validate_routes,_search_route,_locate_routing_entry", "pacman/operations/router_algorithms/application_router.py:route_application_graph", "pacman/operations/routing_info_allocator_algorithms/zoned_routing_info_allocator.py:allocate", "pacman/operations/routing_table_generators/basic_routing_table_generator.py:basic_routing_table_generator", "pacman/operations/routing_table_generators/merged_routing_table_generator.py:merged_routing_table_generator"]}
{"id": "C182", "title": "Paths on boards that are not rectangles", "statement": "On a machine without wraps whose chips are those of a rectangle between two diagonals, as on the board of 48 chips, the path along a vector of fewest steps never leaves the board: it is used as it is, over working links, to no chip twice and with as many steps as the vector; with one chip or links of one chip missing, every chip that can be reached is reached over working links; so the theorems about whole mappings apply to such boards.", "quantifier": "all sizes and diagonals, all pairs of chips, all places of the fault", "why_tests_cant": "A board has 2304 pairs of chips and 48 places for a fault; tests try a few.", "anchors": ["pacman/operations/router_algorithms/application_router.py:_route_pre_to_post,_path_without_errors,_path_without_loops,_find_path", "pacman/utilities/algorithm_utilities/routing_algorithm_utilities.py:longest_dimension_first,vector_to_nodes"]}
{"id": "C183", "title": "The number of chips of a partitioned graph can be set", "statement": "The number of chips that splitter_partitioner returns is accepted by PacmanDataWriter.set_n_chips_in_graph and is then the number of chips needed if the user asked for none.", "quantifier": "all graphs", "why_tests_cant": "Chains the splitters, the chip counter and the data writer.", "anchors": ["pacman/operations/partition_algorithms/splitter_partitioner.py:splitter_partitioner", "pacman/utilities/utility_objs/chip_counter.py:ChipCounter.add_core,n_chips", "pacman/data/pacman_data_writer.py:PacmanDataWriter.set_n_chips_in_graph", "pacman/data/pacman_data_view.py:PacmanDataView.get_n_chips_needed"]}
{"id": "C184", "title": "No source is left out of the generated tables", "statement": "Whenever basic_routing_table_generator returns, each router has a table with exactly one entry for each of its sources, in their order, with the key and mask of the source and the route and defaultable flag of its routing entry. Whenever merged_routing_table_generator returns, every source of every router has a key and every entry has the route and flag of a source. A source without routing information therefore makes both raise.", "quantifier": "all tables by partition and routing information, without assumptions on the keys", "why_tests_cant": "Tests give keys to all sources.", "anchors": ["pacman/operations/routing_table_generators/basic_routing_table_generator.py:basic_routing_table_generator,__create_routing_table", "pacman/operations/routing_table_generators/merged_routing_table_generator.py:merged_routing_table_generator,__create_routing_table", "pacman/model/routing_info/routing_info.py:RoutingInfo.get_info_from"]}
{"id": "C185", "title": "Tables can be generated for every graph that is routed and has keys", "statement": "If route_application_graph and the key allocator return for a graph, both table generators return tables for their results.", "quantifier": "all graphs and splitters", "why_tests_cant": "The router asks the splitters of the targets for sources, the allocator asks the splitter of the source; unit tests use splitters that agree.", "anchors": ["pacman/operations/router_algorithms/application_router.py:route_application_graph", "pacman/operations/routing_info_allocator_algorithms/zoned_routing_info_allocator.py:ZonedRoutingInfoAllocator.allocate", "pacman/operations/routing_table_generators/basic_routing_table_generator.py:basic_routing_table_generator", "pacman/model/partitioner_splitters/abstract_splitter_common.py:AbstractSplitterCommon.get_out_going_vertices,get_source_specific_in_coming_vertices"]}
{"id": "C186", "title": "The report of a failed placement counts the vertices left of the last application vertex", "statement": "When place_application_graph fails for lack of space, the line 'Could not place N of M in the last app vertex' of placements_error.txt tells how many of the machine vertices of the application vertex that failed could not be placed.", "quantifier": "all machines, system placements and graphs", "why_tests_cant": "Needs the interplay of the all-or-nothing placement of an application vertex with the loop that counts.", "anchors": ["pacman/operations/placer_algorithms/application_placer.py:ApplicationPlacer._place_error,_place_vertex,do_placements"]}
{"id": "C187", "title": "Partitions get their keys in the order of the graph, in blocks of one size without gaps", "statement": "The application vertex keys that ZonedRoutingInfoAllocator chooses are aligned blocks of one size 2^s ('the split between the AP bit and other parts is always fixed'), increasing in the order in which the partitions come in the graph; in flexible mode s is no larger than the largest partition needs. Below the block of a partition there is exactly one block for each sending partition before it and one for each block in which there are keys fixed by the user (in global mode with fixed keys: if one partition is largest on both counts).", "quantifier": "all graphs, key numbers and fixed keys", "why_tests_cant": "Tests check disjointness and masks of a few graphs; the order, the absence of gaps and the minimal width hold for all graphs.", "anchors": ["pacman/operations/routing_info_allocator_algorithms/zoned_routing_info_allocator.py:ZonedRoutingInfoAllocator.__allocate,__calculate_zones,__check_zones,__set_fixed_used"]}
{"id": "C188", "title": "Keys of one route that fill a block become one entry of the range compressor", "statement": "If all keys of an aligned block of 2^t keys (t > 0) have one route in a table of disjoint entries with contiguous masks, one entry of RangeCompressor's result matches them all, with this route; in particular no entry of the table is split.", "quantifier": "all tables and blocks", "why_tests_cant": "The number of splittings of a block into entries is unbounded; tests use a few tables and check the length.", "anchors": ["pacman/operations/router_compressors/ranged_compressor.py:RangeCompressor.compress_table,_merge_range"]}
{"id": "C189", "title": "Unordered pair compression leaves nothing for a second one", "statement": "Compressing the result of unordered pair compression again in unordered mode, with either sort, returns the same entries in some order. The same holds for every table in which every key and mask that cover two entries of one route match a key of an entry of another route.", "quantifier": "all tables of well-formed entries, both sorts", "why_tests_cant": "The number of greedy merges is unbounded; a test can only compress particular tables twice.", "anchors": ["pacman/operations/router_compressors/pair_compressor.py:_PairCompressor.compress_table,_compress_by_route,_find_merge"]}
{"id": "C190", "title": "Compressing a compressed table with the pair compressor keeps its routing", "statement": "If the result of compress_table is given to compress_table again, packets of the original entries are still sent along the original routes.", "quantifier": "all consistent tables, orderings and sorts", "why_tests_cant": "The ordered result depends on the order of its entries, which the second run sorts anew.", "anchors": ["pacman/operations/router_compressors/pair_compressor.py:_PairCompressor.compress_table,_compare_routes"]}
{"id": "C191", "title": "The pixels of a 2D device reach the targets of their rectangles", "statement": "If a device's partition uses the keys of Abstract2DDeviceVertex, a packet with the key of pixel (x, y), entering over the link of the machine vertex of the rectangle in which the pixel lies, reaches the places of the targets of the partition and no other core or device, also after compression. The device needs more than one rectangle in each direction or only one pixel in it, the key blocks of different devices must not overlap, and for merged tables the masks of the rectangles must not be those the allocator would derive, or must be laid out as the allocator lays them out (C137).", "quantifier": "all machines, graphs, device and rectangle sizes, pixels, and compressor settings", "why_tests_cant": "Composes the key arithmetic of devices with placing, routing, key allocation, table generation and compression over all graphs.", "anchors": ["pacman/model/graphs/application/abstract/abstract_2d_device_vertex.py:Abstract2DDeviceVertex._get_key_and_mask,_key_shift", "pacman/operations/routing_info_allocator_algorithms/zoned_routing_info_allocator.py:ZonedRoutingInfoAllocator", "pacman/operations/router_algorithms/application_router.py:route_application_graph", "pacman/operations/routing_table_generators/merged_routing_table_generator.py:merged_routing_table_generator"]}
{"id": "C192", "title": "The checker and the tables of a placed graph with fixed keys", "statement": "When a graph is placed and mapped, also with fixed keys as in C140, compare_tables accepts on every chip the table that the pair, range or ordered covering compressor makes; and any tables of 32-bit entries without repeated key and mask that it accepts against the basic tables bring every packet to the places of its targets and nowhere else.", "quantifier": "all machines, graphs and keys as in C140, and all compressor settings", "why_tests_cant": "Composes placing, routing, key allocation, table generation, compression and the checker over all graphs.", "anchors": ["pacman/operations/router_compressors/routing_compression_checker.py:compare_tables,compare_route", "pacman/operations/router_algorithms/application_router.py:route_application_graph", "pacman/operations/placer_algorithms/application_placer.py:place_application_graph"]}
{"id": "C193", "title": "As many perfect chips as the chip counter counts are enough for the placer", "statement": "If every machine vertex is added to a ChipCounter and the machine has n_chips chips with all cores and SDRAM that the monitors leave, then place_application_graph places the graph.", "quantifier": "all costs and numbers of vertices, all machines", "why_tests_cant": "The counter and the placer judge a full chip differently, which shows only for some costs.", "anchors": ["pacman/utilities/utility_objs/chip_counter.py:add_core,n_chips", "pacman/operations/placer_algorithms/application_placer.py:_space_on_chip,do_placements"]}
{"id": "C194", "title": "Vertices of an even share of the SDRAM fill every core", "statement": "If the monitors leave k cores and some SDRAM on each chip and no vertex needs more than the k-th part of that SDRAM, the placer places k application vertices of one machine vertex per chip.", "quantifier": "all machines, monitors and costs", "why_tests_cant": "The placer's limit for a full chip counts the monitors' SDRAM twice, which tests without monitor placements do not show.", "anchors": ["pacman/operations/placer_algorithms/application_placer.py:__init__,_space_on_chip", "pacman/data/pacman_data_view.py:get_all_monitor_sdram"]}
{"id": "C195", "title": "An application vertex of small machine vertices is placed exactly when linked chips have the free cores", "statement": "After place_application_graph has placed some application vertices, where SDRAM is no limit on chips with free cores, one more application vertex whose machine vertices have no fixed location is placed if and only if some chips with free cores, each reached from one of them over links between them, have together at least as many free cores as it has machine vertices; otherwise the placer raises.", "quantifier": "all machines, set orders, graphs placed before, and numbers of machine vertices", "why_tests_cant": "The search starts at each chip in turn and spreads over neighbours; tests try a few shapes of the free chips, not all.", "anchors": ["pacman/operations/placer_algorithms/application_placer.py:_place_vertex,_prepare_placements,_get_next_chip_with_space,_get_next_neighbour,_add_neighbours,_get_next_start"]}
{"id": "C196", "title": "An application vertex is placed when the machine has enough free cores", "statement": "Where SDRAM is no limit, an application vertex whose machine vertices have no fixed location is placed whenever the chips have together as many free cores as it has machine vertices.", "quantifier": "all machines, set orders, graphs placed before, and numbers of machine vertices", "why_tests_cant": "Whether full chips separate free ones depends on what was placed before.", "anchors": ["pacman/operations/placer_algorithms/application_placer.py:_get_next_neighbour,_add_neighbours,_place_vertex"]}
{"id": "C197", "title": "The graphs for which the placer raises NotImplementedError", "statement": "Where links lead to chips, groups neither mix virtual and real vertices nor share vertices: place_application_graph raises NotImplementedError only if some application vertex with a fixed location has no groups or has a group in which no vertex that is real and not a system placement has a fixed location, or some group has a part of its vertices in the system placements; and a graph with such an application vertex is never placed.", "quantifier": "all machines, graphs, system placements and fixed locations", "why_tests_cant": "Which groups are placed when the check is made depends on all that was placed before.", "anchors": ["pacman/operations/placer_algorithms/application_placer.py:_place_fixed_vertex,_do_fixed_location,_filter_vertices,do_placements"]}
{"id": "C198", "title": "An application vertex with nothing left to place is accepted", "statement": "An application vertex of which each group is virtual or was placed before changes nothing when the graph is placed, also if it has a fixed location.", "quantifier": "all machines, graphs placed before, devices and system placements", "why_tests_cant": "Only some mixes of fixed locations, devices and system vertices show it.", "anchors": ["pacman/operations/placer_algorithms/application_placer.py:_place_fixed_vertex,_do_fixed_location,_filter_vertices,_prepare_placements"]}
{"id": "C199", "title": "The range compressor leaves tables that fit as they are", "statement": "Unless router_table_compress_as_far_as_possible is set, range_compressor returns every table that has no more entries than the router of its chip has place for with the same entries, as the other compressors do.", "quantifier": "all tables and router sizes", "why_tests_cant": "The limit shows only for tables that fill their router exactly.", "anchors": ["pacman/operations/router_compressors/ranged_compressor.py:compress_table,range_compressor", "pacman/operations/router_compressors/abstract_compressor.py:compress_tables"]}
{"id": "C200", "title": "Devices add nothing to the number of chips of a graph", "statement": "The number of chips that splitter_partitioner returns is that of a ChipCounter given only the machine vertices that run on cores: the machine vertices of devices are virtual and take no core of a chip.", "quantifier": "all sequences of calls that end with a partitioning, all mixes of devices and other vertices", "why_tests_cant": "Whether devices start a further chip depends on the order and the costs of all other vertices.", "anchors": ["pacman/model/partitioner_splitters/splitter_external_device.py:SplitterExternalDevice.create_machine_vertices", "pacman/utilities/utility_objs/chip_counter.py:ChipCounter.add_core,n_chips", "pacman/operations/partition_algorithms/splitter_partitioner.py:splitter_partitioner"]}
{"id": "C201", "title": "The chip counter counts the least number of chips", "statement": "After any sequence of add_core calls, in whatever order, n_chips is the least number of chips onto which the cores added can be arranged within the cores and the SDRAM of a chip.", "quantifier": "all sequences of requests and all arrangements on chips", "why_tests_cant": "All orders of all requests and all arrangements.", "anchors": ["pacman/utilities/utility_objs/chip_counter.py:ChipCounter.add_core,n_chips"]}
{"id": "C202", "title": "Ordered covering keeps the routing of tables with overlaps that are sorted by generality", "statement": "For a table whose entries may overlap, if no entry has fewer don't-care bits than an earlier one and no key and mask come twice, ordered_covering returns a table in which every packet that matched is first matched by an entry of the same route (defaultable only if the first match was), and which is such a table again. So it may be applied to its own result without the aliases of the first run.", "quantifier": "all such tables, targets and keys; all pairs of runs", "why_tests_cant": "Overlapping tables are unbounded in number; a test tries a few.", "anchors": ["pacman/operations/router_compressors/ordered_covering_router_compressor/ordered_covering.py:ordered_covering", "pacman/operations/router_compressors/ordered_covering_router_compressor/ordered_covering.py:_OrderedCoveringCompressor.compress_table"]}
{"id": "C203", "title": "Compressing a compressed table again keeps the routing", "statement": "_OrderedCoveringCompressor.compress_table, applied to its own result, leaves every packet with the route that the original table gave it, or to default routing where the original entry was defaultable.", "quantifier": "all orthogonal tables, targets and keys", "why_tests_cant": "All tables, all pairs of targets.", "anchors": ["pacman/operations/router_compressors/ordered_covering_router_compressor/ordered_covering.py:_OrderedCoveringCompressor.compress_table", "pacman/operations/router_compressors/ordered_covering_router_compressor/utils.py:remove_default_routes"]}
{"id": "C204", "title": "Ordered covering may follow the range compressor", "statement": "For an orthogonal table whose masks are prefixes, the ordered covering compressor applied to the result of the range compressor (whose entries may overlap with different routes) leaves every packet with the route of its original entry, or to default routing where that entry was defaultable.", "quantifier": "all such tables, targets and keys", "why_tests_cant": "A composition of two compressors over all tables.", "anchors": ["pacman/operations/router_compressors/ranged_compressor.py:RangeCompressor.compress_table", "pacman/operations/router_compressors/ordered_covering_router_compressor/ordered_covering.py:_OrderedCoveringCompressor.compress_table"]}
{"id": "C205", "title": "Packets are delivered after range compression followed by ordered covering", "statement": "When the basic routing tables of a graph (or merged ones whose members agree about default routing) are compressed with range_compressor and the result with ordered_covering_compressor, every packet with a key of the graph still reaches exactly the targets of its sender, unlike after range_compressor followed by pair_compressor.", "quantifier": "all machines, placements, graphs, prefix keys and compressor settings", "why_tests_cant": "Composes five algorithms over all graphs.", "anchors": ["pacman/operations/router_compressors/ranged_compressor.py:range_compressor", "pacman/operations/router_compressors/ordered_covering_router_compressor/ordered_covering.py:ordered_covering_compressor", "pacman/operations/router_algorithms/application_router.py:route_application_graph"]}
{"id": "C206", "title": "Ordered covering keeps the routing of tables whose overlapping entries agree", "statement": "For a table in which entries that share a key have the same route and no key and mask come twice, ordered_covering returns a table in which every packet that an entry matched is first matched by an entry of the same route; compress_table leaves a packet without an entry only if every entry that matched it was defaultable. The results of the pair compressor in unordered mode are such tables.", "quantifier": "all such tables, targets and keys", "why_tests_cant": "All tables with any overlaps of one route.", "anchors": ["pacman/operations/router_compressors/ordered_covering_router_compressor/ordered_covering.py:ordered_covering", "pacman/operations/router_compressors/pair_compressor.py:_PairCompressor.compress_table"]}
{"id": "C207", "title": "Compressors may be applied one after the other", "statement": "The result of the pair compressor may be compressed by ordered covering and the other way round: every packet that matched an entry of the original table keeps its route.", "quantifier": "all orthogonal tables, modes, targets and keys", "why_tests_cant": "A composition of two compressors over all tables.", "anchors": ["pacman/operations/router_compressors/pair_compressor.py:_PairCompressor.compress_table", "pacman/operations/router_compressors/ordered_covering_router_compressor/ordered_covering.py:_OrderedCoveringCompressor.compress_table"]}
{"id": "C208", "title": "A call on the shared data that raises changes nothing", "statement": "A setter of the writer, add_vertex or add_edge (of the view or the writer) or set_label that raises leaves everything that can be asked of the shared data as it was, also whether mapping is required and the labels that later vertices get.", "quantifier": "all states of the data and all calls", "why_tests_cant": "All histories of calls.", "anchors": ["pacman/data/pacman_data_view.py:PacmanDataView.add_vertex", "pacman/data/pacman_data_view.py:PacmanDataView.add_edge", "pacman/data/pacman_data_writer.py:PacmanDataWriter.set_n_required", "pacman/model/graphs/application/application_graph.py:ApplicationGraph.add_vertex"]}
{"id": "C209", "title": "Packets are delivered after unordered pair compression followed by ordered covering", "statement": "When the basic routing tables of a graph (or merged ones whose members agree about default routing) are compressed with the pair compressor in unordered mode and the result with ordered_covering_compressor, every packet with a key of the graph still reaches exactly the targets of its sender; a packet is left to default routing only if its own entry was defaultable.", "quantifier": "all machines, placements, graphs, keys and compressor settings", "why_tests_cant": "Composes five algorithms over all graphs.", "anchors": ["pacman/operations/router_compressors/pair_compressor.py:pair_compressor", "pacman/operations/router_compressors/ordered_covering_router_compressor/ordered_covering.py:ordered_covering_compressor", "pacman/operations/router_algorithms/application_router.py:route_application_graph"]}
{"id": "C210", "title": "The report of a failed placement names every application vertex that was not placed", "statement": "When there is no space and place_application_graph writes its report, every application vertex with real machine vertices that are not placed is named among those that could not be placed, and every one named has such a vertex.", "quantifier": "all machines, placements before the call and graphs", "why_tests_cant": "All graphs and all points of failure.", "anchors": ["pacman/operations/placer_algorithms/application_placer.py:ApplicationPlacer._place_error"]}
{"id": "C211", "title": "The picture of the placements shows where the application is", "statement": "In the picture drawn by the placer (draw_placements) a chip is shown as unused exactly if only system vertices are placed on it; any other chip has the colour of the application vertex of the first vertex there that is not of the system, and every chip of the machine has a colour.", "quantifier": "all machines, system placements, graphs and chips", "why_tests_cant": "All results of the placer; the picture is not compared with anything.", "anchors": ["pacman/operations/placer_algorithms/draw_placements.py:draw_placements", "pacman/operations/placer_algorithms/application_placer.py:ApplicationPlacer.do_placements"]}
{"id": "C212", "title": "The region that an SDRAM partition reports for a vertex is the one of its edges", "statement": "Once the base address is set, get_sdram_base_address_for and get_sdram_size_of_region_for of a segmented SDRAM partition give, for a vertex at an end of its edges, exactly the memory of the edges of that vertex, and raise for any other vertex.", "quantifier": "all histories of calls, edges and vertices", "why_tests_cant": "All orders of edges and sizes.", "anchors": ["pacman/model/graphs/machine/source_segmented_sdram_machine_partition.py:SourceSegmentedSDRAMMachinePartition.get_sdram_base_address_for", "pacman/model/graphs/machine/destination_segmented_sdram_machine_partition.py:DestinationSegmentedSDRAMMachinePartition.get_sdram_size_of_region_for", "pacman/model/graphs/machine/constant_sdram_machine_partition.py:ConstantSDRAMMachinePartition.get_sdram_base_address_for"]}
{"id": "C213", "title": "An accepted limit of atoms per core loses no atoms", "statement": "Whatever limit of atoms per core a vertex was given and accepted, the slices that get_multidimensional_slices makes (and so the machine vertices of SplitterFixedLegacy) hold all of its atoms.", "quantifier": "all shapes and all integers as limits", "why_tests_cant": "All limits, also those that nobody thinks of testing.", "anchors": ["pacman/utilities/algorithm_utilities/partition_algorithm_utilities.py:get_multidimensional_slices", "pacman/model/graphs/application/application_vertex.py:ApplicationVertex.set_max_atoms_per_dimension_per_core"]}
{"id": "C214", "title": "The chip counter never counts a chip for more vertices than it has cores", "statement": "Whatever SDRAM the vertices ask for (also more than a chip has) and however many cores the monitors take, the chips that ChipCounter counts can hold the vertices in order: no chip gets more vertices than it has cores left, and each is within its SDRAM or holds one vertex that fits no chip.", "quantifier": "all numbers of cores and amounts of SDRAM left per chip, all sequences of requests", "why_tests_cant": "All sequences of requests and all numbers of monitors.", "anchors": ["pacman/utilities/utility_objs/chip_counter.py:ChipCounter.add_core", "pacman/utilities/utility_objs/chip_counter.py:ChipCounter.n_chips"]}

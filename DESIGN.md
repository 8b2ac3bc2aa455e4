# Formal model of PACMAN in Rocq

## Approach

The Python source in `/repo` is read as text and re-expressed, function by
function, as total computable Gallina functions.  Python exceptions are values
(`Err e` of a result type).  `while` loops that are not obviously structural
take a fuel argument; running out of fuel is an explicit error value
(`OutOfFuel`), and a theorem proves that a stated amount of fuel always suffices
(or, where the code really can loop for ever, a refutation theorem shows that no
amount does).

Each area has

* `XModel.v`  - the model; every definition cites the file and lines it models,
* `XProofs.v` (and sometimes more) - specification vocabulary and lemmas,
* `XProps.v`  - only the property theorems (`Proof. exact lemma. Qed.`), the
  refutations, the non-vacuity examples and `Print Assumptions`.

Shared files: `Base.v` (result type, loops), `Dict.v` (Python dictionaries as
association lists in insertion order), `Json.v` (JSON values), `RouteSpec.v`
(how a SpiNNaker router looks a key up: the specification used by all routing
table theorems), `KeyMask.v` (bit facts on key/mask pairs), `MachModel.v`
(machines).

Where a natural statement holds except for one clause, it is split: the true
part is a proved property and the false clause is a property of its own with a
refutation.

Integers: routing keys and masks are `N` (non-negative Python ints; 32-bit
boundedness is a hypothesis where the code needs it).  Python `int` elsewhere is
`Z` or `nat`.  Floats: the places where the code goes through `math.log2`,
`math.ceil(a / b)` are modelled by exact integer arithmetic (`N.log2_up`,
ceiling division); the rounding of IEEE doubles is outside the model (it is
exact for values below 2^48, which includes each 32-bit quantity).

## Trusted base

* The kernel of Coq 8.16.1.
* Axioms: none.  Every property theorem is followed by `Print Assumptions`, and
  each of them prints "Closed under the global context".  (A scan of all loaded
  libraries also lists seven constants `Coq.ssr.ssrunder.Under_rel.*`: the standard
  library's `ssreflect` support declares a module type there and is loaded
  together with `lia`.  No theorem depends on them, as `Print Assumptions` shows.)
* The reading of the Python source: the model is tied to the code only by the
  line citations.
* Libraries that are not in `/repo` and are modelled by their documented
  contract: `spinn_machine` (`MulticastRoutingEntry`: key & mask = key or an
  exception; `RoutingEntry`: sets of links and processors, incoming link or
  processor but not both, `merge` is the union and is defaultable if both are and
  have the same route; `Machine`, `Chip`, `Router`, `Version`),
  `spinn_utilities` (`OrderedSet`, progress bars, configuration), `numpy` index
  arithmetic, Python's dictionaries, sorting (stable) and exceptions.
* Not used: plugins, functors, native or VM casts beyond `vm_compute` in examples
  and refutations.

## What is modelled

Each row names the theory, the source it models, and every simplification.
Paths are below `/repo/pacman`.

| theory | source | simplified or left out |
|---|---|---|
| Pair | `operations/router_compressors/pair_compressor.py`, all of it | instance attributes are arguments and results; both sort implementations |
| Range | `operations/router_compressors/ranged_compressor.py`, all of it | `-1` indices never arise on the paths taken |
| Default | `…/ordered_covering_router_compressor/utils.py` `intersect`, `remove_default_routes` |  |
| Ordered | `…/ordered_covering_router_compressor/ordered_covering.py`, all of it | `time_to_run_for` and timers left out (always None in the one caller); sets of indices are increasing lists, sets of pairs are lists |
| Checker | `operations/router_compressors/routing_compression_checker.py` | report writing left out |
| Tables | `model/routing_tables/*.py`, `operations/router_compressors/abstract_compressor.py` `compress_tables` | equality of entries is a parameter |
| Csv | `uncompressed_multicast_routing_table.py` `from_csv`; `routes_format.py` | a file is its lines; fields in quotes, minus signs and non-ASCII digits left out |
| Vertex | fixed locations of `abstract_vertex.py`, `machine_vertex.py`, `chip_and_core.py`; `application_vertex.py` `round_n_atoms` | vertices are numbers; floats are finite rationals (the one subtraction is exact) |
| Eq | `__eq__` and `__hash__` of slices, `chip_and_core.py`, `placement.py`, `base_key_and_mask.py`, the tag requests and routing tables; Python's rule for "a == b" between a class and its subclass; membership of sets | hash functions of integers, tuples and identities are parameters; vertices and strings are numbers |
| Util | `utilities/utility_calls.py`, `model/routing_info/base_key_and_mask.py`, `utilities/algorithm_utilities/routes_format.py` route value | `md5` left out; values below 2^32 (numpy raises otherwise) |
| Alloc | `operations/routing_info_allocator_algorithms/zoned_routing_info_allocator.py`, constructors of routing infos, `RoutingInfo.add_routing_info` | graph objects are functions; a fresh allocator; `__mask` on at most 32 bits; index subtraction truncated at 0 |
| Gen | `operations/routing_table_generators/*.py`, `model/routing_info/app_vertex_routing_info.py` merging | exact logarithm; the table by partition is given as item lists per router |
| Slice | `model/graphs/common/slice.py`, `mdslice.py`, `utilities/algorithm_utilities/partition_algorithm_utilities.py`, index methods of `application_vertex.py`, slices of FPGA and SpiNNaker-link vertices | float division exact; numpy arrays are lists |
| Text | `utilities/json_utils.py`, text of slices | reading files left out; `int(text)` for sign, digits and leading spaces only |
| Device | `model/graphs/application/abstract/abstract_2d_device_vertex.py` | overridable shifts and masks at their defaults |
| Placements | `model/placements/*.py` | vertices are numbers; generators are run to their end |
| Sdram, Region | `model/resources/*sdram.py`, `utilities/utility_objs/chip_counter.py` | per-timestep costs are exact rationals (floats in the code); aliasing of `MultiRegionSDRAM` through a heap in Region; `report` and text left out |
| Part | the SDRAM edge partitions in `model/graphs/machine` and their base classes | edge base addresses are kept by the partition; edges have the right type |
| Graph | `model/graphs/application/application_graph.py`, labels of `abstract_vertex.py`, edge partitions | objects are numbers; type checks and `add_incoming_edge` (empty by default) left out |
| Tree | `utilities/algorithm_utilities/routing_tree.py` | trees are values, built from the leaves |
| Ldf | `utilities/algorithm_utilities/routing_algorithm_utilities.py` `longest_dimension_first`, `vector_to_nodes` | the random choice of an order is a parameter |
| Path | `operations/router_algorithms/application_router.py` `_route_pre_to_post`, `_path_without_errors`, `_path_without_loops`, `_find_path`, `_is_ok` | `get_vector` of the machine is a parameter |
| Router | `operations/router_algorithms/application_router.py` `route_application_graph`, `_route_source_to_target`, `_route_single_source_to_target`, `_route_multiple_source_to_target`, `_route_source_to_source`, `_route_internal`, `_make_source_to_target_routes`, `_make_source_to_source_routes`, `_make_source_to_source_edge_routes`, `_find_target_xy`, `_get_outgoing_mapping`, `_route_pre_to_post`, `_get_filtered_internal_partitions`; `routing_algorithm_utilities.py` `get_app_partitions` | splitters, placements and `get_vector` are parameters, the iteration order of a set is a parameter; C106-C108 assume that every chip of a source has a sending vertex (C110), that vectors lead to their chips and that no repaired path returns into a loop (C65) |
| Chain | the stages router, key allocator, table generator and compressor put together; `ranged_compressor.py` `range_compressor`; how a router treats a packet (first matching entry, else straight on over the opposite link `(l + 3) mod 6`, else dropped) | the data view between the stages is a value; `get_chip_at` finds every chip with a table; entries per router are a function; fuel of the range compressor is the table's length; partitions with keys fixed by the user are not among those followed |
| Map | the placer followed by the chain: `vertex_xy_and_route` on the placements; `get_out_going_vertices`, `get_in_coming_vertices`, `get_source_specific_in_coming_vertices` and `get_internal_multicast_partitions` of the splitters of this package | splitters' vertices do not depend on the partition; the placer's and the router's view of the machine are two values related by hypotheses (same chips, a working link for each of the placer's, links work both ways); a vertex without a placement is put on chip (0, 0) instead of raising; vectors and repaired paths as for the router |
| Data | `data/pacman_data_view.py`, `data/pacman_data_writer.py`, `remember_machine_vertex` and `reset` of application vertices | objects that are only handed through are numbers; the two flags of the super classes change freely |
| Fix | no code of its own: the chain and the mapping of whole graphs with keys fixed by `get_fixed_key_and_mask` and `get_machine_fixed_key_and_mask` | as Chain and Map; FixAlloc and FixSuccess hold the exact conditions, Shrink the compressors on the tables of a graph |
| Info | `routing_info.py` (whole class), `vertex_routing_info.py` `get_keys` | vertices and partitions are numbers; the views returned by `get_partitions_from` and the iterator are read at once; messages of exceptions left out |
| Bfs | same file, `_route_to_xys`, `_find_reachable`, `_is_open_chip` | a tree is its child list, looked up by chip |
| Targets | same file, class `_Targets` | every application vertex has a splitter; one partition |
| Conv | same file, `_convert_a_route`, `_add_routing_entry` | targets are given as items |
| RPart | `model/routing_table_by_partition/…` | machine vertices of an application vertex are a fixed function |
| Fixed | `operations/fixed_route_router/fixed_route_router.py` | boards as (Ethernet chip, existing chips); destination processor is a function |
| Tags | `model/tags/tags.py`, `operations/tag_allocator_algorithms/basic_tag_allocator.py` | addresses, vertices, chips are numbers; IPTag objects in a heap; every Ethernet chip has an address; type checks left out |
| Valid | `operations/multi_cast_router_check_functionality/valid_routes_checker.py`, `get_app_partitions` | log messages left out; link and processor ids in ascending order |
| ValidChain | `validate_routes` on the graph, placements, keys and tables of the Chain and Map files | as Valid; a link leads to a chip of the machine |
| Placer | `operations/placer_algorithms/application_placer.py` | SDRAM costs are the objects of `model/resources` (constant, variable, shared, multi-region), vertices' costs do not change during placement; set iteration order is a parameter; error report and drawings left out; a failing call returns the exception only |
| Draw | `operations/placer_algorithms/draw_placements.py` | the colours of the chips; a colour stands for its application vertex (two random colours may be equal in the code); the calls of the drawing library and `_spinner_api.py` left out |
| PartRegion | `model/graphs/machine/constant_sdram_machine_partition.py` `get_sdram_base_address_for`, `get_sdram_size_of_region_for` | with Part |
| Fail | `application_placer.py` `place_application_graph`, `do_placements` and the functions that add placements, with the state they leave when they raise; the contents of the report of `_place_error` | the texts of the report and the drawings are left out; a search that fails leaves no empty chip entries (C57) |
| Verify | `pair_compressor.py` `pair_compressor`, `verify_lengths` | the data view's tables and machine are arguments |
| Splitter | `model/partitioner_splitters/*.py`, `model/graphs/application/application_vertex.py` 62-145, 250-300, `abstract_one_app_one_machine_vertex.py`, `operations/partition_algorithms/splitter_partitioner.py`, `ApplicationGraph.reset` | objects are numbered; labels left out; `get_sdram_used_by_atoms` is any function of the slice, `create_machine_vertex` gives a new object with that slice and SDRAM; the vertices a device splitter had made when a slice could not be made are not kept |

Not modelled: `pacman/config_setup.py`,
text formatting (`__repr__`, reports; drawings apart from the colours of the chips, see DrawModel), exceptions' texts, `exceptions.py`,
abstract interfaces, and the parts named in the last column.

Further files hold proofs about these models:

| file | about |
|---|---|
| AllocEnds | Key allocation ends. |
| CheckedChain | The checker and the tables of a mapped graph. |
| CheckedMap | The checker and the tables of a placed graph, some of whose keys may be fixed. |
| CheckedProofs | The checker accepts what the compressors return. |
| CheckedRange | The entries that the ranged compressor writes: no two with the same key and mask, and each is an entry of the table or is not defaultable. |
| ChipEstimate | Proofs about the estimate of the chip counter (SdramModel.v): leaving out requests, adding requests without SDRAM, and the distance to the best packing in any order. |
| ChipsProps | Property C183: the number of chips that partitioning returns and the data writer. |
| ComposeProps | Properties C206 and C207: which table compressors may follow which. |
| CountProps | Property C214: the chip counter when a request or a chip is out of the ordinary. |
| Counted | How many vertices the placer is certain to place when each is an application vertex of its own that needs little SDRAM. |
| CoverHolds | Ordered covering keeps an entry for every packet that an entry matched, whose flag of default routing is not weaker; and the tables of a graph that are compressed by the unordered pair compressor and then by ordered covering. |
| CoverMerged | Merged tables whose members agree about default routes may be compressed with ordered covering. |
| DataFailProps | Property C208: a call on the shared data that raises. |
| DetourProofs | Detours around one broken stretch of a path: they are shortest, and going along them never loops so that the removal of loops goes wrong. |
| DeviceMap | Graphs with two dimensional devices that send with the keys of their rectangles. |
| DriverProofs | Exactly what the driver of the table compressors returns or raises. |
| Ends | What it takes to see that the loops of the models end: a result is not that of a loop that ran out of fuel. |
| FaultMap | On machines with faults at one chip only, what is assumed of paths when graphs are mapped holds. |
| FaultProofs | Machines with faults at one chip only. |
| FixAlloc | When the key allocator succeeds although some keys are fixed by the user. |
| FixChain | Proofs about the chain from the router to the routing tables when some keys are fixed by the user. |
| FixMap | The mapping of a whole graph when some keys are fixed by the user. |
| FixProofs | Proofs about tables whose keys are partly fixed by the user. |
| FixSuccess | Routes, keys and tables are made for graphs with fixed keys exactly when the keys fit. |
| FixedEnds | The fixed route router ends. |
| GenEnds | The generators of routing tables end. |
| HexProofs | Boards that are not rectangles: bounded also along the diagonals, as the board of 48 chips is. |
| KeyOrder | In which order, and in how large blocks, the allocator hands out keys. |
| KeyParts | Which blocks of keys the partitions get, and in which order. |
| LabelsProofs | Vertices whose labels all differ stay in the graph under these labels. |
| LimitProps | Property C213: limits of atoms per core that are not positive. |
| MergedMapProps | Properties of whole mappings whose merged tables are compressed with ordered covering: the placements that the placer itself makes can lose packets. |
| MergingProofs | How much the merging table generator merges (C159, C160). |
| OrderedAgain | Ordered covering of tables whose entries overlap but are sorted by generality, such as the tables that ordered covering itself returns. |
| OrderedEnds | Ordered covering ends on every table, also one whose entries overlap. |
| OrderedMax | What is left when the ordered covering compressor stops: for each route that still has several entries, one entry for all of them would take keys of an original entry of another route, or one of them shares keys with another entry. |
| PairAgain | Compressing once more: a table in which no two entries can be merged is only reordered by the pair compressor in unordered mode. |
| PairCoverProps | Property C209: the packets of a graph whose tables are compressed by the unordered pair compressor and then by ordered covering. |
| PairEnds | The pair compressor ends. |
| PairFull | How far the pair compressor goes: the order it sorts entries into, and why none of the entries it leaves can be merged. |
| PairSort | The sorting and histogram steps of the pair compressor succeed and permute. |
| PlacerFinal | The placer: facts about the result of [place_graph]. |
| PlacerFixed | When a group with fixed locations is placed. |
| PlacerRefuse | Graphs that the placer does not support. |
| PlacerTotal | The searches of the placer end: the loops of the model never run out of fuel, whatever the machine and the graph. |
| RangeChain | The chain from the router to the tables, compressed by ranges and then by ordered covering. |
| RangeCover | Ordered covering after the range compressor: the entries of a range compressed table overlap only so that the order by generality keeps which comes first. |
| RangeFill | What the range compressor merges. |
| RangeKeepProps | Property C199: the range compressor and tables that fit. |
| ReachProofs | When the repair of a direct path succeeds, on machines on which every way can be gone back (C66). |
| RepeatedProofs | What the checker compares with when the compressed table repeats a key and mask. |
| ReportProps | Property C210: which application vertices the report of a failed placement names (application_placer.py 288-311, modelled in FailModel). |
| RouterEnds | The application router ends (C173). |
| RouterErrors | How the application router fails (C111). |
| RouterFinal | What the table of the application router does to the packets of a partition. |
| RouterPlan | What the application router plans for a partition: routes and targets. |
| RouterSuccess | When the application router succeeds (C111). |
| RouterTables | From the routes of the application router to its table. |
| SdramBelow | Proofs about SDRAM costs that are added up on a chip: which sums succeed, and how the total of a sum compares with that of another. |
| ShrinkProofs | Generated tables have the shape that the compressors need: each has an entry, and the masks are blocks where those fixed by the user are. So compression returns. |
| SourcesProofs | Proofs about the sources of a router without a key, and what basic and merged tables hold whenever they are returned. |
| SplitterEnds | A vertex and its splitter set each other and stop. |
| SplitterFinal | Sequences of calls on vertices, splitters and the partitioner. |
| Spread | An application vertex with many machine vertices that need little SDRAM: the search over neighbouring chips finds all cores that can be reached. |
| TagsPorts | Which port a reverse IP tag request without one is given. |
| ValidEnds | Validation of the routes ends, also for tables in which packets go round. |
| WholeMap | On machines without faults, what is assumed of paths when graphs are mapped holds. |
| WholeProofs | Machines without faults: the paths along the vectors are used as they are. |

## Findings

Each is a refutation theorem (`…_refuted`), computed on the model.

* **C56** `get_n_bits(1)` is 1 where `allocator_bits_needed(1)` is 0 (both proved exactly; the cause of C80).
* **C09** Ordered covering of an empty table with no target raises IndexError.
* **C11** The compression checker rejects a faithful table if a compressed entry is defaultable and the original is not.
* **C57** Queried chips appear in `chips_with_placements` (a defaultdict lookup).
* **C58** Totals of fractional per-timestep costs are not additive (rounded up once per total).
* **C59** Rejection of shared SDRAM depends on the order of addition.
* **C60** Nested `MultiRegionSDRAM` objects are shared: merging changes them in place, later costs are lost from the total.
* **C61** A constant SDRAM partition keeps the size and the edge it refused.
* **C62** Generated labels can replace a vertex: labels `a1`, `a`, `a`.
* **C63** The same edge can be added under two identifiers.
* **C64** An edge of a vertex that was never added is accepted if its label is known.
* **C65** Loop removal uses stale positions: the route can use dead links.
* **C66** Routing is refused though the destination is reachable.
* **C67** `_Targets.__replace_app_vertex` gives one pair of lists to all machine vertices, so their targets leak.
* **C69** Routes record a shared way once per target: the conversion visits exponentially many nodes.
* **C71** Reverse tags never fall back to another board.
* **C72** An automatic reverse port can clash with a fixed port.
* **C74** Fixed machine keys with the machine mask are merged by index.
* **C75** A merged entry takes the defaultable flag of its first member.
* **C76** The validity checker takes the key range one key too long.
* **C77** The validity checker does not check the source chip's entry for all keys, nor keys shadowed under masks with holes.
* **C78** The validity checker ends at chips without a table, where hardware would default route.
* **C80** A 2D device with one rectangle per direction loses half its pixels.
* **C81** Sub sizes that do not divide the size give overhanging slices.
* **C83** The text of a one-dimensional MDSlice cannot be read back.
* **C84** `MDSlice.end` is inclusive, `Slice.end` exclusive.
* **C85** Fixed locations of one group on different chips are silently moved to the first one's chip.
* **C86** A free fixed core is rejected: `p not in iterator` consumes the iterator.
* **C87** Fixed placements can exceed the SDRAM of a chip.
* **C88** A group mixing virtual and real vertices places the virtual one or raises IndexError.
* **C89** A chip whose used SDRAM is above the cap is refused though the vertex would fit.
* **C90** Pair compression raises IndexError with more distinct routes than router entries.
* **C91** Range compression may overlap the last key of the previous entry; range then pair compression misroutes.
* **C92** Range compression loops for ever on masks with holes, and raises IndexError on the empty table.
* **C93** A target of 0 is ignored when default routes are removed.
* **C94** The compression checker keeps only the last of repeated pairs and accepts a wrong table.
* **C95** Remainders overlap.
* **C96** `get_keys` ignores a limit of 0 for full masks, and the offset when bounding by the array.
* **C97** Selecting no bits raises ValueError.
* **C98** Partitions without keys clash; a stale loop variable gives a key to the wrong vertex.
* **C99** Global mode allocates keys inside user-fixed ones.
* **C100** FPGA devices lose their last n mod m atoms; link device slices can raise.
* **C101** A compressor remembers the problems of earlier calls.
* **C102** Table equality uses `and` where `or` is meant for the position.
* **C103** A compressed table with a repeated pair cannot be read back from JSON.
* **C105** The merging generator records only the first member of a group, so a later source with a member's key is accepted and misrouted.
* **C109** The router sends the packets of a vertex that sends only in an internal partition to the targets of the application vertex as well.
* **C110** `_route_pre_to_post` cuts the path at any chip of the source, also one where nothing sends; the cut-off piece is never connected, and the packets are lost (or KeyError).
* **C111** `_find_target_xy` has no value for a target without incoming vertices (UnboundLocalError); a self-connection without targets gives KeyError.
* **C116** After a reset a one-to-one split vertex has no machine vertices any more.
* **C118** A vertex keeps a splitter that refused it; with the splitter of another vertex partitioning splits that one twice.
* **C119** `SplitterOneToOneLegacy.set_governed_app_vertex` called directly makes two machine vertices.
* **C120** Cached slices and repeated partitioning give stale or doubled machine vertices and wrong indices.
* **C121** `set_max_atoms_per_dimension_per_core(None)` raises TypeError; refused limits are stored.
* **C128** `merged_routing_table_generator` followed by `ordered_covering_compressor`: packets that start on a chip through which the packets of the machine vertex before go straight are lost (C75 seen from the router). The placer makes such placements itself: one application vertex on three chips of a row (C128_mapped_refuted).
* **C129** `range_compressor` followed by `pair_compressor` sends a packet to the wrong core (C91 seen from the router).
* **C133** `RoutingInfo.get_partitions_from`, `get_info_from`, `get_key_from` and `get_routing_info_from_pre_vertex` add the vertex they are asked about to the `defaultdict`; afterwards `get_single_info_from` raises KeyError ("more than one outgoing partition") instead of returning None, and `len` has grown.
* **C134** `len` of a `RoutingInfo` is the number of vertices, not the number of items it iterates over.
* **C136** `VertexRoutingInfo.get_keys(0)` raises IndexError when the mask has no zeros.
* **C139** `merged_routing_table_generator` with fixed keys that have the mask the allocator would choose but are not laid out as it would: two machine vertices with keys 0x20 and 0x50 are merged by their indices and packets with key 0x50 are lost (C74 seen from the router).
* **C146** `_clear` makes a new graph without resetting the old one, so a vertex that is added again after `setup` keeps its machine vertices of the old simulation.
* **C193** The chip counter puts two vertices of 70 and 10 bytes on one chip of 100 bytes and three cores; the placer raises PacmanPlaceException there, because a chip with more than the cap (67 bytes) used counts as full (chip_counter.py 56-69, application_placer.py 478-493).
* **C194** `_space_on_chip` adds the SDRAM of the monitors placed on the chip to what is used and compares it with a cap from which that SDRAM was already taken off (application_placer.py 111-122, 486-493): after a monitor of 20 of 120 bytes, the third of three vertices of 33 bytes is refused although it fits.
* **C196** An application vertex of two machine vertices is refused on a machine with two free cores when a full chip lies between them: the search only goes on from chips with space (`_add_neighbours`, application_placer.py 620-715).
* **C198** A device with a fixed location, or one for a system vertex that is already placed there, makes the placer raise NotImplementedError('Mixing fixed location and not fixed location groups'): `_filter_vertices` leaves no vertex and `_do_fixed_location` takes the empty list for one without fixed locations (application_placer.py 370-402).
* **C199** RangeCompressor compresses a table that fills its router exactly although it fits: it tests `number_of_entries < target` where AbstractCompressor tests `<=` (ranged_compressor.py 92-97, abstract_compressor.py 102).
* **C200** SplitterExternalDevice.create_machine_vertices calls add_core for each of its virtual vertices (splitter_external_device.py 124-134), so a graph of a device alone with five connections is said to need three chips of two cores, though it takes no core at all.
* **C201** The chip counter never goes back to an earlier chip, so requests of 60, 60, 40 and 40 of 100 bytes count three chips and 60, 40, 60 and 40 two (chip_counter.py 56-69); the class comment promises only an estimate.
* **C203** Ordered covering drops default entries after merging (ordered_covering.py 69-98); if its result is compressed again, entries may be merged over the keys of those dropped, and packets that were default-routed are routed elsewhere. Nothing guards against the second run.
* **C207** Each ordered compressor sorts its input by a criterion of its own: pair_compressor.py by the number of entries of a route (183-230), ordered_covering.py by generality (158). So neither keeps the routing when it is given the ordered result of the other; the interfaces do not say so. The range compressor may come before ordered covering (C204), not before pair compression (C91).
* **C210** `_place_error` (application_placer.py 296-297) leaves the loop over the groups of an application vertex at the first one that begins with a virtual vertex, with `app_vertex_placed` still true: an application vertex with a device first is not named as unplaced although it is the one for which there was no space (`C210_virtual_refuted`: the report says 0 of 2). An empty group makes the report itself raise IndexError, which hides the PacmanPlaceException (`C210_example`).
* **C211** `place_application_graph` hands the same Placements object to the placer and to `do_placements`, which passes it twice to `draw_placements` (application_placer.py 49-50, 172-175, and 361-364 for an error): the number of placements on a chip is compared with itself, and the picture shows the whole machine as unused (`C211_all_unused`). The same aliasing empties the list in the error report (C175).
* **C212** `get_sdram_base_address_for` and `get_sdram_size_of_region_for` of `SourceSegmentedSDRAMMachinePartition` take every vertex that is not a source for the destination, and those of `ConstantSDRAMMachinePartition` ignore the vertex: a vertex outside the partition gets a region of memory instead of an error (`C212_stranger_refuted`). `DestinationSegmentedSDRAMMachinePartition` accepts two edges to one vertex and tells it only of the first segment (`C212_two_edges_refuted`).
* **C213** `__check_atoms_per_core` (application_vertex.py 205-222) does not ask for positive limits: with a negative limit `get_single_dimension_slices` and `get_multidimensional_slices` make no slices, so that partitioning succeeds and the vertex silently has no machine vertices (`C213_no_vertices_refuted`); with two negative limits the slices have negative shapes.
* **C214** `ChipCounter.add_core` (chip_counter.py 56-69) asks whether the number of free cores is 0: if the monitors leave no core on a chip the number is -1 after the first vertex and never 0 again, so one chip is counted for any number of vertices that fit its SDRAM.
* **C208** The view's `add_vertex` and `add_edge` call `set_requires_mapping` before the graph may refuse (pacman_data_view.py 162-163, 191-192): after a refused call the whole mapping is done again although nothing changed. `add_vertex` takes a number from `_label_postfix` before `set_label` may raise (application_graph.py 66-71).
* **C147** `remember_machine_vertex` called twice for one machine vertex sets its index to the number of machine vertices (application_vertex.py 137-145).
* **C150** A fixed mask with a gap (key 10, mask 0xFFFFFFFB) beside a key with the same route makes the range compressor's loop run for ever: the compressor takes the last key of the block for that of a range (C92 at the level of a graph).
* **C153** __check_zones counts a block for every partition with senders, also for those whose keys are fixed and already counted by __set_fixed_used; so a graph is refused although its free partitions have room (fixed key 0 with mask 0x80000000, and one partition asking for 2^31 keys).
* **C155** `format_route` formats the defaultable flag with a width, which formats a bool as an integer: reports show `1` and `0`, not `True` and `False` (harmless).
* **C157** `set_fixed_location` of a machine vertex looks only at the vertex itself: the place it took from its application vertex can be replaced, so `get_fixed_location` changes although "once set" it should not.
* **C123** on a connected machine the router raises RoutingException when the chips of a target are not joined through themselves, e.g. by fixed locations, and `MulticastRoutingTableByPartition` refuses an application and an internal-only machine vertex on one chip.
* **C169** Equal routing tables have different hashes (`__hash__` is `id`), so sets hold both and lookups of an equal table fail.
* **C170** Equality of routing tables is not transitive: (0,0) and (0,3), (0,3) and (5,3) are equal, (0,0) and (5,3) are not.
* **C171** `IPtagResource == other` raises AttributeError for any other class; `other == IPtagResource` is False.
* **C172** Two vertices of different applications whose `SharedSDRAM` has one label with two values: the second is not put on another chip, the placer fails with ConfigurationException as soon as it tries the chip of the first.
* **C175** `place_application_graph` gives one Placements object to the placer both as its placements and as the system placements: the error report lists no placement, and every chip as unused.
* **C179** The compression checker accepts the tables of C128, which lose packets: it trusts the flag of a merged entry.
* **C181** `validate_routes` raises PacmanNotPlacedError for any graph with an edge to a device, as it asks for the placement of every target; and refuses correct tables when the atoms of a vertex use its whole block of keys and the next key is the key of an entry (see C76).
* **C176** A failing call of `place_application_graph` leaves the placements made so far in the object it was given.
* **C183** `splitter_partitioner` returns 0 for a graph without machine vertices, and `set_n_chips_in_graph` refuses 0.
* **C185** A machine vertex that a target's splitter asks for but the source's splitter does not name as outgoing is routed and gets no key; the generators then raise KeyError.
* **C188** Two neighbouring single keys of one route are not merged by the range compressor (ranged_compressor.py 176-177): the block size is taken from the difference of the end points, 1, so the block has one key. With a third key in the run, or more keys per entry, blocks are merged.
* **C190** An ordered pair compression of an already (ordered) compressed table can misroute: entries are sorted by the new route frequencies, and a covering entry comes before the one it covers. The package never does this itself, but `compress_table` accepts such a table.
* **C186** The line of the error report about the last application vertex always says 0 of 0: an application vertex is placed as a whole or not at all, and vertices are counted only behind a placed group.
* **C167** `is_single` does not count None: `[None]` gives False, `[1, None, 2]` gives True.

## Seeded defects

`seeded/LOG.jsonl` records attempts to break the model the way a programmer might
break the code: the definition edited, the edit, the claim it breaks, the theorems
that failed and the theorems that were tightened because they had not failed.

## Properties

| id | title | status | how |
|---|---|---|---|
| C01 | Key/mask intersection test is exact | proved | bit extensionality |
| C02 | Pair compression preserves routing | proved | invariant: output prefix disjoint from other routes' remaining entries |
| C03 | Pair compression never grows a table | proved | length invariant and exact characterisation of the failure |
| C04 | Range compression preserves routing | proved | induction over runs; alignment arithmetic |
| C05 | Range compression overlaps only at last keys | proved | exact localisation of the overlap |
| C06 | Range compression terminates | proved | fuel bound |
| C07 | Removing default routes is safe | proved | induction on the table |
| C08 | Ordered covering preserves routing | proved | alias invariant over merges |
| C09 | Ordered covering terminates, shrinks and stays sorted | proved | measure on refinement loops, sortedness of insertion; the group of all entries of a route was tried and refused (`OrderedMax`) |
| C10 | The compression checker accepts only faithful tables | proved | induction on the compressed suffix |
| C11 | The compression checker accepts every faithful compression that keeps entries non-default | proved | converse induction |
| C12 | Remainders after partial cover are exact | proved | induction on code length |
| C13 | Key ranges enumerate exactly the matching keys | proved | bit extensionality |
| C14 | Enumerating the keys of a key and mask | proved | induction on zero positions |
| C15 | Bit arrays round trip | proved | bit extensionality |
| C16 | Allocated keys never clash | proved | arithmetic on fields |
| C17 | Allocated keys avoid user-fixed keys | proved | arithmetic on fields |
| C18 | Merging machine entries matches exactly the merged machine vertices | proved | aligned-block arithmetic |
| C19 | Merged tables route exactly like basic tables | proved | grouping lemma and C18 |
| C20 | One-dimensional slicing partitions the atoms | proved | div/mod induction |
| C21 | Multi-dimensional slicing partitions the grid | proved | mixed radix induction on dimensions |
| C22 | Raster and key order are inverse permutations | proved | mixed radix inverse |
| C23 | Slice-relative and raster indices are inverse | proved | mixed radix inverse |
| C24 | Placements is a one-to-one map | proved | invariant over histories |
| C25 | The placer never double-books a core | proved | invariant over the search state |
| C26 | The placer respects chip SDRAM | proved | invariant over the search state; what is not shared of a sum is the sum, its labels the union (`SdramBelow`) |
| C27 | Placement is complete or fails cleanly | proved | invariant over the search state; each failed try uses up a start chip |
| C28 | The placer does not lose chips | proved | reachability of the neighbour search |
| C29 | Longest-dimension-first routes reach their target | proved | vector arithmetic modulo wraps |
| C30 | Removing loops from a path keeps it a path | proved | path invariant |
| C31 | Routes around dead links are valid paths | proved | path invariant, breadth-first search |
| C32 | Breadth-first multi-target routing reaches every target | proved | BFS invariant |
| C33 | Routing trees become complete table entries | proved | induction on the tree |
| C34 | Targets of one source do not leak to another | proved | heap invariant |
| C35 | Routes by partition accumulate consistently | proved | invariant over histories |
| C36 | Fixed routes lead to the Ethernet chip | proved | BFS-round invariant |
| C37 | Tags are unique per board | proved | invariant over histories |
| C38 | Tag allocation falls back to other boards | proved | invariant over histories |
| C39 | SDRAM costs add up | proved | algebra |
| C40 | Shared SDRAM is counted once | proved | algebra |
| C41 | Region costs always sum to the total | proved | heap model for aliasing |
| C42 | SDRAM edge segments are disjoint | proved | prefix sums |
| C43 | The chip counter's estimate is a feasible packing | proved | invariant over histories |
| C44 | Vertices stay in the graph under unique labels | proved | invariant over histories |
| C45 | Edges are kept in the partition of their pre-vertex and identifier | proved | invariant over histories |
| C46 | The route validity checker accepts only complete routes | proved | induction on the trace against the hardware walk |
| C47 | The route validity checker accepts correct routes | proved | induction on the trace |
| C48 | 2D device keys identify sub-rectangles and pixels | proved | bit fields |
| C49 | JSON round trips | proved | round trip on a JSON value type |
| C50 | Virtual device slices tile the atoms | proved | arithmetic |
| C51 | Compressed tables fit or an error is raised | proved | induction on the tables |
| C52 | Uncompressed tables hold each key/mask once | proved | invariant over histories |
| C53 | Route words identify routes | proved | bit extensionality |
| C54 | Tree traversal visits each hop once | proved | induction on the queue |
| C55 | Routing tables survive JSON | proved | round trip |
| C56 | Bit-width helpers give the least sufficient width | proved | least width |
| C57 | Read-only queries leave Placements unchanged | partial (refuted) | True of every later call except chips_with_placements, which then also lists the queried chip. |
| C58 | SDRAM totals add exactly for fractional costs too | partial (refuted) | False: two costs of half a byte per timestep total 1 for one timestep, not 2. The difference is at most one byte per addition. |
| C59 | Rejection of shared SDRAM does not depend on order | partial (refuted) | False: a ConstantSDRAM never equals a VariableSDRAM but the converse can hold, so one order is rejected. Proved: when values with the same label compare equal both ways, every order succeeds. |
| C60 | Region costs sum to the total whatever is shared | partial (refuted) | False with aliasing: nesting merges into the nested object in place, and later costs of a nested object are not seen by the total. The claim without aliasing is C41. |
| C61 | A refused SDRAM edge leaves its partition unchanged | partial (refuted) | False for the constant-size partition, which records the size and the edge before it refuses. Proved for the two segmented partitions. |
| C62 | Vertices stay in the graph whatever their labels | partial (refuted) | False: labels a1, a, a give a generated second a1, which replaces the first vertex. It is true if all vertices are given labels and these differ, and by C44 if no label ends with a digit. |
| C63 | An edge is in at most one partition | partial (refuted) | False: the same edge can be added under two identifiers. Within one identifier it is C45. |
| C64 | Edges only join vertices of the graph | partial (refuted) | False: only labels are checked. Proved: both labels are known. |
| C65 | Loop removal keeps every path connected | partial (refuted) | False: seen_nodes keeps chips of loops already removed, with positions that are no longer theirs; a connected machine with working two-way links is given on which the route uses a dead link. True when no chip inside a loop is visited again after it: C30; so for a shortest direct path of which only one stretch is broken: C165_gap. |
| C66 | A reachable chip is routed to | partial (refuted) | False: the repair tries to reach each working stretch of the direct path, also one on chips that are cut off. C66_exact_partial says exactly when a path is found, for machines whose links work both ways; it always is on connected machines: C31_connected. |
| C67 | Targets never leak between machine vertices | partial (refuted) | False: __replace_app_vertex gives one pair of lists to all machine vertices. True without that replacement: C34. |
| C68 | Default-routable entries pass packets straight on | proved | RoutingEntry of spinn_machine is modelled: defaultable as computed from the incoming link, merged entries defaultable only if both are with the same route. |
| C69 | Each next hop is recorded once | partial (refuted) | False: a shared way is added once for each target behind it, and the conversion visits exponentially many nodes. The resulting tables are right: C33. |
| C70 | The tags object grants what it accepts and refuses only conflicts | proved | case analysis of the tags object |
| C71 | Reverse tag allocation falls back to other boards | partial (refuted) | False: the tag of the other board is recorded on the own board and so refused; proved exactly when a reverse request is granted. |
| C72 | Automatic ports avoid fixed ports | partial (refuted) | False: ports are popped from the automatic range without looking at the fixed ports. C72_exact says which port is given and when; it is granted when no fixed port of the board is in the automatic range. |
| C73 | A collection of routing tables has one table per chip | proved | invariant over histories |
| C74 | Merged tables keep fixed machine keys apart | partial (refuted) | False: fixed machine keys with the machine mask are merged by index although the keys are not consecutive; proved (C19) when the machine masks differ from the machine mask. |
| C75 | Merged entries are defaultable only if all members are | partial (refuted) | False: the merged entry takes the defaultable flag of its first member.  True for every source whose siblings with the same route have the same flag. |
| C76 | Entries for adjacent keys do not disturb the validity check | partial (refuted) | False: the range of the source is taken one key too long; proved (C47) when no entry starts at the next key. |
| C77 | The validity check covers every atom's key | partial (refuted) | False for masks with holes, on the chip of the source and behind shadowing entries; proved (C46) for contiguous masks. |
| C78 | The validity check follows packets to chips without a table | partial (refuted) | False: a chip without a table passes the packet on by default routing; proved (C46) when no entry leads to such a chip. |
| C79 | The walked partitions are complete | proved | set equality |
| C80 | 2D devices of one rectangle lose no pixels | partial (refuted) | False: get_n_bits(1) is 1, so with one rectangle in a direction the mask keeps the top bit of the field and half the pixels match nothing; proved (C48) with several rectangles. |
| C81 | Slices of 2D devices have an atom for each pixel | partial (refuted) | False when the sub sizes do not divide the sizes: edge slices overhang; proved when they divide. |
| C82 | The text of a slice can be read back | proved | parsing induction on decimal text |
| C83 | The text of an MDSlice of one dimension can be read back | partial (refuted) | False: int('') is a ValueError; proved (C82) for two or more dimensions. |
| C84 | The end of a slice means the same for all slices | partial (refuted) | False: MDSlice.end is the last position in each dimension (C84_mdslice_end), Slice.end the one after it. |
| C85 | All fixed locations are honoured | partial (refuted) | False: a group goes to the chip of its first fixed vertex; proved (C27) when the fixed chips of a group agree. |
| C86 | A free fixed core is accepted | partial (refuted) | False: 'p not in iterator' consumes the cores before p, so cores 3 then 2 fail. C86_exact says exactly when a group is placed: the cores asked for must come in the order of the set of free cores. |
| C87 | The SDRAM limit also holds for fixed vertices | partial (refuted) | False: no SDRAM check for fixed vertices; proved (C26) for chips with an unfixed vertex. |
| C88 | Virtual vertices are never placed | partial (refuted) | False: the group is filtered but all its vertices are given cores; proved when groups do not mix virtual and real vertices. |
| C89 | A vertex that fits on some chip is placed | partial (refuted) | False: a chip whose used SDRAM is above the cap counts as full; proved (C28) for chips not above the cap. |
| C90 | Pair compression returns a table whatever the number of routes | partial (refuted) | False: with more distinct routes than router entries an IndexError escapes, in every mode; otherwise C03. |
| C91 | Range compression yields an order-free table | partial (refuted) | False: a block may start on the last key of the previous entry, and pair compression of that output misroutes a key. Only such a last key is affected: C05. |
| C92 | Range compression terminates on all tables | partial (refuted) | False: for a mask with a hole the loop runs for ever; an empty table raises IndexError. True for non-empty tables with contiguous masks: C06. |
| C93 | Default route removal enforces every target | partial (refuted) | False: a target of 0 is treated as no target. True for positive targets: C07. |
| C94 | The compression checker sees repeated entries | partial (refuted) | False: the dictionary keeps the last entry of a repeated pair, and a wrong table is accepted. What is judged is the table with the last entry of each pair at the place of the first. True without repeated pairs: C10. |
| C95 | Remainders after partial cover are disjoint | partial (refuted) | False: pieces overlap; their union is right (C12), so the checker is slower but not wrong. |
| C96 | Limits and offsets of key enumeration are honoured | partial (refuted) | False: a limit of 0 on a full mask still gives one key, and the offset is not considered when the number of keys is bounded by the array. |
| C97 | Selecting no bits gives zero | partial (refuted) | False: it raises ValueError. |
| C98 | Allocated keys never clash whatever is asked for | partial (refuted) | False: partitions without keys are left out of the zone sizes but still allocated, and a fixed partition without machine vertices reuses the loop variable of the previous one. True with the conditions of C16. |
| C99 | Allocated keys avoid user-fixed keys in global mode | partial (refuted) | False: the blocked indexes are computed before the zone is widened. True when one partition is largest in both fields: C17. |
| C100 | Virtual device slices cover all atoms | partial (refuted) | False: FPGA slices miss the last n mod m atoms, and link slices can raise. Exactly characterised in C50. |
| C101 | A compressor can be used again | partial (refuted) | False: the problems of an earlier call are kept and raised again. True of a new compressor: C51. |
| C102 | Tables of different chips are different | partial (refuted) | False: positions differ only if both x and y differ. |
| C103 | All routing tables survive JSON | partial (refuted) | False: a compressed table that repeats a pair is read as an uncompressed one and refused. True without repeated pairs: C55. |
| C104 | The basic generator refuses sources with one key | proved | invariant over the dictionary of seen keys |
| C105 | The merging generator refuses sources with one key | partial (refuted) | False: only the first member of a group of merged entries is recorded, so a later source with the key of another member is accepted and its packets are routed by the merged entry. True of the basic generator: C104. With keys that do not clash both tables route alike: C19. |
| C106 | Routed packets reach their targets and nothing else | proved | invariant of the route forest, the targets and the table; frame lemma between partitions |
| C107 | Internal partitions are routed | proved | as C106; invariant over the partitions |
| C108 | Routed packets enter each chip at most once | proved | uniqueness of parents in the trees of the source and the forest |
| C109 | Packets of internal partitions stay inside | partial (refuted) | False: the routes of all senders of the mapping lead to the chips where the application's routes start. Its own targets are reached: C107. |
| C110 | Packets arrive whichever machine vertices send | partial (refuted) | False: the path is cut at the chip of a machine vertex that does not send, and its rest is not connected to any sender. A device with traffic both ways has such a machine vertex (C113). True when each chip of the source has a sender: C106. |
| C111 | The router fails only with routing errors | partial (refuted) | False: UnboundLocalError and KeyError.  True when each partition is asked for and each target has incoming vertices: then only a routing exception, or the refusal of an entry for both an application vertex and its machine vertex. |
| C112 | Partitioning gives every atom to one machine vertex | proved | invariant over histories of calls; C21 |
| C113 | Partitioning gives devices their machine vertices | proved | invariant over histories of calls |
| C114 | Partitioning succeeds when every vertex can be split | proved | invariant over histories of calls |
| C115 | Partitioning after a reset gives the same machine vertices | proved | invariant over histories of calls |
| C116 | A vertex split one to one survives a reset | partial (refuted) | False: the machine vertex is remembered only when the splitter is set, and reset forgets it. True without a reset: C112. |
| C117 | Vertices and splitters refer to each other | proved | invariant over histories of calls |
| C118 | A refused splitter is not kept | partial (refuted) | False: the setter stores the splitter before asking it. |
| C119 | Governing a vertex is the same as setting its splitter | partial (refuted) | False: with SplitterOneToOneLegacy the mutual call makes two machine vertices. |
| C120 | Partitioning depends only on the vertices | partial (refuted) | False: slices are cached before partitioning, and partitioning twice without reset doubles the machine vertices or gives wrong indices. True for calls in a sensible order: C112, C115. |
| C121 | Setting the limit of atoms per core stores allowed values only | partial (refuted) | case analysis |
| C122 | The router makes tables for joined placements on a connected machine | proved | every step has its route: searches reach their targets, entries of the application vertex and of machine vertices stay apart |
| C123 | A connected machine is enough for the router | partial (refuted) | counterexamples |
| C124 | Packets reach their targets through the generated routing tables | proved | simulation of packets by the table by partition, C106-C108, C16, C19 |
| C125 | Packets reach their targets through compressed routing tables | proved | C124 with C02, C04, C51 |
| C126 | Packets reach their targets through ordered covering and default routes | proved | C124 with C08 and straight routes |
| C127 | Routing, keys and tables are made for every graph that fits | proved | C122 and C16 |
| C128 | Merged tables may be compressed with ordered covering | partial (refuted) | vm_compute; the flag of a merged entry is that of a sibling |
| C129 | Tables may be range compressed before pair compression | partial (refuted) | vm_compute |
| C130 | A graph that is placed is also routed and gets keys and tables | proved | C28 gives joined chips, then C127 |
| C131 | Packets reach the cores on which their targets were placed | proved | C124-C126 on the placements, C25 |
| C132 | RoutingInfo answers exactly for what was added | proved | invariant: each entry holds the accepted items of its vertex in order |
| C133 | Looking up routing information changes nothing | partial (refuted) | counterexample; answers as functions of the accepted items |
| C134 | The length of RoutingInfo is the number of items iterated | partial (refuted) | counterexample |
| C135 | A vertex gets the keys it asks for | proved | C14 with a fresh array; C16 for the block |
| C136 | No keys can be asked for | partial (refuted) | counterexample |
| C137 | Fixed keys are used and their packets arrive | proved | keys of fixed and chosen partitions are disjoint (blocks avoid fixed keys), entries of a fixed partition merge only within it; then as C124 |
| C138 | Tables with fixed keys may be compressed | proved | C137 with C02, C04, C08, C51 |
| C139 | Any disjoint fixed keys may be used with merged tables | partial (refuted) | vm_compute |
| C140 | Devices with fixed keys are mapped with the rest of the graph | proved | C137 and C138 on the placements |
| C141 | A stage gets what was last set for it | proved | induction over the history from its end |
| C142 | The planned timesteps outlive a hard reset | proved | as C141 |
| C143 | The first valid request for boards or chips counts | proved | as C141; at most one of two numbers is set |
| C144 | Ethernet chips need at least the monitor SDRAM of all chips | proved | C39 repeated; monotone ceilings |
| C145 | The graph in the view follows the accepted calls | proved | edge invariant of C45 with resets |
| C146 | Setup forgets the machine vertices | partial (refuted) | counterexample; invariant since the reset |
| C147 | The index of a machine vertex is its place | partial (refuted) | counterexample |
| C148 | The tables of a graph can be compressed | proved | structural induction over allocator and generators; totality of the driver |
| C149 | A mapped graph has compressed tables that deliver its packets | proved | C148 with C140 |
| C150 | The range compressor returns for every mask | partial (refuted) | vm_compute and induction on the fuel |
| C151 | Keys are found beside fixed keys exactly when there is room | proved | exact membership of the used blocks; monotone in the split; totality of the loops |
| C152 | A graph with fixed keys is mapped exactly when its keys fit | proved | C151 with C122, C137, C149 |
| C153 | Keys are found if there is space for them | partial (refuted) | vm_compute |
| C154 | Tables read from text are those written | proved | independent spelling of numbers; induction over the lines |
| C155 | The text of a routing entry identifies it | proved | reading of printed numbers; texts split at characters they do not contain |
| C156 | The place first fixed for a vertex stays | proved | induction over the history |
| C157 | The place a vertex reports does not change | partial (refuted) | counterexample |
| C158 | Sizes are rounded to the nearest integer or refused | proved | the integer nearer than 1/2 is unique |
| C159 | One entry for all machine vertices of an application vertex | proved | groups are maximal, so they are made of whole blocks; the size of merged blocks grows, then shrinks |
| C160 | Which edges and base addresses SDRAM partitions accept | proved | state invariant over histories, then case analysis of the call |
| C161 | The pair compressor leaves nothing to merge | proved | the pairs turned down while a route is compressed stay blocked: later merges only grow, and the entries that block them are covered by entries of the result |
| C162 | The pair compressor groups entries by route, rarer routes first | proved | both quicksorts as one generic three-way quicksort; histogram counts; sorted order kept by the main loop |
| C163 | Keys follow the order of the atoms | proved | positions in the stable sort counted; fields of the zones |
| C164 | On a machine without faults paths are the vectors' paths | proved | positions after k steps in closed form; two directions cannot meet again modulo the sizes; each step lies between the ends |
| C165 | Faults in one place are routed around | proved | breadth-first search leaves chips at least distance; positions of a repaired path: a chip met again lies in the detour and in one of the other parts, and the lengths of the ways between them contradict the order of the four positions; broken steps of a path without repeats that touch one chip are consecutive |
| C166 | is_single tells whether there is exactly one element | proved | case analysis |
| C167 | is_single also counts None | partial (refuted) | counterexample |
| C168 | Values are equal by contents, also in sets and dictionaries | proved | case analysis; induction over the insertions |
| C169 | Equal routing tables are one element of a set | partial (refuted) | counterexample |
| C170 | Equality of routing tables is transitive | partial (refuted) | counterexample |
| C171 | Values can be compared with anything | partial (refuted) | counterexample |
| C172 | Vertices whose shared SDRAM disagrees are put on different chips | partial (refuted) | one small machine evaluated |
| C173 | Key allocation, routing, table generation, validation, pair compression and ordered covering always end | proved | measures of the loops: numbers left to skip, chips left to route, entries left, routers not yet visited, size of the segment sorted |
| C174 | pair_compressor(verify=True) returns only tables that fit, and never in silence | proved | case analysis on the driver's exact result (C51) |
| C175 | The report of a failed placement tells what was placed and which chips are unused | partial (refuted) | the invariant that chip entries are of placed vertices; induction over the groups |
| C176 | A failed placement leaves the given placements as they were | partial (refuted) | the functions of the placer with state on exceptions, proved equal to those of `PlacerModel`; every step only appends |
| C177 | The checker accepts what the compressors return | proved | pair: each entry is held by one of the result, and what comes before it has its route and another key or mask; ranges: later entries have larger keys; covering: C08 and C11 |
| C178 | The compressed tables of a mapped graph pass the checker, and tables that pass deliver | proved | C177 on fine tables; C10 and C124 |
| C179 | Tables that pass the checker against merged tables deliver | partial (refuted) | the graph of C128; C10 with the flags of the members |
| C180 | When the route checker accepts the tables of a graph | proved | walks of the checker are flights of packets; each chip flown to has one entry for the whole block |
| C181 | The route checker accepts the tables of every graph that was routed | partial (refuted) | computation |
| C182 | Paths on boards that are not rectangles | proved | difference of the coordinates is monotone along a minimal vector; then as C165 |
| C183 | The number of chips of a partitioned graph can be set | partial (refuted) | the first core takes a chip; computation |
| C184 | No source is left out of the generated tables | proved |  |
| C185 | Tables can be generated for every graph that is routed and has keys | partial (refuted) | False: a splitter of a target may ask for a machine vertex that the splitter of the source does not name as outgoing; the vertex is routed but gets no key, and both generators raise KeyError. True when every vertex asked for is outgoing: C124, C127. |
| C186 | The report of a failed placement counts the vertices left of the last application vertex | partial (refuted) | False: vertices are counted only if an earlier group of the same application vertex is placed, but an application vertex is placed as a whole or not at all. Proved: without fixed locations and virtual vertices the line always says 0 of 0, and the vertices listed as not placed are the one that failed and those after it. |
| C187 | Partitions get their keys in the order of the graph, in blocks of one size without gaps | proved |  |
| C188 | Keys of one route that fill a block become one entry of the range compressor | partial (refuted) | False for blocks of two keys: two neighbouring single keys of one route stay two entries. Proved for all blocks of four or more keys, however they are split, and that no entry of the table is split. |
| C189 | Unordered pair compression leaves nothing for a second one | proved |  |
| C190 | Compressing a compressed table with the pair compressor keeps its routing | partial (refuted) | False in ordered mode, the default: the second run counts the routes anew and can put a covering entry before the one it covers. Proved if the first run was unordered, for any second run. |
| C191 | The pixels of a 2D device reach the targets of their rectangles | proved |  |
| C192 | The checker and the tables of a placed graph with fixed keys | proved | all_delivered is spelled out in C140; merged tables that the checker accepts need not deliver: C179. |
| C193 | As many perfect chips as the chip counter counts are enough for the placer | partial (refuted) | False: a chip with more SDRAM used than the cap counts as full for the placer, not for the counter. True for vertices that are each an application vertex and need at most s bytes (not shared), where the monitors' SDRAM and k-1 times s stay within the cap. |
| C194 | Vertices of an even share of the SDRAM fill every core | partial (refuted) | False where the monitors need SDRAM: it is taken off the cap and also counted as used. True with no monitor SDRAM (C194_even_share_partial), and with it when the cap leaves room for it (C194_light_partial). |
| C195 | An application vertex of small machine vertices is placed exactly when linked chips have the free cores | proved | For an application vertex without shared SDRAM between its machine vertices; each needs at most s bytes and each chip has s bytes left for each free core. |
| C196 | An application vertex is placed when the machine has enough free cores | partial (refuted) | False: full chips can separate the free ones. True where all chips with free cores are linked with each other over such chips. |
| C197 | The graphs for which the placer raises NotImplementedError | proved | Another exception may come first for a graph that is not supported. |
| C198 | An application vertex with nothing left to place is accepted | partial (refuted) | False with a fixed location: NotImplementedError even for a device, or for a system vertex placed exactly where it is fixed. True without. |
| C199 | The range compressor leaves tables that fit as they are | partial (refuted) | False for a table that fills its router exactly; true for smaller ones, and (C51) of the other compressors. |
| C200 | Devices add nothing to the number of chips of a graph | partial (refuted) | False: SplitterExternalDevice adds a core for each virtual vertex. True: never fewer than the vertices on cores need, and at most one chip more for each machine vertex of a device. |
| C201 | The chip counter counts the least number of chips | partial (refuted) | False: the order matters. True: less than three times the least number; exact where no request is over an even share of the SDRAM. C43 has the least number for a given order. |
| C202 | Ordered covering keeps the routing of tables with overlaps that are sorted by generality | proved |  |
| C203 | Compressing a compressed table again keeps the routing | partial (refuted) | False for the keys of entries that the first run dropped as default routes: the second run may merge over them. True for every packet that matches in the first result. |
| C204 | Ordered covering may follow the range compressor | proved | Prefix masks (block_mask): what the key allocators make. C91 refutes the like for pair compression. |
| C205 | Packets are delivered after range compression followed by ordered covering | proved | For keys fixed by the user the masks must be prefixes. The refuted counterpart is C129. |
| C206 | Ordered covering keeps the routing of tables whose overlapping entries agree | proved |  |
| C207 | Compressors may be applied one after the other | partial (refuted) | False: ordered pair compression followed by ordered covering, and ordered covering followed by pair compression in either mode. True if the pair compressor comes first in unordered mode. |
| C208 | A call on the shared data that raises changes nothing | partial (refuted) | False in two points: the view's add_vertex and add_edge mark mapping as required before the graph refuses, and a vertex refused because it belonged to an earlier graph uses up a number for generated labels. Everything else is unchanged. |
| C209 | Packets are delivered after unordered pair compression followed by ordered covering | proved | The refuted counterpart for the ordered mode is C207. |
| C210 | The report of a failed placement names every application vertex that was not placed | partial (refuted) | False: an application vertex whose first group begins with a virtual vertex is never named, even if none of its real vertices is placed. Proved instead, for all graphs without empty groups: the report is written, and the application vertices named are exactly those with a group whose first vertex is real and not placed while all groups before it begin with a real vertex that is placed. Missing: the vertices after a virtual one (false). |
| C211 | The picture of the placements shows where the application is | partial (refuted) | False of the picture that the placer draws: the placements it adds to and the system placements are the same object, so every chip is shown as unused. Proved: that this is so for every graph, and that draw_placements is right for two separate objects of which the first has all placements of the second. Missing: the claim for the calls in application_placer.py (false). |
| C212 | The region that an SDRAM partition reports for a vertex is the one of its edges | partial (refuted) | False in two points: source-segmented and constant partitions report a region for any vertex, also one that is not in the partition, and a destination-segmented one reports only the first segment if two edges go to the same vertex. Proved: a destination-segmented partition answers for its own vertices only; the region is that of the edges of the vertex if no vertex is both source and destination and (destination-segmented) no two edges have the same destination. Missing: those cases (false). |
| C213 | An accepted limit of atoms per core loses no atoms | partial (refuted) | False: negative limits are accepted; with one (or an odd number) partitioning succeeds and the vertex has no machine vertices, with two the slices have negative sizes. Proved: what every limit does in one dimension, that an odd number of negative limits always gives no slices, and the claim for positive limits. Missing: negative limits (false). |
| C214 | The chip counter never counts a chip for more vertices than it has cores | partial (refuted) | False if the monitors leave no core: the number of free cores becomes -1 and is never 0 again, so that one chip is counted for any number of vertices that fit its SDRAM. Proved: the claim whenever at least one core is left, without any bound on the requests. Missing: no core left (false). |

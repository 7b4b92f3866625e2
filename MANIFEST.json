{
 "claims": [
  {
   "property": "C01",
   "status": "proved",
   "theorems": [
    "C01_no_panic",
    "C01_no_panic_short",
    "C01_no_panic_len_hint"
   ],
   "note": "All tree types, all histories with fewer than usize::MAX entries stored."
  },
  {
   "property": "C02",
   "status": "proved",
   "theorems": [
    "C02_conservation",
    "C02_conservation_max"
   ],
   "note": "Multiset conservation on every history."
  },
  {
   "property": "C03",
   "status": "proved",
   "theorems": [
    "C03_remove"
   ],
   "note": ""
  },
  {
   "property": "C04",
   "status": "partial",
   "theorems": [
    "C04_sorted_map_partial",
    "C04_sorted_map_refuted"
   ],
   "note": "True of every type without Tree; false of Tree (witness 10, 20, 5)."
  },
  {
   "property": "C05",
   "status": "proved",
   "theorems": [
    "C05_sorted_map_ascending"
   ],
   "note": ""
  },
  {
   "property": "C06",
   "status": "proved",
   "theorems": [
    "C06_sorted_map_above_min"
   ],
   "note": ""
  },
  {
   "property": "C07",
   "status": "proved",
   "theorems": [
    "C07_ByteSet"
   ],
   "note": ""
  },
  {
   "property": "C08",
   "status": "proved",
   "theorems": [
    "C08_ByteMap"
   ],
   "note": ""
  },
  {
   "property": "C09",
   "status": "proved",
   "theorems": [
    "C09_BTreeMap"
   ],
   "note": ""
  },
  {
   "property": "C10",
   "status": "proved",
   "theorems": [
    "C10_insert",
    "C10_insert_refuted"
   ],
   "note": "On admissible histories, as stated; refuted for Tree in general."
  },
  {
   "property": "C11",
   "status": "proved",
   "theorems": [
    "C11_find",
    "C11_find_refuted"
   ],
   "note": "On admissible histories, as stated; refuted for Tree in general."
  },
  {
   "property": "C12",
   "status": "proved",
   "theorems": [
    "C12_predecessor",
    "C12_predecessor_refuted"
   ],
   "note": "On admissible histories, as stated; refuted for Tree in general."
  },
  {
   "property": "C13",
   "status": "proved",
   "theorems": [
    "C13_successor",
    "C13_successor_refuted"
   ],
   "note": "On admissible histories, as stated; refuted for Tree in general."
  },
  {
   "property": "C14",
   "status": "proved",
   "theorems": [
    "C14_extremes",
    "C14_max_refuted",
    "C14_min_refuted"
   ],
   "note": "On admissible histories, as stated; refuted for Tree in general."
  },
  {
   "property": "C15",
   "status": "proved",
   "theorems": [
    "C15_remove"
   ],
   "note": "On admissible histories, as stated."
  },
  {
   "property": "C16",
   "status": "proved",
   "theorems": [
    "C16_remove_min",
    "C16_remove_max"
   ],
   "note": "On admissible histories, as stated."
  },
  {
   "property": "C17",
   "status": "proved",
   "theorems": [
    "C17_drain"
   ],
   "note": "On admissible histories, as stated."
  },
  {
   "property": "C18",
   "status": "proved",
   "theorems": [
    "C18_mut_same"
   ],
   "note": ""
  },
  {
   "property": "C19",
   "status": "proved",
   "theorems": [
    "C19_mut_write"
   ],
   "note": ""
  },
  {
   "property": "C20",
   "status": "proved",
   "theorems": [
    "C20_monads"
   ],
   "note": ""
  },
  {
   "property": "C21",
   "status": "proved",
   "theorems": [
    "C21_forward",
    "C21_forward_refuted"
   ],
   "note": "On admissible histories, as stated; refuted in general by a reachable tree whose iteration never ends."
  },
  {
   "property": "C22",
   "status": "proved",
   "theorems": [
    "C22_deque"
   ],
   "note": ""
  },
  {
   "property": "C23",
   "status": "proved",
   "theorems": [
    "C23_fused"
   ],
   "note": ""
  },
  {
   "property": "C24",
   "status": "proved",
   "theorems": [
    "C24_size_hint",
    "C24_exact"
   ],
   "note": ""
  },
  {
   "property": "C25",
   "status": "proved",
   "theorems": [
    "C25_len",
    "C25_len_inner",
    "C25_len_map"
   ],
   "note": ""
  },
  {
   "property": "C26",
   "status": "proved",
   "theorems": [
    "C26_join_split",
    "C26_split_join",
    "C26_unsigned_halves"
   ],
   "note": "All key types of src/key.rs (unsigned, signed, byte, array pairs, U4/U2)."
  },
  {
   "property": "C27",
   "status": "proved",
   "theorems": [
    "C27_order",
    "C27_numeric"
   ],
   "note": ""
  },
  {
   "property": "C28",
   "status": "proved",
   "theorems": [
    "C28_split_ref"
   ],
   "note": ""
  },
  {
   "property": "C29",
   "status": "proved",
   "theorems": [
    "C29_U4",
    "C29_U2"
   ],
   "note": ""
  },
  {
   "property": "C30",
   "status": "proved",
   "theorems": [
    "C30_index",
    "C30_index_refuted",
    "C30_index_signed",
    "C30_array_panics"
   ],
   "note": "For every build and pointer width. Proved for unsigned types, U4, U2, () and the signed type as wide as a pointer; refuted for narrower signed types, where the exact set of bad values is given."
  },
  {
   "property": "C31",
   "status": "proved",
   "theorems": [
    "C31_masks",
    "C31_lowest",
    "C31_highest",
    "C31_len",
    "C31_count_below",
    "C31_bits",
    "C31_extensional",
    "C31_words",
    "C31_empty"
   ],
   "note": "Sets are read as one 256-bit number (BitSpec.v); lowest, highest and len are stated for sets with a member, the only ones the crate makes; C31_empty says what they would do without."
  },
  {
   "property": "C32",
   "status": "proved",
   "theorems": [
    "C32_finite_map"
   ],
   "note": "Any sequence of collection calls, with arbitrary closures, against an association list; panics of the specification (absent key, panicking closure) are matched by panics of the collection."
  },
  {
   "property": "C33",
   "status": "proved",
   "theorems": [
    "C33_tree",
    "C33_len_hint",
    "C33_collection"
   ],
   "note": "Run for run equality, panics included."
  },
  {
   "property": "C34",
   "status": "proved",
   "theorems": [
    "C34_interchangeable"
   ],
   "note": ""
  },
  {
   "property": "C35",
   "status": "proved",
   "theorems": [
    "C35_misplaced"
   ],
   "note": "Describes the defect of the code as it is: fails for the corrected insert."
  },
  {
   "property": "C36",
   "status": "proved",
   "theorems": [
    "C36_same",
    "C36_contents",
    "C36_answers"
   ],
   "note": "Every cloneable type; with a faithful value clone the clone is the same tree; with any value clone it has the same keys with cloned values and answers alike. Key clones are taken to be faithful."
  },
  {
   "property": "C37",
   "status": "proved",
   "theorems": [
    "C37_transparent",
    "C37_clones"
   ],
   "note": ""
  },
  {
   "property": "C38",
   "status": "proved",
   "theorems": [
    "C38_fixed_sorted_map"
   ],
   "note": ""
  },
  {
   "property": "C39",
   "status": "proved",
   "theorems": [
    "C39_Cardinality",
    "C39_CARDINALITY_unit",
    "C39_CARDINALITY_refuted",
    "C39_CARDINALITY_off"
   ],
   "note": "The claim is refuted for every type but (); the type-level Cardinality is proved right."
  },
  {
   "property": "C40",
   "status": "proved",
   "theorems": [
    "C40_iter_no_panic",
    "C40_iter_no_panic_refuted"
   ],
   "note": "On admissible histories, as stated; refuted in general (10, 20, 5; next, next_back, next, next)."
  },
  {
   "property": "C41",
   "status": "proved",
   "theorems": [
    "C41_core",
    "C41_same",
    "C41_builds"
   ],
   "note": "C41_core and C41_same are for every build with checks, C41_builds for any two builds and calls up to usize::MAX."
  },
  {
   "property": "C42",
   "status": "proved",
   "theorems": [
    "C42_exactly"
   ],
   "note": ""
  },
  {
   "property": "C43",
   "status": "proved",
   "theorems": [
    "C43_sorted_map",
    "C43_insert",
    "C43_exactly",
    "C43_conditions",
    "C43_weakest"
   ],
   "note": "exact characterisation of the insertions unharmed by the defect of Tree::insert (src/tree.rs 524-531): fits in Fits.v. This is the condition called allowed in the other properties."
  },
  {
   "property": "C44",
   "status": "proved",
   "theorems": [
    "C44_faithful",
    "C44_calls",
    "C44_markers",
    "C44_counted",
    "C44_counted_collections",
    "C44_adds",
    "C44_levels",
    "C44_bottom"
   ],
   "note": "Cost.v writes every operation again in a counting monad; C44_faithful says that without counts it is the operation of the model. One call stands for a bounded number of key comparisons, splits and joins and one call of an external container (HashMap, BTreeMap by contract)."
  },
  {
   "property": "C45",
   "status": "proved",
   "theorems": [
    "C45_slots",
    "C45_third",
    "C45_markers"
   ],
   "note": ""
  },
  {
   "property": "C46",
   "status": "proved",
   "theorems": [
    "C46_same",
    "C46_no_panic",
    "C46_sorted_map",
    "C46_fixed_sorted_map",
    "C46_arrays",
    "C46_iter",
    "C46_deque"
   ],
   "note": "keys whose equality is coarser than identity; removes the restriction of the other properties to OrdLaws keys, up to the projection"
  },
  {
   "property": "C47",
   "status": "proved",
   "theorems": [
    "C47_tree_min",
    "C47_tree_max",
    "C47_btree",
    "C47_returns_stored_refuted",
    "C47_found_inserted_refuted"
   ],
   "note": "what is true is proved, the documented behaviour is refuted for BTreeMap by a witness"
  },
  {
   "property": "C48",
   "status": "proved",
   "theorems": [
    "C48_btree",
    "C48_veb",
    "C48_agree",
    "C48_filled",
    "C48_fixed_agree",
    "C48_no_panic",
    "C48_next_differs",
    "C48_agree_refuted"
   ],
   "note": "Agreement away from stored keys, for insertions that are ascending or fit; next and prev at stored keys differ always (C48_next_differs); C48_agree_refuted shows the insertion defect on the benchmark's own type. C48_filled is for targets whose pointers are wider than the keys."
  },
  {
   "property": "C49",
   "status": "proved",
   "theorems": [
    "C49_same",
    "C49_same_long",
    "C49_width_refuted",
    "C49_no_panic",
    "C49_sorted_map",
    "C49_deque",
    "C49_size_hint",
    "C49_iter_same",
    "C49_iter_no_panic",
    "C49_iter_same_refuted",
    "C49_size_hint_refuted",
    "C49_finite_map",
    "C49_finite_map_panic",
    "C49_remove_absent",
    "C49_remove_absent_last",
    "C49_finite_map_panic_refuted",
    "C49_remove_absent_breaks",
    "C49_arithmetic"
   ],
   "note": "The model takes the build as a parameter: checks and the width of usize. The refuted parts are the differences named in the statement."
  },
  {
   "property": "C50",
   "status": "proved",
   "theorems": [
    "C50_faithful",
    "C50_call",
    "C50_iteration",
    "C50_history",
    "C50_no_arrays"
   ],
   "note": "Counted as in C44; the iteration bound needs a tree reached by an admissible history, the others nothing."
  },
  {
   "property": "C51",
   "status": "proved",
   "theorems": [
    "C51_space",
    "C51_least"
   ],
   "note": "Counts Trees, leaves, keys, collections and slots of arrays in the state of the model; what a VecDeque, HashMap or BTreeMap of an external crate reserves is not modelled."
  },
  {
   "property": "C52",
   "status": "proved",
   "theorems": [
    "C52_U4",
    "C52_U2",
    "C52_shift"
   ],
   "note": ""
  },
  {
   "property": "C53",
   "status": "proved",
   "theorems": [
    "C53_offered",
    "C53_unsigned",
    "C53_signed",
    "C53_agrees",
    "C53_CARDINALITY"
   ],
   "note": "Which SizedVebKey impls exist on which target; C53_agrees ties their index to the one in the rest of the model, which is for every pointer width too."
  },
  {
   "property": "C54",
   "status": "proved",
   "theorems": [
    "C54_tree",
    "C54_types",
    "C54_collections",
    "C54_no_panic",
    "C54_no_panic_short",
    "C54_conservation",
    "C54_remove",
    "C54_sorted_map",
    "C54_iter",
    "C54_exactly",
    "C54_conditions",
    "C54_levels",
    "C54_any_part_refuted"
   ],
   "note": "the contracts are stated against the sorted list and the finite map only; C54_any_part_refuted shows that without them a Tree can panic"
  },
  {
   "property": "C55",
   "status": "proved",
   "theorems": [
    "C55_tree",
    "C55_collection",
    "C55_vecdeque",
    "C55_sorted_map",
    "C55_tree_over_lists",
    "C55_any_list_refuted"
   ],
   "note": "C55_any_list_refuted shows the clause that no empty list is given back is needed"
  },
  {
   "property": "C56",
   "status": "proved",
   "theorems": [
    "C56_exactly",
    "C56_equal",
    "C56_detour",
    "C56_undo",
    "C56_any_order",
    "C56_any_history_refuted",
    "C56_byteset_eq"
   ],
   "note": "For every tree type of VebType and both builds. BTreeMap is its sorted list (external, by contract), so inside it nothing can differ. Hash maps up to the order of their entries. The refutation is Tree as it is over u16: 10, 20, 5 and 5, 10, 20 leave different trees holding the same pairs."
  },
  {
   "property": "C57",
   "status": "proved",
   "theorems": [
    "C57_holds",
    "C57_no_panic",
    "C57_sorted_map",
    "C57_markers",
    "C57_never",
    "C57_no_key_twice_refuted"
   ],
   "note": "Removes the memory side condition of C01-C06 and C38 for key types of up to 32 bits. For 64-bit keys the bound exceeds usize::MAX, so the side condition stays there."
  },
  {
   "property": "C58",
   "status": "proved",
   "theorems": [
    "C58_related",
    "C58_builds",
    "C58_map",
    "C58_keys",
    "C58_given",
    "C58_iter"
   ],
   "note": "nested_alike: same Tree nesting and keys; histories up to usize::MAX calls as in C01; C58_iter where neither iterator panics (C40 says when)"
  },
  {
   "property": "C59",
   "status": "proved",
   "theorems": [
    "C59_stored",
    "C59_iter",
    "C59_found",
    "C59_inserted",
    "C59_insert_refuted",
    "C59_removed_refuted"
   ],
   "note": "all builds, every history; the two refuted statements mark where it ends"
  },
  {
   "property": "C60",
   "status": "proved",
   "theorems": [
    "C60_loop",
    "C60_rloop",
    "C60_nth",
    "C60_len",
    "C60_ends",
    "C60_len_refuted",
    "C60_loop_refuted"
   ],
   "note": "std's provided methods are modelled by their documented default bodies; the two refuted statements are about trees the insertion defect has put out of order"
  },
  {
   "property": "C61",
   "status": "proved",
   "theorems": [
    "C61_exactly",
    "C61_exactly_fixed",
    "C61_needed",
    "C61_not_onto",
    "C61_array",
    "C61_array_signed",
    "C61_hash"
   ],
   "note": "For key types with a first or last key the laws are proved sufficient on all keys and necessary on the keys in between; the equivalence is for orders without end points. The order laws of the three orders are assumed in both directions."
  },
  {
   "property": "C62",
   "status": "proved",
   "theorems": [
    "C62_watch",
    "C62_reachable",
    "C62_calls",
    "C62_contents",
    "C62_caught",
    "C62_stored",
    "C62_inserted",
    "C62_sorted_map",
    "C62_iter",
    "C62_orderly",
    "C62_lost",
    "C62_left",
    "C62_count",
    "C62_count_kept",
    "C62_count_calls",
    "C62_is_monad",
    "C62_len_refuted",
    "C62_is_monad_refuted",
    "C62_iterator"
   ],
   "note": "The methods that take the tree by value drop it when they panic, and queries change nothing, so insert is the only method of a tree concerned; of an iterator it is next and next_back. A BTreeMap is taken to search before it changes anything. Panics of Drop are left out, as Drop is. With the crate's own keys nothing panics (C01)."
  },
  {
   "property": "C63",
   "status": "proved",
   "theorems": [
    "C63_two_pairs",
    "C63_markers"
   ],
   "note": "By the contract of typenum: USIZE of a number that does not fit usize keeps its low bits. (Were it to fail instead, the third insertion would panic or not compile as well.)"
  },
  {
   "property": "C64",
   "status": "proved",
   "theorems": [
    "C64_exactly",
    "C64_full",
    "C64_signed"
   ],
   "note": "The tree over an array is a tree over a hash map that panics on the halves without a slot; two-sided simulation. Insertions as in C43."
  },
  {
   "property": "C65",
   "status": "proved",
   "theorems": [
    "C65_exactly",
    "C65_one_level",
    "C65_boxed",
    "C65_sized",
    "C65_three_insertions"
   ],
   "note": "one level of Tree (Marker16, Marker16Empty and the like): every history with room for its pairs; deeper types: as long as what goes into the summary and the children passes the test of C43, so the defect strikes at the top level only; the same in a Box and in a SizedVebTree, whose size counts keys stored twice; iterators called at both ends in any mix, panics included; the three shortest wrong iterations, for every tree type"
  },
  {
   "property": "C66",
   "status": "proved",
   "theorems": [
    "C66_any_history",
    "C66_contents",
    "C66_step",
    "C66_run",
    "C66_exactly",
    "C66_exactly_equal",
    "C66_lists",
    "C66_tree_lists",
    "C66_in_order_refuted",
    "C66_tree_list_empty"
   ],
   "note": "the specification (Built.v) reads the state off by recursion over the type and uses none of the invariants of the proofs; C66_in_order_refuted: with the defect, agreement stays but the order is lost"
  },
  {
   "property": "C67",
   "status": "proved",
   "theorems": [
    "C67_one_level",
    "C67_any_depth",
    "C67_count",
    "C67_count_any_depth",
    "C67_without_defect"
   ],
   "note": "the specification (Orders.v) uses run and the sorted map only; the count is of the listed orders themselves, not of a formula"
  },
  {
   "property": "C68",
   "status": "proved",
   "theorems": [
    "C68_one_level",
    "C68_two_levels_refuted"
   ],
   "note": "proved for one level; that it carries over to two levels is refuted by a history on 32-bit keys"
  },
  {
   "property": "C69",
   "status": "proved",
   "theorems": [
    "C69_tree",
    "C69_any_depth",
    "C69_harmless",
    "C69_exchange",
    "C69_outermost_refuted"
   ],
   "note": "proved for wrappers at every level; that wrapping the outermost tree is enough is refuted by a history on 32-bit keys. The wrapper is a user's program, not the library's."
  },
  {
   "property": "C70",
   "status": "proved",
   "theorems": [
    "C70_sure",
    "C70_emptied",
    "C70_salvage",
    "C70_unsure_refuted",
    "C70_removal_refuted"
   ],
   "note": "proved for histories of insertions and questions that change nothing; that the other answers are as safe, or that removals may be mixed in, is refuted on 16-bit keys. salvage is a user's program, not the library's."
  },
  {
   "property": "C71",
   "status": "proved",
   "theorems": [
    "C71_exact",
    "C71_len",
    "C71_salvage",
    "C71_dictionary",
    "C71_unsettled_refuted",
    "C71_present_refuted"
   ],
   "note": "proved for insertions of absent keys and removals by key mixed with questions that change nothing; that the other answers are as safe, or that present keys may be inserted, is refuted on 16-bit keys. The dictionary and salvage are a user's programs, not the library's."
  },
  {
   "property": "C72",
   "status": "proved",
   "theorems": [
    "C72_collection",
    "C72_table",
    "C72_assoc",
    "C72_same",
    "C72_library",
    "C72_iter",
    "C72_any_hash",
    "C72_sorted_map",
    "C72_hash_refuted"
   ],
   "note": "proved against a contract of the map; hashbrown itself stays external. A table of rows with any hash function meets the contract; hashbrown's probing and its control bytes are not modelled. For each type of keys all maps of one program draw their seed by one function of their first pair, and may change it when they grow. C72_hash_refuted: a hash that tells equal keys apart."
  },
  {
   "property": "C73",
   "status": "proved",
   "theorems": [
    "C73_tree",
    "C73_history",
    "C73_maps",
    "C73_same",
    "C73_library",
    "C73_iter",
    "C73_sorted_map",
    "C73_order_refuted"
   ],
   "note": "proved against a contract of the map; the B-tree of the standard library itself stays external. A sorted list and an unbalanced search tree meet the contract. C73_history carries the bound of all histories here: fewer pairs than usize::MAX. C73_order_refuted: three keys in a cycle, a key put in is not found."
  },
  {
   "property": "C74",
   "status": "proved",
   "theorems": [
    "C74_list",
    "C74_trees",
    "C74_history",
    "C74_vecdeque",
    "C74_ring",
    "C74_loose",
    "C74_same",
    "C74_library",
    "C74_iter",
    "C74_sorted_map"
   ],
   "note": "proved against a contract of the queue, together with the contracts of C72 and C73, so that no container of the standard library is fixed. The ring buffer moves values one by one; the block moves and uninitialised memory of the standard library's VecDeque stay external. C74_history carries the bound of all histories here: fewer pairs than usize::MAX."
  },
  {
   "property": "C75",
   "status": "proved",
   "theorems": [
    "C75_contract",
    "C75_collection",
    "C75_ends",
    "C75_load",
    "C75_triangular",
    "C75_same",
    "C75_sorted_map",
    "C75_no_tombstones_refuted"
   ],
   "note": "about the published design of hashbrown's table, written down as a model of its own: the crate's text is not part of /repo and was not read. Control bytes and slots are one list, the repeated bytes at the end are a reading function; a rebuilding always fills a new array. C75_no_tombstones_refuted is about a wrong erasure, not about the library."
  },
  {
   "property": "C76",
   "status": "proved",
   "theorems": [
    "C76_contract",
    "C76_tree",
    "C76_history",
    "C76_height",
    "C76_work",
    "C76_same",
    "C76_sorted_map",
    "C76_compared",
    "C76_stored_keys"
   ],
   "note": "about the published design of the standard library's B-tree, written down as a model of its own: its code is not part of /repo and was not read. A node contains its children instead of pointing at them, and has no pointer to its parent; a range seeks one end and compares it with the other bound."
  },
  {
   "property": "C77",
   "status": "proved",
   "theorems": [
    "C77_same",
    "C77_iter",
    "C77_sorted_map"
   ],
   "note": "the three containers are models after published designs, not the code of the standard library or hashbrown, which is not part of /repo. vec_entry and typenum stay by contract."
  },
  {
   "property": "C78",
   "status": "proved",
   "theorems": [
    "C78_moves",
    "C78_sizes",
    "C78_calls",
    "C78_moved",
    "C78_tables",
    "C78_same_size_refuted"
   ],
   "note": "the table is the model of Probe.v (C75) with the published plan of growth (half full or less: same size, else twice), not hashbrown's code. Counted are the pairs moved by rebuildings, not probes."
  },
  {
   "property": "C79",
   "status": "proved",
   "theorems": [
    "C79_call",
    "C79_contents",
    "C79_space",
    "C79_insertions",
    "C79_split_leaf",
    "C79_split_inner",
    "C79_mend",
    "C79_worst",
    "C79_constant_refuted"
   ],
   "note": "of the model in Nodes.v (C76: nodes of 5 to 11 pairs, merged whenever both fit into one), not of the standard library's code. Counted is by how much the number of nodes changes; pairs moved between nodes are not."
  },
  {
   "property": "C80",
   "status": "proved",
   "theorems": [
    "C80_history",
    "C80_tables",
    "C80_only_insertions",
    "C80_counted",
    "C80_fewer_refuted",
    "C80_single_refuted"
   ],
   "note": "of the model in Probe.v (C75) rebuilt under std_policy (C78), not of hashbrown's code. The moves of one table are those that C78 counts. Refuted is, with witnesses, that fewer would do and that the bound holds call by call (28 moves where two are paid for)."
  },
  {
   "property": "C81",
   "status": "proved",
   "theorems": [
    "C81_insert",
    "C81_remove",
    "C81_entry",
    "C81_bytes",
    "C81_bytemap",
    "C81_trees",
    "C81_growth",
    "C81_counted",
    "C81_contents",
    "C81_full",
    "C81_stay",
    "C81_fewer_refuted",
    "C81_behind_refuted"
   ],
   "note": "of the ring of DequeGen.v with the choices of std_ring (C74), not of the standard library's code."
  }
 ]
}
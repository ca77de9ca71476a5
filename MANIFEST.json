{
 "claims": [
  {
   "property": "C01",
   "status": "proved",
   "theorems": [
    "C01_checked_stack_is_bounded_list",
    "C01_macros_agree_in_bounds",
    "C01_negative_size_refuted"
   ],
   "note": "refuted part: sp_SetCurrentSize accepts negative sizes"
  },
  {
   "property": "C02",
   "status": "proved",
   "theorems": [
    "C02_list_collection",
    "C02_list_collection_macros",
    "C02_copy_collection"
   ],
   "note": "Functions and macros; any history on a fresh collection."
  },
  {
   "property": "C03",
   "status": "partial",
   "theorems": [
    "C03_string_buffer_partial",
    "C03_doubling_overflow_refuted",
    "C03_duplicate_copy_take"
   ],
   "note": "Proved for texts up to 2^30-1 characters with any pattern of allocation failures; beyond that the capacity doubling overflows int (refuted)."
  },
  {
   "property": "C04",
   "status": "proved",
   "theorems": [
    "C04_histories_well_formed",
    "C04_lists_unique"
   ],
   "note": "Histories of add, dynamic add, insert, delete, ensure, reinitialise and edge marking, from any initial capacity and size."
  },
  {
   "property": "C05",
   "status": "proved",
   "theorems": [
    "C05_add_edge_effect",
    "C05_insert_edge_effect"
   ],
   "note": ""
  },
  {
   "property": "C06",
   "status": "proved",
   "theorems": [
    "C06_delete_edge_effect"
   ],
   "note": ""
  },
  {
   "property": "C07",
   "status": "proved",
   "theorems": [
    "C07_ensure_capacity",
    "C07_ensure_before_init"
   ],
   "note": "Allocation is assumed to succeed; failure is C44."
  },
  {
   "property": "C08",
   "status": "partial",
   "theorems": [
    "C08_dynamic_add_partial",
    "C08_dynamic_add_refuted"
   ],
   "note": "False of the code as stated: refuted by witnesses with capacities 4 and 2. Proved part: all capacities of at least 6, or with room left."
  },
  {
   "property": "C09",
   "status": "partial",
   "theorems": [
    "C09_reported_capacity_refuted"
   ],
   "note": "False of the code as stated: on every initialised graph the reported capacity is two less than twice the maximum number of edges."
  },
  {
   "property": "C10",
   "status": "proved",
   "theorems": [
    "C10_queries_exact"
   ],
   "note": ""
  },
  {
   "property": "C11",
   "status": "proved",
   "theorems": [
    "C11_hide_restore_edges",
    "C11_hide_restore_internal_edges"
   ],
   "note": ""
  },
  {
   "property": "C12",
   "status": "proved",
   "theorems": [
    "C12_hide_restore_vertices"
   ],
   "note": ""
  },
  {
   "property": "C13",
   "status": "partial",
   "theorems": [
    "C13_identify_restore_refuted",
    "C13_contract_restore_refuted"
   ],
   "note": "False of the code as stated: refuted by witnesses for identification and for contraction."
  },
  {
   "property": "C14",
   "status": "proved",
   "theorems": [
    "C14_copy_graph",
    "C14_copy_adjacency_lists",
    "C14_dup_graph"
   ],
   "note": "Extensions are C32."
  },
  {
   "property": "C15",
   "status": "partial",
   "theorems": [
    "C15_new_edge_unmarked_partial",
    "C15_inserted_edge_unmarked_partial",
    "C15_new_edge_unmarked_refuted"
   ],
   "note": "False of the code as stated: refuted after gp_CopyGraph into a larger graph. Proved part: all histories without gp_CopyGraph."
  },
  {
   "property": "C16",
   "status": "partial",
   "theorems": [
    "C16_set_direction_partial",
    "C16_set_direction_refuted"
   ],
   "note": "False of the code as stated: refuted when an edge is turned around. Proved part: edges without direction, with the same direction, and clearing."
  },
  {
   "property": "C17",
   "status": "proved",
   "theorems": [
    "C17_create_dfs_tree",
    "C17_edited_graphs_qualify",
    "C17_no_cross_edges"
   ],
   "note": "For every represented graph with edges among the primary vertices that has not been searched; self-loops are allowed and keep type not-defined."
  },
  {
   "property": "C18",
   "status": "proved",
   "theorems": [
    "C18_sort_vertices",
    "C18_sort_carries_forest",
    "C18_sort_searches_first"
   ],
   "note": "Base _SortVertices. Sorting twice restores everything except the visited flags, which end up set."
  },
  {
   "property": "C19",
   "status": "partial",
   "theorems": [
    "C19_lowpoint_and_least_ancestor",
    "C19_lowpoint_from_scratch",
    "C19_least_ancestor_partial",
    "C19_least_ancestor_does_nothing_refuted",
    "C19_least_ancestor_refuted"
   ],
   "note": "False of the code as stated for gp_LeastAncestor: it never clears the visited flags, which sorting leaves set, so it computes nothing (C19_least_ancestor_refuted, and for every unsearched graph C19_least_ancestor_does_nothing_refuted). Proved part: gp_LowpointAndLeastAncestor in full; gp_LeastAncestor when the visited flags are clear."
  },
  {
   "property": "C20",
   "status": "partial",
   "theorems": [
    "C20_number_in_range",
    "C20_number_refuted",
    "C20_edgeless_graphs_qualify",
    "C20_create_random_graph",
    "C20_create_random_graph_terminates",
    "C20_create_random_graph_refuted"
   ],
   "note": "False of the code as stated: refuted by C20_number_refuted (ranges outside int arithmetic) and C20_create_random_graph_refuted (N*(N-1) overflows int for N >= 46342). Proved part: in the range where the arithmetic fits, every number drawn is in range, and every run on an edgeless graph gives a connected simple graph; it terminates for every fair stream."
  },
  {
   "property": "C21",
   "status": "partial",
   "theorems": [
    "C21_create_random_graph_ex_partial",
    "C21_create_random_graph_ex_terminates",
    "C21_too_many_edges_refuted",
    "C21_exact_capacity_refuted",
    "C21_divergence_refuted"
   ],
   "note": "False of the code as stated: refuted by C21_too_many_edges_refuted (more edges than asked for), C21_exact_capacity_refuted (NOTOK although the capacity suffices), C21_divergence_refuted (endless loop). Proved part: the result is connected with cleared flags and parents, max(N-1,m) <= M <= max(that, 3N-6), exact outside (N-1,3N-6); failure only when the capacity is below 3N-6; termination for fair streams."
  },
  {
   "property": "C22",
   "status": "proved",
   "theorems": [
    "C22_write_string",
    "C22_write_file",
    "C22_read_file",
    "C22_read_string",
    "C22_round_trip",
    "C22_round_trip_file"
   ],
   "note": "Text = g6_text of the separate specification G6Spec.v, exactly. C22_order_one_not_written records the lower end of the range."
  },
  {
   "property": "C23",
   "status": "partial",
   "theorems": [
    "C23_sizes_partial",
    "C22_write_string",
    "C22_write_file",
    "C23_overflow_refuted"
   ],
   "note": "False of the code as stated: refuted by C23_overflow_refuted (every write with 46342 <= N <= 100000 overflows int). Proved part: sizes exact and writes in bounds up to N = 46341."
  },
  {
   "property": "C24",
   "status": "partial",
   "theorems": [
    "C24_iterator_file_partial",
    "C24_iterator_string_partial",
    "C24_bad_start_partial",
    "C24_order_limit_partial",
    "C24_file_refuted",
    "C24_string_refuted",
    "C24_undefined_refuted"
   ],
   "note": "False of the code as stated: refuted by C24_file_refuted and C24_string_refuted (the one-shot functions return OK for every non-empty input they come back from) and C24_undefined_refuted. Proved part: the iterator accepts the first line exactly if it encodes a graph, and rejects texts with a bad start."
  },
  {
   "property": "C25",
   "status": "proved",
   "theorems": [
    "C25_text",
    "C25_round_trip"
   ],
   "note": "Orders up to 32768, so that capacities computed while reading stay C ints."
  },
  {
   "property": "C26",
   "status": "proved",
   "theorems": [
    "C26_text",
    "C26_round_trip"
   ],
   "note": "Orders up to 32768; the row buffer starts with arbitrary content."
  },
  {
   "property": "C27",
   "status": "partial",
   "theorems": [
    "C27_round_trip_partial",
    "C27_string_refuted"
   ],
   "note": "False of the code as stated: refuted by C27_string_refuted (three vertices, the edge is lost). Proved part: orders 1 and 2."
  },
  {
   "property": "C28",
   "status": "partial",
   "theorems": [
    "C28_read_lists_partial",
    "C28_loop_refuted",
    "C28_repeat_refuted"
   ],
   "note": "False of the code as stated: a loop is an error (C28_loop_refuted), a repeated neighbour gives parallel edges (C28_repeat_refuted). Proved part: texts without loops and repetitions are read exactly."
  },
  {
   "property": "C29",
   "status": "partial",
   "theorems": [
    "C29_missing_lines_partial",
    "C29_no_order_partial",
    "C29_matrix_refuted",
    "C29_matrix_uninitialised_refuted",
    "C29_list_refuted",
    "C29_string_refuted"
   ],
   "note": "False of the code as stated: truncated texts are accepted with wrong edges or cause undefined behaviour. Proved part: lists cut after the line of a vertex, and headers without a number, are rejected."
  },
  {
   "property": "C30",
   "status": "proved",
   "theorems": [
    "C30_dispatch"
   ],
   "note": "Contexts live in a heap that can be freed; any number of graphs and modules."
  },
  {
   "property": "C31",
   "status": "proved",
   "theorems": [
    "C31_lookup"
   ],
   "note": ""
  },
  {
   "property": "C32",
   "status": "partial",
   "theorems": [
    "C32_duplicate_partial",
    "C32_detach_from_duplicate_refuted",
    "C32_original_freed_refuted"
   ],
   "note": "False of the code as stated: refuted by C32_detach_from_duplicate_refuted and C32_original_freed_refuted. Proved part: dispatch of the duplicate and original right after duplication, own contexts, and detaching from the duplicate in reverse order of attachment."
  },
  {
   "property": "C33",
   "status": "proved",
   "theorems": [
    "C33_facial_integrity",
    "C33_counts_unique",
    "C33_search_gives_roots",
    "C33_room_in_edited_graphs"
   ],
   "note": "For every well-formed graph and rotation system whose DFS roots are one per component (proved to hold after gp_CreateDFSTree and gp_SortVertices)."
  },
  {
   "property": "C34",
   "status": "proved",
   "theorems": [
    "C34_test_subgraph",
    "C34_sorting_gives_state"
   ],
   "note": "Including the temporary sorting of one of the graphs; only visited flags of vertices change. Multiplicities of parallel edges are not compared by the code and not by the property."
  },
  {
   "property": "C35",
   "status": "proved",
   "theorems": [
    "C35_kuratowski_check"
   ],
   "note": "Holds with self-loops and multiple edges too."
  },
  {
   "property": "C36",
   "status": "proved",
   "theorems": [
    "C36_outerplanar_check",
    "C36_self_loops_refuted"
   ],
   "note": "Exact on loop-free graphs; C36_self_loops_refuted shows the restriction is needed: the K2,3 test accepts a looped path that is no obstruction."
  },
  {
   "property": "C37",
   "status": "proved",
   "theorems": [
    "C37_external_face"
   ],
   "note": "The face that starts at the first arc of each DFS root."
  },
  {
   "property": "C38",
   "status": "proved",
   "theorems": [
    "C38_accepted_drawings",
    "C38_check_exact",
    "C38_safety_refuted"
   ],
   "note": "Soundness for every assignment of positions; exact characterisation for graphs with an edge (or with rows inside the picture). For an edgeless graph the check tests no range and can itself read outside its arrays (refuted safety)."
  },
  {
   "property": "C39",
   "status": "proved",
   "theorems": [
    "C39_vertex_extents",
    "C39_edge_extents"
   ],
   "note": "Columns in 0..M, any rows; isolated vertices get 0..0."
  },
  {
   "property": "C40",
   "status": "partial",
   "theorems": [
    "C40_render_partial",
    "C40_size_overflow",
    "C40_edgeless_refuted",
    "C40_bounds_refuted",
    "C40_labels_refuted"
   ],
   "note": "False of the code as stated: refuted by C40_edgeless_refuted, C40_bounds_refuted, C40_labels_refuted. Proved part: for accepted drawings with at least one edge and a size that fits in int, no out-of-bounds write, all segments drawn, and line structure kept when labels have at most two digits."
  },
  {
   "property": "C41",
   "status": "proved",
   "theorems": [
    "C41_invert_vertex"
   ],
   "note": "For every well-formed graph (rep) and every vertex, virtual ones included."
  },
  {
   "property": "C42",
   "status": "proved",
   "theorems": [
    "C42_merge_vertex"
   ],
   "note": "For every well-formed graph, R with at least one arc (the code's documented precondition), both sides."
  },
  {
   "property": "C43",
   "status": "proved",
   "theorems": [
    "C43_join_bicomps"
   ],
   "note": "For every well-formed graph whose virtual vertices with arcs are copies of proper vertices; the resulting lists are given exactly."
  },
  {
   "property": "C44",
   "status": "partial",
   "theorems": [
    "C44_init_failure_partial",
    "C44_refuted",
    "C44_retry_refuted"
   ],
   "note": "False of the code as stated: refuted by C44_refuted and C44_retry_refuted (after free(VI) the code sets V to NULL instead of VI). Proved part: the exact outcome of every failure point of a first initialisation."
  },
  {
   "property": "C45",
   "status": "partial",
   "theorems": [
    "C45_written_text",
    "C45_section_round_trip_partial",
    "C45_reread_refuted",
    "C45_holes_refuted"
   ],
   "note": "False of the code as stated: refuted by C45_reread_refuted (the section names edges by number, and reading the graph back numbers them anew) and C45_holes_refuted (after a deletion the reader runs past the end of the text). Proved part: the exact text of the section for every graph, and the round trip into a graph with the same edge numbering and no deleted edges."
  },
  {
   "property": "C46",
   "status": "partial",
   "theorems": [
    "C46_string_reads_like_file_partial",
    "C46_characters_in_order",
    "C46_writes_append",
    "C46_carriage_return_refuted",
    "C46_unread_at_end_refuted",
    "C46_zero_count_refuted"
   ],
   "note": "False of the code as stated: refuted by C46_carriage_return_refuted (a carriage return ends a line of a string but not of a file), C46_unread_at_end_refuted and C46_zero_count_refuted. Proved part: for every content without carriage returns and every history of reads with positive limits, a string and a file give the same observations (C46_string_reads_like_file_partial); what they are (C46_characters_in_order); writing appends in both (C46_writes_append)."
  },
  {
   "property": "C47",
   "status": "proved",
   "theorems": [
    "C47_leda",
    "C47_range_refuted"
   ],
   "note": "C47_range_refuted shows that the range condition of the property is needed: numbers are not checked."
  },
  {
   "property": "C48",
   "status": "partial",
   "theorems": [
    "C48_work_stack_partial",
    "C48_work_stack_refuted"
   ],
   "note": "False of the code as stated: refuted for a requested capacity below the default. Proved part: capacity at least 14/3 N, which includes the default 6N."
  },
  {
   "property": "C49",
   "status": "partial",
   "theorems": [
    "C49_skip_whitespace",
    "C49_skip_integer",
    "C49_stale_read_position_refuted"
   ],
   "note": "False of the code as stated: sb_TakeString and sb_Copy keep a stale read position (C49_stale_read_position_refuted). Proved part: the skip functions."
  },
  {
   "property": "C50",
   "status": "proved",
   "theorems": [
    "C50_move_arc_to_last",
    "C50_move_arc_to_first"
   ],
   "note": "All four positions of the record are covered by the split adj v = l1 ++ e :: l2."
  },
  {
   "property": "C51",
   "status": "proved",
   "theorems": [
    "C51_file_sequence",
    "C51_string_sequence",
    "C51_other_order"
   ],
   "note": "One graph per line, each line ended by a line feed. A following line of another order is rejected."
  },
  {
   "property": "C52",
   "status": "partial",
   "theorems": [
    "C52_sequence_refuted"
   ],
   "note": "False of the code as stated: refuted by C52_sequence_refuted (no line end is written between graphs). No part of it holds for two or more graphs; single graphs are C22."
  },
  {
   "property": "C53",
   "status": "proved",
   "theorems": [
    "C53_embedding_integrity",
    "C53_obstruction_integrity",
    "C53_other_results"
   ],
   "note": "gp_TestEmbedResultIntegrity for OK, NONEMBEDDABLE and every other result; for the flags EMBEDFLAGS_PLANAR and EMBEDFLAGS_OUTERPLANAR of the core library."
  },
  {
   "property": "C54",
   "status": "partial",
   "theorems": [
    "C54_capacity_histories_partial",
    "C54_capacity_failure_partial",
    "C54_refuted"
   ],
   "note": "False of the code as stated: refuted by C54_refuted (realloc failure stores NULL in E and leaks the old array). Proved part: over all histories and failure patterns no invalid release happens, no leak without a failed request, and a failure changes neither order nor capacity and either keeps or loses the whole edge array."
  },
  {
   "property": "C55",
   "status": "proved",
   "theorems": [
    "C55_embed_is_planar",
    "C55_edited_graphs_qualify",
    "C55_lists_unique",
    "C55_embed_multigraph_refuted",
    "C55_embed_loop_refuted"
   ],
   "note": "Total correctness of the OK answer for every simple graph and every flags value: initialisation, Walkup, Walkdown, merging, flipping, edge embedding, orientation and joining are all proved. What the obstruction isolators do after NONEMBEDDABLE is C61 and C62. Simplicity is necessary: with parallel edges or a loop the code answers OK and loses an edge (the two _refuted theorems)."
  },
  {
   "property": "C56",
   "status": "proved",
   "theorems": [
    "C56_embed_then_check"
   ],
   "note": "Composition of C55 and C59 with C53, for all flags."
  },
  {
   "property": "C57",
   "status": "proved",
   "theorems": [
    "C57_ok_means_planar",
    "C57_kuratowski_not_planar",
    "C57_embed_detects_minors"
   ],
   "note": ""
  },
  {
   "property": "C58",
   "status": "proved",
   "theorems": [
    "C58_embed_decides_planarity",
    "C58_nonembeddable_has_minor",
    "C58_planar_iff_no_minor",
    "C58_built_graphs"
   ],
   "note": "Completeness of the embedder on top of C55 and C57. Includes the run of the Kuratowski subgraph isolator after a block is found."
  },
  {
   "property": "C59",
   "status": "proved",
   "theorems": [
    "C59_outer_face",
    "C59_ok_means_outerplanar"
   ],
   "note": ""
  },
  {
   "property": "C60",
   "status": "proved",
   "theorems": [
    "C60_embed_decides_outerplanarity",
    "C60_nonembeddable_has_minor",
    "C60_obstruction_not_outerplanar",
    "C60_outerplanar_iff_no_minor",
    "C60_built_graphs"
   ],
   "note": "Includes the run of the outerplanar obstruction isolator after a block is found."
  },
  {
   "property": "C61",
   "status": "proved",
   "theorems": [
    "C61_obstruction_isolated",
    "C61_isolate_then_check",
    "C61_not_outerplanar_has_subdivision",
    "C61_subdivision_not_outerplanar",
    "C61_outerplanar_iff_no_subdivision"
   ],
   "note": "Total correctness of the outerplanar obstruction isolator. The last two theorems give the characterisation of outerplanar graphs by subdivisions of K2,3 and K4."
  },
  {
   "property": "C62",
   "status": "proved",
   "theorems": [
    "C62_kuratowski_isolated",
    "C62_isolate_then_check",
    "C62_not_planar_has_subdivision",
    "C62_subdivision_not_planar",
    "C62_planar_iff_no_subdivision"
   ],
   "note": "Total correctness of the Kuratowski subgraph isolator: all nine minors A-E5, marking, deletion of the unmarked edges. Stated for EMBEDFLAGS_PLANAR and simple graphs. The last two theorems give Kuratowski's theorem for the modelled graphs."
  },
  {
   "property": "C63",
   "status": "proved",
   "theorems": [
    "C63_embed_then_sort",
    "C63_isolate_then_sort_planar",
    "C63_isolate_then_sort_outerplanar",
    "C63_built_graphs"
   ],
   "note": "Composition of gp_Embed and gp_SortVertices. The NONEMBEDDABLE cases are stated for EMBEDFLAGS_PLANAR and EMBEDFLAGS_OUTERPLANAR."
  },
  {
   "property": "C64",
   "status": "proved",
   "theorems": [
    "C64_embedding_as_text",
    "C64_kuratowski_as_text",
    "C64_outerplanar_obstruction_as_text",
    "C64_built_graphs"
   ],
   "note": "Composition of gp_Embed, gp_SortVertices, _WriteAdjList and the two readers. The reader has a bound on the number of vertices that its model can follow, fuel, which the hypotheses ask to be at least the number of vertices. Extra data of extensions is not part of the text."
  },
  {
   "property": "C65",
   "status": "proved",
   "theorems": [
    "C65_read_then_embed",
    "C65_leda_file",
    "C65_graph6",
    "C65_text_in_text_out"
   ],
   "note": "C65_read_then_embed holds for every text and all four formats; that the graph is well-formed and simple is a hypothesis there and is proved for graph6, LEDA and adjacency-list texts in the other three."
  },
  {
   "property": "C66",
   "status": "partial",
   "theorems": [
    "C66_embed_after_search_refuted",
    "C66_embed_again_refuted",
    "C66_reuse_partial"
   ],
   "note": "False of the code as stated: refuted by C66_embed_after_search_refuted (DFS tree, then an edge deleted, then gp_Embed: read outside the vertex array) and C66_embed_again_refuted (gp_Embed for outerplanarity, gp_SortVertices, gp_Embed for planarity: undefined behaviour), because gp_Embed does not reset what an earlier search left. Proved part: C66_reuse_partial, for structures emptied with gp_ReinitializeGraph after each use, any number of times, whatever the earlier verdicts."
  },
  {
   "property": "C67",
   "status": "proved",
   "theorems": [
    "C67_random_test",
    "C67_random_test_terminates"
   ],
   "note": "For the commands that test planarity and outerplanarity, without the options that write graphs to files. Values of rand() on which _GetRandomNumber overflows are excluded (C20)."
  },
  {
   "property": "C68",
   "status": "proved",
   "theorems": [
    "C68_test_all_graphs",
    "C68_other_order"
   ],
   "note": "The counts are of a list with one entry for each line: the graph of the line and whether it is planar (outerplanar)."
  },
  {
   "property": "C69",
   "status": "partial",
   "theorems": [
    "C69_specific_graph_refuted",
    "C69_empty_file_refuted",
    "C69_specific_graph_partial",
    "C69_specific_graph_lists",
    "C69_specific_graph_g6",
    "C69_specific_graph_matrix",
    "C69_specific_graph_leda",
    "C69_unreadable"
   ],
   "note": "False of the code as stated: refuted by C69_specific_graph_refuted (two vertices joined seven times: the reader runs out of arcs and returns NONEMBEDDABLE, which the program takes for a verdict and returns after writing an 'obstruction') and C69_empty_file_refuted (on an empty file the reader examines a line buffer in which nothing was stored). Proved part: C69_specific_graph_partial for every text from which a simple undirected graph of at most 32768 vertices is read with OK; C69_specific_graph_lists for every adjacency-list text of such a graph, from a file or a string; C69_specific_graph_g6 for every graph6 text with a header of a graph of 2 to 32768 vertices, from a file or a string; C69_specific_graph_matrix and C69_specific_graph_leda for every adjacency matrix and every LEDA file, read from a file; C69_unreadable for every other result of the reader than OK and NONEMBEDDABLE. Missing: texts that give a graph with loops, repeated or directed edges."
  },
  {
   "property": "C70",
   "status": "partial",
   "theorems": [
    "C70_one_vertex_refuted",
    "C70_matrix_string_refuted",
    "C70_empty_file_refuted",
    "C70_to_lists_partial",
    "C70_to_matrix_partial",
    "C70_to_g6_partial",
    "C70_g6_to_lists",
    "C70_lists_to_g6",
    "C70_lists_to_lists",
    "C70_matrix_to_lists",
    "C70_matrix_to_g6",
    "C70_leda_to_lists",
    "C70_leda_to_g6",
    "C70_unreadable",
    "C70_empty_string",
    "C70_command"
   ],
   "note": "False of the code as stated: refuted by C70_one_vertex_refuted (a graph of one vertex is read with OK but cannot be converted to graph6), C70_empty_file_refuted (an empty file: the reader examines a line buffer in which nothing was stored) and C70_matrix_string_refuted (the same adjacency matrix loses edges if it is read from a string, so its conversion differs from that of the file). Proved part: for every text from which a simple graph of at most 32768 vertices is read with OK, the conversion to lists (order kept, read back from file or string), to a matrix (read back from a file) and to graph6 (two or more vertices, read back from file or string); end to end for all graph6 texts with a header to lists, for all adjacency-list texts to graph6 and to lists (the text itself is given back), and for all matrix and LEDA files to lists and graph6; C70_unreadable for every text that is refused, C70_empty_string for the empty string, C70_command for every other command. Missing: loops, repeated and directed edges; failing allocations and file system calls."
  },
  {
   "property": "C71",
   "status": "proved",
   "theorems": [
    "C71_every_edge_once",
    "C71_histories",
    "C71_simple"
   ],
   "note": "For every well-formed graph (rep), and so for every history of edits (C71_histories). A hidden edge still has its record and would be written too: such graphs are excluded by rep. Opening of the file and the removal of its path are not modelled."
  }
 ]
}

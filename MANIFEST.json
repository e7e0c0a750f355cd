{
 "claims": [
  {
   "property": "C01",
   "status": "proved",
   "theorems": [
    "C01_edit_history"
   ],
   "note": "Every query after every call history, including failing calls and self-loops."
  },
  {
   "property": "C02",
   "status": "proved",
   "theorems": [
    "C02_edit_results",
    "C02_edit_errors_exact"
   ],
   "note": "Along histories and per call on every API graph."
  },
  {
   "property": "C03",
   "status": "proved",
   "theorems": [
    "C03_failed_edit_no_effect"
   ],
   "note": "The model state after a failed call is the same value."
  },
  {
   "property": "C04",
   "status": "proved",
   "theorems": [
    "C04_add_node_effect",
    "C04_add_edge_effect"
   ],
   "note": "Includes what must not change; a self-loop is pushed twice."
  },
  {
   "property": "C05",
   "status": "proved",
   "theorems": [
    "C05_no_panic",
    "C05_absent"
   ],
   "note": "Every API graph (new, edits, three conversions, components)."
  },
  {
   "property": "C06",
   "status": "proved",
   "theorems": [
    "C06_undirected",
    "C06_neighbors_are_nodes"
   ],
   "note": "All pairs of members of every graph the API can build."
  },
  {
   "property": "C07",
   "status": "proved",
   "theorems": [
    "C07_edges_once",
    "C07_edges_at_most_once",
    "C07_size_and_neighbors",
    "C07_api_lawful"
   ],
   "note": "C07_api_lawful packages the laws used as hypothesis elsewhere."
  },
  {
   "property": "C08",
   "status": "partial",
   "theorems": [
    "C08_handshake_refuted",
    "C08_handshake_exact",
    "C08_handshake_partial",
    "C08_edits_list_loops",
    "C08_edge_lists_list_loops"
   ],
   "note": "False of the code: try_from([[0]]) has degree sum 1 and size 0 (C08_handshake_refuted). Proved: the exact discrepancy, and the law for all graphs whose self-loops are listed by edges() (all graphs built by edits or edge lists, all loop-free graphs)."
  },
  {
   "property": "C09",
   "status": "proved",
   "theorems": [
    "C09_adjacency_accepts",
    "C09_adjacency_result",
    "C09_adjacency_edges"
   ],
   "note": "Acceptance iff valid rows; nodes, neighbors and edges of the result stated exactly."
  },
  {
   "property": "C10",
   "status": "proved",
   "theorems": [
    "C10_first_defect",
    "C10_total"
   ],
   "note": "Iff characterisation; a failure is reported exactly for the first defective entry in row-major order."
  },
  {
   "property": "C11",
   "status": "proved",
   "theorems": [
    "C11_edge_list_accepts",
    "C11_edge_list_result",
    "C11_edge_list_queries",
    "C11_edge_list_error",
    "C11_total"
   ],
   "note": "Acceptance iff distinct edges, exact result for all nine queries, exact error, totality."
  },
  {
   "property": "C12",
   "status": "partial",
   "theorems": [
    "C12_equality_refuted",
    "C12_equality_partial",
    "C12_equality_exact"
   ],
   "note": "False of the code for adjacency self-loops: try_from([[0]]) == try_from([[]]). Proved when self-loops are listed by edges(). C12_equality_exact gives the exact meaning of == on every API graph."
  },
  {
   "property": "C13",
   "status": "partial",
   "theorems": [
    "C13_eq_listed_right",
    "C13_eq_transitive_middle",
    "C13_eq_total",
    "C13_eq_reflexive",
    "C13_eq_symmetric_refuted",
    "C13_eq_transitive_refuted",
    "C13_eq_symmetric_partial",
    "C13_eq_transitive_partial"
   ],
   "note": "Total and reflexive always; symmetry and transitivity are false of the code with adjacency self-loops (refuted). Proved when the right-hand graph (symmetry) or the middle graph (transitivity) lists its self-loops in edges(), nothing asked of the others; the refutations have the unlisted self-loop exactly there."
  },
  {
   "property": "C14",
   "status": "proved",
   "theorems": [
    "C14_round_trip"
   ],
   "note": "Exact nodes, edges and self-loops of the round trip, and equality when every node has another neighbor."
  },
  {
   "property": "C15",
   "status": "proved",
   "theorems": [
    "C15_breadth_first_root",
    "C15_depth_first_root"
   ],
   "note": "Every lawful graph, every root."
  },
  {
   "property": "C16",
   "status": "proved",
   "theorems": [
    "C16_breadth_first_terminates",
    "C16_breadth_first_fused",
    "C16_breadth_first_bound"
   ],
   "note": "collect() with a call limit returns the same steps for every limit above their number and never panics; None is absorbing; at most size() steps on loop-free graphs."
  },
  {
   "property": "C17",
   "status": "proved",
   "theorems": [
    "C17_breadth_first_component"
   ],
   "note": "For every law-abiding Graph implementation."
  },
  {
   "property": "C18",
   "status": "proved",
   "theorems": [
    "C18_breadth_first_crosses"
   ],
   "note": "Proved for all pairs of different nodes, so it also covers graphs with self-loops."
  },
  {
   "property": "C19",
   "status": "proved",
   "theorems": [
    "C19_breadth_first_distances"
   ],
   "note": "Distances defined by shortest paths in Spec.v, independently of the traversal."
  },
  {
   "property": "C20",
   "status": "proved",
   "theorems": [
    "C20_breadth_first_cut",
    "C20_depth_first_cut"
   ],
   "note": "Both traversals."
  },
  {
   "property": "C21",
   "status": "proved",
   "theorems": [
    "C21_circuit_rank"
   ],
   "note": "Euler/circuit-rank count over all loop-free law-abiding graphs."
  },
  {
   "property": "C22",
   "status": "proved",
   "theorems": [
    "C22_depth_first_terminates",
    "C22_depth_first_fused",
    "C22_depth_first_bound"
   ],
   "note": "Termination with self-loops too; the size() bound for loop-free graphs."
  },
  {
   "property": "C23",
   "status": "proved",
   "theorems": [
    "C23_depth_first_sound"
   ],
   "note": "All three parts."
  },
  {
   "property": "C24",
   "status": "partial",
   "theorems": [
    "C24_depth_first_untangled_partial",
    "C24_depth_first_component_partial",
    "C24_forests_have_narrow_rings",
    "C24_depth_first_component_refuted"
   ],
   "note": "False of the code: on [[1,2,3],[0,2],[0,1],[0]] the traversal from 0 never reaches 3 (C24_depth_first_component_refuted). Proved when the rings are narrow: no self-loop in the component, nodes on cycles of degree at most 3, the root of degree at most 2 if it is on a cycle (forests included). The *_untangled_partial theorem (PropertiesTangle.v) proves it under the weaker condition of C88, which is exact for: whatever the neighbor order."
  },
  {
   "property": "C25",
   "status": "partial",
   "theorems": [
    "C25_cut_to_ancestor_untangled_partial",
    "C25_cut_to_ancestor_partial",
    "C25_depth_first_no_cut_partial",
    "C25_cut_to_ancestor_refuted"
   ],
   "note": "False of the code (C25_cut_to_ancestor_refuted). Proved when the rings are narrow; on forests there are no cut steps. The *_untangled_partial theorem (PropertiesTangle.v) proves it under the weaker condition of C88, which is exact for: whatever the neighbor order."
  },
  {
   "property": "C26",
   "status": "partial",
   "theorems": [
    "C26_depth_first_untangled_partial",
    "C26_depth_first_pre_order_partial",
    "C26_depth_first_textbook_partial",
    "C26_depth_first_textbook_refuted"
   ],
   "note": "False of the code (C26_depth_first_textbook_refuted: differs from textbook depth-first search). Proved against the textbook algorithm when the rings are narrow, and against recursive pre-order on forests. The *_untangled_partial theorem (PropertiesTangle.v) proves it under the weaker condition of C88, which is exact for: whatever the neighbor order."
  },
  {
   "property": "C27",
   "status": "proved",
   "theorems": [
    "C27_into_table",
    "C27_into_table_empty"
   ],
   "note": "Including the empty table for an isolated root."
  },
  {
   "property": "C28",
   "status": "proved",
   "theorems": [
    "C28_dfs_to_graph_self_loops",
    "C28_dfs_to_graph"
   ],
   "note": "Loop-free graphs, and exactly when self-loops make the conversion fail."
  },
  {
   "property": "C29",
   "status": "proved",
   "theorems": [
    "C29_components_total"
   ],
   "note": "All lawful loop-free graphs; weaker than C30 because the traversal may be incomplete."
  },
  {
   "property": "C30",
   "status": "partial",
   "theorems": [
    "C30_components_cycle_free_partial",
    "C30_components_exact_partial",
    "C30_forests_have_narrow_components",
    "C30_components_exact_refuted",
    "C30_components_untangled_partial"
   ],
   "note": "False of the code: on [[1,2,3],[0,2],[0,1],[0]] two overlapping graphs are yielded (C30_components_exact_refuted). Proved for graphs whose rings are narrow seen from the first node of each component (forests included). The *_untangled_partial theorem (PropertiesTangle.v) proves it under the weaker condition of C88, which is exact for: whatever the neighbor order. C30_components_cycle_free_partial (PropertiesLoopCount.v) also covers graphs without rings whose nodes may carry self-loops."
  },
  {
   "property": "C31",
   "status": "partial",
   "theorems": [
    "C31_cycle_free",
    "C31_components_confined",
    "C31_unlisted_loops_partial",
    "C31_listed_loop_panics",
    "C31_components_self_loop_refuted"
   ],
   "note": "False of the code: try_from([(0,0)]) panics with DuplicateEdge(0,0) (refuted). Proved: on every lawful graph components returns a cover by connected subgraphs or panics with DuplicateEdge(v,v) for a v that lists itself twice; it returns when no self-loop is listed by edges(), and always panics when a listed self-loop lies off the cycles. Exactly which self-loops cause the panic: C70. C31_cycle_free: on a graph without rings, the components returned exist exactly when edges() lists no self-loop."
  },
  {
   "property": "C32",
   "status": "proved",
   "theorems": [
    "C32_pairing_symmetric"
   ],
   "note": "For every hash iteration order."
  },
  {
   "property": "C33",
   "status": "proved",
   "theorems": [
    "C33_pair_effect"
   ],
   "note": "Lookup of every node after the call, for every symmetric pairing and two different nodes (self-pairs: C34)."
  },
  {
   "property": "C34",
   "status": "partial",
   "theorems": [
    "C34_when_pair_breaks",
    "C34_pair_effect",
    "C34_self_pairs_partial",
    "C34_self_pair_refuted"
   ],
   "note": "The full statement is false of the code: pair(1,1); pair(1,2) leaves mate(2)=1 while 1 is unpaired (refuted theorem). Proved: exactly which pair call breaks the symmetry of a symmetric pairing, its exact effect on every node, and symmetry with the edge/order counts for every history that never pairs a self-paired node with another one."
  },
  {
   "property": "C35",
   "status": "proved",
   "theorems": [
    "C35_augment_panics",
    "C35_augment_effect",
    "C35_augment_any"
   ],
   "note": "Panic iff odd length; exact effect on even alternating paths."
  },
  {
   "property": "C36",
   "status": "proved",
   "theorems": [
    "C36_greedy_self_loops",
    "C36_greedy_valid"
   ],
   "note": "All lawful graphs, self-loops included."
  },
  {
   "property": "C37",
   "status": "partial",
   "theorems": [
    "C37_uncovered_edge",
    "C37_greedy_maximal_closing_partial",
    "C37_lone_rings_close",
    "C37_greedy_self_loop_refuted",
    "C37_greedy_cycle_free_partial",
    "C37_greedy_maximal_partial",
    "C37_forests_have_lone_rings",
    "C37_greedy_maximal_refuted"
   ],
   "note": "False of the code: on [[1,2],[0,2],[1,0,3],[2]] greedy leaves edge (2,3) uncovered (C37_greedy_maximal_refuted). Proved for graphs whose components are trees or rings. Also proved, for any neighbor order (PropertiesClosing.v): on untangled components every uncovered edge is crossed from a node that the traversal leaves by a cut (C37_uncovered_edge), and the pairing is maximal when every simple path from the first node that closes a ring ends there (C37_greedy_maximal_closing_partial), which includes trees and rings. C37_greedy_self_loop_refuted: a self-loop can also block a node of a tree from being paired. C37_greedy_cycle_free_partial: without rings, greedy returns exactly when no self-loop is listed, and every edge between different nodes that stays uncovered has an end with a self-loop."
  },
  {
   "property": "C38",
   "status": "proved",
   "theorems": [
    "C38_matching_valid"
   ],
   "note": "For every returning run."
  },
  {
   "property": "C39",
   "status": "proved",
   "theorems": [
    "C39_matching_maximum"
   ],
   "note": "For every returning run, from every initial matching. Optimality via a Tutte-Berge certificate built from the search forest and carried through contractions."
  },
  {
   "property": "C40",
   "status": "partial",
   "theorems": [
    "C40_matching_returns_partial",
    "C40_matching_panics_refuted",
    "C40_matching_diverges_refuted"
   ],
   "note": "False of the code: panics on a 6-node graph and runs forever on an 8-node graph, both from Pairing::new() (the two _refuted theorems). Proved when odd cycles are calm (see C49)."
  },
  {
   "property": "C41",
   "status": "proved",
   "theorems": [
    "C41_bipartite_total"
   ],
   "note": "No condition on ids; also for every graph without odd cycles."
  },
  {
   "property": "C42",
   "status": "proved",
   "theorems": [
    "C42_exact_test"
   ],
   "note": "All three parts."
  },
  {
   "property": "C43",
   "status": "proved",
   "theorems": [
    "C43_failures_confined"
   ],
   "note": "Search termination, shape of its result and the complete list of panics."
  },
  {
   "property": "C44",
   "status": "proved",
   "theorems": [
    "C44_order_independent"
   ],
   "note": "Final pairing, panic, divergence and every search result."
  },
  {
   "property": "C45",
   "status": "partial",
   "theorems": [
    "C45_augmentation_gains_partial",
    "C45_augmentation_exact",
    "C45_augmentation_gains_refuted"
   ],
   "note": "False of the code: an augmentation that loses a pair (C45_augmentation_gains_refuted). Proved when odd cycles are calm (see C49). On every graph C45_augmentation_exact gives the exact change."
  },
  {
   "property": "C46",
   "status": "partial",
   "theorems": [
    "C46_no_overflow_partial",
    "C46_overflow_refuted"
   ],
   "note": "False of the code: the triangle 0,1,usize::MAX overflows (debug build semantics; release builds: C59). Proved absent when ids leave room or there is no odd cycle."
  },
  {
   "property": "C47",
   "status": "proved",
   "theorems": [
    "C47_perfect_found"
   ],
   "note": "Also: every node is paired."
  },
  {
   "property": "C48",
   "status": "proved",
   "theorems": [
    "C48_greedy_start"
   ],
   "note": "greedy's result is an admissible start, and the returned matching is maximum and no smaller."
  },
  {
   "property": "C49",
   "status": "proved",
   "theorems": [
    "C49_tame_total",
    "C49_pendant_or_disjoint"
   ],
   "note": "Total correctness on a class with unboundedly many and nested blossoms (Spec.calm_odd_cycles); C49_pendant_or_disjoint shows what the class contains."
  },
  {
   "property": "C50",
   "status": "proved",
   "theorems": [
    "C50_separated_no_panic",
    "C50_separated_diverges"
   ],
   "note": "Only panic freedom can hold: C50_separated_diverges exhibits a graph of the class on which the search runs forever."
  },
  {
   "property": "C51",
   "status": "proved",
   "theorems": [
    "C51_plain_loop"
   ],
   "note": "Results, panics and divergence."
  },
  {
   "property": "C52",
   "status": "proved",
   "theorems": [
    "C52_rings_and_paths"
   ],
   "note": "Corollary of C49 via a degree argument."
  },
  {
   "property": "C53",
   "status": "proved",
   "theorems": [
    "C53_size_determined"
   ],
   "note": "Across graph implementations, initial matchings and iteration orders."
  },
  {
   "property": "C54",
   "status": "proved",
   "theorems": [
    "C54_optimality_witness"
   ],
   "note": "The certificate is stated without helper definitions."
  },
  {
   "property": "C55",
   "status": "partial",
   "theorems": [
    "C55_pipeline_total_partial",
    "C55_pipeline_panics_refuted",
    "C55_pipeline_diverges_refuted"
   ],
   "note": "False of the code in general (two _refuted theorems: panic on 6 nodes, divergence on 8 nodes). Proved when odd cycles are calm (see C49)."
  },
  {
   "property": "C56",
   "status": "proved",
   "theorems": [
    "C56_breadth_first_order"
   ],
   "note": "discovered r steps lists the root and the targets of the non-cut steps."
  },
  {
   "property": "C57",
   "status": "proved",
   "theorems": [
    "C57_breadth_first_detects_cycles",
    "C57_depth_first_detects_cycles",
    "C57_depth_first_without_cut"
   ],
   "note": "has_ring: a reachable node that is adjacent to itself or lies on a cycle of three or more different nodes."
  },
  {
   "property": "C58",
   "status": "proved",
   "theorems": [
    "C58_own_entries",
    "C58_depth_first_self_loops",
    "C58_depth_first_off_cycle"
   ],
   "note": "Together with C24_depth_first_component_refuted: edges between nodes of cycles can be missed. Self-loops counted too."
  },
  {
   "property": "C59",
   "status": "proved",
   "theorems": [
    "C59_release_maximum",
    "C59_release_failures",
    "C59_release_same",
    "C59_release_order"
   ],
   "note": "Release-profile model (ReleaseModel.v). Soundness, failure classification, agreement with the checked build and order independence; concrete witnesses that wrapping may succeed (triangle with usize::MAX) or panic with DuplicateNode(0)."
  },
  {
   "property": "C60",
   "status": "proved",
   "theorems": [
    "C60_five_nodes",
    "C60_six_nodes"
   ],
   "note": "Every lawful graph of order <= 5; C60_six_nodes shows five is the best possible."
  },
  {
   "property": "C61",
   "status": "proved",
   "theorems": [
    "C61_cliques_total",
    "C61_complete"
   ],
   "note": "Graphs whose components are cliques, with the exact size of the answer."
  },
  {
   "property": "C62",
   "status": "proved",
   "theorems": [
    "C62_depth_first_descends",
    "C62_depth_first_finished",
    "C62_cliques_no_node_missed"
   ],
   "note": "Holds on every lawful graph, also where C24-C26 are refuted: the fault drops only pending edges of nodes that were closed on."
  },
  {
   "property": "C63",
   "status": "proved",
   "theorems": [
    "C63_components_roots",
    "C63_components_cliques"
   ],
   "note": "Complete description of components on every lawful graph on which it returns (C70 says when), in terms of depth_first; C30 says when it is the connected components."
  },
  {
   "property": "C64",
   "status": "proved",
   "theorems": [
    "C64_greedy_rule_self_loops",
    "C64_greedy_rule",
    "C64_greedy_nonempty"
   ],
   "note": "Complete description of greedy on loop-free graphs; the final pairing occurs on both sides of the rule, which determines it step by step. C36 and C37 are consequences and limits. C64_greedy_rule_self_loops is the rule on every lawful graph."
  },
  {
   "property": "C65",
   "status": "proved",
   "theorems": [
    "C65_breadth_first_renaming",
    "C65_depth_first_renaming",
    "C65_components_renaming",
    "C65_greedy_renaming",
    "C65_same_rows",
    "C65_edge_list_renaming"
   ],
   "note": "Relational: simulation of two runs. maximum_matching is not included: it depends on the hash iteration order and on the largest id (blossom ids)."
  },
  {
   "property": "C66",
   "status": "proved",
   "theorems": [
    "C66_greedy_half_closing",
    "C66_no_share",
    "C66_greedy_half",
    "C66_pipeline_rounds"
   ],
   "note": "On the path of C66_case greedy finds one pair of two. C66_no_share: on the bipartite graphs broom_edges k greedy pairs exactly two edges of a perfect matching of k + 2."
  },
  {
   "property": "C67",
   "status": "proved",
   "theorems": [
    "C67_equality",
    "C67_equality_edges"
   ],
   "note": "The derived PartialEq is modelled as that of HashMap."
  },
  {
   "property": "C68",
   "status": "partial",
   "theorems": [
    "C68_shared_partial",
    "C68_parts_maximum_partial",
    "C68_parts_total_partial",
    "C68_components_partial",
    "C68_shared_panics_refuted",
    "C68_shared_short_refuted",
    "C68_components_untangled_partial"
   ],
   "note": "False of the code in general: two _refuted theorems (a panic on 6 nodes, a non-maximum result on 8 nodes), for every iteration order. Proved (the other runs are reproduced exactly, with the foreign pairs carried along) when foreign ids are not just above the ids of the graph or the graph has no odd cycle; missing: foreign ids in that range, where it may fail. The *untangled* theorems of PropertiesUntangled.v hold under the weaker condition of C88."
  },
  {
   "property": "C69",
   "status": "proved",
   "theorems": [
    "C69_depth_first_resumes",
    "C69_breadth_first_resumes",
    "C69_into_table_advanced",
    "C69_dfs_to_graph_advanced"
   ],
   "note": "The conversion is stated for loop-free graphs; C31 covers self-loops for fresh traversals."
  },
  {
   "property": "C70",
   "status": "proved",
   "theorems": [
    "C70_components_calls",
    "C70_components_exact",
    "C70_selects_determined"
   ],
   "note": "selects (SpecAdvance.v) is the specification; C70_selects_determined shows that it fixes the outcome."
  },
  {
   "property": "C71",
   "status": "partial",
   "theorems": [
    "C71_equal_traversals_partial",
    "C71_equal_traversals_refuted"
   ],
   "note": "False of the code (C71_equal_traversals_refuted: == on graphs ignores the neighbor order). Proved: the comparison never panics, equal traversals give the same next step, and all the same steps if the two graphs list neighbors in the same order."
  },
  {
   "property": "C72",
   "status": "proved",
   "theorems": [
    "C72_pair_order_irrelevant"
   ],
   "note": "Histories with repeated nodes: C33 gives the effect of each call, C67 the meaning of ==."
  },
  {
   "property": "C73",
   "status": "proved",
   "theorems": [
    "C73_maximum_matching_renaming",
    "C73_same_rows_and_edges",
    "C73_edge_order_matters"
   ],
   "note": "Simulation of the whole search, contraction, lifting and augmentation under the renaming (RenameProofs.v), fuel by fuel, so divergence is preserved too. C73_same_rows_and_edges is the case of equal names. C73_edge_order_matters shows that the hypothesis on edges() is needed: with the same nodes() and neighbors(), one order of edges() makes maximum_matching panic and another does not."
  },
  {
   "property": "C74",
   "status": "proved",
   "theorems": [
    "C74_finite_stack_ends",
    "C74_endless_exhausts",
    "C74_frames_per_augmentation",
    "C74_linear_stack"
   ],
   "note": "Finite stacks: every run ends; frames needed bounded from below by the augmentations and from above by augmentations, nodes and self-loops; exact on graphs without odd cycles; endless runs are exactly those that exhaust every stack. Frames are counted in nested calls, not bytes."
  },
  {
   "property": "C75",
   "status": "proved",
   "theorems": [
    "C75_edits",
    "C75_size_grows",
    "C75_resume"
   ],
   "note": "From C39, C42, C49 and a counting argument: removing the added edges from a matching removes at most one pair per edge."
  },
  {
   "property": "C76",
   "status": "partial",
   "theorems": [
    "C76_replay_partial",
    "C76_replay_narrow",
    "C76_component_again_partial",
    "C76_components_again_narrow",
    "C76_greedy_order_narrow",
    "C76_replay_refuted",
    "C76_replay_untangled",
    "C76_components_again_untangled",
    "C76_greedy_order_untangled"
   ],
   "note": "False of the code in general (C76_replay_refuted: converting and traversing again loses a node). Proved for every traversal that crosses all edges of its component, hence for narrow rings and forests; the components and greedy clauses likewise. Missing: traversals that leave edges out, where the claim may fail. The *untangled* theorems of PropertiesUntangled.v hold under the weaker condition of C88."
  },
  {
   "property": "C77",
   "status": "proved",
   "theorems": [
    "C77_stale_pairs",
    "C77_stale_inside",
    "C77_case",
    "C77_odd_cycle_spins",
    "C77_odd_cycle_odd_path"
   ],
   "note": "Hypothesis: the graph plus the pairs has no odd cycle (a colouring of both). That it cannot be dropped, even for bipartite graphs: C77_odd_cycle_spins (never ends), C77_odd_cycle_odd_path (panics)."
  },
  {
   "property": "C78",
   "status": "proved",
   "theorems": [
    "C78_depth_first_rule",
    "C78_depth_first_rule_loops",
    "C78_left_out",
    "C78_bypassed"
   ],
   "note": "Equivalence on loop-free graphs; on all law-abiding graphs the rule for steps between different nodes. Vocabulary in SpecSearch.v."
  },
  {
   "property": "C79",
   "status": "proved",
   "theorems": [
    "C79_breadth_first_rule",
    "C79_breadth_first_rule_loops"
   ],
   "note": "Equivalence on loop-free graphs; on all law-abiding graphs the rule for steps between different nodes. Vocabulary in SpecSearch.v."
  },
  {
   "property": "C80",
   "status": "proved",
   "theorems": [
    "C80_textbook_total",
    "C80_textbook_rule",
    "C80_depth_first_textbook",
    "C80_first_difference"
   ],
   "note": "Exact criterion, and the place of the first difference. Self-loops are excluded (textbook runs exist for them too: C80_textbook_total)."
  },
  {
   "property": "C81",
   "status": "proved",
   "theorems": [
    "C81_traversals_local",
    "C81_components_local",
    "C81_greedy_local",
    "C81_added_elsewhere"
   ],
   "note": "Simulation: pending edges only lead to reachable nodes, so both runs read the same lists; visited sets and pairings agree on the nodes of the part. components and greedy assume lawful graphs, self-loops allowed, on which the call on the whole returns; the traversal statement assumes no law."
  },
  {
   "property": "C82",
   "status": "proved",
   "theorems": [
    "C82_adjacency_list_accepted",
    "C82_renumbered",
    "C82_error",
    "C82_adjacency_round_trip",
    "C82_consecutive_ids"
   ],
   "note": "From the exact acceptance and error theorems of C09 and C10, with place injective on nodes(); the equality clause uses the exact handshake law (C08) to compare sizes."
  },
  {
   "property": "C83",
   "status": "proved",
   "theorems": [
    "C83_depth_first_memory",
    "C83_breadth_first_memory"
   ],
   "note": "The invariant behind C18 and C23 (no edge is crossed or pending twice) along any number of next() calls. The state bounded is the model's stack/queue and visited set, which mirror the struct fields."
  },
  {
   "property": "C84",
   "status": "proved",
   "theorems": [
    "C84_breadth_first_any",
    "C84_breadth_first_outcome",
    "C84_depth_first_any",
    "C84_depth_first_one_way",
    "C84_depth_first_cycle_sharp"
   ],
   "note": "Proved with no law assumed of the graph (partial correctness), and with finite reachability for termination. C84_depth_first_cycle_sharp shows that the acyclicity hypothesis of the last clause is needed."
  },
  {
   "property": "C85",
   "status": "proved",
   "theorems": [
    "C85_same_outcome",
    "C85_augment_unchanged",
    "C85_panic_leaves_matching",
    "C85_components_resume"
   ],
   "note": "PanicModel.v is the same code returning the caller's value next to the outcome; C85_same_outcome proves that it agrees with the models used everywhere else."
  },
  {
   "property": "C86",
   "status": "proved",
   "theorems": [
    "C86_last_searches",
    "C86_last_bipartite",
    "C86_same_outcome",
    "C86_searches",
    "C86_polynomial",
    "C86_bipartite"
   ],
   "note": "WorkModel.v is the matching code with a counter of neighbors() calls; C86_same_outcome proves that the counter changes nothing. Calls of has_edge (in lift) and the time spent inside hash maps are not counted. C86_last_searches and C86_last_bipartite count the searches that find nothing exactly."
  },
  {
   "property": "C87",
   "status": "proved",
   "theorems": [
    "C87_same_outcome",
    "C87_depth_first_asks",
    "C87_breadth_first_asks",
    "C87_depth_first_failure",
    "C87_breadth_first_failure",
    "C87_only_asked",
    "C87_prefix_local",
    "C87_whole_traversal",
    "C87_components_lazy",
    "C87_components_asks",
    "C87_components_once_narrow",
    "C87_components_twice",
    "C87_components_once_untangled"
   ],
   "note": "QueryModel.v is the traversal, components and greedy code with a record of neighbors() calls; C87_same_outcome proves that the record changes nothing. C87_components_twice: outside narrow graphs components can ask for a node twice (it is in two of the graphs yielded, C30). The *untangled* theorems of PropertiesUntangled.v hold under the weaker condition of C88."
  },
  {
   "property": "C88",
   "status": "proved",
   "theorems": [
    "C88_every_order",
    "C88_reordered",
    "C88_edge_order",
    "C88_edge_order_accepted",
    "C88_adjacency_only",
    "C88_narrow",
    "C88_narrow_components"
   ],
   "note": "Equivalence in both directions, for trait objects (C88_every_order: h lists the neighbors of each node of g in any order) and for edge lists (C88_edge_order). C88_case is untangled but has no narrow rings; C88_pan and C88_complete_graphs show tangled graphs. The *untangled* theorems of PropertiesUntangled.v hold under the weaker condition of C88."
  },
  {
   "property": "C89",
   "status": "proved",
   "theorems": [
    "C89_depth_first",
    "C89_all_crossed",
    "C89_components",
    "C89_greedy",
    "C89_complete_one_pair",
    "C89_complete_rounds"
   ],
   "note": "in_a_row (SpecRow.v) covers paths, rings, ladders and complete graphs in their natural numbering. The shape is not untangled in general (C88): the closed form depends on the listed order."
  },
  {
   "property": "C90",
   "status": "proved",
   "theorems": [
    "C90_breadth_first_self_loops",
    "C90_breadth_first_steps",
    "C90_depth_first_steps",
    "C90_depth_first_component",
    "C90_depth_first_memory",
    "C90_breadth_first_memory"
   ],
   "note": "Extends C18, C21, C24 (forests) and C83, which exclude self-loops or do not count them. The memory bound is reached (C90_memory_case)."
  },
  {
   "property": "C91",
   "status": "proved",
   "theorems": [
    "C91_bad_mate_panics",
    "C91_self_pair_panics",
    "C91_nothing_to_do",
    "C91_self_paired_neighbors"
   ],
   "note": "Complements C38-C45 and C77, which take mates to be mutual and different. Runs in which such a node is reached later than at the first step are not described, except that a run that has nothing to do returns."
  },
  {
   "property": "C92",
   "status": "proved",
   "theorems": [
    "C92_first_augmentations",
    "C92_first_pairs_suffice"
   ],
   "note": "first_pairs (SpecStart.v) describes the pairs; it mentions nodes(), neighbors() and has_node only."
  },
  {
   "property": "C93",
   "status": "proved",
   "theorems": [
    "C93_panics_confined",
    "C93_never_otherwise",
    "C93_release",
    "C93_all_four_occur"
   ],
   "note": "Holds for arbitrary mate relations, valid or not. C43 names the failures left when the pairing is a matching of the graph."
  }
 ]
}
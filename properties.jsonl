{"id": "C01", "title": "Edit histories refine the abstract graph", "statement": "Starting from DefaultGraph::new(), after any sequence of add_node/add_edge calls (failing ones included) every query (is_empty, order, size, nodes, neighbors, has_node, degree, edges, has_edge) returns exactly what the mathematical graph obtained by replaying the calls that are legal (node not yet present; both endpoints present and edge not yet present in either direction) returns: nodes and edges in insertion order, neighbors of v in the order the edges at v were added.", "quantifier": "every finite sequence of add_node/add_edge calls over all ids, and every query argument", "why_tests_cant": "the state space of call histories is unbounded; tests fix a handful of short histories", "anchors": ["src/graph/default_graph.rs: DefaultGraph::new, add_node, add_edge, impl Graph"]}
{"id": "C02", "title": "Edit errors are exact and ordered", "statement": "add_node(id) fails iff id is a node, with DuplicateNode(id). add_edge(s,t) fails iff s is missing (MissingNode(s)), else t is missing (MissingNode(t)), else the undirected edge {s,t} exists (DuplicateEdge(s,t)), in that priority; otherwise it succeeds.", "quantifier": "every graph obtainable through the public API and every pair of ids", "why_tests_cant": "the error priority must hold in every reachable state, tests try one state per error", "anchors": ["src/graph/default_graph.rs: add_node, add_edge"]}
{"id": "C03", "title": "Failed edits change nothing", "statement": "If add_node or add_edge returns Err, every later query and edit behaves as if the call had not been made.", "quantifier": "every API-built graph, every failing call and every continuation", "why_tests_cant": "needs all reachable states and all continuations", "anchors": ["src/graph/default_graph.rs: add_node, add_edge"]}
{"id": "C04", "title": "Successful edits change exactly one thing", "statement": "A successful add_edge(s,t) appends (s,t) to edges, appends t to neighbors(s) and s to neighbors(t), and leaves nodes and the neighbors of every other node unchanged; a successful add_node(id) appends id to nodes with no neighbors and leaves the rest unchanged.", "quantifier": "every API-built graph, every successful call", "why_tests_cant": "a frame condition ranges over every other node of every graph", "anchors": ["src/graph/default_graph.rs: add_node, add_edge"]}
{"id": "C05", "title": "No query or edit ever panics", "statement": "On every graph built through the public API no query and no edit panics (no out-of-bounds adjacency access), whatever the arguments; queries about absent ids return MissingNode of the first absent argument.", "quantifier": "every API-built graph (new, the three try_from conversions, any edits, self-loops included) and every argument", "why_tests_cant": "index safety must hold in every reachable state", "anchors": ["src/graph/default_graph.rs: index_for, neighbors, degree, has_edge, add_edge"]}
{"id": "C06", "title": "Undirectedness", "statement": "has_edge(s,t) and has_edge(t,s) give the same answer for all members, and t is iterated by neighbors(s) exactly when s is iterated by neighbors(t), exactly when has_edge(s,t) is Ok(true); every neighbor is a member.", "quantifier": "every API-built graph, self-loops included, all pairs of ids", "why_tests_cant": "symmetry is a relation over all pairs in all reachable states", "anchors": ["src/graph/default_graph.rs: has_edge, neighbors, add_edge, TryFrom<Vec<Vec<usize>>>"]}
{"id": "C07", "title": "edges() lists every edge exactly once", "statement": "For s != t, has_edge(s,t) is Ok(true) iff exactly one of (s,t),(t,s) occurs in edges(), and it occurs once; size() is the length of edges(); neighbors(s) never repeats a node other than s itself.", "quantifier": "every API-built graph, all pairs of distinct ids", "why_tests_cant": "multiplicity must be one in every reachable state", "anchors": ["src/graph/default_graph.rs: edges, size, TryFrom<Vec<Vec<usize>>>, add_edge"]}
{"id": "C08", "title": "Handshake law", "statement": "The sum of degree(v) over nodes() is twice size().", "quantifier": "every API-built graph", "why_tests_cant": "an aggregate identity over unboundedly large graphs", "anchors": ["src/graph/default_graph.rs: degree, size, add_edge, TryFrom<Vec<Vec<usize>>>"]}
{"id": "C09", "title": "Adjacency conversion accepts exactly the valid inputs", "statement": "DefaultGraph::try_from(adjacency) is Ok iff every entry is a row index, no row repeats an entry, and t in row s implies s in row t; the result then has nodes 0..n in order, neighbors(i) iterates row i exactly, and edges() lists exactly the entries (i,t) with i < t in row-major order (size() counts them).", "quantifier": "every vector of vectors", "why_tests_cant": "the input space is unbounded; acceptance must be an iff", "anchors": ["src/graph/default_graph.rs: TryFrom<Vec<Vec<usize>>>"]}
{"id": "C10", "title": "Adjacency conversion reports the first defect", "statement": "If the conversion fails, the error is that of the first defective entry in row-major order, with MissingNode(t) taking priority over DuplicateEdge(s,t) over MissingEdge(t,s) at that entry, and all earlier entries are free of defects.", "quantifier": "every invalid vector of vectors", "why_tests_cant": "requires all inputs with several simultaneous defects", "anchors": ["src/graph/default_graph.rs: TryFrom<Vec<Vec<usize>>>"]}
{"id": "C11", "title": "Edge-list conversion accepts exactly duplicate-free lists", "statement": "DefaultGraph::try_from(edges) is Ok iff no undirected edge occurs twice in the list; then edges() is the input list verbatim, nodes() is the ids in order of first mention, and neighbors(v) lists, edge by edge, the other end (twice v for a self-loop), with every other query answering accordingly. Otherwise the result is DuplicateEdge(s,t) for the first entry that repeats an earlier one in either direction. MissingNode and DuplicateNode never occur.", "quantifier": "every list of pairs", "why_tests_cant": "acceptance and the reported error must be exact on all lists", "anchors": ["src/graph/default_graph.rs: TryFrom<Vec<(usize, usize)>>"]}
{"id": "C12", "title": "Equality is extensional", "statement": "g1 == g2 iff the two graphs have the same set of nodes and the same undirected edges (has_edge agrees on all pairs), independently of insertion order or edge orientation.", "quantifier": "every pair of API-built graphs", "why_tests_cant": "requires every pair of graphs and every build order", "anchors": ["src/graph/default_graph.rs: impl PartialEq"]}
{"id": "C13", "title": "Equality is an equivalence relation", "statement": "== on graphs is reflexive, symmetric and transitive and never panics.", "quantifier": "all pairs and triples of API-built graphs", "why_tests_cant": "tests check four pairs", "anchors": ["src/graph/default_graph.rs: impl PartialEq"]}
{"id": "C14", "title": "Edge-list round trip", "statement": "For a graph in which every node has a neighbor other than itself, try_from(g.edges().collect()) succeeds and == g; in general it is g with its edgeless nodes removed.", "quantifier": "every loop-free API-built graph", "why_tests_cant": "round trips must hold for every graph", "anchors": ["src/graph/default_graph.rs: edges, TryFrom<Vec<(usize, usize)>>, impl PartialEq"]}
{"id": "C15", "title": "Traversal roots must be members", "statement": "BreadthFirst::new(g, r) and DepthFirst::new(g, r) return Ok iff r is a node of g, and otherwise Err(MissingNode(r)).", "quantifier": "every law-abiding Graph implementation and every id", "why_tests_cant": "all graphs and ids", "anchors": ["src/traversal/breadth_first.rs: BreadthFirst::new", "src/traversal/depth_first.rs: DepthFirst::new"]}
{"id": "C16", "title": "Breadth-first terminates without panic and is fused", "statement": "Iterating a breadth-first traversal never panics and reaches None after finitely many steps, and keeps returning None afterwards.", "quantifier": "every law-abiding Graph implementation (self-loops allowed) and every member root", "why_tests_cant": "termination is not observable by finite testing", "anchors": ["src/traversal/breadth_first.rs: Iterator for BreadthFirst"]}
{"id": "C17", "title": "Breadth-first visits exactly the connected component", "statement": "The targets of non-cut steps together with the root are exactly the nodes reachable from the root, each occurring once, and the root is never the target of a non-cut step.", "quantifier": "every law-abiding Graph implementation and every member root", "why_tests_cant": "every graph shape and neighbor order", "anchors": ["src/traversal/breadth_first.rs: Iterator for BreadthFirst"]}
{"id": "C18", "title": "Breadth-first crosses every edge exactly once", "statement": "On a loop-free graph every edge of the root's component is the {sid,tid} of exactly one step, and every step is an edge of the graph.", "quantifier": "every law-abiding loop-free Graph implementation and every member root", "why_tests_cant": "every graph shape and neighbor order", "anchors": ["src/traversal/breadth_first.rs: Iterator for BreadthFirst"]}
{"id": "C19", "title": "Breadth-first discovers nodes in order of distance", "statement": "Nodes are discovered in non-decreasing graph distance from the root, and a non-cut step (s,t) has dist(t) = dist(s) + 1, so the non-cut steps form a shortest-path tree.", "quantifier": "every law-abiding Graph implementation, every member root, every pair of discovered nodes", "why_tests_cant": "an ordering over all graphs and neighbor orders", "anchors": ["src/traversal/breadth_first.rs: Iterator for BreadthFirst"]}
{"id": "C20", "title": "cut flags are exact", "statement": "In both traversals a step has cut = true iff its tid is the root or the target of an earlier step, and its sid is always the root or the target of an earlier non-cut step; consecutive conversion code may therefore add sid before tid.", "quantifier": "every law-abiding Graph implementation, every member root, every step of the traversal", "why_tests_cant": "holds at every position of every traversal", "anchors": ["src/traversal/breadth_first.rs: Iterator for BreadthFirst", "src/traversal/depth_first.rs: Iterator for DepthFirst"]}
{"id": "C21", "title": "Breadth-first cut count is the circuit rank", "statement": "On a loop-free graph the number of cut steps plus the number of nodes of the component equals the number of edges of the component plus one.", "quantifier": "every law-abiding loop-free Graph implementation and every member root", "why_tests_cant": "a counting identity over all graphs", "anchors": ["src/traversal/breadth_first.rs: Iterator for BreadthFirst"]}
{"id": "C22", "title": "Depth-first terminates without panic and is fused", "statement": "Iterating a depth-first traversal never panics, reaches None after finitely many steps (at most size() on loop-free graphs), and keeps returning None afterwards.", "quantifier": "every law-abiding Graph implementation (self-loops allowed) and every member root", "why_tests_cant": "termination is not observable by finite testing", "anchors": ["src/traversal/depth_first.rs: Iterator for DepthFirst"]}
{"id": "C23", "title": "Depth-first steps are edges, none crossed twice", "statement": "Every step of a depth-first traversal is an edge of the graph between nodes of the root's component, every node is the target of at most one non-cut step, and on loop-free graphs no edge is the {sid,tid} of two steps.", "quantifier": "every law-abiding loop-free Graph implementation and every member root", "why_tests_cant": "every graph shape and neighbor order", "anchors": ["src/traversal/depth_first.rs: Iterator for DepthFirst"]}
{"id": "C24", "title": "Depth-first visits the whole connected component", "statement": "Every node reachable from the root is the root or the target of a step, and every edge of the component is crossed.", "quantifier": "every law-abiding Graph implementation and every member root", "why_tests_cant": "completeness over all graphs; the shipped tests all pass although it fails on a triangle with a pendant node", "anchors": ["src/traversal/depth_first.rs: Iterator for DepthFirst (stack.retain)"]}
{"id": "C25", "title": "Depth-first cut steps go back to an ancestor", "statement": "The target of every cut step is an ancestor of its source in the tree of non-cut steps (the defining property of depth-first search in an undirected graph).", "quantifier": "every law-abiding loop-free Graph implementation and every member root", "why_tests_cant": "every graph shape and neighbor order", "anchors": ["src/traversal/depth_first.rs: Iterator for DepthFirst"]}
{"id": "C26", "title": "Depth-first is pre-order", "statement": "The steps of a depth-first traversal are the recursive pre-order of the tree in neighbor order: step (s,t), then the whole subtree of t, then the next neighbor of s.", "quantifier": "every graph and every member root", "why_tests_cant": "order must be right for every shape", "anchors": ["src/traversal/depth_first.rs: Iterator for DepthFirst"]}
{"id": "C27", "title": "into_table summarises the traversal", "statement": "into_table() returns the crossed edges in step order, and the visited nodes in discovery order beginning with the root; for a root without neighbors it returns two empty vectors.", "quantifier": "every law-abiding Graph implementation and every member root", "why_tests_cant": "for all traversals", "anchors": ["src/traversal/depth_first.rs: DepthFirst::into_table"]}
{"id": "C28", "title": "Traversal to graph conversion", "statement": "DefaultGraph::try_from(DepthFirst::new(g,r)) on a loop-free graph never fails or panics; its edges() are the steps in order, its nodes the discovery order, and every query (neighbor order included) answers as if those nodes and edges had been added by hand in that order; it is a connected subgraph of g containing r (or empty when r has no neighbors). With self-loops the same holds unless the traversal crosses some (v,v) twice; then it fails, with DuplicateEdge(v,v) for such a v.", "quantifier": "every law-abiding Graph implementation and every member root", "why_tests_cant": "error freedom over all graphs", "anchors": ["src/graph/default_graph.rs: TryFrom<DepthFirst>"]}
{"id": "C29", "title": "components never panics on loop-free graphs", "statement": "Iterating components(g) to the end never panics and terminates, every node of g belongs to some yielded graph, every yielded graph is a nonempty connected subgraph of g.", "quantifier": "every law-abiding loop-free Graph implementation", "why_tests_cant": "error freedom over all graphs", "anchors": ["src/selection/components.rs: Components::next"]}
{"id": "C30", "title": "components yields the connected components", "statement": "The yielded graphs are exactly the connected components of g: their node sets partition the nodes of g, two nodes are together iff connected, each yielded graph has every edge of g between its nodes, ordered by first node.", "quantifier": "every law-abiding Graph implementation", "why_tests_cant": "all graphs; fails where depth-first is incomplete", "anchors": ["src/selection/components.rs: Components::next", "src/traversal/depth_first.rs: Iterator for DepthFirst"]}
{"id": "C31", "title": "components terminates normally on graphs with self-loops", "statement": "components(g) does not panic when g contains a self-loop, whether added through add_edge, try_from(edges) or try_from(adjacency).", "quantifier": "every API-built graph", "why_tests_cant": "needs every graph the API can build", "anchors": ["src/selection/components.rs: Components::next", "src/graph/default_graph.rs: add_edge, TryFrom<DepthFirst>"]}
{"id": "C32", "title": "Pairing is a symmetric matching after any history", "statement": "After any sequence of pair(a,b) calls with a != b: mate(mate(x)) = x and mate(x) != x for every paired x, edges() lists each pair once with smaller id first and no node twice, order() is twice the number of edges().", "quantifier": "every finite sequence of pair calls on distinct ids", "why_tests_cant": "the history space is unbounded", "anchors": ["src/matching/pairing.rs: Pairing::pair, insert, mate, edges, order"]}
{"id": "C33", "title": "pair re-pairs exactly what it must", "statement": "pair(a,b) makes a and b mates, frees their former partners, and leaves every other node's status unchanged.", "quantifier": "every reachable pairing, every a != b", "why_tests_cant": "frame condition over all pairings", "anchors": ["src/matching/pairing.rs: Pairing::pair, insert"]}
{"id": "C34", "title": "Pairing stays symmetric even when a node is paired with itself", "statement": "mate(mate(x)) = x holds for every paired x after any sequence of pair calls, self-pairs included.", "quantifier": "every finite sequence of pair calls", "why_tests_cant": "tests never self-pair", "anchors": ["src/matching/pairing.rs: Pairing::pair, insert"]}
{"id": "C35", "title": "augment along an augmenting path grows the pairing by one", "statement": "augment(path) panics iff the path has odd length. If path is a simple path of even length whose nodes other than its two ends are paired among themselves and whose ends are unpaired, the new pairing covers exactly the old nodes plus the two ends, consecutive path nodes are paired two by two, and pairs off the path are kept; it has one edge more. On any list of an even number of distinct nodes augment pairs the first with the second and so on, unpairs exactly the outside mates of listed nodes, and changes order() by the number of listed nodes that were unpaired less the number of those whose mate was outside.", "quantifier": "every reachable pairing and every such path of any length", "why_tests_cant": "unbounded path length", "anchors": ["src/matching/pairing.rs: Pairing::augment"]}
{"id": "C36", "title": "greedy returns a valid matching", "statement": "greedy(g) never panics on a loop-free graph, and every pair it returns is an edge of g with no node in two pairs. With self-loops it returns such a matching too unless components(g) panics, and then greedy panics with the same error.", "quantifier": "every law-abiding Graph implementation", "why_tests_cant": "all graphs", "anchors": ["src/matching/greedy.rs: greedy"]}
{"id": "C37", "title": "greedy is maximal", "statement": "No edge of g has both endpoints unpaired in greedy(g) (the documented 'maximal or maximum').", "quantifier": "every law-abiding loop-free Graph implementation", "why_tests_cant": "maximality over all graphs; fails on a 4-node graph although all tests pass", "anchors": ["src/matching/greedy.rs: greedy"]}
{"id": "C38", "title": "maximum_matching keeps the pairing valid", "statement": "If the initial pairing is a matching of g, then whenever maximum_matching(g,&mut p) returns, p is a matching of g.", "quantifier": "every law-abiding Graph implementation (self-loops allowed), every initial matching, every hash iteration order", "why_tests_cant": "all graphs, all starting matchings, all iteration orders", "anchors": ["src/matching/maximum_matching.rs: maximum_matching", "src/matching/pairing.rs: Pairing::augment", "src/matching/blossom.rs: Blossom::lift"]}
{"id": "C39", "title": "maximum_matching's answer is maximum", "statement": "Whenever maximum_matching(g,&mut p) returns, no matching of g has more pairs than p.", "quantifier": "every law-abiding Graph implementation, every initial matching, every hash iteration order, every competing matching", "why_tests_cant": "optimality quantifies over all matchings of all graphs", "anchors": ["src/matching/maximum_matching.rs: maximum_matching, augmenting_path, process_blossom", "src/matching/blossom.rs: contract_graph, contract_pairing"]}
{"id": "C40", "title": "maximum_matching always returns", "statement": "maximum_matching(g,&mut p) neither panics nor runs forever when p is a matching of g.", "quantifier": "every law-abiding Graph implementation and every initial matching", "why_tests_cant": "termination over all graphs; fails on 6- and 8-node graphs although all tests pass", "anchors": ["src/matching/maximum_matching.rs: maximum_matching", "src/matching/blossom.rs: Blossom::lift_left_blossom_right", "src/matching/pairing.rs: Pairing::augment"]}
{"id": "C41", "title": "maximum_matching is total and correct on bipartite graphs and forests", "statement": "On a bipartite graph or a forest, with any ids and from any initial matching, maximum_matching returns a maximum matching without panic, after at most order/2 augmentations, and keeps every initially paired node paired.", "quantifier": "every law-abiding bipartite Graph implementation, every initial matching, every hash iteration order", "why_tests_cant": "totality over all bipartite graphs", "anchors": ["src/matching/maximum_matching.rs: maximum_matching, augmenting_path"]}
{"id": "C42", "title": "The optimality test is exact", "statement": "Whenever maximum_matching returns, the pairing is unchanged iff it was already a maximum matching of g; running twice is the same as running once; and a maximum matching is recognised by the first search (given that ids leave room below usize::MAX or the graph has no odd cycle, see C46).", "quantifier": "every law-abiding Graph implementation, every matching", "why_tests_cant": "needs every maximum matching of every graph", "anchors": ["src/matching/maximum_matching.rs: augmenting_path, maximum_matching"]}
{"id": "C43", "title": "Failure modes of maximum_matching are confined", "statement": "Started from a matching of g, the search for one augmenting path always ends, either with a nonempty list of distinct, consecutively adjacent nodes or with nothing, and the only panics maximum_matching can raise are 'even path augmentation' and, only if some node id is within (order + number of self-loops) of usize::MAX and g has an odd cycle, the integer overflow; no internal invariant (marker, forest, blossom root, unwraps) ever fails.", "quantifier": "every law-abiding Graph implementation, every initial matching", "why_tests_cant": "all graphs and all internal states", "anchors": ["src/matching/maximum_matching.rs: augmenting_path, even_path, process_blossom", "src/matching/forest.rs", "src/matching/marker.rs", "src/matching/blossom.rs"]}
{"id": "C44", "title": "maximum_matching does not depend on hash iteration order", "statement": "For every matching p of g the outcome (final pairing, panic or divergence) is the same for every order in which the pairing's hash map may be iterated.", "quantifier": "every law-abiding Graph implementation, every initial matching, every pair of iteration orders at every iteration site", "why_tests_cant": "HashMap order is randomised per run; tests see a few samples", "anchors": ["src/matching/maximum_matching.rs: augmenting_path", "src/matching/pairing.rs: Pairing::edges", "src/matching/blossom.rs: contract_pairing"]}
{"id": "C45", "title": "Every augmentation makes progress", "statement": "Each augmentation performed by maximum_matching increases order() by two.", "quantifier": "every law-abiding Graph implementation, every matching", "why_tests_cant": "all graphs; fails on small graphs", "anchors": ["src/matching/maximum_matching.rs: maximum_matching", "src/matching/blossom.rs: lift"]}
{"id": "C46", "title": "Node ids near usize::MAX", "statement": "maximum_matching works for every usize id.", "quantifier": "every graph over all usize ids", "why_tests_cant": "tests never use large ids; contraction computes max_id + 1", "anchors": ["src/matching/maximum_matching.rs: process_blossom"]}
{"id": "C47", "title": "Perfect matchings are found", "statement": "If g has a perfect matching, then whenever maximum_matching returns, order() of the pairing equals order() of g.", "quantifier": "every law-abiding Graph implementation having a perfect matching, every initial matching", "why_tests_cant": "all graphs", "anchors": ["src/matching/maximum_matching.rs: maximum_matching"]}
{"id": "C48", "title": "greedy then maximum_matching", "statement": "greedy(g) is always an admissible start for maximum_matching: if the latter returns, the result is a maximum matching of g.", "quantifier": "every law-abiding loop-free Graph implementation", "why_tests_cant": "documented usage pattern, all graphs", "anchors": ["src/matching/greedy.rs: greedy", "src/matching/maximum_matching.rs: maximum_matching"]}
{"id": "C49", "title": "maximum_matching is total and correct when odd cycles are calm", "statement": "If every odd cycle of g with three or more nodes is joined to the rest of g through at most one outside node, or contains every odd cycle it meets, or leaves at most two nodes of its component outside, or lies in a component whose nodes are all adjacent to each other, then maximum_matching returns a maximum matching from any initial matching; every augmentation adds exactly one pair and no paired node becomes unpaired. Self-loops are harmless.", "quantifier": "every law-abiding Graph implementation with that shape (blossoms of any size and number, nested or not), every initial matching, every hash iteration order", "why_tests_cant": "unbounded family of non-bipartite graphs", "anchors": ["src/matching/maximum_matching.rs: maximum_matching, process_blossom", "src/matching/blossom.rs: lift"]}
{"id": "C50", "title": "No panic when odd cycles are separate blocks", "statement": "If every odd cycle of g meets each connected part of the rest of g in at most one of its nodes (e.g. any cactus), maximum_matching never panics; such graphs need not make it terminate (a cactus of five triangles and a bridge runs forever).", "quantifier": "every such law-abiding Graph implementation, every initial matching, every hash iteration order", "why_tests_cant": "all graphs of the class, all executions", "anchors": ["src/matching/pairing.rs: Pairing::augment", "src/matching/blossom.rs: lift"]}
{"id": "C51", "title": "The double recursion of maximum_matching is a plain loop", "statement": "maximum_matching, which calls itself twice after each augmentation, ends exactly like the loop 'search a path, augment, repeat until none': same final pairing, same panic, and it runs forever iff that loop does.", "quantifier": "every law-abiding Graph implementation, every initial matching, every execution including the failing and endless ones", "why_tests_cant": "termination behaviour and all executions", "anchors": ["src/matching/maximum_matching.rs: maximum_matching"]}
{"id": "C52", "title": "Rings and paths", "statement": "On graphs in which every degree is at most two, maximum_matching returns a maximum matching from any initial matching and keeps paired nodes paired.", "quantifier": "every law-abiding Graph implementation of maximum degree two (self-loops allowed), every initial matching", "why_tests_cant": "all sizes", "anchors": ["src/matching/maximum_matching.rs: maximum_matching"]}
{"id": "C53", "title": "Size of the answer depends on the graph alone", "statement": "Two returning runs of maximum_matching on graphs with the same nodes and adjacency, from any two matchings, with any neighbor, node and hash orders, give pairings of the same order().", "quantifier": "every pair of equal law-abiding graphs, every pair of initial matchings, every pair of iteration orders", "why_tests_cant": "pairs of executions", "anchors": ["src/matching/maximum_matching.rs: maximum_matching"]}
{"id": "C54", "title": "Every answer has a short proof of optimality", "statement": "Whenever maximum_matching returns, the nodes of g can be divided into a set O and groups such that every edge touches O or lies inside one group and the number of pairs equals |O| plus the sum of the halved group sizes (Tutte-Berge).", "quantifier": "every law-abiding Graph implementation, every initial matching", "why_tests_cant": "existential witness for every graph", "anchors": ["src/matching/maximum_matching.rs: augmenting_path"]}
{"id": "C55", "title": "The documented pipeline returns", "statement": "greedy followed by maximum_matching returns a maximum matching.", "quantifier": "every law-abiding loop-free Graph implementation", "why_tests_cant": "all graphs; fails on 6- and 8-node graphs", "anchors": ["src/matching/greedy.rs: greedy", "src/matching/maximum_matching.rs: maximum_matching"]}
{"id": "C56", "title": "The breadth-first order is exact", "statement": "A breadth-first traversal yields, for the root and then for each node in the order of its discovery, the edges from that node to the neighbors that were not yet expanded, in neighbor order: the whole sequence of steps is determined by the order of discovery and the neighbor lists.", "quantifier": "every law-abiding Graph implementation (self-loops allowed) and every member root", "why_tests_cant": "every graph shape and neighbor order", "anchors": ["src/traversal/breadth_first.rs: Iterator for BreadthFirst"]}
{"id": "C57", "title": "A cut step is reported exactly when there is a cycle", "statement": "A traversal (breadth-first or depth-first) reports at least one cut step if and only if the component of the root contains a cycle or a self-loop; a depth-first traversal without a cut step has crossed every edge of the component exactly once.", "quantifier": "every law-abiding Graph implementation and every member root", "why_tests_cant": "an equivalence over all graphs, although depth-first can miss nodes and edges", "anchors": ["src/traversal/breadth_first.rs: Iterator for BreadthFirst", "src/traversal/depth_first.rs: Iterator for DepthFirst"]}
{"id": "C58", "title": "Depth-first only misses edges on cycles", "statement": "Every edge at a node that the depth-first traversal discovered and that lies on no cycle is crossed exactly once; a self-loop of such a node is crossed as often as the node lists itself as a neighbor (twice if edges() lists it), and any self-loop at most that often.", "quantifier": "every law-abiding Graph implementation, every member root and every discovered node", "why_tests_cant": "bounds the damage of an order-dependent defect over all graphs", "anchors": ["src/traversal/depth_first.rs: Iterator for DepthFirst (stack.retain)"]}
{"id": "C59", "title": "Builds without overflow checks", "statement": "Compiled without overflow checks (max id + 1 wraps to 0), maximum_matching still never returns anything but a maximum matching of the graph; it fails only with the odd-path panic of C40 or, when some id is too close to usize::MAX and the graph has an odd cycle, with a panic about a duplicate node 0; the outcome does not depend on hash iteration order; and on every input on which the checked build does not overflow the two builds behave identically.", "quantifier": "every law-abiding Graph implementation with arbitrary ids, every starting pairing, every hash iteration order", "why_tests_cant": "tests run in the checked profile; the wrapped id may coincide with any existing node, inside or outside of any contracted cycle", "anchors": ["src/matching/maximum_matching.rs: process_blossom", "src/matching/blossom.rs: contract_graph, contract_pairing, lift"]}
{"id": "C60", "title": "Graphs with at most five nodes", "statement": "On every graph of order at most five (self-loops allowed) maximum_matching returns a maximum matching from any initial matching and every augmentation adds exactly one pair; with six nodes it can panic.", "quantifier": "every law-abiding Graph implementation of order at most five with arbitrary ids, every initial matching, every hash iteration order", "why_tests_cant": "arbitrary ids, listing orders, pairings and hash orders", "anchors": ["src/matching/maximum_matching.rs: maximum_matching", "src/matching/blossom.rs: lift"]}
{"id": "C61", "title": "maximum_matching on complete graphs", "statement": "If every component of g is a clique, maximum_matching returns a maximum matching from any initial matching: every augmentation adds exactly one pair, no paired node becomes unpaired, and at most one node of each component stays unpaired. On a complete graph with n nodes the answer has floor(n/2) pairs.", "quantifier": "every law-abiding Graph implementation whose components are cliques (any number and size, self-loops allowed), every initial matching, every neighbor order and hash iteration order", "why_tests_cant": "unbounded family of graphs that forces nested blossoms of any depth", "anchors": ["src/matching/maximum_matching.rs: maximum_matching, augmenting_path, process_blossom", "src/matching/blossom.rs: lift"]}
{"id": "C62", "title": "Depth-first descends before it backtracks", "statement": "Whatever the graph, every step of a depth-first traversal starts at the node discovered last or at one of its ancestors; it starts at the node discovered last as long as that node has an undiscovered neighbor; a non-cut step goes to the first undiscovered neighbor of its source in neighbor order; and the traversal does not end while the node discovered last has an undiscovered neighbor. Hence no node is missed where every component is a clique.", "quantifier": "every law-abiding Graph implementation (self-loops and any cycles allowed), every root, every position in the step sequence", "why_tests_cant": "unbounded graphs, neighbor orders and prefixes of the traversal", "anchors": ["src/traversal/depth_first.rs: DepthFirst::next"]}
{"id": "C63", "title": "What components yields", "statement": "On every graph on which components returns, self-loops included, the graphs yielded are exactly the depth-first graphs (nodes in discovery order, edges in step order, neighbor order that of adding these edges) from the successive first nodes, in node order, that are in no graph yielded before. Where every component is a clique, the node sets are those of the connected components.", "quantifier": "every law-abiding Graph implementation, every position in the yielded sequence (cliques: loop-free graphs)", "why_tests_cant": "unbounded graphs and orders", "anchors": ["src/selection/components.rs: components, Components::next"]}
{"id": "C64", "title": "Which edges greedy takes", "statement": "On every loop-free graph greedy runs through the depth-first traversals of the graphs yielded by components, one after the other, and pairs the two ends of a step exactly when neither was the source of an earlier step nor the target of an earlier step whose ends were paired. It finds at least one pair whenever the graph has an edge.", "quantifier": "every law-abiding loop-free Graph implementation, every pair of nodes", "why_tests_cant": "unbounded graphs and neighbor orders", "anchors": ["src/matching/greedy.rs: greedy"]}
{"id": "C65", "title": "Only the order of nodes and neighbors matters", "statement": "BreadthFirst, DepthFirst, components and greedy commute with renaming: if graph h is graph g with each node v called f(v) (f injective, nodes and neighbors in the same order), the steps on h are the renamed steps of g, the components of h are the renamed components (nodes, neighbors and edges in the same order), and greedy pairs f(u) with f(v) exactly when it pairs u with v; components and greedy return on h when they do on g, self-loops included. Two Graph implementations with the same nodes() and neighbors() give equal traversals and pairings. Renaming the ids of an edge list renames the graph built from it.", "quantifier": "every pair of law-abiding Graph implementations, every renaming injective on the nodes, every root", "why_tests_cant": "relates two runs on arbitrary graphs", "anchors": ["src/traversal/breadth_first.rs: next", "src/traversal/depth_first.rs: next", "src/selection/components.rs: next", "src/matching/greedy.rs: greedy", "src/graph/default_graph.rs: TryFrom<Vec<(usize, usize)>>"]}
{"id": "C66", "title": "greedy finds at least half of a maximum matching", "statement": "On a loop-free graph whose components are trees or rings, and on one where every simple path that closes a ring ends there (C37), no matching of g has more than twice as many pairs as greedy(g); on trees and rings maximum_matching started from greedy(g) returns after at most as many augmentations as greedy found pairs. On other graphs greedy finds no fixed share: for every k there is a bipartite graph with a perfect matching of k+2 pairs of which greedy pairs two, and maximum_matching then makes exactly k augmentations.", "quantifier": "every law-abiding Graph implementation of that shape, every hash iteration order; every k", "why_tests_cant": "a ratio over all matchings of all such graphs", "anchors": ["src/matching/greedy.rs: greedy", "src/matching/maximum_matching.rs: maximum_matching"]}
{"id": "C67", "title": "Equality of pairings", "statement": "p == q holds iff has_node and mate agree on every node; for matchings, iff edges() lists the same pairs (in any order).", "quantifier": "all pairings, all histories, every hash iteration order", "why_tests_cant": "all pairs of histories and iteration orders", "anchors": ["src/matching/pairing.rs: derive(PartialEq), Pairing::edges"]}
{"id": "C68", "title": "One pairing shared by several calls", "statement": "maximum_matching leaves pairs of nodes outside its graph alone and is not influenced by them; so calling it for each component of g in turn, with one shared pairing, leaves a maximum matching of g.", "quantifier": "every law-abiding graph, every pairing of it, every set of pairs of other nodes, every list of disjoint parts, every hash iteration order", "why_tests_cant": "whether it holds depends on the ids of nodes that are not in the graph; tests with a fresh pairing never see it", "anchors": ["src/matching/maximum_matching.rs: maximum_matching, process_blossom", "src/matching/blossom.rs: contract_pairing", "src/selection/components.rs: components"]}
{"id": "C69", "title": "A traversal that has already been advanced", "statement": "The i-th call of next on a DepthFirst or BreadthFirst returns the i-th step and None after the last, so collecting after k calls gives the remaining steps. into_table after k calls gives the source of the next step, the nodes discovered after it and the remaining edges. DefaultGraph::try_from after k calls gives exactly that graph if every remaining step's ends are introduced by the remaining steps before it, and otherwise Err(MissingNode(x)) for the first end x that is not; it never panics.", "quantifier": "every law-abiding graph (loop-free for the conversion), every root, every number k of calls, also beyond the end", "why_tests_cant": "the result depends on where among all the steps of all traversals the caller stopped; tests convert fresh traversals only", "anchors": ["src/traversal/depth_first.rs: next, into_table", "src/traversal/breadth_first.rs: next", "src/graph/default_graph.rs: TryFrom<DepthFirst>"]}
{"id": "C70", "title": "components, call by call, on every graph", "statement": "The calls of next on components(g) go through g.nodes() in order: a node of a graph yielded before is skipped; any other node r gives the graph of the depth-first traversal from r (its discovered nodes and crossed edges, in order); if that traversal crosses a self-loop twice the call panics with DuplicateEdge(v,v), v being the first node whose self-loop is crossed again, after all earlier graphs have been delivered. After the last graph next returns None for ever. So collecting returns exactly when no such traversal crosses a self-loop twice.", "quantifier": "every law-abiding graph, self-loops included, every number of calls", "why_tests_cant": "whether and when it panics depends on how every traversal meets every self-loop", "anchors": ["src/selection/components.rs: components, next", "src/graph/default_graph.rs: TryFrom<DepthFirst>"]}
{"id": "C71", "title": "Equal traversals yield the same steps", "statement": "If two DepthFirst traversals compare equal with ==, iterating them yields the same steps; comparing them never panics.", "quantifier": "all graphs built through the API, all roots, any number of steps taken before comparing", "why_tests_cant": "all graphs and all points in a traversal; == on graphs ignores the neighbor order", "anchors": ["src/traversal/depth_first.rs: DepthFirst (derive PartialEq), next", "src/graph/default_graph.rs: eq"]}
{"id": "C72", "title": "The order of disjoint pair calls does not matter", "statement": "Two histories of pair calls in which no node occurs twice give == pairings whenever they pair the same nodes, whatever the order of the calls and of their arguments.", "quantifier": "all histories of pair calls without a repeated node, every hash iteration order", "why_tests_cant": "all histories, permutations and hash orders", "anchors": ["src/matching/pairing.rs: pair, derive(PartialEq)"]}
{"id": "C73", "title": "maximum_matching follows the orders, not the ids", "statement": "Take two graphs that differ only in what their nodes are called: nodes() and neighbors() come in the same order under the new names, edges() lists the same edges in the same order (each in either direction), and both leave room below usize::MAX for the ids maximum_matching invents. Then maximum_matching, started from corresponding pairings, ends the same way on both: it returns corresponding pairings, panics with the same message, or runs forever on both. The order of edges() cannot be dropped from the condition: two graphs that agree on nodes() and neighbors() and whose edges() are permutations of each other can behave differently, one panicking and the other returning.", "quantifier": "all law-abiding graphs, all injective renamings, all pairings whose pairs are edges, every hash iteration order on either side", "why_tests_cant": "all graphs, renamings, pairings and hash orders, including runs that never end", "anchors": ["src/matching/maximum_matching.rs: maximum_matching, augmenting_path, process_blossom", "src/matching/blossom.rs: contract_graph, contract_pairing, lift", "src/matching/forest.rs", "src/matching/marker.rs", "src/matching/pairing.rs: augment"]}
{"id": "C74", "title": "Stack use of maximum_matching", "statement": "maximum_matching calls itself after every augmentation and returns from none of these calls before the last search has failed, so each augmentation holds a stack frame. A run that augments k times exhausts a stack with room for k+1 nested calls; k+2 nested calls plus one per node and self-loop are always enough (contractions nest too), and k+2 are enough when the graph has no odd cycle. Hence on a bipartite graph or forest the depth needed is exactly the size of a maximum matching, minus the pairs given at the start, plus two: it grows linearly with the graph. With a finite stack every call ends: it returns or panics as it would on an unlimited stack, or exhausts the stack; the inputs that make maximum_matching run forever are exactly those that exhaust every stack, so such a call aborts the process and does not hang.", "quantifier": "all law-abiding graphs, all pairings whose pairs are edges, every stack size, every hash iteration order", "why_tests_cant": "all graphs, pairings and stack sizes; a test sees one stack size and only small graphs", "anchors": ["src/matching/maximum_matching.rs: maximum_matching, augmenting_path, process_blossom"]}
{"id": "C75", "title": "Matching while the graph grows", "statement": "After maximum_matching has returned on a DefaultGraph, the graph may be extended by any sequence of add_node and add_edge calls (successful or not) and maximum_matching called again with the same Pairing. The pairing is still valid for the larger graph. If the second call returns, the pairing has lost no pairs in number and gained at most as many as edges were added (the difference of size()). If no edge was added, the second call returns at once with the pairing unchanged (unless ids have run out). When the odd cycles of the larger graph are calm (bipartite graphs and forests among them) the second call returns after at most as many augmentations as edges were added, and every node paired before is still paired.", "quantifier": "all API graphs, all sequences of edits, all starting pairings whose pairs are edges, every hash iteration order; the size bound for any two law-abiding graphs one of which lists more edges", "why_tests_cant": "all graphs, edit histories and hash orders", "anchors": ["src/matching/maximum_matching.rs: maximum_matching", "src/graph/default_graph.rs: add_node, add_edge, size", "src/matching/pairing.rs"]}
{"id": "C76", "title": "A traversal is reproduced from its own record", "statement": "Converting a depth-first traversal to a DefaultGraph and traversing the result from the same root repeats the same steps in the same order, and converting again gives the identical graph; a graph yielded by components, given to components again, yields exactly itself; and greedy pairs in the order of the depth-first traversals of the original graph.", "quantifier": "every law-abiding loop-free graph, every root with a neighbor", "why_tests_cant": "all graphs and neighbor orders; it fails only on rare graphs (about one in two thousand random ones) on which the traversal leaves edges out", "anchors": ["src/graph/default_graph.rs: TryFrom<DepthFirst>", "src/traversal/depth_first.rs: Iterator for DepthFirst", "src/selection/components.rs", "src/matching/greedy.rs"]}
{"id": "C77", "title": "Starting pairs that are not edges of the graph", "statement": "Let p be a Pairing in which mates are mutual and different, whose pairs need be neither edges nor even nodes of the graph g, and let g together with the pairs of p have no odd cycle. Then maximum_matching(g, &mut p) either returns a pairing made of edges of g and starting pairs, in which every id that was paired still is, which has one pair more per augmentation, and which no matching made of edges of g and pairs of the result beats (so it has at least as many pairs as any matching of g); or it panics with MissingNode(x) where x is not a node of g but was the starting mate of a node of g. The panic is impossible when mates of nodes are nodes.", "quantifier": "all law-abiding graphs, all symmetric pairings, all hash iteration orders", "why_tests_cant": "The space of pairings left over from other or edited graphs is unbounded; that a stale pair is used or given up without harm depends on the whole search.", "anchors": ["src/matching/maximum_matching.rs: maximum_matching, augmenting_path, some_w", "src/matching/pairing.rs: Pairing::augment, Pairing::mate"]}
{"id": "C78", "title": "Depth-first as a rule on the steps made so far", "statement": "The steps of DepthFirst on a loop-free graph are exactly those of this rule, which mentions no stack: the next step starts at the youngest discovered node that still has an uncrossed edge and has not been bypassed (no step reached a new neighbor of it from another node while it was already discovered), it follows that node's first uncrossed edge in neighbor order, it is a cut exactly if its target is already discovered, and the traversal ends when no such node is left. Hence an edge of a discovered node is left out only if the node (and the other one, if discovered too) was bypassed, and no step starts at a bypassed node. With self-loops, all steps between different nodes obey the rule.", "quantifier": "every law-abiding graph, every root, every neighbor order, every step", "why_tests_cant": "an equivalence over all graphs and neighbor orders: both that every run obeys the rule and that the rule has no other run", "anchors": ["src/traversal/depth_first.rs: DepthFirst::new, Iterator for DepthFirst"]}
{"id": "C79", "title": "Breadth-first as a rule on the steps made so far", "statement": "The steps of BreadthFirst on a loop-free graph are exactly those of this rule, which mentions no queue: the next step starts at the oldest discovered node that still has an uncrossed edge, follows its first uncrossed edge in neighbor order, and is a cut exactly if its target is already discovered; the traversal ends when no discovered node has an uncrossed edge. With self-loops, all steps between different nodes obey the rule.", "quantifier": "every law-abiding graph, every root, every neighbor order, every step", "why_tests_cant": "an equivalence over all graphs and neighbor orders: both that every run obeys the rule and that the rule has no other run", "anchors": ["src/traversal/breadth_first.rs: BreadthFirst::new, Iterator for BreadthFirst"]}
{"id": "C80", "title": "Exactly when depth-first is the textbook traversal", "statement": "Textbook depth-first search has exactly one run T from each node of a graph. DepthFirst on a loop-free graph makes exactly the steps of T if and only if T never makes a step from a node that was bypassed before (a new neighbor of it was reached from another node while it was already discovered); otherwise the two agree up to the first such step of T and differ there.", "quantifier": "every law-abiding loop-free graph, every root, every neighbor order", "why_tests_cant": "an exact criterion over all graphs and neighbor orders", "anchors": ["src/traversal/depth_first.rs: Iterator for DepthFirst"]}
{"id": "C81", "title": "Other components have no influence", "statement": "A depth-first or breadth-first traversal, and the graph or error its conversion gives, depend only on the neighbor lists of the nodes reachable from the root. If a graph contains another one as a union of components (same node and neighbor orders), then components() of the part yields exactly the graphs components() of the whole yields inside the part, identical and in the same order, and greedy() of the part makes exactly the pairs greedy() of the whole makes inside it. Both calls on the part return whenever those on the whole do, self-loops included. Adding nodes, and edges among added nodes, leaves the original graph such a part, whether or not calls fail.", "quantifier": "every pair of graphs that agree on the component, every root, every sequence of add_node/add_edge calls elsewhere", "why_tests_cant": "non-interference: it compares runs on all pairs of graphs that differ in unrelated parts", "anchors": ["src/traversal/depth_first.rs: DepthFirst", "src/traversal/breadth_first.rs: BreadthFirst", "src/selection/components.rs: components, Components::next", "src/matching/greedy.rs: greedy", "src/graph/default_graph.rs: add_node, add_edge, TryFrom<DepthFirst>"]}
{"id": "C82", "title": "Adjacency-list round trip", "statement": "Write any graph as an adjacency list: for each node of nodes(), in order, the places in nodes() of its neighbors(), in order. DefaultGraph::try_from accepts this list exactly if no node lists itself twice, and then gives the same graph with renumbered nodes, in the same node and neighbor orders; otherwise the error is DuplicateEdge(i, i) for the first node, number i, that lists itself twice. A graph made from an adjacency list gives that list back, so reading it again gives the identical graph. A graph whose nodes are 0, 1, 2, ... comes back with the same nodes and neighbors and == to the original in both directions.", "quantifier": "every law-abiding graph of any type, every adjacency list, every history that built the graph", "why_tests_cant": "a round trip over all graphs, including those with self-loops and unsorted ids", "anchors": ["src/graph/default_graph.rs: TryFrom<Vec<Vec<usize>>>, nodes, neighbors, PartialEq"]}
{"id": "C83", "title": "Memory of a traversal", "statement": "At every moment of a depth-first or breadth-first traversal of a loop-free graph, the number of pending edges plus the number of steps already yielded is at most size(); the pending edges are edges of the graph leaving discovered nodes, all different from each other and from the edges already crossed; the visited set holds exactly the discovered nodes, at most order() of them.", "quantifier": "every law-abiding loop-free graph, every root, every number of next() calls", "why_tests_cant": "a bound on the state after every prefix of every traversal", "anchors": ["src/traversal/depth_first.rs: DepthFirst, Iterator for DepthFirst", "src/traversal/breadth_first.rs: BreadthFirst, Iterator for BreadthFirst"]}
{"id": "C84", "title": "Traversals of graphs that obey no law", "statement": "Graph is a public trait, and an implementation may list neighbors one way only, repeat them, or name nodes it then rejects. Whatever it does: a breadth-first traversal that comes to its end has discovered exactly the nodes reachable along listed edges, each once, in order of distance, with a shortest-path tree, exact cut flags and the order of C56; it comes to its end exactly when neighbors succeeds on every reachable node (finitely many), and otherwise fails or panics with the error of a reachable node. A depth-first traversal comes to its end too, discovers only reachable nodes, each once, with exact cut flags; if no cycle of one-way edges is reachable it discovers all of them in the order of textbook depth-first search.", "quantifier": "every implementation of Graph (any neighbor function), every root", "why_tests_cant": "quantifies over all implementations of a public trait, including asymmetric and failing ones, and all their runs", "anchors": ["src/graph/graph.rs: Graph", "src/traversal/breadth_first.rs: BreadthFirst::new, next", "src/traversal/depth_first.rs: DepthFirst::new, next"]}
{"id": "C85", "title": "What a panic leaves behind", "statement": "A caller may catch the panics of this crate. If maximum_matching panics, the pairing it was given by &mut is a valid matching of the graph: the result of the augmentations completed before the panic; calling it again with that pairing panics in the same way and changes nothing, whatever the hash iteration order. Pairing::augment with a path of odd length changes nothing. The iterator of components stays usable: its later results are the graphs of the depth-first traversals of the remaining unvisited nodes (only the root of a panicking component counts as visited), at most order() results in all, then None for ever; every node is in a yielded graph unless the traversal from that node itself crosses a self-loop twice, so components without a self-loop listed twice are not affected by a panic in another one.", "quantifier": "every law-abiding graph, every valid starting pairing, every hash iteration order, every number of next() calls", "why_tests_cant": "quantifies over all graphs and pairings on which the call panics, and all later histories", "anchors": ["src/matching/maximum_matching.rs: maximum_matching", "src/matching/pairing.rs: Pairing::augment", "src/selection/components.rs: Iterator for Components"]}
{"id": "C86", "title": "Amount of work of maximum_matching", "statement": "A call of maximum_matching that returns after k augmentations has made exactly 2k+1 searches (one that panics, k+1), the same for every hash iteration order. One search looks at the graph and its successive contractions, at most 1 + order() + (number of self-loops) graphs, only the graph itself if it has no odd cycle; on each of them it calls neighbors() at most order() + size() times. So where the call is known to return (C49), with a maximum matching of m edges and a starting pairing of s nodes, there are exactly 2m+1-s searches and at most (2m+1-s)(order+size) calls of neighbors on the given graph. Of these 2k+1 searches the last k+1 are the same one, repeated as the recursion unwinds, and each of the k before makes at least one call; where there is no odd cycle, each of the last k+1 makes exactly (number of unpaired nodes) + (sum of the degrees of the nodes that some maximum matching leaves out) calls of neighbors, a number that depends on the graph alone.", "quantifier": "every law-abiding graph, every valid starting pairing, every hash iteration order", "why_tests_cant": "an exact count and a polynomial bound over all graphs, pairings and orders", "anchors": ["src/matching/maximum_matching.rs: maximum_matching, augmenting_path, some_w, process_blossom", "src/graph/graph.rs: Graph::neighbors"]}
{"id": "C87", "title": "Traversals ask the graph lazily and once", "statement": "Creating a DepthFirst or BreadthFirst and calling next k times calls Graph::neighbors on exactly the nodes discovered so far, once on each, in the order of discovery, and calls no other method; so the first k results depend on the answers for those nodes only, also on graphs that never end or obey no law. If the graph has no answer for the root, new returns its error; if it has none for a node found later, that call of next panics and that node is the last one asked. Each next of components(g) asks for the nodes of the graph it yields, in their order, and nothing else; greedy asks the same as collecting components. Where components partitions the graph, every node is asked for once.", "quantifier": "every implementation of Graph, lawful or not, every root, every number of calls of next", "why_tests_cant": "absence of queries, for every graph and every point of the iteration; and independence of everything not asked for", "anchors": ["src/traversal/depth_first.rs: DepthFirst::new, next", "src/traversal/breadth_first.rs: BreadthFirst::new, next", "src/selection/components.rs: components, next", "src/graph/default_graph.rs: TryFrom<DepthFirst>", "src/matching/greedy.rs: greedy"]}
{"id": "C88", "title": "Exactly which graphs the depth-first traversal handles whatever the neighbor order", "statement": "Call a graph untangled seen from a root r if, for every simple path from r to a node v, whenever two different neighbors of v off the path are connected off the path, every neighbor of v is either the node before v on the path or off the path and connected to the same two. On an undirected graph without self-loops, DepthFirst from r makes exactly the steps of textbook depth-first search for every order in which neighbors may be listed if and only if the graph is untangled seen from r. For graphs given to DefaultGraph::try_from as an edge list the orders that the edges can be given in are enough for this. Whether a graph is untangled depends on its adjacency only; narrow rings are untangled but not conversely. On untangled graphs the traversal discovers the component, crosses each of its edges once, and cuts only to ancestors; and components yields exactly the components.", "quantifier": "every undirected graph without self-loops, every root, every neighbor order, every order of an edge list", "why_tests_cant": "an equivalence over all graphs and all orders of their neighbor lists: one direction needs a proof for every order, the other a bad order for every tangled graph", "anchors": ["src/traversal/depth_first.rs: DepthFirst::new, next", "src/selection/components.rs: components, next", "src/graph/default_graph.rs: try_from"]}
{"id": "C89", "title": "Graphs listed along a path", "statement": "If the nodes of a loop-free graph are listed so that consecutive ones are adjacent, and every node lists its neighbors in that order, then DepthFirst from the first node makes from each node first a cut step to every earlier neighbor but the one just before it, in order, and then the step to the next node; it thus visits the nodes in the order listed and crosses every edge once. components yields exactly one graph, with the same nodes in the same order and the same edges, and traversing it gives the same steps. greedy pairs only nodes that are next to each other in the list: a node with the next one exactly if it is not paired with the one before it and has no other earlier neighbor. On a complete graph listed in this way greedy pairs the first two nodes and no others. With n nodes and enough room for ids maximum_matching then makes exactly n/2 - 1 augmentations.", "quantifier": "every law-abiding Graph implementation of that shape, any number of nodes", "why_tests_cant": "a closed form of the traversal and of greedy for graphs of every size", "anchors": ["src/traversal/depth_first.rs: DepthFirst::next", "src/selection/components.rs: components", "src/matching/greedy.rs: greedy", "src/matching/maximum_matching.rs: maximum_matching"]}
{"id": "C90", "title": "How many steps a traversal makes, self-loops included", "statement": "A BreadthFirst crosses the self-loop of every node of the root's component as often as that node lists itself as a neighbor, so on a graph built by the API it makes exactly one step per edge of the component plus one per node with a self-loop, and its cut steps exceed the circuit rank accordingly. A DepthFirst makes at most that many, and exactly that many if no discovered node lies on a cycle; in a component without cycles (self-loops allowed) it visits every node. At every moment pending edges plus steps made are at most size() plus the number of nodes with a self-loop; a breadth-first traversal owes or has made exactly the crossings of each discovered self-loop.", "quantifier": "every law-abiding graph (counts against edges(): every graph the API can build), every root, every number of next() calls", "why_tests_cant": "exact counts over all graphs, roots and prefixes of the traversal", "anchors": ["src/traversal/breadth_first.rs: BreadthFirst, Iterator for BreadthFirst", "src/traversal/depth_first.rs: DepthFirst, Iterator for DepthFirst"]}
{"id": "C91", "title": "Matching from a pairing whose mates are not mutual or not different", "statement": "pair(x, x) makes x its own mate, and pair(x, y) after it leaves y with the unpaired x as its mate. Started with any pairing whatever, maximum_matching first looks at the first unpaired node that has a neighbor (leaving out edges from an unpaired node to a smaller node that has it as its mate); if the first such neighbor is its own mate or has an unpaired node of the graph as its mate, the call panics. If there is no such neighbor at all it returns the pairing unchanged, valid or not. With mutual mates, when all neighbors of unpaired nodes are their own mates, it returns if and only if there are no such neighbors.", "quantifier": "every law-abiding graph, every pairing (for the last sentence: with mutual mates), every hash iteration order", "why_tests_cant": "ranges over all graphs, pairings and hash orders; which node the search takes first depends on them", "anchors": ["src/matching/maximum_matching.rs: maximum_matching, augmenting_path", "src/matching/forest.rs: Forest::add_edge", "src/matching/pairing.rs: Pairing::pair, Pairing::edges"]}
{"id": "C92", "title": "How maximum_matching starts", "statement": "As long as the first unpaired node that has neighbors (in nodes() order) and its first neighbor are two different unpaired nodes, maximum_matching's next augmentation pairs exactly these two, whatever the hash order and the rest of the graph. Every run, also one that panics or does not end, ends as the run from the pairing with these pairs added; and if they cover all nodes that have neighbors, that pairing is what the call returns.", "quantifier": "every law-abiding graph, every matching to start from, every hash iteration order, every number of such pairs", "why_tests_cant": "ranges over all graphs, pairings, hash orders and lengths of the run", "anchors": ["src/matching/maximum_matching.rs: maximum_matching, augmenting_path, some_v, some_w", "src/matching/pairing.rs: Pairing::augment"]}
{"id": "C93", "title": "Which panics maximum_matching can raise", "statement": "Whatever Pairing it is given (from any history of pair calls, self-pairs and one-sided mates included, with ids that are no nodes of the graph), maximum_matching on a law-abiding graph can end only by returning or by one of four panics: the forest's 'duplicate node', a node missing from the graph, 'even path augmentation', and overflow of the new id. It never panics for a missing parent, a missing mate, a node or edge marked twice, a blossom root not found, an index out of bounds or an absent value. Each of the four does occur. Built without overflow checks, the last is replaced by a failing contraction, the wrapped id 0 being already a node.", "quantifier": "every law-abiding graph, every pairing, every hash iteration order, every number of steps", "why_tests_cant": "the absence of seven kinds of panic over all graphs, pairings and hash orders", "anchors": ["src/matching/maximum_matching.rs: maximum_matching, augmenting_path", "src/matching/forest.rs: Forest", "src/matching/marker.rs: Marker", "src/matching/blossom.rs: Blossom", "src/matching/pairing.rs: Pairing::mate, Pairing::augment"]}

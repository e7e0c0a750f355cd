# Formal model of rapodaca/gamma_iter (crate `gamma` 0.8.1) in Coq 8.16

## 1. Approach

The crate is single-threaded, pure graph code, so the model is a set of total
Gallina functions, one per Rust function, in `rocq/theories/*Model.v`.

* `usize` ids are `N`; `HashMap`/`HashSet` are std++ `gmap`/`gset`; `Vec` and
  `VecDeque` are `list`.
* `Result`, panics and non-termination are explicit values of one type
  `comp A := Ok a | Err e | Panic p | NoFuel` (`Outcome.v`).  `?` is bind, and
  `.unwrap()`/`.expect()` turn `Err e` into `Panic (PUnwrap e)`.
* `&mut self` methods return the new value together with the result, so that
  "a failed call changes nothing" can be stated.
* Unbounded Rust loops take fuel; `NoFuel` means "has not returned yet".
  Termination theorems have the form "there is a bound such that with any
  larger fuel the result is `Ok ..`"; divergence theorems say `NoFuel` for
  every fuel.
* The trait `Graph` is the record `Graph` of its nine methods (a `&G` is
  immutable, so each method is a pure function); `as_graph` is
  `impl Graph for DefaultGraph`.  Traversals, components and matching take an
  arbitrary `Graph` and the theorems assume only the laws in `Spec.v`
  (`Lawful`), which are proved for every `DefaultGraph` the public API can
  build (`Api`, theorem `C07_api_lawful`).
* HashMap iteration order (only `Pairing::edges` iterates a map) is an oracle
  argument `iter : tag -> gmap N N -> list (N*N)`, constrained only to
  enumerate the map's entries in some order.  Every iteration site of every
  call gets its own tag, so different sites may use unrelated orders.

## 2. What is modelled and what is not

Modelled: all non-test code of `src/graph`, `src/traversal`, `src/selection`
and `src/matching`:

| Rust | model |
|------|-------|
| graph/graph.rs, error.rs, default_graph.rs (`new`, `add_node`, `add_edge`, nine trait methods, three `TryFrom`, `PartialEq`) | GraphModel.v (`dg_try_from_dfs`: TraversalModel.v) |
| traversal/{step,breadth_first,depth_first}.rs | TraversalModel.v |
| selection/components.rs | ComponentsModel.v |
| matching/pairing.rs | PairingModel.v |
| matching/greedy.rs | GreedyModel.v |
| matching/{forest,marker,blossom,maximum_matching}.rs | MaximumModel.v |
| the same `maximum_matching` built without overflow checks | ReleaseModel.v |
| the same `maximum_matching` on a bounded call stack | StackModel.v |
| `maximum_matching`, `Pairing::augment`, `Components::next` with what a panic leaves in the caller's variable | PanicModel.v |
| `maximum_matching` counting its `neighbors` calls | WorkModel.v |
| traversals, `components` and `greedy` recording their `neighbors` calls | QueryModel.v |

Not modelled: `Debug` output; the derived `PartialEq` on `Step`, `Error`,
`Forest`, `Blossom` (those of `Pairing` and `DepthFirst` are: C67, C71); machine resources (memory; the size in bytes of a stack frame: nested calls
of `maximum_matching` are counted, C74); laziness of iterators
beyond one-element-at-a-time `next`; `Vec`/`HashMap` capacity limits.

Simplifications, each repeated in the comment of the definition concerned:

* Arithmetic is unbounded (`N`, `nat`) except `max_id + 1` in
  `process_blossom`.  There MaximumModel.v has the checked semantics (debug
  profile: `Panic POverflow` at 2^64-1) and ReleaseModel.v the wrapping one
  (C59).  Counters (`size`, lengths) cannot reach 2^64 in memory.
* The interleaved double recursion `maximum_matching -> augmenting path ->
  process_blossom` is modelled as written (recursion with fuel); C51 proves
  that it is a plain loop.

`RepoTests.v` (generated by `tools/repo_tests.py` from the sources of the
repository) replays the crate's own unit tests on the model by evaluation: a
check of the reading of the code, not a claim.

## 3. Layout of the development

* `*Model.v` the program.  `Spec.v` (with `SpecAdvance.v` for C69 and C70, `SpecRename.v` for C73, `SpecStack.v` for C74, `SpecSearch.v` for C78 to C80, `SpecPart.v` for C81, `SpecNumber.v` for C82, `SpecDirected.v` for C84, `SpecPanic.v` for C85, `SpecWork.v` and `SpecLast.v` for C86, `SpecQuery.v` for C87, `SpecTangle.v` for C88, `SpecClosing.v` for C37, `SpecRow.v` for C89, `SpecStart.v` for C92) the vocabulary of the statements: laws of a
  graph, API histories, paths, distances, textbook depth-first search and
  pre-order, matchings, odd cycles.  It does not mention the internals of the
  program (tables, forests, markers).
* `Properties*.v` the theorems `Cxx_*`.  Each is followed by `Print
  Assumptions` and by an example (`Cxx_case*`) showing a concrete non-trivial
  graph or history that satisfies the hypotheses.
* `Checks.v`, `ClassChecks.v`, `OrderChecks.v` boolean checkers with soundness proofs, used only
  in those examples.
* `GraphProofs`, `EditProofs`, `ConvertProofs`, `EqProofs` (DefaultGraph);
  `TraversalProofs`, `BfsProofs`, `BfsOrder`, `DfsProofs`, `AcyclicProofs`,
  `CycleProofs`, `NarrowProofs` (traversals); `ComponentsProofs`, `DescentProofs`, `SearchProofs`, `TextbookProofs` (the traversals as rules), `LocalProofs` (parts of a graph), `MemoryProofs` (state of a running traversal), `DirectedProofs` (implementations of `Graph` that obey no law), `PanicProofs` (state after a panic), `WorkProofs`, `LastProofs` (number of queries), `QueryProofs` (which nodes are asked), `TangleProofs` (depth-first for every neighbor order), `ClosingProofs` (which edges greedy leaves uncovered), `BroomProofs` (bipartite graphs on which greedy pairs two edges), `RowProofs` (nodes listed along a path), `LoopCountProofs` (self-loops counted), `NumberProofs` (adjacency-list round trip), `ReplayProofs` (replaying a record), `LoopProofs` (self-loops), `ReturnProofs` (when components and greedy return);
  `PairingProofs`, `GreedyProofs`, `GreedyRule`, `EquivProofs`; `PathLemmas`, `MatchTheory` (symmetric
  differences, Tutte-Berge certificates); `ForestProofs` (search),
  `BlossomProofs` (shape of a blossom), `ContractProofs` (certificates and
  matchings through a contraction), `LiftProofs`, `TameProofs` (lifted paths),
  `MaximumProofs` (the loop), `CalmProofs`, `ReleaseProofs`,
  `RenameProofs`, `StackProofs` (recursion depth), `ShareProofs`, `AdvanceProofs`, `StaleProofs` (pairs that are no edges), `SelfPairProofs` (nodes paired with themselves or with unpaired nodes), `StartProofs` (the first augmentations), `SafeProofs` (panics that cannot be reached).

## 4. Plan per property

| id | model | proof |
|----|-------|-------|
| C01-C05 | `dg_*`, `Api` graphs | invariant over call histories; refinement to a replayed abstract graph |
| C06-C08 | same | invariant `WF`; C08 is false for adjacency self-loops: exact discrepancy proved, and the law for graphs whose self-loops are listed |
| C09-C11 | `dg_try_from_adjacency`, `dg_try_from_edges` | induction over the scanned input; all queries of the result |
| C12-C13 | `dg_eq` | from WF by counting edges; refuted with adjacency self-loops, proved without; reflexivity always |
| C14 | `dg_try_from_edges`, `dg_eq` | from C11 and C12 |
| C15-C21, C56 | `bfs_*`, `dfs_new` | loop invariants over visited/queue/emitted; C56 exact order by a level-order specification |
| C22-C23 | `dfs_*` | loop invariants over visited/stack/emitted |
| C24-C26 | `dfs_*` | refuted by computation on small graphs; proved on graphs whose rings are narrow (forests included) by simulation with the textbook algorithm, and on untangled graphs (C88) |
| C27-C28 | `dfs_into_table`, `dg_try_from_dfs` | from the step invariants |
| C57-C58 | both traversals | a visited neighbor other than the parent closes a cycle; edges off cycles are never lost |
| C29-C31 | ComponentsModel.v | C30 refuted in general, proved for narrow and for untangled components; C31 refuted for listed self-loops; on every graph the only failure is DuplicateEdge(v,v) (LoopProofs.v) |
| C32-C35 | PairingModel.v | invariant over pair histories; C34 refuted, exact breaking condition proved; C35 by induction on the path |
| C36-C37 | GreedyModel.v | invariant; C37 refuted in general, proved when components are trees or rings |
| C38-C39, C42-C44, C47-C48, C53-C54 | MaximumModel.v | forest invariant; Tutte-Berge certificate (barrier + odd components) pulled back through contractions; matchings lifted through odd cycles |
| C40, C45, C46, C55 | MaximumModel.v | refuted by computed witnesses (divergence by an invariant state); proved when odd cycles are calm (Spec.calm_odd_cycles) |
| C41, C49, C50, C52, C60 | MaximumModel.v | total correctness on bipartite graphs, on graphs whose odd cycles are calm (pendant, or containing the odd cycles they meet, or leaving at most two nodes of the component outside, or in a clique component) and hence on all graphs of at most five nodes; no panic when odd cycles are separate blocks, with a diverging cactus as counterexample to termination |
| C51 | MaximumModel.v | simulation in both directions |
| C61 | MaximumModel.v | the search starts from the first unpaired node that has a neighbor, so the contracted node heads the path found below it (CalmProofs.v) |
| C62-C63 | both models | pending rows are dropped whole or not at all, and the row of the last discovered node is on top (DescentProofs.v) |
| C64 | GreedyModel.v | invariant: a node is marked iff it was a source or the target of a paired step (GreedyRule.v) |
| C65 | both models | simulation between the runs on the two graphs; components by running the two iterators in step; greedy by a simulation of its states along the steps (EquivProofs.v, ReturnProofs.v) |
| C66 | GreedyModel.v, MaximumModel.v | maximality (C37) and counting; rings and trees have calm odd cycles; a family of bipartite graphs, traversed by the textbook rule, on which greedy pairs two edges |
| C67 | `p_eq` | from the entries of the map |
| C68 | MaximumModel.v with pairs outside the graph | simulation: the search never looks at them, contraction carries them along (ShareProofs.v); refuted in general, for every iteration order, by computation (OrderChecks.v) |
| C69 | TraversalModel.v; k calls of `next` (SpecAdvance.v) | induction on k over the generic collector, then the builder's invariant from the first remaining step (AdvanceProofs.v) |
| C70 | ComponentsModel.v; k calls of `next` (SpecAdvance.v) | induction on the remaining node list with the visited set equal to the nodes yielded (AdvanceProofs.v) |
| C73 | MaximumModel.v | simulation of search, contraction, lifting and augmentation under the renaming, extended to the invented id at each contraction (RenameProofs.v, vocabulary in SpecRename.v); counterexample by computation |
| C74 | StackModel.v | each search needs a definite number of frames (induction on nodes plus self-loops, ap_spec_stack); induction on the stack size for the nested calls (StackProofs.v); C51's rounds for the bounds |
| C75 | DefaultGraph edits, MaximumModel.v | induction on the edits for edges(); a matching of the larger graph loses at most one pair per added edge; C39, C42, C49 |
| C76 | TraversalModel.v, ComponentsModel.v, GreedyModel.v | simulation between the two stacks: equal block by block up to the order inside a block; the record's rows are ordered by crossing time, so the next popped edge is the same (ReplayProofs.v). Refuted in general by a computed run |
| C77 | `maximum_matching` on a pairing that need not fit the graph | the search on `g` is simulated by the search on `g` widened by the pairs (`StaleProofs.v`), whose runs C38–C45 describe; the two differ only when a stranger is expanded, which panics. Induction on the unpaired nodes. That the colouring is needed: two evaluated runs (`C77_odd_cycle_spins`, `C77_odd_cycle_odd_path`), using that more fuel never changes a result |
| C78 | TraversalModel.v (depth first) | invariant: the pending edges between different nodes are exactly the uncrossed edges of nodes not bypassed, sorted by age and neighbor order (SearchProofs.v, vocabulary in SpecSearch.v); the rule has one run, so the converse follows from totality |
| C79 | TraversalModel.v (breadth first) | the same with the uncrossed edges seen from their older node |
| C80 | TraversalModel.v (depth first) against `textbook` (Spec.v) | the textbook run obeys the rule of C78 without the exception for bypassed nodes (induction on the run, TextbookProofs.v); compare the two rules |
| C81 | TraversalModel.v, ComponentsModel.v, GreedyModel.v, GraphModel.v | simulation between the two graphs (LocalProofs.v, vocabulary in SpecPart.v): pending edges lead to reachable nodes only; visited sets and pairings agree on the nodes of the part |
| C82 | GraphModel.v (conversion from adjacency lists, queries, equality) | NumberProofs.v, vocabulary in SpecNumber.v: defects of the written list are repeated own entries only; places are injective |
| C83 | TraversalModel.v (both traversals, state after any number of `next` calls) | MemoryProofs.v: the traversal invariant after every call; pending and crossed edges are distinct edges of the graph |
| C84 | TraversalModel.v over any record of the trait's methods | DirectedProofs.v: the traversal invariant without the laws; levels; on acyclic graphs the stack against textbook search, entries already met being immaterial |
| C85 | PanicModel.v: maximum_matching, augment and Components::next keeping the caller's value when they panic | PanicProofs.v: agreement with the other models; the rounds before the panic (C51); iteration over the nodes for components |
| C86 | WorkModel.v: the matching with a count of neighbors() calls per search and contraction | WorkProofs.v: the counter changes nothing; every inner iteration marks an unmarked edge or ends a node; induction on contractions and rounds; LastProofs.v: an exhausted search asks every even node for each of its unmarked edges once, plus once in vain, and the even nodes are those some maximum matching leaves out |
| C87 | QueryModel.v: the traversals, components and greedy with the list of nodes neighbors() was called on | QueryProofs.v: writer monad; the recorded list is the discovery order by induction on calls; two graphs that agree on it give equal runs |
| C88 | `dfs_*` against the rule of textbook search; `untangled` is a condition on simple paths (SpecTangle.v) | TangleProofs.v: in a textbook run every node with an uncrossed edge is an ancestor of the next source; so a step from a bypassed node shows a tangle; conversely a neighbor order (or edge order) that follows the path of the tangle makes the code leave the textbook |
| C89 | TraversalModel.v, ComponentsModel.v, GreedyModel.v | induction along the list against the textbook algorithm, no step starts at a bypassed node (C80); components and greedy through C63, C64 and C76 |
| C90 | TraversalModel.v | LoopCountProofs.v: invariant that a discovered self-loop is crossed or pending as often as the node lists itself; counting by representatives: every crossing is the same edge as exactly one listed edge or loop |
| C91 | MaximumModel.v, PairingModel.v | SelfPairProofs.v: marking the pairs that `edges()` lists never panics, because they have different smaller ends; roots whose edges are all marked are passed over one by one, then the first step adds the bad mate a second time |
| C92 | MaximumModel.v, PairingModel.v | SelfPairProofs.v, StartProofs.v: the first edge looked at joins two roots, so the search ends with the path of that edge; a run and the run after its first augmentation end alike by determinism; induction on the pairs |
| C93 | MaximumModel.v, PairingModel.v | SafeProofs.v: a weaker forest invariant that needs nothing of the pairing (parents are in the forest, unpaired nodes are roots); contraction of any non-empty path gives a graph built by the API; induction on the depth of contractions; the same invariant for the build without overflow checks (C93_release) |
| C71-C72 | EqualityModel.v (derived `==` of DepthFirst), PairingModel.v | C71 refuted by computation; the next step depends on the compared state only; C72 induction on the history |
| C59 | ReleaseModel.v | the invariants of C38-C44 with the wrapped id; wrapping either gives a fresh id or `DuplicateNode(0)` |

No property was dropped as inexpressible.  Those marked `partial` in
MANIFEST.json are false of the code as stated: the `_refuted` theorem gives a
counterexample reachable through the public API, the `_partial` theorem the
largest class of inputs for which the statement has been proved.

## 5. Findings about the code

1. `maximum_matching` panics (`expect` on an odd augmenting path) on a 6-node
   graph and never returns on an 8-node graph, both from `Pairing::new()` and
   after `greedy` (C40, C55).  The cause: a path lifted through a blossom is
   spliced without regard to the blossom's inner pairs (C45).  Whenever it
   does return, the answer is a maximum matching (C39).
2. `max_id + 1` overflows for id usize::MAX (C46); a release build wraps and
   may succeed or panic with `DuplicateNode(0)` (C59).
3. When `DepthFirst` closes a ring it discards every pending edge that leaves
   the closing node or enters the new one (`edge.0 != neighbor && edge.1 !=
   node`) instead of the one edge between them; on graphs with rings it can
   therefore miss nodes (C24), report cut steps between non-ancestors (C25) and differ
   from depth-first order (C26).  `components` then yields overlapping graphs
   (C30) and `greedy` is not maximal (C37).
4. A self-loop given by edges is stored twice in its row; `components` and
   `greedy` panic with DuplicateEdge (C31).  A self-loop given by an adjacency
   list is not counted by `size`/`edges` (C08), so `==` ignores it and is not
   symmetric (C12, C13).
5. `Pairing::pair(x, x)` followed by `pair(x, y)` leaves an asymmetric pairing
   (C34).
6. A pairing cannot be shared between calls: a blossom gets the id `max id of
   the graph + 1`, and if the pairing already holds a pair of that id (from
   another component), `contract_pairing` confuses the two.  The loop
   `for c in components(&g) { maximum_matching(&c, &mut p) }` panics on a
   6-node graph and returns too small a matching on an 8-node graph (C68).

## 6. Trusted base

* Coq 8.16.1's kernel (with its conversion and `vm_compute`, used for concrete
  evaluations).
* `Print Assumptions` under every property theorem prints "Closed under the
  global context": no axiom is used, standard or other.  (A whole-library scan
  additionally lists the abstract `Under_rel` constants of Coq's own ssreflect
  library, loaded through std++ and used by no theorem.)
* The reading of the Rust source into the model (each definition cites file
  and lines), and the std semantics of Vec/HashMap/HashSet/VecDeque methods as
  mapped in section 1.
* For a user-written `Graph`: that it satisfies `Lawful`.

## 7. Tests against wrong programs

`seeded/LOG.jsonl`: one line per edit of the model in a scratch copy, the
claims it should break, the theorems whose proofs failed and the theorems that
were tightened because they did not.

(** Specification vocabulary.  Nothing here mentions how the code works: only
    the observable methods of a [Graph], and textbook graph theory. *)
From stdpp Require Export relations.
From Verif Require Import Outcome GraphModel TraversalModel ComponentsModel PairingModel
  GreedyModel MaximumModel ReleaseModel.

(** ** Graphs as observed through the trait *)

(** [v] is iterated by [neighbors(u)]. *)
Definition adj (g : Graph) (u v : N) : Prop :=
  exists l, g_neighbors g u = Ok l /\ v ∈ l.

(** The laws of an undirected graph, in terms of the nine trait methods.
    Self-loops are allowed (and may be iterated more than once by
    [neighbors], and may be missing from [edges]). *)
Record Lawful (g : Graph) : Prop := {
  law_nodes : NoDup (g_nodes g);
  law_empty : g_is_empty g = true <-> g_nodes g = [];
  law_order : g_order g = length (g_nodes g);
  law_size : g_size g = length (g_edges g);
  law_has_node : forall v, g_has_node g v = true <-> v ∈ g_nodes g;
  law_neighbors : forall v, v ∈ g_nodes g ->
    exists l, g_neighbors g v = Ok l /\ NoDup (filter (fun w => w <> v) l);
  law_neighbors_err : forall v, v ∉ g_nodes g -> g_neighbors g v = Err (MissingNode v);
  law_adj_node : forall u v, adj g u v -> v ∈ g_nodes g;
  law_adj_sym : forall u v, adj g u v -> adj g v u;
  law_degree : forall v l, g_neighbors g v = Ok l -> g_degree g v = Ok (length l);
  law_degree_err : forall v, v ∉ g_nodes g -> g_degree g v = Err (MissingNode v);
  law_has_edge : forall u v, u ∈ g_nodes g -> v ∈ g_nodes g ->
    exists b, g_has_edge g u v = Ok b /\ (b = true <-> adj g u v);
  law_has_edge_err_l : forall u v, u ∉ g_nodes g -> g_has_edge g u v = Err (MissingNode u);
  law_has_edge_err_r : forall u v, u ∈ g_nodes g -> v ∉ g_nodes g ->
    g_has_edge g u v = Err (MissingNode v);
  law_edges_nodup : NoDup (g_edges g);
  law_edges_adj : forall u v, (u, v) ∈ g_edges g -> adj g u v;
  law_edges_complete : forall u v, u <> v -> adj g u v ->
    (u, v) ∈ g_edges g \/ (v, u) ∈ g_edges g;
  law_edges_once : forall u v, (u, v) ∈ g_edges g -> (v, u) ∈ g_edges g -> u = v
}.

Definition LoopFree (g : Graph) : Prop := forall v, ~ adj g v v.

(** Every self-loop is listed by [edges].  True of loop-free graphs and of
    everything built with [add_node], [add_edge] and edge lists; false only
    when [try_from(adjacency)] was given a row containing its own index. *)
Definition LoopsListed (g : Graph) : Prop := forall v, adj g v v -> (v, v) ∈ g_edges g.

(** Same nodes and same adjacency, whatever the orders. *)
Definition same_graph (g h : Graph) : Prop :=
  (forall v, v ∈ g_nodes g <-> v ∈ g_nodes h) /\
  (forall u v, adj g u v <-> adj h u v).

(** The call returned: no panic, no endless loop. *)
Definition total {A} (m : comp A) : Prop := match m with Ok _ | Err _ => True | _ => False end.

(** Sum of [degree(v)] over [nodes()]. *)
Definition degree_sum (g : Graph) : nat :=
  sum_list (map (fun v => match g_degree g v with Ok n => n | _ => 0 end) (g_nodes g)).

(** Nodes with a self-loop that [edges] does not list. *)
Definition unlisted_loops (g : Graph) : list N :=
  filter (fun v => g_has_edge g v v = Ok true /\ (v, v) ∉ g_edges g) (g_nodes g).

(** How many times a node lists itself as its own neighbor. *)
Definition own_entries (g : Graph) (v : N) : nat :=
  length (filter (fun w => w = v) (match g_neighbors g v with Ok l => l | _ => [] end)).

(** ** Walks, distance, connectivity *)

(** [v] can be reached from [u] along edges. *)
Definition reachable (g : Graph) (u v : N) : Prop := rtc (adj g) u v.

(** There is a walk with exactly [n] edges from [u] to [v]. *)
Definition walk (g : Graph) (n : nat) (u v : N) : Prop := nsteps (adj g) n u v.

(** The distance from [u] to [v] is [n]. *)
Definition distance (g : Graph) (u v : N) (n : nat) : Prop :=
  walk g n u v /\ forall m, walk g m u v -> n <= m.

(** Consecutive elements are adjacent. *)
Definition is_path (g : Graph) (l : list N) : Prop :=
  forall i a b, l !! i = Some a -> l !! S i = Some b -> adj g a b.

(** A simple cycle: at least three different nodes, consecutive ones adjacent,
    last and first adjacent. *)
Definition is_cycle (g : Graph) (c : list N) : Prop :=
  3 <= length c /\ NoDup c /\ is_path g c /\
  exists a b, head c = Some a /\ last c = Some b /\ adj g b a.

(** [v] lies on a cycle. *)
Definition on_cycle (g : Graph) (v : N) : Prop := exists c, is_cycle g c /\ v ∈ c.

(** The component of [r] contains a cycle or a self-loop. *)
Definition has_ring (g : Graph) (r : N) : Prop :=
  exists v, reachable g r v /\ (adj g v v \/ on_cycle g v).

(** In the component of [r] there are no self-loops, every node of a cycle has
    degree at most three, and [r] has degree at most two if it lies on a
    cycle. *)
Definition narrow_rings (g : Graph) (r : N) : Prop :=
  forall v n, reachable g r v -> g_degree g v = Ok n ->
    ~ adj g v v /\ (on_cycle g v -> n <= 3 /\ (v = r -> n <= 2)).

(** No self-loops, and seen from the node of a component that is listed first
    the rings are narrow. *)
Definition narrow_components (g : Graph) : Prop :=
  LoopFree g /\
  forall i r, g_nodes g !! i = Some r ->
    (forall j v, j < i -> g_nodes g !! j = Some v -> ~ reachable g r v) -> narrow_rings g r.

(** No self-loops, and no node of a cycle has a third neighbor: every component
    is a tree or a single ring. *)
Definition lone_rings (g : Graph) : Prop :=
  LoopFree g /\ forall v n, on_cycle g v -> g_degree g v = Ok n -> n <= 2.

(** A forest. *)
Definition Acyclic (g : Graph) : Prop := LoopFree g /\ forall c, ~ is_cycle g c.

Definition Bipartite (g : Graph) : Prop :=
  exists color : N -> bool, forall u v, adj g u v -> color u <> color v.

(** An odd number of different nodes, consecutive ones adjacent, last and first
    adjacent: an odd cycle, or a single node with a self-loop. *)
Definition odd_cycle (g : Graph) (c : list N) : Prop :=
  NoDup c /\ Nat.odd (length c) = true /\ is_path g c /\
  forall a b, head c = Some a -> last c = Some b -> adj g b a.

(** Every odd cycle is joined to the rest of the graph through at most one
    outside node. *)
Definition pendant_odd_cycles (g : Graph) : Prop :=
  forall c x y u v, odd_cycle g c -> x ∈ c -> y ∈ c -> u ∉ c -> v ∉ c ->
    adj g x u -> adj g y v -> u = v.

(** Two odd cycles that share a node have the same nodes. *)
Definition disjoint_odd_cycles (g : Graph) : Prop :=
  forall c d x, odd_cycle g c -> odd_cycle g d -> x ∈ c -> x ∈ d -> forall y, y ∈ c -> y ∈ d.

(** ** Odd cycles that cannot hurt *)

(** At most one node outside [c] is adjacent to nodes of [c]. *)
Definition pendant_cycle (g : Graph) (c : list N) : Prop :=
  forall x y u v, x ∈ c -> y ∈ c -> u ∉ c -> v ∉ c -> adj g x u -> adj g y v -> u = v.

(** Every odd cycle that meets [c] stays inside [c]. *)
Definition lone_cycle (g : Graph) (c : list N) : Prop :=
  forall d x, odd_cycle g d -> x ∈ c -> x ∈ d -> forall y, y ∈ d -> y ∈ c.

(** The component of [c] has at most two nodes besides those of [c]. *)
Definition dominant_cycle (g : Graph) (c : list N) : Prop :=
  exists u v, forall x y, x ∈ c -> reachable g x y -> y ∈ c \/ y = u \/ y = v.

(** Each odd cycle of three or more nodes is pendant, alone, or nearly its whole
    component. *)
Definition quiet_odd_cycles (g : Graph) : Prop :=
  forall c, odd_cycle g c -> 3 <= length c ->
    pendant_cycle g c \/ lone_cycle g c \/ dominant_cycle g c.

(** All nodes of the component of [c] are adjacent to each other. *)
Definition clique_cycle (g : Graph) (c : list N) : Prop :=
  forall x u v, x ∈ c -> reachable g x u -> reachable g x v -> u <> v -> adj g u v.

(** The same with cycles of clique components allowed as well. *)
Definition calm_odd_cycles (g : Graph) : Prop :=
  forall c, odd_cycle g c -> 3 <= length c ->
    pendant_cycle g c \/ lone_cycle g c \/ dominant_cycle g c \/ clique_cycle g c.

(** Neighbors of a node are neighbors of each other: every component is a
    clique (self-loops allowed anywhere). *)
Definition adjacency_transitive (g : Graph) : Prop :=
  forall u v w, adj g u v -> adj g v w -> u <> w -> adj g u w.

(** [u] and [v] are connected without touching [c]. *)
Definition linked_outside (g : Graph) (c : list N) (u v : N) : Prop :=
  u ∉ c /\ rtc (fun a b => adj g a b /\ b ∉ c) u v.

(** Every odd cycle meets each connected part of the rest of the graph in at
    most one of its nodes (it is a block of its own, such as a ring of a
    cactus). *)
Definition separated_odd_cycles (g : Graph) : Prop :=
  forall c x y u v, odd_cycle g c -> x ∈ c -> y ∈ c -> adj g x u -> adj g y v ->
    linked_outside g c u v -> x = y.

(** Undirected comparison of pairs. *)
Definition same_edge (e f : N * N) : Prop := e = f \/ e = (f.2, f.1).

(** Number of entries of a list that are the undirected edge [e]. *)
Definition times_crossed (e : N * N) (l : list (N * N)) : nat :=
  length (filter (fun f => same_edge e f) l).

(** ** Traversals *)

(** The undirected edges crossed by a traversal, in step order. *)
Definition crossed (steps : list Step) : list (N * N) :=
  (fun s => (sid s, tid s)) <$> steps.

(** Discovery order: the root, then the targets of non-cut steps. *)
Definition discovered (root : N) (steps : list Step) : list N :=
  root :: (tid <$> filter (fun s => cut s = false) steps).

(** Each step's [cut] flag says whether its target was met before, and its
    source was discovered before. *)
Definition cut_exact (root : N) (steps : list Step) : Prop :=
  forall i s, steps !! i = Some s ->
    (cut s = true <->
       tid s = root \/ exists j s', j < i /\ steps !! j = Some s' /\ tid s' = tid s) /\
    (sid s = root \/
       exists j s', j < i /\ steps !! j = Some s' /\ cut s' = false /\ tid s' = sid s).

(** Iterating a breadth-first (depth-first) traversal of [g] from [root]
    until [None] yields [steps]: whatever large enough number of [next] calls
    is allowed. *)
Definition breadth_first (g : Graph) (root : N) (steps : list Step) : Prop :=
  exists t n, bfs_new g root = Ok t /\
    forall fuel, n <= fuel -> bfs_collect fuel g t = Ok steps.
Definition depth_first (g : Graph) (root : N) (steps : list Step) : Prop :=
  exists t n, dfs_new g root = Ok t /\
    forall fuel, n <= fuel -> dfs_collect fuel g t = Ok steps.

(** [DefaultGraph::try_from(DepthFirst::new(g, root)?)] returns [d]. *)
Definition dfs_graph (g : Graph) (root : N) (d : DefaultGraph) : Prop :=
  exists t n, dfs_new g root = Ok t /\
    forall fuel, n <= fuel -> dg_try_from_dfs fuel g t = Ok d.

(** ... or the conversion fails with [e]. *)
Definition dfs_graph_error (g : Graph) (root : N) (e : error) : Prop :=
  exists t n, dfs_new g root = Ok t /\
    forall fuel, n <= fuel -> dg_try_from_dfs fuel g t = Err e.

(** Recursive pre-order: the pending edges are crossed in order; each edge
    [(p, n)] is followed by the whole subtree of [n], that is, the pre-order of
    the edges from [n] to its neighbors other than [p], in neighbor order. *)
Inductive pre_order (g : Graph) : list (N * N) -> list Step -> Prop :=
| pre_nil : pre_order g [] []
| pre_cons p n pending l sub rest :
    g_neighbors g n = Ok l ->
    pre_order g ((fun x => (n, x)) <$> filter (fun x => x <> p) l) sub ->
    pre_order g pending rest ->
    pre_order g ((p, n) :: pending) (mkStep p n false :: sub ++ rest).

(** [a] is an ancestor of [b] in the tree of non-cut steps. *)
Definition ancestor (steps : list Step) (a b : N) : Prop :=
  rtc (fun x y => mkStep x y false ∈ steps) a b.

(** Textbook depth-first search of an undirected graph from [root], for any
    graph: the pending edges are taken in order; an edge crossed before (in
    either direction) is skipped; an edge to a node met before is a cut step;
    any other edge is a non-cut step after which all edges at its target come
    first.  [done] are the edges crossed so far. *)
Inductive textbook (g : Graph) (root : N) : list (N * N) -> list (N * N) -> list Step -> Prop :=
| tb_nil done : textbook g root done [] []
| tb_skip done p n pending steps :
    (p, n) ∈ done \/ (n, p) ∈ done ->
    textbook g root done pending steps ->
    textbook g root done ((p, n) :: pending) steps
| tb_cut done p n pending steps :
    (p, n) ∉ done -> (n, p) ∉ done ->
    (n = root \/ exists q, (q, n) ∈ done) ->
    textbook g root (done ++ [(p, n)]) pending steps ->
    textbook g root done ((p, n) :: pending) (mkStep p n true :: steps)
| tb_visit done p n pending l steps :
    (p, n) ∉ done -> (n, p) ∉ done ->
    n <> root -> (forall q, (q, n) ∉ done) ->
    g_neighbors g n = Ok l ->
    textbook g root (done ++ [(p, n)]) (((fun x => (n, x)) <$> l) ++ pending) steps ->
    textbook g root done ((p, n) :: pending) (mkStep p n false :: steps).

(** For each node of [todo] in turn, its edges to the neighbors that are not
    among the nodes before it ([seen] and the part of [todo] already passed),
    in neighbor order. *)
Fixpoint level_order (g : Graph) (seen todo : list N) : list (N * N) :=
  match todo with
  | [] => []
  | u :: todo' =>
      ((fun w => (u, w)) <$>
         filter (fun w => w ∉ seen) (match g_neighbors g u with Ok l => l | _ => [] end))
      ++ level_order g (seen ++ [u]) todo'
  end.

(** [components(g).collect()] returns [ds]. *)
Definition components_are (g : Graph) (ds : list DefaultGraph) : Prop :=
  exists n, forall fuel, n <= fuel -> c_collect fuel g (components g) = Ok ds.

(** [components(g).collect()] panics because an [expect] met the error [e]. *)
Definition components_panic (g : Graph) (e : error) : Prop :=
  exists n, forall fuel, n <= fuel -> c_collect fuel g (components g) = Panic (PUnwrap e).

(** [d] is a nonempty connected subgraph of [g]. *)
Definition connected_subgraph (d : DefaultGraph) (g : Graph) : Prop :=
  g_nodes (as_graph d) <> [] /\
  (forall v, v ∈ g_nodes (as_graph d) -> v ∈ g_nodes g) /\
  (forall u v, adj (as_graph d) u v -> adj g u v) /\
  (forall u v, u ∈ g_nodes (as_graph d) -> v ∈ g_nodes (as_graph d) -> reachable (as_graph d) u v).

(** ** Inputs of the conversions *)

(** The entries above the diagonal, row by row from row number [k] on, as
    pairs (row, entry). *)
Fixpoint upper_entries (k : nat) (rows : list (list N)) : list (N * N) :=
  match rows with
  | [] => []
  | r :: rows' =>
      ((N.of_nat k,.) <$> filter (fun t => (N.of_nat k < t)%N) r) ++ upper_entries (S k) rows'
  end.

(** What [try_from(adjacency)] must accept: every entry is a row index, rows do
    not repeat entries, entries are mutual. *)
Definition valid_rows (rows : list (list N)) : Prop :=
  forall i r, rows !! i = Some r ->
    NoDup r /\ forall t, t ∈ r -> exists r', rows !! N.to_nat t = Some r' /\ N.of_nat i ∈ r'.

(** The defect of entry number [j] of row number [i], if it has one. *)
Definition entry_defect (rows : list (list N)) (i j : nat) : option error :=
  match rows !! i with
  | None => None
  | Some r =>
  match r !! j with
  | None => None
  | Some t =>
      match rows !! N.to_nat t with
      | None => Some (MissingNode t)
      | Some r' =>
          if bool_decide (t ∈ drop (S j) r) then Some (DuplicateEdge (N.of_nat i) t)
          else if bool_decide (N.of_nat i ∈ r') then None
          else Some (MissingEdge t (N.of_nat i))
      end
  end end.

(** Entry [(i',j')] comes before [(i,j)] in row-major order. *)
Definition entry_before (i' j' i j : nat) : Prop := i' < i \/ (i' = i /\ j' < j).

(** No undirected edge occurs twice in a list. *)
Definition distinct_edges (es : list (N * N)) : Prop :=
  forall i j e f, es !! i = Some e -> es !! j = Some f -> same_edge e f -> i = j.

(** The elements of a list in order of first occurrence. *)
Definition first_mentions (l : list N) : list N :=
  foldl (fun acc x => if bool_decide (x ∈ acc) then acc else acc ++ [x]) [] l.

Definition endpoints (M : list (N * N)) : list N := M ≫= (fun e => [e.1; e.2]).

(** ** Matchings *)

(** A matching: a list of edges of the graph no two of which share a node. *)
Definition matching (g : Graph) (M : list (N * N)) : Prop :=
  (forall u v, (u, v) ∈ M -> adj g u v) /\ NoDup (endpoints M).

(** A matching that no other matching beats. *)
Definition maximum (g : Graph) (M : list (N * N)) : Prop :=
  matching g M /\ forall M', matching g M' -> length M' <= length M.

(** A matching that no edge of the graph can be added to. *)
Definition maximal (g : Graph) (M : list (N * N)) : Prop :=
  matching g M /\
  forall u v, u <> v -> adj g u v -> u ∈ endpoints M \/ v ∈ endpoints M.

(** A matching that covers every node. *)
Definition perfect (g : Graph) (M : list (N * N)) : Prop :=
  matching g M /\ forall v, v ∈ g_nodes g -> v ∈ endpoints M.

(** A [Pairing] is a symmetric, irreflexive mate relation ... *)
Definition symmetric_pairing (p : Pairing) : Prop :=
  forall u v, p !! u = Some v -> p !! v = Some u /\ u <> v.

(** ... all of whose pairs are edges of [g]. *)
Definition pairing_of (g : Graph) (p : Pairing) : Prop :=
  symmetric_pairing p /\ forall u v, p !! u = Some v -> adj g u v.

(** A mate relation that may pair a node with itself. *)
Definition mutual (p : Pairing) : Prop := forall x y, p !! x = Some y -> p !! y = Some x.

(** Pairs made one after another, starting from [Pairing::new()]. *)
Definition pair_all (pairs : list (N * N)) : Pairing :=
  foldl (fun p e => p_pair p e.1 e.2) p_new pairs.

(** The items [edges()] yields when the hash map iterates its entries in the
    order [entries]. *)
Definition listed_edges (p : Pairing) (M : list (N * N)) : Prop :=
  exists entries, entries ≡ₚ map_to_list p /\ M = p_edges_of entries.

(** [path] is an augmenting path for [p], as far as the pairing is concerned:
    no node twice, an even number of nodes, both ends unpaired, all other
    nodes paired with nodes of the path. *)
Definition augments (p : Pairing) (path : list N) : Prop :=
  NoDup path /\ Nat.even (length path) = true /\
  (forall x, head path = Some x \/ last path = Some x -> p !! x = None) /\
  (forall x, x ∈ path -> head path <> Some x -> last path <> Some x ->
     exists y, y ∈ path /\ p !! x = Some y).

(** [greedy(g)] returns [p]. *)
Definition greedy_is (g : Graph) (p : Pairing) : Prop :=
  exists n, forall fuel, n <= fuel -> greedy fuel g = Ok p.
(** ... or panics because an [expect] met the error [e]. *)
Definition greedy_panic (g : Graph) (e : error) : Prop :=
  exists n, forall fuel, n <= fuel -> greedy fuel g = Panic (PUnwrap e).

(** Some step joins [u] and [v], and among the steps before it none starts at
    [u] or [v] and none that ends there joins two mates of [p]. *)
Definition taken (steps : list Step) (p : Pairing) (u v : N) : Prop :=
  exists before s after, steps = before ++ s :: after /\
    ((u, v) = (sid s, tid s) \/ (u, v) = (tid s, sid s)) /\
    forall s', s' ∈ before -> sid s' <> u /\ sid s' <> v /\
      (tid s' = u \/ tid s' = v -> p !! sid s' <> Some (tid s')).

(** [h] is [g] with every node [v] called [f v] instead: nodes and neighbors
    come in the same order.  (The two may list their edges in different orders
    and directions.) *)
Definition renamed (f : N -> N) (g h : Graph) : Prop :=
  (forall u v, u ∈ g_nodes g -> v ∈ g_nodes g -> f u = f v -> u = v) /\
  g_nodes h = f <$> g_nodes g /\
  forall v l, g_neighbors g v = Ok l -> g_neighbors h (f v) = Ok (f <$> l).

Definition rename_step (f : N -> N) (s : Step) : Step := mkStep (f (sid s)) (f (tid s)) (cut s).

(** [maximum_matching(g, &mut p)] ends like [m] (returns with the final
    pairing, or panics) when hash maps iterate as [iter] says. *)
Definition matching_run (iter : hash_order) (g : Graph) (p : Pairing) (m : comp Pairing) : Prop :=
  m <> NoFuel /\ exists n, forall fuel, n <= fuel -> maximum_matching iter [] fuel g p = m.

(** ... never ends. *)
Definition matching_diverges (iter : hash_order) (g : Graph) (p : Pairing) : Prop :=
  forall fuel, maximum_matching iter [] fuel g p = NoFuel.

(** The same two for a build without overflow checks (cargo's release
    profile). *)
Definition release_run (iter : hash_order) (g : Graph) (p : Pairing) (m : comp Pairing) : Prop :=
  m <> NoFuel /\ exists n, forall fuel, n <= fuel -> maximum_matching_release iter [] fuel g p = m.
Definition release_diverges (iter : hash_order) (g : Graph) (p : Pairing) : Prop :=
  forall fuel, maximum_matching_release iter [] fuel g p = NoFuel.

(** The search for an augmenting path, run on [g] and [p], ends with [o]
    (wherever in the program it is called). *)
Definition search_is (iter : hash_order) (g : Graph) (p : Pairing) (o : option (list N)) : Prop :=
  exists n, forall fuel tag, n <= fuel -> augmenting_path iter tag fuel g p = Ok o.

(** [augment] is called with the paths [paths], one after another, each the
    result of a search on the pairing at hand; then the search finds nothing
    and the pairing is [q]. *)
Inductive augmentations (iter : hash_order) (g : Graph) : Pairing -> list (list N) -> Pairing -> Prop :=
| aug_done p : search_is iter g p None -> augmentations iter g p [] p
| aug_step p path p1 paths q :
    search_is iter g p (Some path) -> p_augment p path = Ok p1 ->
    augmentations iter g p1 paths q -> augmentations iter g p (path :: paths) q.

(** The search panics. *)
Definition search_panics (iter : hash_order) (g : Graph) (p : Pairing) (e : panic) : Prop :=
  exists n, forall fuel tag, n <= fuel -> augmenting_path iter tag fuel g p = Panic e.

(** The plain loop "search, augment, repeat", after the rounds that used the
    paths [paths]. *)
Inductive rounds (iter : hash_order) (g : Graph) : Pairing -> list (list N) -> Pairing -> Prop :=
| rounds_none p : rounds iter g p [] p
| rounds_one p path p1 paths q :
    search_is iter g p (Some path) -> p_augment p path = Ok p1 ->
    rounds iter g p1 paths q -> rounds iter g p (path :: paths) q.

(** Nodes with a self-loop. *)
Definition looped (g : Graph) : list N := filter (fun v => g_has_edge g v v = Ok true) (g_nodes g).

(** All node ids are far enough below [usize::MAX]: by the number of nodes plus
    the number of self-loops. *)
Definition id_room (g : Graph) : Prop :=
  forall v, v ∈ g_nodes g ->
    (v + N.of_nat (length (g_nodes g) + length (looped g)) <= usize_max)%N.

(** [o] pairs nodes outside [g] only. *)
Definition apart (g : Graph) (o : Pairing) : Prop := forall x y, o !! x = Some y -> x ∉ g_nodes g.

(** No id in [xs] is just above the ids of [g]: each is below some node of [g],
    or far above every node; or else [g] has no odd cycle. *)
Definition ids_clear (g : Graph) (xs : N -> Prop) : Prop :=
  (forall c, ~ odd_cycle g c) \/
  forall x, xs x ->
    (exists v, v ∈ g_nodes g /\ (x <= v)%N) \/
    (forall v, v ∈ g_nodes g -> (v + N.of_nat (length (g_nodes g) + length (looped g)) < x)%N).

(** [for h in gs { maximum_matching(h, &mut p) }] takes [p] to [q]; each call
    has its own iteration orders. *)
Inductive matching_each : list Graph -> Pairing -> Pairing -> Prop :=
| each_nil p : matching_each [] p p
| each_cons iter h gs p p1 q :
    hash_order_ok iter -> matching_run iter h p (Ok p1) ->
    matching_each gs p1 q -> matching_each (h :: gs) p q.

(** [gs] are graphs without a common node that together are [g]. *)
Definition parts_of (g : Graph) (gs : list Graph) : Prop :=
  (gs ≫= g_nodes) ≡ₚ g_nodes g /\
  forall u v, adj g u v <-> exists h, h ∈ gs /\ adj h u v.

(** The nodes of earlier graphs of the list have ids clear of the later ones. *)
Definition ids_spaced (gs : list Graph) : Prop :=
  forall i j h h', i < j -> gs !! i = Some h -> gs !! j = Some h' ->
    ids_clear h' (fun x => x ∈ g_nodes h).

(** ** Graphs a user can build *)

(** Everything the public API can construct: [new], the three conversions,
    what [components] yields, and any sequence of edits (failed ones
    included). *)
Inductive Api : DefaultGraph -> Prop :=
| api_new : Api dg_new
| api_add_node d id : Api d -> Api (dg_add_node d id).1
| api_add_edge d s t : Api d -> Api (dg_add_edge d s t).1
| api_adjacency rows d : dg_try_from_adjacency rows = Ok d -> Api d
| api_edges es d : dg_try_from_edges es = Ok d -> Api d
| api_dfs fuel g t d : dg_try_from_dfs fuel g t = Ok d -> Api d
| api_component fuel g c d c' : c_next fuel g c = Ok (Some d, c') -> Api d.

(** Graphs built by edits alone: [new] and any sequence of
    [add_node]/[add_edge] calls, or an edge list. *)
Inductive op := AddNode (id : N) | AddEdge (s t : N).

Definition run_op (d : DefaultGraph) (o : op) : DefaultGraph * comp unit :=
  match o with
  | AddNode id => dg_add_node d id
  | AddEdge s t => dg_add_edge d s t
  end.

(** The results returned along a call sequence, and the final graph. *)
Fixpoint run_ops (d : DefaultGraph) (ops : list op) : DefaultGraph * list (comp unit) :=
  match ops with
  | [] => (d, [])
  | o :: ops' =>
      let r := run_op d o in
      let rs := run_ops r.1 ops' in
      (rs.1, r.2 :: rs.2)
  end.

(** *** The abstract graph: what the call sequence means *)

Record agraph := mkA { a_nodes : list N; a_edges : list (N * N) }.

Definition a_result (a : agraph) (o : op) : comp unit :=
  match o with
  | AddNode id => if bool_decide (id ∈ a_nodes a) then Err (DuplicateNode id) else Ok tt
  | AddEdge s t =>
      if bool_decide (s ∉ a_nodes a) then Err (MissingNode s)
      else if bool_decide (t ∉ a_nodes a) then Err (MissingNode t)
      else if bool_decide ((s, t) ∈ a_edges a \/ (t, s) ∈ a_edges a)
      then Err (DuplicateEdge s t)
      else Ok tt
  end.

Definition a_step (a : agraph) (o : op) : agraph :=
  match a_result a o, o with
  | Ok _, AddNode id => mkA (a_nodes a ++ [id]) (a_edges a)
  | Ok _, AddEdge s t => mkA (a_nodes a) (a_edges a ++ [(s, t)])
  | _, _ => a
  end.

Fixpoint a_results (a : agraph) (ops : list op) : list (comp unit) :=
  match ops with
  | [] => []
  | o :: ops' => a_result a o :: a_results (a_step a o) ops'
  end.

Definition a_run (ops : list op) : agraph := foldl a_step (mkA [] []) ops.

(** Neighbors of [v], in the order the edges at [v] were added. *)
Definition a_neighbors (a : agraph) (v : N) : list N :=
  a_edges a ≫= (fun e =>
    (if bool_decide (e.1 = v) then [e.2] else []) ++
    (if bool_decide (e.2 = v) then [e.1] else [])).

(** All nine queries answer as the abstract graph says. *)
Definition observes (d : DefaultGraph) (a : agraph) : Prop :=
  let g := as_graph d in
  g_nodes g = a_nodes a /\
  g_edges g = a_edges a /\
  g_order g = length (a_nodes a) /\
  g_size g = length (a_edges a) /\
  g_is_empty g = bool_decide (a_nodes a = []) /\
  (forall v, g_has_node g v = bool_decide (v ∈ a_nodes a)) /\
  (forall v, g_neighbors g v =
     if bool_decide (v ∈ a_nodes a) then Ok (a_neighbors a v) else Err (MissingNode v)) /\
  (forall v, g_degree g v =
     if bool_decide (v ∈ a_nodes a) then Ok (length (a_neighbors a v)) else Err (MissingNode v)) /\
  (forall u v, g_has_edge g u v =
     if bool_decide (u ∉ a_nodes a) then Err (MissingNode u)
     else if bool_decide (v ∉ a_nodes a) then Err (MissingNode v)
     else Ok (bool_decide ((u, v) ∈ a_edges a \/ (v, u) ∈ a_edges a))).

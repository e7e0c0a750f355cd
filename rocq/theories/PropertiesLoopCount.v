(** Property C90: how many steps a traversal makes, self-loops included. *)
From Verif Require Import Outcome GraphModel TraversalModel ComponentsModel PairingModel GreedyModel
  Spec SpecAdvance GraphProofs Checks EditProofs ConvertProofs EqProofs TraversalProofs BfsProofs DfsProofs
  PathLemmas AcyclicProofs CycleProofs NarrowProofs ComponentsProofs AdvanceProofs MemoryProofs LoopProofs LoopCountProofs PropertiesTraversal PropertiesSelection
  PropertiesLoops.

(** The edges that [edges()] lists between nodes of [D] (for a union of
    components [D]: one end in [D] is enough). *)
Definition edges_at (g : Graph) (D : list N) : list (N * N) := filter (fun e => e.1 ∈ D) (g_edges g).
(** The nodes of [D] with a self-loop. *)
Definition loops_at (g : Graph) (D : list N) : list N := filter (fun v => v ∈ D) (looped g).

(** C90.  A breadth-first traversal crosses the self-loop of every node of the
    root's component as often as the node lists itself as a neighbor. *)
Theorem C90_breadth_first_self_loops g (Hg : Lawful g) r steps : breadth_first g r steps ->
  forall v, reachable g r v -> times_crossed (v, v) (crossed steps) = own_entries g v.
Proof.
  intros Hb v Hv. apply (bfs_loops g r steps Hg Hb). by apply (bfs_component g r steps Hg Hb).
Qed.
Print Assumptions C90_breadth_first_self_loops.

(** On a graph that the API built it makes one step per edge of the component
    plus one per self-loop, so that the cut steps exceed the circuit rank by
    the number of self-loops. *)
Theorem C90_breadth_first_steps d (Hd : Api d) r steps : breadth_first (as_graph d) r steps ->
  let D := discovered r steps in
  length steps = length (edges_at (as_graph d) D) + length (loops_at (as_graph d) D) /\
  length (filter (fun s => cut s = true) steps) + length D =
    length (edges_at (as_graph d) D) + length (loops_at (as_graph d) D) + 1.
Proof.
  intros Hb D. pose proof (api_lawful d Hd) as Hg.
  destruct (bfs_component _ r steps Hg Hb) as [Hnd Hcomp]. destruct (bfs_facts _ r steps Hg Hb) as (V & HT & _ & _).
  assert (Hn : forall v, v ∈ D -> v ∈ g_nodes (as_graph d)).
  { intros v Hv%Hcomp. by eapply reachable_node; [|apply (bfs_root _ r steps Hg Hb)|]. }
  pose proof (bfs_steps_count _ r steps Hg Hb) as H. fold D in H.
  rewrite (api_sum d D Hd Hnd Hn) in H. split; [done|].
  unfold edges_at, loops_at. rewrite <-H. unfold D, discovered. cbn [length]. rewrite fmap_length.
  pose proof (length_cut_split steps). lia.
Qed.
Print Assumptions C90_breadth_first_steps.

(** A depth-first traversal makes at most that many, and exactly that many if
    none of the discovered nodes lies on a cycle. *)
Theorem C90_depth_first_steps d (Hd : Api d) r steps : depth_first (as_graph d) r steps ->
  let D := discovered r steps in
  length steps <= length (edges_at (as_graph d) D) + length (loops_at (as_graph d) D) /\
  ((forall v, v ∈ D -> ~ on_cycle (as_graph d) v) ->
   length steps = length (edges_at (as_graph d) D) + length (loops_at (as_graph d) D)).
Proof.
  intros Hb D. pose proof (api_lawful d Hd) as Hg.
  destruct (dfs_sound _ r steps Hg Hb) as (_ & Hnd & _). destruct (dfs_facts _ r steps Hg Hb) as (V & HT).
  assert (Hn : forall v, v ∈ D -> v ∈ g_nodes (as_graph d)).
  { intros v Hv%(ti_disc _ _ _ _ _ HT)%(ti_reach _ _ _ _ _ HT).
    by eapply reachable_node; [|apply (dfs_root _ r steps Hg Hb)|]. }
  pose proof (dfs_steps_count _ r steps Hg Hb) as H. fold D in H.
  rewrite (api_sum d D Hd Hnd Hn) in H. exact H.
Qed.
Print Assumptions C90_depth_first_steps.

(** In a component without cycles, with or without self-loops, a depth-first
    traversal visits every node. *)
Theorem C90_depth_first_component g (Hg : Lawful g) r steps : depth_first g r steps ->
  (forall v, reachable g r v -> ~ on_cycle g v) ->
  NoDup (discovered r steps) /\ forall v, v ∈ discovered r steps <-> reachable g r v.
Proof.
  intros Hd Hc. split; [by apply (dfs_sound g r steps Hg Hd)|by apply dfs_reaches_off_cycle].
Qed.
Print Assumptions C90_depth_first_component.

(** At any moment: the pending edges and the steps made so far are together at
    most as many as edges and self-loops; a breadth-first traversal owes or
    has made exactly the crossings of every discovered self-loop. *)
Theorem C90_depth_first_memory d (Hd : Api d) r k outs t : dfs_after (as_graph d) r k outs t ->
  let steps := omap id outs in
  length steps + length (df_stack t) <= g_size (as_graph d) + length (looped (as_graph d)) /\
  (forall u v, u <> v -> times_crossed (u, v) (crossed steps ++ df_stack t) <= 1) /\
  (forall v, v ∈ discovered r steps ->
     times_crossed (v, v) (crossed steps ++ df_stack t) <= own_entries (as_graph d) v).
Proof.
  intros Ha steps. pose proof (api_lawful d Hd) as Hg. destruct (dfs_after_inv _ r k outs t Hg Ha) as [Hr HT].
  pose proof (dfs_after_counted _ r k outs t Hg Ha) as Hc. split_and!.
  - rewrite <-(api_held d Hd). by apply (held_bound _ r _ (df_nodes t)).
  - apply (ti_once _ _ _ _ _ HT).
  - intros v Hv. apply Hc. by apply (ti_disc _ _ _ _ _ HT).
Qed.
Print Assumptions C90_depth_first_memory.

Theorem C90_breadth_first_memory d (Hd : Api d) r k outs t : bfs_after (as_graph d) r k outs t ->
  let steps := omap id outs in
  length steps + length (bf_queue t) <= g_size (as_graph d) + length (looped (as_graph d)) /\
  (forall u v, u <> v -> times_crossed (u, v) (crossed steps ++ bf_queue t) <= 1) /\
  (forall v, v ∈ discovered r steps ->
     times_crossed (v, v) (crossed steps ++ bf_queue t) = own_entries (as_graph d) v).
Proof.
  intros Ha steps. pose proof (api_lawful d Hd) as Hg. destruct (bfs_after_inv _ r k outs t Hg Ha) as [Hr HT].
  pose proof (bfs_after_counted _ r k outs t Hg Ha) as Hc. split_and!.
  - rewrite <-(api_held d Hd). apply (held_bound _ r _ (bf_nodes t)); [done..|].
    intros v Hv. by apply Nat.eq_le_incl, Hc.
  - apply (ti_once _ _ _ _ _ HT).
  - intros v Hv. apply Hc. by apply (ti_disc _ _ _ _ _ HT).
Qed.
Print Assumptions C90_breadth_first_memory.

(** A path 2-0-1 with a listed self-loop at 1; a path 0-1-2 with unlisted ones
    at 0 and 2; both traversals. *)
Lemma eyes_no_cycle v : ~ on_cycle (as_graph eyes) v.
Proof.
  assert (Hends : forall x, x = 0%N \/ x = 2%N -> ~ on_cycle (as_graph eyes) x).
  { intros x [->| ->] (c & Hc & Hin).
    - destruct (cycle_two _ c 0%N (api_lawful _ eyes_api) Hc Hin)
        as (a & b & Hab & Ha1 & Hb1 & _ & _ & (l & Hl & Ha) & (l' & Hl' & Hb)).
      vm_compute in Hl, Hl'. simplify_eq. rewrite !elem_of_cons, elem_of_nil in Ha, Hb. naive_solver.
    - destruct (cycle_two _ c 2%N (api_lawful _ eyes_api) Hc Hin)
        as (a & b & Hab & Ha1 & Hb1 & _ & _ & (l & Hl & Ha) & (l' & Hl' & Hb)).
      vm_compute in Hl, Hl'. simplify_eq. rewrite !elem_of_cons, elem_of_nil in Ha, Hb. naive_solver. }
  intros Hv. assert (Hv0 := Hv). destruct Hv as (c & Hc & Hin).
  destruct (cycle_two _ c v (api_lawful _ eyes_api) Hc Hin)
    as (a & b & Hab & Ha1 & Hb1 & Hac & Hbc & (l & Hl & Ha) & _).
  assert (Hn : v ∈ g_nodes (as_graph eyes)).
  { eapply law_adj_node; [apply api_lawful, eyes_api|]. apply law_adj_sym; [apply api_lawful, eyes_api|]. by exists l. }
  assert (g_nodes (as_graph eyes) = [0; 1; 2; 3]%N) as E by (vm_compute; reflexivity). rewrite E in Hn.
  rewrite !elem_of_cons, elem_of_nil in Hn. destruct Hn as [->|[->|[->|[->|[]]]]].
  - by apply (Hends 0%N); [left|].
  - vm_compute in Hl. injection Hl as <-. rewrite !elem_of_cons, elem_of_nil in Ha.
    apply (Hends a); [tauto|]. by exists c.
  - by apply (Hends 2%N); [right|].
  - vm_compute in Hl. injection Hl as <-. by apply elem_of_nil in Ha.
Qed.

Example C90_case :
  Api loopy /\ Api eyes /\
  breadth_first (as_graph loopy) 0
    [mkStep 0 1 false; mkStep 0 2 false; mkStep 1 1 true; mkStep 1 1 true]%N /\
  length (edges_at (as_graph loopy) [0; 1; 2]%N) = 3 /\ loops_at (as_graph loopy) [0; 1; 2]%N = [1]%N /\
  breadth_first (as_graph eyes) 1
    [mkStep 1 2 false; mkStep 1 0 false; mkStep 2 2 true; mkStep 0 0 true]%N /\
  depth_first (as_graph eyes) 1
    [mkStep 1 2 false; mkStep 2 2 true; mkStep 1 0 false; mkStep 0 0 true]%N /\
  length (edges_at (as_graph eyes) [1; 2; 0]%N) = 2 /\ loops_at (as_graph eyes) [1; 2; 0]%N = [0; 2]%N /\
  (forall v, ~ on_cycle (as_graph eyes) v).
Proof.
  split; [apply loopy_api|]. split; [apply eyes_api|]. split; [run_bfs|].
  split; [vm_compute; reflexivity|]. split; [vm_compute; reflexivity|]. split; [run_bfs|]. split; [run_dfs|].
  split; [vm_compute; reflexivity|]. split; [vm_compute; reflexivity|].
  exact eyes_no_cycle.
Qed.

(** The bound is reached: two steps made, two crossings of the self-loop owed,
    three edges and one self-loop. *)
Example C90_memory_case :
  (exists t, bfs_after (as_graph loopy) 0 2 [Some (mkStep 0 1 false); Some (mkStep 0 2 false)]%N t /\
     bf_queue t = [(1, 1); (1, 1)]%N) /\
  (exists t, dfs_after (as_graph loopy) 0 1 [Some (mkStep 0 1 false)]%N t /\
     df_stack t = [(1, 1); (1, 1); (0, 2)]%N) /\
  g_size (as_graph loopy) = 3 /\ looped (as_graph loopy) = [1]%N.
Proof.
  split_and!; [| |vm_compute; reflexivity..].
  - eexists. split; [eexists; split; vm_compute; reflexivity|vm_compute; reflexivity].
  - eexists. split; [eexists; split; vm_compute; reflexivity|vm_compute; reflexivity].
Qed.

(** C30, C31 with self-loops: on a graph without cycles [components] returns
    if and only if no node lists itself twice (for graphs that the API built:
    no self-loop is listed by [edges()]), otherwise it panics with
    DuplicateEdge(v, v) for such a node; if it returns, it yields the connected
    components, self-loops included. *)
Theorem C31_cycle_free g (Hg : Lawful g) : (forall v, ~ on_cycle g v) ->
  ((exists ds, components_are g ds) <-> forall v, own_entries g v <= 1) /\
  ((exists v, components_panic g (DuplicateEdge v v) /\ 2 <= own_entries g v) <->
   exists v, 2 <= own_entries g v).
Proof. exact (components_cycle_free_returns g Hg). Qed.
Print Assumptions C31_cycle_free.

Theorem C30_components_cycle_free_partial g (Hg : Lawful g) ds : (forall v, ~ on_cycle g v) ->
  components_are g ds ->
  (ds ≫= (fun d => g_nodes (as_graph d))) ≡ₚ g_nodes g /\
  (forall d u v, d ∈ ds -> u ∈ g_nodes (as_graph d) ->
     (v ∈ g_nodes (as_graph d) <-> reachable g u v)) /\
  (forall d u v, d ∈ ds -> u ∈ g_nodes (as_graph d) -> (adj (as_graph d) u v <-> adj g u v)) /\
  (exists roots, (fun d => head (g_nodes (as_graph d))) <$> ds = Some <$> roots /\
     sublist roots (g_nodes g)) /\
  (forall d r i j v, d ∈ ds -> head (g_nodes (as_graph d)) = Some r ->
     g_nodes g !! i = Some r -> g_nodes g !! j = Some v -> v ∈ g_nodes (as_graph d) -> i <= j).
Proof. intros Hc. apply components_whole_loops; [done|by apply cycle_free_whole]. Qed.
Print Assumptions C30_components_cycle_free_partial.

(** The path with two unlisted self-loops and an isolated node: two graphs,
    with the self-loops. *)
Example C30_C31_loop_case :
  Lawful (as_graph eyes) /\ (forall v, ~ on_cycle (as_graph eyes) v) /\
  (let! ds := c_collect 50 (as_graph eyes) (components (as_graph eyes)) in
   Ok (map (fun d => (dg_nodes d, dg_edges d)) ds)) =
    Ok [([0; 1; 2], [(0, 0); (0, 1); (1, 2); (2, 2)]); ([3], [])]%N.
Proof.
  split; [apply api_lawful, eyes_api|]. split; [exact eyes_no_cycle|]. vm_compute. reflexivity.
Qed.

(** C37: a self-loop blocks its node for [greedy]: an edge 0-1 with an unlisted
    self-loop at 0 stays uncovered, although the graph has no cycle. *)
Definition blocked : DefaultGraph := get (dg_try_from_adjacency [[0; 1]; [0]]%N).
Lemma blocked_api : Api blocked. Proof. apply get_rows_api; is_ok. Qed.
Lemma blocked_no_cycle v : ~ on_cycle (as_graph blocked) v.
Proof.
  intros (c & Hc & Hin).
  destruct (cycle_two _ c v (api_lawful _ blocked_api) Hc Hin) as (a & b & Hab & Hav & Hbv & _ & _ & Ha & Hb).
  assert (Hn : forall x y, adj (as_graph blocked) x y -> y = 0%N \/ y = 1%N).
  { intros x y H%(law_adj_node _ (api_lawful _ blocked_api)).
    assert (g_nodes (as_graph blocked) = [0; 1]%N) as E by (vm_compute; reflexivity). rewrite E in H.
    rewrite !elem_of_cons, elem_of_nil in H. tauto. }
  pose proof (Hn _ _ Ha). pose proof (Hn _ _ Hb).
  pose proof (Hn _ _ (law_adj_sym _ (api_lawful _ blocked_api) _ _ Ha)). intuition congruence.
Qed.

Theorem C37_greedy_self_loop_refuted :
  exists d p u v, Api d /\ (forall x, ~ on_cycle (as_graph d) x) /\ greedy_is (as_graph d) p /\
    u <> v /\ adj (as_graph d) u v /\ p !! u = None /\ p !! v = None.
Proof.
  exists blocked, p_new, 0%N, 1%N. split; [apply blocked_api|]. split; [exact blocked_no_cycle|].
  split.
  { exists 12. intros fuel Hf. do 12 (destruct fuel as [|fuel]; [lia|]). vm_compute. reflexivity. }
  split; [done|]. split; [|split; vm_compute; reflexivity].
  eexists. split; [vm_compute; reflexivity|]. tb_in.
Qed.
Print Assumptions C37_greedy_self_loop_refuted.

(** On a graph without cycles [greedy] returns exactly when no self-loop is
    listed, and an edge stays uncovered only beside a node with a self-loop. *)
Theorem C37_greedy_cycle_free_partial g (Hg : Lawful g) : (forall v, ~ on_cycle g v) ->
  ((exists p, greedy_is g p) <-> forall v, own_entries g v <= 1) /\
  (forall p, greedy_is g p -> pairing_of g p /\
     forall u v, u <> v -> adj g u v ->
       is_Some (p !! u) \/ is_Some (p !! v) \/ adj g u u \/ adj g v v).
Proof.
  intros Hc. destruct (greedy_cycle_free_returns g Hg Hc) as [H1 H2]. split; [done|].
  intros p Hp. split; [by apply H2|]. by apply greedy_cycle_free.
Qed.
Print Assumptions C37_greedy_cycle_free_partial.

(** The path with two unlisted self-loops: the first edge is not taken because
    of the self-loop at 0, the second one is paired; without the self-loop at 0
    the first edge is. *)
Example C37_loops_case :
  (forall v, ~ on_cycle (as_graph eyes) v) /\
  (let! p := greedy 50 (as_graph eyes) in Ok (map (fun x => p !! x) [0; 1; 2; 3]%N)) =
    Ok [None; Some 2; Some 1; None]%N /\
  (let! p := greedy 50 (as_graph (get (dg_try_from_adjacency [[1]; [0; 2]; [1; 2]]%N))) in
   Ok (map (fun x => p !! x) [0; 1; 2]%N)) = Ok [Some 1; Some 0; None]%N.
Proof. split; [exact eyes_no_cycle|]. split; vm_compute; reflexivity. Qed.

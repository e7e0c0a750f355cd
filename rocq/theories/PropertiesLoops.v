(** Properties about self-loops: C28, C31, C36 and C58 on every lawful graph. *)
From Verif Require Import Outcome GraphModel TraversalModel ComponentsModel PairingModel GreedyModel
  Spec SpecAdvance GraphProofs Checks EditProofs ConvertProofs EqProofs TraversalProofs BfsProofs DfsProofs
  PathLemmas AcyclicProofs CycleProofs NarrowProofs ComponentsProofs PairingProofs GreedyProofs
  LoopProofs PropertiesTraversal PropertiesSelection.

(** A graph that the API built lists a self-loop of [edges()] twice at its
    node, and one that [edges()] does not list once. *)
Theorem C58_own_entries d (Hd : Api d) v :
  own_entries (as_graph d) v =
  if bool_decide ((v, v) ∈ g_edges (as_graph d)) then 2
  else if bool_decide (g_has_edge (as_graph d) v v = Ok true) then 1 else 0.
Proof. exact (api_own_entries d v Hd). Qed.
Print Assumptions C58_own_entries.

(** C58: a self-loop is crossed at most as often as its node lists itself, and
    exactly that often off the cycles. *)
Theorem C58_depth_first_self_loops g (Hg : Lawful g) r steps : depth_first g r steps ->
  (forall v, times_crossed (v, v) (crossed steps) <= own_entries g v) /\
  (forall v, v ∈ discovered r steps -> ~ on_cycle g v ->
     times_crossed (v, v) (crossed steps) = own_entries g v).
Proof.
  intros Hd. split; intros v; [|intros Hv Hc]; destruct (dfs_loops g r steps Hg Hd v) as [H1 H2]; [done|].
  by destruct (H2 Hv).
Qed.
Print Assumptions C58_depth_first_self_loops.

(** A path 2-0-1 with a self-loop at its end, given by an edge list. *)
Definition loopy : DefaultGraph := get (dg_try_from_edges [(0, 1); (0, 2); (1, 1)]%N).
Lemma loopy_api : Api loopy. Proof. apply get_edges_api; is_ok. Qed.
(** Loops at 0 and 2 given by adjacency lists. *)
Definition eyes : DefaultGraph := get (dg_try_from_adjacency [[0; 1]; [2; 0]; [1; 2]; []]%N).
Lemma eyes_api : Api eyes. Proof. apply get_rows_api; is_ok. Qed.

Lemma eyes_edges v : (v, v) ∉ g_edges (as_graph eyes).
Proof.
  assert (g_edges (as_graph eyes) = [(0, 1); (1, 2)]%N) as -> by (vm_compute; reflexivity).
  rewrite !elem_of_cons, elem_of_nil. intros [|[|]]; congruence.
Qed.

Example C58_loop_case :
  depth_first (as_graph loopy) 0
    [mkStep 0 1 false; mkStep 1 1 true; mkStep 1 1 true; mkStep 0 2 false]%N /\
  own_entries (as_graph loopy) 1 = 2 /\ own_entries (as_graph eyes) 2 = 1.
Proof. split; [run_dfs|]. split; vm_compute; reflexivity. Qed.

(** C28: with self-loops the conversion of a traversal fails exactly when the
    traversal crosses some self-loop twice, and then with DuplicateEdge of the
    first one it crosses again. *)
Theorem C28_dfs_to_graph_self_loops g (Hg : Lawful g) r (Hr : r ∈ g_nodes g) :
  exists steps, depth_first g r steps /\
    ((forall v, times_crossed (v, v) (crossed steps) <= 1) ->
      exists d, dfs_graph g r d /\
        observes d (mkA (if bool_decide (steps = []) then [] else discovered r steps) (crossed steps)) /\
        (g_nodes (as_graph d) = [] <-> g_neighbors g r = Ok []) /\
        (forall u v, adj (as_graph d) u v -> adj g u v) /\
        (forall v, v ∈ g_nodes (as_graph d) -> reachable (as_graph d) r v)) /\
    ((exists v, 2 <= times_crossed (v, v) (crossed steps)) ->
      exists v, dfs_graph_error g r (DuplicateEdge v v) /\ 2 <= times_crossed (v, v) (crossed steps) /\
        crossed_again steps v).
Proof.
  destruct (dfs_total g r Hg Hr) as (steps & Hb). exists steps. split; [done|].
  destruct (dfs_graph_gen g r steps Hg Hb) as [(d & Hd & HB & Hl)|(v & Hd & Hv & Ha)]; split.
  - intros _. exists d. pose proof HB as [Hwf He Hn Hrow _]. split_and!; try done.
    + by apply dbuilt_observes.
    + simpl. rewrite <-(dfs_nil g r steps Hg Hb), Hn. by destruct steps.
    + by eapply dbuilt_subgraph.
    + simpl. intros v Hv. eapply dbuilt_connected; [exact HB|by eapply dfs_cut_exact|].
      rewrite Hn in Hv. destruct steps; [by apply elem_of_nil in Hv|done].
  - intros (v & Hv). specialize (Hl v). lia.
  - intros H. specialize (H v). lia.
  - eauto.
Qed.
Print Assumptions C28_dfs_to_graph_self_loops.
Example C28_loop_case :
  (exists d, dfs_graph (as_graph eyes) 0 d /\ g_edges (as_graph d) = [(0, 0); (0, 1); (1, 2); (2, 2)]%N) /\
  dfs_graph_error (as_graph loopy) 0 (DuplicateEdge 1 1).
Proof.
  split.
  - destruct (C28_dfs_to_graph_self_loops _ (api_lawful _ eyes_api) 0) as (steps & Hd & Hok & _); [tb_in|].
    assert (Hs : depth_first (as_graph eyes) 0
      [mkStep 0 0 true; mkStep 0 1 false; mkStep 1 2 false; mkStep 2 2 true]%N) by run_dfs.
    rewrite (depth_first_fun _ _ _ _ Hd Hs) in Hok.
    destruct Hok as (d & Hdg & (_ & He & _) & _); [|by exists d].
    intros v. etrans; [by apply (dfs_loops _ 0 _ (api_lawful _ eyes_api) Hs v)|].
    rewrite C58_own_entries by apply eyes_api. rewrite bool_decide_eq_false_2.
    + case_bool_decide; lia.
    + apply eyes_edges.
  - destruct (C28_dfs_to_graph_self_loops _ (api_lawful _ loopy_api) 0) as (steps & Hd & _ & Hbad); [tb_in|].
    rewrite (depth_first_fun _ _ _ _ Hd (proj1 C58_loop_case)) in Hbad.
    destruct Hbad as (v & Hv & H2).
    + exists 1%N. vm_compute. lia.
    + assert (v = 1%N) as ->; [|done].
      destruct (decide (v = 1%N)) as [|Hne]; [done|exfalso].
      assert (times_crossed (v, v) (crossed [mkStep 0 1 false; mkStep 1 1 true; mkStep 1 1 true;
        mkStep 0 2 false]%N) = 0); [|lia].
      apply times_crossed_zero. intros f Hf.
      unfold crossed in Hf. simpl in Hf. rewrite !elem_of_cons, elem_of_nil in Hf.
      intros Hs. destruct Hf as [->|[->|[->|[->|[]]]]]; destruct Hs as [Hs|Hs]; simpl in Hs; congruence.
Qed.

(** C31: on every graph, self-loops included, [components] either returns and
    covers the graph with connected subgraphs (and then a node that lists
    itself twice lies on a cycle), or panics with DuplicateEdge(v, v) for a
    node v that lists itself twice. *)
Theorem C31_components_confined g (Hg : Lawful g) :
  (exists ds, components_are g ds /\
    (forall d, d ∈ ds -> connected_subgraph d g) /\
    (forall v, v ∈ g_nodes g -> exists d, d ∈ ds /\ v ∈ g_nodes (as_graph d)) /\
    (forall v, 2 <= own_entries g v -> on_cycle g v)) \/
  (exists v, components_panic g (DuplicateEdge v v) /\ 2 <= own_entries g v).
Proof. exact (components_confined g Hg). Qed.
Print Assumptions C31_components_confined.

(** Graphs whose self-loops all come from adjacency lists. *)
Theorem C31_unlisted_loops_partial d (Hd : Api d) (Hl : forall v, (v, v) ∉ g_edges (as_graph d)) :
  exists ds, components_are (as_graph d) ds /\
    (forall c, c ∈ ds -> connected_subgraph c (as_graph d)) /\
    (forall v, v ∈ g_nodes (as_graph d) -> exists c, c ∈ ds /\ v ∈ g_nodes (as_graph c)).
Proof.
  destruct (components_confined _ (api_lawful d Hd)) as [(ds & H1 & H2 & H3 & _)|(v & _ & Hv)];
    [by exists ds|].
  rewrite C58_own_entries, bool_decide_eq_false_2 in Hv by done. case_bool_decide; lia.
Qed.
Print Assumptions C31_unlisted_loops_partial.

(** A listed self-loop off the cycles always makes [components] panic. *)
Theorem C31_listed_loop_panics d (Hd : Api d) v :
  (v, v) ∈ g_edges (as_graph d) -> ~ on_cycle (as_graph d) v ->
  exists w, (w, w) ∈ g_edges (as_graph d) /\ components_panic (as_graph d) (DuplicateEdge w w).
Proof.
  intros Hv Hc. destruct (components_confined _ (api_lawful d Hd)) as [(_ & _ & _ & _ & H)|(w & Hw & H)].
  - exfalso. apply Hc, H. rewrite C58_own_entries, bool_decide_eq_true_2 by done. lia.
  - exists w. split; [|done]. rewrite C58_own_entries in H by done.
    case_bool_decide; [done|]. case_bool_decide; lia.
Qed.
Print Assumptions C31_listed_loop_panics.

(** A triangle whose self-loop comes last at its node: nothing is lost but the
    loop, and [components] returns. *)
Definition lucky : DefaultGraph := get (dg_try_from_edges [(0, 1); (0, 2); (1, 2); (0, 0)]%N).
Lemma lucky_api : Api lucky. Proof. apply get_edges_api; is_ok. Qed.

Example C31_case :
  (Api eyes /\ forall v, (v, v) ∉ g_edges (as_graph eyes)) /\
  ((1, 1)%N ∈ g_edges (as_graph loopy) /\ ~ on_cycle (as_graph loopy) 1) /\
  (2 <= own_entries (as_graph lucky) 0 /\ on_cycle (as_graph lucky) 0 /\
   exists ds, c_collect 50 (as_graph lucky) (components (as_graph lucky)) = Ok ds).
Proof.
  split_and!.
  - apply eyes_api.
  - apply eyes_edges.
  - assert (g_edges (as_graph loopy) = [(0, 1); (0, 2); (1, 1)]%N) as -> by (vm_compute; reflexivity).
    set_solver.
  - intros (c & Hc & Hin).
    destruct (cycle_two _ c 1%N (api_lawful _ loopy_api) Hc Hin) as (a & b & Hab & Ha1 & Hb1 & _ & _ & (l & Hl & Ha) & (l' & Hl' & Hb)).
    vm_compute in Hl, Hl'. simplify_eq. rewrite !elem_of_cons, elem_of_nil in Ha, Hb. naive_solver.
  - vm_compute. lia.
  - exists [0; 1; 2]%N. split; [|left]. split_and!.
    + simpl. lia.
    + apply (bool_decide_unpack _). vm_compute. exact I.
    + intros [|[|i]] a b Ha Hb; simpl in Ha, Hb; simplify_eq; eexists; (split; [vm_compute; reflexivity|set_solver]).
    + exists 0%N, 2%N. split_and!; [done|done|]. eexists. split; [vm_compute; reflexivity|set_solver].
  - eexists. vm_compute. reflexivity.
Qed.

(** C36: greedy on every graph, self-loops included: it returns a matching, or
    panics exactly as [components] does. *)
Theorem C36_greedy_self_loops g (Hg : Lawful g) :
  (exists p, greedy_is g p /\ pairing_of g p /\ (forall M, listed_edges p M -> matching g M) /\
     exists ds, components_are g ds) \/
  (exists v, greedy_panic g (DuplicateEdge v v) /\ components_panic g (DuplicateEdge v v) /\
     2 <= own_entries g v).
Proof.
  destruct (greedy_confined g Hg) as [(p & Hp & Hv & Hds)|?]; [left|by right].
  exists p. split_and!; [done|done| |done]. intros M (L & HL & ->). by eapply pairing_matching.
Qed.
Print Assumptions C36_greedy_self_loops.
Example C36_loop_case :
  greedy 50 (as_graph eyes) = Ok (pair_all [(1, 2)]%N) /\
  greedy 50 (as_graph loopy) = Panic (PUnwrap (DuplicateEdge 1 1)).
Proof. split; vm_compute; reflexivity. Qed.

(** Property C81: other components have no influence. *)
From Verif Require Import Outcome GraphModel TraversalModel ComponentsModel PairingModel GreedyModel
  Spec SpecPart GraphProofs Checks EditProofs ConvertProofs EqProofs TraversalProofs BfsProofs DfsProofs
  PathLemmas AcyclicProofs CycleProofs NarrowProofs ComponentsProofs PairingProofs GreedyProofs ReplayProofs LocalProofs
  PropertiesTraversal PropertiesSelection PropertiesMatching.

(** C81.  What a traversal does depends only on the neighbor lists of the nodes
    that can be reached from its root: it makes the same steps, is converted to
    the same graph and fails with the same error in any graph that agrees on
    these lists.  (The graphs need not obey any law.) *)
Theorem C81_traversals_local g h r :
  (forall v, reachable g r v -> g_neighbors h v = g_neighbors g v) ->
  (forall steps, depth_first h r steps <-> depth_first g r steps) /\
  (forall steps, breadth_first h r steps <-> breadth_first g r steps) /\
  (forall d, dfs_graph h r d <-> dfs_graph g r d) /\
  (forall e, dfs_graph_error h r e <-> dfs_graph_error g r e).
Proof.
  intros H. split_and!.
  - by apply depth_first_local.
  - by apply breadth_first_local.
  - by apply dfs_graph_local.
  - by apply dfs_graph_error_local.
Qed.
Print Assumptions C81_traversals_local.

(** The components of a part are those of the whole graph that lie in it, in the
    same order and identical in every detail; the others have no node in it. *)
Theorem C81_components_local g h (Hg : Lawful g) (Hh : Lawful h) ds :
  part_of g h -> components_are h ds ->
  components_are g (filter (inside g) ds) /\
  forall d, d ∈ ds -> inside g d \/ forall v, v ∈ g_nodes (as_graph d) -> v ∉ g_nodes g.
Proof. intros Hp Hds. by apply (part_components g h). Qed.
Print Assumptions C81_components_local.

(** [greedy] pairs the nodes of a part as if the rest were not there. *)
Theorem C81_greedy_local g h (Hg : Lawful g) (Hh : Lawful h) q :
  part_of g h -> greedy_is h q -> greedy_is g (pairs_within g q).
Proof. intros Hp Hq. by apply (part_greedy g h). Qed.
Print Assumptions C81_greedy_local.

(** A graph remains a part whatever nodes are added to it, and whatever edges
    between the added nodes (calls that fail included). *)
Theorem C81_added_elsewhere d ops : Api d ->
  (forall s t, AddEdge s t ∈ ops -> s ∉ g_nodes (as_graph d) /\ t ∉ g_nodes (as_graph d)) ->
  part_of (as_graph d) (as_graph (run_ops d ops).1).
Proof. intros Hd Hops. apply part_ops; [by apply api_wf|apply part_refl|done|done]. Qed.
Print Assumptions C81_added_elsewhere.

(** A triangle with a pendant node, and a path 10-11-12-13 mixed into it. *)
Definition mixed : DefaultGraph := get (dg_try_from_edges
  [(10, 11); (0, 1); (11, 12); (0, 2); (12, 13); (0, 3); (1, 2)]%N).
Lemma mixed_api : Api mixed. Proof. apply get_edges_api; is_ok. Qed.
Example C81_case : Lawful (as_graph pan) /\ Lawful (as_graph mixed) /\ LoopFree (as_graph mixed) /\
  part_of (as_graph pan) (as_graph mixed) /\ ~ inside (as_graph pan) mixed /\
  (forall v, reachable (as_graph pan) 0 v -> g_neighbors (as_graph mixed) v = g_neighbors (as_graph pan) v) /\
  depth_first (as_graph mixed) 0 [mkStep 0 1 false; mkStep 1 2 false; mkStep 2 0 true]%N /\
  greedy_is (as_graph mixed) (pair_all [(10, 11); (12, 13); (0, 1)]%N).
Proof.
  pose proof mixed_api as Hm.
  assert (Hg : Lawful (as_graph pan)) by apply api_lawful, pan_api.
  assert (Hh : Lawful (as_graph mixed)) by apply api_lawful, mixed_api.
  assert (Hp : part_of (as_graph pan) (as_graph mixed)).
  { split; [vm_compute; reflexivity|]. intros v Hv.
    assert (Hv' : v ∈ [0; 1; 2; 3]%N) by exact Hv.
    rewrite !elem_of_cons, elem_of_nil in Hv'. destruct Hv' as [->|[->|[->|[->|[]]]]]; vm_compute; reflexivity. }
  split; [done|]. split; [done|]. split; [no_loops|]. split; [done|].
  split; [apply (bool_decide_eq_false_1 _); vm_compute; reflexivity|].
  split; [apply part_local; [done|done|apply (bool_decide_eq_true_1 _); vm_compute; reflexivity]|].
  split; [run_dfs|].
  apply greedy_eval; [done|no_loops|vm_compute; lia|]. apply ends_ok. vm_compute. reflexivity.
Qed.

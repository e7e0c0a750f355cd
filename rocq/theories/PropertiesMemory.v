(** Property C83: what a traversal keeps in memory. *)
From Verif Require Import Outcome GraphModel TraversalModel ComponentsModel PairingModel
  Spec SpecAdvance GraphProofs Checks EditProofs ConvertProofs EqProofs TraversalProofs BfsProofs DfsProofs
  AdvanceProofs MemoryProofs PropertiesTraversal.

(** C83.  After any number of [next] calls, the pending edges of a depth-first
    traversal and the steps made so far are together no more than the edges of
    the graph; the pending edges are edges of the graph that leave discovered
    nodes, no two of them the same edge and none crossed by a step so far; the
    visited set holds exactly the discovered nodes. *)
Theorem C83_depth_first_memory g (Hg : Lawful g) (Hl : LoopFree g) r k outs t :
  dfs_after g r k outs t ->
  let steps := omap id outs in
  length steps + length (df_stack t) <= g_size g /\
  (forall u v, (u, v) ∈ df_stack t -> adj g u v /\ u ∈ discovered r steps) /\
  distinct_edges (crossed steps ++ df_stack t) /\
  (forall v, v ∈ df_nodes t <-> v ∈ discovered r steps) /\
  size (df_nodes t) <= g_order g.
Proof.
  intros Ha steps. destruct (dfs_after_inv g r k outs t Hg Ha) as [Hr HT]. split_and!.
  - by eapply pending_bound.
  - intros u v Huv. destruct (ti_pend _ _ _ _ _ HT u v Huv) as [? Hu]. split; [done|].
    by apply (ti_disc _ _ _ _ _ HT).
  - by eapply tinv_distinct.
  - apply (ti_disc _ _ _ _ _ HT).
  - by eapply visited_bound.
Qed.
Print Assumptions C83_depth_first_memory.

(** The same for a breadth-first traversal. *)
Theorem C83_breadth_first_memory g (Hg : Lawful g) (Hl : LoopFree g) r k outs t :
  bfs_after g r k outs t ->
  let steps := omap id outs in
  length steps + length (bf_queue t) <= g_size g /\
  (forall u v, (u, v) ∈ bf_queue t -> adj g u v /\ u ∈ discovered r steps) /\
  distinct_edges (crossed steps ++ bf_queue t) /\
  (forall v, v ∈ bf_nodes t <-> v ∈ discovered r steps) /\
  size (bf_nodes t) <= g_order g.
Proof.
  intros Ha steps. destruct (bfs_after_inv g r k outs t Hg Ha) as [Hr HT]. split_and!.
  - by eapply pending_bound.
  - intros u v Huv. destruct (ti_pend _ _ _ _ _ HT u v Huv) as [? Hu]. split; [done|].
    by apply (ti_disc _ _ _ _ _ HT).
  - by eapply tinv_distinct.
  - apply (ti_disc _ _ _ _ _ HT).
  - by eapply visited_bound.
Qed.
Print Assumptions C83_breadth_first_memory.

(** Two steps into the triangle with a pendant node, each. *)
Example C83_case : Lawful (as_graph pan) /\ LoopFree (as_graph pan) /\
  (exists t, dfs_after (as_graph pan) 0 2 [Some (mkStep 0 1 false); Some (mkStep 1 2 false)]%N t /\
     df_stack t = [(2, 0)]%N) /\
  (exists t, bfs_after (as_graph pan) 0 2 [Some (mkStep 0 1 false); Some (mkStep 0 2 false)]%N t /\
     bf_queue t = [(0, 3); (1, 2)]%N).
Proof.
  split; [apply api_lawful, pan_api|]. split; [apply pan_loop_free|]. split.
  - eexists. split; [eexists; split; vm_compute; reflexivity|vm_compute; reflexivity].
  - eexists. split; [eexists; split; vm_compute; reflexivity|vm_compute; reflexivity].
Qed.

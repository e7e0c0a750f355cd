(** Properties C15-C28: traversals.  All theorems are about every lawful
    implementation of the [Graph] trait; [C07_api_lawful] shows that every
    [DefaultGraph] is one. *)
From Verif Require Import Outcome GraphModel TraversalModel ComponentsModel PairingModel Spec
  GraphProofs Checks EditProofs ConvertProofs EqProofs TraversalProofs BfsProofs DfsProofs
  PathLemmas AcyclicProofs BfsOrder CycleProofs NarrowProofs.

(** The graphs used to show that hypotheses can be met:
    a square with a diagonal and a separate edge, ... *)
Definition kite : DefaultGraph :=
  get (dg_try_from_edges [(0, 1); (1, 2); (2, 3); (3, 0); (0, 2); (7, 8)]%N).
Lemma kite_api : Api kite. Proof. apply get_edges_api; is_ok. Qed.
Lemma kite_loop_free : LoopFree (as_graph kite).
Proof. apply loop_free_check; [apply kite_api|vm_compute; reflexivity]. Qed.
(** ... a forest of two trees, ... *)
Definition twigs : DefaultGraph :=
  get (dg_try_from_edges [(0, 1); (1, 2); (1, 3); (3, 5); (0, 4); (7, 8)]%N).
Lemma twigs_api : Api twigs. Proof. apply get_edges_api; is_ok. Qed.
Lemma twigs_acyclic : Acyclic (as_graph twigs).
Proof. apply forest_check; [apply twigs_api|vm_compute; reflexivity..]. Qed.
(** ... and a triangle with a pendant node. *)
Definition pan : DefaultGraph :=
  get (dg_try_from_adjacency [[1; 2; 3]; [0; 2]; [0; 1]; [0]]%N).
Lemma pan_api : Api pan. Proof. apply get_rows_api; is_ok. Qed.
Lemma pan_loop_free : LoopFree (as_graph pan).
Proof. apply loop_free_check; [apply pan_api|vm_compute; reflexivity]. Qed.

Ltac run_dfs := eapply (depth_first_run _ _ _ 50); vm_compute; reflexivity.
Ltac run_bfs := eapply (breadth_first_run _ _ _ 50); vm_compute; reflexivity.

(** C15: roots must be members. *)
Theorem C15_breadth_first_root g (Hg : Lawful g) r :
  if bool_decide (r ∈ g_nodes g) then exists t, bfs_new g r = Ok t
  else bfs_new g r = Err (MissingNode r).
Proof. rewrite (bfs_new_spec g r Hg). case_bool_decide; eauto. Qed.
Print Assumptions C15_breadth_first_root.
Theorem C15_depth_first_root g (Hg : Lawful g) r :
  if bool_decide (r ∈ g_nodes g) then exists t, dfs_new g r = Ok t
  else dfs_new g r = Err (MissingNode r).
Proof. rewrite (dfs_new_spec g r Hg). case_bool_decide; eauto. Qed.
Print Assumptions C15_depth_first_root.
Example C15_case : Lawful (as_graph kite) /\
  (7%N ∈ g_nodes (as_graph kite)) /\ bfs_new (as_graph kite) 9 = Err (MissingNode 9).
Proof.
  split; [apply api_lawful, kite_api|]. split; [|vm_compute; reflexivity].
  apply (bool_decide_eq_true (7%N ∈ g_nodes (as_graph kite))). vm_compute. reflexivity.
Qed.

(** C16: collecting with a limit on the number of [next] calls gives the
    same steps as soon as the limit exceeds their number, and never a panic;
    a traversal that has returned [None] keeps doing so. *)
Theorem C16_breadth_first_terminates g (Hg : Lawful g) r (Hr : r ∈ g_nodes g) :
  exists t steps, bfs_new g r = Ok t /\
    forall calls, bfs_collect calls g t = if length steps <? calls then Ok steps else NoFuel.
Proof. exact (bfs_calls g r Hg Hr). Qed.
Print Assumptions C16_breadth_first_terminates.
Theorem C16_breadth_first_fused g t t' :
  bfs_next g t = Ok (None, t') -> bfs_next g t' = Ok (None, t').
Proof. exact (bfs_fused g t t'). Qed.
Print Assumptions C16_breadth_first_fused.
Theorem C16_breadth_first_bound g (Hg : Lawful g) (Hl : LoopFree g) r steps :
  breadth_first g r steps -> length steps <= g_size g.
Proof. exact (bfs_bound g r steps Hg Hl). Qed.
Print Assumptions C16_breadth_first_bound.

(** C17: exactly the connected component, each node once (the root first,
    hence never the target of a non-cut step). *)
Theorem C17_breadth_first_component g (Hg : Lawful g) r steps :
  breadth_first g r steps ->
  NoDup (discovered r steps) /\
  forall v, v ∈ discovered r steps <-> reachable g r v.
Proof. exact (bfs_component g r steps Hg). Qed.
Print Assumptions C17_breadth_first_component.

(** C18: every edge of the component is crossed exactly once. *)
Theorem C18_breadth_first_crosses g (Hg : Lawful g) r steps :
  breadth_first g r steps ->
  (forall s, s ∈ steps -> adj g (sid s) (tid s)) /\
  forall u v, u <> v -> adj g u v -> reachable g r u ->
    times_crossed (u, v) (crossed steps) = 1.
Proof. exact (bfs_crosses g r steps Hg). Qed.
Print Assumptions C18_breadth_first_crosses.

(** C19: discovery in order of distance; non-cut steps form a shortest-path
    tree. *)
Theorem C19_breadth_first_distances g (Hg : Lawful g) r steps :
  breadth_first g r steps ->
  (forall i j u v du dv, i <= j ->
     discovered r steps !! i = Some u -> discovered r steps !! j = Some v ->
     distance g r u du -> distance g r v dv -> du <= dv) /\
  (forall s d, s ∈ steps -> cut s = false -> distance g r (sid s) d ->
     distance g r (tid s) (S d)) /\
  (forall v, v ∈ discovered r steps -> exists d, distance g r v d).
Proof. exact (bfs_distances g r steps Hg). Qed.
Print Assumptions C19_breadth_first_distances.

Example C16_to_C19_case :
  breadth_first (as_graph kite) 1
    [mkStep 1 0 false; mkStep 1 2 false; mkStep 0 3 false; mkStep 0 2 true; mkStep 2 3 true]%N.
Proof. run_bfs. Qed.

(** C20: cut flags. *)
Theorem C20_breadth_first_cut g (Hg : Lawful g) r steps :
  breadth_first g r steps -> cut_exact r steps.
Proof. exact (bfs_cut_exact g r steps Hg). Qed.
Print Assumptions C20_breadth_first_cut.
Theorem C20_depth_first_cut g (Hg : Lawful g) r steps :
  depth_first g r steps -> cut_exact r steps.
Proof. exact (dfs_cut_exact g r steps Hg). Qed.
Print Assumptions C20_depth_first_cut.

(** C21: cut steps + nodes of the component = edges of the component + 1
    (by C17, the discovered nodes are the component). *)
Theorem C21_circuit_rank g (Hg : Lawful g) (Hl : LoopFree g) r steps :
  breadth_first g r steps ->
  length (filter (fun s => cut s = true) steps) + length (discovered r steps) =
  length (filter (fun e => e.1 ∈ discovered r steps) (g_edges g)) + 1.
Proof. exact (bfs_circuit_rank g r steps Hg Hl). Qed.
Print Assumptions C21_circuit_rank.
Example C21_case : Lawful (as_graph kite) /\ LoopFree (as_graph kite).
Proof. split; [apply api_lawful, kite_api|apply kite_loop_free]. Qed.

(** C22: depth-first termination. *)
Theorem C22_depth_first_terminates g (Hg : Lawful g) r (Hr : r ∈ g_nodes g) :
  exists t steps, dfs_new g r = Ok t /\
    forall calls, dfs_collect calls g t = if length steps <? calls then Ok steps else NoFuel.
Proof. exact (dfs_calls g r Hg Hr). Qed.
Print Assumptions C22_depth_first_terminates.
Theorem C22_depth_first_fused g t t' :
  dfs_next g t = Ok (None, t') -> dfs_next g t' = Ok (None, t').
Proof. exact (dfs_fused g t t'). Qed.
Print Assumptions C22_depth_first_fused.
Theorem C22_depth_first_bound g (Hg : Lawful g) (Hl : LoopFree g) r steps :
  depth_first g r steps -> length steps <= g_size g.
Proof. exact (dfs_bound g r steps Hg Hl). Qed.
Print Assumptions C22_depth_first_bound.

(** C23: soundness of depth-first steps on every graph. *)
Theorem C23_depth_first_sound g (Hg : Lawful g) r steps :
  depth_first g r steps ->
  (forall s, s ∈ steps -> adj g (sid s) (tid s) /\ reachable g r (sid s) /\ reachable g r (tid s)) /\
  NoDup (discovered r steps) /\
  (forall u v, u <> v -> times_crossed (u, v) (crossed steps) <= 1).
Proof. exact (dfs_sound g r steps Hg). Qed.
Print Assumptions C23_depth_first_sound.
Example C22_C23_case :
  depth_first (as_graph kite) 1
    [mkStep 1 0 false; mkStep 0 3 false; mkStep 3 2 false; mkStep 2 1 true; mkStep 2 0 true]%N.
Proof. run_dfs. Qed.

(** C24: proved for forests; false of the code in general. *)
Theorem C24_depth_first_component_partial g (Hg : Lawful g) r (Ha : narrow_rings g r) steps :
  depth_first g r steps ->
  (forall v, reachable g r v <-> v ∈ discovered r steps) /\
  (forall u v, reachable g r u -> adj g u v -> times_crossed (u, v) (crossed steps) = 1).
Proof.
  intros Hd. destruct (narrow_dfs g Hg r Ha steps Hd) as (H1 & H2 & _). exact (conj H1 H2).
Qed.
Print Assumptions C24_depth_first_component_partial.
Theorem C24_forests_have_narrow_rings g r : Acyclic g -> narrow_rings g r.
Proof. exact (acyclic_narrow g r). Qed.
Print Assumptions C24_forests_have_narrow_rings.
(** Two hexagons sharing an edge, with a pendant node. *)
Definition fused : DefaultGraph :=
  get (dg_try_from_edges [(0, 1); (1, 2); (2, 3); (3, 4); (4, 5); (5, 0); (4, 6); (6, 7);
    (7, 8); (8, 9); (9, 5); (8, 10)]%N).
Lemma fused_api : Api fused. Proof. apply get_edges_api; is_ok. Qed.
Lemma fused_narrow : narrow_rings (as_graph fused) 1.
Proof. apply narrow_check; [apply fused_api|vm_compute; reflexivity..]. Qed.
Example C24_narrow_case : depth_first (as_graph fused) 1
  [mkStep 1 0 false; mkStep 0 5 false; mkStep 5 4 false; mkStep 4 3 false; mkStep 3 2 false;
   mkStep 2 1 true; mkStep 4 6 false; mkStep 6 7 false; mkStep 7 8 false; mkStep 8 9 false;
   mkStep 9 5 true; mkStep 8 10 false]%N.
Proof. run_dfs. Qed.
Example C24_case : depth_first (as_graph twigs) 1
  [mkStep 1 0 false; mkStep 0 4 false; mkStep 1 2 false; mkStep 1 3 false; mkStep 3 5 false]%N.
Proof. run_dfs. Qed.

(** The smallest counterexample: a triangle 0-1-2 with a pendant node 3 at 0.
    Node 3 is adjacent to the root and never visited. *)
Theorem C24_depth_first_component_refuted :
  exists d r v steps, Api d /\ LoopFree (as_graph d) /\ depth_first (as_graph d) r steps /\
    adj (as_graph d) r v /\ v ∉ discovered r steps /\
    times_crossed (r, v) (crossed steps) = 0.
Proof.
  exists pan, 0%N, 3%N, [mkStep 0 1 false; mkStep 1 2 false; mkStep 2 0 true]%N.
  split; [apply pan_api|]. split; [apply pan_loop_free|]. split; [run_dfs|]. split.
  { eexists. split; [vm_compute; reflexivity|]. set_solver. }
  split; [|vm_compute; reflexivity].
  apply (bool_decide_eq_false (_ ∈ _)). vm_compute. reflexivity.
Qed.
Print Assumptions C24_depth_first_component_refuted.

(** C25: with narrow rings every cut step leads to an ancestor, and on forests
    there is nothing to cut; in general a cut step may lead to a node that is
    no ancestor. *)
Theorem C25_cut_to_ancestor_partial g (Hg : Lawful g) r (Ha : narrow_rings g r) steps :
  depth_first g r steps ->
  forall s, s ∈ steps -> cut s = true -> ancestor steps (tid s) (sid s).
Proof. intros Hd. exact (proj2 (proj2 (narrow_dfs g Hg r Ha steps Hd))). Qed.
Print Assumptions C25_cut_to_ancestor_partial.
Example C25_case : narrow_rings (as_graph fused) 1 /\ exists steps,
  depth_first (as_graph fused) 1 steps /\ mkStep 9 5 true ∈ steps.
Proof. split; [apply fused_narrow|]. eexists. split; [apply C24_narrow_case|]. set_solver. Qed.
Theorem C25_depth_first_no_cut_partial g (Hg : Lawful g) (Ha : Acyclic g) r steps :
  depth_first g r steps -> forall s, s ∈ steps -> cut s = false.
Proof. intros Hd. exact (proj2 (proj2 (acyclic_dfs g Hg Ha r steps Hd))). Qed.
Print Assumptions C25_depth_first_no_cut_partial.

Definition bowtie : DefaultGraph :=
  get (dg_try_from_edges [(0, 4); (1, 4); (1, 2); (2, 4); (3, 4); (0, 3)]%N).
Lemma bowtie_api : Api bowtie. Proof. apply get_edges_api; is_ok. Qed.

Theorem C25_cut_to_ancestor_refuted :
  exists d r steps s t, Api d /\ LoopFree (as_graph d) /\ depth_first (as_graph d) r steps /\
    mkStep s t true ∈ steps /\ ~ ancestor steps t s.
Proof.
  exists bowtie, 0%N, [mkStep 0 4 false; mkStep 4 1 false; mkStep 1 2 false; mkStep 2 4 true;
    mkStep 0 3 false; mkStep 3 4 true]%N, 3%N, 4%N.
  split; [apply bowtie_api|].
  split; [apply loop_free_check; [apply bowtie_api|vm_compute; reflexivity]|].
  split; [run_dfs|]. split; [set_solver|]. unfold ancestor. intros H.
  assert (Hn : forall a b, rtc (fun x y => mkStep x y false ∈ [mkStep 0 4 false; mkStep 4 1 false;
    mkStep 1 2 false; mkStep 2 4 true; mkStep 0 3 false; mkStep 3 4 true]%N) a b ->
    a = 4%N \/ a = 1%N \/ a = 2%N -> b = 4%N \/ b = 1%N \/ b = 2%N).
  { intros a b Hr. induction Hr as [|x y z Hxy _ IH]; [done|]. intros Hx. apply IH.
    rewrite !elem_of_cons, elem_of_nil in Hxy. naive_solver. }
  apply Hn in H; [|by left]. destruct H as [?|[?|?]]; discriminate.
Qed.
Print Assumptions C25_cut_to_ancestor_refuted.

(** C26: on forests the steps are the recursive pre-order, with narrow rings
    they are what the textbook algorithm yields; in general they are not. *)
Theorem C26_depth_first_pre_order_partial g (Hg : Lawful g) (Ha : Acyclic g) r steps :
  depth_first g r steps ->
  exists l, g_neighbors g r = Ok l /\ pre_order g ((fun x => (r, x)) <$> l) steps.
Proof. exact (acyclic_dfs_pre_order g Hg Ha r steps). Qed.
Print Assumptions C26_depth_first_pre_order_partial.
Theorem C26_depth_first_textbook_partial g (Hg : Lawful g) r (Ha : narrow_rings g r) steps :
  depth_first g r steps ->
  exists l, g_neighbors g r = Ok l /\ textbook g r [] ((fun x => (r, x)) <$> l) steps.
Proof. exact (narrow_dfs_textbook g Hg r Ha steps). Qed.
Print Assumptions C26_depth_first_textbook_partial.

Example C26_case : Acyclic (as_graph twigs) /\
  pre_order (as_graph twigs) [(1, 0); (1, 2); (1, 3)]%N
    [mkStep 1 0 false; mkStep 0 4 false; mkStep 1 2 false; mkStep 1 3 false; mkStep 3 5 false]%N.
Proof.
  split; [apply twigs_acyclic|].
  destruct (C26_depth_first_pre_order_partial _ (api_lawful _ twigs_api) twigs_acyclic _ _ C24_case)
    as (l & Hl & Hp).
  vm_compute in Hl. injection Hl as <-. exact Hp.
Qed.

Ltac tb_in := match goal with |- ?P => apply (bool_decide_eq_true_1 P) end; vm_compute; reflexivity.
Ltac tb_out := match goal with |- ~ ?P => apply (bool_decide_eq_false_1 P) end; vm_compute; reflexivity.
Ltac tb_step :=
  first
  [ apply tb_nil
  | apply tb_skip; [first [left; tb_in|right; tb_in]|]
  | eapply tb_visit; [tb_out|tb_out|discriminate|intros q Hq; apply elem_of_list_In in Hq; cbn in Hq; intuition discriminate|vm_compute; reflexivity|];
    cbn [app fmap list_fmap]
  | eapply tb_cut; [tb_out|tb_out|first [left; reflexivity|right; eexists; apply elem_of_list_In; cbn; solve [eauto 10]]|];
    cbn [app] ].

Theorem C26_depth_first_textbook_refuted :
  exists d r l steps steps', Api d /\ LoopFree (as_graph d) /\
    g_neighbors (as_graph d) r = Ok l /\
    depth_first (as_graph d) r steps /\
    textbook (as_graph d) r [] ((fun x => (r, x)) <$> l) steps' /\ steps <> steps'.
Proof.
  exists pan, 0%N, [1; 2; 3]%N, [mkStep 0 1 false; mkStep 1 2 false; mkStep 2 0 true]%N,
    [mkStep 0 1 false; mkStep 1 2 false; mkStep 2 0 true; mkStep 0 3 false]%N.
  split; [apply pan_api|]. split; [apply pan_loop_free|]. split; [vm_compute; reflexivity|].
  split; [run_dfs|]. split; [|discriminate]. cbn [fmap list_fmap]. repeat tb_step.
Qed.
Print Assumptions C26_depth_first_textbook_refuted.

(** C27: into_table. *)
Theorem C27_into_table g (Hg : Lawful g) r steps :
  depth_first g r steps ->
  exists t n, dfs_new g r = Ok t /\ forall fuel, n <= fuel ->
    dfs_into_table fuel g t =
      Ok (if bool_decide (steps = []) then ([], []) else (discovered r steps, crossed steps)).
Proof. exact (into_table_spec g r steps Hg). Qed.
Print Assumptions C27_into_table.
Theorem C27_into_table_empty g (Hg : Lawful g) r steps :
  depth_first g r steps -> steps = [] <-> g_neighbors g r = Ok [].
Proof. exact (dfs_nil g r steps Hg). Qed.
Print Assumptions C27_into_table_empty.
Example C27_case :
  (let! t := dfs_new (as_graph kite) 7 in dfs_into_table 50 (as_graph kite) t)
  = Ok ([7; 8], [(7, 8)])%N.
Proof. vm_compute; reflexivity. Qed.

(** C28: conversion of a depth-first traversal to a graph: all nine queries on
    it, neighbor order included. *)
Theorem C28_dfs_to_graph g (Hg : Lawful g) (Hl : LoopFree g) r (Hr : r ∈ g_nodes g) :
  exists steps d, depth_first g r steps /\ dfs_graph g r d /\
    observes d (mkA (if bool_decide (steps = []) then [] else discovered r steps) (crossed steps)) /\
    (g_nodes (as_graph d) = [] <-> g_neighbors g r = Ok []) /\
    (forall u v, adj (as_graph d) u v -> adj g u v) /\
    (forall v, v ∈ g_nodes (as_graph d) -> reachable (as_graph d) r v).
Proof. exact (dfs_graph_result g r Hg Hl Hr). Qed.
Print Assumptions C28_dfs_to_graph.
Example C28_case : exists d, dfs_graph (as_graph kite) 1 d /\
  g_nodes (as_graph d) = [1; 0; 3; 2]%N /\
  g_edges (as_graph d) = [(1, 0); (0, 3); (3, 2); (2, 1); (2, 0)]%N.
Proof.
  destruct (C28_dfs_to_graph _ (api_lawful _ kite_api) kite_loop_free 1) as (s & d & Hs & Hd & (Hn & He & _) & _).
  { tb_in. }
  pose proof (depth_first_fun _ _ _ _ Hs C22_C23_case). subst s. exists d. rewrite He, Hn.
  split; [done|]. split; vm_compute; reflexivity.
Qed.

(** C56: the exact order of a breadth-first traversal: every node that is
    discovered in turn contributes its edges to the neighbors discovered
    after it (or to itself), in neighbor order. *)
Theorem C56_breadth_first_order g (Hg : Lawful g) r steps :
  breadth_first g r steps -> crossed steps = level_order g [] (discovered r steps).
Proof. exact (bfs_level_order g r steps Hg). Qed.
Print Assumptions C56_breadth_first_order.
Example C56_case : breadth_first (as_graph kite) 1
  [mkStep 1 0 false; mkStep 1 2 false; mkStep 0 3 false; mkStep 0 2 true; mkStep 2 3 true]%N /\ level_order (as_graph kite) [] [1; 0; 2; 3]%N = [(1, 0); (1, 2); (0, 3); (0, 2); (2, 3)]%N.
Proof. split; [run_bfs|vm_compute; reflexivity]. Qed.

(** C57: a cut step is reported exactly when there is a cycle or self-loop. *)
Theorem C57_breadth_first_detects_cycles g (Hg : Lawful g) r steps :
  breadth_first g r steps -> (exists s, s ∈ steps /\ cut s = true) <-> has_ring g r.
Proof. exact (bfs_cut_iff_ring g r steps Hg). Qed.
Print Assumptions C57_breadth_first_detects_cycles.
Theorem C57_depth_first_detects_cycles g (Hg : Lawful g) r steps :
  depth_first g r steps -> (exists s, s ∈ steps /\ cut s = true) <-> has_ring g r.
Proof. intros Hd. exact (proj1 (dfs_cut_iff_ring g r steps Hg Hd)). Qed.
Print Assumptions C57_depth_first_detects_cycles.
Theorem C57_depth_first_without_cut g (Hg : Lawful g) r steps :
  depth_first g r steps -> (forall s, s ∈ steps -> cut s = false) ->
  forall u v, reachable g r u -> adj g u v -> times_crossed (u, v) (crossed steps) = 1.
Proof. intros Hd. exact (proj2 (dfs_cut_iff_ring g r steps Hg Hd)). Qed.
Print Assumptions C57_depth_first_without_cut.
Example C57_case : has_ring (as_graph pan) 0 /\ ~ has_ring (as_graph twigs) 1.
Proof.
  split.
  - apply (C57_depth_first_detects_cycles _ (api_lawful _ pan_api) 0
      [mkStep 0 1 false; mkStep 1 2 false; mkStep 2 0 true]%N); [run_dfs|].
    exists (mkStep 2 0 true). split; [set_solver|done].
  - intros (s & Hs & Hc)%(C57_depth_first_detects_cycles _ (api_lawful _ twigs_api) 1 _ C24_case).
    rewrite !elem_of_cons, elem_of_nil in Hs. naive_solver.
Qed.

(** C58: only edges between nodes of cycles can be missed. *)
Theorem C58_depth_first_off_cycle g (Hg : Lawful g) r steps :
  depth_first g r steps ->
  forall u v, u ∈ discovered r steps -> u <> v -> adj g u v -> ~ on_cycle g u ->
    times_crossed (u, v) (crossed steps) = 1.
Proof.
  intros Hd u v Hu Hne Ha Hc. by destruct (dfs_off_cycle g r steps Hg Hd u v Hu Hne Ha).
Qed.
Print Assumptions C58_depth_first_off_cycle.
Example C58_case : exists steps, depth_first (as_graph pan) 3 steps /\ 3%N ∈ discovered 3 steps /\ adj (as_graph pan) 3 0.
Proof.
  eexists. split; [run_dfs|]. split; [set_solver|].
  eexists. split; [vm_compute; reflexivity|]. set_solver.
Qed.

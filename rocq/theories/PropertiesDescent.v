(** Properties C62 (how the depth-first traversal descends and backtracks, on
    every graph), C63 (components in terms of the traversals) and C64 (which edges greedy takes). *)
From Verif Require Import Outcome GraphModel TraversalModel ComponentsModel PairingModel GreedyModel
  Spec GraphProofs Checks EditProofs ConvertProofs EqProofs TraversalProofs BfsProofs DfsProofs
  PathLemmas AcyclicProofs CycleProofs NarrowProofs ComponentsProofs DescentProofs
  PairingProofs GreedyProofs GreedyRule EquivProofs LoopProofs ReturnProofs PropertiesTraversal.

(** C62.  Let [v] be the node discovered last when step [s] is made.  The step
    starts at [v] or at an ancestor of [v] in the tree of non-cut steps, at [v]
    itself as long as [v] has an undiscovered neighbor, and a non-cut step goes
    to the first undiscovered neighbor of its source, in neighbor order. *)
Theorem C62_depth_first_descends g (Hg : Lawful g) r steps pre s post v :
  depth_first g r steps -> steps = pre ++ s :: post -> last (discovered r pre) = Some v ->
  ancestor pre (sid s) v /\
  ((exists w, adj g v w /\ w ∉ discovered r pre) -> sid s = v) /\
  (cut s = false -> exists l1 l2, g_neighbors g (sid s) = Ok (l1 ++ tid s :: l2) /\
     forall w, w ∈ l1 -> w ∈ discovered r pre).
Proof. intros Hd Heq. exact (proj1 (dfs_descent g Hg r steps Hd) pre s post Heq v). Qed.
Print Assumptions C62_depth_first_descends.

(** The traversal does not end while the node discovered last has an
    undiscovered neighbor. *)
Theorem C62_depth_first_finished g (Hg : Lawful g) r steps v w :
  depth_first g r steps -> last (discovered r steps) = Some v -> adj g v w ->
  w ∈ discovered r steps.
Proof. intros Hd. exact (proj2 (dfs_descent g Hg r steps Hd) v w). Qed.
Print Assumptions C62_depth_first_finished.

(** So where every component is a clique no node is missed. *)
Theorem C62_cliques_no_node_missed g (Hg : Lawful g) r steps :
  adjacency_transitive g -> depth_first g r steps ->
  forall v, reachable g r v <-> v ∈ discovered r steps.
Proof. exact (clique_dfs g Hg r steps). Qed.
Print Assumptions C62_cliques_no_node_missed.

(** The triangle 0-1-2 with pendant node 3 at 0: after the cut step the node
    discovered last is still 2, and the traversal ends although its root has an
    undiscovered neighbor. *)
Example C62_case : Lawful (as_graph pan) /\ exists steps,
  depth_first (as_graph pan) 0 steps /\
  steps = [mkStep 0 1 false; mkStep 1 2 false] ++ mkStep 2 0 true :: [] /\
  last (discovered 0%N [mkStep 0 1 false; mkStep 1 2 false]%N) = Some 2%N /\
  adj (as_graph pan) 2 0 /\ adj (as_graph pan) 0 3.
Proof.
  split; [apply api_lawful, pan_api|]. eexists. split; [run_dfs|].
  split; [reflexivity|]. split; [reflexivity|].
  split; eexists; (split; [vm_compute; reflexivity|set_solver]).
Qed.
(** Two triangles and an isolated node. *)
Definition two_triangles : DefaultGraph :=
  get (dg_try_from_adjacency [[1; 2]; [2; 0]; [0; 1]; [4; 5]; [5; 3]; [3; 4]; []]%N).
Lemma two_triangles_api : Api two_triangles.
Proof. apply get_rows_api. is_ok. Qed.
Lemma two_triangles_trans : adjacency_transitive (as_graph two_triangles).
Proof.
  intros u v w (l & Hl & Hv) (k & Hk & Hw) Huw.
  assert (Hu : u ∈ g_nodes (as_graph two_triangles)).
  { destruct (decide (u ∈ g_nodes (as_graph two_triangles))) as [|Hn]; [done|].
    by rewrite (law_neighbors_err _ (api_lawful _ two_triangles_api) u Hn) in Hl. }
  vm_compute in Hu.
  repeat (apply elem_of_cons in Hu as [->|Hu]; [vm_compute in Hl; injection Hl as <-;
    repeat (apply elem_of_cons in Hv as [->|Hv]; [vm_compute in Hk; injection Hk as <-;
      repeat (apply elem_of_cons in Hw as [->|Hw];
        [first [done|eexists; split; [vm_compute; reflexivity|set_solver]]|]);
      by apply elem_of_nil in Hw|]); by apply elem_of_nil in Hv|]).
  by apply elem_of_nil in Hu.
Qed.
Example C62_cliques_case : Lawful (as_graph two_triangles) /\
  adjacency_transitive (as_graph two_triangles) /\
  exists steps, depth_first (as_graph two_triangles) 3 steps /\
    discovered 3%N steps = [3; 4; 5]%N.
Proof.
  split; [apply api_lawful, two_triangles_api|]. split; [apply two_triangles_trans|].
  eexists. split; [run_dfs|reflexivity].
Qed.

(** C63.  The graphs yielded by components are those of the depth-first
    traversals from the successive first nodes that are in no graph yielded
    before: their nodes are those discovered, in that order, and their edges those
    crossed, in that order, as if added by hand. *)
Theorem C63_components_roots g (Hg : Lawful g) ds :
  components_are g ds ->
  forall i d, ds !! i = Some d ->
  exists before r after steps, g_nodes g = before ++ r :: after /\
    (forall v, v ∈ before -> exists j d', j < i /\ ds !! j = Some d' /\ v ∈ g_nodes (as_graph d')) /\
    (forall j d', j < i -> ds !! j = Some d' -> r ∉ g_nodes (as_graph d')) /\
    depth_first g r steps /\
    observes d (mkA (discovered r steps) (crossed steps)).
Proof. exact (components_roots_gen g ds Hg). Qed.
Print Assumptions C63_components_roots.

(** Where every component is a clique, the node sets are those of the
    connected components. *)
Theorem C63_components_cliques g (Hg : Lawful g) (Hl : LoopFree g) ds :
  adjacency_transitive g -> components_are g ds ->
  (ds ≫= (fun d => g_nodes (as_graph d))) ≡ₚ g_nodes g /\
  (forall d u v, d ∈ ds -> u ∈ g_nodes (as_graph d) ->
     (v ∈ g_nodes (as_graph d) <-> reachable g u v)).
Proof.
  intros Ht. apply components_whole; [done|done|]. intros r steps v Hd.
  by apply (clique_dfs g Hg r steps Ht Hd).
Qed.
Print Assumptions C63_components_cliques.
Example C63_case : LoopFree (as_graph two_triangles) /\
  exists ds, components_are (as_graph two_triangles) ds /\
    map (fun d => g_nodes (as_graph d)) ds = [[0; 1; 2]; [3; 4; 5]; [6]]%N.
Proof.
  assert (Hl : LoopFree (as_graph two_triangles))
    by (apply loop_free_check; [apply two_triangles_api|vm_compute; reflexivity]).
  split; [done|].
  destruct (comps_run _ (api_lawful _ two_triangles_api) Hl ∅ (g_nodes (as_graph two_triangles))
    ltac:(done)) as (ds & _ & Hf).
  exists ds. split.
  - exists 50. intros fuel Hfuel. apply Hf. vm_compute g_size. vm_compute length. lia.
  - specialize (Hf 50 ltac:(vm_compute; lia)). vm_compute in Hf. injection Hf as <-.
    vm_compute. reflexivity.
Qed.

(** C64.  greedy takes the depth-first traversals of the graphs yielded by
    components one after the other, and pairs the ends of a step unless one of
    them was the source of an earlier step or the target of an earlier step that
    was paired. *)
Theorem C64_greedy_rule g (Hg : Lawful g) (Hl : LoopFree g) p ds :
  greedy_is g p -> components_are g ds ->
  exists runs, Forall2 (fun d steps => exists r, head (g_nodes (as_graph d)) = Some r /\
      depth_first (as_graph d) r steps) ds runs /\
    forall u v, p !! u = Some v <-> taken (concat runs) p u v.
Proof. exact (greedy_rule g p ds Hg Hl). Qed.
Print Assumptions C64_greedy_rule.

(** greedy finds a pair whenever there is an edge. *)
Theorem C64_greedy_nonempty g (Hg : Lawful g) (Hl : LoopFree g) p u v :
  greedy_is g p -> adj g u v -> p <> p_new.
Proof.
  intros Hp Huv Hempty. destruct (components_general g Hg Hl) as (ds & Hds & Hsub & Hcov).
  destruct (C64_greedy_rule g Hg Hl p ds Hp Hds) as (runs & Hruns & Hrule).
  destruct (concat runs) as [|s T] eqn:HT.
  2: { assert (Hs : p !! sid s = Some (tid s)).
    { apply Hrule. exists [], s, T. split_and!; [done|by left|]. intros s' Hs'. by apply elem_of_nil in Hs'. }
    rewrite Hempty in Hs. unfold p_new in Hs. by rewrite lookup_empty in Hs. }
  assert (Hu : u ∈ g_nodes g) by (by eapply lawful_adj_l).
  destruct (Hcov u Hu) as (d & [i Hi]%elem_of_list_lookup & Hud).
  assert (Hd : d ∈ ds) by (by eapply elem_of_list_lookup_2).
  destruct (Hsub d Hd) as (_ & _ & Hadj & Hconn).
  destruct (C63_components_roots g Hg ds Hds i d Hi) as (p1 & r & p2 & steps & _ & _ & _ & Hdf & (Hn & _)).
  destruct (Forall2_lookup_l _ _ _ _ _ Hruns Hi) as (run & Hrun & r' & Hr' & Hdf').
  assert (run = []) as ->.
  { destruct run as [|x run]; [done|]. exfalso.
    assert (Hin : x ∈ concat runs); [|rewrite HT in Hin; by apply elem_of_nil in Hin].
    apply elem_of_list_In, in_concat. exists (x :: run). split; [|by left].
    apply elem_of_list_In. by eapply elem_of_list_lookup_2. }
  rewrite Hn in Hr'. injection Hr' as <-.
  assert (Hgd : Lawful (as_graph d)).
  { destruct (components_run g Hg Hl) as (ds' & Hc' & Hcs).
    rewrite <-(components_are_fun g ds ds' Hds Hc') in Hcs.
    destruct (comps_subgraph _ _ _ _ _ Hcs Hd) as (r2 & Hy). by apply (yields_loop_free g r2 d Hg Hl Hy). }
  (* the root has no neighbor in d ... *)
  assert (Hiso : forall w, ~ adj (as_graph d) r w).
  { intros w Hw. pose proof (C62_depth_first_finished (as_graph d) Hgd r [] r w Hdf' eq_refl Hw) as Hin.
    apply elem_of_list_singleton in Hin as ->. apply (Hl r). by apply Hadj. }
  (* ... so it is u, and the traversal of g from u met nothing else *)
  assert (Hru : reachable (as_graph d) r u) by (apply Hconn; [rewrite Hn; left|done]).
  destruct Hru as [r|r y u Hry _]; [|by destruct (Hiso y)].
  assert (Hvd : forall w, w ∈ discovered r steps -> w = r).
  { intros w Hw. change (w ∈ discovered r steps) with (w ∈ a_nodes (mkA (discovered r steps) (crossed steps))) in Hw.
    rewrite <-Hn in Hw. assert (Hrw : reachable (as_graph d) r w) by (by apply Hconn).
    destruct Hrw as [|x y z Hxy _]; [done|]. by destruct (Hiso y). }
  assert (Hlast : last (discovered r steps) = Some r).
  { destruct (last (discovered r steps)) as [z|] eqn:Hz; [|by apply last_None in Hz].
    f_equal. apply Hvd. rewrite last_lookup in Hz. by eapply elem_of_list_lookup_2. }
  pose proof (C62_depth_first_finished g Hg r steps r v Hdf Hlast Huv) as Hin.
  apply Hvd in Hin as ->. by apply (Hl r).
Qed.
Print Assumptions C64_greedy_nonempty.

(** The triangle 0-1-2 with pendant node 3 at 2, where greedy pairs only 0 and 1
    (C37): step (2, 0) is made before (2, 3). *)
Definition pan2 : DefaultGraph :=
  get (dg_try_from_adjacency [[1; 2]; [0; 2]; [1; 0; 3]; [2]]%N).
Lemma pan2_api : Api pan2. Proof. apply get_rows_api; is_ok. Qed.
Example C64_case : LoopFree (as_graph pan2) /\ adj (as_graph pan2) 2 3 /\
  greedy_is (as_graph pan2) (pair_all [(0, 1)]%N) /\
  exists d, components_are (as_graph pan2) [d] /\ head (g_nodes (as_graph d)) = Some 0%N /\
    depth_first (as_graph d) 0
      [mkStep 0 1 false; mkStep 1 2 false; mkStep 2 0 true; mkStep 2 3 false]%N.
Proof.
  assert (Hl : LoopFree (as_graph pan2))
    by (apply loop_free_check; [apply pan2_api|vm_compute; reflexivity]).
  split; [done|]. split; [eexists; split; [vm_compute; reflexivity|set_solver]|].
  destruct (greedy_runs _ (api_lawful _ pan2_api) Hl ∅ (g_nodes (as_graph pan2)) [] (∅, p_new)
    ltac:(done) rinv_new) as (ds & runs & st & _ & _ & _ & Hc & Hf).
  pose proof (Hf 20 ltac:(vm_compute; lia)) as H20. pose proof (Hc 20 ltac:(vm_compute; lia)) as H20c.
  split.
  - exists 20. intros fuel Hfuel. unfold greedy, components.
    rewrite Hf by (vm_compute g_size; vm_compute length; lia). rewrite <-H20. vm_compute. reflexivity.
  - vm_compute in H20c.
    match type of H20c with Ok [?d] = Ok _ => exists d end. injection H20c as Hds. split.
    + exists 20. intros fuel Hfuel. unfold components.
      rewrite Hc by (vm_compute g_size; vm_compute length; lia). by rewrite Hds.
    + split; [vm_compute; reflexivity|]. run_dfs.
Qed.

(** Property C76: a complete depth-first traversal is reproduced by the graph
    made from it. *)
From Verif Require Import Outcome GraphModel TraversalModel ComponentsModel PairingModel GreedyModel
  Spec GraphProofs Checks EditProofs ConvertProofs EqProofs TraversalProofs BfsProofs DfsProofs
  PathLemmas AcyclicProofs CycleProofs NarrowProofs ComponentsProofs GreedyProofs ReplayProofs
  PropertiesTraversal PropertiesSelection SpecAdvance PropertiesAdvance.

(** A traversal that crosses every edge of its component is repeated, step by
    step, by the same traversal of the graph it is converted to, and
    converting again gives the identical graph. *)
Theorem C76_replay_partial g (Hg : Lawful g) (Hl : LoopFree g) r steps d :
  depth_first g r steps -> steps <> [] -> dfs_graph g r d ->
  (forall u v, reachable g r u -> adj g u v -> (u, v) ∈ crossed steps \/ (v, u) ∈ crossed steps) ->
  depth_first (as_graph d) r steps /\ dfs_graph (as_graph d) r d.
Proof. intros Hd Hne Hdg Hall. exact (dfs_graph_replay g r d steps Hg Hl Hd Hne Hdg Hall). Qed.
Print Assumptions C76_replay_partial.

(** ... in particular when the rings are narrow (C24), as in a forest. *)
Theorem C76_replay_narrow g (Hg : Lawful g) r (Ha : narrow_rings g r) (Hl : LoopFree g) steps d :
  depth_first g r steps -> steps <> [] -> dfs_graph g r d ->
  depth_first (as_graph d) r steps /\ dfs_graph (as_graph d) r d.
Proof.
  intros Hd Hne Hdg. apply (dfs_graph_replay g r d steps Hg Hl Hd Hne Hdg).
  by apply narrow_all_crossed.
Qed.
Print Assumptions C76_replay_narrow.

(** A graph yielded by [components] whose traversal was complete is traversed
    in the same way from its first node, and is its own only component. *)
Theorem C76_component_again_partial g (Hg : Lawful g) (Hl : LoopFree g) ds d r steps :
  components_are g ds -> d ∈ ds -> head (g_nodes (as_graph d)) = Some r -> depth_first g r steps ->
  (forall u v, reachable g r u -> adj g u v -> (u, v) ∈ crossed steps \/ (v, u) ∈ crossed steps) ->
  depth_first (as_graph d) r steps /\ components_are (as_graph d) [d].
Proof. intros Hc Hd Hh Hs Hall. exact (component_again g ds d r steps Hg Hl Hc Hd Hh Hs Hall). Qed.
Print Assumptions C76_component_again_partial.

Theorem C76_components_again_narrow g (Hg : Lawful g) (Ha : narrow_components g) ds :
  components_are g ds -> forall d, d ∈ ds -> components_are (as_graph d) [d].
Proof. intros Hc d Hd. by eapply components_again. Qed.
Print Assumptions C76_components_again_narrow.

(** So [greedy], which traverses the graphs yielded by [components], pairs by
    the order of the traversals of the graph itself. *)
Theorem C76_greedy_order_narrow g (Hg : Lawful g) (Ha : narrow_components g) p ds :
  greedy_is g p -> components_are g ds ->
  exists runs, Forall2 (fun d steps => exists r, head (g_nodes (as_graph d)) = Some r /\
      depth_first g r steps) ds runs /\
    forall u v, p !! u = Some v <-> u <> v /\ taken (concat runs) p u v.
Proof.
  intros Hp Hc. destruct (C64_greedy_rule_self_loops g Hg p ds Hp Hc) as (runs & H1 & H2).
  exists runs. split; [|done].
  clear H2. assert (Hgen : forall ds', (forall d, d ∈ ds' -> d ∈ ds) -> forall runs',
    Forall2 (fun d steps => exists r, head (g_nodes (as_graph d)) = Some r /\ depth_first (as_graph d) r steps) ds' runs' ->
    Forall2 (fun d steps => exists r, head (g_nodes (as_graph d)) = Some r /\ depth_first g r steps) ds' runs').
  2:{ by apply (Hgen ds). }
  intros ds' Hsub runs' H. induction H as [|d steps ds' runs' (r & Hh & Hs) _ IH]; constructor.
  - exists r. split; [done|].
    assert (Hd : d ∈ ds) by (apply Hsub; left).
    pose proof (components_narrow_roots g ds d r Hg Ha Hc Hd Hh) as Hnar.
    assert (Hr : r ∈ g_nodes g).
    { destruct (components_narrow g ds Hg Ha Hc) as (Hperm & _). rewrite <-Hperm.
      apply elem_of_list_bind. exists d. split; [|done].
      destruct (g_nodes (as_graph d)) as [|x l]; [done|]. injection Hh as ->. left. }
    destruct (dfs_total g r Hg Hr) as (steps' & Hs').
    destruct (component_again g ds d r steps' Hg (proj1 Ha) Hc Hd Hh Hs') as [Hs2 _].
    { by apply narrow_all_crossed. }
    by rewrite (depth_first_fun _ _ _ _ Hs Hs2).
  - apply IH. intros d' Hd'. apply Hsub. by right.
Qed.
Print Assumptions C76_greedy_order_narrow.

(** ** Cases *)

(** A square with both diagonals: its rings are not narrow, but every edge is
    crossed. *)
Definition k4 : DefaultGraph :=
  get (dg_try_from_edges [(0, 1); (0, 2); (0, 3); (1, 3); (1, 2); (2, 3)]%N).
Lemma k4_api : Api k4. Proof. apply get_edges_api; is_ok. Qed.
Definition k4_steps : list Step :=
  [mkStep 0 1 false; mkStep 1 3 false; mkStep 3 0 true; mkStep 3 2 false; mkStep 2 0 true; mkStep 2 1 true]%N.
Example C76_case :
  depth_first (as_graph k4) 0 k4_steps /\
  (forall u v, reachable (as_graph k4) 0 u -> adj (as_graph k4) u v ->
     (u, v) ∈ crossed k4_steps \/ (v, u) ∈ crossed k4_steps) /\
  exists d, dfs_graph (as_graph k4) 0 d /\ g_nodes (as_graph d) = [0; 1; 3; 2]%N /\
    g_neighbors (as_graph d) 3 = Ok [1; 0; 2]%N /\ g_neighbors (as_graph k4) 3 = Ok [0; 1; 2]%N /\
    g_neighbors (as_graph d) 0 = Ok [1; 3; 2]%N /\ g_neighbors (as_graph k4) 0 = Ok [1; 2; 3]%N /\
    depth_first (as_graph d) 0 k4_steps.
Proof.
  assert (Hl : LoopFree (as_graph k4)) by (apply loop_free_check; [apply k4_api|vm_compute; reflexivity]).
  pose proof (api_lawful _ k4_api) as Hg.
  assert (Hd : depth_first (as_graph k4) 0 k4_steps) by run_dfs.
  assert (Hall : forall u v, reachable (as_graph k4) 0 u -> adj (as_graph k4) u v ->
     (u, v) ∈ crossed k4_steps \/ (v, u) ∈ crossed k4_steps).
  { assert (Hb : forallb (fun e : N * N => bool_decide (e ∈ crossed k4_steps \/ (e.2, e.1) ∈ crossed k4_steps))
      (g_edges (as_graph k4)) = true) by (vm_compute; reflexivity).
    rewrite forallb_forall in Hb.
    intros u v _ Huv. destruct (law_edges_complete _ Hg u v) as [Hin|Hin]; [|done|..].
    - intros ->. by apply (Hl v).
    - apply elem_of_list_In, Hb, bool_decide_eq_true_1 in Hin. done.
    - apply elem_of_list_In, Hb, bool_decide_eq_true_1 in Hin. simpl in Hin. tauto. }
  split; [done|]. split; [done|].
  destruct (dfs_graph_spec _ 0 k4_steps Hg Hl Hd) as (d & Hdg & HB). exists d.
  destruct (dfs_graph_replay _ 0 d k4_steps Hg Hl Hd ltac:(done) Hdg Hall) as [Hrep _].
  destruct (dbuilt_observes _ _ _ HB) as (Hn & _ & _ & _ & _ & _ & Hnb & _).
  split; [done|]. split; [rewrite Hn; vm_compute; reflexivity|].
  rewrite !Hnb. split_and!; try (vm_compute; reflexivity). done.
Qed.

(** In general it fails.  The traversal below leaves out the edge 1-5; in the
    graph converted from it node 2 is met by way of 1 instead of the root, and
    node 6 is lost. *)
Definition lossy : DefaultGraph :=
  get (dg_try_from_edges [(4, 1); (5, 4); (7, 3); (1, 0); (5, 3); (7, 5); (2, 1); (2, 0); (5, 1); (6, 5); (6, 0)]%N).
Lemma lossy_api : Api lossy. Proof. apply get_edges_api; is_ok. Qed.
Definition lossy_steps : list Step :=
  [mkStep 0 1 false; mkStep 1 4 false; mkStep 4 5 false; mkStep 5 3 false; mkStep 3 7 false;
   mkStep 7 5 true; mkStep 0 2 false; mkStep 2 1 true; mkStep 0 6 false; mkStep 6 5 true]%N.
Definition lossy_again : list Step :=
  [mkStep 0 1 false; mkStep 1 4 false; mkStep 4 5 false; mkStep 5 3 false; mkStep 3 7 false;
   mkStep 7 5 true; mkStep 1 2 false; mkStep 2 0 true]%N.
Theorem C76_replay_refuted :
  exists d r steps e steps' v, Api d /\ LoopFree (as_graph d) /\
    depth_first (as_graph d) r steps /\ dfs_graph (as_graph d) r e /\
    depth_first (as_graph e) r steps' /\ steps <> steps' /\
    v ∈ g_nodes (as_graph e) /\ v ∉ discovered r steps'.
Proof.
  exists lossy, 0%N, lossy_steps, (get (apply_steps lossy_steps dg_new)), lossy_again, 6%N.
  pose proof lossy_api as Ha.
  assert (Hd : depth_first (as_graph lossy) 0 lossy_steps) by run_dfs.
  split; [done|]. split; [apply loop_free_check; [done|vm_compute; reflexivity]|]. split; [done|].
  split.
  { destruct Hd as (t & n & Ht & Hn). exists t, n. split; [done|]. intros fuel Hf.
    unfold dg_try_from_dfs. rewrite (extend_dfs_apply fuel _ t lossy_steps) by (by apply Hn).
    vm_compute. reflexivity. }
  split; [run_dfs|]. split; [done|].
  split; [apply (bool_decide_eq_true_1 _); vm_compute; reflexivity|].
  apply (bool_decide_eq_true_1 _). vm_compute. reflexivity.
Qed.
Print Assumptions C76_replay_refuted.

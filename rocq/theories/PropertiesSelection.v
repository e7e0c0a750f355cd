(** Properties C29-C31 (components) and C36-C37 (greedy). *)
From Verif Require Import Outcome GraphModel TraversalModel ComponentsModel PairingModel GreedyModel
  Spec GraphProofs Checks EditProofs ConvertProofs EqProofs TraversalProofs BfsProofs DfsProofs
  PathLemmas AcyclicProofs CycleProofs NarrowProofs ComponentsProofs PairingProofs GreedyProofs PropertiesTraversal.

(** C29 *)
Theorem C29_components_total g (Hg : Lawful g) (Hl : LoopFree g) :
  exists ds, components_are g ds /\
    (forall d, d ∈ ds -> connected_subgraph d g) /\
    (forall v, v ∈ g_nodes g -> exists d, d ∈ ds /\ v ∈ g_nodes (as_graph d)).
Proof. exact (components_general g Hg Hl). Qed.
Print Assumptions C29_components_total.
Example C29_case : Lawful (as_graph kite) /\ LoopFree (as_graph kite) /\
  exists ds, c_collect 50 (as_graph kite) (components (as_graph kite)) = Ok ds /\
    map (fun d => g_nodes (as_graph d)) ds = [[0; 1; 2; 3]; [7; 8]]%N.
Proof.
  split; [apply api_lawful, kite_api|]. split; [apply kite_loop_free|].
  eexists. split; vm_compute; reflexivity.
Qed.

(** C30: with narrow rings the connected components; false of the code in
    general. *)
Theorem C30_components_exact_partial g (Hg : Lawful g) (Ha : narrow_components g) ds :
  components_are g ds ->
  (* the node lists partition the nodes of g *)
  (ds ≫= (fun d => g_nodes (as_graph d))) ≡ₚ g_nodes g /\
  (* two nodes are together iff connected *)
  (forall d u v, d ∈ ds -> u ∈ g_nodes (as_graph d) ->
     (v ∈ g_nodes (as_graph d) <-> reachable g u v)) /\
  (* same adjacency as g *)
  (forall d u v, d ∈ ds -> u ∈ g_nodes (as_graph d) -> (adj (as_graph d) u v <-> adj g u v)) /\
  (* in the order of g's nodes, each component starting with its first node *)
  (exists roots, (fun d => head (g_nodes (as_graph d))) <$> ds = Some <$> roots /\
     sublist roots (g_nodes g)) /\
  (forall d r i j v, d ∈ ds -> head (g_nodes (as_graph d)) = Some r ->
     g_nodes g !! i = Some r -> g_nodes g !! j = Some v -> v ∈ g_nodes (as_graph d) -> i <= j).
Proof. exact (components_narrow g ds Hg Ha). Qed.
Print Assumptions C30_components_exact_partial.
Theorem C30_forests_have_narrow_components g : Acyclic g -> narrow_components g.
Proof. exact (acyclic_narrow_components g). Qed.
Print Assumptions C30_forests_have_narrow_components.
Example C30_case : Lawful (as_graph twigs) /\ Acyclic (as_graph twigs) /\
  exists ds, components_are (as_graph twigs) ds /\
    map (fun d => g_nodes (as_graph d)) ds = [[0; 1; 2; 3; 5; 4]; [7; 8]]%N.
Proof.
  pose proof (api_lawful _ twigs_api) as Hg. pose proof twigs_acyclic as Ha.
  split; [done|]. split; [done|].
  destruct (C29_components_total _ Hg (proj1 Ha)) as (ds & Hds & _). exists ds. split; [done|].
  destruct Hds as (n & Hn). specialize (Hn (n + 50) ltac:(lia)).
  destruct (comps_run (as_graph twigs) Hg (proj1 Ha) ∅ (g_nodes (as_graph twigs)) ltac:(done))
    as (ds' & _ & Hf).
  rewrite Hf in Hn by (vm_compute g_size; vm_compute length; lia). injection Hn as <-.
  specialize (Hf 50 ltac:(vm_compute; lia)). vm_compute in Hf. injection Hf as <-.
  vm_compute. reflexivity.
Qed.

(** Two fused hexagons with a pendant node, seen from node 0. *)
Example C30_narrow_case : narrow_components (as_graph fused) /\
  exists a, c_collect 50 (as_graph fused) (components (as_graph fused)) = Ok [a] /\
    g_nodes (as_graph a) = [0; 1; 2; 3; 4; 5; 9; 8; 7; 6; 10]%N.
Proof.
  split; [|eexists; split; vm_compute; reflexivity].
  split; [apply loop_free_check; [apply fused_api|vm_compute; reflexivity]|].
  intros [|i] r Hi Hfirst.
  { vm_compute in Hi. injection Hi as <-.
    apply narrow_check; [apply fused_api|vm_compute; reflexivity..]. }
  exfalso. apply (Hfirst 0 0%N); [lia|done|].
  apply reachable_sym; [apply api_lawful, fused_api|].
  assert (exists steps, breadth_first (as_graph fused) 0 steps /\
    forallb (fun v => bool_decide (v ∈ discovered 0%N steps)) (g_nodes (as_graph fused)) = true)
    as (steps & Hb & Hall).
  { eexists. split; [run_bfs|vm_compute; reflexivity]. }
  apply (C17_breadth_first_component _ (api_lawful _ fused_api) 0 steps Hb).
  rewrite forallb_forall in Hall. apply (bool_decide_eq_true_1 _), Hall, elem_of_list_In.
  by eapply elem_of_list_lookup_2.
Qed.

(** The triangle 0-1-2 with pendant node 3: two "components", [0;1;2] and
    [3;0;1;2]. *)
Theorem C30_components_exact_refuted :
  exists d a b u, Api d /\ LoopFree (as_graph d) /\
    (forall fuel, 20 <= fuel -> c_collect fuel (as_graph d) (components (as_graph d)) = Ok [a; b]) /\
    u ∈ g_nodes (as_graph a) /\ u ∈ g_nodes (as_graph b) /\
    (exists v, v ∉ g_nodes (as_graph a) /\ reachable (as_graph d) u v) /\
    (exists u v, adj (as_graph d) u v /\ u ∈ g_nodes (as_graph a) /\ ~ adj (as_graph a) u v).
Proof.
  destruct (comps_run (as_graph pan) (api_lawful _ pan_api) pan_loop_free ∅ (g_nodes (as_graph pan))
    ltac:(done)) as (ds & _ & Hf).
  pose proof (Hf 20 ltac:(vm_compute; lia)) as H20. vm_compute in H20.
  match type of H20 with Ok [?a; ?b] = Ok _ => exists pan, a, b, 0%N end.
  injection H20 as Hds.
  split; [apply pan_api|]. split; [apply pan_loop_free|]. split.
  { intros fuel Hfuel. unfold components. rewrite Hf by (vm_compute g_size; vm_compute length; lia).
    by rewrite Hds. }
  split; [tb_in|]. split; [tb_in|].
  assert (H03 : adj (as_graph pan) 0 3).
  { eexists. split; [vm_compute; reflexivity|]. set_solver. }
  split.
  - exists 3%N. split; [tb_out|]. by apply rtc_once.
  - exists 0%N, 3%N. split; [done|]. split; [tb_in|].
    intros (l & Hl & Hin). vm_compute in Hl. injection Hl as <-. set_solver.
Qed.
Print Assumptions C30_components_exact_refuted.

(** C31: a self-loop that was added through add_edge or an edge list makes
    components panic. *)
Theorem C31_components_self_loop_refuted :
  exists d, Api d /\ g_edges (as_graph d) = [(0, 0)]%N /\
    forall fuel, 5 <= fuel ->
      c_collect fuel (as_graph d) (components (as_graph d)) = Panic (PUnwrap (DuplicateEdge 0 0)).
Proof.
  exists (get (dg_try_from_edges [(0, 0)]%N)).
  split; [apply get_edges_api; is_ok|]. split; [vm_compute; reflexivity|].
  intros fuel Hf. do 5 (destruct fuel as [|fuel]; [lia|]). vm_compute. reflexivity.
Qed.
Print Assumptions C31_components_self_loop_refuted.

(** C36: greedy returns a matching. *)
Theorem C36_greedy_valid g (Hg : Lawful g) (Hl : LoopFree g) :
  exists p, greedy_is g p /\ pairing_of g p /\
    forall M, listed_edges p M -> matching g M.
Proof.
  destruct (greedy_valid g Hg Hl) as (p & n & Hp & Hf). exists p. split; [by exists n|].
  split; [done|]. intros M (L & HL & ->). by eapply pairing_matching.
Qed.
Print Assumptions C36_greedy_valid.
Example C36_case : Lawful (as_graph kite) /\ LoopFree (as_graph kite) /\
  greedy 50 (as_graph kite) = Ok (pair_all [(0, 1); (2, 3); (7, 8)]%N).
Proof.
  split; [apply api_lawful, kite_api|]. split; [apply kite_loop_free|]. vm_compute. reflexivity.
Qed.

(** C37: greedy is maximal when every component is a tree or a ring, and not in
    general. *)
Theorem C37_greedy_maximal_partial g (Hg : Lawful g) (Ha : lone_rings g) :
  exists p, greedy_is g p /\ forall M, listed_edges p M -> maximal g M.
Proof.
  destruct (greedy_maximal g Hg (proj1 Ha) Ha) as (p & n & Hp & Hm & Hf). exists p.
  split; [by exists n|]. intros M (L & HL & ->). split; [by eapply pairing_matching|].
  intros u v _ Huv. rewrite !(p_edges_endpoints p (proj1 Hp) L HL). by apply Hm.
Qed.
Print Assumptions C37_greedy_maximal_partial.
Theorem C37_forests_have_lone_rings g : Acyclic g -> lone_rings g.
Proof. exact (acyclic_lone g). Qed.
Print Assumptions C37_forests_have_lone_rings.
Example C37_case : Lawful (as_graph twigs) /\ lone_rings (as_graph twigs) /\
  greedy 50 (as_graph twigs) = Ok (pair_all [(0, 1); (3, 5); (7, 8)]%N).
Proof.
  split; [apply api_lawful, twigs_api|]. split; [apply acyclic_lone, twigs_acyclic|].
  vm_compute. reflexivity.
Qed.
(** A ring of five and a path. *)
Definition pentagon : DefaultGraph :=
  get (dg_try_from_edges [(0, 1); (1, 2); (2, 3); (3, 4); (4, 0); (7, 8); (8, 9)]%N).
Lemma pentagon_api : Api pentagon. Proof. apply get_edges_api; is_ok. Qed.
Example C37_ring_case : lone_rings (as_graph pentagon) /\ greedy 50 (as_graph pentagon) = Ok (pair_all [(0, 1); (2, 3); (7, 8)]%N).
Proof.
  split; [|vm_compute; reflexivity].
  apply lone_check; [apply pentagon_api|vm_compute; reflexivity..].
Qed.

(** A triangle 0-1-2 with a pendant node 3 at 2: greedy leaves the edge (2,3)
    with both ends unpaired. *)
Theorem C37_greedy_maximal_refuted :
  exists d p u v, Api d /\ LoopFree (as_graph d) /\ greedy_is (as_graph d) p /\
    u <> v /\ adj (as_graph d) u v /\ p !! u = None /\ p !! v = None.
Proof.
  set (d := get (dg_try_from_adjacency [[1; 2]; [0; 2]; [1; 0; 3]; [2]]%N)).
  assert (Hd : Api d) by (apply get_rows_api; is_ok).
  assert (Hl : LoopFree (as_graph d)) by (apply loop_free_check; [done|vm_compute; reflexivity]).
  destruct (greedy_run (as_graph d) (api_lawful d Hd) Hl ∅ (g_nodes (as_graph d)) (∅, p_new)
    ltac:(done)) as (ds & st & _ & _ & Hf).
  pose proof (Hf 20 ltac:(vm_compute; lia)) as H20. 
  assert (Hst : st.2 = pair_all [(0, 1)]%N).
  { assert (E : Ok st.2 = Ok (pair_all [(0, 1)]%N)); [|by injection E].
    rewrite <-H20. vm_compute. reflexivity. }
  exists d, st.2, 2%N, 3%N. split; [done|]. split; [done|]. split.
  { exists 20. intros fuel Hfuel. unfold greedy, components. apply Hf.
    vm_compute g_size; vm_compute length; lia. }
  rewrite Hst. split; [done|]. split; [|split; vm_compute; reflexivity].
  eexists. split; [vm_compute; reflexivity|]. tb_in.
Qed.
Print Assumptions C37_greedy_maximal_refuted.

(** Property C82: a graph written as an adjacency list and read back. *)
From Verif Require Import Outcome GraphModel TraversalModel ComponentsModel PairingModel
  Spec SpecNumber GraphProofs Checks EditProofs ConvertProofs EqProofs TraversalProofs LoopProofs NumberProofs
  PropertiesGraph PropertiesTraversal.

(** C82.  The adjacency list of a graph, its nodes numbered in the order of
    [nodes()], is accepted exactly if no node lists itself twice (which a
    self-loop made by [add_edge] does) ... *)
Theorem C82_adjacency_list_accepted g (Hg : Lawful g) :
  (exists d, dg_try_from_adjacency (adjacency_list g) = Ok d) <-> forall v, own_entries g v <= 1.
Proof. rewrite C09_adjacency_accepts. by apply rows_valid. Qed.
Print Assumptions C82_adjacency_list_accepted.

(** ... the graph read back is the same graph with renumbered nodes, in the same
    orders (so that C65 and C73 apply to it) ... *)
Theorem C82_renumbered g (Hg : Lawful g) d :
  dg_try_from_adjacency (adjacency_list g) = Ok d -> renamed (place (g_nodes g)) g (as_graph d).
Proof. by apply rows_result. Qed.
Print Assumptions C82_renumbered.

(** ... and otherwise the error names the first node that lists itself twice. *)
Theorem C82_error g (Hg : Lawful g) e : dg_try_from_adjacency (adjacency_list g) = Err e ->
  exists i v, g_nodes g !! i = Some v /\ 2 <= own_entries g v /\
    e = DuplicateEdge (N.of_nat i) (N.of_nat i) /\
    forall j u, j < i -> g_nodes g !! j = Some u -> own_entries g u <= 1.
Proof. by apply rows_error. Qed.
Print Assumptions C82_error.

(** Whatever adjacency list a graph was made from, its own adjacency list is
    that list: reading it again gives the identical graph. *)
Theorem C82_adjacency_round_trip rows d :
  dg_try_from_adjacency rows = Ok d ->
  adjacency_list (as_graph d) = rows /\ dg_try_from_adjacency (adjacency_list (as_graph d)) = Ok d.
Proof. intros Hd. pose proof (rows_again rows d Hd) as E. by rewrite E. Qed.
Print Assumptions C82_adjacency_round_trip.

(** A graph whose nodes are 0, 1, 2, ... comes back with the same nodes and
    neighbors, and equal to the original. *)
Theorem C82_consecutive_ids d (Hd : Api d) n e :
  g_nodes (as_graph d) = N.of_nat <$> seq 0 n ->
  dg_try_from_adjacency (adjacency_list (as_graph d)) = Ok e ->
  g_nodes (as_graph e) = g_nodes (as_graph d) /\
  (forall v, g_neighbors (as_graph e) v = g_neighbors (as_graph d) v) /\
  dg_eq e d = Ok true /\ dg_eq d e = Ok true.
Proof.
  intros Hn He. pose proof (api_lawful d Hd) as Hg.
  assert (Hae : Api e) by (by eapply api_adjacency). pose proof (api_lawful e Hae) as Hge.
  destruct (rows_result (as_graph d) Hg e He) as (_ & Hne & Hnb).
  assert (HP : forall v, v ∈ g_nodes (as_graph d) -> place (g_nodes (as_graph d)) v = v).
  { intros v Hv. pose proof Hv as Hv'. rewrite Hn in Hv' |- *.
    apply elem_of_list_fmap in Hv' as (i & -> & Hi). apply elem_of_seq in Hi.
    apply place_at; [rewrite <-Hn; by apply law_nodes|].
    rewrite list_lookup_fmap, lookup_seq_lt by lia. done. }
  assert (Hne' : g_nodes (as_graph e) = g_nodes (as_graph d)).
  { rewrite Hne. rewrite <-(list_fmap_id (g_nodes (as_graph d))) at 3. apply list_fmap_ext.
    intros i v Hv. apply HP. by eapply elem_of_list_lookup_2. }
  assert (Hnb' : forall v, g_neighbors (as_graph e) v = g_neighbors (as_graph d) v).
  { intros v. destruct (decide (v ∈ g_nodes (as_graph d))) as [Hv|Hv].
    - pose proof (lawful_nbrs _ Hg v Hv) as E. specialize (Hnb v _ E). rewrite HP in Hnb by done.
      rewrite Hnb, E. f_equal. rewrite <-(list_fmap_id (nbrs (as_graph d) v)) at 2. apply list_fmap_ext.
      intros i w Hw. apply HP. apply (law_adj_node _ Hg v w). apply adj_nbrs. by eapply elem_of_list_lookup_2.
    - rewrite (law_neighbors_err _ Hg v Hv). apply (law_neighbors_err _ Hge). by rewrite Hne'. }
  split; [done|]. split; [done|].
  assert (Hadj : forall u v, adj (as_graph e) u v <-> adj (as_graph d) u v).
  { intros u v. unfold adj. by setoid_rewrite Hnb'. }
  assert (Hsz : g_size (as_graph e) = g_size (as_graph d)).
  { pose proof (C08_handshake_exact e Hae) as S1. pose proof (C08_handshake_exact d Hd) as S2.
    assert (Hdeg : degree_sum (as_graph e) = degree_sum (as_graph d)).
    { unfold degree_sum. rewrite Hne'. f_equal. apply map_ext_in. intros v Hv%elem_of_list_In.
      rewrite (law_degree _ Hg v _ (lawful_nbrs _ Hg v Hv)).
      rewrite (law_degree _ Hge v (nbrs (as_graph d) v)); [done|]. rewrite Hnb'. by apply lawful_nbrs. }
    assert (Hown : forall v, own_entries (as_graph e) v = own_entries (as_graph d) v).
    { intros v. unfold own_entries. by rewrite Hnb'. }
    assert (Hle : forall v, own_entries (as_graph d) v <= 1).
    { apply (rows_valid (as_graph d) Hg). apply C09_adjacency_accepts. by exists e. }
    assert (Hun : unlisted_loops (as_graph e) = unlisted_loops (as_graph d)).
    { unfold unlisted_loops. rewrite Hne'. apply filter_ext_in. intros v _.
      pose proof (api_own_entries e v Hae) as O1. pose proof (api_own_entries d v Hd) as O2.
      rewrite Hown in O1. specialize (Hle v). repeat case_bool_decide; try lia; tauto. }
    rewrite Hdeg, Hun in S1. lia. }
  split.
  - destruct (C12_equality_exact e d Hae Hd) as (b & E & Hb). rewrite E. f_equal. apply Hb.
    split_and!; [intros v; by rewrite Hne'|done|]. intros u v Huv. by apply Hadj, law_edges_adj.
  - destruct (C12_equality_exact d e Hd Hae) as (b & E & Hb). rewrite E. f_equal. apply Hb.
    split_and!; [intros v; by rewrite Hne'|done|]. intros u v Huv. by apply Hadj, law_edges_adj.
Qed.
Print Assumptions C82_consecutive_ids.

(** An edge list with scattered ids: accepted; with a self-loop at the second
    node (which lists itself twice): refused. *)
Example C82_case :
  let g := as_graph (get (dg_try_from_edges [(7, 3); (3, 9); (9, 7); (9, 4)]%N)) in
  let k := as_graph (get (dg_try_from_edges [(7, 3); (3, 9); (3, 3)]%N)) in
  Lawful g /\ Lawful k /\ adjacency_list g = [[1; 2]; [0; 2]; [1; 0; 3]; [2]]%N /\
  (exists d, dg_try_from_adjacency (adjacency_list g) = Ok d) /\
  dg_try_from_adjacency (adjacency_list k) = Err (DuplicateEdge 1 1)%N.
Proof.
  split; [apply api_lawful, get_edges_api; is_ok|]. split; [apply api_lawful, get_edges_api; is_ok|].
  split; [vm_compute; reflexivity|]. split; [is_ok|vm_compute; reflexivity].
Qed.
Example C82_consecutive_case : let d := (run_ops dg_new
    [AddNode 0; AddNode 1; AddNode 2; AddNode 3; AddEdge 2 3; AddEdge 0 2; AddEdge 1 0]%N).1 in
  Api d /\ g_nodes (as_graph d) = N.of_nat <$> seq 0 4 /\
  exists e, dg_try_from_adjacency (adjacency_list (as_graph d)) = Ok e.
Proof.
  split; [repeat constructor|]. split; [vm_compute; reflexivity|]. is_ok.
Qed.

(** Properties C01-C14: [DefaultGraph].  Statements only; proofs are in the
    *Proofs.v files.  The vocabulary is in Spec.v. *)
From Verif Require Import Outcome GraphModel TraversalModel ComponentsModel PairingModel Spec
  GraphProofs Checks EditProofs ConvertProofs EqProofs.

(** C01: after any call history the nine queries answer as the replayed
    abstract graph does. *)
Theorem C01_edit_history ops :
  observes (run_ops dg_new ops).1 (a_run ops).
Proof. exact (proj1 (edit_history ops)). Qed.
Print Assumptions C01_edit_history.

Example C01_case :
  let ops := [AddNode 7; AddNode 3; AddNode 7; AddEdge 7 3; AddEdge 3 7; AddEdge 3 9; AddEdge 3 3]%N in
  a_run ops = mkA [7; 3]%N [(7, 3); (3, 3)]%N /\
  g_neighbors (as_graph (run_ops dg_new ops).1) 3 = Ok [7; 3; 3]%N.
Proof. split; vm_compute; reflexivity. Qed.

(** C02: results of edits, along any history and one by one on any API graph. *)
Theorem C02_edit_results ops :
  (run_ops dg_new ops).2 = a_results (mkA [] []) ops.
Proof. exact (proj2 (edit_history ops)). Qed.
Print Assumptions C02_edit_results.

Theorem C02_edit_errors_exact d (Hd : Api d) :
  (forall id, (dg_add_node d id).2 =
     if bool_decide (id ∈ g_nodes (as_graph d)) then Err (DuplicateNode id) else Ok tt) /\
  (forall s t, (dg_add_edge d s t).2 =
     if bool_decide (s ∉ g_nodes (as_graph d)) then Err (MissingNode s)
     else if bool_decide (t ∉ g_nodes (as_graph d)) then Err (MissingNode t)
     else if bool_decide (g_has_edge (as_graph d) s t = Ok true) then Err (DuplicateEdge s t)
     else Ok tt).
Proof.
  exact (conj (fun id => add_node_exact d id (api_wf d Hd))
              (fun s t => add_edge_exact d s t (api_wf d Hd))).
Qed.
Print Assumptions C02_edit_errors_exact.

Example C02_case :
  a_results (mkA [] []) [AddNode 7; AddNode 7; AddEdge 9 8; AddEdge 7 8; AddNode 8; AddEdge 7 8; AddEdge 8 7]%N
  = [Ok tt; Err (DuplicateNode 7); Err (MissingNode 9); Err (MissingNode 8); Ok tt; Ok tt;
     Err (DuplicateEdge 8 7)]%N.
Proof. vm_compute; reflexivity. Qed.

(** C03: a call that does not succeed leaves the graph as it was (the very
    same value, so nothing later can tell the difference). *)
Theorem C03_failed_edit_no_effect d (Hd : Api d) o :
  (run_op d o).2 <> Ok tt -> (run_op d o).1 = d.
Proof. exact (failed_op d o (api_wf d Hd)). Qed.
Print Assumptions C03_failed_edit_no_effect.

Example C03_case :
  let d := get (dg_try_from_edges [(0, 1); (1, 2)]%N) in
  Api d /\ (run_op d (AddEdge 2 1)).2 <> Ok tt /\ (run_op d (AddEdge 2 5)).2 <> Ok tt.
Proof. split; [apply get_edges_api; is_ok|]. split; vm_compute; discriminate. Qed.

(** C04: what successful edits do. *)
Theorem C04_add_node_effect d (Hd : Api d) id d' :
  dg_add_node d id = (d', Ok tt) ->
  g_nodes (as_graph d') = g_nodes (as_graph d) ++ [id] /\
  g_edges (as_graph d') = g_edges (as_graph d) /\
  g_neighbors (as_graph d') id = Ok [] /\
  forall v, v <> id -> g_neighbors (as_graph d') v = g_neighbors (as_graph d) v.
Proof. exact (add_node_effect d id d' (api_wf d Hd)). Qed.
Print Assumptions C04_add_node_effect.

Theorem C04_add_edge_effect d (Hd : Api d) s t d' :
  dg_add_edge d s t = (d', Ok tt) ->
  g_nodes (as_graph d') = g_nodes (as_graph d) /\
  g_edges (as_graph d') = g_edges (as_graph d) ++ [(s, t)] /\
  (s <> t -> forall l, g_neighbors (as_graph d) s = Ok l ->
     g_neighbors (as_graph d') s = Ok (l ++ [t])) /\
  (s <> t -> forall l, g_neighbors (as_graph d) t = Ok l ->
     g_neighbors (as_graph d') t = Ok (l ++ [s])) /\
  (s = t -> forall l, g_neighbors (as_graph d) s = Ok l ->
     g_neighbors (as_graph d') s = Ok (l ++ [s; s])) /\
  forall v, v <> s -> v <> t -> g_neighbors (as_graph d') v = g_neighbors (as_graph d) v.
Proof. exact (add_edge_effect d s t d' (api_wf d Hd)). Qed.
Print Assumptions C04_add_edge_effect.

Example C04_case :
  let d := get (dg_try_from_adjacency [[1; 2]; [0]; [0]]%N) in
  Api d /\ (dg_add_node d 5).2 = Ok tt /\ (dg_add_edge d 2 1).2 = Ok tt.
Proof. split; [apply get_rows_api; is_ok|]. split; vm_compute; reflexivity. Qed.

(** C05: nothing panics, and questions about absent nodes are answered with
    the first absent argument. *)
Theorem C05_no_panic d (Hd : Api d) u v :
  total (g_neighbors (as_graph d) u) /\ total (g_degree (as_graph d) u) /\
  total (g_has_edge (as_graph d) u v) /\
  total (dg_add_node d u).2 /\ total (dg_add_edge d u v).2.
Proof. exact (no_panic d (api_wf d Hd) u v). Qed.
Print Assumptions C05_no_panic.

Theorem C05_absent d (Hd : Api d) u v :
  (u ∉ g_nodes (as_graph d) ->
     g_neighbors (as_graph d) u = Err (MissingNode u) /\
     g_degree (as_graph d) u = Err (MissingNode u) /\
     g_has_edge (as_graph d) u v = Err (MissingNode u)) /\
  (u ∈ g_nodes (as_graph d) ->
     (exists l, g_neighbors (as_graph d) u = Ok l /\ g_degree (as_graph d) u = Ok (length l)) /\
     (v ∉ g_nodes (as_graph d) -> g_has_edge (as_graph d) u v = Err (MissingNode v)) /\
     (v ∈ g_nodes (as_graph d) -> exists b, g_has_edge (as_graph d) u v = Ok b)).
Proof. exact (absent_queries d (api_wf d Hd) u v). Qed.
Print Assumptions C05_absent.

Example C05_case :
  let d := get (dg_try_from_edges [(4, 4); (4, 1)]%N) in
  Api d /\ g_nodes (as_graph d) = [4; 1]%N.
Proof. split; [apply get_edges_api; is_ok|vm_compute; reflexivity]. Qed.

(** C06 *)
Theorem C06_undirected d (Hd : Api d) u v :
  u ∈ g_nodes (as_graph d) -> v ∈ g_nodes (as_graph d) ->
  g_has_edge (as_graph d) u v = g_has_edge (as_graph d) v u /\
  (g_has_edge (as_graph d) u v = Ok true <-> adj (as_graph d) u v) /\
  (adj (as_graph d) u v <-> adj (as_graph d) v u).
Proof. exact (undirected d (api_wf d Hd) u v). Qed.
Print Assumptions C06_undirected.

Theorem C06_neighbors_are_nodes d (Hd : Api d) u v :
  adj (as_graph d) u v -> u ∈ g_nodes (as_graph d) /\ v ∈ g_nodes (as_graph d).
Proof. exact (adj_nodes d (api_wf d Hd) u v). Qed.
Print Assumptions C06_neighbors_are_nodes.

(** C07 *)
Theorem C07_edges_once d (Hd : Api d) u v :
  u <> v ->
  adj (as_graph d) u v <-> times_crossed (u, v) (g_edges (as_graph d)) = 1.
Proof. exact (edges_once d (api_wf d Hd) u v). Qed.
Print Assumptions C07_edges_once.

Theorem C07_edges_at_most_once d (Hd : Api d) e :
  times_crossed e (g_edges (as_graph d)) <= 1.
Proof. exact (edges_at_most_once d (api_wf d Hd) e). Qed.
Print Assumptions C07_edges_at_most_once.

Theorem C07_size_and_neighbors d (Hd : Api d) :
  g_size (as_graph d) = length (g_edges (as_graph d)) /\
  forall v l, g_neighbors (as_graph d) v = Ok l -> NoDup (filter (fun w => w <> v) l).
Proof. exact (size_and_neighbors d (api_wf d Hd)). Qed.
Print Assumptions C07_size_and_neighbors.

(** C06 and C07, packaged: an API graph satisfies all the laws used as
    hypothesis by the traversal and matching theorems. *)
Theorem C07_api_lawful d (Hd : Api d) : Lawful (as_graph d).
Proof. exact (api_lawful d Hd). Qed.
Print Assumptions C07_api_lawful.

Example C07_case :
  let d := get (dg_try_from_adjacency [[1; 2]; [0]; [0]]%N) in
  Api d /\ adj (as_graph d) 1 0 /\ g_edges (as_graph d) = [(0, 1); (0, 2)]%N.
Proof.
  split; [apply get_rows_api; is_ok|]. split; [|vm_compute; reflexivity].
  exists [0%N]. split; [vm_compute; reflexivity|left].
Qed.

(** C08: the handshake law fails for adjacency input with a self-loop ... *)
Theorem C08_handshake_refuted :
  exists rows d, dg_try_from_adjacency rows = Ok d /\
    degree_sum (as_graph d) <> 2 * g_size (as_graph d).
Proof. exists [[0%N]]. eexists. split; vm_compute; [reflexivity|discriminate]. Qed.
Print Assumptions C08_handshake_refuted.

(** ... exactly by the number of such loops, and holds otherwise. *)
Theorem C08_handshake_exact d (Hd : Api d) :
  degree_sum (as_graph d) = 2 * g_size (as_graph d) + length (unlisted_loops (as_graph d)).
Proof. exact (handshake_exact d Hd). Qed.
Print Assumptions C08_handshake_exact.

Theorem C08_handshake_partial d (Hd : Api d) :
  LoopsListed (as_graph d) -> degree_sum (as_graph d) = 2 * g_size (as_graph d).
Proof. exact (handshake_listed d Hd). Qed.
Print Assumptions C08_handshake_partial.

(** [LoopsListed] holds after any edit history from [new], and for every
    loop-free graph. *)
Theorem C08_edits_list_loops ops : LoopsListed (as_graph (run_ops dg_new ops).1).
Proof. exact (run_ops_listed ops). Qed.
Print Assumptions C08_edits_list_loops.

Theorem C08_edge_lists_list_loops es d :
  dg_try_from_edges es = Ok d -> LoopsListed (as_graph d).
Proof. exact (try_from_edges_listed es d). Qed.
Print Assumptions C08_edge_lists_list_loops.

Example C08_case :
  let d := get (dg_try_from_edges [(0, 1); (1, 1); (1, 2)]%N) in
  Api d /\ LoopsListed (as_graph d) /\ degree_sum (as_graph d) = 6.
Proof.
  assert (Api (get (dg_try_from_edges [(0, 1); (1, 1); (1, 2)]%N))) by (apply get_edges_api; is_ok).
  split; [done|]. split; [apply loops_listed_check; [done|]|]; vm_compute; reflexivity.
Qed.

(** C09 *)
Theorem C09_adjacency_accepts rows :
  (exists d, dg_try_from_adjacency rows = Ok d) <-> valid_rows rows.
Proof. exact (proj1 (try_from_adjacency_spec rows)). Qed.
Print Assumptions C09_adjacency_accepts.

Theorem C09_adjacency_result rows d :
  dg_try_from_adjacency rows = Ok d ->
  g_nodes (as_graph d) = N.of_nat <$> seq 0 (length rows) /\
  forall i, g_neighbors (as_graph d) i =
    match rows !! N.to_nat i with Some r => Ok r | None => Err (MissingNode i) end.
Proof. exact (proj2 (try_from_adjacency_spec rows) d). Qed.
Print Assumptions C09_adjacency_result.

(** [edges()] lists the entries above the diagonal, row by row (so it never
    lists a self-loop), and [size()] counts them. *)
Theorem C09_adjacency_edges rows d :
  dg_try_from_adjacency rows = Ok d ->
  g_edges (as_graph d) = upper_entries 0 rows /\ g_size (as_graph d) = length (upper_entries 0 rows).
Proof.
  intros H. pose proof (try_from_adjacency_edges rows d H) as He. split; [done|].
  by rewrite <-He.
Qed.
Print Assumptions C09_adjacency_edges.
Example C09_edges_case :
  g_edges (as_graph (get (dg_try_from_adjacency [[2; 1]; [1; 0; 2]; [1; 0; 3]; [2]]%N))) =
    [(0, 2); (0, 1); (1, 2); (2, 3)]%N.
Proof. vm_compute. done. Qed.

Example C09_case : exists d, dg_try_from_adjacency [[1; 2]; [0; 2]; [1; 0; 3]; [2]]%N = Ok d.
Proof. is_ok. Qed.

(** C10 *)
Theorem C10_first_defect rows e :
  dg_try_from_adjacency rows = Err e <->
  exists i j, entry_defect rows i j = Some e /\
    forall i' j', entry_before i' j' i j -> entry_defect rows i' j' = None.
Proof. exact (try_from_adjacency_err rows e). Qed.
Print Assumptions C10_first_defect.

Theorem C10_total rows : total (dg_try_from_adjacency rows).
Proof. exact (try_from_adjacency_total rows). Qed.
Print Assumptions C10_total.

Example C10_case :
  dg_try_from_adjacency [[1; 2; 1]; [0]; []]%N = Err (DuplicateEdge 0 1)%N /\
  dg_try_from_adjacency [[1; 2]; [0]; []]%N = Err (MissingEdge 2 0)%N /\
  dg_try_from_adjacency [[1]; [0; 7; 7]]%N = Err (MissingNode 7)%N.
Proof. vm_compute. done. Qed.

(** C11 *)
Theorem C11_edge_list_accepts es :
  (exists d, dg_try_from_edges es = Ok d) <-> distinct_edges es.
Proof. exact (try_from_edges_ok es). Qed.
Print Assumptions C11_edge_list_accepts.

Theorem C11_edge_list_result es d :
  dg_try_from_edges es = Ok d ->
  g_edges (as_graph d) = es /\ g_nodes (as_graph d) = first_mentions (endpoints es) /\
  forall u v, adj (as_graph d) u v <-> (u, v) ∈ es \/ (v, u) ∈ es.
Proof. intros H. by destruct (try_from_edges_result es d H) as (? & ? & ? & _). Qed.
Print Assumptions C11_edge_list_result.

(** All nine queries answer as for the graph with these edges: in particular
    [neighbors(v)] lists, edge by edge, the other end (both ends of a
    self-loop). *)
Theorem C11_edge_list_queries es d :
  dg_try_from_edges es = Ok d -> observes d (mkA (first_mentions (endpoints es)) es).
Proof. intros H. by destruct (try_from_edges_result es d H) as (_ & _ & _ & ?). Qed.
Print Assumptions C11_edge_list_queries.
Example C11_queries_case :
  let d := get (dg_try_from_edges [(5, 1); (3, 5); (5, 5); (1, 3)]%N) in
  dg_try_from_edges [(5, 1); (3, 5); (5, 5); (1, 3)]%N = Ok d /\
  g_neighbors (as_graph d) 5%N = Ok [1; 3; 5; 5]%N.
Proof. vm_compute. done. Qed.

Theorem C11_edge_list_error es e :
  dg_try_from_edges es = Err e <->
  exists pre s t post, es = pre ++ (s, t) :: post /\ distinct_edges pre /\
    ((s, t) ∈ pre \/ (t, s) ∈ pre) /\ e = DuplicateEdge s t.
Proof. exact (try_from_edges_err es e). Qed.
Print Assumptions C11_edge_list_error.

Theorem C11_total es : total (dg_try_from_edges es).
Proof. exact (try_from_edges_total es). Qed.
Print Assumptions C11_total.

Example C11_case :
  (exists d, dg_try_from_edges [(5, 1); (1, 5)]%N = Err (DuplicateEdge 1 5)%N /\
             dg_try_from_edges [(5, 1); (1, 3); (3, 3)]%N = Ok d /\
             g_nodes (as_graph d) = [5; 1; 3]%N).
Proof. eexists. vm_compute. done. Qed.

(** C12: equality is not extensional in the presence of adjacency self-loops ... *)
Theorem C12_equality_refuted :
  exists d1 d2, Api d1 /\ Api d2 /\ dg_eq d1 d2 = Ok true /\
    g_has_edge (as_graph d1) 0 0 = Ok true /\ g_has_edge (as_graph d2) 0 0 = Ok false.
Proof.
  exists (get (dg_try_from_adjacency [[0]]%N)), (get (dg_try_from_adjacency [[]])).
  split; [apply get_rows_api; is_ok|]. split; [apply get_rows_api; is_ok|].
  vm_compute. done.
Qed.
Print Assumptions C12_equality_refuted.

(** ... and is extensional otherwise. *)
Theorem C12_equality_partial d1 d2 (H1 : Api d1) (H2 : Api d2) :
  LoopsListed (as_graph d1) -> LoopsListed (as_graph d2) ->
  exists b, dg_eq d1 d2 = Ok b /\ (b = true <-> same_graph (as_graph d1) (as_graph d2)).
Proof. exact (eq_ext d1 d2 (api_wf d1 H1) (api_wf d2 H2)). Qed.
Print Assumptions C12_equality_partial.

(** What [==] tests on every pair of graphs: the same nodes, as many edges, and
    every edge that the left graph lists is an edge of the right one. *)
Theorem C12_equality_exact d1 d2 (H1 : Api d1) (H2 : Api d2) :
  exists b, dg_eq d1 d2 = Ok b /\
    (b = true <->
      (forall v, v ∈ g_nodes (as_graph d1) <-> v ∈ g_nodes (as_graph d2)) /\
      g_size (as_graph d1) = g_size (as_graph d2) /\
      (forall u v, (u, v) ∈ g_edges (as_graph d1) -> adj (as_graph d2) u v)).
Proof.
  pose proof (api_wf d1 H1) as W1. pose proof (api_wf d2 H2) as W2.
  destruct (dg_eq_spec d1 d2 W2) as (b & E & Hb). exists b. split; [done|].
  assert (Hadj : forall u v, adj (as_graph d2) u v <-> v ∈ row d2 u)
    by (intros; apply adj_row, wf_idx, W2).
  split.
  - intros ->. destruct (proj1 Hb eq_refl) as (Hs & Ho & Hn & He).
    split_and!; [by apply eq_wf|done|]. intros u v Huv. by apply Hadj, He.
  - intros (Hn & Hs & He). apply Hb. simpl in *. unfold dg_size in Hs. split_and!; [done| | |].
    + apply Permutation_length, NoDup_Permutation; [by apply ix_nodup, wf_idx..|done].
    + intros v Hv. by apply Hn.
    + intros u v Huv. by apply Hadj, He.
Qed.
Print Assumptions C12_equality_exact.

Example C12_case :
  let d1 := get (dg_try_from_edges [(0, 1); (1, 2); (2, 2)]%N) in
  let d2 := get (dg_try_from_edges [(2, 2); (2, 1); (0, 1)]%N) in
  Api d1 /\ Api d2 /\ LoopsListed (as_graph d1) /\ LoopsListed (as_graph d2) /\
  dg_eq d1 d2 = Ok true.
Proof.
  assert (Api (get (dg_try_from_edges [(0, 1); (1, 2); (2, 2)]%N))) by (apply get_edges_api; is_ok).
  assert (Api (get (dg_try_from_edges [(2, 2); (2, 1); (0, 1)]%N))) by (apply get_edges_api; is_ok).
  split; [done|]. split; [done|].
  split; [apply loops_listed_check; [done|vm_compute; reflexivity]|].
  split; [apply loops_listed_check; [done|vm_compute; reflexivity]|].
  vm_compute. reflexivity.
Qed.

(** C13 *)
Theorem C13_eq_total d1 d2 (H1 : Api d1) (H2 : Api d2) : exists b, dg_eq d1 d2 = Ok b.
Proof. exact (eq_total d1 d2 (api_wf d2 H2)). Qed.
Print Assumptions C13_eq_total.

Theorem C13_eq_reflexive d (Hd : Api d) : dg_eq d d = Ok true.
Proof. exact (eq_refl_wf d (api_wf d Hd)). Qed.
Print Assumptions C13_eq_reflexive.

Theorem C13_eq_symmetric_refuted :
  exists a b, Api a /\ Api b /\ dg_eq b a = Ok true /\ dg_eq a b = Ok false.
Proof.
  exists (get (dg_try_from_adjacency [[0; 1]; [0]]%N)),
         (run_ops dg_new [AddNode 0; AddNode 1; AddEdge 0 0]%N).1.
  split; [apply get_rows_api; is_ok|]. split; [|vm_compute; done].
  exact (run_ops_api [AddNode 0; AddNode 1; AddEdge 0 0]%N dg_new api_new).
Qed.
Print Assumptions C13_eq_symmetric_refuted.

Theorem C13_eq_transitive_refuted :
  exists a b c, Api a /\ Api b /\ Api c /\
    dg_eq a b = Ok true /\ dg_eq b c = Ok true /\ dg_eq a c = Ok false.
Proof.
  exists (run_ops dg_new [AddNode 0; AddNode 1; AddEdge 0 0]%N).1,
         (get (dg_try_from_adjacency [[0; 1]; [0]]%N)),
         (get (dg_try_from_adjacency [[1]; [0]]%N)).
  split; [exact (run_ops_api [AddNode 0; AddNode 1; AddEdge 0 0]%N dg_new api_new)|].
  split; [apply get_rows_api; is_ok|]. split; [apply get_rows_api; is_ok|]. vm_compute. done.
Qed.
Print Assumptions C13_eq_transitive_refuted.

Theorem C13_eq_symmetric_partial d1 d2 (H1 : Api d1) (H2 : Api d2) :
  LoopsListed (as_graph d1) -> LoopsListed (as_graph d2) -> dg_eq d1 d2 = dg_eq d2 d1.
Proof. exact (eq_symmetric d1 d2 (api_wf d1 H1) (api_wf d2 H2)). Qed.
Print Assumptions C13_eq_symmetric_partial.

Theorem C13_eq_transitive_partial d1 d2 d3 (H1 : Api d1) (H2 : Api d2) (H3 : Api d3) :
  LoopsListed (as_graph d1) -> LoopsListed (as_graph d2) -> LoopsListed (as_graph d3) ->
  dg_eq d1 d2 = Ok true -> dg_eq d2 d3 = Ok true -> dg_eq d1 d3 = Ok true.
Proof. exact (eq_transitive d1 d2 d3 (api_wf d1 H1) (api_wf d2 H2) (api_wf d3 H3)). Qed.
Print Assumptions C13_eq_transitive_partial.

(** The hypotheses of the two theorems above are those of C12, see [C12_case]. *)

(** C14 *)
Theorem C14_round_trip d (Hd : Api d) :
  exists d', dg_try_from_edges (g_edges (as_graph d)) = Ok d' /\
    g_edges (as_graph d') = g_edges (as_graph d) /\
    (forall v, v ∈ g_nodes (as_graph d') <->
       exists u, (v, u) ∈ g_edges (as_graph d) \/ (u, v) ∈ g_edges (as_graph d)) /\
    (forall u v, u <> v -> adj (as_graph d') u v <-> adj (as_graph d) u v) /\
    (forall v, adj (as_graph d') v v <-> (v, v) ∈ g_edges (as_graph d)) /\
    ((forall v, v ∈ g_nodes (as_graph d) -> exists u, u <> v /\ adj (as_graph d) v u) ->
       dg_eq d' d = Ok true /\ dg_eq d d' = Ok true).
Proof. exact (round_trip d (api_wf d Hd)). Qed.
Print Assumptions C14_round_trip.

Example C14_case :
  let d := get (dg_try_from_adjacency [[2; 1]; [0]; [0]]%N) in
  Api d /\ forall v, v ∈ g_nodes (as_graph d) -> exists u, u <> v /\ adj (as_graph d) v u.
Proof.
  split; [apply get_rows_api; is_ok|]. intros v Hv. vm_compute in Hv.
  apply elem_of_cons in Hv as [->|Hv]; [exists 2%N|].
  { split; [done|]. eexists. split; [vm_compute; reflexivity|left]. }
  exists 0%N. apply elem_of_cons in Hv as [->|[->|Hv]%elem_of_cons]; [..|by apply elem_of_nil in Hv];
    (split; [done|]; eexists; split; [vm_compute; reflexivity|left]).
Qed.

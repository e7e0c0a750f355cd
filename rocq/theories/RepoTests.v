(** The unit tests of the repository, replayed on the model by evaluation.
    Generated by tools/repo_tests.py from /repo/src.  These are tests of the
    model's fidelity, not claims. *)
From Verif Require Import Outcome GraphModel TraversalModel ComponentsModel PairingModel GreedyModel
  MaximumModel.
Local Open Scope N_scope.

Definition canon : hash_order := fun _ p => map_to_list p.
Definition check (b : bool) : comp unit := if b then Ok tt else Panic PNone.
Definition is_err {A} (m : comp A) (want : comp unit) : bool :=
  match m, want with Err e, Err e' => bool_decide (e = e') | _, _ => false end.
Fixpoint eq_all (a b : list DefaultGraph) : comp bool :=
  match a, b with
  | [], [] => Ok true
  | x :: a', y :: b' => let! s := dg_eq x y in if s : bool then eq_all a' b' else Ok false
  | _, _ => Ok false
  end.
Definition same_items {A} `{EqDecision A} (a b : list A) : bool :=
  bool_decide (Forall (fun x => x ∈ b) a) && bool_decide (Forall (fun x => x ∈ a) b).
(** forest.rs:43-47  [even_nodes]. *)
Definition even_nodes (f : Forest) : list N :=
  filter (fun v => match f_parents f !! v with Some (mkEntry _ Even) => true | _ => false end = true) (f_nodes f).

(** ** graph/default_graph.rs *)
(** graph/default_graph.rs:250 *)
Example test_default_graph_try_from_adjacency_missing_node : (let graph := dg_try_from_adjacency ([ [ 1 ] ]) in let! _ := check (is_err graph (Err (MissingNode 1))) in Ok true) = Ok true.
Proof. vm_compute. reflexivity. Qed.
(** graph/default_graph.rs:259 *)
Example test_default_graph_try_from_adjacency_duplicate_edge : (let graph := dg_try_from_adjacency ([ [ 1; 1 ]; [ 0 ] ]) in let! _ := check (is_err graph (Err (DuplicateEdge 0  1))) in Ok true) = Ok true.
Proof. vm_compute. reflexivity. Qed.
(** graph/default_graph.rs:269 *)
Example test_default_graph_try_from_adjacency_missing_edge : (let graph := dg_try_from_adjacency ([ [ 1 ]; [ ] ]) in let! _ := check (is_err graph (Err (MissingEdge 1  0))) in Ok true) = Ok true.
Proof. vm_compute. reflexivity. Qed.
(** graph/default_graph.rs:284 *)
Example test_default_graph_try_from_edges_duplicate_edge : (let graph := dg_try_from_edges ([ (0, 1); (0, 1) ]) in let! _ := check (is_err graph (Err (DuplicateEdge 0  1))) in Ok true) = Ok true.
Proof. vm_compute. reflexivity. Qed.
(** graph/default_graph.rs:294 *)
Example test_default_graph_try_from_edges_duplicate_edge_reverse : (let graph := dg_try_from_edges ([ (0, 1); (1, 0) ]) in let! _ := check (is_err graph (Err (DuplicateEdge 1  0))) in Ok true) = Ok true.
Proof. vm_compute. reflexivity. Qed.
(** graph/default_graph.rs:304 *)
Example test_default_graph_try_from_edges_valid : (let! graph := unwrap (dg_try_from_edges ([ (0, 1); (1, 2); (3, 4) ])) in let expected := dg_new in let '(expected, r) := dg_add_node expected 0 in let! _ := check (bool_decide (r = Ok tt)) in let '(expected, r) := dg_add_node expected 1 in let! _ := check (bool_decide (r = Ok tt)) in let '(expected, r) := dg_add_node expected 2 in let! _ := check (bool_decide (r = Ok tt)) in let '(expected, r) := dg_add_node expected 3 in let! _ := check (bool_decide (r = Ok tt)) in let '(expected, r) := dg_add_node expected 4 in let! _ := check (bool_decide (r = Ok tt)) in let '(expected, r) := dg_add_edge expected 0  1 in let! _ := check (bool_decide (r = Ok tt)) in let '(expected, r) := dg_add_edge expected 1  2 in let! _ := check (bool_decide (r = Ok tt)) in let '(expected, r) := dg_add_edge expected 3  4 in let! _ := check (bool_decide (r = Ok tt)) in let! same := dg_eq graph expected in let! _ := check (same) in Ok true) = Ok true.
Proof. vm_compute. reflexivity. Qed.
(** graph/default_graph.rs:330 *)
Example test_default_graph_try_from_depth_first_p3_internal : (let! g1 := unwrap (dg_try_from_adjacency ([ [ 1 ]; [ 0; 2 ]; [ 1 ] ])) in let! traversal := unwrap (dfs_new (as_graph g1) 1) in let! g2 := unwrap (dg_try_from_dfs 1000 (as_graph g1) traversal) in let! _ := check (bool_decide (g_edges (as_graph g2) = [ (1, 0); (1, 2) ])) in Ok true) = Ok true.
Proof. vm_compute. reflexivity. Qed.
(** graph/default_graph.rs:343 *)
Example test_default_graph_try_from_depth_first_c3 : (let! g1 := unwrap (dg_try_from_adjacency ([ [ 1; 2 ]; [ 0; 2 ]; [ 1; 0 ] ])) in let! traversal := unwrap (dfs_new (as_graph g1) 0) in let! g2 := unwrap (dg_try_from_dfs 1000 (as_graph g1) traversal) in let! _ := check (bool_decide (g_edges (as_graph g2) = [ (0, 1); (1, 2); (2, 0) ])) in Ok true) = Ok true.
Proof. vm_compute. reflexivity. Qed.
(** graph/default_graph.rs:361 *)
Example test_default_graph_add_node_duplicate : (let! graph := unwrap (dg_try_from_adjacency ([ [ ] ])) in let '(graph, r) := dg_add_node graph 0 in let! _ := check (bool_decide (r = Err (DuplicateNode 0))) in Ok true) = Ok true.
Proof. vm_compute. reflexivity. Qed.
(** graph/default_graph.rs:375 *)
Example test_default_graph_add_edge_duplicate : (let! graph := unwrap (dg_try_from_adjacency ([ [ 1 ]; [ 0 ] ])) in let '(graph, r) := dg_add_edge graph 0  1 in let! _ := check (bool_decide (r = Err (DuplicateEdge 0  1))) in Ok true) = Ok true.
Proof. vm_compute. reflexivity. Qed.
(** graph/default_graph.rs:385 *)
Example test_default_graph_add_edge_duplicate_reverse : (let! graph := unwrap (dg_try_from_adjacency ([ [ 1 ]; [ 0 ] ])) in let '(graph, r) := dg_add_edge graph 1  0 in let! _ := check (bool_decide (r = Err (DuplicateEdge 1  0))) in Ok true) = Ok true.
Proof. vm_compute. reflexivity. Qed.
(** graph/default_graph.rs:395 *)
Example test_default_graph_add_edge_missing_sid : (let! graph := unwrap (dg_try_from_adjacency ([ [ ] ])) in let '(graph, r) := dg_add_edge graph 1  0 in let! _ := check (bool_decide (r = Err (MissingNode 1))) in Ok true) = Ok true.
Proof. vm_compute. reflexivity. Qed.
(** graph/default_graph.rs:404 *)
Example test_default_graph_add_edge_missing_tid : (let! graph := unwrap (dg_try_from_adjacency ([ [ ] ])) in let '(graph, r) := dg_add_edge graph 0  1 in let! _ := check (bool_decide (r = Err (MissingNode 1))) in Ok true) = Ok true.
Proof. vm_compute. reflexivity. Qed.
(** graph/default_graph.rs:418 *)
Example test_default_graph_is_empty_p0 : (let graph := dg_new in let! _ := check (bool_decide (dg_is_empty graph = true)) in Ok true) = Ok true.
Proof. vm_compute. reflexivity. Qed.
(** graph/default_graph.rs:425 *)
Example test_default_graph_is_empty_p1 : (let! graph := unwrap (dg_try_from_adjacency ([ [ ] ])) in let! _ := check (bool_decide (dg_is_empty graph = false)) in Ok true) = Ok true.
Proof. vm_compute. reflexivity. Qed.
(** graph/default_graph.rs:439 *)
Example test_default_graph_order_p0 : (let graph := dg_new in let! _ := check (bool_decide (dg_order graph = 0%nat)) in Ok true) = Ok true.
Proof. vm_compute. reflexivity. Qed.
(** graph/default_graph.rs:446 *)
Example test_default_graph_order_p3 : (let! graph := unwrap (dg_try_from_adjacency ([ [ 1 ]; [ 0; 2 ]; [ 1 ] ])) in let! _ := check (bool_decide (dg_order graph = 3%nat)) in Ok true) = Ok true.
Proof. vm_compute. reflexivity. Qed.
(** graph/default_graph.rs:462 *)
Example test_default_graph_size_p0 : (let graph := dg_new in let! _ := check (bool_decide (dg_size graph = 0%nat)) in Ok true) = Ok true.
Proof. vm_compute. reflexivity. Qed.
(** graph/default_graph.rs:469 *)
Example test_default_graph_size_p3 : (let! graph := unwrap (dg_try_from_adjacency ([ [ 1 ]; [ 0; 2 ]; [ 1 ] ])) in let! _ := check (bool_decide (dg_size graph = 2%nat)) in Ok true) = Ok true.
Proof. vm_compute. reflexivity. Qed.
(** graph/default_graph.rs:485 *)
Example test_default_graph_nodes_p0 : (let graph := dg_new in let! _ := check (bool_decide (g_nodes (as_graph graph) = [ ])) in Ok true) = Ok true.
Proof. vm_compute. reflexivity. Qed.
(** graph/default_graph.rs:492 *)
Example test_default_graph_nodes_p3 : (let! graph := unwrap (dg_try_from_adjacency ([ [ 1 ]; [ 0; 2 ]; [ 1 ] ])) in let! _ := check (bool_decide (g_nodes (as_graph graph) = [ 0; 1; 2 ])) in Ok true) = Ok true.
Proof. vm_compute. reflexivity. Qed.
(** graph/default_graph.rs:508 *)
Example test_default_graph_neighbors_given_outside : (let graph := dg_new in let! _ := check (bool_decide (dg_neighbors graph 1 = Err (MissingNode 1))) in Ok true) = Ok true.
Proof. vm_compute. reflexivity. Qed.
(** graph/default_graph.rs:515 *)
Example test_default_graph_neighbors_given_inside_p3 : (let! graph := unwrap (dg_try_from_adjacency ([ [ 1 ]; [ 0; 2 ]; [ 1 ] ])) in let! _ := check (bool_decide (dg_neighbors graph 1 = Ok ([ 0; 2 ]))) in Ok true) = Ok true.
Proof. vm_compute. reflexivity. Qed.
(** graph/default_graph.rs:531 *)
Example test_default_graph_has_node_given_outside : (let graph := dg_new in let! _ := check (bool_decide (dg_has_node graph 0 = false)) in Ok true) = Ok true.
Proof. vm_compute. reflexivity. Qed.
(** graph/default_graph.rs:538 *)
Example test_default_graph_has_node_given_inside_p1 : (let! graph := unwrap (dg_try_from_adjacency ([ [ ] ])) in let! _ := check (bool_decide (dg_has_node graph 0 = true)) in Ok true) = Ok true.
Proof. vm_compute. reflexivity. Qed.
(** graph/default_graph.rs:552 *)
Example test_default_graph_degree_given_outside : (let graph := dg_new in let! _ := check (bool_decide (dg_degree graph 0 = Err (MissingNode 0))) in Ok true) = Ok true.
Proof. vm_compute. reflexivity. Qed.
(** graph/default_graph.rs:559 *)
Example test_default_graph_degree_given_inside_p3 : (let! graph := unwrap (dg_try_from_adjacency ([ [ 1 ]; [ 0; 2 ]; [ 1 ] ])) in let! _ := check (bool_decide (dg_degree graph 1 = Ok 2%nat)) in Ok true) = Ok true.
Proof. vm_compute. reflexivity. Qed.
(** graph/default_graph.rs:575 *)
Example test_default_graph_edges_p0 : (let graph := dg_new in let! _ := check (bool_decide (g_edges (as_graph graph) = [ ])) in Ok true) = Ok true.
Proof. vm_compute. reflexivity. Qed.
(** graph/default_graph.rs:582 *)
Example test_default_graph_edges_p3 : (let! graph := unwrap (dg_try_from_adjacency ([ [ 1 ]; [ 0; 2 ]; [ 1 ] ])) in let! _ := check (bool_decide (g_edges (as_graph graph) = [ (0, 1); (1, 2) ])) in Ok true) = Ok true.
Proof. vm_compute. reflexivity. Qed.
(** graph/default_graph.rs:598 *)
Example test_default_graph_has_edge_unk_unk : (let graph := dg_new in let! _ := check (bool_decide (dg_has_edge graph 0  1 = Err (MissingNode 0))) in Ok true) = Ok true.
Proof. vm_compute. reflexivity. Qed.
(** graph/default_graph.rs:605 *)
Example test_default_graph_has_edge_sid_unk : (let! graph := unwrap (dg_try_from_adjacency ([ [ ] ])) in let! _ := check (bool_decide (dg_has_edge graph 0  1 = Err (MissingNode 1))) in Ok true) = Ok true.
Proof. vm_compute. reflexivity. Qed.
(** graph/default_graph.rs:614 *)
Example test_default_graph_has_edge_sid_tid : (let! graph := unwrap (dg_try_from_adjacency ([ [ 1 ]; [ 0 ] ])) in let! _ := check (bool_decide (dg_has_edge graph 0  1 = Ok true)) in Ok true) = Ok true.
Proof. vm_compute. reflexivity. Qed.
(** graph/default_graph.rs:624 *)
Example test_default_graph_has_edge_tid_sid : (let! graph := unwrap (dg_try_from_adjacency ([ [ 1 ]; [ 0 ] ])) in let! _ := check (bool_decide (dg_has_edge graph 1  0 = Ok true)) in Ok true) = Ok true.
Proof. vm_compute. reflexivity. Qed.
(** graph/default_graph.rs:639 *)
Example test_default_graph_eq_c3_and_p3 : (let! c3 := unwrap (dg_try_from_adjacency ([ [ 1; 2 ]; [ 0; 2 ]; [ 1; 0 ] ])) in let! p3 := unwrap (dg_try_from_adjacency ([ [ 1 ]; [ 0; 2 ]; [ 1 ] ])) in let! same := dg_eq c3 p3 in let! _ := check (Bool.eqb same false) in Ok true) = Ok true.
Proof. vm_compute. reflexivity. Qed.
(** graph/default_graph.rs:655 *)
Example test_default_graph_eq_p2_and_p2_p1 : (let! p2 := unwrap (dg_try_from_adjacency ([ [ 1 ]; [ 0 ] ])) in let! p2_p1 := unwrap (dg_try_from_adjacency ([ [ 1 ]; [ 0 ]; [ ]])) in let! same := dg_eq p2 p2_p1 in let! _ := check (Bool.eqb same false) in Ok true) = Ok true.
Proof. vm_compute. reflexivity. Qed.
(** graph/default_graph.rs:670 *)
Example test_default_graph_eq_p2_and_p2_reverse : (let! g1 := unwrap (dg_try_from_edges ([ (0, 1) ])) in let! g2 := unwrap (dg_try_from_edges ([ (1, 0) ])) in let! same := dg_eq g1 g2 in let! _ := check (Bool.eqb same true) in Ok true) = Ok true.
Proof. vm_compute. reflexivity. Qed.
(** graph/default_graph.rs:682 *)
Example test_default_graph_eq_p2_and_p2_different_ids : (let! g1 := unwrap (dg_try_from_edges ([ (0, 1) ])) in let! g2 := unwrap (dg_try_from_edges ([ (0, 2) ])) in let! same := dg_eq g1 g2 in let! _ := check (Bool.eqb same false) in Ok true) = Ok true.
Proof. vm_compute. reflexivity. Qed.
(** ** traversal/breadth_first.rs *)
(** traversal/breadth_first.rs:106 *)
Example test_breadth_first_tests_nonmember_root : (let! graph := unwrap (dg_try_from_adjacency ([ [ ] ])) in let! traversal := unwrap (bfs_new (as_graph graph) 0) in let! steps := bfs_collect 1000 (as_graph graph) traversal in let! _ := check (bool_decide (steps = [ ])) in Ok true) = Ok true.
Proof. vm_compute. reflexivity. Qed.
(** traversal/breadth_first.rs:116 *)
Example test_breadth_first_tests_p1 : (let! graph := unwrap (dg_try_from_adjacency ([ [ ] ])) in let! traversal := unwrap (bfs_new (as_graph graph) 0) in let! steps := bfs_collect 1000 (as_graph graph) traversal in let! _ := check (bool_decide (steps = [ ])) in Ok true) = Ok true.
Proof. vm_compute. reflexivity. Qed.
(** traversal/breadth_first.rs:126 *)
Example test_breadth_first_tests_p2 : (let! graph := unwrap (dg_try_from_adjacency ([ [ 1 ]; [ 0 ] ])) in let! traversal := unwrap (bfs_new (as_graph graph) 0) in let! steps := bfs_collect 1000 (as_graph graph) traversal in let! _ := check (bool_decide (steps = [ mkStep 0 1 false ])) in Ok true) = Ok true.
Proof. vm_compute. reflexivity. Qed.
(** traversal/breadth_first.rs:139 *)
Example test_breadth_first_tests_p3_primary : (let! graph := unwrap (dg_try_from_adjacency ([ [ 1 ]; [ 0; 2 ]; [ 1 ] ])) in let! traversal := unwrap (bfs_new (as_graph graph) 0) in let! steps := bfs_collect 1000 (as_graph graph) traversal in let! _ := check (bool_decide (steps = [ mkStep 0 1 false; mkStep 1 2 false ])) in Ok true) = Ok true.
Proof. vm_compute. reflexivity. Qed.
(** traversal/breadth_first.rs:154 *)
Example test_breadth_first_tests_p3_secondary : (let! graph := unwrap (dg_try_from_adjacency ([ [ 1 ]; [ 0; 2 ]; [ 1 ] ])) in let! traversal := unwrap (bfs_new (as_graph graph) 1) in let! steps := bfs_collect 1000 (as_graph graph) traversal in let! _ := check (bool_decide (steps = [ mkStep 1 0 false; mkStep 1 2 false ])) in Ok true) = Ok true.
Proof. vm_compute. reflexivity. Qed.
(** traversal/breadth_first.rs:169 *)
Example test_breadth_first_tests_p4_primary : (let! graph := unwrap (dg_try_from_adjacency ([ [ 1 ]; [ 0; 2 ]; [ 1; 3 ]; [ 2 ] ])) in let! traversal := unwrap (bfs_new (as_graph graph) 1) in let! steps := bfs_collect 1000 (as_graph graph) traversal in let! _ := check (bool_decide (steps = [ mkStep 1 0 false; mkStep 1 2 false; mkStep 2 3 false ])) in Ok true) = Ok true.
Proof. vm_compute. reflexivity. Qed.
(** traversal/breadth_first.rs:186 *)
Example test_breadth_first_tests_s3_tertiary : (let! graph := unwrap (dg_try_from_adjacency ([ [ 1; 2; 3 ]; [ 0 ]; [ 0 ]; [ 0 ] ])) in let! traversal := unwrap (bfs_new (as_graph graph) 0) in let! steps := bfs_collect 1000 (as_graph graph) traversal in let! _ := check (bool_decide (steps = [ mkStep 0 1 false; mkStep 0 2 false; mkStep 0 3 false ])) in Ok true) = Ok true.
Proof. vm_compute. reflexivity. Qed.
(** traversal/breadth_first.rs:203 *)
Example test_breadth_first_tests_s3_primary : (let! graph := unwrap (dg_try_from_adjacency ([ [ 1; 2; 3 ]; [ 0 ]; [ 0 ]; [ 0 ] ])) in let! traversal := unwrap (bfs_new (as_graph graph) 1) in let! steps := bfs_collect 1000 (as_graph graph) traversal in let! _ := check (bool_decide (steps = [ mkStep 1 0 false; mkStep 0 2 false; mkStep 0 3 false ])) in Ok true) = Ok true.
Proof. vm_compute. reflexivity. Qed.
(** traversal/breadth_first.rs:220 *)
Example test_breadth_first_tests_c3 : (let! graph := unwrap (dg_try_from_adjacency ([ [ 1; 2 ]; [ 0; 2 ]; [ 1; 0 ] ])) in let! traversal := unwrap (bfs_new (as_graph graph) 0) in let! steps := bfs_collect 1000 (as_graph graph) traversal in let! _ := check (bool_decide (steps = [ mkStep 0 1 false; mkStep 0 2 false; mkStep 1 2 true ])) in Ok true) = Ok true.
Proof. vm_compute. reflexivity. Qed.
(** traversal/breadth_first.rs:236 *)
Example test_breadth_first_tests_c4 : (let! graph := unwrap (dg_try_from_adjacency ([ [ 1; 3 ]; [ 0; 2 ]; [ 1; 3 ]; [ 2; 0 ] ])) in let! traversal := unwrap (bfs_new (as_graph graph) 0) in let! steps := bfs_collect 1000 (as_graph graph) traversal in let! _ := check (bool_decide (steps = [ mkStep 0 1 false; mkStep 0 3 false; mkStep 1 2 false; mkStep 3 2 true ])) in Ok true) = Ok true.
Proof. vm_compute. reflexivity. Qed.
(** traversal/breadth_first.rs:254 *)
Example test_breadth_first_tests_diamond : (let! graph := unwrap (dg_try_from_adjacency ([ [ 1; 2; 3 ]; [ 2; 0 ]; [ 0; 1; 3 ]; [ 0; 2 ] ])) in let! bfs := unwrap (bfs_new (as_graph graph) 0) in let! steps := bfs_collect 1000 (as_graph graph) bfs in let! _ := check (bool_decide (steps = [ mkStep 0 1 false; mkStep 0 2 false; mkStep 0 3 false; mkStep 1 2 true; mkStep 2 3 true ])) in Ok true) = Ok true.
Proof. vm_compute. reflexivity. Qed.
(** traversal/breadth_first.rs:273 *)
Example test_breadth_first_tests_flower_from_stalk : (let! graph := unwrap (dg_try_from_adjacency ([ [ 1 ]; [ 0; 2; 3 ]; [ 1; 3 ]; [ 2; 1 ] ])) in let! bfs := unwrap (bfs_new (as_graph graph) 0) in let! steps := bfs_collect 1000 (as_graph graph) bfs in let! _ := check (bool_decide (steps = [ mkStep 0 1 false; mkStep 1 2 false; mkStep 1 3 false; mkStep 2 3 true ])) in Ok true) = Ok true.
Proof. vm_compute. reflexivity. Qed.
(** traversal/breadth_first.rs:291 *)
Example test_breadth_first_tests_t2_primary : (let! graph := unwrap (dg_try_from_adjacency ([ [ 1; 4 ]; [ 0; 2; 3 ]; [ 1; 5 ]; [ 1; 6 ]; [ 0 ]; [ 2 ]; [ 3 ] ])) in let! bfs := unwrap (bfs_new (as_graph graph) 0) in let! steps := bfs_collect 1000 (as_graph graph) bfs in let! _ := check (bool_decide (steps = [ mkStep 0 1 false; mkStep 0 4 false; mkStep 1 2 false; mkStep 1 3 false; mkStep 2 5 false; mkStep 3 6 false ])) in Ok true) = Ok true.
Proof. vm_compute. reflexivity. Qed.
(** traversal/breadth_first.rs:314 *)
Example test_breadth_first_tests_t2_tertiary : (let! graph := unwrap (dg_try_from_adjacency ([ [ 1; 4 ]; [ 0; 2; 3 ]; [ 1; 5 ]; [ 1; 6 ]; [ 0 ]; [ 2 ]; [ 3 ] ])) in let! bfs := unwrap (bfs_new (as_graph graph) 1) in let! steps := bfs_collect 1000 (as_graph graph) bfs in let! _ := check (bool_decide (steps = [ mkStep 1 0 false; mkStep 1 2 false; mkStep 1 3 false; mkStep 0 4 false; mkStep 2 5 false; mkStep 3 6 false ])) in Ok true) = Ok true.
Proof. vm_compute. reflexivity. Qed.
(** traversal/breadth_first.rs:337 *)
Example test_breadth_first_tests_bicyclo_111 : (let! graph := unwrap (dg_try_from_adjacency ([ [ 1; 2; 3 ]; [ 0; 4 ]; [ 0; 4 ]; [ 0; 4 ]; [ 1; 2; 3 ] ])) in let! bfs := unwrap (bfs_new (as_graph graph) 0) in let! steps := bfs_collect 1000 (as_graph graph) bfs in let! _ := check (bool_decide (steps = [ mkStep 0 1 false; mkStep 0 2 false; mkStep 0 3 false; mkStep 1 4 false; mkStep 2 4 true; mkStep 3 4 true ])) in Ok true) = Ok true.
Proof. vm_compute. reflexivity. Qed.
(** traversal/breadth_first.rs:358 *)
Example test_breadth_first_tests_bicyclo_221 : (let! graph := unwrap (dg_try_from_adjacency ([ [ 1; 5 ]; [ 0; 2; 6 ]; [ 1; 3 ]; [ 2; 4 ]; [ 3; 5; 6 ]; [ 4; 0 ]; [ 4; 1 ] ])) in let! bfs := unwrap (bfs_new (as_graph graph) 0) in let! steps := bfs_collect 1000 (as_graph graph) bfs in let! _ := check (bool_decide (steps = [ mkStep 0 1 false; mkStep 0 5 false; mkStep 1 2 false; mkStep 1 6 false; mkStep 5 4 false; mkStep 2 3 false; mkStep 6 4 true; mkStep 4 3 true ])) in Ok true) = Ok true.
Proof. vm_compute. reflexivity. Qed.
(** traversal/breadth_first.rs:383 *)
Example test_breadth_first_tests_butterfly : (let! graph := unwrap (dg_try_from_adjacency ([ [ 1; 2 ]; [ 0; 2 ]; [ 0; 1; 3; 4 ]; [ 2; 4 ]; [ 2; 3 ] ])) in let! bfs := unwrap (bfs_new (as_graph graph) 0) in let! steps := bfs_collect 1000 (as_graph graph) bfs in let! _ := check (bool_decide (steps = [ mkStep 0 1 false; mkStep 0 2 false; mkStep 1 2 true; mkStep 2 3 false; mkStep 2 4 false; mkStep 3 4 true ])) in Ok true) = Ok true.
Proof. vm_compute. reflexivity. Qed.
(** ** traversal/depth_first.rs *)
(** traversal/depth_first.rs:125 *)
Example test_depth_first_into_table_p3 : (let! graph := unwrap (dg_try_from_adjacency ([ [ 1 ]; [ 0; 2 ]; [ 1 ] ])) in let! traversal := unwrap (dfs_new (as_graph graph) 0) in let! table := dfs_into_table 1000 (as_graph graph) traversal in let! _ := check (bool_decide (table = ([ 0; 1; 2 ], [ (0, 1); (1, 2) ]))) in Ok true) = Ok true.
Proof. vm_compute. reflexivity. Qed.
(** traversal/depth_first.rs:140 *)
Example test_depth_first_into_table_c3 : (let! graph := unwrap (dg_try_from_adjacency ([ [ 1; 2 ]; [ 0; 2 ]; [ 1; 0 ] ])) in let! traversal := unwrap (dfs_new (as_graph graph) 0) in let! table := dfs_into_table 1000 (as_graph graph) traversal in let! _ := check (bool_decide (table = ([ 0; 1; 2 ], [ (0, 1); (1, 2); (2, 0) ]))) in Ok true) = Ok true.
Proof. vm_compute. reflexivity. Qed.
(** traversal/depth_first.rs:156 *)
Example test_depth_first_into_table_s3 : (let! graph := unwrap (dg_try_from_adjacency ([ [ 1 ]; [ 0; 2; 3 ]; [ 1 ]; [ 1 ] ])) in let! traversal := unwrap (dfs_new (as_graph graph) 0) in let! table := dfs_into_table 1000 (as_graph graph) traversal in let! _ := check (bool_decide (table = ([ 0; 1; 2; 3 ], [ (0, 1); (1, 2); (1, 3) ]))) in Ok true) = Ok true.
Proof. vm_compute. reflexivity. Qed.
(** traversal/depth_first.rs:180 *)
Example test_depth_first_tests_unknown_root : (let graph := dg_new in let traversal := dfs_new (as_graph graph) 1 in let! _ := check (match traversal with Err e => bool_decide (e = (MissingNode 1)) | _ => false end) in Ok true) = Ok true.
Proof. vm_compute. reflexivity. Qed.
(** traversal/depth_first.rs:188 *)
Example test_depth_first_tests_p1 : (let! graph := unwrap (dg_try_from_adjacency ([ [ ] ])) in let! traversal := unwrap (dfs_new (as_graph graph) 0) in let! steps := dfs_collect 1000 (as_graph graph) traversal in let! _ := check (bool_decide (steps = [ ])) in Ok true) = Ok true.
Proof. vm_compute. reflexivity. Qed.
(** traversal/depth_first.rs:198 *)
Example test_depth_first_tests_p2 : (let! graph := unwrap (dg_try_from_adjacency ([ [ 1 ]; [ 0 ] ])) in let! traversal := unwrap (dfs_new (as_graph graph) 0) in let! steps := dfs_collect 1000 (as_graph graph) traversal in let! _ := check (bool_decide (steps = [ mkStep 0 1 false ])) in Ok true) = Ok true.
Proof. vm_compute. reflexivity. Qed.
(** traversal/depth_first.rs:211 *)
Example test_depth_first_tests_p3 : (let! graph := unwrap (dg_try_from_adjacency ([ [ 1 ]; [ 0; 2 ]; [ 1 ] ])) in let! traversal := unwrap (dfs_new (as_graph graph) 0) in let! steps := dfs_collect 1000 (as_graph graph) traversal in let! _ := check (bool_decide (steps = [ mkStep 0 1 false; mkStep 1 2 false ])) in Ok true) = Ok true.
Proof. vm_compute. reflexivity. Qed.
(** traversal/depth_first.rs:226 *)
Example test_depth_first_tests_p3_inside : (let! graph := unwrap (dg_try_from_adjacency ([ [ 1 ]; [ 0; 2 ]; [ 1 ] ])) in let! traversal := unwrap (dfs_new (as_graph graph) 1) in let! steps := dfs_collect 1000 (as_graph graph) traversal in let! _ := check (bool_decide (steps = [ mkStep 1 0 false; mkStep 1 2 false ])) in Ok true) = Ok true.
Proof. vm_compute. reflexivity. Qed.
(** traversal/depth_first.rs:241 *)
Example test_depth_first_tests_p4 : (let! graph := unwrap (dg_try_from_adjacency ([ [ 1 ]; [ 0; 2 ]; [ 1; 3 ]; [ 2 ] ])) in let! traversal := unwrap (dfs_new (as_graph graph) 0) in let! steps := dfs_collect 1000 (as_graph graph) traversal in let! _ := check (bool_decide (steps = [ mkStep 0 1 false; mkStep 1 2 false; mkStep 2 3 false ])) in Ok true) = Ok true.
Proof. vm_compute. reflexivity. Qed.
(** traversal/depth_first.rs:258 *)
Example test_depth_first_tests_c3 : (let! graph := unwrap (dg_try_from_adjacency ([ [ 1; 2 ]; [ 0; 2 ]; [ 1; 0 ] ])) in let! traversal := unwrap (dfs_new (as_graph graph) 0) in let! steps := dfs_collect 1000 (as_graph graph) traversal in let! _ := check (bool_decide (steps = [ mkStep 0 1 false; mkStep 1 2 false; mkStep 2 0 true ])) in Ok true) = Ok true.
Proof. vm_compute. reflexivity. Qed.
(** traversal/depth_first.rs:274 *)
Example test_depth_first_tests_s3 : (let! graph := unwrap (dg_try_from_adjacency ([ [ 1 ]; [ 0; 2; 3 ]; [ 1 ]; [ 1 ] ])) in let! traversal := unwrap (dfs_new (as_graph graph) 0) in let! steps := dfs_collect 1000 (as_graph graph) traversal in let! _ := check (bool_decide (steps = [ mkStep 0 1 false; mkStep 1 2 false; mkStep 1 3 false ])) in Ok true) = Ok true.
Proof. vm_compute. reflexivity. Qed.
(** traversal/depth_first.rs:291 *)
Example test_depth_first_tests_s3_inside : (let! graph := unwrap (dg_try_from_adjacency ([ [ 1 ]; [ 0; 2; 3 ]; [ 1 ]; [ 1 ] ])) in let! traversal := unwrap (dfs_new (as_graph graph) 1) in let! steps := dfs_collect 1000 (as_graph graph) traversal in let! _ := check (bool_decide (steps = [ mkStep 1 0 false; mkStep 1 2 false; mkStep 1 3 false ])) in Ok true) = Ok true.
Proof. vm_compute. reflexivity. Qed.
(** traversal/depth_first.rs:308 *)
Example test_depth_first_tests_flower_from_stalk : (let! graph := unwrap (dg_try_from_adjacency ([ [ 1 ]; [ 0; 2; 3 ]; [ 1; 3 ]; [ 2; 1 ] ])) in let! traversal := unwrap (dfs_new (as_graph graph) 0) in let! steps := dfs_collect 1000 (as_graph graph) traversal in let! _ := check (bool_decide (steps = [ mkStep 0 1 false; mkStep 1 2 false; mkStep 2 3 false; mkStep 3 1 true ])) in Ok true) = Ok true.
Proof. vm_compute. reflexivity. Qed.
(** traversal/depth_first.rs:326 *)
Example test_depth_first_tests_flower_with_cut_in_branch : (let! graph := unwrap (dg_try_from_adjacency ([ [ 1; 2 ]; [ 0; 2 ]; [ 1; 0; 3 ]; [ 2 ] ])) in let! traversal := unwrap (dfs_new (as_graph graph) 0) in let! steps := dfs_collect 1000 (as_graph graph) traversal in let! _ := check (bool_decide (steps = [ mkStep 0 1 false; mkStep 1 2 false; mkStep 2 0 true; mkStep 2 3 false ])) in Ok true) = Ok true.
Proof. vm_compute. reflexivity. Qed.
(** traversal/depth_first.rs:344 *)
Example test_depth_first_tests_blocked_branched_path : (let! graph := unwrap (dg_try_from_adjacency ([ [ 1 ]; [ 0; 2; 3; 4 ]; [ 1 ]; [ 1; 4 ]; [ 3; 1 ] ])) in let! traversal := unwrap (dfs_new (as_graph graph) 0) in let! steps := dfs_collect 1000 (as_graph graph) traversal in let! _ := check (bool_decide (steps = [ mkStep 0 1 false; mkStep 1 2 false; mkStep 1 3 false; mkStep 3 4 false; mkStep 4 1 true ])) in Ok true) = Ok true.
Proof. vm_compute. reflexivity. Qed.
(** traversal/depth_first.rs:364 *)
Example test_depth_first_tests_bicyclo_220_with_cut_on_second_branching : (let! graph := unwrap (dg_try_from_adjacency ([ [ 1; 5 ]; [ 0; 2 ]; [ 1; 5; 3 ]; [ 2; 4 ]; [ 3; 5 ]; [ 2; 4; 0 ] ])) in let! traversal := unwrap (dfs_new (as_graph graph) 0) in let! steps := dfs_collect 1000 (as_graph graph) traversal in let! _ := check (bool_decide (steps = [ mkStep 0 1 false; mkStep 1 2 false; mkStep 2 5 false; mkStep 5 4 false; mkStep 4 3 false; mkStep 3 2 true; mkStep 5 0 true ])) in Ok true) = Ok true.
Proof. vm_compute. reflexivity. Qed.
(** traversal/depth_first.rs:387 *)
Example test_depth_first_tests_bicyclo_210 : (let! graph := unwrap (dg_try_from_adjacency ([ [ 1; 2; 4 ]; [ 0; 2 ]; [ 1; 0; 3 ]; [ 2; 4 ]; [ 3; 0 ] ])) in let! traversal := unwrap (dfs_new (as_graph graph) 0) in let! steps := dfs_collect 1000 (as_graph graph) traversal in let! _ := check (bool_decide (steps = [ mkStep 0 1 false; mkStep 1 2 false; mkStep 2 0 true; mkStep 2 3 false; mkStep 3 4 false; mkStep 4 0 true ])) in Ok true) = Ok true.
Proof. vm_compute. reflexivity. Qed.
(** traversal/depth_first.rs:408 *)
Example test_depth_first_tests_cube : (let! graph := unwrap (dg_try_from_adjacency ([ [ 1; 3; 4 ]; [ 0; 2; 5 ]; [ 1; 3; 6 ]; [ 2; 0; 7 ]; [ 5; 7; 0 ]; [ 4; 6; 1 ]; [ 5; 7; 2 ]; [ 6; 4; 3 ] ])) in let! traversal := unwrap (dfs_new (as_graph graph) 0) in let! steps := dfs_collect 1000 (as_graph graph) traversal in let! _ := check (bool_decide (steps = [ mkStep 0 1 false; mkStep 1 2 false; mkStep 2 3 false; mkStep 3 0 true; mkStep 3 7 false; mkStep 7 6 false; mkStep 6 5 false; mkStep 5 4 false; mkStep 4 7 true; mkStep 4 0 true; mkStep 5 1 true; mkStep 6 2 true ])) in Ok true) = Ok true.
Proof. vm_compute. reflexivity. Qed.
(** ** selection/components.rs *)
(** selection/components.rs:94 *)
Example test_components_tests_p1 : (let! graph := unwrap (dg_try_from_adjacency ([ [ ] ])) in let! components := c_collect 1000 (as_graph graph) (components (as_graph graph)) in let! same := eq_all components ([ graph ]) in let! _ := check (same) in Ok true) = Ok true.
Proof. vm_compute. reflexivity. Qed.
(** selection/components.rs:104 *)
Example test_components_tests_p1_p1 : (let! graph := unwrap (dg_try_from_adjacency ([ [ ]; [ ] ])) in let! components := c_collect 1000 (as_graph graph) (components (as_graph graph)) in let c1 := dg_new in let c2 := dg_new in let '(c1, r) := dg_add_node c1 0 in let! _ := check (bool_decide (r = Ok tt)) in let '(c2, r) := dg_add_node c2 1 in let! _ := check (bool_decide (r = Ok tt)) in let! same := eq_all components ([ c1; c2 ]) in let! _ := check (same) in Ok true) = Ok true.
Proof. vm_compute. reflexivity. Qed.
(** selection/components.rs:120 *)
Example test_components_tests_p2 : (let! graph := unwrap (dg_try_from_adjacency ([ [ 1 ]; [ 0 ] ])) in let! components := c_collect 1000 (as_graph graph) (components (as_graph graph)) in let! same := eq_all components ([ graph ]) in let! _ := check (same) in Ok true) = Ok true.
Proof. vm_compute. reflexivity. Qed.
(** selection/components.rs:131 *)
Example test_components_tests_p2_p1 : (let! graph := unwrap (dg_try_from_adjacency ([ [ 1 ]; [ 0 ]; [ ]])) in let! components := c_collect 1000 (as_graph graph) (components (as_graph graph)) in let c1 := dg_new in let c2 := dg_new in let '(c1, r) := dg_add_node c1 0 in let! _ := check (bool_decide (r = Ok tt)) in let '(c1, r) := dg_add_node c1 1 in let! _ := check (bool_decide (r = Ok tt)) in let '(c1, r) := dg_add_edge c1 0  1 in let! _ := check (bool_decide (r = Ok tt)) in let '(c2, r) := dg_add_node c2 2 in let! _ := check (bool_decide (r = Ok tt)) in let! same := eq_all components ([c1; c2 ]) in let! _ := check (same) in Ok true) = Ok true.
Proof. vm_compute. reflexivity. Qed.
(** selection/components.rs:151 *)
Example test_components_tests_p2_p2_p2 : (let! graph := unwrap (dg_try_from_adjacency ([ [ 1 ]; [ 0 ]; [ 3 ]; [ 2 ]; [ 5 ]; [ 4 ] ])) in let! components := c_collect 1000 (as_graph graph) (components (as_graph graph)) in let c1 := dg_new in let c2 := dg_new in let c3 := dg_new in let '(c1, r) := dg_add_node c1 0 in let! _ := check (bool_decide (r = Ok tt)) in let '(c1, r) := dg_add_node c1 1 in let! _ := check (bool_decide (r = Ok tt)) in let '(c1, r) := dg_add_edge c1 0  1 in let! _ := check (bool_decide (r = Ok tt)) in let '(c2, r) := dg_add_node c2 2 in let! _ := check (bool_decide (r = Ok tt)) in let '(c2, r) := dg_add_node c2 3 in let! _ := check (bool_decide (r = Ok tt)) in let '(c2, r) := dg_add_edge c2 2  3 in let! _ := check (bool_decide (r = Ok tt)) in let '(c3, r) := dg_add_node c3 4 in let! _ := check (bool_decide (r = Ok tt)) in let '(c3, r) := dg_add_node c3 5 in let! _ := check (bool_decide (r = Ok tt)) in let '(c3, r) := dg_add_edge c3 4  5 in let! _ := check (bool_decide (r = Ok tt)) in let! same := eq_all components ([c1; c2; c3 ]) in let! _ := check (same) in Ok true) = Ok true.
Proof. vm_compute. reflexivity. Qed.
(** selection/components.rs:181 *)
Example test_components_tests_c3_p2 : (let! graph := unwrap (dg_try_from_adjacency ([ [ 1; 2 ]; [ 0; 2 ]; [ 0; 1 ]; [ 4 ]; [ 3 ] ])) in let! components := c_collect 1000 (as_graph graph) (components (as_graph graph)) in let c1 := dg_new in let c2 := dg_new in let '(c1, r) := dg_add_node c1 0 in let! _ := check (bool_decide (r = Ok tt)) in let '(c1, r) := dg_add_node c1 1 in let! _ := check (bool_decide (r = Ok tt)) in let '(c1, r) := dg_add_node c1 2 in let! _ := check (bool_decide (r = Ok tt)) in let '(c1, r) := dg_add_edge c1 0  1 in let! _ := check (bool_decide (r = Ok tt)) in let '(c1, r) := dg_add_edge c1 1  2 in let! _ := check (bool_decide (r = Ok tt)) in let '(c1, r) := dg_add_edge c1 2  0 in let! _ := check (bool_decide (r = Ok tt)) in let '(c2, r) := dg_add_node c2 3 in let! _ := check (bool_decide (r = Ok tt)) in let '(c2, r) := dg_add_node c2 4 in let! _ := check (bool_decide (r = Ok tt)) in let '(c2, r) := dg_add_edge c2 3  4 in let! _ := check (bool_decide (r = Ok tt)) in let! same := eq_all components ([ c1; c2 ]) in let! _ := check (same) in Ok true) = Ok true.
Proof. vm_compute. reflexivity. Qed.
(** ** matching/pairing.rs *)
(** matching/pairing.rs:77 *)
Example test_pairing_order_default : (let pairing := p_new in let! _ := check (bool_decide (p_order pairing = 0%nat)) in Ok true) = Ok true.
Proof. vm_compute. reflexivity. Qed.
(** matching/pairing.rs:84 *)
Example test_pairing_order_three_pairs : (let pairing := p_new in let pairing := p_pair pairing 0  1 in let pairing := p_pair pairing 2  3 in let pairing := p_pair pairing 4  5 in let! _ := check (bool_decide (p_order pairing = 6%nat)) in Ok true) = Ok true.
Proof. vm_compute. reflexivity. Qed.
(** matching/pairing.rs:100 *)
Example test_pairing_edges_default : (let pairing := p_new in let! _ := check (bool_decide (bool_decide (map_to_list pairing = []) = true)) in Ok true) = Ok true.
Proof. vm_compute. reflexivity. Qed.
(** matching/pairing.rs:107 *)
Example test_pairing_edges_pair_unk_unk : (let pairing := p_new in let pairing := p_pair pairing 0  1 in let pairing := p_pair pairing 2  3 in let! _ := check (bool_decide (pairing = list_to_map ([ (0, 1); (2, 3); (1, 0); (3, 2) ]))) in Ok true) = Ok true.
Proof. vm_compute. reflexivity. Qed.
(** matching/pairing.rs:121 *)
Example test_pairing_edges_pair_unk_tid : (let pairing := p_new in let pairing := p_pair pairing 1  2 in let pairing := p_pair pairing 0  1 in let! _ := check (bool_decide (pairing = list_to_map ([ (0, 1); (1, 0) ]))) in Ok true) = Ok true.
Proof. vm_compute. reflexivity. Qed.
(** matching/pairing.rs:134 *)
Example test_pairing_edges_pair_sid_unk : (let pairing := p_new in let pairing := p_pair pairing 1  2 in let pairing := p_pair pairing 2  3 in let! _ := check (bool_decide (pairing = list_to_map ([ (2, 3); (3, 2) ]))) in Ok true) = Ok true.
Proof. vm_compute. reflexivity. Qed.
(** matching/pairing.rs:147 *)
Example test_pairing_edges_pair_sid_tid : (let pairing := p_new in let pairing := p_pair pairing 0  1 in let pairing := p_pair pairing 2  3 in let pairing := p_pair pairing 1  2 in let! _ := check (bool_decide (pairing = list_to_map ([ (1, 2); (2, 1) ]))) in Ok true) = Ok true.
Proof. vm_compute. reflexivity. Qed.
(** matching/pairing.rs:161 *)
Example test_pairing_edges_augment_empty : (let pairing := p_new in let path := [ 0; 1; 2; 3 ] in let! pairing := p_augment pairing path in let! _ := check (bool_decide (pairing = list_to_map ([ (0, 1); (2, 3); (1, 0); (3, 2) ]))) in Ok true) = Ok true.
Proof. vm_compute. reflexivity. Qed.
(** matching/pairing.rs:175 *)
Example test_pairing_edges_augment_inner : (let pairing := p_new in let path := [ 0; 1; 2; 3 ] in let pairing := p_pair pairing 1  2 in let! pairing := p_augment pairing path in let! _ := check (bool_decide (pairing = list_to_map ([ (0, 1); (2, 3); (1, 0); (3, 2) ]))) in Ok true) = Ok true.
Proof. vm_compute. reflexivity. Qed.
(** matching/pairing.rs:196 *)
Example test_pairing_augment_odd_path : (let pairing := p_new in let path := [ 0; 1; 2; 3; 4 ] in let! pairing := p_augment pairing path in Ok true) = Panic (PEvenPath).
Proof. vm_compute. reflexivity. Qed.
(** matching/pairing.rs:209 *)
Example test_pairing_has_node_default : (let pairing := p_new in let! _ := check (bool_decide (p_has_node pairing 0 = false)) in Ok true) = Ok true.
Proof. vm_compute. reflexivity. Qed.
(** matching/pairing.rs:216 *)
Example test_pairing_has_node_given_source : (let pairing := p_new in let pairing := p_pair pairing 0  1 in let! _ := check (bool_decide (p_has_node pairing 0 = true)) in Ok true) = Ok true.
Proof. vm_compute. reflexivity. Qed.
(** matching/pairing.rs:225 *)
Example test_pairing_has_node_given_target : (let pairing := p_new in let pairing := p_pair pairing 0  1 in let! _ := check (bool_decide (p_has_node pairing 1 = true)) in Ok true) = Ok true.
Proof. vm_compute. reflexivity. Qed.
(** matching/pairing.rs:240 *)
Example test_pairing_mate_outside : (let pairing := p_new in let! _ := p_mate pairing 0 in Ok true) = Panic (PMissingMate 0).
Proof. vm_compute. reflexivity. Qed.
(** matching/pairing.rs:247 *)
Example test_pairing_mate_sid : (let pairing := p_new in let pairing := p_pair pairing 0  1 in let! _ := check (bool_decide (p_mate pairing 0 = Ok 1)) in Ok true) = Ok true.
Proof. vm_compute. reflexivity. Qed.
(** matching/pairing.rs:256 *)
Example test_pairing_mate_tid : (let pairing := p_new in let pairing := p_pair pairing 0  1 in let! _ := check (bool_decide (p_mate pairing 1 = Ok 0)) in Ok true) = Ok true.
Proof. vm_compute. reflexivity. Qed.
(** ** matching/greedy.rs *)
(** matching/greedy.rs:71 *)
Example test_greedy_tests_empty : (let graph := dg_new in let! pairing := greedy 1000 (as_graph graph) in let! _ := check (same_items (p_edges_of (map_to_list pairing)) ([ ])) in Ok true) = Ok true.
Proof. vm_compute. reflexivity. Qed.
(** matching/greedy.rs:82 *)
Example test_greedy_tests_p1 : (let! graph := unwrap (dg_try_from_adjacency ([ [ ] ])) in let! pairing := greedy 1000 (as_graph graph) in let! _ := check (same_items (p_edges_of (map_to_list pairing)) ([ ])) in Ok true) = Ok true.
Proof. vm_compute. reflexivity. Qed.
(** matching/greedy.rs:95 *)
Example test_greedy_tests_p2 : (let! graph := unwrap (dg_try_from_adjacency ([ [ 1 ]; [ 0 ] ])) in let! pairing := greedy 1000 (as_graph graph) in let! _ := check (same_items (p_edges_of (map_to_list pairing)) ([ (0, 1) ])) in Ok true) = Ok true.
Proof. vm_compute. reflexivity. Qed.
(** matching/greedy.rs:109 *)
Example test_greedy_tests_p2_p2 : (let! graph := unwrap (dg_try_from_adjacency ([ [ 1 ]; [ 0 ]; [ 3 ]; [ 2 ] ])) in let! pairing := greedy 1000 (as_graph graph) in let! _ := check (same_items (p_edges_of (map_to_list pairing)) ([ (0, 1); (2, 3) ])) in Ok true) = Ok true.
Proof. vm_compute. reflexivity. Qed.
(** matching/greedy.rs:124 *)
Example test_greedy_tests_p3 : (let! graph := unwrap (dg_try_from_adjacency ([ [ 1 ]; [ 0; 2 ]; [ 1 ] ])) in let! pairing := greedy 1000 (as_graph graph) in let! _ := check (same_items (p_edges_of (map_to_list pairing)) ([ (0, 1) ])) in Ok true) = Ok true.
Proof. vm_compute. reflexivity. Qed.
(** matching/greedy.rs:138 *)
Example test_greedy_tests_p4 : (let! graph := unwrap (dg_try_from_adjacency ([ [ 1 ]; [ 0; 2 ]; [ 1; 3 ]; [ 2 ] ])) in let! pairing := greedy 1000 (as_graph graph) in let! _ := check (same_items (p_edges_of (map_to_list pairing)) ([ (0, 1); (2, 3) ])) in Ok true) = Ok true.
Proof. vm_compute. reflexivity. Qed.
(** matching/greedy.rs:153 *)
Example test_greedy_tests_s3 : (let! graph := unwrap (dg_try_from_adjacency ([ [ 1 ]; [ 0; 2; 3 ]; [ 1 ]; [ 1 ] ])) in let! pairing := greedy 1000 (as_graph graph) in let! _ := check (same_items (p_edges_of (map_to_list pairing)) ([ (0, 1) ])) in Ok true) = Ok true.
Proof. vm_compute. reflexivity. Qed.
(** matching/greedy.rs:168 *)
Example test_greedy_tests_c6 : (let! graph := unwrap (dg_try_from_adjacency ([ [ 1; 5 ]; [ 0; 2 ]; [ 1; 3 ]; [ 2; 4 ]; [ 3; 5 ]; [ 4; 0 ] ])) in let! pairing := greedy 1000 (as_graph graph) in let! _ := check (same_items (p_edges_of (map_to_list pairing)) ([ (0, 1); (2, 3); (4, 5) ])) in Ok true) = Ok true.
Proof. vm_compute. reflexivity. Qed.
(** ** matching/forest.rs *)
(** matching/forest.rs:101 *)
Example test_forest_add_root_duplicate : (let forest := f_new in let! forest := f_add_root forest 0 in let! forest := f_add_root forest 0 in Ok true) = Panic (PForestDuplicate 0).
Proof. vm_compute. reflexivity. Qed.
(** matching/forest.rs:115 *)
Example test_forest_add_edge_parent_outside : (let forest := f_new in let! forest := f_add_edge forest 0  1 in Ok true) = Panic (PForestMissing 0).
Proof. vm_compute. reflexivity. Qed.
(** matching/forest.rs:123 *)
Example test_forest_add_edge_duplicate_node : (let forest := f_new in let! forest := f_add_root forest 0 in let! forest := f_add_root forest 1 in let! forest := f_add_edge forest 0  1 in Ok true) = Panic (PForestDuplicate 1).
Proof. vm_compute. reflexivity. Qed.
(** matching/forest.rs:138 *)
Example test_forest_path_outside : (let forest := f_new in let! _ := check (bool_decide (f_path forest 0 = Ok None)) in Ok true) = Ok true.
Proof. vm_compute. reflexivity. Qed.
(** matching/forest.rs:145 *)
Example test_forest_path_root : (let forest := f_new in let! forest := f_add_root forest 0 in let! _ := check (bool_decide (f_path forest 0 = Ok (Some ([ 0 ])))) in Ok true) = Ok true.
Proof. vm_compute. reflexivity. Qed.
(** matching/forest.rs:154 *)
Example test_forest_path_child : (let forest := f_new in let! forest := f_add_root forest 0 in let! forest := f_add_edge forest 0  1 in let! _ := check (bool_decide (f_path forest 1 = Ok (Some ([ 1; 0 ])))) in Ok true) = Ok true.
Proof. vm_compute. reflexivity. Qed.
(** matching/forest.rs:164 *)
Example test_forest_path_grandchild : (let forest := f_new in let! forest := f_add_root forest 0 in let! forest := f_add_edge forest 0  1 in let! forest := f_add_edge forest 1  2 in let! _ := check (bool_decide (f_path forest 2 = Ok (Some ([ 2; 1; 0 ])))) in Ok true) = Ok true.
Proof. vm_compute. reflexivity. Qed.
(** matching/forest.rs:175 *)
Example test_forest_path_grandchild_with_branching_before : (let forest := f_new in let! forest := f_add_root forest 0 in let! forest := f_add_edge forest 0  1 in let! forest := f_add_edge forest 0  2 in let! forest := f_add_edge forest 0  3 in let! forest := f_add_edge forest 1  4 in let! forest := f_add_edge forest 2  5 in let! forest := f_add_edge forest 3  6 in let! forest := f_add_edge forest 5  7 in let! _ := check (bool_decide (f_path forest 7 = Ok (Some ([ 7; 5; 2; 0 ])))) in Ok true) = Ok true.
Proof. vm_compute. reflexivity. Qed.
(** matching/forest.rs:191 *)
Example test_forest_path_grandchild_and_other_path : (let forest := f_new in let! forest := f_add_root forest 0 in let! forest := f_add_edge forest 0  1 in let! forest := f_add_edge forest 1  2 in let! forest := f_add_root forest 3 in let! forest := f_add_edge forest 3  4 in let! forest := f_add_edge forest 3  5 in let! forest := f_add_edge forest 5  6 in let! _ := check (bool_decide (f_path forest 2 = Ok (Some ([ 2; 1; 0 ])))) in Ok true) = Ok true.
Proof. vm_compute. reflexivity. Qed.
(** matching/forest.rs:213 *)
Example test_forest_even_nodes_empty : (let forest := f_new in let! _ := check (same_items (even_nodes forest) ([ ])) in Ok true) = Ok true.
Proof. vm_compute. reflexivity. Qed.
(** matching/forest.rs:223 *)
Example test_forest_even_nodes_two_root : (let forest := f_new in let! forest := f_add_root forest 0 in let! forest := f_add_root forest 1 in let! _ := check (same_items (even_nodes forest) ([ 0; 1 ])) in Ok true) = Ok true.
Proof. vm_compute. reflexivity. Qed.
(** matching/forest.rs:236 *)
Example test_forest_even_nodes_complex_tree : (let forest := f_new in let! forest := f_add_root forest 0 in let! forest := f_add_edge forest 0  1 in let! forest := f_add_edge forest 1  2 in let! forest := f_add_root forest 3 in let! forest := f_add_edge forest 3  4 in let! forest := f_add_edge forest 4  5 in let! forest := f_add_edge forest 4  6 in let! _ := check (same_items (even_nodes forest) ([ 0; 3; 2; 5; 6 ])) in Ok true) = Ok true.
Proof. vm_compute. reflexivity. Qed.
(** ** matching/marker.rs *)
(** matching/marker.rs:65 *)
Example test_marker_mark_node_duplicate : (let marker := mk_new in let! marker := mk_mark_node marker 0 in let! marker := mk_mark_node marker 0 in Ok true) = Panic (PNodeMarkedTwice 0).
Proof. vm_compute. reflexivity. Qed.
(** matching/marker.rs:79 *)
Example test_marker_mark_edge_duplicate : (let marker := mk_new in let! marker := mk_mark_edge marker 0  1 in let! marker := mk_mark_edge marker 0  1 in Ok true) = Panic (PEdgeMarkedTwice 0 1).
Proof. vm_compute. reflexivity. Qed.
(** matching/marker.rs:88 *)
Example test_marker_mark_edge_duplicate_reverse : (let marker := mk_new in let! marker := mk_mark_edge marker 0  1 in let! marker := mk_mark_edge marker 1  0 in Ok true) = Panic (PEdgeMarkedTwice 1 0).
Proof. vm_compute. reflexivity. Qed.
(** matching/marker.rs:101 *)
Example test_marker_has_node_outside : (let marker := mk_new in let! _ := check (bool_decide (mk_has_node marker 0 = false)) in Ok true) = Ok true.
Proof. vm_compute. reflexivity. Qed.
(** matching/marker.rs:108 *)
Example test_marker_has_node_inside : (let marker := mk_new in let! marker := mk_mark_node marker 0 in let! _ := check (bool_decide (mk_has_node marker 0 = true)) in Ok true) = Ok true.
Proof. vm_compute. reflexivity. Qed.
(** matching/marker.rs:122 *)
Example test_marker_has_edge_outside : (let marker := mk_new in let! _ := check (bool_decide (mk_has_edge marker 0  1 = false)) in Ok true) = Ok true.
Proof. vm_compute. reflexivity. Qed.
(** matching/marker.rs:129 *)
Example test_marker_has_edge_inside : (let marker := mk_new in let! marker := mk_mark_edge marker 0  1 in let! _ := check (bool_decide (mk_has_edge marker 0  1 = true)) in Ok true) = Ok true.
Proof. vm_compute. reflexivity. Qed.
(** matching/marker.rs:138 *)
Example test_marker_has_edge_inside_reverse : (let marker := mk_new in let! marker := mk_mark_edge marker 0  1 in let! _ := check (bool_decide (mk_has_edge marker 1  0 = true)) in Ok true) = Ok true.
Proof. vm_compute. reflexivity. Qed.
(** ** matching/blossom.rs *)
(** matching/blossom.rs:192 *)
Example test_blossom_new_different_roots : (let! _ := b_new 1 ([ 2; 1; 0 ]) ([ 5; 4; 3 ]) in Ok true) = Panic (PBlossomRoot).
Proof. vm_compute. reflexivity. Qed.
(** matching/blossom.rs:197 *)
Example test_blossom_new_root_at_right : (let! blossom := b_new 1 ([ 2; 1; 0 ]) ([ 5; 4; 0 ]) in let! _ := check (bool_decide (b_path blossom = [ 2; 1; 0; 4; 5 ])) in Ok true) = Ok true.
Proof. vm_compute. reflexivity. Qed.
(** matching/blossom.rs:204 *)
Example test_blossom_new_root_inside : (let! blossom := b_new 1 ([ 4; 3; 2; 1; 0 ]) ([ 7; 6; 2; 1; 0 ]) in let! _ := check (bool_decide (b_path blossom = [ 4; 3; 2; 6; 7 ])) in Ok true) = Ok true.
Proof. vm_compute. reflexivity. Qed.
(** matching/blossom.rs:221 *)
Example test_blossom_contract_graph_butterfly_tid_inside : (let! graph := unwrap (dg_try_from_edges ([ (0, 1); (1, 2); (2, 0); (3, 2); (3, 1) ])) in let! blossom := b_new 4 ([0]) ([ 1; 2; 0 ]) in let contracted := b_contract_graph blossom (as_graph graph) in let! l := contracted in let! r := dg_try_from_edges ([ (3, 4) ]) in let! same := dg_eq l r in let! _ := check (same) in Ok true) = Ok true.
Proof. vm_compute. reflexivity. Qed.
(** matching/blossom.rs:234 *)
Example test_blossom_contract_graph_butterfly_sid_inside : (let! graph := unwrap (dg_try_from_edges ([ (0, 1); (1, 2); (2, 0); (2, 3); (1, 3) ])) in let! blossom := b_new 4 ([0]) ([ 1; 2; 0 ]) in let contracted := b_contract_graph blossom (as_graph graph) in let! l := contracted in let! r := dg_try_from_edges ([ (3, 4) ]) in let! same := dg_eq l r in let! _ := check (same) in Ok true) = Ok true.
Proof. vm_compute. reflexivity. Qed.
(** matching/blossom.rs:247 *)
Example test_blossom_contract_graph_sid_inside : (let! graph := unwrap (dg_try_from_edges ([ (0, 1); (1, 2); (2, 3); (3, 4); (4, 0); (4, 5); (5, 6) ])) in let! blossom := b_new 7 ([ 4; 0; 1 ]) ([ 3; 2; 1 ]) in let contracted := b_contract_graph blossom (as_graph graph) in let! l := contracted in let! r := dg_try_from_edges ([ (6, 5); (5, 7) ]) in let! same := dg_eq l r in let! _ := check (same) in Ok true) = Ok true.
Proof. vm_compute. reflexivity. Qed.
(** matching/blossom.rs:260 *)
Example test_blossom_contract_graph_tid_inside : (let! graph := unwrap (dg_try_from_edges ([ (0, 1); (1, 2); (2, 3); (3, 4); (4, 0); (5, 4); (5, 6) ])) in let! blossom := b_new 7 ([ 4; 0; 1 ]) ([ 3; 2; 1 ]) in let contracted := b_contract_graph blossom (as_graph graph) in let! l := contracted in let! r := dg_try_from_edges ([ (6, 5); (5, 7) ]) in let! same := dg_eq l r in let! _ := check (same) in Ok true) = Ok true.
Proof. vm_compute. reflexivity. Qed.
(** matching/blossom.rs:273 *)
Example test_blossom_contract_graph_example_causes_double_edge : (let! graph := unwrap (dg_try_from_edges ([ (0, 1); (1, 2); (2, 3); (3, 4); (4, 5); (5, 6); (6, 7); (7, 8); (8, 2); (6, 1) ])) in let! blossom := b_new 9 ([ 8; 2; 3; 4 ]) ([ 7; 6; 5; 4 ]) in let contracted := b_contract_graph blossom (as_graph graph) in let! l := contracted in let! r := dg_try_from_edges ([ (0, 1); (1, 9) ]) in let! same := dg_eq l r in let! _ := check (same) in Ok true) = Ok true.
Proof. vm_compute. reflexivity. Qed.
(** matching/blossom.rs:293 *)
Example test_blossom_contract_pairing_sid_inside : (let! blossom := b_new 5 ([ 2; 1; 0 ]) ([ 4; 3; 0 ]) in let pairing := p_new in let pairing := p_pair pairing 7  8 in let pairing := p_pair pairing 1  6 in let expected := p_new in let expected := p_pair expected 7  8 in let expected := p_pair expected 5  6 in let! _ := check (bool_decide (b_contract_pairing blossom (p_edges_of (map_to_list pairing)) = expected)) in Ok true) = Ok true.
Proof. vm_compute. reflexivity. Qed.
(** matching/blossom.rs:309 *)
Example test_blossom_contract_pairing_tid_inside : (let! blossom := b_new 5 ([ 2; 1; 0 ]) ([ 4; 3; 0 ]) in let pairing := p_new in let pairing := p_pair pairing 7  8 in let pairing := p_pair pairing 6  1 in let expected := p_new in let expected := p_pair expected 7  8 in let expected := p_pair expected 6  5 in let! _ := check (bool_decide (b_contract_pairing blossom (p_edges_of (map_to_list pairing)) = expected)) in Ok true) = Ok true.
Proof. vm_compute. reflexivity. Qed.
(** matching/blossom.rs:325 *)
Example test_blossom_contract_pairing_sid_tid_inside : (let! blossom := b_new 5 ([ 2; 1; 0 ]) ([ 4; 3; 0 ]) in let pairing := p_new in let pairing := p_pair pairing 7  8 in let pairing := p_pair pairing 2  1 in let expected := p_new in let expected := p_pair expected 7  8 in let! _ := check (bool_decide (b_contract_pairing blossom (p_edges_of (map_to_list pairing)) = expected)) in Ok true) = Ok true.
Proof. vm_compute. reflexivity. Qed.
(** matching/blossom.rs:346 *)
Example test_blossom_lift_missing_blossom_id : (let! graph := unwrap (dg_try_from_edges ([ (1, 2); (2, 3); (3, 4); (4, 5); (5, 1) ])) in let! blossom := b_new 5 ([ 2; 1; 0 ]) ([ 4; 3; 0 ]) in let path := [ 8; 9; 10; 11 ] in let! lifted := b_lift 1000 blossom path (as_graph graph) in let! _ := check (bool_decide (lifted = [ 8; 9; 10; 11 ])) in Ok true) = Ok true.
Proof. vm_compute. reflexivity. Qed.
(** matching/blossom.rs:359 *)
Example test_blossom_lift_none_blossom_none : (let! graph := unwrap (dg_try_from_edges ([ (0, 1); (1, 2); (2, 3); (3, 4); (4, 0) ])) in let! blossom := b_new 5 ([ 2; 1; 0 ]) ([ 4; 3; 0 ]) in let path := [ 5 ] in let! lifted := b_lift 1000 blossom path (as_graph graph) in let! _ := check (bool_decide (lifted = [ 2; 1; 0; 3; 4 ])) in Ok true) = Ok true.
Proof. vm_compute. reflexivity. Qed.
(** matching/blossom.rs:372 *)
Example test_blossom_lift_left_blossom_none : (let! graph := unwrap (dg_try_from_edges ([ (0, 1); (1, 2); (2, 3); (3, 4); (4, 5); (5, 1) ])) in let! blossom := b_new 6 ([ 1; 2; 3 ]) ([ 5; 4; 3 ]) in let path := [ 0; 6 ] in let! lifted := b_lift 1000 blossom path (as_graph graph) in let! _ := check (bool_decide (lifted = [ 0; 1; 2; 3; 4; 5 ])) in Ok true) = Ok true.
Proof. vm_compute. reflexivity. Qed.
(** matching/blossom.rs:385 *)
Example test_blossom_lift_left_blossom_none_rotated_twice : (let! graph := unwrap (dg_try_from_edges ([ (0, 1); (1, 2); (2, 3); (3, 4); (4, 5); (5, 1) ])) in let! blossom := b_new 6 ([ 2; 3; 4 ]) ([ 1; 5; 4 ]) in let path := [ 0; 6 ] in let! lifted := b_lift 1000 blossom path (as_graph graph) in let! _ := check (bool_decide (lifted = [ 0; 1; 2; 3; 4; 5 ])) in Ok true) = Ok true.
Proof. vm_compute. reflexivity. Qed.
(** matching/blossom.rs:398 *)
Example test_blossom_lift_none_blossom_right : (let! graph := unwrap (dg_try_from_edges ([ (0, 1); (1, 2); (2, 3); (3, 4); (4, 5); (5, 1) ])) in let! blossom := b_new 6 ([ 2; 3; 4 ]) ([ 1; 5; 4 ]) in let path := [ 6; 0 ] in let! lifted := b_lift 1000 blossom path (as_graph graph) in let! _ := check (bool_decide (lifted = [ 2; 3; 4; 5; 1; 0 ])) in Ok true) = Ok true.
Proof. vm_compute. reflexivity. Qed.
(** matching/blossom.rs:411 *)
Example test_blossom_lift_left_blossom_right : (let! graph := unwrap (dg_try_from_edges ([ (0, 1); (1, 2); (2, 3); (3, 4); (4, 5); (5, 1); (3, 6) ])) in let! blossom := b_new 7 ([ 2; 3; 4 ]) ([ 1; 5; 4 ]) in let path := [ 0; 7; 6 ] in let! lifted := b_lift 1000 blossom path (as_graph graph) in let! _ := check (bool_decide (lifted = [ 0; 1; 5; 4; 3; 6 ])) in Ok true) = Ok true.
Proof. vm_compute. reflexivity. Qed.
(** matching/blossom.rs:424 *)
Example test_blossom_lift_left_blossom_right_shifted : (let! graph := unwrap (dg_try_from_edges ([ (0, 5); (5, 1); (1, 2); (2, 3); (3, 4); (4, 5); (3, 6) ])) in let! blossom := b_new 7 ([ 2; 3; 4 ]) ([ 1; 5; 4 ]) in let path := [ 0; 7; 6 ] in let! lifted := b_lift 1000 blossom path (as_graph graph) in let! _ := check (bool_decide (lifted = [ 0; 5; 1; 2; 3; 6 ])) in Ok true) = Ok true.
Proof. vm_compute. reflexivity. Qed.
(** ** matching/maximum_matching.rs *)
(** matching/maximum_matching.rs:146 *)
Example test_maximum_matching_tests_empty : (let graph := dg_new in let pairing := p_new in let! pairing := maximum_matching canon [] 1000 (as_graph graph) pairing in let! _ := check (same_items (p_edges_of (map_to_list pairing)) ([])) in Ok true) = Ok true.
Proof. vm_compute. reflexivity. Qed.
(** matching/maximum_matching.rs:159 *)
Example test_maximum_matching_tests_p2 : (let! graph := unwrap (dg_try_from_adjacency ([ [ 1 ]; [ 0 ] ])) in let pairing := p_new in let! pairing := maximum_matching canon [] 1000 (as_graph graph) pairing in let! _ := check (same_items (p_edges_of (map_to_list pairing)) ([ (0, 1) ])) in Ok true) = Ok true.
Proof. vm_compute. reflexivity. Qed.
(** matching/maximum_matching.rs:175 *)
Example test_maximum_matching_tests_p3 : (let! graph := unwrap (dg_try_from_adjacency ([ [ 1 ]; [ 0; 2 ]; [ 1 ] ])) in let pairing := p_new in let! pairing := maximum_matching canon [] 1000 (as_graph graph) pairing in let! _ := check (same_items (p_edges_of (map_to_list pairing)) ([ (0, 1) ])) in Ok true) = Ok true.
Proof. vm_compute. reflexivity. Qed.
(** matching/maximum_matching.rs:192 *)
Example test_maximum_matching_tests_p4 : (let! graph := unwrap (dg_try_from_adjacency ([ [ 1 ]; [ 0; 2 ]; [ 1; 3 ]; [ 2 ] ])) in let pairing := p_new in let! pairing := maximum_matching canon [] 1000 (as_graph graph) pairing in let! _ := check (same_items (p_edges_of (map_to_list pairing)) ([ (0, 1); (2, 3) ])) in Ok true) = Ok true.
Proof. vm_compute. reflexivity. Qed.
(** matching/maximum_matching.rs:210 *)
Example test_maximum_matching_tests_p4_from_reversed_edges : (let! graph := unwrap (dg_try_from_edges ([ (0, 1); (0, 4); (3, 4) ])) in let pairing := p_new in let! pairing := maximum_matching canon [] 1000 (as_graph graph) pairing in let! _ := check (same_items (p_edges_of (map_to_list pairing)) ([ (0, 1); (3, 4) ])) in Ok true) = Ok true.
Proof. vm_compute. reflexivity. Qed.
(** matching/maximum_matching.rs:227 *)
Example test_maximum_matching_tests_c5 : (let! graph := unwrap (dg_try_from_edges ([ (0, 1); (1, 2); (2, 3); (3, 4); (4, 0) ])) in let pairing := p_new in let! pairing := maximum_matching canon [] 1000 (as_graph graph) pairing in let! _ := check (same_items (p_edges_of (map_to_list pairing)) ([ (0, 1); (2, 3) ])) in Ok true) = Ok true.
Proof. vm_compute. reflexivity. Qed.
(** matching/maximum_matching.rs:242 *)
Example test_maximum_matching_tests_c6 : (let! graph := unwrap (dg_try_from_adjacency ([ [ 1; 5 ]; [ 0; 2 ]; [ 1; 3 ]; [ 2; 4 ]; [ 3; 5 ]; [ 4; 0 ] ])) in let pairing := p_new in let! pairing := maximum_matching canon [] 1000 (as_graph graph) pairing in let! _ := check (same_items (p_edges_of (map_to_list pairing)) ([ (0, 1); (2, 3); (4, 5) ])) in Ok true) = Ok true.
Proof. vm_compute. reflexivity. Qed.
(** matching/maximum_matching.rs:262 *)
Example test_maximum_matching_tests_acenapthene : (let! graph := unwrap (dg_try_from_edges ([ (0, 1); (1, 2); (2, 3); (3, 4); (4, 5); (5, 6); (6, 7); (7, 8); (8, 9); (9, 10); (10, 0); (11, 5); (11, 1); (11, 9) ])) in let pairing := p_new in let! pairing := maximum_matching canon [] 1000 (as_graph graph) pairing in let! _ := check (same_items (p_edges_of (map_to_list pairing)) ([ (0, 10); (1, 11); (2, 3); (4, 5); (6, 7); (8, 9) ])) in Ok true) = Ok true.
Proof. vm_compute. reflexivity. Qed.
(** matching/maximum_matching.rs:281 *)
Example test_maximum_matching_tests_p2_p2 : (let! graph := unwrap (dg_try_from_adjacency ([ [ 1 ]; [ 0 ]; [ 3 ]; [ 2 ] ])) in let pairing := p_new in let! pairing := maximum_matching canon [] 1000 (as_graph graph) pairing in let! _ := check (same_items (p_edges_of (map_to_list pairing)) ([ (0, 1); (2, 3) ])) in Ok true) = Ok true.
Proof. vm_compute. reflexivity. Qed.
(** matching/maximum_matching.rs:300 *)
Example test_maximum_matching_tests_path_through_5_blossom : (let! graph := unwrap (dg_try_from_edges ([ (0, 1); (1, 2); (2, 3); (3, 4); (4, 5); (5, 1); (4, 6); (6, 7) ])) in let pairing := p_new in let pairing := p_pair pairing 2  3 in let pairing := p_pair pairing 1  5 in let pairing := p_pair pairing 4  6 in let! pairing := maximum_matching canon [] 1000 (as_graph graph) pairing in let! _ := check (same_items (p_edges_of (map_to_list pairing)) ([ (0, 1); (2, 3); (4, 5); (6, 7) ])) in Ok true) = Ok true.
Proof. vm_compute. reflexivity. Qed.
(** matching/maximum_matching.rs:322 *)
Example test_maximum_matching_tests_c5_with_c3_stem_distant_unmatched : (let! graph := unwrap (dg_try_from_edges ([ (0, 1); (1, 2); (2, 3); (3, 4); (4, 0); (4, 5); (5, 6); (6, 7) ])) in let pairing := p_new in let pairing := p_pair pairing 4  0 in let pairing := p_pair pairing 6  5 in let pairing := p_pair pairing 3  2 in let! pairing := maximum_matching canon [] 1000 (as_graph graph) pairing in let! _ := check (same_items (p_edges_of (map_to_list pairing)) ([ (6, 7); (4, 5); (0, 1); (2, 3) ])) in Ok true) = Ok true.
Proof. vm_compute. reflexivity. Qed.
(** matching/maximum_matching.rs:344 *)
Example test_maximum_matching_tests_yu_zhonge : (let! graph := unwrap (dg_try_from_edges ([ (1, 2); (2, 3); (3, 13); (13, 14); (14, 4); (4, 5); (5, 6); (6, 7); (7, 8); (8, 9); (9, 10); (10, 11); (11, 5); (10, 18); (18, 17); (17, 16); (16, 15); (15, 14); (18, 19); (19, 20); (20, 21); (21, 22); (22, 16); (4, 3); (13, 12) ])) in let pairing := p_new in let pairing := p_pair pairing 1  2 in let pairing := p_pair pairing 3  13 in let pairing := p_pair pairing 4  14 in let pairing := p_pair pairing 5  6 in let pairing := p_pair pairing 7  8 in let pairing := p_pair pairing 9  10 in let pairing := p_pair pairing 15  16 in let pairing := p_pair pairing 17  18 in let pairing := p_pair pairing 19  20 in let pairing := p_pair pairing 21  22 in let! pairing := maximum_matching canon [] 1000 (as_graph graph) pairing in let! _ := check (same_items (p_edges_of (map_to_list pairing)) ([ (1, 2); (3, 4); (6, 7); (8, 9); (5, 11); (10, 18); (19, 20); (21, 22); (16, 17); (14, 15); (12, 13) ])) in Ok true) = Ok true.
Proof. vm_compute. reflexivity. Qed.
(** matching/maximum_matching.rs:378 *)
Example test_maximum_matching_tests_coronene_6_5 : (let! graph := unwrap (dg_try_from_edges ([ (6, 7); (7, 8); (8, 9); (9, 10); (10, 11); (11, 12); (12, 13); (13, 14); (14, 15); (15, 16); (16, 17); (17, 6); (6, 0); (8, 1); (10, 2); (12, 3); (14, 4); (16, 5); (0, 1); (1, 2); (2, 3); (3, 4); (4, 5); (5, 8) ])) in let pairing := p_new in let! pairing := maximum_matching canon [] 1000 (as_graph graph) pairing in let! _ := check (same_items (p_edges_of (map_to_list pairing)) ([ (0, 1); (2, 3); (4, 5); (6, 7); (8, 9); (10, 11); (12, 13); (14, 15); (16, 17) ])) in Ok true) = Ok true.
Proof. vm_compute. reflexivity. Qed.
(** matching/maximum_matching.rs:399 *)
Example test_maximum_matching_tests_coronene_3_5 : (let! graph := unwrap (dg_try_from_edges ([ (4, 5); (5, 6); (6, 7); (7, 8); (8, 9); (9, 10); (10, 11); (11, 4); (0, 4); (1, 6); (2, 8); (3, 10); (0, 1); (1, 2); (2, 3); (3, 0) ])) in let pairing := p_new in let! pairing := maximum_matching canon [] 1000 (as_graph graph) pairing in let! _ := check (same_items (p_edges_of (map_to_list pairing)) ([ (4, 5); (0, 1); (8, 9); (10, 11); (2, 3); (6, 7) ])) in Ok true) = Ok true.
Proof. vm_compute. reflexivity. Qed.
(** matching/maximum_matching.rs:418 *)
Example test_maximum_matching_tests_c60 : (let! graph := unwrap (dg_try_from_edges ([ (29, 30); (30, 43); (43, 44); (44, 55); (55, 29); (29, 28); (31, 30); (43, 42); (44, 45); (55, 54); (28, 57); (57, 56); (56, 31); (31, 32); (32, 33); (33, 42); (42, 41); (41, 40); (40, 45); (45, 46); (46, 47); (47, 54); (54, 26); (26, 27); (27, 28); (57, 7); (56, 4); (32, 3); (33, 34); (41, 36); (40, 39); (46, 51); (47, 48); (26, 25); (27, 8); (7, 6); (6, 5); (5, 4); (4, 3); (3, 2); (2, 35); (35, 34); (34, 36); (36, 37); (37, 38); (38, 39); (39, 51); (51, 50); (50, 49); (49, 48); (48, 25); (25, 24); (24, 9); (9, 8); (8, 7); (6, 11); (5, 0); (2, 1); (35, 16); (37, 17); (38, 53); (50, 52); (49, 22); (24, 23); (9, 10); (11, 12); (12, 0); (0, 1); (1, 15); (15, 16); (16, 17); (17, 18); (18, 53); (53, 52); (52, 21); (21, 22); (22, 23); (23, 58); (58, 10); (10, 11); (12, 13); (15, 14); (18, 19); (21, 20); (58, 59); (13, 14); (14, 19); (19, 20); (20, 59); (59, 13) ])) in let pairing := p_new in let! pairing := maximum_matching canon [] 1000 (as_graph graph) pairing in let! _ := check (same_items (p_edges_of (map_to_list pairing)) ([ (48, 49); (1, 2); (17, 37); (6, 7); (54, 55); (31, 56); (19, 20); (28, 57); (26, 27); (22, 23); (29, 30); (4, 5); (50, 51); (34, 35); (24, 25); (10, 11); (43, 44); (3, 32); (46, 47); (13, 14); (33, 42); (58, 59); (15, 16); (8, 9); (36, 41); (38, 39); (21, 52); (40, 45); (0, 12); (18, 53) ])) in Ok true) = Ok true.
Proof. vm_compute. reflexivity. Qed.

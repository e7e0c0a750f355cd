(** Model of src/traversal and of [TryFrom<DepthFirst>] for [DefaultGraph]. *)
From Verif Require Import Outcome GraphModel.

(** src/traversal/step.rs:4-8  [struct Step]. *)
Record Step := mkStep { sid : N; tid : N; cut : bool }.

Global Instance step_eq_dec : EqDecision Step.
Proof. solve_decision. Defined.

(** ** Depth first *)

(** src/traversal/depth_first.rs:38-42  [struct DepthFirst], without the graph
    reference, which is passed separately.  [df_stack] is the Rust [Vec] read
    from its end: the head of the list is the last element, i.e. the next one
    popped. *)
Record DepthFirst := mkDF { df_nodes : gset N; df_stack : list (N * N) }.

(** depth_first.rs:45-57  [DepthFirst::new]: push every neighbor, then reverse. *)
Definition dfs_new (g : Graph) (root : N) : comp DepthFirst :=
  let! neighbors := g_neighbors g root in
  let stack := foldl (fun st neighbor => (root, neighbor) :: st) [] neighbors in
  Ok (mkDF {[root]} (reverse stack)).

(** depth_first.rs:95-107  one iteration of the neighbor loop of [next]. *)
Definition dfs_push (nodes : gset N) (parent node : N)
    (stack : list (N * N)) (neighbor : N) : list (N * N) :=
  if bool_decide (neighbor = parent) then stack
  else
    let stack' :=
      if bool_decide (neighbor ∈ nodes)
      then filter (fun edge : N * N => edge.1 <> neighbor /\ edge.2 <> node) stack
      else stack in
    (node, neighbor) :: stack'.

(** depth_first.rs:83-115  [Iterator::next]. *)
Definition dfs_next (g : Graph) (t : DepthFirst) : comp (option Step * DepthFirst) :=
  match df_stack t with
  | [] => Ok (None, t)
  | (parent, node) :: rest =>
      if bool_decide (node ∈ df_nodes t)
      then Ok (Some (mkStep parent node true), mkDF (df_nodes t) rest)
      else
        let! neighbors := unwrap (g_neighbors g node) in
        let stack := foldl (dfs_push (df_nodes t) parent node) rest (reverse neighbors) in
        Ok (Some (mkStep parent node false), mkDF ({[node]} ∪ df_nodes t) stack)
  end.

(** [traversal.collect::<Vec<_>>()]: call [next] until it returns [None]. *)
Fixpoint dfs_collect (fuel : nat) (g : Graph) (t : DepthFirst) : comp (list Step) :=
  match fuel with
  | O => NoFuel
  | S fuel' =>
      let! r := dfs_next g t in
      match r with
      | (None, _) => Ok []
      | (Some step, t') =>
          let! steps := dfs_collect fuel' g t' in
          Ok (step :: steps)
      end
  end.

(** depth_first.rs:63-73  loop body of [into_table]. *)
Definition table_step (acc : list N * list (N * N)) (step : Step)
    : list N * list (N * N) :=
  let nodes := match acc.1 with [] => [sid step] | _ => acc.1 end in
  let nodes' := if cut step then nodes else nodes ++ [tid step] in
  (nodes', acc.2 ++ [(sid step, tid step)]).

(** depth_first.rs:59-76  [into_table].  The loop has no early exit, so it is a
    fold over the collected steps. *)
Definition dfs_into_table (fuel : nat) (g : Graph) (t : DepthFirst)
    : comp (list N * list (N * N)) :=
  let! steps := dfs_collect fuel g t in
  Ok (foldl table_step ([], []) steps).

(** src/graph/default_graph.rs:179-189  loop of [TryFrom<DepthFirst>]. *)
Fixpoint dg_extend_dfs (fuel : nat) (g : Graph) (t : DepthFirst)
    (result : DefaultGraph) : comp DefaultGraph :=
  match fuel with
  | O => NoFuel
  | S fuel' =>
      let! r := dfs_next g t in
      match r with
      | (None, _) => Ok result
      | (Some step, t') =>
          let! r1 := (if dg_is_empty result
                      then local (dg_add_node result (sid step)) else Ok result) in
          let! r2 := (if cut step then Ok r1
                      else local (dg_add_node r1 (tid step))) in
          let! r3 := local (dg_add_edge r2 (sid step) (tid step)) in
          dg_extend_dfs fuel' g t' r3
      end
  end.

(** default_graph.rs:173-193  [TryFrom<DepthFirst>]. *)
Definition dg_try_from_dfs (fuel : nat) (g : Graph) (t : DepthFirst) : comp DefaultGraph :=
  dg_extend_dfs fuel g t dg_new.

(** ** Breadth first *)

(** src/traversal/breadth_first.rs:50-54  [struct BreadthFirst].  [bf_queue] is
    the deque read from its back: the head of the list is what [pop_back]
    returns, and [push_front] appends at the end of the list. *)
Record BreadthFirst := mkBF { bf_nodes : gset N; bf_queue : list (N * N) }.

(** breadth_first.rs:57-68  [BreadthFirst::new]. *)
Definition bfs_new (g : Graph) (root : N) : comp BreadthFirst :=
  let! neighbors := g_neighbors g root in
  let queue := foldl (fun q neighbor => q ++ [(root, neighbor)]) [] neighbors in
  Ok (mkBF {[root]} queue).

(** breadth_first.rs:82-88  one iteration of the neighbor loop of [next]. *)
Definition bfs_push (nodes : gset N) (parent node : N)
    (queue : list (N * N)) (neighbor : N) : list (N * N) :=
  if bool_decide (neighbor = parent) || bool_decide (neighbor ∈ nodes)
  then queue else queue ++ [(node, neighbor)].

(** breadth_first.rs:75-96  [Iterator::next]. *)
Definition bfs_next (g : Graph) (t : BreadthFirst) : comp (option Step * BreadthFirst) :=
  match bf_queue t with
  | [] => Ok (None, t)
  | (parent, node) :: rest =>
      if bool_decide (node ∈ bf_nodes t)
      then Ok (Some (mkStep parent node true), mkBF (bf_nodes t) rest)
      else
        let! neighbors := unwrap (g_neighbors g node) in
        let queue := foldl (bfs_push (bf_nodes t) parent node) rest neighbors in
        Ok (Some (mkStep parent node false), mkBF ({[node]} ∪ bf_nodes t) queue)
  end.

(** [traversal.collect::<Vec<_>>()]. *)
Fixpoint bfs_collect (fuel : nat) (g : Graph) (t : BreadthFirst) : comp (list Step) :=
  match fuel with
  | O => NoFuel
  | S fuel' =>
      let! r := bfs_next g t in
      match r with
      | (None, _) => Ok []
      | (Some step, t') =>
          let! steps := bfs_collect fuel' g t' in
          Ok (step :: steps)
      end
  end.

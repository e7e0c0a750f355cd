(** The traversals, [components] and [greedy] with a record of their queries: each
    function of TraversalModel.v, ComponentsModel.v and GreedyModel.v that can call
    [Graph::neighbors] on the graph it was given, again, returning next to its
    outcome the nodes it called [neighbors] on, in order (also if the call failed).
    They call no other method of that graph, except [components], which calls
    [nodes] (components.rs:42). *)
From Verif Require Import Outcome GraphModel TraversalModel ComponentsModel PairingModel GreedyModel.

(** An outcome and the nodes asked on the way. *)
Definition asking (A : Type) : Type := list N * comp A.

(** One call of [Graph::neighbors]. *)
Definition ask (g : Graph) (v : N) : asking (list N) := ([v], g_neighbors g v).
(** No call. *)
Definition quiet {A} (m : comp A) : asking A := ([], m).
(** Sequencing: if [m] fails, the rest asks nothing. *)
Definition abind {A B} (m : asking A) (k : A -> asking B) : asking B :=
  match m.2 with
  | Ok a => (m.1 ++ (k a).1, (k a).2)
  | Err e => (m.1, Err e)
  | Panic p => (m.1, Panic p)
  | NoFuel => (m.1, NoFuel)
  end.
Notation "'ask!' x := m 'in' k" := (abind m (fun x => k))
  (at level 200, x pattern, m at level 100, k at level 200, right associativity).
(** [.unwrap()] / [.expect(..)]. *)
Definition aunwrap {A} (m : asking A) : asking A := (m.1, unwrap m.2).

(** depth_first.rs:45-57  [DepthFirst::new]. *)
Definition dfs_new_asks (g : Graph) (root : N) : asking DepthFirst :=
  ask! neighbors := ask g root in
  let stack := foldl (fun st neighbor => (root, neighbor) :: st) [] neighbors in
  quiet (Ok (mkDF {[root]} (reverse stack))).

(** depth_first.rs:83-115  [Iterator::next]. *)
Definition dfs_next_asks (g : Graph) (t : DepthFirst) : asking (option Step * DepthFirst) :=
  match df_stack t with
  | [] => quiet (Ok (None, t))
  | (parent, node) :: rest =>
      if bool_decide (node ∈ df_nodes t)
      then quiet (Ok (Some (mkStep parent node true), mkDF (df_nodes t) rest))
      else
        ask! neighbors := aunwrap (ask g node) in
        let stack := foldl (dfs_push (df_nodes t) parent node) rest (reverse neighbors) in
        quiet (Ok (Some (mkStep parent node false), mkDF ({[node]} ∪ df_nodes t) stack))
  end.

(** [k] calls of [next]. *)
Fixpoint dfs_advance_asks (k : nat) (g : Graph) (t : DepthFirst) : asking (list (option Step) * DepthFirst) :=
  match k with
  | O => quiet (Ok ([], t))
  | S k' => ask! r := dfs_next_asks g t in
            ask! r' := dfs_advance_asks k' g r.2 in
            quiet (Ok (r.1 :: r'.1, r'.2))
  end.
(** [DepthFirst::new(g, root)?] and [k] calls of [next]. *)
Definition dfs_run_asks (k : nat) (g : Graph) (root : N) : asking (list (option Step) * DepthFirst) :=
  ask! t := dfs_new_asks g root in dfs_advance_asks k g t.

(** breadth_first.rs:57-68  [BreadthFirst::new]. *)
Definition bfs_new_asks (g : Graph) (root : N) : asking BreadthFirst :=
  ask! neighbors := ask g root in
  let queue := foldl (fun q neighbor => q ++ [(root, neighbor)]) [] neighbors in
  quiet (Ok (mkBF {[root]} queue)).

(** breadth_first.rs:75-96  [Iterator::next]. *)
Definition bfs_next_asks (g : Graph) (t : BreadthFirst) : asking (option Step * BreadthFirst) :=
  match bf_queue t with
  | [] => quiet (Ok (None, t))
  | (parent, node) :: rest =>
      if bool_decide (node ∈ bf_nodes t)
      then quiet (Ok (Some (mkStep parent node true), mkBF (bf_nodes t) rest))
      else
        ask! neighbors := aunwrap (ask g node) in
        let queue := foldl (bfs_push (bf_nodes t) parent node) rest neighbors in
        quiet (Ok (Some (mkStep parent node false), mkBF ({[node]} ∪ bf_nodes t) queue))
  end.

(** [k] calls of [next]. *)
Fixpoint bfs_advance_asks (k : nat) (g : Graph) (t : BreadthFirst) : asking (list (option Step) * BreadthFirst) :=
  match k with
  | O => quiet (Ok ([], t))
  | S k' => ask! r := bfs_next_asks g t in
            ask! r' := bfs_advance_asks k' g r.2 in
            quiet (Ok (r.1 :: r'.1, r'.2))
  end.
(** [BreadthFirst::new(g, root)?] and [k] calls of [next]. *)
Definition bfs_run_asks (k : nat) (g : Graph) (root : N) : asking (list (option Step) * BreadthFirst) :=
  ask! t := bfs_new_asks g root in bfs_advance_asks k g t.

(** src/graph/default_graph.rs:179-189  loop of [TryFrom<DepthFirst>]. *)
Fixpoint dg_extend_dfs_asks (fuel : nat) (g : Graph) (t : DepthFirst)
    (result : DefaultGraph) : asking DefaultGraph :=
  match fuel with
  | O => quiet NoFuel
  | S fuel' =>
      ask! r := dfs_next_asks g t in
      match r with
      | (None, _) => quiet (Ok result)
      | (Some step, t') =>
          ask! r1 := quiet (if dg_is_empty result
                            then local (dg_add_node result (sid step)) else Ok result) in
          ask! r2 := quiet (if cut step then Ok r1
                            else local (dg_add_node r1 (tid step))) in
          ask! r3 := quiet (local (dg_add_edge r2 (sid step) (tid step))) in
          dg_extend_dfs_asks fuel' g t' r3
      end
  end.
(** default_graph.rs:173-193  [TryFrom<DepthFirst>]. *)
Definition dg_try_from_dfs_asks (fuel : nat) (g : Graph) (t : DepthFirst) : asking DefaultGraph :=
  dg_extend_dfs_asks fuel g t dg_new.

(** components.rs:56-86  [Iterator::next]. *)
Definition c_next_asks (fuel : nat) (g : Graph) (c : Components)
    : asking (option DefaultGraph * Components) :=
  match c_skip (c_visited c) (c_iter c) with
  | None => quiet (Ok (None, mkC (c_visited c) []))
  | Some (root, iter') =>
      let visited := {[root]} ∪ c_visited c in
      ask! traversal := aunwrap (dfs_new_asks g root) in
      ask! component := aunwrap (dg_try_from_dfs_asks fuel g traversal) in
      if dg_is_empty component then
        ask! component' := quiet (unwrap (local (dg_add_node component root))) in
        quiet (Ok (Some component', mkC visited iter'))
      else
        quiet (Ok (Some component, mkC (list_to_set (dg_nodes component) ∪ visited) iter'))
  end.
(** [k] calls of [next] on the iterator of [components]. *)
Fixpoint c_advance_asks (fuel k : nat) (g : Graph) (c : Components) : asking (list (option DefaultGraph)) :=
  match k with
  | O => quiet (Ok [])
  | S k' => ask! r := c_next_asks fuel g c in
            ask! outs := c_advance_asks fuel k' g r.2 in
            quiet (Ok (r.1 :: outs))
  end.

(** greedy.rs:46-58  the loop of [greedy].  The second traversal is over the
    component, not over the graph given by the caller. *)
Fixpoint greedy_loop_asks (fuel : nat) (g : Graph) (c : Components)
    (st : gset N * Pairing) : asking Pairing :=
  match fuel with
  | O => quiet NoFuel
  | S fuel' =>
      ask! r := c_next_asks fuel g c in
      match r with
      | (None, _) => quiet (Ok st.2)
      | (Some component, c') =>
          ask! root := quiet (expect_some (head (dg_nodes component))) in
          ask! traversal := quiet (unwrap (dfs_new (as_graph component) root)) in
          ask! steps := quiet (dfs_collect fuel (as_graph component) traversal) in
          greedy_loop_asks fuel' g c' (foldl greedy_step st steps)
      end
  end.
(** greedy.rs:41-61  [greedy]. *)
Definition greedy_asks (fuel : nat) (g : Graph) : asking Pairing :=
  greedy_loop_asks fuel g (components g) (∅, p_new).

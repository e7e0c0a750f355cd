(** Model of src/selection/components.rs. *)
From Verif Require Import Outcome GraphModel TraversalModel.

(** components.rs:46-51  [struct Components]; [c_iter] is what remains of
    [graph.nodes()].  The graph reference is passed separately. *)
Record Components := mkC { c_visited : gset N; c_iter : list N }.

(** components.rs:36-44  [components]. *)
Definition components (g : Graph) : Components := mkC ∅ (g_nodes g).

(** components.rs:57-66  the loop that looks for the next unvisited root. *)
Fixpoint c_skip (visited : gset N) (iter : list N) : option (N * list N) :=
  match iter with
  | [] => None
  | root :: iter' =>
      if bool_decide (root ∈ visited) then c_skip visited iter' else Some (root, iter')
  end.

(** components.rs:56-86  [Iterator::next]. *)
Definition c_next (fuel : nat) (g : Graph) (c : Components)
    : comp (option DefaultGraph * Components) :=
  match c_skip (c_visited c) (c_iter c) with
  | None => Ok (None, mkC (c_visited c) [])
  | Some (root, iter') =>
      let visited := {[root]} ∪ c_visited c in
      let! traversal := unwrap (dfs_new g root) in
      let! component := unwrap (dg_try_from_dfs fuel g traversal) in
      if dg_is_empty component then
        let! component' := unwrap (local (dg_add_node component root)) in
        Ok (Some component', mkC visited iter')
      else
        Ok (Some component, mkC (list_to_set (dg_nodes component) ∪ visited) iter')
  end.

(** [components(graph).collect::<Vec<_>>()]. *)
Fixpoint c_collect (fuel : nat) (g : Graph) (c : Components) : comp (list DefaultGraph) :=
  match fuel with
  | O => NoFuel
  | S fuel' =>
      let! r := c_next fuel g c in
      match r with
      | (None, _) => Ok []
      | (Some component, c') =>
          let! rest := c_collect fuel' g c' in
          Ok (component :: rest)
      end
  end.

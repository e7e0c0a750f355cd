(** Model of src/matching/greedy.rs. *)
From Verif Require Import Outcome GraphModel TraversalModel ComponentsModel PairingModel.

(** greedy.rs:53-56  body of the step loop: [nodes.insert(sid) &&
    nodes.insert(tid)]; [&&] does not evaluate the second insertion when the
    first one fails. *)
Definition greedy_step (st : gset N * Pairing) (s : Step) : gset N * Pairing :=
  let '(nodes, pairing) := st in
  if bool_decide (sid s ∈ nodes) then (nodes, pairing)
  else
    let nodes1 := {[sid s]} ∪ nodes in
    if bool_decide (tid s ∈ nodes1) then (nodes1, pairing)
    else ({[tid s]} ∪ nodes1, p_pair pairing (sid s) (tid s)).

(** greedy.rs:46-58  the loop over components, consuming the components
    iterator lazily.  The inner loop has no early exit, so it is a fold over
    the collected steps. *)
Fixpoint greedy_loop (fuel : nat) (g : Graph) (c : Components)
    (st : gset N * Pairing) : comp Pairing :=
  match fuel with
  | O => NoFuel
  | S fuel' =>
      let! r := c_next fuel g c in
      match r with
      | (None, _) => Ok st.2
      | (Some component, c') =>
          let! root := expect_some (head (dg_nodes component)) in
          let! traversal := unwrap (dfs_new (as_graph component) root) in
          let! steps := dfs_collect fuel (as_graph component) traversal in
          greedy_loop fuel' g c' (foldl greedy_step st steps)
      end
  end.

(** greedy.rs:41-61  [greedy]. *)
Definition greedy (fuel : nat) (g : Graph) : comp Pairing :=
  greedy_loop fuel g (components g) (∅, p_new).

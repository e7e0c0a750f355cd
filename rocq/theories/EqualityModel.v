(** Model of the derived [PartialEq] of traversals. *)
From Verif Require Import Outcome GraphModel TraversalModel.

(** src/traversal/depth_first.rs:37-42  [#[derive(PartialEq)]] on
    [DepthFirst<'a, DefaultGraph>]: the fields in order, with short-circuiting;
    the graph references are compared by [DefaultGraph::eq]. *)
Definition dfs_eq (g1 : DefaultGraph) (t1 : DepthFirst) (g2 : DefaultGraph) (t2 : DepthFirst) : comp bool :=
  if bool_decide (df_nodes t1 = df_nodes t2) then
    if bool_decide (df_stack t1 = df_stack t2) then dg_eq g1 g2 else Ok false
  else Ok false.

(** Vocabulary for property C87: what is asked of the graph. *)
From Verif Require Import Outcome GraphModel TraversalModel ComponentsModel PairingModel GreedyModel Spec QueryModel.

(** Two graphs answer [neighbors] alike for the nodes in [qs]. *)
Definition agree (g h : Graph) (qs : list N) : Prop := forall v, v ∈ qs -> g_neighbors g v = g_neighbors h v.

(** The whole traversal asks the nodes [qs], in this order: so do all large
    enough numbers of calls of [next]. *)
Definition depth_first_asks (g : Graph) (root : N) (qs : list N) : Prop :=
  exists n, forall k, n <= k -> (dfs_run_asks k g root).1 = qs.
Definition breadth_first_asks (g : Graph) (root : N) (qs : list N) : Prop :=
  exists n, forall k, n <= k -> (bfs_run_asks k g root).1 = qs.
(** So does [components(g).collect()], *)
Definition components_ask (g : Graph) (qs : list N) : Prop :=
  exists m, forall k, m <= k -> exists n, forall fuel, n <= fuel ->
    (c_advance_asks fuel k g (components g)).1 = qs.
(** and [greedy(g)]. *)
Definition greedy_asked (g : Graph) (qs : list N) : Prop :=
  exists n, forall fuel, n <= fuel -> (greedy_asks fuel g).1 = qs.

(** Specification vocabulary for C88: the graphs that the depth-first traversal
    handles whatever the order of their neighbors.  Only the model is imported. *)
From Verif Require Import Outcome GraphModel TraversalModel Spec.

(** [u] and [v] are connected without touching [P]. *)
Definition joined (g : Graph) (P : list N) (u v : N) : Prop :=
  rtc (fun a b => adj g a b /\ a ∉ P /\ b ∉ P) u v.

(** Take any simple path [P] from [r] to [v].  If two neighbors of [v] off the
    path are joined to each other off the path, then every neighbor of [v] is
    either the node before [v] on the path, or off the path and joined to the
    same two: [v] leads to one part only of what is off the path, and has no
    further edge back to the path. *)
Definition untangled (g : Graph) (r : N) : Prop :=
  forall P v c d x, is_path g P -> NoDup P -> head P = Some r -> last P = Some v ->
    adj g v c -> adj g v d -> c <> d -> c ∉ P -> d ∉ P -> joined g P c d -> adj g v x ->
    (x ∈ P -> exists P', P = P' ++ [x; v]) /\ (x ∉ P -> joined g P c x).

(** [h] is [g] with the neighbors of each node listed in another order; all
    other methods answer the same. *)
Definition reordered (g h : Graph) : Prop :=
  g_is_empty h = g_is_empty g /\ g_order h = g_order g /\ g_size h = g_size g /\
  g_nodes h = g_nodes g /\ g_has_node h = g_has_node g /\ g_degree h = g_degree g /\
  g_edges h = g_edges g /\ g_has_edge h = g_has_edge g /\
  forall v, match g_neighbors g v with
            | Ok l => exists l', g_neighbors h v = Ok l' /\ Permutation l l'
            | _ => g_neighbors h v = g_neighbors g v
            end.

(** No self-loops, and every component is untangled seen from its node that is
    listed first. *)
Definition untangled_components (g : Graph) : Prop :=
  LoopFree g /\
  forall i r, g_nodes g !! i = Some r ->
    (forall j v, j < i -> g_nodes g !! j = Some v -> ~ reachable g r v) -> untangled g r.

(** Vocabulary for property C84: implementations of [Graph] that obey no law,
    in particular graphs whose edges go one way.  Only the model is imported. *)
From Verif Require Import Outcome GraphModel TraversalModel ComponentsModel PairingModel Spec.

(** Finitely many nodes can be reached from [r]. *)
Definition finite_reach (g : Graph) (r : N) : Prop :=
  exists L : list N, forall v, reachable g r v -> v ∈ L.

(** [neighbors] succeeds on everything that can be reached from [r] ... *)
Definition answers (g : Graph) (r : N) : Prop :=
  forall v, reachable g r v -> exists l, g_neighbors g v = Ok l.

(** ... or at least returns there. *)
Definition polite (g : Graph) (r : N) : Prop :=
  forall v, reachable g r v -> total (g_neighbors g v).

(** No cycle of one-way edges can be reached from [r]. *)
Definition one_way (g : Graph) (r : N) : Prop :=
  forall u v, reachable g r u -> adj g u v -> ~ reachable g v u.

(** Depth-first search of a graph with one-way edges, as in a textbook: the
    nodes of [todo] in turn; one met before is skipped; another one is followed
    by its neighbors.  [found] are the nodes met, in order. *)
Inductive search (g : Graph) : list N -> list N -> list N -> Prop :=
| search_end seen : search g seen [] []
| search_skip seen n todo found : n ∈ seen ->
    search g seen todo found -> search g seen (n :: todo) found
| search_visit seen n todo l found : n ∉ seen -> g_neighbors g n = Ok l ->
    search g (n :: seen) (l ++ todo) found ->
    search g seen (n :: todo) (n :: found).

(** The traversal is created, and then iterating it panics because a call of
    [neighbors] that must not fail failed with [e]. *)
Definition breadth_first_panics (g : Graph) (r : N) (e : error) : Prop :=
  exists t n, bfs_new g r = Ok t /\
    forall fuel, n <= fuel -> bfs_collect fuel g t = Panic (PUnwrap e).
Definition depth_first_panics (g : Graph) (r : N) (e : error) : Prop :=
  exists t n, dfs_new g r = Ok t /\
    forall fuel, n <= fuel -> dfs_collect fuel g t = Panic (PUnwrap e).

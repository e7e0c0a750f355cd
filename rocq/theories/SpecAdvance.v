(** Specification vocabulary for C69: a traversal some of whose steps have
    already been taken.  Only the model is imported. *)
From Verif Require Import Outcome GraphModel TraversalModel ComponentsModel PairingModel Spec.

(** [k] calls of [next], with their results, and the traversal afterwards.
    (The caller's loop over src/traversal/depth_first.rs:83-115 and
    breadth_first.rs:75-96.) *)
Fixpoint dfs_advance (k : nat) (g : Graph) (t : DepthFirst) : comp (list (option Step) * DepthFirst) :=
  match k with
  | O => Ok ([], t)
  | S k' => let! r := dfs_next g t in
            let! r' := dfs_advance k' g r.2 in
            Ok (r.1 :: r'.1, r'.2)
  end.
Fixpoint bfs_advance (k : nat) (g : Graph) (t : BreadthFirst) : comp (list (option Step) * BreadthFirst) :=
  match k with
  | O => Ok ([], t)
  | S k' => let! r := bfs_next g t in
            let! r' := bfs_advance k' g r.2 in
            Ok (r.1 :: r'.1, r'.2)
  end.

(** [DepthFirst::new(g, root)] succeeds; [k] calls of [next] return [outs] and
    leave the traversal [t]. *)
Definition dfs_after (g : Graph) (root : N) (k : nat) (outs : list (option Step)) (t : DepthFirst) : Prop :=
  exists t0, dfs_new g root = Ok t0 /\ dfs_advance k g t0 = Ok (outs, t).
Definition bfs_after (g : Graph) (root : N) (k : nat) (outs : list (option Step)) (t : BreadthFirst) : Prop :=
  exists t0, bfs_new g root = Ok t0 /\ bfs_advance k g t0 = Ok (outs, t).

(** What a table made from the remaining steps alone looks like: the source
    of the first of them, the targets of those that discover a node, and
    their edges. *)
Definition table_of (rest : list Step) : list N * list (N * N) :=
  match rest with
  | [] => ([], [])
  | s :: _ => (discovered (sid s) rest, crossed rest)
  end.

(** A node that the first [i] of the remaining steps have introduced: the
    source of the first of all, or the target of one that discovers it. *)
Definition known (rest : list Step) (i : nat) (x : N) : Prop :=
  (exists s, rest !! 0 = Some s /\ sid s = x) \/
  (exists j s, j < i /\ rest !! j = Some s /\ cut s = false /\ tid s = x).

(** Both ends of step [i] are introduced in time (a step that is not cut
    introduces its own target). *)
Definition ends_known (rest : list Step) (i : nat) (s : Step) : Prop :=
  known rest i (sid s) /\ (cut s = true -> known rest i (tid s)).

(** [x] is the first end of a remaining step that was not introduced. *)
Definition first_unknown (rest : list Step) (x : N) : Prop :=
  exists i s, rest !! i = Some s /\
    (forall j s', j < i -> rest !! j = Some s' -> ends_known rest j s') /\
    ((~ known rest i (sid s) /\ x = sid s) \/
     (known rest i (sid s) /\ cut s = true /\ ~ known rest i (tid s) /\ x = tid s)).

(** ** C70: the iterator returned by [components] *)

(** [k] calls of [next]: (the caller's loop over src/selection/components.rs:56-86). *)
Fixpoint c_advance (fuel k : nat) (g : Graph) (c : Components) : comp (list (option DefaultGraph)) :=
  match k with
  | O => Ok []
  | S k' => let! r := c_next fuel g c in
            let! outs := c_advance fuel k' g r.2 in
            Ok (r.1 :: outs)
  end.

(** [x] is the node whose self-loop is the first to be crossed a second time. *)
Definition crossed_again (steps : list Step) (x : N) : Prop :=
  exists before s after, steps = before ++ s :: after /\ sid s = x /\ tid s = x /\
    (x, x) ∈ crossed before /\ forall y, times_crossed (y, y) (crossed before) <= 1.

(** What comes out of the nodes [todo], in order, when [seen] are the nodes of
    the graphs yielded before: nothing for a node seen; for another one the
    graph of the depth-first traversal from it; but if that traversal crosses
    a self-loop twice, DuplicateEdge, and then nothing more. *)
Inductive selects (g : Graph) : list N -> list N -> list DefaultGraph -> option error -> Prop :=
| sel_end seen : selects g seen [] [] None
| sel_seen seen v todo ds e : v ∈ seen -> selects g seen todo ds e -> selects g seen (v :: todo) ds e
| sel_yield seen v todo steps d ds e : v ∉ seen -> depth_first g v steps ->
    (forall x, times_crossed (x, x) (crossed steps) <= 1) ->
    observes d (mkA (discovered v steps) (crossed steps)) ->
    selects g (discovered v steps ++ seen) todo ds e ->
    selects g seen (v :: todo) (d :: ds) e
| sel_fail seen v todo steps x : v ∉ seen -> depth_first g v steps -> crossed_again steps x ->
    selects g seen (v :: todo) [] (Some (DuplicateEdge x x)).

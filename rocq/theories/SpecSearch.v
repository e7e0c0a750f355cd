(** Specification vocabulary for C78 to C80: the traversals as rules that pick
    the next edge from the steps made so far, without a stack or a queue.  Only
    the model is imported. *)
From Verif Require Import Outcome GraphModel TraversalModel Spec.

(** [x] comes before [y] in [l]. *)
Definition before (l : list N) (x y : N) : Prop := exists l1 l2, l = l1 ++ x :: l2 /\ y ∈ l2.

(** [x], discovered by the steps [E], has an edge to another node [y] that none
    of them crosses, in either direction. *)
Definition uncrossed_edge (g : Graph) (r : N) (E : list Step) (x y : N) : Prop :=
  x ∈ discovered r E /\ adj g x y /\ x <> y /\ (x, y) ∉ crossed E /\ (y, x) ∉ crossed E.

(** One of the steps [E] reached a new neighbor of the already discovered [a]
    from a node other than [a]. *)
Definition bypassed (g : Graph) (r : N) (E : list Step) (a : N) : Prop :=
  exists pre s post, E = pre ++ s :: post /\ cut s = false /\
    a ∈ discovered r pre /\ adj g (tid s) a /\ sid s <> a.

(** Among the edges [free], the one from [x] to [y] has the youngest (oldest)
    source, and comes first among those of its source. *)
Definition youngest (g : Graph) (order : list N) (free : N -> N -> Prop) (x y : N) : Prop :=
  free x y /\ (forall a b, free a b -> a = x \/ before order a x) /\
  (forall b l, free x b -> g_neighbors g x = Ok l -> b = y \/ before l y b).
Definition oldest (g : Graph) (order : list N) (free : N -> N -> Prop) (x y : N) : Prop :=
  free x y /\ (forall a b, free a b -> a = x \/ before order x a) /\
  (forall b l, free x b -> g_neighbors g x = Ok l -> b = y \/ before l y b).

(** The rule of the depth-first traversal: go on from the youngest node that
    has an uncrossed edge and has not been bypassed, along the first such edge;
    the step is a cut if its target is already discovered; stop when there is no
    such node. *)
Definition depth_free (g : Graph) (r : N) (E : list Step) (x y : N) : Prop :=
  uncrossed_edge g r E x y /\ ~ bypassed g r E x.
Definition depth_rule (g : Graph) (r : N) (steps : list Step) : Prop :=
  (forall pre s post, steps = pre ++ s :: post ->
     youngest g (discovered r pre) (depth_free g r pre) (sid s) (tid s) /\
     (cut s = true <-> tid s ∈ discovered r pre)) /\
  (forall x y, ~ depth_free g r steps x y).

(** The rule of the breadth-first traversal: the same with the oldest node that
    has an uncrossed edge. *)
Definition breadth_rule (g : Graph) (r : N) (steps : list Step) : Prop :=
  (forall pre s post, steps = pre ++ s :: post ->
     oldest g (discovered r pre) (uncrossed_edge g r pre) (sid s) (tid s) /\
     (cut s = true <-> tid s ∈ discovered r pre)) /\
  (forall x y, ~ uncrossed_edge g r steps x y).

(** The same rule for textbook depth-first search: no node is bypassed. *)
Definition textbook_rule (g : Graph) (r : N) (steps : list Step) : Prop :=
  (forall pre s post, steps = pre ++ s :: post ->
     youngest g (discovered r pre) (uncrossed_edge g r pre) (sid s) (tid s) /\
     (cut s = true <-> tid s ∈ discovered r pre)) /\
  (forall x y, ~ uncrossed_edge g r steps x y).

(** Textbook depth-first search (Spec.v) of [g] from [r]. *)
Definition textbook_run (g : Graph) (r : N) (steps : list Step) : Prop :=
  exists l, g_neighbors g r = Ok l /\ textbook g r [] ((fun x => (r, x)) <$> l) steps.

(** Specification vocabulary for C37: where the greedy pairing covers every
    edge.  Only the model is imported. *)
From Verif Require Import Outcome GraphModel TraversalModel Spec SpecTangle.

(** A simple path from [r] that closes a ring (its end is adjacent to a node of
    the path other than the one before the end) cannot be extended. *)
Definition rings_end (g : Graph) (r : N) : Prop :=
  forall P v x y, is_path g P -> NoDup P -> head P = Some r -> last P = Some v ->
    adj g v x -> x ∈ P -> ~ (exists P', P = P' ++ [x; v]) -> adj g v y -> y ∈ P.

(** ... seen from the first-listed node of every component. *)
Definition components_end (g : Graph) : Prop :=
  forall i r, g_nodes g !! i = Some r ->
    (forall j v, j < i -> g_nodes g !! j = Some v -> ~ reachable g r v) -> rings_end g r.

(** The first of the [steps] that starts at [x] is a cut step. *)
Definition leaves_by_cut (steps : list Step) (x : N) : Prop :=
  exists pre s post, steps = pre ++ s :: post /\ sid s = x /\ cut s = true /\
    forall s', s' ∈ pre -> sid s' <> x.

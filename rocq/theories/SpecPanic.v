(** Vocabulary for property C85: what a panic leaves behind. *)
From Verif Require Import Outcome GraphModel TraversalModel ComponentsModel PairingModel Spec SpecAdvance
  MaximumModel PanicModel.

(** [maximum_matching(g, &mut p)] ends like [m] and leaves the value [q] in [p]. *)
Definition leaves (iter : hash_order) (g : Graph) (p q : Pairing) (m : comp unit) : Prop :=
  m <> NoFuel /\ exists n, forall fuel, n <= fuel -> maximum_matching_left iter [] fuel g p = (q, m).

(** What comes out of the nodes [todo], in order, if the caller catches panics:
    nothing for a node in [seen]; for another one the graph of the depth-first
    traversal from it, whose nodes are then seen; or, if that traversal crosses a
    self-loop twice, a panic, and of its nodes only the root is then seen. *)
Inductive resumes (g : Graph) : list N -> list N -> list (DefaultGraph + error) -> Prop :=
| res_end seen : resumes g seen [] []
| res_seen seen v todo outs : v ∈ seen -> resumes g seen todo outs -> resumes g seen (v :: todo) outs
| res_yield seen v todo steps d outs : v ∉ seen -> depth_first g v steps ->
    (forall x, times_crossed (x, x) (crossed steps) <= 1) ->
    observes d (mkA (discovered v steps) (crossed steps)) ->
    resumes g (discovered v steps ++ seen) todo outs ->
    resumes g seen (v :: todo) (inl d :: outs)
| res_fail seen v todo steps x outs : v ∉ seen -> depth_first g v steps -> crossed_again steps x ->
    resumes g (v :: seen) todo outs ->
    resumes g seen (v :: todo) (inr (DuplicateEdge x x) :: outs).

(** As the result of a call of [next]. *)
Definition call_result (out : DefaultGraph + error) : comp (option DefaultGraph) :=
  match out with inl d => Ok (Some d) | inr e => Panic (PUnwrap e) end.

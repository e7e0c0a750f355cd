(** Vocabulary of C92. *)
From Verif Require Import Outcome GraphModel PairingModel Spec.

(** Pairs made one after another, from the pairing [p] to [q]: each time the
    first unpaired node of [g] that has neighbors is paired with its first
    neighbor, which must be unpaired and another node. *)
Inductive first_pairs (g : Graph) : Pairing -> list (N * N) -> Pairing -> Prop :=
| first_pairs_none p : first_pairs g p [] p
| first_pairs_one p before v after w rest pairs q :
    g_nodes g = before ++ v :: after ->
    (forall u, u ∈ before -> p_has_node p u = true \/ g_neighbors g u = Ok []) ->
    p_has_node p v = false -> g_neighbors g v = Ok (w :: rest) ->
    p_has_node p w = false -> w <> v ->
    first_pairs g (p_pair p v w) pairs q -> first_pairs g p ((v, w) :: pairs) q.

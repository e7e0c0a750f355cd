(** Vocabulary for property C86: queries made by [maximum_matching]. *)
From Verif Require Import Outcome GraphModel TraversalModel ComponentsModel PairingModel Spec
  MaximumModel WorkModel.

(** [maximum_matching(g, &mut p)] ends like [m] after the searches [W]: for each
    search the number of [neighbors] calls on [g] and on each contraction. *)
Definition works (iter : hash_order) (g : Graph) (p : Pairing) (W : list (list nat)) (m : comp Pairing) : Prop :=
  m <> NoFuel /\ exists n, forall fuel, n <= fuel -> maximum_matching_work iter [] fuel g p = (W, m).

(** All [neighbors] calls, on whatever graph. *)
Definition all_calls (W : list (list nat)) : nat := sum_list (sum_list <$> W).
(** Those on the graph given by the caller. *)
Definition calls_on_graph (W : list (list nat)) : nat :=
  sum_list ((fun s => match s with [] => 0 | c :: _ => c end) <$> W).

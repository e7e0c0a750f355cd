(** Specification vocabulary for C89: graphs whose nodes are listed along a path
    through all of them.  Only the model is imported. *)
From Verif Require Import Outcome GraphModel TraversalModel Spec.

(** Consecutive nodes are adjacent, there is no self-loop, and every node lists
    its neighbors in the order of the nodes. *)
Definition in_a_row (g : Graph) : Prop :=
  LoopFree g /\ is_path g (g_nodes g) /\
  forall v l, g_neighbors g v = Ok l -> l `sublist_of` g_nodes g.

(** Walk along the nodes [todo], after [seen]: from each node first a cut step
    to every earlier neighbor but the node just before it, in order, then the
    step to the next node. *)
Fixpoint row_steps (g : Graph) (seen todo : list N) : list Step :=
  match todo with
  | [] => []
  | v :: todo' =>
      ((fun u => mkStep v u true) <$>
         filter (fun u => u ∈ seen /\ last seen <> Some u) (match g_neighbors g v with Ok l => l | _ => [] end))
      ++ match todo' with w :: _ => [mkStep v w false] | [] => [] end
      ++ row_steps g (seen ++ [v]) todo'
  end.

(** Vocabulary of property C82: numbering the nodes of a graph. *)
From Verif Require Import Outcome GraphModel TraversalModel PairingModel Spec.

(** The place of [v] in [l], counted from 0 (and 0 if it is not there). *)
Fixpoint place (l : list N) (v : N) : N :=
  match l with
  | [] => 0
  | x :: l' => if bool_decide (x = v) then 0 else N.succ (place l' v)
  end.

(** The adjacency list of a graph: for each node of [nodes()], the places of its
    neighbors in [nodes()]. *)
Definition adjacency_list (g : Graph) : list (list N) :=
  (fun v => place (g_nodes g) <$> match g_neighbors g v with Ok l => l | _ => [] end) <$> g_nodes g.

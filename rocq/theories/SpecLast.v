(** Vocabulary for property C86: the searches that find nothing. *)
From Verif Require Import Outcome GraphModel PairingModel Spec.

(** Some maximum matching leaves the node [v] out. *)
Definition spared (g : Graph) (v : N) : Prop :=
  v ∈ g_nodes g /\ exists M, maximum g M /\ v ∉ endpoints M.

(** The degrees of the nodes [D], added up. *)
Definition degrees (g : Graph) (D : list N) : nat :=
  sum_list ((fun v => match g_degree g v with Ok n => n | _ => 0 end) <$> D).

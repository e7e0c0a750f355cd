(** Vocabulary for property C81: parts of a graph. *)
From Verif Require Import Outcome GraphModel TraversalModel ComponentsModel PairingModel Spec.

(** [g] consists of some of the components of [h]: its nodes come in the order
    of [h], and each of them has in [g] the neighbors it has in [h], in the same
    order. *)
Definition part_of (g h : Graph) : Prop :=
  g_nodes g = filter (fun v => v ∈ g_nodes g) (g_nodes h) /\
  forall v, v ∈ g_nodes g -> g_neighbors h v = g_neighbors g v.

(** All nodes of [d] are nodes of [g]. *)
Definition inside (g : Graph) (d : DefaultGraph) : Prop :=
  Forall (fun v => v ∈ g_nodes g) (g_nodes (as_graph d)).
Global Instance inside_dec g d : Decision (inside g d).
Proof. unfold inside. apply _. Defined.

(** The pairs of [p] whose nodes are nodes of [g]. *)
Definition pairs_within (g : Graph) (p : Pairing) : Pairing :=
  filter (fun e : N * N => e.1 ∈ g_nodes g /\ e.2 ∈ g_nodes g) p.

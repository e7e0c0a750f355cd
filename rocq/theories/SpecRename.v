(** Vocabulary of property C73. *)
From Verif Require Import Outcome GraphModel TraversalModel PairingModel Spec.

(** [edges] of [h] lists the renamed edges of [g] in the same order, each in
    either direction. *)
Definition edges_renamed (f : N -> N) (g h : Graph) : Prop :=
  Forall2 (fun e e' => same_edge (f e.1, f e.2) e') (g_edges g) (g_edges h).

(** [q] pairs the new names of what [p] pairs, and nothing else. *)
Definition pairing_renamed (f : N -> N) (p q : Pairing) : Prop :=
  forall x y, q !! x = Some y <-> exists u v, p !! u = Some v /\ x = f u /\ y = f v.

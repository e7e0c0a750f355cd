(** What C74 speaks about. *)
From Verif Require Import Outcome GraphModel PairingModel Spec MaximumModel StackModel.

(** maximum_matching, run with a call stack of [stack] frames, ends with [m]: it
    returns a pairing, panics, or exhausts the stack. *)
Definition stack_run (iter : hash_order) (stack : nat) (g : Graph) (p : Pairing)
    (m : comp (stacked Pairing)) : Prop :=
  m <> NoFuel /\ exists n, forall fuel, n <= fuel -> maximum_matching_stack iter [] fuel stack g p = m.

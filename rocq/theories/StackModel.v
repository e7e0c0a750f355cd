(** The matching of MaximumModel.v run on a machine with a bounded call stack. *)
From Verif Require Import Outcome GraphModel PairingModel MaximumModel.

(** A call either fits on the stack or exhausts it (the process then aborts). *)
Inductive stacked (A : Type) :=
| Fits (a : A)
| Overflow.
Arguments Fits {A} a.
Arguments Overflow {A}.

(** maximum_matching.rs:46-93, 105-136: [augmenting_path] of MaximumModel.v,
    with room for [stack] nested calls left when it is called.  One level
    stands for the three Rust frames [augmenting_path], [even_path] and
    [process_blossom]; the loops and helpers below them do not recurse. *)
Fixpoint augmenting_path_stack (iter : hash_order) (tag : list nat) (fuel stack : nat)
    (g : Graph) (p : Pairing) : comp (stacked (option (list N))) :=
  match fuel with
  | O => NoFuel
  | S fuel' =>
  match stack with
  | O => Ok Overflow
  | S stack' =>
      let! marker := mark_edges mk_new (p_edges iter (0 :: tag) p) in
      let! forest := add_roots f_new p (g_nodes g) in
      let! r := search_v fuel g p forest marker in
      match r with
      | Exhausted _ _ => Ok (Fits None)
      | EvenPath v path_w forest =>
          let! opath := f_path forest v in
          let! path_v := expect_some opath in
          if bool_decide (last path_v = last path_w) then
            let! max_id := expect_some (nodes_max (g_nodes g)) in
            let! id := checked_succ max_id in
            let! blossom := b_new id path_v path_w in
            let! contracted_graph := unwrap (b_contract_graph blossom g) in
            let contracted_pairing :=
              b_contract_pairing blossom (p_edges iter (1 :: tag) p) in
            let! called := augmenting_path_stack iter (2 :: tag) fuel' stack'
                             (as_graph contracted_graph) contracted_pairing in
            match called with
            | Overflow => Ok Overflow
            | Fits (Some path) => let! lifted := b_lift fuel blossom path g in Ok (Fits (Some lifted))
            | Fits None => Ok (Fits None)
            end
          else Ok (Fits (Some (reverse path_v ++ path_w)))
      end
  end
  end.

(** maximum_matching.rs:37-44  [maximum_matching] with room for [stack] nested
    calls: its own frame, below it the search, and after each augmentation the
    recursive call.  The next evaluation of the [while] condition happens in
    the same frame, hence with the same [stack]. *)
Fixpoint maximum_matching_stack (iter : hash_order) (tag : list nat) (fuel stack : nat)
    (g : Graph) (p : Pairing) : comp (stacked Pairing) :=
  match fuel with
  | O => NoFuel
  | S fuel' =>
  match stack with
  | O => Ok Overflow
  | S stack' =>
      let! searched := augmenting_path_stack iter (0 :: tag) fuel stack' g p in
      match searched with
      | Overflow => Ok Overflow
      | Fits None => Ok (Fits p)
      | Fits (Some path) =>
          let! p1 := p_augment p path in
          let! called := maximum_matching_stack iter (1 :: tag) fuel' stack' g p1 in
          match called with
          | Overflow => Ok Overflow
          | Fits p2 => maximum_matching_stack iter (2 :: tag) fuel' stack g p2
          end
      end
  end
  end.

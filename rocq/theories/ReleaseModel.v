(** The same search compiled without overflow checks (cargo's release
    profile): [max_id + 1] wraps around to 0. *)
From Verif Require Import Outcome GraphModel PairingModel MaximumModel.

(** maximum_matching.rs:128  [graph.nodes().max().unwrap() + 1] when
    [overflow-checks] is off. *)
Definition wrapping_succ (n : N) : N := if (n <? usize_max)%N then (n + 1)%N else 0%N.

(** maximum_matching.rs:46-93, 105-136: [augmenting_path] of MaximumModel.v with
    the one addition wrapping instead of checked.  (All other arithmetic of the
    function, [index + 1] and lengths, is on vector indices and cannot
    overflow.) *)
Fixpoint augmenting_path_release (iter : hash_order) (tag : list nat) (fuel : nat)
    (g : Graph) (p : Pairing) : comp (option (list N)) :=
  match fuel with
  | O => NoFuel
  | S fuel' =>
      let! marker := mark_edges mk_new (p_edges iter (0 :: tag) p) in
      let! forest := add_roots f_new p (g_nodes g) in
      let! r := search_v fuel g p forest marker in
      match r with
      | Exhausted _ _ => Ok None
      | EvenPath v path_w forest =>
          let! opath := f_path forest v in
          let! path_v := expect_some opath in
          if bool_decide (last path_v = last path_w) then
            let! max_id := expect_some (nodes_max (g_nodes g)) in
            let id := wrapping_succ max_id in
            let! blossom := b_new id path_v path_w in
            let! contracted_graph := unwrap (b_contract_graph blossom g) in
            let contracted_pairing :=
              b_contract_pairing blossom (p_edges iter (1 :: tag) p) in
            let! opath := augmenting_path_release iter (2 :: tag) fuel'
                            (as_graph contracted_graph) contracted_pairing in
            match opath with
            | Some path => let! lifted := b_lift fuel blossom path g in Ok (Some lifted)
            | None => Ok None
            end
          else Ok (Some (reverse path_v ++ path_w))
      end
  end.

(** maximum_matching.rs:37-44  [maximum_matching]. *)
Fixpoint maximum_matching_release (iter : hash_order) (tag : list nat) (fuel : nat)
    (g : Graph) (p : Pairing) : comp Pairing :=
  match fuel with
  | O => NoFuel
  | S fuel' =>
      let! opath := augmenting_path_release iter (0 :: tag) fuel g p in
      match opath with
      | None => Ok p
      | Some path =>
          let! p1 := p_augment p path in
          let! p2 := maximum_matching_release iter (1 :: tag) fuel' g p1 in
          maximum_matching_release iter (2 :: tag) fuel' g p2
      end
  end.

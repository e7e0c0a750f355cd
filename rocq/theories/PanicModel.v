(** What a panicking call leaves in the variables it was given by [&mut]: the
    functions of PairingModel.v, MaximumModel.v and ComponentsModel.v again,
    each returning the caller's value at the end of the call next to the
    outcome, also when the outcome is a panic (which the caller may catch with
    [std::panic::catch_unwind]). *)
From Verif Require Import Outcome GraphModel TraversalModel ComponentsModel PairingModel MaximumModel.

(** pairing.rs:35-45  [augment]: the length is checked first. *)
Definition p_augment_left (p : Pairing) (path : list N) : Pairing * comp unit :=
  if Nat.odd (length path) then (p, Panic PEvenPath) else (p_pair_up p path, Ok tt).

(** maximum_matching.rs:37-44  [maximum_matching].  [augmenting_path] takes
    [&mut Pairing] but only reads it (it builds a contracted copy for a
    blossom), so a panic in it leaves the pairing as it was. *)
Fixpoint maximum_matching_left (iter : hash_order) (tag : list nat) (fuel : nat)
    (g : Graph) (p : Pairing) : Pairing * comp unit :=
  match fuel with
  | O => (p, NoFuel)
  | S fuel' =>
      match augmenting_path iter (0 :: tag) fuel g p with
      | Ok None => (p, Ok tt)
      | Ok (Some path) =>
          match p_augment_left p path with
          | (p1, Ok _) =>
              match maximum_matching_left iter (1 :: tag) fuel' g p1 with
              | (p2, Ok _) => maximum_matching_left iter (2 :: tag) fuel' g p2
              | stopped => stopped
              end
          | stopped => stopped
          end
      | Err e => (p, Err e)
      | Panic e => (p, Panic e)
      | NoFuel => (p, NoFuel)
      end
  end.

(** components.rs:56-86  [Iterator::next]: the root is taken from the node
    iterator and marked visited before anything can fail. *)
Definition c_next_left (fuel : nat) (g : Graph) (c : Components)
    : Components * comp (option DefaultGraph) :=
  match c_skip (c_visited c) (c_iter c) with
  | None => (mkC (c_visited c) [], Ok None)
  | Some (root, iter') =>
      let visited := {[root]} ∪ c_visited c in
      match (let! traversal := unwrap (dfs_new g root) in unwrap (dg_try_from_dfs fuel g traversal)) with
      | Ok component =>
          if dg_is_empty component then
            match unwrap (local (dg_add_node component root)) with
            | Ok component' => (mkC visited iter', Ok (Some component'))
            | Err e => (mkC visited iter', Err e)
            | Panic e => (mkC visited iter', Panic e)
            | NoFuel => (mkC visited iter', NoFuel)
            end
          else (mkC (list_to_set (dg_nodes component) ∪ visited) iter', Ok (Some component))
      | Err e => (mkC visited iter', Err e)
      | Panic e => (mkC visited iter', Panic e)
      | NoFuel => (mkC visited iter', NoFuel)
      end
  end.

(** [k] calls of [next] by a caller who catches panics and goes on. *)
Fixpoint c_advance_left (fuel k : nat) (g : Graph) (c : Components) : list (comp (option DefaultGraph)) :=
  match k with
  | O => []
  | S k' => let r := c_next_left fuel g c in r.2 :: c_advance_left fuel k' g r.1
  end.

(** Model of src/matching/pairing.rs. *)
From Verif Require Import Outcome.

(** pairing.rs:5-7  [struct Pairing]. *)
Notation Pairing := (gmap N N).

(** pairing.rs:10-14  [new]. *)
Definition p_new : Pairing := ∅.

(** pairing.rs:16-18  [order]. *)
Definition p_order (p : Pairing) : nat := size p.

(** pairing.rs:20-22  [has_node]. *)
Definition p_has_node (p : Pairing) (id : N) : bool := bool_decide (is_Some (p !! id)).

(** pairing.rs:54-69  [insert]. *)
Definition p_insert (p : Pairing) (sid tid : N) : Pairing :=
  match p !! sid with
  | Some cur =>
      if bool_decide (cur = tid) then p
      else delete cur (<[sid := tid]> p)
  | None => <[sid := tid]> p
  end.

(** pairing.rs:24-27  [pair]. *)
Definition p_pair (p : Pairing) (sid tid : N) : Pairing :=
  p_insert (p_insert p sid tid) tid sid.

(** pairing.rs:47-52  [mate]. *)
Definition p_mate (p : Pairing) (id : N) : comp N :=
  match p !! id with
  | Some m => Ok m
  | None => Panic (PMissingMate id)
  end.

(** pairing.rs:29-33  [edges], given the entries in the order in which the
    hash map happens to iterate them. *)
Definition p_edges_of (entries : list (N * N)) : list (N * N) :=
  filter (fun e : N * N => (e.1 < e.2)%N) entries.

(** An iteration order for hash maps: which order each iteration of a map
    yields.  The first argument identifies the iteration site in the
    execution, so that two iterations may differ in order even when the maps
    are equal. *)
Definition hash_order := list nat -> gmap N N -> list (N * N).
Definition hash_order_ok (iter : hash_order) : Prop :=
  forall tag p, iter tag p ≡ₚ map_to_list p.

Definition p_edges (iter : hash_order) (tag : list nat) (p : Pairing) : list (N * N) :=
  p_edges_of (iter tag p).

(** pairing.rs:40-44  the loop of [augment] on a path of even length.
    Simplification: the loop over all indices that acts on even ones is a
    recursion taking two elements at a time. *)
Fixpoint p_pair_up (p : Pairing) (path : list N) : Pairing :=
  match path with
  | a :: b :: path' => p_pair_up (p_pair p a b) path'
  | _ => p
  end.

(** pairing.rs:35-45  [augment]. *)
Definition p_augment (p : Pairing) (path : list N) : comp Pairing :=
  if Nat.odd (length path) then Panic PEvenPath else Ok (p_pair_up p path).

(** pairing.rs:4  the derived [PartialEq]: that of [HashMap], which compares
    the numbers of entries and then looks up every entry of the left map in the
    right one.  [entries] is the order in which the left map is iterated. *)
Definition p_eq (entries : list (N * N)) (p q : Pairing) : bool :=
  (p_order p =? p_order q) && forallb (fun e => bool_decide (q !! e.1 = Some e.2)) entries.

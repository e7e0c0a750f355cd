(** The matching of MaximumModel.v with a count of its queries: each function
    again, returning next to its outcome the number of calls of
    [Graph::neighbors] it made (also if it panicked).  [some_w]
    (maximum_matching.rs:99-103) is the only place in matching/ that calls
    [neighbors], once per call. *)
From Verif Require Import Outcome GraphModel PairingModel MaximumModel.

(** [m] then [k], at the price of [n] and that of [k]. *)
Definition charge {A B} (n : nat) (m : comp A) (k : A -> nat * comp B) : nat * comp B :=
  match m with
  | Ok a => let r := k a in (n + r.1, r.2)
  | Err e => (n, Err e)
  | Panic e => (n, Panic e)
  | NoFuel => (n, NoFuel)
  end.

(** maximum_matching.rs:68-87  the inner loop ([search_w]). *)
Fixpoint search_w_work (fuel : nat) (v : N) (g : Graph) (p : Pairing)
    (forest : Forest) (marker : Marker) : nat * comp search :=
  match fuel with
  | O => (0, NoFuel)
  | S fuel' =>
      charge 1 (some_w v g marker) (fun ow =>
      match ow with
      | None => (0, Ok (Exhausted forest marker))
      | Some w =>
          charge 0 (f_path forest w) (fun opath =>
          match opath with
          | Some path_w =>
              if Nat.odd (length path_w) then (0, Ok (EvenPath v path_w forest))
              else
                charge 0 (mk_mark_edge marker v w) (fun marker' =>
                search_w_work fuel' v g p forest marker')
          | None =>
              charge 0 (f_add_edge forest v w) (fun f1 =>
              charge 0 (p_mate p w) (fun m =>
              charge 0 (f_add_edge f1 w m) (fun f2 =>
              charge 0 (mk_mark_edge marker v w) (fun marker' =>
              search_w_work fuel' v g p f2 marker'))))
          end)
      end)
  end.

(** maximum_matching.rs:62-90  the outer loop ([search_v]). *)
Fixpoint search_v_work (fuel : nat) (g : Graph) (p : Pairing)
    (forest : Forest) (marker : Marker) : nat * comp search :=
  match fuel with
  | O => (0, NoFuel)
  | S fuel' =>
      charge 0 (some_v forest marker) (fun ov =>
      match ov with
      | None => (0, Ok (Exhausted forest marker))
      | Some v =>
          let w := search_w_work fuel v g p forest marker in
          charge w.1 w.2 (fun r =>
          match r with
          | EvenPath v' path_w f => (0, Ok (EvenPath v' path_w f))
          | Exhausted f m =>
              charge 0 (mk_mark_node m v) (fun m' => search_v_work fuel' g p f m')
          end)
      end)
  end.

(** maximum_matching.rs:46-93, 105-136: [augmenting_path], [even_path] and
    [process_blossom].  One number per graph searched: the graph itself, then
    the graph after one contraction, after two, and so on. *)
Fixpoint augmenting_path_work (iter : hash_order) (tag : list nat) (fuel : nat)
    (g : Graph) (p : Pairing) : list nat * comp (option (list N)) :=
  match fuel with
  | O => ([], NoFuel)
  | S fuel' =>
      match (let! marker := mark_edges mk_new (p_edges iter (0 :: tag) p) in
             let! forest := add_roots f_new p (g_nodes g) in
             Ok (forest, marker)) with
      | Ok (forest, marker) =>
          let s := search_v_work fuel g p forest marker in
          match (let! r := s.2 in
                 match r with
                 | Exhausted _ _ => Ok (inl None)
                 | EvenPath v path_w forest =>
                     let! opath := f_path forest v in
                     let! path_v := expect_some opath in
                     if bool_decide (last path_v = last path_w) then
                       let! max_id := expect_some (nodes_max (g_nodes g)) in
                       let! id := checked_succ max_id in
                       let! blossom := b_new id path_v path_w in
                       let! contracted_graph := unwrap (b_contract_graph blossom g) in
                       Ok (inr (blossom, contracted_graph))
                     else Ok (inl (Some (reverse path_v ++ path_w)))
                 end) with
          | Ok (inl found) => ([s.1], Ok found)
          | Ok (inr (blossom, contracted_graph)) =>
              let contracted_pairing :=
                b_contract_pairing blossom (p_edges iter (1 :: tag) p) in
              let w := augmenting_path_work iter (2 :: tag) fuel'
                         (as_graph contracted_graph) contracted_pairing in
              (s.1 :: w.1,
               let! opath := w.2 in
               match opath with
               | Some path => let! lifted := b_lift fuel blossom path g in Ok (Some lifted)
               | None => Ok None
               end)
          | Err e => ([s.1], Err e)
          | Panic e => ([s.1], Panic e)
          | NoFuel => ([s.1], NoFuel)
          end
      | Err e => ([0], Err e)
      | Panic e => ([0], Panic e)
      | NoFuel => ([0], NoFuel)
      end
  end.

(** maximum_matching.rs:37-44  [maximum_matching]: one entry per search. *)
Fixpoint maximum_matching_work (iter : hash_order) (tag : list nat) (fuel : nat)
    (g : Graph) (p : Pairing) : list (list nat) * comp Pairing :=
  match fuel with
  | O => ([], NoFuel)
  | S fuel' =>
      let s := augmenting_path_work iter (0 :: tag) fuel g p in
      match s.2 with
      | Ok None => ([s.1], Ok p)
      | Ok (Some path) =>
          match p_augment p path with
          | Ok p1 =>
              let w1 := maximum_matching_work iter (1 :: tag) fuel' g p1 in
              match w1.2 with
              | Ok p2 =>
                  let w2 := maximum_matching_work iter (2 :: tag) fuel' g p2 in
                  (s.1 :: w1.1 ++ w2.1, w2.2)
              | stopped => (s.1 :: w1.1, stopped)
              end
          | stopped => ([s.1], stopped)
          end
      | Err e => ([s.1], Err e)
      | Panic e => ([s.1], Panic e)
      | NoFuel => ([s.1], NoFuel)
      end
  end.

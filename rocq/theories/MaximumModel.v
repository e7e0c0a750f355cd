(** Model of src/matching/{forest,marker,blossom,maximum_matching}.rs. *)
From Verif Require Import Outcome GraphModel PairingModel.

(** ** Forest *)

(** forest.rs:80-84  [enum Parity]; forest.rs:86-93 [invert]. *)
Inductive parity := Even | Odd.
Definition parity_invert (p : parity) : parity :=
  match p with Even => Odd | Odd => Even end.

(** forest.rs:74-78  [struct Entry]. *)
Record entry := mkEntry { e_parent : option N; e_parity : parity }.

(** forest.rs:5-8  [struct Forest]; forest.rs:11-16 [new]. *)
Record Forest := mkForest { f_parents : gmap N entry; f_nodes : list N }.
Definition f_new : Forest := mkForest ∅ [].

(** forest.rs:18-26  [add_root]. *)
Definition f_add_root (f : Forest) (root : N) : comp Forest :=
  match f_parents f !! root with
  | None => Ok (mkForest (<[root := mkEntry None Even]> (f_parents f)) (f_nodes f ++ [root]))
  | Some _ => Panic (PForestDuplicate root)
  end.

(** forest.rs:28-41  [add_edge]. *)
Definition f_add_edge (f : Forest) (parent node : N) : comp Forest :=
  match f_parents f !! parent with
  | None => Panic (PForestMissing parent)
  | Some e =>
      match f_parents f !! node with
      | None => Ok (mkForest
                      (<[node := mkEntry (Some parent) (parity_invert (e_parity e))]> (f_parents f))
                      (f_nodes f ++ [node]))
      | Some _ => Panic (PForestDuplicate node)
      end
  end.

(** forest.rs:56-70  the loop of [path]; the fuel given below exceeds the
    number of nodes, so [NoFuel] would mean an endless loop around a cycle. *)
Fixpoint f_climb (fuel : nat) (f : Forest) (parent : option N) : comp (list N) :=
  match parent with
  | None => Ok []
  | Some id =>
      match fuel with
      | O => NoFuel
      | S fuel' =>
          match f_parents f !! id with
          | None => Panic (PForestMissing id)
          | Some e => let! rest := f_climb fuel' f (e_parent e) in Ok (id :: rest)
          end
      end
  end.

(** forest.rs:49-71  [path]. *)
Definition f_path (f : Forest) (node : N) : comp (option (list N)) :=
  match f_parents f !! node with
  | None => Ok None
  | Some e =>
      let! rest := f_climb (S (length (f_nodes f))) f (e_parent e) in
      Ok (Some (node :: rest))
  end.

(** ** Marker *)

(** marker.rs:4-7  [struct Marker]; marker.rs:10-15 [new]. *)
Record Marker := mkMarker { mk_nodes : gset N; mk_edges : gmap N (list N) }.
Definition mk_new : Marker := mkMarker ∅ ∅.

(** marker.rs:17-21  [mark_node]. *)
Definition mk_mark_node (m : Marker) (id : N) : comp Marker :=
  if bool_decide (id ∈ mk_nodes m) then Panic (PNodeMarkedTwice id)
  else Ok (mkMarker ({[id]} ∪ mk_nodes m) (mk_edges m)).

(** marker.rs:23-25  [has_node]. *)
Definition mk_has_node (m : Marker) (id : N) : bool := bool_decide (id ∈ mk_nodes m).

(** marker.rs:27-49  [mark_edge]. *)
Definition mk_mark_edge (m : Marker) (sid tid : N) : comp Marker :=
  let! e1 :=
    match mk_edges m !! sid with
    | Some l => if bool_decide (tid ∈ l) then Panic (PEdgeMarkedTwice sid tid)
                else Ok (<[sid := l ++ [tid]]> (mk_edges m))
    | None => Ok (<[sid := [tid]]> (mk_edges m))
    end in
  let e2 :=
    match e1 !! tid with
    | Some l => <[tid := l ++ [sid]]> e1
    | None => <[tid := [sid]]> e1
    end in
  Ok (mkMarker (mk_nodes m) e2).

(** marker.rs:51-56  [has_edge]. *)
Definition mk_has_edge (m : Marker) (sid tid : N) : bool :=
  match mk_edges m !! sid with
  | None => false
  | Some l => bool_decide (tid ∈ l)
  end.

(** ** Blossom *)

(** blossom.rs:5-8  [struct Blossom]. *)
Record Blossom := mkBlossom { b_id : N; b_path : list N }.

(** The elements of [l] before the first occurrence of [x], if there is one. *)
Fixpoint before (x : N) (l : list N) : option (list N) :=
  match l with
  | [] => None
  | y :: l' => if bool_decide (x = y) then Some []
               else match before x l' with Some pre => Some (y :: pre) | None => None end
  end.

(** blossom.rs:14-29  the double loop of [Blossom::new]: the first [i], and for
    it the first [j], with [left[i] == right[j]]; the path is
    [left[0..i] ++ [root] ++ reverse(right[0..j])]. *)
Fixpoint blossom_path (lft rgt : list N) : option (list N) :=
  match lft with
  | [] => None
  | x :: lft' =>
      match before x rgt with
      | Some pre => Some (x :: reverse pre)
      | None => match blossom_path lft' rgt with
                | Some path => Some (x :: path)
                | None => None
                end
      end
  end.

(** blossom.rs:11-32  [Blossom::new]. *)
Definition b_new (id : N) (lft rgt : list N) : comp Blossom :=
  match blossom_path lft rgt with
  | Some path => Ok (mkBlossom id path)
  | None => Panic PBlossomRoot
  end.

(** blossom.rs:41-45  node loop of [contract_graph]. *)
Fixpoint b_contract_nodes (b : Blossom) (ids : list N) (result : DefaultGraph)
    : comp DefaultGraph :=
  match ids with
  | [] => Ok result
  | id :: ids' =>
      let! r := (if bool_decide (id ∈ b_path b) then Ok result
                 else local (dg_add_node result id)) in
      b_contract_nodes b ids' r
  end.

(** blossom.rs:48-60  body of the edge loop of [contract_graph]. *)
Definition b_contract_edge (b : Blossom) (sid tid : N) (result : DefaultGraph)
    : comp DefaultGraph :=
  if bool_decide (sid ∈ b_path b) then
    if bool_decide (tid ∈ b_path b) then Ok result
    else
      let! has := dg_has_edge result (b_id b) tid in
      if has : bool then Ok result else local (dg_add_edge result (b_id b) tid)
  else if bool_decide (tid ∈ b_path b) then
    let! has := dg_has_edge result sid (b_id b) in
    if has : bool then Ok result else local (dg_add_edge result sid (b_id b))
  else local (dg_add_edge result sid tid).

(** blossom.rs:47-61  edge loop of [contract_graph]. *)
Fixpoint b_contract_edges (b : Blossom) (edges : list (N * N)) (result : DefaultGraph)
    : comp DefaultGraph :=
  match edges with
  | [] => Ok result
  | (sid, tid) :: edges' =>
      let! r := b_contract_edge b sid tid result in
      b_contract_edges b edges' r
  end.

(** blossom.rs:34-64  [contract_graph]. *)
Definition b_contract_graph (b : Blossom) (g : Graph) : comp DefaultGraph :=
  let! r0 := local (dg_add_node dg_new (b_id b)) in
  let! r1 := b_contract_nodes b (g_nodes g) r0 in
  b_contract_edges b (g_edges g) r1.

(** blossom.rs:70-78  body of the loop of [contract_pairing]. *)
Definition b_contract_pair (b : Blossom) (result : Pairing) (e : N * N) : Pairing :=
  let '(sid, tid) := e in
  if bool_decide (sid ∈ b_path b) then
    if bool_decide (tid ∈ b_path b) then result else p_pair result (b_id b) tid
  else if bool_decide (tid ∈ b_path b) then p_pair result sid (b_id b)
  else p_pair result sid tid.

(** blossom.rs:66-82  [contract_pairing], given [pairing.edges()]. *)
Definition b_contract_pairing (b : Blossom) (edges : list (N * N)) : Pairing :=
  foldl (b_contract_pair b) p_new edges.

(** [slice.rotate_right(1)]. *)
Definition rotate_right (l : list N) : list N :=
  match last l with
  | None => []
  | Some x => x :: removelast l
  end.

(** The [while !test(copy) { copy.rotate_right(1) }] loops
    (blossom.rs:112-114, 127-129, 143-145, 168-170). *)
Fixpoint rotate_until (fuel : nat) (test : list N -> comp bool) (copy : list N)
    : comp (list N) :=
  match fuel with
  | O => NoFuel
  | S fuel' =>
      let! stop := test copy in
      if stop : bool then Ok copy else rotate_until fuel' test (rotate_right copy)
  end.

(** blossom.rs:106-119  [lift_left_blossom]. *)
Definition b_lift_left (fuel : nat) (b : Blossom) (lft : list N) (g : Graph) : comp (list N) :=
  let! sid := expect_some (last lft) in
  let! copy := rotate_until fuel
    (fun copy => let! x := index copy 0 in unwrap (g_has_edge g sid x)) (b_path b) in
  Ok (lft ++ copy).

(** blossom.rs:121-134  [lift_blossom_right]. *)
Definition b_lift_right (fuel : nat) (b : Blossom) (rgt : list N) (g : Graph) : comp (list N) :=
  let! tid := index rgt 0 in
  let! copy := rotate_until fuel
    (fun copy => let! x := expect_some (last copy) in unwrap (g_has_edge g x tid)) (b_path b) in
  Ok (copy ++ rgt).

(** blossom.rs:149-155 and 172-178: push blossom nodes up to and including the
    first one adjacent to [tid]. *)
Fixpoint take_to_edge (g : Graph) (tid : N) (blossom : list N) : comp (list N) :=
  match blossom with
  | [] => Ok []
  | bid :: blossom' =>
      let! has := unwrap (g_has_edge g bid tid) in
      if has : bool then Ok [bid]
      else let! rest := take_to_edge g tid blossom' in Ok (bid :: rest)
  end.

(** blossom.rs:136-183  [lift_left_blossom_right]. *)
Definition b_lift_both (fuel : nat) (b : Blossom) (lft rgt : list N) (g : Graph)
    : comp (list N) :=
  let! sid := expect_some (last lft) in
  let test := fun copy => let! x := index copy 0 in unwrap (g_has_edge g sid x) in
  let! forward_blossom := rotate_until fuel test (b_path b) in
  let! tid := index rgt 0 in
  let! seg := take_to_edge g tid forward_blossom in
  let forward := lft ++ seg ++ rgt in
  if Nat.even (length forward) then Ok forward
  else
    let! reverse_blossom := rotate_until fuel test (reverse (b_path b)) in
    let! seg' := take_to_edge g tid reverse_blossom in
    Ok (lft ++ seg' ++ rgt).

(** blossom.rs:84-104  [lift]. *)
Definition b_lift (fuel : nat) (b : Blossom) (path : list N) (g : Graph) : comp (list N) :=
  match before (b_id b) path with
  | None => Ok path
  | Some lft =>
      let rgt := drop (S (length lft)) path in
      match lft, rgt with
      | [], [] => Ok (b_path b)
      | _ :: _, [] => b_lift_left fuel b lft g
      | [], _ :: _ => b_lift_right fuel b rgt g
      | _ :: _, _ :: _ => b_lift_both fuel b lft rgt g
      end
  end.

(** ** Maximum matching *)

(** maximum_matching.rs:95-97 [some_v] with forest.rs:43-47 [even_nodes]: the
    lazy filter/find stops at the first hit. *)
Fixpoint find_v (parents : gmap N entry) (marker : Marker) (ids : list N) : comp (option N) :=
  match ids with
  | [] => Ok None
  | id :: ids' =>
      match parents !! id with
      | None => Panic PNone
      | Some (mkEntry _ Even) =>
          if mk_has_node marker id then find_v parents marker ids' else Ok (Some id)
      | Some (mkEntry _ Odd) => find_v parents marker ids'
      end
  end.
Definition some_v (forest : Forest) (marker : Marker) : comp (option N) :=
  find_v (f_parents forest) marker (f_nodes forest).

(** maximum_matching.rs:99-103  [some_w]. *)
Definition some_w (v : N) (g : Graph) (marker : Marker) : comp (option N) :=
  let! neighbors := unwrap (g_neighbors g v) in
  Ok (head (filter (fun id => mk_has_edge marker v id = false) neighbors)).

(** How the nested loops of [augmenting_path] end: by running out of
    candidates, or by reaching the [return even_path(v, path_w, ..)] of
    maximum_matching.rs:77 with the forest as it is then. *)
Inductive search :=
| Exhausted (forest : Forest) (marker : Marker)
| EvenPath (v : N) (path_w : list N) (forest : Forest).

(** maximum_matching.rs:68-87  the inner loop. *)
Fixpoint search_w (fuel : nat) (v : N) (g : Graph) (p : Pairing)
    (forest : Forest) (marker : Marker) : comp search :=
  match fuel with
  | O => NoFuel
  | S fuel' =>
      let! ow := some_w v g marker in
      match ow with
      | None => Ok (Exhausted forest marker)
      | Some w =>
          let! opath := f_path forest w in
          match opath with
          | Some path_w =>
              if Nat.odd (length path_w) then Ok (EvenPath v path_w forest)
              else
                let! marker' := mk_mark_edge marker v w in
                search_w fuel' v g p forest marker'
          | None =>
              let! f1 := f_add_edge forest v w in
              let! m := p_mate p w in
              let! f2 := f_add_edge f1 w m in
              let! marker' := mk_mark_edge marker v w in
              search_w fuel' v g p f2 marker'
          end
      end
  end.

(** maximum_matching.rs:62-90  the outer loop. *)
Fixpoint search_v (fuel : nat) (g : Graph) (p : Pairing)
    (forest : Forest) (marker : Marker) : comp search :=
  match fuel with
  | O => NoFuel
  | S fuel' =>
      let! ov := some_v forest marker in
      match ov with
      | None => Ok (Exhausted forest marker)
      | Some v =>
          let! r := search_w fuel v g p forest marker in
          match r with
          | EvenPath v' path_w f => Ok (EvenPath v' path_w f)
          | Exhausted f m =>
              let! m' := mk_mark_node m v in
              search_v fuel' g p f m'
          end
      end
  end.

(** maximum_matching.rs:52-54  mark the edges of the pairing. *)
Fixpoint mark_edges (marker : Marker) (edges : list (N * N)) : comp Marker :=
  match edges with
  | [] => Ok marker
  | (sid, tid) :: edges' =>
      let! m := mk_mark_edge marker sid tid in
      mark_edges m edges'
  end.

(** maximum_matching.rs:56-60  add the unpaired nodes as roots. *)
Fixpoint add_roots (forest : Forest) (p : Pairing) (ids : list N) : comp Forest :=
  match ids with
  | [] => Ok forest
  | v :: ids' =>
      let! f := (if p_has_node p v then Ok forest else f_add_root forest v) in
      add_roots f p ids'
  end.

(** [graph.nodes().max()] (maximum_matching.rs:127). *)
Fixpoint nodes_max (ids : list N) : option N :=
  match ids with
  | [] => None
  | id :: ids' => match nodes_max ids' with
                  | None => Some id
                  | Some m => Some (N.max id m)
                  end
  end.

(** [max_id + 1] with overflow checks (maximum_matching.rs:128). *)
Definition checked_succ (n : N) : comp N :=
  if (n <? usize_max)%N then Ok (n + 1)%N else Panic POverflow.

(** maximum_matching.rs:46-93 [augmenting_path], with the tail calls
    maximum_matching.rs:105-122 [even_path] and 124-136 [process_blossom]
    inlined (they are mutually recursive in Rust). *)
Fixpoint augmenting_path (iter : hash_order) (tag : list nat) (fuel : nat)
    (g : Graph) (p : Pairing) : comp (option (list N)) :=
  match fuel with
  | O => NoFuel
  | S fuel' =>
      let! marker := mark_edges mk_new (p_edges iter (0 :: tag) p) in
      let! forest := add_roots f_new p (g_nodes g) in
      let! r := search_v fuel g p forest marker in
      match r with
      | Exhausted _ _ => Ok None
      | EvenPath v path_w forest =>
          (* even_path *)
          let! opath := f_path forest v in
          let! path_v := expect_some opath in
          if bool_decide (last path_v = last path_w) then
            (* process_blossom *)
            let! max_id := expect_some (nodes_max (g_nodes g)) in
            let! id := checked_succ max_id in
            let! blossom := b_new id path_v path_w in
            let! contracted_graph := unwrap (b_contract_graph blossom g) in
            let contracted_pairing :=
              b_contract_pairing blossom (p_edges iter (1 :: tag) p) in
            let! opath := augmenting_path iter (2 :: tag) fuel'
                            (as_graph contracted_graph) contracted_pairing in
            match opath with
            | Some path => let! lifted := b_lift fuel blossom path g in Ok (Some lifted)
            | None => Ok None
            end
          else Ok (Some (reverse path_v ++ path_w))
      end
  end.

(** maximum_matching.rs:37-44  [maximum_matching].  The second recursive call
    is the next evaluation of the [while] condition, which starts the function
    body again. *)
Fixpoint maximum_matching (iter : hash_order) (tag : list nat) (fuel : nat)
    (g : Graph) (p : Pairing) : comp Pairing :=
  match fuel with
  | O => NoFuel
  | S fuel' =>
      let! opath := augmenting_path iter (0 :: tag) fuel g p in
      match opath with
      | None => Ok p
      | Some path =>
          let! p1 := p_augment p path in
          let! p2 := maximum_matching iter (1 :: tag) fuel' g p1 in
          maximum_matching iter (2 :: tag) fuel' g p2
      end
  end.

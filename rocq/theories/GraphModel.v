(** Model of src/graph: the trait [Graph] and its implementation
    [DefaultGraph], except [TryFrom<DepthFirst>], which is in
    TraversalModel.v because it drives a traversal. *)
From Verif Require Import Outcome.

(** src/graph/graph.rs:4-36  [trait Graph].  A [&G] is immutable while
    borrowed, so an implementation is the record of its nine methods as pure
    functions.  Simplification: an iterator-returning method is the list of
    items it yields. *)
Record Graph := mkGraph {
  g_is_empty : bool;
  g_order : nat;
  g_size : nat;
  g_nodes : list N;
  g_neighbors : N -> comp (list N);
  g_has_node : N -> bool;
  g_degree : N -> comp nat;
  g_edges : list (N * N);
  g_has_edge : N -> N -> comp bool
}.

(** src/graph/default_graph.rs:31-36  [struct DefaultGraph]. *)
Record DefaultGraph := mkDG {
  dg_indices : gmap N nat;
  dg_adjacency : list (list N);
  dg_nodes : list N;
  dg_edges : list (N * N)
}.

(** default_graph.rs:39-46  [DefaultGraph::new]. *)
Definition dg_new : DefaultGraph := mkDG ∅ [] [] [].

(** default_graph.rs:48-60  [add_node].  Returns the graph after the call and
    the call's result. *)
Definition dg_add_node (d : DefaultGraph) (id : N) : DefaultGraph * comp unit :=
  match dg_indices d !! id with
  | Some _ => (d, Err (DuplicateNode id))
  | None =>
      (mkDG (<[id := length (dg_nodes d)]> (dg_indices d))
            (dg_adjacency d ++ [[]])
            (dg_nodes d ++ [id])
            (dg_edges d),
       Ok tt)
  end.

(** default_graph.rs:62-81  [add_edge].  The two pushes index the (already
    updated) adjacency vector, so a self-loop pushes twice to one row. *)
Definition dg_add_edge (d : DefaultGraph) (sid tid : N) : DefaultGraph * comp unit :=
  match dg_indices d !! sid with
  | None => (d, Err (MissingNode sid))
  | Some source_index =>
  match dg_indices d !! tid with
  | None => (d, Err (MissingNode tid))
  | Some target_index =>
  match dg_adjacency d !! source_index with
  | None => (d, Panic PIndex)
  | Some row =>
    if bool_decide (tid ∈ row) then (d, Err (DuplicateEdge sid tid)) else
    let adj1 := <[source_index := row ++ [tid]]> (dg_adjacency d) in
    match adj1 !! target_index with
    | None => (mkDG (dg_indices d) adj1 (dg_nodes d) (dg_edges d), Panic PIndex)
    | Some row' =>
      let adj2 := <[target_index := row' ++ [sid]]> adj1 in
      (mkDG (dg_indices d) adj2 (dg_nodes d) (dg_edges d ++ [(sid, tid)]), Ok tt)
    end
  end end end.

(** default_graph.rs:83-88  [index_for]. *)
Definition dg_index_for (d : DefaultGraph) (id : N) : comp nat :=
  match dg_indices d !! id with
  | Some i => Ok i
  | None => Err (MissingNode id)
  end.

(** default_graph.rs:92-94 [is_empty], 96-98 [order], 100-102 [size]. *)
Definition dg_is_empty (d : DefaultGraph) : bool :=
  match dg_nodes d with [] => true | _ => false end.
Definition dg_order (d : DefaultGraph) : nat := length (dg_nodes d).
Definition dg_size (d : DefaultGraph) : nat := length (dg_edges d).

(** default_graph.rs:109-114  [neighbors]. *)
Definition dg_neighbors (d : DefaultGraph) (id : N) : comp (list N) :=
  let! i := dg_index_for d id in
  index (dg_adjacency d) i.

(** default_graph.rs:116-118  [has_node]. *)
Definition dg_has_node (d : DefaultGraph) (id : N) : bool :=
  bool_decide (is_Some (dg_indices d !! id)).

(** default_graph.rs:120-124  [degree]. *)
Definition dg_degree (d : DefaultGraph) (id : N) : comp nat :=
  let! i := dg_index_for d id in
  let! row := index (dg_adjacency d) i in
  Ok (length row).

(** default_graph.rs:131-139  [has_edge]. *)
Definition dg_has_edge (d : DefaultGraph) (sid tid : N) : comp bool :=
  let! i := dg_index_for d sid in
  if dg_has_node d tid then
    let! row := index (dg_adjacency d) i in
    Ok (bool_decide (tid ∈ row))
  else Err (MissingNode tid).

(** default_graph.rs:91-140  [impl Graph for DefaultGraph]; [nodes] is
    lines 104-107, [edges] lines 126-129. *)
Definition as_graph (d : DefaultGraph) : Graph := {|
  g_is_empty := dg_is_empty d;
  g_order := dg_order d;
  g_size := dg_size d;
  g_nodes := dg_nodes d;
  g_neighbors := dg_neighbors d;
  g_has_node := dg_has_node d;
  g_degree := dg_degree d;
  g_edges := dg_edges d;
  g_has_edge := dg_has_edge d
|}.

(** A [&mut self] call on a local graph followed by [?]: the graph is
    dropped unless the call succeeded. *)
Definition local {A} (r : DefaultGraph * comp A) : comp DefaultGraph :=
  match r with
  | (d, Ok _) => Ok d
  | (_, Err e) => Err e
  | (_, Panic p) => Panic p
  | (_, NoFuel) => NoFuel
  end.

(** default_graph.rs:149-161  the inner loop of [TryFrom<Vec<Vec<usize>>>]
    over one row; [rest] is [neighbors[index..]], so its tail is
    [neighbors[index+1..]].  Returns [result.edges]. *)
Fixpoint dg_scan_row (adjacency : list (list N)) (sid : N) (rest : list N)
    (edges : list (N * N)) : comp (list (N * N)) :=
  match rest with
  | [] => Ok edges
  | tid :: rest' =>
      if (N.of_nat (length adjacency) <=? tid)%N then Err (MissingNode tid)
      else if bool_decide (tid ∈ rest') then Err (DuplicateEdge sid tid)
      else
        let! row := index adjacency (N.to_nat tid) in
        if bool_decide (sid ∈ row) then
          dg_scan_row adjacency sid rest'
            (if (sid <? tid)%N then edges ++ [(sid, tid)] else edges)
        else Err (MissingEdge tid sid)
  end.

(** default_graph.rs:148-165  the outer loop; [sid] is the enumeration index
    and [rows] the rows from it on. *)
Fixpoint dg_scan_rows (adjacency : list (list N)) (sid : nat)
    (rows : list (list N)) (result : DefaultGraph) : comp DefaultGraph :=
  match rows with
  | [] => Ok result
  | neighbors :: rows' =>
      let! edges := dg_scan_row adjacency (N.of_nat sid) neighbors (dg_edges result) in
      dg_scan_rows adjacency (S sid) rows'
        (mkDG (<[N.of_nat sid := sid]> (dg_indices result))
              (dg_adjacency result)
              (dg_nodes result ++ [N.of_nat sid])
              edges)
  end.

(** default_graph.rs:142-171  [TryFrom<Vec<Vec<usize>>>]. *)
Definition dg_try_from_adjacency (adjacency : list (list N)) : comp DefaultGraph :=
  let! result := dg_scan_rows adjacency 0 adjacency dg_new in
  Ok (mkDG (dg_indices result) adjacency (dg_nodes result) (dg_edges result)).

(** default_graph.rs:201-211  the loop of [TryFrom<Vec<(usize, usize)>>]. *)
Fixpoint dg_extend_edges (d : DefaultGraph) (edges : list (N * N)) : comp DefaultGraph :=
  match edges with
  | [] => Ok d
  | (sid, tid) :: edges' =>
      let! d1 := (if dg_has_node d sid then Ok d else local (dg_add_node d sid)) in
      let! d2 := (if dg_has_node d1 tid then Ok d1 else local (dg_add_node d1 tid)) in
      let! d3 := local (dg_add_edge d2 sid tid) in
      dg_extend_edges d3 edges'
  end.

(** default_graph.rs:195-215  [TryFrom<Vec<(usize, usize)>>]. *)
Definition dg_try_from_edges (edges : list (N * N)) : comp DefaultGraph :=
  dg_extend_edges dg_new edges.

(** default_graph.rs:225-229  the node loop of [eq]. *)
Fixpoint dg_eq_nodes (ids : list N) (other : DefaultGraph) : bool :=
  match ids with
  | [] => true
  | id :: ids' => if dg_has_node other id then dg_eq_nodes ids' other else false
  end.

(** default_graph.rs:231-240  the edge loop of [eq]. *)
Fixpoint dg_eq_edges (edges : list (N * N)) (other : DefaultGraph) : comp bool :=
  match edges with
  | [] => Ok true
  | (sid, tid) :: edges' =>
      match dg_has_edge other sid tid with
      | Ok true => dg_eq_edges edges' other
      | Ok false => Ok false
      | Err _ => Ok false
      | Panic p => Panic p
      | NoFuel => NoFuel
      end
  end.

(** default_graph.rs:217-244  [PartialEq::eq]. *)
Definition dg_eq (self other : DefaultGraph) : comp bool :=
  if negb (dg_size self =? dg_size other) then Ok false
  else if negb (dg_order self =? dg_order other) then Ok false
  else if dg_eq_nodes (dg_nodes self) other then dg_eq_edges (dg_edges self) other
  else Ok false.

(** Property C65: results follow the order of nodes and neighbors, not what
    the nodes are called. *)
From Verif Require Import Outcome GraphModel TraversalModel ComponentsModel PairingModel GreedyModel
  Spec GraphProofs Checks EditProofs ConvertProofs EqProofs TraversalProofs BfsProofs DfsProofs
  ComponentsProofs DescentProofs PairingProofs GreedyProofs GreedyRule EquivProofs LoopProofs ReturnProofs
  PropertiesGraph PropertiesTraversal PropertiesSelection.

Theorem C65_breadth_first_renaming f g h (Hg : Lawful g) r steps :
  renamed f g h -> r ∈ g_nodes g -> breadth_first g r steps ->
  breadth_first h (f r) (rename_step f <$> steps).
Proof. intros Hr. exact (breadth_first_same f g h Hg Hr r steps). Qed.
Print Assumptions C65_breadth_first_renaming.

Theorem C65_depth_first_renaming f g h (Hg : Lawful g) r steps :
  renamed f g h -> r ∈ g_nodes g -> depth_first g r steps ->
  depth_first h (f r) (rename_step f <$> steps).
Proof. intros Hr. exact (depth_first_same f g h Hg Hr r steps). Qed.
Print Assumptions C65_depth_first_renaming.

Theorem C65_components_renaming f g h (Hg : Lawful g) (Hh : Lawful h) ds :
  renamed f g h -> components_are g ds ->
  exists es, components_are h es /\
    Forall2 (fun d e => renamed f (as_graph d) (as_graph e) /\
      g_edges (as_graph e) = prod_map f f <$> g_edges (as_graph d)) ds es.
Proof. intros Hr. exact (components_same_gen f g h Hg Hh Hr ds). Qed.
Print Assumptions C65_components_renaming.

Theorem C65_greedy_renaming f g h (Hg : Lawful g) (Hh : Lawful h) p :
  renamed f g h -> greedy_is g p ->
  exists q, greedy_is h q /\
    (forall v, v ∈ g_nodes g -> q !! f v = f <$> p !! v) /\
    (forall x, x ∉ g_nodes h -> q !! x = None).
Proof.
  intros Hr Hp. destruct (greedy_same_gen f g h Hg Hh Hr p Hp) as (q & Hq & Hv).
  exists q. split_and!; [done|done|]. intros x Hx. destruct (q !! x) as [y|] eqn:E; [|done].
  destruct Hx. apply (greedy_is_pairing h q Hh Hq) in E. by eapply lawful_adj_l.
Qed.
Print Assumptions C65_greedy_renaming.

(** Two graphs with the same nodes() and neighbors(): the same traversals and
    the same pairing, whatever their edges() say and whatever their types. *)
Theorem C65_same_rows g h (Hg : Lawful g) (Hh : Lawful h) :
  g_nodes h = g_nodes g ->
  (forall v, v ∈ g_nodes g -> g_neighbors h v = g_neighbors g v) ->
  (forall r steps, r ∈ g_nodes g -> breadth_first g r steps -> breadth_first h r steps) /\
  (forall r steps, r ∈ g_nodes g -> depth_first g r steps -> depth_first h r steps) /\
  (forall p, greedy_is g p -> greedy_is h p).
Proof.
  intros Hn Hnb.
  assert (Hr : renamed (fun v => v) g h).
  { split_and!; [done|by rewrite Hn, list_fmap_id|].
    intros v l Hv. rewrite list_fmap_id, Hnb; [done|].
    destruct (decide (v ∈ g_nodes g)) as [|Hno]; [done|]. by rewrite (law_neighbors_err g Hg v Hno) in Hv. }
  assert (Hid : forall steps : list Step, rename_step (fun v => v) <$> steps = steps).
  { induction steps as [|[] steps IH]; [done|]. cbn. by rewrite IH. }
  split_and!.
  - intros r steps Hroot Hb. pose proof (C65_breadth_first_renaming _ g h Hg r steps Hr Hroot Hb) as H.
    by rewrite Hid in H.
  - intros r steps Hroot Hb. pose proof (C65_depth_first_renaming _ g h Hg r steps Hr Hroot Hb) as H.
    by rewrite Hid in H.
  - intros p Hp. destruct (C65_greedy_renaming _ g h Hg Hh p Hr Hp) as (q & Hq & Hin & Hout).
    replace p with q; [done|]. apply map_eq. intros u.
    destruct (decide (u ∈ g_nodes g)) as [Hu|Hu].
    + rewrite (Hin u Hu). by destruct (p !! u).
    + rewrite (Hout u) by (by rewrite Hn). destruct (p !! u) as [y|] eqn:E; [|done].
      destruct Hu. apply (greedy_is_pairing g p Hg Hp) in E. by eapply lawful_adj_l.
Qed.
Print Assumptions C65_same_rows.

(** Edge lists: renaming the ids of the input renames the graph. *)
Theorem C65_edge_list_renaming f es d :
  (forall u v, u ∈ endpoints es -> v ∈ endpoints es -> f u = f v -> u = v) ->
  dg_try_from_edges es = Ok d ->
  exists e, dg_try_from_edges (prod_map f f <$> es) = Ok e /\
    renamed f (as_graph d) (as_graph e) /\
    g_edges (as_graph e) = prod_map f f <$> g_edges (as_graph d).
Proof. intros Hinj. exact (edge_list_same f (endpoints es) Hinj es d (fun _ H => H)). Qed.
Print Assumptions C65_edge_list_renaming.

(** The kite with its nodes called 10, 9, 8, ... *)
Example C65_case : Lawful (as_graph kite) /\ LoopFree (as_graph kite) /\
  exists e, dg_try_from_edges [(10, 9); (9, 8); (8, 7); (7, 10); (10, 8); (3, 2)]%N = Ok e /\
    renamed (fun v => 10 - v)%N (as_graph kite) (as_graph e).
Proof.
  split; [apply api_lawful, kite_api|]. split; [apply kite_loop_free|].
  destruct (C65_edge_list_renaming (fun v => 10 - v)%N
    [(0, 1); (1, 2); (2, 3); (3, 0); (0, 2); (7, 8)]%N kite) as (e & He & Hr & _).
  - intros u v Hu Hv Heq.
    assert (Hle : forall x, x ∈ endpoints [(0, 1); (1, 2); (2, 3); (3, 0); (0, 2); (7, 8)]%N -> (x <= 10)%N).
    { intros x Hx. cbn in Hx. rewrite !elem_of_cons, elem_of_nil in Hx.
      repeat destruct Hx as [-> | Hx]; [lia..|done]. }
    apply Hle in Hu, Hv. lia.
  - reflexivity.
  - exists e. split; [exact He|exact Hr].
Qed.

(** Property C77: [maximum_matching] started with pairs that are not edges of
    the graph. *)
From Verif Require Import Outcome GraphModel TraversalModel ComponentsModel PairingModel GreedyModel
  Spec GraphProofs Checks EditProofs ConvertProofs EqProofs TraversalProofs PathLemmas PairingProofs GreedyProofs
  MatchTheory MaximumModel ForestProofs TameProofs MaximumProofs CalmProofs ClassChecks NarrowProofs
  PropertiesMatching StaleProofs.

(** When the graph together with the starting pairs has no odd cycle, the run
    ends in one of two ways: with a pairing made of edges and starting pairs, in
    which paired ids stay paired, every round gains one pair, and which is
    beaten by no matching made of edges and its own pairs; or with a panic that
    names the mate, not a node, of some node. *)
Theorem C77_stale_pairs g (Hg : Lawful g) iter (Hit : hash_order_ok iter)
    p (Hp : symmetric_pairing p) (color : N -> bool) :
  (forall u v, adj g u v \/ p !! u = Some v -> color u <> color v) ->
  (exists q paths, matching_run iter g p (Ok q) /\ augmentations iter g p paths q /\
     symmetric_pairing q /\
     (forall u v, q !! u = Some v -> adj g u v \/ p !! u = Some v) /\
     (forall x, is_Some (p !! x) -> is_Some (q !! x)) /\
     p_order q = p_order p + 2 * length paths /\
     forall M M', listed_edges q M ->
       (forall u v, (u, v) ∈ M' -> adj g u v \/ q !! u = Some v) -> NoDup (endpoints M') ->
       length M' <= length M) \/
  (exists w x, w ∈ g_nodes g /\ x ∉ g_nodes g /\ p !! w = Some x /\
     matching_run iter g p (Panic (PUnwrap (MissingNode x)))).
Proof.
  intros Hcol. destruct (stale_run g Hg iter Hit color p Hp Hcol)
    as [(q & paths & Haug & Hsq & Hq & Hd & Ho & Hmax)|(w & x & Hw & Hx & Hwx & n & Hn)].
  - left. exists q, paths. split_and!; try done.
    + split; [done|]. destruct (augmentations_run g iter p paths q Haug) as [n Hn]. exists n. intros fuel Hf.
      by apply Hn.
    + intros M M' (L & HL & ->) HM' Hnd. specialize (Hmax M' HM' Hnd).
      rewrite (p_edges_length q Hsq L HL) in Hmax. lia.
  - right. exists w, x. split_and!; try done. split; [done|]. exists n. intros fuel Hf. by apply Hn.
Qed.
Print Assumptions C77_stale_pairs.

(** When every starting pair of a node stays inside the graph, it ends well;
    the result has at least as many pairs as any matching of the graph. *)
Theorem C77_stale_inside g (Hg : Lawful g) iter (Hit : hash_order_ok iter)
    p (Hp : symmetric_pairing p) (color : N -> bool) :
  (forall u v, adj g u v \/ p !! u = Some v -> color u <> color v) ->
  (forall u v, p !! u = Some v -> u ∈ g_nodes g -> v ∈ g_nodes g) ->
  exists q, matching_run iter g p (Ok q) /\ symmetric_pairing q /\
    (forall u v, q !! u = Some v -> adj g u v \/ p !! u = Some v) /\
    (forall x, is_Some (p !! x) -> is_Some (q !! x)) /\
    forall M M', listed_edges q M -> matching g M' -> length M' <= length M.
Proof.
  intros Hcol Hin. destruct (C77_stale_pairs g Hg iter Hit p Hp color Hcol)
    as [(q & paths & Hrun & _ & Hsq & Hq & Hd & _ & Hmax)|(w & x & Hw & Hx & Hwx & _)].
  - exists q. split_and!; try done. intros M M' HM [HM' Hnd]. apply Hmax; auto.
  - destruct Hx. by eapply Hin.
Qed.
Print Assumptions C77_stale_inside.

(** Both ends are met: on the path 0-1, 2-3 the pair 1-2 is given up for two
    edges, and a pair 1-9 makes it panic. *)
Definition stubs : DefaultGraph := get (dg_try_from_edges [(0, 1); (2, 3)]%N).
Lemma stubs_api : Api stubs. Proof. apply get_edges_api; is_ok. Qed.

Lemma stubs_adj u v : adj (as_graph stubs) u v -> (u, v) ∈ [(0, 1); (1, 0); (2, 3); (3, 2)]%N.
Proof.
  intros H. pose proof (api_lawful _ stubs_api) as Hg.
  assert (Hu : u ∈ g_nodes (as_graph stubs)) by (by apply (law_adj_node _ Hg v), law_adj_sym).
  change (g_nodes (as_graph stubs)) with [0; 1; 2; 3]%N in Hu. destruct H as (l & Hl & Hv).
  repeat (apply elem_of_cons in Hu as [-> | Hu]; [vm_compute in Hl; injection Hl as <-; set_solver|]).
  by apply elem_of_nil in Hu.
Qed.


Lemma pair_one a b u v : a <> b -> pair_all [(a, b)] !! u = Some v -> (u, v) ∈ [(a, b); (b, a)].
Proof.
  intros Hne H. unfold pair_all in H. cbn [foldl fst snd] in H.
  rewrite (pair_lookup p_new a b u new_symmetric Hne) in H. unfold p_new in H. rewrite lookup_empty in H.
  case_bool_decide as Ha; [subst; injection H as <-; left|].
  case_bool_decide as Hb; [subst; injection H as <-; right; left|].
  by case_bool_decide.
Qed.

Lemma stubs_color a b u v : N.odd a <> N.odd b ->
  adj (as_graph stubs) u v \/ pair_all [(a, b)] !! u = Some v -> N.odd u <> N.odd v.
Proof.
  intros Hne [H%stubs_adj|H%pair_one].
  - repeat (apply elem_of_cons in H as [[= -> ->]|H]; [done|]). by apply elem_of_nil in H.
  - apply elem_of_cons in H as [[= -> ->]|[= -> ->]%elem_of_list_singleton]; congruence.
  - congruence.
Qed.

Lemma pair_one_symmetric a b : a <> b -> symmetric_pairing (pair_all [(a, b)]).
Proof. intros Hne. apply pair_all_symmetric. intros e ->%elem_of_list_singleton. done. Qed.

Theorem C77_case :
  let p := pair_all [(1, 2)]%N in let p' := pair_all [(1, 8)]%N in let g := as_graph stubs in
  Lawful g /\ symmetric_pairing p /\ symmetric_pairing p' /\ ~ adj g 1 2 /\
  (forall u v, adj g u v \/ p !! u = Some v -> N.odd u <> N.odd v) /\
  (forall u v, adj g u v \/ p' !! u = Some v -> N.odd u <> N.odd v) /\
  (forall u v, p !! u = Some v -> u ∈ g_nodes g -> v ∈ g_nodes g) /\
  (exists q, matching_run canon g p (Ok q) /\ p_eq (map_to_list q) q (pair_all [(0, 1); (2, 3)]%N) = true) /\
  matching_run canon g p' (Panic (PUnwrap (MissingNode 8))).
Proof.
  cbv zeta. split; [apply api_lawful, stubs_api|]. split; [by apply pair_one_symmetric|].
  split; [by apply pair_one_symmetric|]. split.
  { intros H%stubs_adj. set_solver. }
  split; [intros u v; by apply stubs_color|]. split; [intros u v; by apply stubs_color|]. split.
  { intros u v H%pair_one _; [|done].
    change (g_nodes (as_graph stubs)) with [0; 1; 2; 3]%N.
    apply elem_of_cons in H as [[= -> ->]|[= -> ->]%elem_of_list_singleton]; set_solver. }
  split.
  - destruct (maximum_matching canon [] 40 (as_graph stubs) (pair_all [(1, 2)]%N)) as [q| | |] eqn:E.
    + exists q. split; [by eapply run_seen|].
      assert (H : match maximum_matching canon [] 40 (as_graph stubs) (pair_all [(1, 2)]%N) with
                  | Ok q => p_eq (map_to_list q) q (pair_all [(0, 1); (2, 3)]%N) | _ => false end = true)
        by (vm_compute; reflexivity).
      by rewrite E in H.
    + exfalso. assert (H : match maximum_matching canon [] 40 (as_graph stubs) (pair_all [(1, 2)]%N) with
                  | Ok q => true | _ => false end = true) by (vm_compute; reflexivity). by rewrite E in H.
    + exfalso. assert (H : match maximum_matching canon [] 40 (as_graph stubs) (pair_all [(1, 2)]%N) with
                  | Ok q => true | _ => false end = true) by (vm_compute; reflexivity). by rewrite E in H.
    + exfalso. assert (H : match maximum_matching canon [] 40 (as_graph stubs) (pair_all [(1, 2)]%N) with
                  | Ok q => true | _ => false end = true) by (vm_compute; reflexivity). by rewrite E in H.
  - apply (run_seen canon _ _ 40); [|done]. vm_compute. reflexivity.
Qed.

(** That the graph alone is bipartite (here it has no cycle at all) is not enough: with three starting
    pairs that are not edges between its nodes, the search finds a path through
    such a pair that cannot be led through the odd cycle and turns for ever. *)
Definition sticks : DefaultGraph := get (dg_try_from_adjacency [[5; 6]; [6]; [7]; [4]; [3]; [0]; [0; 1]; [2]]%N).
Lemma sticks_api : Api sticks. Proof. apply get_rows_api; is_ok. Qed.

Definition twigs : DefaultGraph := (run_ops dg_new
  ((AddNode <$> [0; 1; 2; 3; 4; 5; 6; 7]) ++
   ((fun e => AddEdge e.1 e.2) <$> [(3, 5); (0, 6); (0, 4); (2, 5); (3, 6); (3, 7); (1, 2)]))%N).1.
Lemma twigs_api : Api twigs. Proof. apply run_ops_api. constructor. Qed.

Lemma pairs_inside d p : forallb (fun e => bool_decide (e.1 ∈ g_nodes (as_graph d)) &&
    bool_decide (e.2 ∈ g_nodes (as_graph d))) (map_to_list p) = true ->
  forall u v, p !! u = Some v -> u ∈ g_nodes (as_graph d) /\ v ∈ g_nodes (as_graph d).
Proof.
  intros H u v Huv. rewrite forallb_forall in H. apply elem_of_map_to_list, elem_of_list_In, H in Huv.
  apply andb_true_iff in Huv as [H1 H2]. by apply bool_decide_eq_true in H1, H2.
Qed.

Lemma pairs_symmetric pairs : (forall e, e ∈ pairs -> e.1 <> e.2) -> symmetric_pairing (pair_all pairs).
Proof. apply pair_all_symmetric. Qed.

Theorem C77_odd_cycle_spins :
  exists d p iter, Api d /\ Bipartite (as_graph d) /\ id_room (as_graph d) /\ symmetric_pairing p /\
    hash_order_ok iter /\
    (forall u v, p !! u = Some v -> u ∈ g_nodes (as_graph d) /\ v ∈ g_nodes (as_graph d)) /\
    matching_diverges iter (as_graph d) p.
Proof.
  set (p := pair_all [(5, 6); (7, 0); (3, 1)]%N).
  assert (Hs : symmetric_pairing p) by (apply pairs_symmetric; intros e He; set_solver).
  exists sticks, p, canon. pose proof sticks_api as Hd. split; [done|]. split.
  { apply (bipartite_check (fun x => (4 <=? x)%N)); [done|vm_compute; reflexivity]. }
  split; [apply id_room_check; vm_compute; reflexivity|]. split; [done|]. split; [apply canon_ok|]. split.
  { apply pairs_inside. vm_compute. reflexivity. }
  eapply (behind_diverges 40); [done|vm_compute; reflexivity|].
  intros fuel. eapply lift_never; [reflexivity|reflexivity|reflexivity|done|].
  intros z Hz. cbn [b_path] in Hz.
  repeat (apply elem_of_cons in Hz as [-> | Hz]; [vm_compute; reflexivity|]). by apply elem_of_nil in Hz.
Qed.
Print Assumptions C77_odd_cycle_spins.

(** ... or finds a path with an odd number of nodes, which [augment] rejects. *)
Theorem C77_odd_cycle_odd_path :
  exists d p iter, Api d /\ Bipartite (as_graph d) /\ id_room (as_graph d) /\ symmetric_pairing p /\
    hash_order_ok iter /\
    (forall u v, p !! u = Some v -> u ∈ g_nodes (as_graph d) /\ v ∈ g_nodes (as_graph d)) /\
    matching_run iter (as_graph d) p (Panic PEvenPath).
Proof.
  set (p := pair_all [(4, 2); (6, 5); (3, 1)]%N).
  assert (Hs : symmetric_pairing p) by (apply pairs_symmetric; intros e He; set_solver).
  exists twigs, p, canon. pose proof twigs_api as Hd. split; [done|]. split.
  { apply (bipartite_check (fun x => bool_decide (x ∈ [3; 2; 0]%N))); [done|vm_compute; reflexivity]. }
  split; [apply id_room_check; vm_compute; reflexivity|]. split; [done|]. split; [apply canon_ok|]. split.
  { apply pairs_inside. vm_compute. reflexivity. }
  apply (run_seen canon _ _ 40); [|done]. vm_compute. reflexivity.
Qed.
Print Assumptions C77_odd_cycle_odd_path.

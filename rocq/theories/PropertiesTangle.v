(** Property C88: exactly which graphs the depth-first traversal handles as the
    textbook does whatever the order of the neighbors; with it C24, C25, C26 and
    C30 under that condition, which is weaker than narrow rings. *)
From Verif Require Import Outcome GraphModel TraversalModel ComponentsModel PairingModel
  Spec SpecSearch SpecTangle GraphProofs Checks EditProofs ConvertProofs EqProofs TraversalProofs BfsProofs
  DfsProofs PathLemmas AcyclicProofs CycleProofs NarrowProofs ComponentsProofs DescentProofs SearchProofs
  TextbookProofs TangleProofs PropertiesTraversal PropertiesSelection.

(** C88.  The traversal from [r] is the textbook one for every order of the
    neighbors exactly if the graph is untangled seen from [r]. *)
Theorem C88_every_order g (Hg : Lawful g) (Hl : LoopFree g) r (Hr : r ∈ g_nodes g) :
  untangled g r <->
  (forall h, reordered g h -> forall steps, depth_first h r steps -> textbook_run h r steps).
Proof.
  split; [|by apply untangled_only_if].
  intros Hu h Hre. apply untangled_run.
  - by eapply reordered_lawful.
  - by eapply reordered_loop_free.
  - destruct Hre as (_ & _ & _ & -> & _). done.
  - eapply untangled_transfer; [|exact Hu]. intros u v. symmetry. by apply reordered_adj.
Qed.
Print Assumptions C88_every_order.

(** Reorderings are again undirected graphs without self-loops, with the same
    adjacency. *)
Theorem C88_reordered g h : reordered g h -> Lawful g -> LoopFree g ->
  Lawful h /\ LoopFree h /\ forall u v, adj h u v <-> adj g u v.
Proof.
  intros Hre Hg Hl. split; [by eapply reordered_lawful|]. split; [by eapply reordered_loop_free|].
  by apply reordered_adj.
Qed.
Print Assumptions C88_reordered.

(** For a graph given as an edge list: exactly if it is untangled, the order in
    which the edges are given does not matter. *)
Theorem C88_edge_order es d r : dg_try_from_edges es = Ok d -> LoopFree (as_graph d) ->
  r ∈ g_nodes (as_graph d) ->
  untangled (as_graph d) r <->
  (forall es' d', Permutation es es' -> dg_try_from_edges es' = Ok d' ->
     forall steps, depth_first (as_graph d') r steps -> textbook_run (as_graph d') r steps).
Proof.
  intros Hd Hl Hr. split; [|by eapply edge_order_only_if].
  intros Hu es' d' Hp Hd' steps Hs.
  destruct (try_from_edges_result _ _ Hd) as (_ & _ & Hadj & _).
  destruct (try_from_edges_result _ _ Hd') as (_ & _ & Hadj' & _).
  assert (Hg' : Lawful (as_graph d')). { apply api_lawful. by eapply api_edges. }
  assert (Hsame : forall u w, adj (as_graph d) u w <-> adj (as_graph d') u w).
  { intros u w. rewrite Hadj, Hadj', Hp. done. }
  apply (untangled_run _ Hg'); [|by eapply dfs_root|by eapply untangled_transfer|done].
  intros v Hv. apply (Hl v). by apply Hsame.
Qed.
Print Assumptions C88_edge_order.

(** Every such reordered edge list is accepted and gives the same adjacency. *)
Theorem C88_edge_order_accepted es es' d : dg_try_from_edges es = Ok d -> Permutation es es' ->
  exists d', dg_try_from_edges es' = Ok d' /\ forall u v, adj (as_graph d') u v <-> adj (as_graph d) u v.
Proof.
  intros Hd Hp. destruct (proj2 (try_from_edges_ok es')) as [d' Hd'].
  { eapply distinct_perm; [exact Hp|]. apply try_from_edges_ok. by exists d. }
  exists d'. split; [done|]. intros u v.
  destruct (try_from_edges_result _ _ Hd) as (_ & _ & -> & _).
  destruct (try_from_edges_result _ _ Hd') as (_ & _ & -> & _). by rewrite Hp.
Qed.
Print Assumptions C88_edge_order_accepted.

(** Only the adjacency matters. *)
Theorem C88_adjacency_only g h r : (forall u v, adj g u v <-> adj h u v) -> untangled g r <-> untangled h r.
Proof.
  intros H. split; apply untangled_transfer; [done|]. intros u v. symmetry. apply H.
Qed.
Print Assumptions C88_adjacency_only.

(** Narrow rings, and so forests, are untangled; not the other way round (below). *)
Theorem C88_narrow g (Hg : Lawful g) r : narrow_rings g r -> untangled g r.
Proof. by apply narrow_untangled. Qed.
Print Assumptions C88_narrow.

(** C24, C25, C26 and C30 of untangled graphs. *)
Theorem C24_depth_first_untangled_partial g (Hg : Lawful g) (Hl : LoopFree g) r (Hu : untangled g r) steps :
  depth_first g r steps ->
  (forall v, reachable g r v <-> v ∈ discovered r steps) /\
  (forall u v, reachable g r u -> adj g u v -> times_crossed (u, v) (crossed steps) = 1).
Proof.
  intros Hd. pose proof (dfs_root g r steps Hg Hd) as Hr.
  destruct (untangled_dfs g Hg Hl r Hr Hu steps Hd) as (H1 & H2 & _). exact (conj H1 H2).
Qed.
Print Assumptions C24_depth_first_untangled_partial.

Theorem C25_cut_to_ancestor_untangled_partial g (Hg : Lawful g) (Hl : LoopFree g) r (Hu : untangled g r) steps :
  depth_first g r steps ->
  forall s, s ∈ steps -> cut s = true -> ancestor steps (tid s) (sid s).
Proof.
  intros Hd. pose proof (dfs_root g r steps Hg Hd) as Hr.
  exact (proj2 (proj2 (untangled_dfs g Hg Hl r Hr Hu steps Hd))).
Qed.
Print Assumptions C25_cut_to_ancestor_untangled_partial.

Theorem C26_depth_first_untangled_partial g (Hg : Lawful g) (Hl : LoopFree g) r (Hu : untangled g r) steps :
  depth_first g r steps ->
  exists l, g_neighbors g r = Ok l /\ textbook g r [] ((fun x => (r, x)) <$> l) steps.
Proof.
  intros Hd. pose proof (dfs_root g r steps Hg Hd) as Hr. exact (untangled_run g Hg Hl r Hr Hu steps Hd).
Qed.
Print Assumptions C26_depth_first_untangled_partial.

Theorem C30_components_untangled_partial g (Hg : Lawful g) (Ha : untangled_components g) ds :
  components_are g ds ->
  (ds ≫= (fun d => g_nodes (as_graph d))) ≡ₚ g_nodes g /\
  (forall d u v, d ∈ ds -> u ∈ g_nodes (as_graph d) ->
     (v ∈ g_nodes (as_graph d) <-> reachable g u v)) /\
  (forall d u v, d ∈ ds -> u ∈ g_nodes (as_graph d) -> (adj (as_graph d) u v <-> adj g u v)) /\
  (exists roots, (fun d => head (g_nodes (as_graph d))) <$> ds = Some <$> roots /\
     sublist roots (g_nodes g)) /\
  (forall d r i j v, d ∈ ds -> head (g_nodes (as_graph d)) = Some r ->
     g_nodes g !! i = Some r -> g_nodes g !! j = Some v -> v ∈ g_nodes (as_graph d) -> i <= j).
Proof.
  destruct Ha as [Hl Ha]. apply (ComponentsProofs.components_whole g ds Hg Hl).
  intros i r Hi Hf. apply untangled_whole; [done|done|by eapply elem_of_list_lookup_2|by eapply Ha].
Qed.
Print Assumptions C30_components_untangled_partial.

(** A triangle 0-1-2 with two pendant nodes at 1, such as a ring with a doubly
    substituted atom: not narrow, as 1 has degree four, but untangled from 0. *)
Definition gem_edges : list (N * N) := [(0, 1); (1, 2); (2, 0); (1, 3); (1, 4)]%N.
Definition gem : DefaultGraph := get (dg_try_from_edges gem_edges).
Lemma gem_api : Api gem. Proof. apply get_edges_api; is_ok. Qed.
Lemma gem_loop_free : LoopFree (as_graph gem).
Proof. apply loop_free_check; [apply gem_api|vm_compute; reflexivity]. Qed.
Lemma gem_untangled : untangled (as_graph gem) 0.
Proof. apply (untangled_check _ 6). vm_compute. reflexivity. Qed.

Ltac adj_now := eexists; split; [vm_compute; reflexivity|set_solver].

Example C88_case : dg_try_from_edges gem_edges = Ok gem /\ LoopFree (as_graph gem) /\
  0%N ∈ g_nodes (as_graph gem) /\ untangled (as_graph gem) 0 /\ ~ narrow_rings (as_graph gem) 0 /\
  depth_first (as_graph gem) 0 [mkStep 0 1 false; mkStep 1 2 false; mkStep 2 0 true;
    mkStep 1 3 false; mkStep 1 4 false]%N.
Proof.
  split; [reflexivity|]. split; [apply gem_loop_free|]. split.
  { apply elem_of_list_In. vm_compute. tauto. }
  split; [apply gem_untangled|]. split; [|run_dfs].
  intros Hn. destruct (Hn 1%N 4) as [_ H].
  - apply rtc_once. adj_now.
  - vm_compute. reflexivity.
  - destruct H as [H _]; [|lia]. exists [0; 1; 2]%N. split; [|set_solver]. split_and!.
    + simpl. lia.
    + repeat constructor; set_solver.
    + intros [|[|[|i]]] a b Ha Hb; simpl in *; try done; injection Ha as <-; injection Hb as <-; adj_now.
    + exists 0%N, 2%N. split_and!; [done|done|adj_now].
Qed.

(** The components are exact for the same graph. *)
Example C30_untangled_case : untangled_components (as_graph gem).
Proof.
  split; [apply gem_loop_free|]. intros [|i] r Hi Hfirst.
  { vm_compute in Hi. injection Hi as <-. apply gem_untangled. }
  exfalso. apply (Hfirst 0 0%N); [lia|done|].
  apply reachable_sym; [apply api_lawful, gem_api|].
  assert (exists steps, breadth_first (as_graph gem) 0 steps /\
    forallb (fun v => bool_decide (v ∈ discovered 0%N steps)) (g_nodes (as_graph gem)) = true)
    as (steps & Hb & Hall).
  { eexists. split; [run_bfs|vm_compute; reflexivity]. }
  apply (C17_breadth_first_component _ (api_lawful _ gem_api) 0 steps Hb).
  rewrite forallb_forall in Hall. apply (bool_decide_eq_true_1 _), Hall, elem_of_list_In.
  by eapply elem_of_list_lookup_2.
Qed.

(** Seen from its own node 1 the same graph is tangled, and so is the triangle
    with a pendant node at the root; from the other nodes of the triangle the
    latter is not. *)
Example C88_pan : ~ untangled (as_graph pan) 0 /\ untangled (as_graph pan) 1 /\ untangled (as_graph pan) 2 /\
  untangled (as_graph pan) 3.
Proof.
  split_and!; [|apply (untangled_check _ 5); vm_compute; reflexivity..].
  intros Hu. destruct (Hu [0]%N 0%N 1%N 2%N 3%N) as [_ H]; try done.
  - apply NoDup_singleton.
  - adj_now.
  - adj_now.
  - set_solver.
  - set_solver.
  - apply rtc_once. split_and!; [adj_now|set_solver..].
  - adj_now.
  - assert (Hj : joined (as_graph pan) [0]%N 1 3) by (apply H; set_solver).
    apply rtc_inv_r in Hj as [?|(y & _ & (l & Hl & Hy) & Hy0 & _)]; [done|].
    assert (Hs : adj (as_graph pan) 3 y).
    { apply law_adj_sym; [apply api_lawful, pan_api|]. by exists l. }
    destruct Hs as (k & Hk & Hyk). vm_compute in Hk. injection Hk as <-. set_solver.
Qed.

(** Complete graphs: on four nodes untangled, on five not. *)
Definition k4t : DefaultGraph := get (dg_try_from_edges [(0, 1); (0, 2); (0, 3); (1, 2); (1, 3); (2, 3)]%N).
Definition k5t : DefaultGraph := get (dg_try_from_edges [(0, 1); (0, 2); (0, 3); (0, 4); (1, 2); (1, 3);
  (1, 4); (2, 3); (2, 4); (3, 4)]%N).
Example C88_complete_graphs : untangled (as_graph k4t) 0 /\ ~ untangled (as_graph k5t) 0.
Proof.
  split; [apply (untangled_check _ 5); vm_compute; reflexivity|].
  intros Hu. destruct (Hu [0; 1; 2]%N 2%N 3%N 4%N 0%N) as [H _]; try done.
  - intros [|[|i]] a b Ha Hb; simpl in *; [..|by destruct i]; injection Ha as <-; injection Hb as <-; adj_now.
  - repeat constructor; set_solver.
  - adj_now.
  - adj_now.
  - set_solver.
  - set_solver.
  - apply rtc_once. split_and!; [adj_now|set_solver..].
  - adj_now.
  - destruct H as [P' HP']; [left|]. change [0; 1; 2]%N with ([0] ++ [1; 2])%N in HP'.
    apply (f_equal reverse) in HP'. rewrite !reverse_app in HP'. discriminate HP'.
Qed.

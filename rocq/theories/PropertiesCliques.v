(** Property C61 (maximum_matching on complete graphs and disjoint unions of
    them).  Conventions as in PropertiesMatching.v. *)
From Verif Require Import Outcome GraphModel TraversalModel ComponentsModel PairingModel GreedyModel
  Spec GraphProofs Checks EditProofs TraversalProofs BfsProofs DfsProofs PathLemmas AcyclicProofs
  ComponentsProofs PairingProofs GreedyProofs MatchTheory MaximumModel ForestProofs BlossomProofs
  ContractProofs LiftProofs TameProofs MaximumProofs CalmProofs ClassChecks PropertiesMatching.

(** If every component is a clique, maximum_matching returns a maximum
    matching from any initial matching, each augmentation adds one pair, no
    node loses its mate for good, and at most one node of each component stays
    unpaired. *)
Theorem C61_cliques_total g (Hg : Lawful g) iter (Hit : hash_order_ok iter) p (Hp : pairing_of g p) :
  adjacency_transitive g -> id_room g ->
  exists paths q, matching_run iter g p (Ok q) /\ augmentations iter g p paths q /\
    (forall M, listed_edges q M -> maximum g M) /\
    p_order q = p_order p + 2 * length paths /\
    (forall v, is_Some (p !! v) -> is_Some (q !! v)) /\
    (forall u v, reachable g u v -> q !! u = None -> q !! v = None -> u = v).
Proof.
  intros Hcl Hroom.
  destruct (calm_total g iter p Hg Hit Hp (transitive_calm g Hg Hcl) Hroom) as (paths & q & Haug & Hord & Hkeep).
  assert (Hrun : matching_run iter g p (Ok q)) by (apply run_iff; eauto).
  assert (Hmax : forall M, listed_edges q M -> maximum g M).
  { intros M HM. by eapply run_maximum. }
  exists paths, q. split_and!; try done.
  intros u v Huv Hu Hv. destruct (decide (u = v)) as [|Hne]; [done|]. exfalso.
  assert (Hadj : adj g u v).
  { revert Hne. clear Hu Hv. induction Huv as [|x y z Hxy Hyz IH]; [done|]. intros Hne.
    destruct (decide (y = z)) as [->|Hyz']; [done|]. apply (Hcl x y z); auto. }
  assert (Hq : pairing_of g q) by (by eapply aug_pairing).
  destruct (Hmax _ (listed_here q)) as [[HM Hnd] Hbest].
  assert (Hout : forall x, q !! x = None -> x ∉ endpoints (p_edges_of (map_to_list q))).
  { intros x Hx Hin. apply (p_edges_endpoints q (proj1 Hq) _ (reflexivity _)) in Hin as [? ?]. congruence. }
  specialize (Hbest ((u, v) :: p_edges_of (map_to_list q))). cbn [length] in Hbest.
  enough (matching g ((u, v) :: p_edges_of (map_to_list q))) as Hm by (specialize (Hbest Hm); lia).
  split.
  - intros x y [[= -> ->]|Hxy]%elem_of_cons; [done|]. by apply HM.
  - change (NoDup ([u; v] ++ endpoints (p_edges_of (map_to_list q)))). apply NoDup_app. split_and!.
    + apply NoDup_cons. split; [by rewrite elem_of_list_singleton|apply NoDup_singleton].
    + intros x [->|[->|Hx]%elem_of_cons]%elem_of_cons; [by apply Hout..|by apply elem_of_nil in Hx].
    + done.
Qed.
Print Assumptions C61_cliques_total.

(** On a complete graph with n nodes the answer has n/2 pairs. *)
Theorem C61_complete g (Hg : Lawful g) iter (Hit : hash_order_ok iter) p (Hp : pairing_of g p) :
  (forall u v, u ∈ g_nodes g -> v ∈ g_nodes g -> u <> v -> adj g u v) -> id_room g ->
  exists q, matching_run iter g p (Ok q) /\ p_order q = 2 * (length (g_nodes g) / 2).
Proof.
  intros Hc Hroom.
  destruct (C61_cliques_total g Hg iter Hit p Hp) as (paths & q & Hrun & Haug & _ & _ & _ & Hone); [|done|].
  { intros u v w Huv Hvw Huw. apply Hc; [|by eapply law_adj_node, Hvw|done].
    by eapply law_adj_node, law_adj_sym, Huv. }
  exists q. split; [done|].
  assert (Hq : pairing_of g q) by (by eapply aug_pairing).
  pose proof (pairing_order g Hg q Hq) as Hle.
  assert (Hge : length (g_nodes g) <= S (p_order q)).
  { assert (Hex : exists u, forall x, x ∈ g_nodes g -> q !! x = None -> x = u).
    { destruct (filter (fun x => q !! x = None) (g_nodes g)) as [|u l] eqn:E.
      - exists 0%N. intros x Hx Hn. exfalso. apply (not_elem_of_nil x). rewrite <-E.
        by apply elem_of_list_filter.
      - exists u. assert (Hu : u ∈ u :: l) by left. rewrite <-E in Hu.
        apply elem_of_list_filter in Hu as [Hu Hun]. intros x Hx Hn.
        destruct (decide (x = u)) as [|Hne]; [done|]. apply Hone; [|done|done].
        apply rtc_once. by apply Hc. }
    destruct Hex as [u Hu]. unfold p_order. rewrite <-size_dom.
    rewrite <-(size_list_to_set (C := gset N) (g_nodes g)) by apply Hg.
    assert (Hsub : list_to_set (C := gset N) (g_nodes g) ⊆ {[u]} ∪ dom q).
    { intros x Hx%elem_of_list_to_set. apply elem_of_union. destruct (q !! x) as [y|] eqn:E.
      - right. apply elem_of_dom. by eexists.
      - left. apply elem_of_singleton. auto. }
    apply subseteq_size in Hsub. etrans; [exact Hsub|]. rewrite size_union_alt, size_singleton.
    apply le_n_S. apply subseteq_size. set_solver. }
  rewrite (p_edges_length q (proj1 Hq) _ (reflexivity _)) in *.
  set (k := length (p_edges_of (map_to_list q))) in *. clearbody k.
  assert (length (g_nodes g) = 2 * k \/ length (g_nodes g) = 2 * k + 1) as [-> | ->] by lia.
  - rewrite Nat.mul_comm at 2. by rewrite Nat.div_mul.
  - rewrite (Nat.mul_comm 2 k) at 2. rewrite Nat.div_add_l by done. simpl. lia.
Qed.
Print Assumptions C61_complete.

(** A complete graph on seven nodes, one on five (with a self-loop), a single
    node and a node with a self-loop. *)
Definition cliques : DefaultGraph := get (dg_try_from_edges
  [(0, 1); (0, 2); (0, 3); (0, 4); (0, 5); (0, 6); (1, 2); (1, 3); (1, 4); (1, 5); (1, 6);
   (2, 3); (2, 4); (2, 5); (2, 6); (3, 4); (3, 5); (3, 6); (4, 5); (4, 6); (5, 6); (10, 11);
   (10, 12); (10, 13); (10, 14); (11, 12); (11, 13); (11, 14); (12, 13); (12, 14); (13, 14);
   (12, 12); (20, 20)]%N).
Lemma cliques_api : Api cliques. Proof. apply get_edges_api; is_ok. Qed.
Definition k7 : DefaultGraph := get (dg_try_from_edges
  [(0, 1); (0, 2); (0, 3); (0, 4); (0, 5); (0, 6); (1, 2); (1, 3); (1, 4); (1, 5); (1, 6);
   (2, 3); (2, 4); (2, 5); (2, 6); (3, 4); (3, 5); (3, 6); (4, 5); (4, 6); (5, 6)]%N).
Lemma k7_api : Api k7. Proof. apply get_edges_api; is_ok. Qed.

(** A decidable form of the class. *)
Definition transitive_b (g : Graph) : bool :=
  forallb (fun u => forallb (fun v => forallb (fun w =>
    negb (edge g u v && edge g v w && negb (N.eqb u w)) || edge g u w) (g_nodes g)) (g_nodes g)) (g_nodes g).
Lemma transitive_check g : Lawful g -> transitive_b g = true -> adjacency_transitive g.
Proof.
  intros Hg H u v w Huv Hvw Huw. unfold transitive_b in H.
  assert (Hu : u ∈ g_nodes g) by (by eapply law_adj_node, law_adj_sym, Huv).
  assert (Hv : v ∈ g_nodes g) by (by eapply law_adj_node, Huv).
  assert (Hw : w ∈ g_nodes g) by (by eapply law_adj_node, Hvw).
  rewrite forallb_forall in H. specialize (H u (proj1 (elem_of_list_In _ _) Hu)).
  rewrite forallb_forall in H. specialize (H v (proj1 (elem_of_list_In _ _) Hv)).
  rewrite forallb_forall in H. specialize (H w (proj1 (elem_of_list_In _ _) Hw)).
  rewrite (proj2 (proj2 (edge_spec g Hg u v Hu Hv)) Huv) in H.
  rewrite (proj2 (proj2 (edge_spec g Hg v w Hv Hw)) Hvw) in H.
  apply (proj2 (edge_spec g Hg u w Hu Hw)).
  destruct (N.eqb_spec u w); [done|]. simpl in H. done.
Qed.

Example C61_case iter (Hit : hash_order_ok iter) : let g := as_graph cliques in
  let p := pair_all [(1, 2); (3, 4); (11, 13)]%N in
  Lawful g /\ adjacency_transitive g /\ id_room g /\ pairing_of g p /\
  exists q, matching_run iter g p (Ok q) /\ p_order q = 10.
Proof.
  intros g p. assert (Hg : Lawful g) by apply api_lawful, cliques_api.
  split; [done|]. split; [apply transitive_check; [done|vm_compute; reflexivity]|].
  split; [apply id_room_check; vm_compute; reflexivity|]. split; [a_pairing|].
  eexists. split; [a_run|vm_compute; reflexivity].
Qed.
Example C61_complete_case iter (Hit : hash_order_ok iter) : let g := as_graph k7 in
  Lawful g /\ (forall u v, u ∈ g_nodes g -> v ∈ g_nodes g -> u <> v -> adj g u v) /\ id_room g /\
  pairing_of g (pair_all [(1, 2); (3, 4)]%N) /\ 2 * (length (g_nodes g) / 2) = 6.
Proof.
  intros g. assert (Hg : Lawful g) by apply api_lawful, k7_api. split; [done|]. split.
  - assert (H : forallb (fun u => forallb (fun v => N.eqb u v || edge g u v) (g_nodes g)) (g_nodes g) = true)
      by (vm_compute; reflexivity).
    intros u v Hu Hv Huv. rewrite forallb_forall in H. specialize (H u (proj1 (elem_of_list_In _ _) Hu)).
    rewrite forallb_forall in H. specialize (H v (proj1 (elem_of_list_In _ _) Hv)).
    apply (proj2 (edge_spec g Hg u v Hu Hv)). destruct (N.eqb_spec u v); done.
  - split; [apply id_room_check; vm_compute; reflexivity|]. split; [a_pairing|]. vm_compute. reflexivity.
Qed.

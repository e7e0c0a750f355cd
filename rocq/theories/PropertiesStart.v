(** Property C92: how [maximum_matching] starts. *)
From Verif Require Import Outcome GraphModel TraversalModel ComponentsModel PairingModel Spec SpecStart
  GraphProofs Checks EditProofs ConvertProofs EqProofs TraversalProofs PairingProofs MatchTheory
  MaximumModel ForestProofs TameProofs MaximumProofs ClassChecks SelfPairProofs StartProofs PropertiesSelfPair.

(** As long as the first unpaired node that has neighbors can be paired with its
    first neighbor, that pair is the next augmentation; and the call ends as it
    would had it been given the pairing with these pairs.  No hash order and no
    other part of the graph has a say in this. *)
Theorem C92_first_augmentations g (Hg : Lawful g) iter (Hit : hash_order_ok iter) p (Hp : pairing_of g p) pairs q :
  first_pairs g p pairs q ->
  rounds iter g p ((fun e => [e.1; e.2]) <$> pairs) q /\ pairing_of g q /\
  p_order q = p_order p + 2 * length pairs /\
  (forall m, matching_run iter g p m <-> matching_run iter g q m) /\
  forall paths q', augmentations iter g p paths q' ->
    exists paths', paths = ((fun e => [e.1; e.2]) <$> pairs) ++ paths' /\ augmentations iter g q paths' q'.
Proof.
  intros H. induction H as [p|p before v after w rest pairs q Hn Hb Hv Hnv Hw Hvw H IH].
  { split_and!; [constructor|done|cbn; lia|done|]. intros paths q' Ha. by exists paths. }
  assert (Hnone : forall u, p_has_node p u = false -> p !! u = None).
  { intros u Hu%bool_decide_eq_false_1. by apply eq_None_not_Some. }
  assert (Hs : search_is iter g p (Some [v; w])).
  { eapply (start_search g Hg iter Hit p before v after w rest); auto.
    intros u Hu. destruct (Hb u Hu) as [Hu'%bool_decide_eq_true_1|Hu']; [by left|right].
    intros y (l & Hl & Hy). rewrite Hu' in Hl. injection Hl as <-. by apply elem_of_nil in Hy. }
  assert (Ha : p_augment p [v; w] = Ok (p_pair p v w)) by done.
  assert (Hp1 : pairing_of g (p_pair p v w)) by (by eapply (search_step g Hg iter Hit)).
  destruct (IH Hp1) as (IH1 & IH2 & IH3 & IH4 & IH5).
  split_and!; [by econstructor|done| | |].
  - rewrite IH3. cbn [length]. enough (p_order (p_pair p v w) = p_order p + 2) by lia.
    unfold p_pair, p_insert, p_order. rewrite (Hnone v) by done.
    rewrite lookup_insert_ne by done. rewrite (Hnone w) by done.
    rewrite map_size_insert_None; [|rewrite lookup_insert_ne by done; auto].
    rewrite map_size_insert_None by auto. lia.
  - intros m. rewrite <-IH4. by apply (run_first g Hg iter Hit p [v; w]).
  - intros paths q' Haug. inversion Haug as [? Hno|? path' p1' paths' ? Hs' Ha' Haug']; subst.
    + pose proof (search_det g iter _ _ _ Hs Hno). done.
    + pose proof (search_det g iter _ _ _ Hs Hs') as [= <-]. rewrite Ha in Ha'. injection Ha' as <-.
      destruct (IH5 paths' q' Haug') as (rest' & -> & Hrest). by exists rest'.
Qed.
Print Assumptions C92_first_augmentations.

(** If these pairs cover every node that has a neighbor, the call returns them,
    with the pairs it was given. *)
Theorem C92_first_pairs_suffice g (Hg : Lawful g) iter (Hit : hash_order_ok iter) p (Hp : pairing_of g p) pairs q :
  first_pairs g p pairs q -> (forall u w, adj g u w -> p_has_node q u = true) ->
  matching_run iter g p (Ok q) /\ augmentations iter g p ((fun e => [e.1; e.2]) <$> pairs) q.
Proof.
  intros H Hall. destruct (C92_first_augmentations g Hg iter Hit p Hp pairs q H) as (H1 & H2 & _ & H4 & _).
  assert (Hrun : matching_run iter g q (Ok q)).
  { apply C91_nothing_to_do; [done|done|]. intros u w Hu Hw. apply Hall in Hw. congruence. }
  assert (Hrun' : matching_run iter g p (Ok q)) by (by apply H4).
  split; [done|]. apply (rounds_augmentations g iter). split; [done|].
  apply (run_iff g Hg iter Hit) in Hrun as (paths & Haug); [|done]. by eapply aug_final.
Qed.
Print Assumptions C92_first_pairs_suffice.

(** A ring 0-1-2-3 with a chord 1-3, and a node without neighbors. *)
Definition ring4 : DefaultGraph := (run_ops dg_new
  ((AddNode <$> [9; 0; 1; 2; 3]) ++ ((fun e => AddEdge e.1 e.2) <$> [(0, 1); (2, 3); (1, 2); (0, 3); (1, 3)]))%N).1.
Lemma ring4_api : Api ring4. Proof. apply run_ops_api. constructor. Qed.

Example C92_case iter (Hit : hash_order_ok iter) : let g := as_graph ring4 in
  Lawful g /\ pairing_of g p_new /\ first_pairs g p_new [(0, 1); (2, 3)]%N (pair_all [(0, 1); (2, 3)]%N) /\
  matching_run iter g p_new (Ok (pair_all [(0, 1); (2, 3)]%N)).
Proof.
  intros g. assert (Hg : Lawful g) by apply api_lawful, ring4_api.
  assert (Hp : pairing_of g p_new).
  { split; [intros u v Hu|intros u v Hu]; unfold p_new in Hu; by rewrite lookup_empty in Hu. }
  assert (E : g_nodes g = [9; 0; 1; 2; 3]%N) by (vm_compute; reflexivity).
  assert (Hf : first_pairs g p_new [(0, 1); (2, 3)]%N (pair_all [(0, 1); (2, 3)]%N)).
  { apply (first_pairs_one g p_new [9]%N 0%N [1; 2; 3]%N 1%N [3]%N);
      [done| |vm_compute; reflexivity..|done|].
    { intros u ->%elem_of_list_singleton. right. vm_compute. reflexivity. }
    apply (first_pairs_one g _ [9; 0; 1]%N 2%N [3]%N 3%N [1]%N);
      [done| |vm_compute; reflexivity..|done|].
    { intros u Hu. set_unfold. destruct Hu as [->|[->|[->|[]]]]; [right|left|left]; vm_compute; reflexivity. }
    constructor. }
  split_and!; [done|done|done|].
  eapply C92_first_pairs_suffice; [done|done|done|done|]. intros u w Huw.
  assert (Hu : u ∈ g_nodes g) by (apply (law_adj_node g Hg w), (law_adj_sym g Hg), Huw).
  rewrite E in Hu. set_unfold.
  destruct Hu as [->|[->|[->|[->|[->|[]]]]]]; [|vm_compute; reflexivity..].
  exfalso. destruct Huw as (l & Hl & Hw). assert (Hl' : g_neighbors g 9 = Ok []) by (vm_compute; reflexivity).
  rewrite Hl' in Hl. injection Hl as <-. by apply elem_of_nil in Hw.
Qed.

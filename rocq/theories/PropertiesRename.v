(** Property C73: maximum_matching follows the order of nodes, neighbors and
    edges, not what the nodes are called. *)
From Verif Require Import Outcome GraphModel TraversalModel ComponentsModel PairingModel GreedyModel
  Spec SpecRename GraphProofs Checks EditProofs ConvertProofs TraversalProofs EquivProofs PairingProofs
  MatchTheory MaximumModel BlossomProofs ContractProofs MaximumProofs RenameProofs ClassChecks
  PropertiesGraph PropertiesMatching PropertiesEquiv.

Lemma renamed_unique f p q q' : pairing_renamed f p q -> pairing_renamed f p q' -> q = q'.
Proof. intros H H'. apply map_eq. intros x. apply option_eq. intros y. by rewrite (H x y), (H' x y). Qed.

(** The same outcome under the other names, for all ways the hash maps may be
    iterated in either run. *)
Theorem C73_maximum_matching_renaming f g h (Hg : Lawful g) (Hh : Lawful h)
    iter (Hit : hash_order_ok iter) iter' (Hit' : hash_order_ok iter') p (Hp : pairing_of g p) q :
  renamed f g h -> edges_renamed f g h -> pairing_renamed f p q -> id_room g -> id_room h ->
  (forall q', matching_run iter' h q (Ok q') <->
     exists p', matching_run iter g p (Ok p') /\ pairing_renamed f p' q') /\
  (forall e, matching_run iter' h q (Panic e) <-> matching_run iter g p (Panic e)) /\
  (matching_diverges iter' h q <-> matching_diverges iter g p).
Proof.
  intros Hr He Hq Hrg Hrh.
  pose proof (rp_pairing f g h Hg Hr p q Hp Hq) as Hpq.
  assert (Hs : forall fuel, msame f (maximum_matching iter [] fuel g p) (maximum_matching iter' [] fuel h q)).
  { intros fuel. by apply (mm_same f g h fuel). }
  split_and!.
  - intros q'. split.
    + intros (_ & n & Hn). specialize (Hs n). rewrite (Hn n) in Hs by lia.
      destruct (maximum_matching iter [] n g p) as [p'| | |] eqn:E; try done.
      destruct Hs as (q1 & [= <-] & Hq'). exists p'. split; [|done]. by eapply run_at.
    + intros (p' & (_ & n & Hn) & Hq'). specialize (Hs n). rewrite (Hn n) in Hs by lia.
      destruct Hs as (q1 & E & Hq1). rewrite (renamed_unique _ _ _ _ Hq' Hq1). by eapply run_at.
  - intros e. split.
    + intros (_ & n & Hn). specialize (Hs n). rewrite (Hn n) in Hs by lia.
      destruct (maximum_matching iter [] n g p) as [p'| | |] eqn:E; try done.
      * by destruct Hs as (? & ? & _).
      * cbn in Hs. injection Hs as ->. by eapply run_at.
    + intros (_ & n & Hn). specialize (Hs n). rewrite (Hn n) in Hs by lia. by eapply run_at.
  - split; intros Hd fuel; specialize (Hs fuel).
    + rewrite Hd in Hs. destruct (maximum_matching iter [] fuel g p); try done. by destruct Hs as (? & ? & _).
    + by rewrite Hd in Hs.
Qed.
Print Assumptions C73_maximum_matching_renaming.

(** Two graphs with the same nodes() and neighbors(), whose edges() agree up
    to direction: the same outcome, whatever their types. *)
Theorem C73_same_rows_and_edges g h (Hg : Lawful g) (Hh : Lawful h)
    iter (Hit : hash_order_ok iter) p (Hp : pairing_of g p) m :
  g_nodes h = g_nodes g ->
  (forall v, v ∈ g_nodes g -> g_neighbors h v = g_neighbors g v) ->
  Forall2 same_edge (g_edges g) (g_edges h) -> id_room g -> id_room h ->
  matching_run iter g p m <-> matching_run iter h p m.
Proof.
  intros Hn Hnb He Hrg Hrh.
  assert (Hr : renamed (fun v => v) g h).
  { split_and!; [done|by rewrite Hn, list_fmap_id|].
    intros v l Hv. rewrite list_fmap_id, Hnb; [done|].
    destruct (decide (v ∈ g_nodes g)) as [|Hno]; [done|]. by rewrite (law_neighbors_err g Hg v Hno) in Hv. }
  assert (He' : edges_renamed (fun v => v) g h).
  { eapply Forall2_impl; [exact He|]. by intros [a b] e. }
  assert (Hid : forall p q : Pairing, pairing_renamed (fun v => v) p q <-> p = q).
  { intros p1 q1. split.
    - intros H. apply map_eq. intros x. apply option_eq. intros y. rewrite (H x y).
      split; [eauto|by intros (? & ? & ? & -> & ->)].
    - intros <- x y. split; [eauto|by intros (? & ? & ? & -> & ->)]. }
  destruct (C73_maximum_matching_renaming _ g h Hg Hh iter Hit iter Hit p Hp p Hr He') as (H1 & H2 & _);
    [by apply Hid|done|done|].
  destruct m as [p'|e|e|].
  - rewrite H1. split; [intros H; exists p'; split; [done|by apply Hid]|].
    by intros (p1 & H & <-%Hid).
  - split; intros (_ & n & E); specialize (E n (le_n n)); exfalso.
    + pose proof (mm_post g n iter [] p Hg Hit Hp) as H. by rewrite E in H.
    + pose proof (mm_post h n iter [] p Hh Hit) as H. rewrite E in H. apply H.
      apply (rp_pairing _ g h Hg Hr p p Hp). by apply Hid.
  - by rewrite H2.
  - split; by intros [[] _].
Qed.
Print Assumptions C73_same_rows_and_edges.

(** Two graphs with the same nodes() and neighbors(), whose edges() list the
    same edges in different orders. *)
Definition six_nodes (es : list (N * N)) : DefaultGraph :=
  (run_ops dg_new ((AddNode <$> [0; 2; 3; 4; 5; 6]%N) ++ ((fun e => AddEdge e.1 e.2) <$> es))).1.
Definition order_a := six_nodes [(0, 6); (2, 5); (0, 3); (3, 5); (2, 3); (3, 6); (2, 6); (4, 5)]%N.
Definition order_b := six_nodes [(2, 5); (0, 6); (0, 3); (3, 5); (4, 5); (2, 3); (3, 6); (2, 6)]%N.

Lemma run_ops_api ops : forall d, Api d -> Api (run_ops d ops).1.
Proof.
  induction ops as [|o ops IH]; intros d Hd; [done|]. cbn [run_ops fst]. apply IH.
  destruct o; cbn [run_op]; by constructor.
Qed.

(** C73 needs the order of edges(): on these two, maximum_matching started
    from Pairing::new() panics on one and returns on the other, although
    everything else the trait tells is the same. *)
Theorem C73_edge_order_matters : exists d e, Api d /\ Api e /\
  LoopFree (as_graph d) /\ LoopFree (as_graph e) /\
  g_nodes (as_graph e) = g_nodes (as_graph d) /\
  (forall v, g_neighbors (as_graph e) v = g_neighbors (as_graph d) v) /\
  g_edges (as_graph e) ≡ₚ g_edges (as_graph d) /\
  forall iter, hash_order_ok iter ->
    matching_run iter (as_graph d) p_new (Panic PEvenPath) /\
    exists q, matching_run iter (as_graph e) p_new (Ok q).
Proof.
  assert (Ha : Api order_a) by (apply run_ops_api; constructor).
  assert (Hb : Api order_b) by (apply run_ops_api; constructor).
  pose proof (api_lawful _ Ha) as Hg. pose proof (api_lawful _ Hb) as Hh.
  assert (Hn : g_nodes (as_graph order_b) = g_nodes (as_graph order_a)) by (vm_compute; reflexivity).
  exists order_a, order_b. split; [done|]. split; [done|]. split; [no_loops|]. split; [no_loops|].
  split; [done|]. split; [|split].
  - intros v. destruct (decide (v ∈ g_nodes (as_graph order_a))) as [Hv|Hv].
    + assert (Hall : forallb (fun v => bool_decide (g_neighbors (as_graph order_b) v = g_neighbors (as_graph order_a) v))
        (g_nodes (as_graph order_a)) = true) by (vm_compute; reflexivity).
      rewrite forallb_forall in Hall. apply elem_of_list_In, Hall in Hv. by apply bool_decide_eq_true in Hv.
    + rewrite (law_neighbors_err _ Hg v Hv). apply (law_neighbors_err _ Hh). by rewrite Hn.
  - apply NoDup_Permutation; [apply Hh|apply Hg|].
    assert (H1 : forallb (fun e => bool_decide (e ∈ g_edges (as_graph order_a))) (g_edges (as_graph order_b)) = true)
      by (vm_compute; reflexivity).
    assert (H2 : forallb (fun e => bool_decide (e ∈ g_edges (as_graph order_b))) (g_edges (as_graph order_a)) = true)
      by (vm_compute; reflexivity).
    rewrite forallb_forall in H1, H2. intros e. split; intros He%elem_of_list_In.
    + by apply H1, bool_decide_eq_true in He. + by apply H2, bool_decide_eq_true in He.
  - intros iter Hit. split; [a_run|]. exists (pair_all [(0, 6); (2, 3); (4, 5)]%N). a_result.
Qed.
Print Assumptions C73_edge_order_matters.

Lemma one_pair (a b u v : N) : a <> b ->
  pair_all [(a, b)] !! u = Some v <-> (u = a /\ v = b) \/ (u = b /\ v = a).
Proof.
  intros Hab.
  assert (Hnd : NoDup (endpoints [(a, b)])).
  { change (NoDup [a; b]). apply NoDup_cons. split; [by intros ?%elem_of_list_singleton|].
    apply NoDup_singleton. }
  rewrite (proj2 (pair_all_disjoint [(a, b)] Hnd)), !elem_of_list_singleton. split.
  - intros [[= -> ->]|[= -> ->]]; auto.
  - intros [[-> ->]|[-> ->]]; auto.
Qed.
Lemma shifted : pairing_renamed (fun v => v + 10)%N (pair_all [(3, 4)]%N) (pair_all [(13, 14)]%N).
Proof.
  intros x y. rewrite one_pair by lia. split.
  - intros [[-> ->]|[-> ->]]; [exists 3%N, 4%N|exists 4%N, 3%N]; (split; [apply one_pair; [lia|tauto]|done]).
  - intros (u & v & Huv & -> & ->). apply one_pair in Huv; [|lia].
    destruct Huv as [[-> ->]|[-> ->]]; [left|right]; done.
Qed.

(** The wheel with its nodes called 10, 11, ... and a pair to start from. *)
Example C73_case : let f := (fun v => v + 10)%N in let g := as_graph wheel in
  exists e q, Api e /\ let h := as_graph e in
    Lawful g /\ Lawful h /\ renamed f g h /\ edges_renamed f g h /\
    pairing_of g (pair_all [(3, 4)]%N) /\ q !! 14%N = Some 13%N /\
    pairing_renamed f (pair_all [(3, 4)]%N) q /\ id_room g /\ id_room h.
Proof.
  intros f g.
  set (es := [(0, 1); (1, 2); (2, 3); (3, 4); (4, 5); (5, 6); (6, 7); (7, 8); (8, 9); (9, 10);
    (10, 0); (11, 5); (11, 1); (11, 9)]%N).
  destruct (C65_edge_list_renaming f es wheel) as (e & He & Hr & Hed).
  { intros u v _ _ H. unfold f in H. lia. }
  { reflexivity. }
  assert (Hee : e = get (dg_try_from_edges (prod_map f f <$> es))) by (by rewrite He).
  assert (Hapi : Api e) by (by eapply api_edges).
  exists e, (pair_all [(13, 14)]%N). split; [done|]. cbn zeta.
  split; [apply api_lawful, wheel_api|]. split; [by apply api_lawful|]. split; [done|].
  split; [|split; [a_pairing|split; [vm_compute; reflexivity|split; [|split]]]].
  - unfold edges_renamed. rewrite Hed. apply Forall2_fmap_r.
    apply Forall_Forall2_diag, Forall_forall. intros [a b] _. by left.
  - apply shifted.
  - apply id_room_check. vm_compute. reflexivity.
  - rewrite Hee. apply id_room_check. vm_compute. reflexivity.
Qed.

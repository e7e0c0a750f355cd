(** Property C91: [maximum_matching] started with nodes paired with themselves
    or with unpaired nodes. *)
From Verif Require Import Outcome GraphModel TraversalModel ComponentsModel PairingModel Spec
  GraphProofs Checks EditProofs ConvertProofs EqProofs TraversalProofs PairingProofs MatchTheory
  MaximumModel ForestProofs MaximumProofs ClassChecks SelfPairProofs.

(** [shadowed p u w]: the unpaired node [u] is the mate of the smaller node [w]. *)
Lemma shadowed_mate p u w : shadowed p u w <-> (w < u)%N /\ p_mate p w = Ok u.
Proof.
  unfold shadowed, p_mate. destruct (p !! w) as [x|]; split; intros [? ?]; by simplify_eq.
Qed.

(** The pairing is arbitrary: [pair] calls can leave nodes paired with
    themselves and nodes whose mate is unpaired (C34).  Take the first unpaired
    node [v] that has a neighbor, and its first neighbor [w], leaving out edges
    that lead from an unpaired node to a smaller one that has it as its mate.  If
    [w] is paired with itself or with an unpaired node, the call panics, naming
    that mate. *)
Theorem C91_bad_mate_panics g (Hg : Lawful g) iter (Hit : hash_order_ok iter) p pre v post l1 w l2 x :
  g_nodes g = pre ++ v :: post ->
  (forall u, u ∈ pre -> p_has_node p u = true \/ forall y, adj g u y -> (y < u)%N /\ p_mate p y = Ok u) ->
  p_has_node p v = false -> g_neighbors g v = Ok (l1 ++ w :: l2) ->
  (forall y, y ∈ l1 -> (y < v)%N /\ p_mate p y = Ok v) -> ~ ((w < v)%N /\ p_mate p w = Ok v) ->
  p_mate p w = Ok x -> x = w \/ (x ∈ g_nodes g /\ p_has_node p x = false) ->
  matching_run iter g p (Panic (PForestDuplicate x)).
Proof.
  intros Hn Hpre Hv Hnv Hl1 Hw0 Hw Hx.
  assert (Hnone : forall u, p_has_node p u = false -> p !! u = None).
  { intros u Hu%bool_decide_eq_false_1. by apply eq_None_not_Some. }
  apply (self_pair_panics g p Hg iter Hit pre v post l1 w l2 x Hn); [|by apply Hnone|done| | | |].
  - intros u Hu. destruct (Hpre u Hu) as [H%bool_decide_eq_true_1|H]; [by left|right].
    intros y Hy. by apply shadowed_mate, H.
  - intros y Hy. by apply shadowed_mate, Hl1.
  - by rewrite shadowed_mate.
  - unfold p_mate in Hw. destruct (p !! w); by simplify_eq.
  - destruct Hx as [?|[? ?]]; [by left|right; auto].
Qed.
Print Assumptions C91_bad_mate_panics.

(** When mates are mutual there is nothing to leave out: the call panics if the
    first neighbor of the first unpaired node with neighbors is paired with
    itself. *)
Theorem C91_self_pair_panics g (Hg : Lawful g) iter (Hit : hash_order_ok iter) p (Hp : mutual p)
    pre v post w rest :
  g_nodes g = pre ++ v :: post ->
  (forall u, u ∈ pre -> p_has_node p u = true \/ g_neighbors g u = Ok []) ->
  p_has_node p v = false -> g_neighbors g v = Ok (w :: rest) -> p_mate p w = Ok w ->
  matching_run iter g p (Panic (PForestDuplicate w)).
Proof.
  intros Hn Hpre Hv Hnv Hw.
  apply (C91_bad_mate_panics g Hg iter Hit p pre v post [] w rest w Hn); [|done|done| | |done|by left].
  - intros u Hu. destruct (Hpre u Hu) as [H|H]; [by left|right]. intros y (l & Hl & Hy).
    rewrite H in Hl. injection Hl as <-. by apply elem_of_nil in Hy.
  - intros y Hy. by apply elem_of_nil in Hy.
  - intros [Hlt Hw']. rewrite Hw in Hw'. injection Hw' as ->. lia.
Qed.
Print Assumptions C91_self_pair_panics.

(** If every neighbor of every unpaired node is smaller than it and has it as
    its mate (in particular if unpaired nodes have no neighbors), the call
    returns the pairing as it was. *)
Theorem C91_nothing_to_do g (Hg : Lawful g) iter (Hit : hash_order_ok iter) p :
  (forall u w, p_has_node p u = false -> adj g u w -> (w < u)%N /\ p_mate p w = Ok u) ->
  matching_run iter g p (Ok p).
Proof.
  intros H. apply (self_pair_idle g p Hg iter Hit). intros u Hu Hpu w Hw. apply shadowed_mate, H; [|done].
  apply bool_decide_eq_false_2. rewrite Hpu. by intros [? ?].
Qed.
Print Assumptions C91_nothing_to_do.

(** Hence, when the neighbors of unpaired nodes are all paired with themselves,
    the call returns if and only if there are no such neighbors. *)
Theorem C91_self_paired_neighbors g (Hg : Lawful g) iter (Hit : hash_order_ok iter) p (Hp : mutual p) :
  (forall u v, p_has_node p u = false -> adj g u v -> p_mate p v = Ok v) ->
  (matching_run iter g p (Ok p) /\ forall u v, adj g u v -> p_has_node p u = true) \/
  (exists u v, adj g u v /\ p_has_node p u = false /\ p_mate p v = Ok v /\
     matching_run iter g p (Panic (PForestDuplicate v))).
Proof.
  intros Hadj.
  assert (Hsplit : forall ids, (forall x, x ∈ ids -> x ∈ g_nodes g) ->
    (forall u, u ∈ ids -> p_has_node p u = true \/ g_neighbors g u = Ok []) \/
    exists pre v post w rest, ids = pre ++ v :: post /\
      (forall u, u ∈ pre -> p_has_node p u = true \/ g_neighbors g u = Ok []) /\
      p_has_node p v = false /\ g_neighbors g v = Ok (w :: rest)).
  { induction ids as [|x ids IH]; intros Hin; [left; intros u Hu; by apply elem_of_nil in Hu|].
    assert (Hx : x ∈ g_nodes g) by (apply Hin; left).
    assert (Hcase : (p_has_node p x = true \/ g_neighbors g x = Ok []) \/
      exists w rest, p_has_node p x = false /\ g_neighbors g x = Ok (w :: rest)).
    { destruct (p_has_node p x); [by left; left|].
      destruct (law_neighbors g Hg x Hx) as ([|w rest] & Hl & _); [by left; right|]. right. by exists w, rest. }
    destruct Hcase as [Hc|(w & rest & H1 & H2)].
    - destruct IH as [IH|(pre & v & post & w & rest & -> & H1 & H2 & H3)]; [intros; apply Hin; by right| |].
      + left. intros u [->|?]%elem_of_cons; auto.
      + right. exists (x :: pre), v, post, w, rest. split_and!; [done| |done|done].
        intros u [->|?]%elem_of_cons; auto.
    - right. exists [], x, ids, w, rest. split_and!; [done| |done|done].
      intros u Hu. by apply elem_of_nil in Hu. }
  destruct (Hsplit (g_nodes g)) as [H|(pre & v & post & w & rest & Hn & H1 & H2 & H3)]; [done| |].
  - left. split.
    + apply C91_nothing_to_do; [done|done|]. intros u w Hpu (l & Hl & Hw). exfalso. destruct (H u) as [?|Hu].
      * eapply (law_adj_node g Hg w). apply (law_adj_sym g Hg). by exists l.
      * congruence.
      * rewrite Hu in Hl. injection Hl as <-. by apply elem_of_nil in Hw.
    + intros u v (l & Hl & Hv). destruct (H u) as [?|Hu]; [|done|].
      * eapply (law_adj_node g Hg v). apply (law_adj_sym g Hg). by exists l.
      * rewrite Hu in Hl. injection Hl as <-. by apply elem_of_nil in Hv.
  - right. assert (Hvw : adj g v w) by (exists (w :: rest); split; [done|left]).
    exists v, w. split_and!; [done|done|by eapply Hadj|].
    eapply C91_self_pair_panics; [done|done|done|done|done|done|done|by eapply Hadj].
Qed.
Print Assumptions C91_self_paired_neighbors.

(** A node without neighbors, a pair, and nodes 2 and 3 paired with themselves:
    the triangle 2-3-4 makes the call panic, with 4 paired too it returns. *)
Definition selfies : DefaultGraph := get (dg_try_from_adjacency [[]; [5]; [3; 4]; [2; 4]; [2; 3]; [1]]%N).
Lemma selfies_api : Api selfies. Proof. apply get_rows_api; is_ok. Qed.

Lemma self_pairs_mutual pairs : forallb (fun e => bool_decide (p_mate (pair_all pairs) e.2 = Ok e.1))
  (map_to_list (pair_all pairs)) = true -> mutual (pair_all pairs).
Proof.
  intros H x y Hx. rewrite forallb_forall in H. specialize (H (x, y)).
  assert (Hi : In (x, y) (map_to_list (pair_all pairs))) by (by apply elem_of_list_In, elem_of_map_to_list).
  apply H, bool_decide_eq_true_1 in Hi. cbn in Hi. unfold p_mate in Hi.
  destruct (pair_all pairs !! y); by simplify_eq.
Qed.

Example C91_case iter (Hit : hash_order_ok iter) :
  let g := as_graph selfies in
  let p := pair_all [(2, 2); (1, 5); (3, 3)]%N in
  let p' := pair_all [(2, 2); (1, 5); (3, 3); (4, 4)]%N in
  Lawful g /\ mutual p /\ mutual p' /\
  matching_run iter g p (Panic (PForestDuplicate 2)) /\ matching_run iter g p' (Ok p').
Proof.
  intros g p p'. assert (Hg : Lawful g) by apply api_lawful, selfies_api.
  assert (Hp : mutual p) by (apply self_pairs_mutual; vm_compute; reflexivity).
  assert (Hp' : mutual p') by (apply self_pairs_mutual; vm_compute; reflexivity).
  split_and!; [done|done|done| |].
  - apply (C91_self_pair_panics g Hg iter Hit p Hp [0; 1; 2; 3]%N 4%N [5]%N 2%N [3]%N);
      try (vm_compute; reflexivity).
    intros u Hu. set_unfold. destruct Hu as [->|[->|[->|[->|[]]]]]; [right|left|left|left]; vm_compute; reflexivity.
  - apply C91_nothing_to_do; [done|done|]. intros u w Hpu Huw.
    assert (Hu : u ∈ g_nodes g) by (apply (law_adj_node g Hg w), (law_adj_sym g Hg), Huw).
    assert (E : g_nodes g = [0; 1; 2; 3; 4; 5]%N) by (vm_compute; reflexivity). rewrite E in Hu. set_unfold.
    destruct Hu as [->|[->|[->|[->|[->|[->|[]]]]]]]; [|exfalso; vm_compute in Hpu; done..].
    destruct Huw as (l & Hl & Hw). assert (Hl' : g_neighbors g 0 = Ok []) by (vm_compute; reflexivity).
    rewrite Hl' in Hl. injection Hl as <-. by apply elem_of_nil in Hw.
Qed.

(** Mates that are not mutual: after pair(x,x), pair(x,y) the node y has the
    unpaired x as its mate.  On the edge 1-2 this makes the call panic if x is 1,
    and return with 2 still unpaired if x is 2. *)
Definition one_edge : DefaultGraph := get (dg_try_from_edges [(1, 2)]%N).
Lemma one_edge_api : Api one_edge. Proof. apply get_edges_api; is_ok. Qed.

Example C91_one_sided_case iter (Hit : hash_order_ok iter) :
  let g := as_graph one_edge in
  let p := pair_all [(1, 1); (1, 2)]%N in
  let p' := pair_all [(2, 2); (2, 1)]%N in
  Lawful g /\ p_has_node p 1 = false /\ p_mate p 2 = Ok 1%N /\ p_has_node p' 2 = false /\ p_mate p' 1 = Ok 2%N /\
  matching_run iter g p (Panic (PForestDuplicate 1)) /\ matching_run iter g p' (Ok p').
Proof.
  intros g p p'. assert (Hg : Lawful g) by apply api_lawful, one_edge_api.
  split_and!; [done|vm_compute; reflexivity..| |].
  - apply (C91_bad_mate_panics g Hg iter Hit p [] 1%N [2]%N [] 2%N [] 1%N); try (vm_compute; reflexivity).
    + intros u Hu. by apply elem_of_nil in Hu.
    + intros u Hu. by apply elem_of_nil in Hu.
    + intros [? _]. lia.
    + right. split; [|vm_compute; reflexivity]. replace (g_nodes g) with [1; 2]%N by (vm_compute; reflexivity). left.
  - apply C91_nothing_to_do; [done|done|]. intros u w Hpu Huw.
    assert (Hu : u ∈ g_nodes g) by (apply (law_adj_node g Hg w), (law_adj_sym g Hg), Huw).
    assert (E : g_nodes g = [1; 2]%N) by (vm_compute; reflexivity). rewrite E in Hu. set_unfold.
    destruct Hu as [->|[->|[]]]; [exfalso; vm_compute in Hpu; done|].
    destruct Huw as (l & Hl & Hw). assert (Hl' : g_neighbors g 2 = Ok [1]%N) by (vm_compute; reflexivity).
    rewrite Hl' in Hl. injection Hl as <-. apply elem_of_list_singleton in Hw as ->.
    split; [lia|vm_compute; reflexivity].
Qed.

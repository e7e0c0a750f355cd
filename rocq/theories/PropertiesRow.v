(** Property C89: graphs whose nodes are listed along a path (in_a_row,
    SpecRow.v): the depth-first traversal in closed form, what [components] and
    [greedy] make of them, and [greedy] on complete graphs. *)
From Verif Require Import Outcome GraphModel TraversalModel ComponentsModel PairingModel GreedyModel
  Spec MaximumModel SpecSearch SpecRow GraphProofs Checks EditProofs ConvertProofs EqProofs TraversalProofs BfsProofs DfsProofs
  PathLemmas AcyclicProofs CycleProofs NarrowProofs ComponentsProofs PairingProofs GreedyProofs SearchProofs TextbookProofs
  MemoryProofs MatchTheory MaximumProofs RowProofs PropertiesTraversal PropertiesSelection PropertiesDescent PropertiesReplay PropertiesMatching PropertiesCliques.

(** The traversal from the first node has these steps ... *)
Theorem C89_depth_first g (Hg : Lawful g) (Hrow : in_a_row g) r steps :
  head (g_nodes g) = Some r ->
  depth_first g r steps <-> steps = row_steps g [] (g_nodes g).
Proof.
  intros Hh. destruct (g_nodes g) as [|x todo] eqn:Hn; [done|]. injection Hh as ->.
  pose proof (row_depth_first g Hg r todo Hrow Hn) as Hd. split; [|by intros ->].
  intros Hs. by eapply depth_first_fun.
Qed.
Print Assumptions C89_depth_first.

(** ... which visit the nodes in the order listed and cross every edge, once. *)
Theorem C89_all_crossed g (Hg : Lawful g) (Hrow : in_a_row g) r steps :
  head (g_nodes g) = Some r -> depth_first g r steps ->
  discovered r steps = g_nodes g /\
  (forall u v, adj g u v <-> (u, v) ∈ crossed steps \/ (v, u) ∈ crossed steps) /\
  distinct_edges (crossed steps).
Proof.
  intros Hh Hs. pose proof (proj1 (C89_depth_first g Hg Hrow r steps Hh) Hs) as Heq.
  destruct (g_nodes g) as [|x todo] eqn:Hn; [done|]. injection Hh as ->.
  split; [rewrite Heq; apply row_discovered|]. split.
  - intros u v. split.
    + rewrite Heq. by apply (row_all_crossed g Hg r todo Hrow Hn).
    + destruct (C23_depth_first_sound g Hg r steps Hs) as (Hsound & _).
      assert (Hin : forall a b, (a, b) ∈ crossed steps -> adj g a b).
      { intros a b (s & [= -> ->] & Hsin)%elem_of_list_fmap. by apply Hsound. }
      intros [H|H]; [by apply Hin|]. apply (law_adj_sym g Hg). by apply Hin.
  - destruct (C23_depth_first_sound g Hg r steps Hs) as (Hsound & _ & Honce).
    apply times_distinct; [|done]. intros u v (s & [= -> ->] & Hin)%elem_of_list_fmap.
    intros H. apply Hsound in Hin as [Hin _]. rewrite H in Hin. by apply Hrow in Hin.
Qed.
Print Assumptions C89_all_crossed.

(** [components] yields one graph: the same nodes in the same order, the same
    edges, the same traversal. *)
Theorem C89_components g (Hg : Lawful g) (Hrow : in_a_row g) r ds :
  head (g_nodes g) = Some r -> components_are g ds ->
  exists d, ds = [d] /\ g_nodes (as_graph d) = g_nodes g /\
    (forall u v, adj (as_graph d) u v <-> adj g u v) /\
    depth_first (as_graph d) r (row_steps g [] (g_nodes g)).
Proof.
  intros Hh Hds. pose proof (proj1 Hrow) as Hl.
  pose proof (proj2 (C89_depth_first g Hg Hrow r _ Hh) eq_refl) as Hs.
  destruct (C89_all_crossed g Hg Hrow r _ Hh Hs) as (Hdisc & Hcr & _).
  assert (Hr : r ∈ g_nodes g) by (destruct (g_nodes g); [done|injection Hh as ->; left]).
  pose proof (C63_components_roots g Hg ds Hds) as Hroots.
  destruct (components_general g Hg Hl) as (ds' & Hds' & Hsub & Hcov).
  assert (ds' = ds) as ->.
  { destruct Hds as [n Hn], Hds' as [n' Hn']. specialize (Hn (n + n') ltac:(lia)). specialize (Hn' (n + n') ltac:(lia)).
    rewrite Hn in Hn'. by injection Hn'. }
  destruct ds as [|d ds]; [by destruct (Hcov r Hr) as (d & ?%elem_of_nil & _)|].
  destruct (Hroots 0 d eq_refl) as (before & r' & after & steps & Hn & Hb & _ & Hs' & Hobs).
  assert (before = []) as ->.
  { destruct before as [|x before]; [done|]. destruct (Hb x ltac:(left)) as (j & d' & Hj & _). lia. }
  assert (r' = r) as -> by (rewrite Hn in Hh; by injection Hh).
  pose proof (depth_first_fun _ _ _ _ Hs Hs') as <-. clear Hs'.
  assert (Hnd : g_nodes (as_graph d) = g_nodes g) by (rewrite <-Hdisc; apply Hobs).
  assert (ds = []) as ->.
  { destruct ds as [|d2 ds]; [done|]. exfalso.
    destruct (Hroots 1 d2 eq_refl) as (b2 & r2 & a2 & s2 & Hn2 & _ & H2 & _).
    apply (H2 0 d ltac:(lia) eq_refl). rewrite Hnd, Hn2, elem_of_app, elem_of_cons. tauto. }
  exists d. split; [done|]. split; [done|]. split.
  - intros u v. rewrite Hcr. destruct Hobs as (_ & _ & _ & _ & _ & _ & Hnb & _).
    split.
    + intros Huv. apply Hcr. by apply (Hsub d ltac:(left)).
    + intros Huv. assert (Hu : u ∈ g_nodes g).
      { apply Hcr in Huv. by eapply lawful_adj_l. }
      exists (a_neighbors (mkA (discovered r (row_steps g [] (g_nodes g))) (crossed (row_steps g [] (g_nodes g)))) u).
      split.
      * rewrite Hnb. rewrite bool_decide_eq_true_2; [done|]. cbn [a_nodes]. by rewrite Hdisc.
      * unfold a_neighbors. cbn [a_edges]. apply elem_of_list_bind.
        destruct Huv as [Huv|Huv]; (eexists; split; [|exact Huv]); cbn [fst snd];
          rewrite elem_of_app, (bool_decide_eq_true_2 (u = u)) by done; [left|right]; left.
  - apply (C76_component_again_partial g Hg Hl [d] d r _ Hds); [left|by rewrite Hnd|done|].
    intros u v _ Huv. by apply Hcr.
Qed.
Print Assumptions C89_components.

(** [greedy]: only neighbors in the order of the nodes are paired, and [u] with
    the next node [w] exactly if [u] is not paired with the node before it and
    has no other earlier neighbor. *)
Theorem C89_greedy g (Hg : Lawful g) (Hrow : in_a_row g) p : greedy_is g p ->
  (forall u v, p !! u = Some v -> exists S T, g_nodes g = S ++ u :: v :: T \/ g_nodes g = S ++ v :: u :: T) /\
  (forall S u w T, g_nodes g = S ++ u :: w :: T ->
     (p !! u = Some w <->
       (forall x, x ∈ S -> adj g u x -> last S = Some x) /\ (forall x, last S = Some x -> p !! x <> Some u))).
Proof.
  intros Hp. pose proof (proj1 Hrow) as Hl.
  destruct (C36_greedy_valid g Hg Hl) as (p' & Hp' & [Hsym _] & _).
  assert (p' = p) as ->.
  { destruct Hp as [n Hn], Hp' as [n' Hn']. specialize (Hn (n + n') ltac:(lia)). specialize (Hn' (n + n') ltac:(lia)).
    rewrite Hn in Hn'. by injection Hn'. }
  destruct (C29_components_total g Hg Hl) as (ds & Hds & _ & Hcov).
  destruct (C64_greedy_rule g Hg Hl p ds Hp Hds) as (runs & Hruns & Hrule).
  assert (Hrule' : forall u v, p !! u = Some v <-> taken (row_steps g [] (g_nodes g)) p u v).
  { destruct (head (g_nodes g)) as [r|] eqn:Hh.
    - destruct (C89_components g Hg Hrow r ds Hh Hds) as (d & -> & Hnd & _ & Hd).
      apply Forall2_cons_inv_l in Hruns as (steps & runs' & (r' & Hh' & Hs) & Hnil & ->).
      apply Forall2_nil_inv_l in Hnil as ->. rewrite Hnd, Hh in Hh'. injection Hh' as <-.
      rewrite (depth_first_fun _ _ _ _ Hs Hd) in Hrule. cbn [concat] in Hrule. by rewrite app_nil_r in Hrule.
    - destruct ds as [|d ds].
      + apply Forall2_nil_inv_l in Hruns as ->. destruct (g_nodes g); [exact Hrule|discriminate Hh].
      + exfalso. destruct (g_nodes g) eqn:Hn; [|done].
        destruct (C29_components_total g Hg Hl) as (ds' & Hds' & Hsub & _).
        assert (ds' = d :: ds) as ->.
        { destruct Hds as [n Hm], Hds' as [n' Hm']. specialize (Hm (n + n') ltac:(lia)). specialize (Hm' (n + n') ltac:(lia)).
          rewrite Hm in Hm'. by injection Hm'. }
        destruct (Hsub d ltac:(left)) as (Hne & Hin & _). destruct (g_nodes (as_graph d)) as [|x l]; [done|].
        specialize (Hin x ltac:(left)). rewrite Hn in Hin. by apply elem_of_nil in Hin. }
  split.
  - intros u v. by apply (row_pairs_consecutive g p (g_nodes g) Hrule').
  - intros S u w T Hn. apply (row_pair g p (g_nodes g) (law_nodes g Hg) Hrule' S u w T Hn Hl); [|done].
    intros l Hnl. eapply nodup_sub; [by apply (proj2 (proj2 Hrow) u)|apply Hg].
Qed.
Print Assumptions C89_greedy.

(** On a complete graph of two or more nodes with its neighbors listed in the
    order of the nodes, [greedy] pairs the first two nodes and no others. *)
Theorem C89_complete_one_pair g (Hg : Lawful g) (Hl : LoopFree g) a b rest p :
  (forall u v, u ∈ g_nodes g -> v ∈ g_nodes g -> u <> v -> adj g u v) ->
  (forall v l, g_neighbors g v = Ok l -> l `sublist_of` g_nodes g) ->
  g_nodes g = a :: b :: rest -> greedy_is g p -> p = pair_all [(a, b)].
Proof.
  intros Hc Hsub Hn Hp. pose proof (law_nodes g Hg) as Hnd.
  assert (Hrow : in_a_row g).
  { split; [done|]. split; [|done]. intros i u v Hu Hv. apply Hc; [by eapply elem_of_list_lookup_2..|].
    intros ->. pose proof (NoDup_lookup _ _ _ _ Hnd Hu Hv). lia. }
  destruct (C89_greedy g Hg Hrow p Hp) as [Hcons Hpair].
  destruct (C36_greedy_valid g Hg Hl) as (p' & Hp' & [Hsym _] & _).
  assert (p' = p) as ->.
  { destruct Hp as [n Hm], Hp' as [n' Hm']. specialize (Hm (n + n') ltac:(lia)). specialize (Hm' (n + n') ltac:(lia)).
    rewrite Hm in Hm'. by injection Hm'. }
  assert (Hab : p !! a = Some b).
  { apply (Hpair [] a b rest Hn). split; [by intros x ?%elem_of_nil|done]. }
  (* of two consecutive nodes only the first two are paired *)
  assert (Hone : forall S u w T, g_nodes g = S ++ u :: w :: T -> p !! u = Some w -> u = a /\ w = b).
  { intros S u w T HS Huw. apply (Hpair S u w T HS) in Huw as [H1 H2].
    rewrite Hn in HS. destruct S as [|x S].
    { injection HS as -> ->. done. }
    exfalso. injection HS as <- HS. destruct S as [|y S].
    { injection HS as <- HS. by apply (H2 a eq_refl). }
    injection HS as <- HS.
    assert (Hau : adj g u a).
    { rewrite Hn, HS in *. apply Hc; rewrite ?elem_of_cons, ?elem_of_app, ?elem_of_cons; try tauto.
      intros ->. apply NoDup_cons in Hnd as [Hnd _]. apply Hnd. rewrite elem_of_cons, elem_of_app, elem_of_cons. tauto. }
    specialize (H1 a ltac:(left) Hau). rewrite Hn in Hnd. apply NoDup_cons in Hnd as [Hnd _]. apply Hnd.
    change (last (b :: S) = Some a) in H1. apply last_Some in H1 as (l & Hl'). rewrite HS.
    rewrite app_comm_cons, Hl', !elem_of_app. left. right. left. }
  assert (Hne : a <> b).
  { intros ->. rewrite Hn in Hnd. apply NoDup_cons in Hnd as [Hnd _]. apply Hnd. left. }
  assert (Hpa : pair_all [(a, b)] = <[b := a]> (<[a := b]> p_new)).
  { unfold pair_all, p_pair, p_insert, p_new. cbn [foldl fst snd].
    rewrite lookup_empty, lookup_insert_ne, lookup_empty by done. done. }
  rewrite Hpa. apply map_eq. intros u.
  destruct (decide (u = b)) as [->|Hub]; [|destruct (decide (u = a)) as [->|Hua]].
  - rewrite lookup_insert. by apply Hsym.
  - by rewrite lookup_insert_ne, lookup_insert.
  - rewrite !lookup_insert_ne by done. unfold p_new. rewrite lookup_empty.
    destruct (p !! u) as [v|] eqn:Huv; [|done]. exfalso.
    destruct (Hcons u v Huv) as (S & T & [HS|HS]).
    + by destruct (Hone S u v T HS Huv) as [? _].
    + apply Hsym in Huv as [Hvu _]. by destruct (Hone S v u T HS Hvu) as [_ ?].
Qed.
Print Assumptions C89_complete_one_pair.

(** maximum_matching then makes all pairs but this one. *)
Theorem C89_complete_rounds g (Hg : Lawful g) (Hl : LoopFree g) a b rest iter (Hit : hash_order_ok iter) :
  (forall u v, u ∈ g_nodes g -> v ∈ g_nodes g -> u <> v -> adj g u v) ->
  (forall v l, g_neighbors g v = Ok l -> l `sublist_of` g_nodes g) ->
  g_nodes g = a :: b :: rest -> id_room g ->
  exists p paths q, greedy_is g p /\ matching_run iter g p (Ok q) /\ augmentations iter g p paths q /\
    length paths = length (g_nodes g) / 2 - 1.
Proof.
  intros Hc Hsub Hn Hroom.
  destruct (C36_greedy_valid g Hg Hl) as (p & Hp & Hpg & _).
  pose proof (C89_complete_one_pair g Hg Hl a b rest p Hc Hsub Hn Hp) as Heq.
  destruct (C61_cliques_total g Hg iter Hit p Hpg) as (paths & q & Hrun & Haug & _ & Hord & _); [|done|].
  { intros u v w Huv Hvw Huw. apply Hc; [|by eapply law_adj_node, Hvw|done].
    by eapply law_adj_node, law_adj_sym, Huv. }
  destruct (C61_complete g Hg iter Hit p Hpg Hc Hroom) as (q' & Hrun' & Hord').
  assert (q' = q) as -> by (pose proof (run_det _ _ _ _ _ Hrun Hrun') as H; by injection H).
  exists p, paths, q. split_and!; try done.
  assert (Hne : a <> b).
  { intros ->. pose proof (law_nodes g Hg) as Hnd. rewrite Hn in Hnd. apply NoDup_cons in Hnd as [Hnd _]. apply Hnd. left. }
  assert (Hsz : p_order p = 2).
  { rewrite Heq. unfold p_order, pair_all, p_pair, p_insert, p_new. cbn [foldl fst snd].
    rewrite lookup_empty, lookup_insert_ne, lookup_empty by done.
    rewrite map_size_insert_None by (by rewrite lookup_insert_ne, lookup_empty).
    by rewrite map_size_insert_None, map_size_empty by (by rewrite lookup_empty). }
  lia.
Qed.
Print Assumptions C89_complete_rounds.

(** ** Cases *)
Definition in_a_row_b (d : DefaultGraph) : bool :=
  loop_free_b d &&
  forallb (fun i => match dg_nodes d !! i, dg_nodes d !! S i with
                    | Some a, Some b => bool_decide (b ∈ row d a) | _, _ => true end) (seq 0 (length (dg_nodes d))) &&
  forallb (fun v => bool_decide (row d v = filter (fun u => u ∈ row d v) (dg_nodes d))) (dg_nodes d).

Lemma in_a_row_check d : Api d -> in_a_row_b d = true -> in_a_row (as_graph d).
Proof.
  intros Ha H. unfold in_a_row_b in H. apply andb_true_iff in H as [H H3]. apply andb_true_iff in H as [H1 H2].
  pose proof (wf_idx d (api_wf d Ha)) as Hi. split; [by apply loop_free_check|]. split.
  - intros i a b Hia Hib. change (g_nodes (as_graph d)) with (dg_nodes d) in *. apply adj_row; [done|].
    rewrite forallb_forall in H2. specialize (H2 i). rewrite <-elem_of_list_In, elem_of_seq, Hia, Hib in H2.
    apply lookup_lt_Some in Hia. specialize (H2 ltac:(lia)). by apply bool_decide_eq_true_1 in H2.
  - intros v l Hl. change (g_nodes (as_graph d)) with (dg_nodes d).
    rewrite forallb_forall in H3. specialize (H3 v). rewrite <-elem_of_list_In in H3.
    destruct (decide (v ∈ dg_nodes d)) as [Hv|Hv].
    + change (dg_neighbors d v = Ok l) in Hl. rewrite (neighbors_in d Hi v Hv) in Hl. injection Hl as <-.
      specialize (H3 Hv). apply bool_decide_eq_true_1 in H3. rewrite H3. apply sublist_filter.
    + change (dg_neighbors d v = Ok l) in Hl. by rewrite (neighbors_out d Hi v Hv) in Hl.
Qed.

(** The complete graph of five nodes, and a square with one diagonal and a tail. *)
Definition k5 : DefaultGraph :=
  get (dg_try_from_adjacency [[1; 2; 3; 4]; [0; 2; 3; 4]; [0; 1; 3; 4]; [0; 1; 2; 4]; [0; 1; 2; 3]]%N).
Lemma k5_api : Api k5. Proof. apply get_rows_api; is_ok. Qed.
Example C89_complete_case : Lawful (as_graph k5) /\ in_a_row (as_graph k5) /\
  head (g_nodes (as_graph k5)) = Some 0%N /\ greedy 50 (as_graph k5) = Ok (pair_all [(0, 1)]%N).
Proof.
  split; [apply api_lawful, k5_api|]. split; [apply in_a_row_check; [apply k5_api|vm_compute; reflexivity]|].
  split; vm_compute; reflexivity.
Qed.

Definition tailed : DefaultGraph :=
  get (dg_try_from_adjacency [[1; 2; 3]; [0; 2]; [0; 1; 3]; [0; 2; 4]; [3; 5]; [4]]%N).
Lemma tailed_api : Api tailed. Proof. apply get_rows_api; is_ok. Qed.
Example C89_case : Lawful (as_graph tailed) /\ in_a_row (as_graph tailed) /\
  head (g_nodes (as_graph tailed)) = Some 0%N /\
  depth_first (as_graph tailed) 0 [mkStep 0 1 false; mkStep 1 2 false; mkStep 2 0 true; mkStep 2 3 false;
    mkStep 3 0 true; mkStep 3 4 false; mkStep 4 5 false]%N /\
  greedy 50 (as_graph tailed) = Ok (pair_all [(0, 1); (4, 5)]%N).
Proof.
  assert (Hg : Lawful (as_graph tailed)) by apply api_lawful, tailed_api.
  assert (Hr : in_a_row (as_graph tailed)) by (apply in_a_row_check; [apply tailed_api|vm_compute; reflexivity]).
  split; [done|]. split; [done|]. split; [vm_compute; reflexivity|]. split; [|vm_compute; reflexivity].
  apply (C89_depth_first _ Hg Hr); vm_compute; reflexivity.
Qed.

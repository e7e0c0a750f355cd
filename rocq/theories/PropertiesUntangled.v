(** Properties C68, C76 and C87 of graphs whose components are untangled (C88),
    which is weaker than narrow rings. *)
From Verif Require Import Outcome GraphModel TraversalModel ComponentsModel PairingModel GreedyModel
  Spec SpecTangle GraphProofs Checks ConvertProofs TraversalProofs BfsProofs
  DfsProofs PathLemmas AcyclicProofs CycleProofs NarrowProofs ComponentsProofs GreedyProofs ReplayProofs
  MaximumModel MaximumProofs OrderChecks ClassChecks TangleProofs PropertiesTraversal PropertiesSelection PropertiesAdvance PropertiesMatching
  PropertiesShared PropertiesReplay QueryModel SpecQuery PropertiesQuery PropertiesTangle.

(** Graphs whose components have narrow rings qualify. *)
Theorem C88_narrow_components g (Hg : Lawful g) : narrow_components g -> untangled_components g.
Proof.
  intros [Hl Ha]. split; [done|]. intros i r Hi Hf. apply C88_narrow; [done|]. by eapply Ha.
Qed.
Print Assumptions C88_narrow_components.

(** The graphs yielded by [components] start at nodes from which the graph is
    untangled. *)
Lemma untangled_root g (Hg : Lawful g) (Ha : untangled_components g) ds d r :
  components_are g ds -> d ∈ ds -> head (g_nodes (as_graph d)) = Some r ->
  r ∈ g_nodes g /\ untangled g r.
Proof.
  intros Hc Hd Hh.
  destruct (C30_components_untangled_partial g Hg Ha ds Hc) as (Hn & Hre & _ & _ & Hfirst).
  assert (Hrd : r ∈ g_nodes (as_graph d)).
  { destruct (g_nodes (as_graph d)) as [|x l]; [done|]. injection Hh as ->. left. }
  assert (Hr : r ∈ g_nodes g) by (rewrite <-Hn; apply elem_of_list_bind; by exists d).
  split; [done|]. apply elem_of_list_lookup in Hr as [i Hi]. destruct Ha as [Hl Ha].
  apply (Ha i r Hi). intros j v Hj Hv Hrv.
  apply (Hre d r v Hd Hrd) in Hrv. specialize (Hfirst d r i j v Hd Hh Hi Hv Hrv). lia.
Qed.

Lemma untangled_all_crossed g r steps : Lawful g -> LoopFree g -> untangled g r -> depth_first g r steps ->
  forall u v, reachable g r u -> adj g u v -> (u, v) ∈ crossed steps \/ (v, u) ∈ crossed steps.
Proof.
  intros Hg Hl Hu Hd u v Hru Huv.
  destruct (C24_depth_first_untangled_partial g Hg Hl r Hu steps Hd) as (_ & H2).
  specialize (H2 u v Hru Huv).
  assert (Hpos : 0 < times_crossed (u, v) (crossed steps)) by lia.
  apply times_crossed_pos in Hpos as ([a b] & Hin & [[= -> ->]|[= -> ->]]); auto.
Qed.

(** ** C76: the traversal is repeated by the graph made from it *)
Theorem C76_replay_untangled g (Hg : Lawful g) (Hl : LoopFree g) r (Hu : untangled g r) steps d :
  depth_first g r steps -> steps <> [] -> dfs_graph g r d ->
  depth_first (as_graph d) r steps /\ dfs_graph (as_graph d) r d.
Proof.
  intros Hd Hne Hdg. apply (C76_replay_partial g Hg Hl r steps d Hd Hne Hdg).
  by apply untangled_all_crossed.
Qed.
Print Assumptions C76_replay_untangled.

Theorem C76_components_again_untangled g (Hg : Lawful g) (Ha : untangled_components g) ds :
  components_are g ds -> forall d, d ∈ ds -> components_are (as_graph d) [d].
Proof.
  intros Hc d Hd. destruct (C30_components_untangled_partial g Hg Ha ds Hc) as (_ & _ & _ & (roots & Hroots & _) & _).
  assert (Hh : exists r, head (g_nodes (as_graph d)) = Some r).
  { apply elem_of_list_lookup in Hd as [i Hi].
    assert (H : ((fun d => head (g_nodes (as_graph d))) <$> ds) !! i = Some (head (g_nodes (as_graph d)))).
    { by rewrite list_lookup_fmap, Hi. }
    rewrite Hroots, list_lookup_fmap in H. destruct (roots !! i) as [r|]; [|done]. injection H as H. by exists r. }
  destruct Hh as (r & Hh). destruct (untangled_root g Hg Ha ds d r Hc Hd Hh) as [Hr Hu].
  destruct (dfs_total g r Hg Hr) as (steps & Hs).
  destruct (C76_component_again_partial g Hg (proj1 Ha) ds d r steps Hc Hd Hh Hs) as [_ H]; [|done].
  apply untangled_all_crossed; try done. apply Ha.
Qed.
Print Assumptions C76_components_again_untangled.

Theorem C76_greedy_order_untangled g (Hg : Lawful g) (Ha : untangled_components g) p ds :
  greedy_is g p -> components_are g ds ->
  exists runs, Forall2 (fun d steps => exists r, head (g_nodes (as_graph d)) = Some r /\
      depth_first g r steps) ds runs /\
    forall u v, p !! u = Some v <-> u <> v /\ taken (concat runs) p u v.
Proof.
  intros Hp Hc. destruct (C64_greedy_rule_self_loops g Hg p ds Hp Hc) as (runs & H1 & H2).
  exists runs. split; [|done].
  clear H2. assert (Hgen : forall ds', (forall d, d ∈ ds' -> d ∈ ds) -> forall runs',
    Forall2 (fun d steps => exists r, head (g_nodes (as_graph d)) = Some r /\ depth_first (as_graph d) r steps) ds' runs' ->
    Forall2 (fun d steps => exists r, head (g_nodes (as_graph d)) = Some r /\ depth_first g r steps) ds' runs').
  2:{ by apply (Hgen ds). }
  intros ds' Hsub runs' H. induction H as [|d steps ds' runs' (r & Hh & Hs) _ IH]; constructor.
  - exists r. split; [done|].
    assert (Hd : d ∈ ds) by (apply Hsub; left).
    destruct (untangled_root g Hg Ha ds d r Hc Hd Hh) as [Hr Hu].
    destruct (dfs_total g r Hg Hr) as (steps' & Hs').
    destruct (component_again g ds d r steps' Hg (proj1 Ha) Hc Hd Hh Hs') as [Hs2 _].
    { intros a b. apply (untangled_all_crossed g r steps'); try done. apply Ha. }
    by rewrite (depth_first_fun _ _ _ _ Hs Hs2).
  - apply IH. intros d' Hd'. apply Hsub. by right.
Qed.
Print Assumptions C76_greedy_order_untangled.

(** ** C87: each node is asked for once *)
Theorem C87_components_once_untangled g (Hg : Lawful g) (Ha : untangled_components g) :
  exists qs, components_ask g qs /\ greedy_asked g qs /\ qs ≡ₚ g_nodes g.
Proof.
  destruct (C29_components_total g Hg (proj1 Ha)) as (ds & Hds & _).
  destruct (C36_greedy_valid g Hg (proj1 Ha)) as (p & Hp & _).
  destruct (C87_components_asks g Hg ds Hds) as [H1 H2]. eexists. split_and!; [exact H1|by apply (H2 p)|].
  apply (C30_components_untangled_partial g Hg Ha ds Hds).
Qed.
Print Assumptions C87_components_once_untangled.

(** ** C68: one pairing shared by the components *)
Theorem C68_components_untangled_partial g (Hg : Lawful g) (Ha : untangled_components g) ds q :
  components_are g ds ->
  ids_spaced (as_graph <$> ds) \/ (forall c, ~ odd_cycle g c) ->
  matching_each (as_graph <$> ds) p_new q ->
  pairing_of g q /\ forall M, listed_edges q M -> maximum g M.
Proof.
  intros Hds. destruct (C30_components_untangled_partial g Hg Ha ds Hds) as (Hn & _ & Hadj & _).
  by apply components_shared.
Qed.
Print Assumptions C68_components_untangled_partial.

(** The triangle with two pendant nodes at 1, whose rings are not narrow. *)
Example C88_components_case : Lawful (as_graph gem) /\ untangled_components (as_graph gem) /\
  ~ narrow_components (as_graph gem) /\ odd_cycle (as_graph gem) [0; 1; 2]%N /\
  exists d q, components_are (as_graph gem) [d] /\ ids_spaced [as_graph d] /\
  matching_each [as_graph d] p_new q /\ q = pair_all [(0, 2); (1, 3)]%N.
Proof.
  pose proof (api_lawful _ gem_api) as Hg. pose proof C30_untangled_case as Ha.
  assert (Hodd : odd_cycle (as_graph gem) [0; 1; 2]%N).
  { split; [repeat constructor; set_solver|]. split; [done|]. split.
    - intros [|[|[|i]]] a b Hu Hv; simpl in *; try done; injection Hu as <-; injection Hv as <-; adj_now.
    - intros a b [= <-] [= <-]. adj_now. }
  split; [done|]. split; [done|]. split.
  { intros [_ Hn]. specialize (Hn 0 0%N eq_refl ltac:(intros; lia)).
    destruct C88_case as (_ & _ & _ & _ & Hnot & _). contradiction. }
  split; [done|].
  destruct (comps_run (as_graph gem) Hg (proj1 Ha) ∅ (g_nodes (as_graph gem)) ltac:(done))
    as (ds & _ & Hf).
  assert (Hds : components_are (as_graph gem) ds).
  { eexists. intros fuel Hfuel. apply Hf. exact Hfuel. }
  pose proof (Hf 50 ltac:(vm_compute; lia)) as H50. vm_compute in H50. injection H50 as <-.
  eexists _, _. split; [exact Hds|]. split; [|split; [|reflexivity]].
  { intros [|i] [|j] h h' Hij Hi Hj; [lia|destruct j; done|destruct i; done|destruct i; done]. }
  pose proof canon_ok as Hit.
  apply (each_cons canon _ _ _ (pair_all [(0, 2); (1, 3)]%N)); [done|a_shared_result|].
  constructor.
Qed.

(** Property C37 beyond trees and rings: which edges [greedy] can leave uncovered. *)
From Verif Require Import Outcome GraphModel TraversalModel ComponentsModel PairingModel GreedyModel
  Spec SpecTangle SpecClosing GraphProofs Checks ConvertProofs TraversalProofs BfsProofs
  DfsProofs PathLemmas AcyclicProofs CycleProofs NarrowProofs ComponentsProofs PairingProofs GreedyProofs ReplayProofs
  TangleProofs ClosingProofs PropertiesTraversal PropertiesSelection PropertiesTangle PropertiesUntangled.

Lemma bind_nodup_index {A} (f : A -> list N) (l : list A) i j a b x : NoDup (l ≫= f) ->
  l !! i = Some a -> l !! j = Some b -> x ∈ f a -> x ∈ f b -> i = j.
Proof.
  revert i j. induction l as [|c l IH]; intros i j Hnd Hi Hj Ha Hb; [done|].
  rewrite bind_cons in Hnd. apply NoDup_app in Hnd as (_ & Hdis & Hnd).
  destruct i as [|i], j as [|j]; simpl in *; [done| | |by f_equal; apply (IH i j)]; exfalso.
  - injection Hi as ->. apply (Hdis x Ha). apply elem_of_list_bind. exists b.
    split; [done|by eapply elem_of_list_lookup_2].
  - injection Hj as ->. apply (Hdis x Hb). apply elem_of_list_bind. exists a.
    split; [done|by eapply elem_of_list_lookup_2].
Qed.

(** In an untangled graph, an edge that [greedy] leaves uncovered has an end
    that the traversal of its component leaves by a cut step; more exactly, the
    traversal crosses the edge from such an end. *)
Theorem C37_uncovered_edge g (Hg : Lawful g) (Ha : untangled_components g) p ds :
  greedy_is g p -> components_are g ds ->
  forall u v, adj g u v -> p !! u = None -> p !! v = None ->
    exists d r steps, d ∈ ds /\ head (g_nodes (as_graph d)) = Some r /\ depth_first g r steps /\
      ((u, v) ∈ crossed steps /\ leaves_by_cut steps u \/
       (v, u) ∈ crossed steps /\ leaves_by_cut steps v) /\
      (forall x, reachable g r x -> p !! x = None -> (exists s, s ∈ steps /\ sid s = x) -> leaves_by_cut steps x).
Proof.
  intros Hp Hc u v Huv Hpu Hpv. pose proof (proj1 Ha) as Hl.
  destruct (C76_greedy_order_untangled g Hg Ha p ds Hp Hc) as (runs & Hruns & Hrule).
  assert (Hsym : symmetric_pairing p).
  { destruct (C36_greedy_valid g Hg Hl) as (p' & [n' Hp'] & [Hs _] & _). destruct Hp as [n Hp].
    specialize (Hp (n + n') ltac:(lia)). specialize (Hp' (n + n') ltac:(lia)).
    rewrite Hp in Hp'. by injection Hp' as ->. }
  destruct (C30_components_untangled_partial g Hg Ha ds Hc) as (Hn & Hre & _).
  assert (Hu : u ∈ g_nodes g) by (by eapply lawful_adj_l).
  assert (Hud : u ∈ ds ≫= fun d => g_nodes (as_graph d)) by (by rewrite Hn).
  apply elem_of_list_bind in Hud as (d & Hud & Hd).
  apply elem_of_list_lookup in Hd as [i Hi].
  destruct (Forall2_lookup_l _ _ _ _ _ Hruns Hi) as (steps & Hsi & r & Hh & Hs).
  assert (Hd : d ∈ ds) by (by eapply elem_of_list_lookup_2).
  assert (Hrd : r ∈ g_nodes (as_graph d)).
  { destruct (g_nodes (as_graph d)) as [|x l]; [done|]. injection Hh as ->. left. }
  destruct (untangled_root g Hg Ha ds d r Hc Hd Hh) as [Hr Hur].
  assert (Hru : reachable g r u) by (by apply (Hre d r u)).
  exists d, r, steps. split; [done|]. split; [done|]. split; [done|].
  assert (Hall : forall x, reachable g r x -> p !! x = None -> (exists s, s ∈ steps /\ sid s = x) -> leaves_by_cut steps x).
  { intros x Hrx Hpx (s & Hsin & Hsx).
    destruct (first_source steps s Hsin) as (pre & s1 & post & Heq & H1 & H2). rewrite Hsx in *.
    destruct (cut s1) eqn:Hcut; [by exists pre, s1, post|]. exfalso.
    destruct (C23_depth_first_sound g Hg r steps Hs) as (Hsound & _).
    destruct (Hsound s1 ltac:(rewrite Heq; set_solver)) as (Hadj & _ & Hrt). rewrite H1 in Hadj.
    pose proof (C20_depth_first_cut g Hg r steps Hs) as Hex.
    (* the target was not met before *)
    assert (Hnew : tid s1 <> r /\ forall s', s' ∈ pre -> tid s' <> tid s1).
    { destruct (Hex (length pre) s1) as [Hcx _].
      { rewrite Heq. by rewrite list_lookup_middle. }
      split.
      - intros Ht. assert (cut s1 = true); [apply Hcx; by left|congruence].
      - intros s' Hs' Ht. assert (cut s1 = true); [|congruence]. apply Hcx. right.
        apply elem_of_list_lookup in Hs' as [j Hj]. exists j, s'.
        pose proof (lookup_lt_Some _ _ _ Hj). split; [done|]. split; [|done].
        rewrite Heq. by apply lookup_app_l_Some. }
    destruct Hnew as [Hnr Hnew].
    assert (Htk : p !! x = Some (tid s1)).
    { apply Hrule. split; [intros ->; by apply Hl in Hadj|].
      apply elem_of_list_split_length in Hsi as (R1 & R2 & HR & HRi).
      exists (concat R1 ++ pre), s1, (post ++ concat R2). split_and!.
      - rewrite HR, concat_app. simpl. rewrite Heq, <-!app_assoc. done.
      - left. by rewrite H1.
      - intros s' [Hs'|Hs']%elem_of_app.
        + (* other components do not meet this one *)
          apply elem_of_list_In, in_concat in Hs' as (run & Hrun & Hs').
          apply elem_of_list_In, elem_of_list_lookup in Hrun as [j Hj]. apply elem_of_list_In in Hs'.
          pose proof (lookup_lt_Some _ _ _ Hj) as Hlt.
          assert (Hj' : runs !! j = Some run) by (rewrite HR; by apply lookup_app_l_Some).
          destruct (Forall2_lookup_r _ _ _ _ _ Hruns Hj') as (d' & Hdj & r' & Hh' & Hs2).
          destruct (C23_depth_first_sound g Hg r' run Hs2) as (Hsound' & _).
          destruct (Hsound' s' Hs') as (_ & Hq1 & Hq2).
          assert (Hd' : d' ∈ ds) by (by eapply elem_of_list_lookup_2).
          assert (Hrd' : r' ∈ g_nodes (as_graph d')).
          { destruct (g_nodes (as_graph d')) as [|y l]; [done|]. injection Hh' as ->. left. }
          assert (Hnot : forall z, reachable g r' z -> reachable g r z -> False).
          { intros z Hz1 Hz2. assert (j = i); [|lia].
            apply (bind_nodup_index (fun d => g_nodes (as_graph d)) ds j i d' d z); try done.
            - rewrite Hn. apply Hg.
            - by apply (Hre d' r').
            - by apply (Hre d r). }
          split_and!; [intros He; rewrite He in Hq1; by apply (Hnot x)|intros He; rewrite He in Hq1; by apply (Hnot (tid s1))|].
          intros [He|He]; rewrite He in Hq2; exfalso; by eapply Hnot.
        + split_and!; [by apply H2| |].
          * intros He. pose proof Hs' as Hs2. apply elem_of_list_lookup in Hs2 as [j Hj].
            pose proof (lookup_lt_Some _ _ _ Hj) as Hlt.
            destruct (Hex j s') as [_ [Hsr|(k & s2 & Hk & Hlk & _ & Ht)]].
            { rewrite Heq. by apply lookup_app_l_Some. }
            -- congruence.
            -- rewrite Heq, lookup_app_l in Hlk by lia.
               apply (Hnew s2); [by eapply elem_of_list_lookup_2|congruence].
          * intros [He|He]; [|by apply Hnew in He]. rewrite He. intros Hm. apply Hsym in Hm as [Hm _]. congruence. }
    congruence. }
  split; [|done].
  destruct (untangled_all_crossed g r steps Hg Hl Hur Hs u v Hru Huv) as [Hin|Hin].
  - left. split; [done|]. apply Hall; [done|done|].
    apply elem_of_list_fmap in Hin as (s & [= -> ->] & Hin). by exists s.
  - right. split; [done|]. apply Hall; [by eapply rtc_r|done|].
    apply elem_of_list_fmap in Hin as (s & [= -> ->] & Hin). by exists s.
Qed.
Print Assumptions C37_uncovered_edge.

(** So the greedy pairing covers every edge, for any neighbor order, if every
    simple path that closes a ring ends there. *)
Theorem C37_greedy_maximal_closing_partial g (Hg : Lawful g) (Ha : untangled_components g) (He : components_end g) :
  exists p, greedy_is g p /\ forall M, listed_edges p M -> maximal g M.
Proof.
  pose proof (proj1 Ha) as Hl.
  destruct (C36_greedy_valid g Hg Hl) as (p & Hp & Hpo & HM). exists p. split; [done|].
  intros M HMl. pose proof HMl as (L & HL & ->). split; [by apply HM|].
  intros u v _ Huv. rewrite !(p_edges_endpoints p (proj1 Hpo) L HL).
  destruct (decide (is_Some (p !! u))) as [|Hu]; [by left|]. apply eq_None_not_Some in Hu.
  destruct (decide (is_Some (p !! v))) as [|Hv]; [by right|]. apply eq_None_not_Some in Hv. exfalso.
  destruct (C29_components_total g Hg Hl) as (ds & Hds & _).
  destruct (C37_uncovered_edge g Hg Ha p ds Hp Hds u v Huv Hu Hv) as (d & r & steps & Hd & Hh & Hs & Hor & Hall).
  destruct (untangled_root g Hg Ha ds d r Hds Hd Hh) as [Hr Hur].
  assert (Hend : rings_end g r).
  { destruct (C30_components_untangled_partial g Hg Ha ds Hds) as (_ & Hre & _ & _ & Hfirst).
    assert (Hrd : r ∈ g_nodes (as_graph d)).
    { destruct (g_nodes (as_graph d)) as [|y l]; [done|]. injection Hh as ->. left. }
    pose proof Hr as Hi. apply elem_of_list_lookup in Hi as [i Hi].
    apply (He i r Hi). intros j w Hj Hw Hrw.
    apply (Hre d r w Hd Hrd) in Hrw. specialize (Hfirst d r i j w Hd Hh Hi Hw Hrw). lia. }
  destruct (C23_depth_first_sound g Hg r steps Hs) as (Hsound & _).
  assert (Hmain : forall x y, adj g x y -> p !! x = None -> p !! y = None -> (x, y) ∈ crossed steps ->
    leaves_by_cut steps x -> False).
  { intros x y Hxy Hx Hy Hin Hcut.
    apply elem_of_list_fmap in Hin as (s & [= Hsx Hsy] & Hin).
    destruct (Hsound s Hin) as (_ & _ & Hry).
    pose proof (cut_all_ancestors g Hg Hl r Hr Hur Hend steps Hs x y Hcut Hxy) as Hanc.
    apply (not_both g Hg Hl r Hr Hur Hend steps Hs x y Hxy Hanc).
    apply Hall; [by rewrite Hsy|done|]. by eapply (child_source g Hg Hl r Hr Hur Hend steps Hs x y). }
  destruct Hor as [[Hin Hcut]|[Hin Hcut]].
  - by apply (Hmain u v).
  - apply (Hmain v u); try done. by apply law_adj_sym.
Qed.
Print Assumptions C37_greedy_maximal_closing_partial.

(** Graphs whose components are trees or rings qualify (not only these, below). *)
Theorem C37_lone_rings_close g (Hg : Lawful g) : lone_rings g -> untangled_components g /\ components_end g.
Proof.
  intros Ha. split.
  - split; [apply Ha|]. intros i r _ _. by apply narrow_untangled, lone_narrow.
  - intros i r _ _. by apply lone_rings_end.
Qed.
Print Assumptions C37_lone_rings_close.

(** Two triangles hanging from node 3, which is listed first. *)
Definition earrings : DefaultGraph :=
  get (dg_try_from_edges [(3, 0); (3, 4); (0, 1); (1, 2); (2, 0); (4, 5); (5, 6); (6, 4)]%N).
Lemma earrings_api : Api earrings. Proof. apply get_edges_api; is_ok. Qed.
Example C37_closing_case : Lawful (as_graph earrings) /\ untangled_components (as_graph earrings) /\
  components_end (as_graph earrings) /\ ~ lone_rings (as_graph earrings) /\
  greedy 50 (as_graph earrings) = Ok (pair_all [(3, 0); (1, 2); (4, 5)]%N).
Proof.
  pose proof (api_lawful _ earrings_api) as Hg.
  assert (Hl : LoopFree (as_graph earrings)) by (apply loop_free_check; [apply earrings_api|vm_compute; reflexivity]).
  assert (Hfirst : forall i r, g_nodes (as_graph earrings) !! i = Some r ->
    (forall j v, j < i -> g_nodes (as_graph earrings) !! j = Some v -> ~ reachable (as_graph earrings) r v) -> r = 3%N).
  { intros [|i] r Hi Hf; [vm_compute in Hi; by injection Hi as <-|]. exfalso.
    apply (Hf 0 3%N); [lia|done|]. apply reachable_sym; [done|].
    assert (exists steps, breadth_first (as_graph earrings) 3 steps /\
      forallb (fun v => bool_decide (v ∈ discovered 3%N steps)) (g_nodes (as_graph earrings)) = true)
      as (steps & Hb & Hall).
    { eexists. split; [run_bfs|vm_compute; reflexivity]. }
    apply (C17_breadth_first_component _ Hg 3 steps Hb).
    rewrite forallb_forall in Hall. apply (bool_decide_eq_true_1 _), Hall, elem_of_list_In.
    by eapply elem_of_list_lookup_2. }
  split; [done|]. split; [|split; [|split]].
  - split; [done|]. intros i r Hi Hf. rewrite (Hfirst i r Hi Hf).
    apply (untangled_check _ 8). vm_compute. reflexivity.
  - intros i r Hi Hf. rewrite (Hfirst i r Hi Hf).
    apply (rings_end_check _ 8); [done|]. vm_compute. reflexivity.
  - clear Hfirst Hl Hg. intros [_ Hn]. specialize (Hn 0%N 3).
    assert (H32 : 3 <= 2); [|exfalso; clear -H32; lia]. apply Hn; [clear Hn|vm_compute; reflexivity].
    exists [0; 1; 2]%N. split; [|set_solver]. split_and!.
    + simpl. lia.
    + repeat constructor; set_solver.
    + intros [|[|[|i]]] a b Hx Hy; simpl in *; try done; injection Hx as <-; injection Hy as <-; adj_now.
    + exists 0%N, 2%N. split_and!; [done|done|adj_now].
  - vm_compute. reflexivity.
Qed.

(** The graph of C37_greedy_maximal_refuted is untangled from its first node, but
    the path 0, 1, 2 closes a ring and goes on to 3. *)
Definition tailed : DefaultGraph := get (dg_try_from_adjacency [[1; 2]; [0; 2]; [1; 0; 3]; [2]]%N).
Example C37_tailed_case : LoopFree (as_graph tailed) /\ untangled (as_graph tailed) 0 /\
  ~ rings_end (as_graph tailed) 0 /\ greedy 50 (as_graph tailed) = Ok (pair_all [(0, 1)]%N).
Proof.
  assert (Ht : Api tailed) by (apply get_rows_api; is_ok).
  split; [apply loop_free_check; [done|vm_compute; reflexivity]|].
  split; [apply (untangled_check _ 6); vm_compute; reflexivity|]. split; [|vm_compute; reflexivity].
  intros He. assert (Hin : 3%N ∈ [0; 1; 2]%N); [|set_solver].
  apply (He [0; 1; 2]%N 2%N 0%N 3%N); [|repeat constructor; set_solver|done|done|adj_now|set_solver| |adj_now].
  - intros [|[|i]] a b Hx Hy; simpl in *; [..|by destruct i]; injection Hx as <-; injection Hy as <-; adj_now.
  - intros [P' HP']. change [0; 1; 2]%N with ([0] ++ [1; 2])%N in HP'. 
    apply (f_equal reverse) in HP'. rewrite !reverse_app in HP'. discriminate HP'.
Qed.

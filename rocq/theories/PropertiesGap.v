(** Property C66 beyond trees and rings: where [greedy] finds half of a maximum
    matching, and that in general it does not, not even on bipartite graphs. *)
From Verif Require Import Outcome GraphModel TraversalModel ComponentsModel PairingModel GreedyModel
  Spec MaximumModel SpecSearch SpecTangle SpecClosing GraphProofs Checks ConvertProofs TraversalProofs BfsProofs
  DfsProofs PathLemmas ComponentsProofs PairingProofs GreedyProofs MatchTheory TameProofs MaximumProofs
  TangleProofs BroomProofs BlossomProofs PropertiesTraversal PropertiesMatching PropertiesSelection PropertiesTangle PropertiesUntangled PropertiesClosing.

Lemma greedy_fun g p p' : greedy_is g p -> greedy_is g p' -> p = p'.
Proof.
  intros [n Hn] [n' Hn']. specialize (Hn (n + n') ltac:(lia)). specialize (Hn' (n + n') ltac:(lia)).
  rewrite Hn in Hn'. by injection Hn'.
Qed.

(** No matching has more than twice as many pairs as [greedy(g)] where every
    simple path that closes a ring ends there (as in C37). *)
Theorem C66_greedy_half_closing g (Hg : Lawful g) (Ha : untangled_components g) (He : components_end g) p M M' :
  greedy_is g p -> listed_edges p M -> matching g M' -> length M' <= 2 * length M.
Proof.
  intros Hp HM. destruct (C37_greedy_maximal_closing_partial g Hg Ha He) as (p' & Hp' & Hmax).
  assert (p = p') as -> by (by eapply greedy_fun). apply (maximal_half g). by apply Hmax.
Qed.
Print Assumptions C66_greedy_half_closing.

(** In general no share of a maximum matching is certain: for every [k] there is
    a bipartite graph with a matching of [k + 2] pairs of which [greedy] pairs
    two. *)
Lemma no_share k : exists d p M,
  Api d /\ LoopFree (as_graph d) /\ Bipartite (as_graph d) /\ untangled_components (as_graph d) /\
  greedy_is (as_graph d) p /\ p_order p = 4 /\
  matching (as_graph d) M /\ length M = k + 2 /\ (forall v, v ∈ g_nodes (as_graph d) -> v ∈ endpoints M).
Proof.
  destruct (proj2 (try_from_edges_ok (broom_edges k)) (broom_distinct k)) as [d Hd].
  pose proof (broom_api k d Hd) as Hapi. pose proof (api_lawful _ Hapi) as Hg.
  pose proof (broom_loop_free k d Hd) as Hl.
  assert (H00 : g_nodes (as_graph d) !! 0 = Some 0%N).
  { pose proof (broom_first k d Hd) as H. destruct (g_nodes (as_graph d)); [done|exact H]. }
  assert (Hfirst : forall i r, g_nodes (as_graph d) !! i = Some r ->
    (forall j v, j < i -> g_nodes (as_graph d) !! j = Some v -> ~ reachable (as_graph d) r v) -> r = 0%N).
  { intros [|i] r Hi Hf; [by rewrite H00 in Hi; injection Hi as <-|]. exfalso.
    apply (Hf 0 0%N); [lia|done|]. apply reachable_sym; [done|].
    apply (broom_reach k d Hd). by eapply elem_of_list_lookup_2. }
  assert (Ha : untangled_components (as_graph d)).
  { split; [done|]. intros i r Hi Hf. rewrite (Hfirst i r Hi Hf). by apply (broom_untangled k). }
  destruct (C36_greedy_valid _ Hg Hl) as (p & Hp & [Hsym _] & _).
  destruct (C29_components_total _ Hg Hl) as (ds & Hds & _).
  destruct (C76_greedy_order_untangled _ Hg Ha p ds Hp Hds) as (runs & Hruns & Hrule).
  destruct (C30_components_untangled_partial _ Hg Ha ds Hds) as (Hn & Hre & _ & _ & Hfst).
  (* there is one component, traversed from 0 *)
  assert (Hheads : forall c, c ∈ ds -> head (g_nodes (as_graph c)) = Some 0%N).
  { intros c Hc. apply elem_of_list_lookup in Hc as [i Hi].
    destruct (Forall2_lookup_l _ _ _ _ _ Hruns Hi) as (steps & _ & r & Hh & _).
    rewrite Hh. f_equal. assert (Hc : c ∈ ds) by (by eapply elem_of_list_lookup_2).
    assert (Hrc : r ∈ g_nodes (as_graph c)).
    { destruct (g_nodes (as_graph c)) as [|x l]; [done|]. injection Hh as ->. left. }
    destruct (untangled_root _ Hg Ha ds c r Hds Hc Hh) as [Hr _].
    assert (H0c : 0%N ∈ g_nodes (as_graph c)).
    { apply (Hre c r); [done..|]. apply reachable_sym; [done|]. by apply (broom_reach k d Hd). }
    apply elem_of_list_lookup in Hr as [j Hj].
    pose proof (Hfst c r j 0 0%N Hc Hh Hj H00 H0c). assert (j = 0) as -> by lia. congruence. }
  assert (Hone : exists c, ds = [c]).
  { destruct ds as [|c [|c' ds]].
    - exfalso. assert (H0 : 0%N ∈ g_nodes (as_graph d)) by (by eapply elem_of_list_lookup_2).
      rewrite <-Hn in H0. by apply elem_of_nil in H0.
    - by exists c.
    - exfalso. assert (Hin : forall x, head (g_nodes (as_graph x)) = Some 0%N -> 0%N ∈ g_nodes (as_graph x)).
      { intros x Hx. destruct (g_nodes (as_graph x)) as [|y l]; [done|]. injection Hx as ->. left. }
      assert (0 = 1) as ?; [|done].
      apply (bind_nodup_index (fun x => g_nodes (as_graph x)) (c :: c' :: ds) 0 1 c c' 0%N); try done.
      + rewrite Hn. apply Hg.
      + apply Hin, Hheads. left.
      + apply Hin, Hheads. right; left. }
  destruct Hone as [c ->]. apply Forall2_cons_inv_l in Hruns as (steps & runs' & (r & Hh & Hs) & Hnil & ->).
  apply Forall2_nil_inv_l in Hnil as ->.
  rewrite Hheads in Hh by left. injection Hh as <-.
  assert (steps = broom_steps k) as ->.
  { eapply depth_first_fun; [exact Hs|]. by apply broom_run. }
  cbn [concat] in Hrule. rewrite app_nil_r in Hrule.
  pose proof (broom_taken k p Hsym Hrule) as Hpe.
  exists d, p, ([(0, 1); (2, 3)]%N ++ ((fun i => (bx i, bz i)) <$> seq 0 k)).
  split; [done|]. split; [done|]. split; [by apply (broom_bipartite k)|]. split; [done|]. split; [done|].
  assert (Hin : forall s n x, x ∈ endpoints ((fun i => (bx i, bz i)) <$> seq s n) <->
      exists i, s <= i < s + n /\ (x = bx i \/ x = bz i)).
  { intros s n x. unfold endpoints. rewrite elem_of_list_bind. split.
    - intros (e & Hx & (i & -> & Hi%elem_of_seq)%elem_of_list_fmap).
      exists i. split; [lia|]. cbn [fst snd] in Hx. rewrite !elem_of_cons, elem_of_nil in Hx. tauto.
    - intros (i & Hi & Hx). exists (bx i, bz i). cbn [fst snd]. rewrite !elem_of_cons, elem_of_nil. split; [tauto|].
      apply elem_of_list_fmap. exists i. split; [done|]. apply elem_of_seq. lia. }
  split; [|split; [split|split]].
  - rewrite Hpe. vm_compute. reflexivity.
  - intros u v. rewrite elem_of_app, !elem_of_cons, elem_of_nil. intros [[[= -> ->]|[[= -> ->]|[]]]|Huv].
    + apply (broom_adj k d Hd). tauto.
    + apply (broom_adj k d Hd). tauto.
    + apply elem_of_list_fmap in Huv as (i & [= -> ->] & Hi%elem_of_seq). apply (broom_adj k d Hd).
      right. exists i. split; [lia|tauto].
  - change (NoDup ([0; 1; 2; 3]%N ++ endpoints ((fun i => (bx i, bz i)) <$> seq 0 k))). apply NoDup_app. split_and!.
    + repeat constructor; rewrite ?elem_of_cons, elem_of_nil; ids.
    + intros x. rewrite Hin, !elem_of_cons, elem_of_nil. intros [->|[->|[->|[->|[]]]]] (i & _ & [H|H]); ids.
    + clear -Hin. generalize 0 as s. induction k as [|n IH]; intros s; [constructor|].
      cbn [seq]. rewrite fmap_cons. unfold endpoints. rewrite bind_cons. cbn [fst snd app].
      fold (endpoints ((fun i => (bx i, bz i)) <$> seq (S s) n)).
      constructor; [|constructor; [|apply IH]].
      * intros [H|H]%elem_of_cons; [ids|]. apply Hin in H as (i & Hi & [H|H]); ids.
      * intros H. apply Hin in H as (i & Hi & [H|H]); ids.
  - rewrite app_length, fmap_length, seq_length. cbn [length]. lia.
  - intros v Hv. apply (broom_nodes k d Hd) in Hv.
    change (v ∈ [0; 1; 2; 3]%N ++ endpoints ((fun i => (bx i, bz i)) <$> seq 0 k)).
    rewrite elem_of_app, Hin, !elem_of_cons, elem_of_nil. destruct Hv as [Hv|(i & Hi & Hv)]; [tauto|].
    right. exists i. split; [lia|done].
Qed.

Theorem C66_no_share k : exists d p M,
  Api d /\ LoopFree (as_graph d) /\ Bipartite (as_graph d) /\ untangled_components (as_graph d) /\
  greedy_is (as_graph d) p /\ p_order p = 4 /\
  perfect (as_graph d) M /\ length M = k + 2 /\
  (forall iter, hash_order_ok iter -> exists paths q,
     matching_run iter (as_graph d) p (Ok q) /\ augmentations iter (as_graph d) p paths q /\ length paths = k).
Proof.
  destruct (no_share k) as (d & p & M & Hapi & Hl & Hb & Ha & Hp & Hord & HM & Hlen & Hcov).
  pose proof (api_lawful _ Hapi) as Hg.
  exists d, p, M. split_and!; try done.
  intros iter Hit.
  destruct (C36_greedy_valid _ Hg Hl) as (p' & Hp' & Hpg & _).
  assert (p = p') as <- by (by eapply greedy_fun).
  assert (Hno : forall c, ~ odd_cycle (as_graph d) c) by (intros c; by apply bipartite_no_odd).
  destruct (tame_total _ Hg iter Hit p Hpg (no_odd_quiet _ Hno) (or_intror Hno)) as (paths & q & Haug & Hrounds & _).
  assert (Hrun : matching_run iter (as_graph d) p (Ok q)) by (apply run_iff; eauto).
  exists paths, q. split_and!; try done.
  destruct (run_maximum _ iter p q _ Hg Hit Hpg Hrun (listed_here q)) as [Hmax Hq].
  destruct Hmax as [HMq Hbest]. specialize (Hbest M HM).
  assert (Hle : 2 * length (p_edges_of (map_to_list q)) <= 2 * length M).
  { rewrite <-!endpoints_length. apply submseteq_length, NoDup_submseteq; [apply HMq|].
    intros v Hv. apply Hcov. apply elem_of_list_bind in Hv as ([a b] & Hv & Hab). cbn [fst snd] in Hv.
    apply HMq in Hab. rewrite !elem_of_cons, elem_of_nil in Hv. destruct Hv as [->|[->|[]]].
    - by eapply lawful_adj_l.
    - by eapply (law_adj_node _ Hg). }
  lia.
Qed.
Print Assumptions C66_no_share.

(** The smallest such graph: a ring of four with a path of length two at one
    node and a pendant node at the opposite one. *)
Example C66_gap_case : greedy 50 (as_graph (get (dg_try_from_edges (broom_edges 2)))) = Ok (pair_all [(0, 1); (2, 3)]%N).
Proof. vm_compute. reflexivity. Qed.

Example C66_closing_case : matching (as_graph earrings) [(0, 3); (1, 2); (4, 5)]%N /\
  Lawful (as_graph earrings) /\ untangled_components (as_graph earrings) /\ components_end (as_graph earrings).
Proof.
  destruct C37_closing_case as (H1 & H2 & H3 & _). split; [|done]. split.
  - intros u v. rewrite !elem_of_cons, elem_of_nil.
    intros [[= -> ->]|[[= -> ->]|[[= -> ->]|[]]]]; clear; adj_now.
  - clear. vm_compute. repeat constructor; set_solver.
Qed.

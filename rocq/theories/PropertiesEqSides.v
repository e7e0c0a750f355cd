(** C13 again: on which side of [==] an unlisted self-loop does harm. *)
From Verif Require Import Outcome GraphModel TraversalModel ComponentsModel PairingModel Spec
  GraphProofs Checks EditProofs ConvertProofs EqProofs PropertiesGraph.

Lemma eq_listed_right d1 d2 : WF d1 -> WF d2 -> LoopsListed (as_graph d2) -> dg_eq d1 d2 = Ok true ->
  dg_nodes d1 ≡ₚ dg_nodes d2 /\ (norm <$> dg_edges d1) ≡ₚ (norm <$> dg_edges d2).
Proof.
  intros H1 H2 L2 E. pose proof (eq_wf d1 d2 H1 H2 E) as HN.
  destruct (dg_eq_spec d1 d2 H2) as (b & E' & Hb). rewrite E in E'. simplify_eq.
  destruct (proj1 Hb) as (Hs & Ho & Hn & He); [done|]. split.
  - apply NoDup_Permutation; [by apply ix_nodup, wf_idx..|done].
  - apply submseteq_Permutation_length_le; [rewrite !fmap_length; lia|].
    apply NoDup_submseteq; [by apply wf_norm_nodup|].
    intros e ([u v] & -> & Hin)%elem_of_list_fmap. by apply listed_edge, He.
Qed.

Lemma listed_either d u v :
  (u, v) ∈ dg_edges d \/ (v, u) ∈ dg_edges d <-> norm (u, v) ∈ norm <$> dg_edges d.
Proof.
  rewrite elem_of_list_fmap. split.
  - intros [H|H]; [by exists (u, v)|]. exists (v, u). split; [|done]. apply norm_same_edge. by right.
  - intros ([a b] & Hn & Hin). apply norm_same_edge in Hn as [[= -> ->]|[= -> ->]]; [by left|by right].
Qed.

(** If the right-hand graph lists its self-loops in [edges()], then [==] says
    that the two graphs have the same nodes and list the same edges (up to order
    and direction), and the comparison the other way round agrees.  Nothing is
    asked of the left-hand graph. *)
Theorem C13_eq_listed_right d1 d2 (H1 : Api d1) (H2 : Api d2) :
  LoopsListed (as_graph d2) -> dg_eq d1 d2 = Ok true ->
  (forall v, v ∈ g_nodes (as_graph d1) <-> v ∈ g_nodes (as_graph d2)) /\
  (forall u v, (u, v) ∈ g_edges (as_graph d1) \/ (v, u) ∈ g_edges (as_graph d1) <->
               (u, v) ∈ g_edges (as_graph d2) \/ (v, u) ∈ g_edges (as_graph d2)) /\
  dg_eq d2 d1 = Ok true.
Proof.
  intros L2 E. pose proof (api_wf d1 H1) as W1. pose proof (api_wf d2 H2) as W2.
  destruct (eq_listed_right d1 d2 W1 W2 L2 E) as [HN HE]. split_and!.
  - intros v. cbn. by rewrite HN.
  - intros u v. cbn. by rewrite !listed_either, HE.
  - destruct (dg_eq_spec d2 d1 W1) as (b & -> & Hb). f_equal. apply Hb. split_and!.
    + pose proof (Permutation_length HE) as Hl. by rewrite !fmap_length in Hl.
    + by rewrite (Permutation_length HN).
    + intros v. by rewrite HN.
    + intros u v Huv. apply norm_row; [done|]. rewrite HE. apply elem_of_list_fmap. eauto.
Qed.
Print Assumptions C13_eq_listed_right.

(** [==] is transitive through a graph that lists its self-loops, whatever the
    two outer graphs do. *)
Theorem C13_eq_transitive_middle d1 d2 d3 (H1 : Api d1) (H2 : Api d2) (H3 : Api d3) :
  LoopsListed (as_graph d2) ->
  dg_eq d1 d2 = Ok true -> dg_eq d2 d3 = Ok true -> dg_eq d1 d3 = Ok true.
Proof.
  intros L2 E12 E23. pose proof (api_wf d1 H1) as W1. pose proof (api_wf d2 H2) as W2.
  pose proof (api_wf d3 H3) as W3.
  destruct (eq_listed_right d1 d2 W1 W2 L2 E12) as [HN HE].
  destruct (dg_eq_spec d2 d3 W3) as (b & E & Hb). rewrite E23 in E. simplify_eq.
  destruct (proj1 Hb eq_refl) as (Hs & Ho & Hn & He).
  destruct (dg_eq_spec d1 d3 W3) as (b' & -> & Hb'). f_equal. apply Hb'.
  pose proof (Permutation_length HE) as Hl. rewrite !fmap_length in Hl.
  pose proof (Permutation_length HN) as Hl'. split_and!.
  - lia.
  - lia.
  - intros v Hv. apply Hn. by rewrite <-HN.
  - intros u v Huv. assert (Hin : norm (u, v) ∈ norm <$> dg_edges d2).
    { rewrite <-HE. apply elem_of_list_fmap. eauto. }
    apply listed_either in Hin as [Hin|Hin]; [by apply He|]. apply wf_sym; [done|]. by apply He.
Qed.
Print Assumptions C13_eq_transitive_middle.

(** A left-hand graph with an unlisted self-loop, equal both ways to one that
    has no self-loop; and the two [_refuted] theorems of C13 have the unlisted
    self-loop on the right, and in the middle. *)
Example C13_case_listed :
  let d1 := get (dg_try_from_adjacency [[0; 1]; [0]]%N) in
  let d2 := get (dg_try_from_edges [(1, 0)]%N) in
  Api d1 /\ Api d2 /\ ~ LoopsListed (as_graph d1) /\ LoopsListed (as_graph d2) /\
  dg_eq d1 d2 = Ok true /\ dg_eq d2 d1 = Ok true.
Proof.
  intros d1 d2. assert (Api d1) by (apply get_rows_api; is_ok).
  assert (Api d2) by (apply get_edges_api; is_ok). split; [done|]. split; [done|]. split.
  { intros HL. assert (Ha : adj (as_graph d1) 0%N 0%N).
    { exists [0; 1]%N. split; [vm_compute; reflexivity|left]. }
    specialize (HL _ Ha). assert (HE : g_edges (as_graph d1) = [(0, 1)]%N) by (vm_compute; reflexivity).
    rewrite HE in HL. set_solver. }
  split; [apply loops_listed_check; [done|vm_compute; reflexivity]|]. split; vm_compute; reflexivity.
Qed.

(** [PartialEq] and the edge-list round trip. *)
From Verif Require Import Outcome GraphModel TraversalModel ComponentsModel PairingModel Spec GraphProofs EditProofs ConvertProofs.

Definition norm (e : N * N) : N * N := (N.min e.1 e.2, N.max e.1 e.2).

Lemma norm_same_edge e f : norm e = norm f <-> same_edge e f.
Proof.
  destruct e as [a b], f as [c d]. unfold norm, same_edge; simpl. split.
  - intros [= H1 H2]. destruct (decide (a = c /\ b = d)) as [[-> ->]|H]; [by left|].
    right. f_equal; lia.
  - intros [[= -> ->]|[= -> ->]]; [done|]. f_equal; lia.
Qed.

Lemma wf_norm_nodup d : WF d -> NoDup (norm <$> dg_edges d).
Proof.
  intros Hwf. apply NoDup_fmap_2_strong; [|by apply wf_edges_nodup].
  intros [a b] [c e] Hx Hy Hn. apply norm_same_edge in Hn as [->|[= -> ->]]; [done|].
  by rewrite (wf_edges_once d Hwf e c Hx Hy).
Qed.

Lemma wf_distinct d : WF d -> distinct_edges (dg_edges d).
Proof.
  intros Hwf i j e f Hi Hj Hs%norm_same_edge.
  eapply (NoDup_lookup (norm <$> dg_edges d)); [by apply wf_norm_nodup|..].
  - by rewrite list_lookup_fmap, Hi.
  - by rewrite list_lookup_fmap, Hj, Hs.
Qed.

Lemma eq_nodes_true ids d : IdxOk d ->
  dg_eq_nodes ids d = true <-> forall v, v ∈ ids -> v ∈ dg_nodes d.
Proof.
  intros Hi. induction ids as [|v ids IH]; simpl.
  { split; [|done]. intros _ v Hv. by apply elem_of_nil in Hv. }
  destruct (dg_has_node d v) eqn:E.
  - apply (has_node_true d Hi) in E. rewrite IH. set_solver.
  - split; [done|]. intros H. exfalso.
    assert (Hv : v ∈ dg_nodes d) by (apply H; left).
    apply (has_node_true d Hi) in Hv. congruence.
Qed.

Lemma eq_edges_true es d : IdxOk d -> (forall u v, v ∈ row d u -> v ∈ dg_nodes d) ->
  exists b, dg_eq_edges es d = Ok b /\
    (b = true <-> forall u v, (u, v) ∈ es -> v ∈ row d u).
Proof.
  intros Hi Hmem. induction es as [|[s t] es (b & E & Hb)]; simpl.
  { exists true. split; [done|]. split; [|done]. intros _ u v Hv. by apply elem_of_nil in Hv. }
  destruct (decide (s ∈ dg_nodes d)) as [Hs|Hs].
  2:{ rewrite (has_edge_out_l d Hi s t Hs). exists false. split; [done|]. split; [done|].
      intros H. exfalso. apply Hs. eapply row_in; [done|]. apply H. left. }
  destruct (decide (t ∈ dg_nodes d)) as [Ht|Ht].
  2:{ rewrite (has_edge_out_r d Hi s t Hs Ht). exists false. split; [done|]. split; [done|].
      intros H. exfalso. apply Ht. eapply Hmem. apply H. left. }
  rewrite (has_edge_in d Hi s t Hs Ht). case_bool_decide as Hr.
  - exists b. split; [done|]. rewrite Hb. split.
    + intros H u v [[= -> ->]|Hin]%elem_of_cons; [done|by apply H].
    + intros H u v Hin. apply H. by right.
  - exists false. split; [done|]. split; [done|]. intros H. exfalso. apply Hr, H. left.
Qed.

Lemma dg_eq_spec d1 d2 : WF d2 ->
  exists b, dg_eq d1 d2 = Ok b /\
    (b = true <->
      length (dg_edges d1) = length (dg_edges d2) /\
      length (dg_nodes d1) = length (dg_nodes d2) /\
      (forall v, v ∈ dg_nodes d1 -> v ∈ dg_nodes d2) /\
      (forall u v, (u, v) ∈ dg_edges d1 -> v ∈ row d2 u)).
Proof.
  intros Hwf. pose proof (wf_idx d2 Hwf) as Hi.
  unfold dg_eq, dg_size, dg_order.
  destruct (Nat.eqb_spec (length (dg_edges d1)) (length (dg_edges d2))) as [Hs|Hs]; simpl.
  2:{ exists false. split; [done|]. naive_solver. }
  destruct (Nat.eqb_spec (length (dg_nodes d1)) (length (dg_nodes d2))) as [Ho|Ho]; simpl.
  2:{ exists false. split; [done|]. naive_solver. }
  pose proof (eq_nodes_true (dg_nodes d1) d2 Hi) as Hn.
  destruct (dg_eq_nodes (dg_nodes d1) d2).
  - destruct (eq_edges_true (dg_edges d1) d2 Hi (wf_mem d2 Hwf)) as (b & E & Hb).
    exists b. split; [done|]. naive_solver.
  - exists false. split; [done|]. split; [done|]. intros (_ & _ & H & _). by apply Hn in H.
Qed.

Lemma listed_edge d u v : WF d -> LoopsListed (as_graph d) ->
  v ∈ row d u -> norm (u, v) ∈ norm <$> dg_edges d.
Proof.
  intros Hwf Hl Hr. apply elem_of_list_fmap.
  destruct (decide (u = v)) as [->|Hne].
  - exists (v, v). split; [done|]. apply Hl. apply adj_row; [by apply wf_idx|done].
  - destruct (wf_edges_complete d Hwf u v Hne Hr) as [H|H]; [eauto|].
    exists (v, u). split; [|done]. apply norm_same_edge. by right.
Qed.

Lemma norm_row d u v : WF d -> norm (u, v) ∈ norm <$> dg_edges d -> v ∈ row d u.
Proof.
  intros Hwf ([a b] & Hn & Hin)%elem_of_list_fmap.
  apply (wf_edges_row d Hwf) in Hin.
  apply norm_same_edge in Hn as [[= -> ->]|[= -> ->]]; [done|by apply wf_sym].
Qed.

Lemma same_graph_rows d1 d2 : WF d1 -> WF d2 ->
  same_graph (as_graph d1) (as_graph d2) <->
  (forall v, v ∈ dg_nodes d1 <-> v ∈ dg_nodes d2) /\
  (forall u v, v ∈ row d1 u <-> v ∈ row d2 u).
Proof.
  intros H1 H2. unfold same_graph.
  assert (forall u v, adj (as_graph d1) u v <-> v ∈ row d1 u) by (intros; apply adj_row, wf_idx, H1).
  assert (forall u v, adj (as_graph d2) u v <-> v ∈ row d2 u) by (intros; apply adj_row, wf_idx, H2).
  naive_solver.
Qed.

Lemma eq_ext d1 d2 : WF d1 -> WF d2 ->
  LoopsListed (as_graph d1) -> LoopsListed (as_graph d2) ->
  exists b, dg_eq d1 d2 = Ok b /\ (b = true <-> same_graph (as_graph d1) (as_graph d2)).
Proof.
  intros Hwf1 Hwf2 Hl1 Hl2. destruct (dg_eq_spec d1 d2 Hwf2) as (b & E & Hb).
  exists b. split; [done|]. rewrite Hb, same_graph_rows by done. clear b E Hb.
  pose proof (wf_norm_nodup d1 Hwf1) as Hnd1. pose proof (wf_norm_nodup d2 Hwf2) as Hnd2.
  split.
  - intros (Hs & Ho & Hn & He).
    assert (Hpn : dg_nodes d1 ≡ₚ dg_nodes d2).
    { apply submseteq_Permutation_length_le; [lia|].
      apply NoDup_submseteq; [by apply ix_nodup, wf_idx|done]. }
    assert (Hpe : (norm <$> dg_edges d1) ≡ₚ (norm <$> dg_edges d2)).
    { apply submseteq_Permutation_length_le; [rewrite !fmap_length; lia|].
      apply NoDup_submseteq; [done|]. intros e ([u v] & -> & Hin)%elem_of_list_fmap.
      by apply listed_edge, He. }
    split; [intros v; by rewrite Hpn|]. intros u v. split; intros Hr.
    + apply norm_row; [done|]. rewrite <-Hpe. by apply listed_edge.
    + apply norm_row; [done|]. rewrite Hpe. by apply listed_edge.
  - intros [Hn Hr].
    assert (Hpn : dg_nodes d1 ≡ₚ dg_nodes d2).
    { apply NoDup_Permutation; [by apply ix_nodup, wf_idx..|done]. }
    assert (Hpe : (norm <$> dg_edges d1) ≡ₚ (norm <$> dg_edges d2)).
    { apply NoDup_Permutation; [done..|]. intros e. split.
      - intros ([u v] & -> & Hin)%elem_of_list_fmap. apply listed_edge; [done..|].
        apply Hr. by apply wf_edges_row.
      - intros ([u v] & -> & Hin)%elem_of_list_fmap. apply listed_edge; [done..|].
        apply Hr. by apply wf_edges_row. }
    split_and!.
    + apply Permutation_length in Hpe. by rewrite !fmap_length in Hpe.
    + by apply Permutation_length.
    + intros v. by rewrite Hpn.
    + intros u v Hin. apply Hr. by apply wf_edges_row.
Qed.

Lemma eq_refl_wf d : WF d -> dg_eq d d = Ok true.
Proof.
  intros Hwf. destruct (dg_eq_spec d d Hwf) as (b & -> & Hb). f_equal. apply Hb.
  split_and!; try done. by apply wf_edges_row.
Qed.

(** What [==] means without any hypothesis on loops. *)
Lemma eq_wf d1 d2 : WF d1 -> WF d2 -> dg_eq d1 d2 = Ok true ->
  (forall v, v ∈ dg_nodes d1 <-> v ∈ dg_nodes d2).
Proof.
  intros Hwf1 Hwf2. destruct (dg_eq_spec d1 d2 Hwf2) as (b & -> & Hb). intros [= ->].
  destruct (proj1 Hb) as (Hs & Ho & Hn & He); [done|].
  assert (Hpn : dg_nodes d1 ≡ₚ dg_nodes d2).
  { apply submseteq_Permutation_length_le; [lia|].
    apply NoDup_submseteq; [by apply ix_nodup, wf_idx|done]. }
  intros v. by rewrite Hpn.
Qed.

(** ** C14 *)

Lemma first_mentions_elem l v : v ∈ first_mentions l <-> v ∈ l.
Proof.
  unfold first_mentions.
  assert (H : forall acc, v ∈ foldl (fun acc x => if bool_decide (x ∈ acc) then acc else acc ++ [x]) acc l
    <-> v ∈ acc \/ v ∈ l).
  { induction l as [|x l IH]; intros acc; simpl.
    - set_solver.
    - rewrite IH, elem_of_cons. case_bool_decide.
      + split; [tauto|]. intros [?|[->|?]]; tauto.
      + rewrite elem_of_app, elem_of_list_singleton. tauto. }
  rewrite H. set_solver.
Qed.

Lemma elem_of_endpoints es v :
  v ∈ endpoints es <-> exists u, (v, u) ∈ es \/ (u, v) ∈ es.
Proof.
  unfold endpoints. rewrite elem_of_list_bind. split.
  - intros ([a b] & Hv & Hin). simpl in Hv.
    apply elem_of_cons in Hv as [->|Hv]; [eauto|].
    apply elem_of_list_singleton in Hv as ->. eauto.
  - intros [u [H|H]]; eexists; (split; [|exact H]); simpl; set_solver.
Qed.

Lemma round_trip d : WF d ->
  exists d', dg_try_from_edges (g_edges (as_graph d)) = Ok d' /\
    g_edges (as_graph d') = g_edges (as_graph d) /\
    (forall v, v ∈ g_nodes (as_graph d') <->
       exists u, (v, u) ∈ g_edges (as_graph d) \/ (u, v) ∈ g_edges (as_graph d)) /\
    (forall u v, u <> v -> adj (as_graph d') u v <-> adj (as_graph d) u v) /\
    (forall v, adj (as_graph d') v v <-> (v, v) ∈ g_edges (as_graph d)) /\
    ((forall v, v ∈ g_nodes (as_graph d) -> exists u, u <> v /\ adj (as_graph d) v u) ->
       dg_eq d' d = Ok true /\ dg_eq d d' = Ok true).
Proof.
  intros Hwf. pose proof (wf_idx d Hwf) as Hi.
  destruct (try_from_edges_cases (dg_edges d))
    as [(d' & E & Hb)|(pre & s & t & post & Heq & E & Hd & Hin)].
  2:{ exfalso. pose proof (wf_distinct d Hwf) as Hd'. rewrite Heq in Hd'.
      by apply distinct_edges_not_dup in Hd'. }
  pose proof (bl_row _ _ Hb) as Hr. destruct Hb as [Hwf' He Hn _ _].
  exists d'. simpl. split; [done|]. split; [done|].
  assert (Hnodes : forall v, v ∈ dg_nodes d' <->
    exists u, (v, u) ∈ dg_edges d \/ (u, v) ∈ dg_edges d).
  { intros v. rewrite Hn, first_mentions_elem, elem_of_endpoints. done. }
  split; [done|]. pose proof (wf_idx d' Hwf') as Hi'. split_and!.
  - intros u v Hne. rewrite !adj_row by done. rewrite Hr. split.
    + intros [H|H]; [by apply wf_edges_row|]. apply wf_sym; [done|]. by apply wf_edges_row.
    + by apply wf_edges_complete.
  - intros v. rewrite adj_row by done. rewrite Hr. tauto.
  - intros Hiso.
    assert (Hp : dg_nodes d' ≡ₚ dg_nodes d).
    { apply NoDup_Permutation; [by apply ix_nodup..|]. intros v. rewrite Hnodes. split.
      - intros [u [H|H]]; apply (wf_edges_row d Hwf) in H.
        + by eapply row_in.
        + by eapply wf_mem.
      - intros Hv. destruct (Hiso v Hv) as (u & Hne & Ha%adj_row); [|done].
        exists u. by apply wf_edges_complete. }
    apply Permutation_length in Hp as Hlen.
    split.
    + destruct (dg_eq_spec d' d Hwf) as (b & -> & Hb). f_equal. apply Hb.
      rewrite He. split_and!; [done|done|intros v; by rewrite Hp|by apply wf_edges_row].
    + destruct (dg_eq_spec d d' Hwf') as (b & -> & Hb). f_equal. apply Hb.
      rewrite He. split_and!; [done|done|intros v; by rewrite Hp|].
      intros u v H. apply Hr. by left.
Qed.

(** ** Corollaries in the form used by the property files *)

Lemma eq_total d1 d2 : WF d2 -> exists b, dg_eq d1 d2 = Ok b.
Proof. intros H. destruct (dg_eq_spec d1 d2 H) as (b & E & _). eauto. Qed.

Lemma same_graph_sym g h : same_graph g h -> same_graph h g.
Proof. unfold same_graph. naive_solver. Qed.

Lemma eq_symmetric d1 d2 : WF d1 -> WF d2 ->
  LoopsListed (as_graph d1) -> LoopsListed (as_graph d2) -> dg_eq d1 d2 = dg_eq d2 d1.
Proof.
  intros H1 H2 L1 L2. destruct (eq_ext d1 d2 H1 H2 L1 L2) as (b & -> & Hb).
  destruct (eq_ext d2 d1 H2 H1 L2 L1) as (b' & -> & Hb'). f_equal.
  apply eq_bool_prop_intro. rewrite !Is_true_true, Hb, Hb'. split; apply same_graph_sym.
Qed.

Lemma eq_transitive d1 d2 d3 : WF d1 -> WF d2 -> WF d3 ->
  LoopsListed (as_graph d1) -> LoopsListed (as_graph d2) -> LoopsListed (as_graph d3) ->
  dg_eq d1 d2 = Ok true -> dg_eq d2 d3 = Ok true -> dg_eq d1 d3 = Ok true.
Proof.
  intros H1 H2 H3 L1 L2 L3. destruct (eq_ext d1 d2 H1 H2 L1 L2) as (b & -> & Hb).
  destruct (eq_ext d2 d3 H2 H3 L2 L3) as (b' & -> & Hb').
  destruct (eq_ext d1 d3 H1 H3 L1 L3) as (b'' & -> & Hb''). intros [= ->] [= ->].
  f_equal. apply Hb''. destruct (proj1 Hb eq_refl), (proj1 Hb' eq_refl). split; naive_solver.
Qed.

Lemma run_ops_api ops d : Api d -> Api (run_ops d ops).1.
Proof.
  revert d. induction ops as [|o ops IH]; intros d Hd; simpl; [done|].
  apply IH. destruct o; by constructor.
Qed.

Lemma run_ops_listed ops : LoopsListed (as_graph (run_ops dg_new ops).1).
Proof.
  destruct (rep_run ops dg_new (mkA [] []) rep_new) as [_ [Hwf Hn He Hr]].
  intros v. rewrite adj_row by (by apply wf_idx). simpl.
  rewrite Hr, He, elem_of_a_neighbors. tauto.
Qed.

Lemma try_from_edges_listed es d : dg_try_from_edges es = Ok d -> LoopsListed (as_graph d).
Proof.
  intros H v. destruct (try_from_edges_result es d H) as (He & _ & Ha & _).
  rewrite Ha, He. tauto.
Qed.

Lemma absent_queries d : WF d -> forall u v,
  (u ∉ g_nodes (as_graph d) ->
     g_neighbors (as_graph d) u = Err (MissingNode u) /\
     g_degree (as_graph d) u = Err (MissingNode u) /\
     g_has_edge (as_graph d) u v = Err (MissingNode u)) /\
  (u ∈ g_nodes (as_graph d) ->
     (exists l, g_neighbors (as_graph d) u = Ok l /\ g_degree (as_graph d) u = Ok (length l)) /\
     (v ∉ g_nodes (as_graph d) -> g_has_edge (as_graph d) u v = Err (MissingNode v)) /\
     (v ∈ g_nodes (as_graph d) -> exists b, g_has_edge (as_graph d) u v = Ok b)).
Proof.
  intros Hwf u v. pose proof (wf_idx d Hwf) as Hi. simpl. split.
  - intros Hu. split_and!; [by apply neighbors_out|by apply degree_out|by apply has_edge_out_l].
  - intros Hu. split_and!.
    + exists (row d u). split; [by apply neighbors_in|by apply degree_in].
    + intros Hv. by apply has_edge_out_r.
    + intros Hv. eexists. by apply has_edge_in.
Qed.

Lemma undirected d : WF d -> forall u v,
  u ∈ g_nodes (as_graph d) -> v ∈ g_nodes (as_graph d) ->
  g_has_edge (as_graph d) u v = g_has_edge (as_graph d) v u /\
  (g_has_edge (as_graph d) u v = Ok true <-> adj (as_graph d) u v) /\
  (adj (as_graph d) u v <-> adj (as_graph d) v u).
Proof.
  intros Hwf u v Hu Hv. pose proof (wf_idx d Hwf) as Hi. rewrite !adj_row by done.
  cbn [as_graph g_has_edge]. rewrite (has_edge_in d Hi u v Hu Hv), (has_edge_in d Hi v u Hv Hu).
  assert (Hs : v ∈ row d u <-> u ∈ row d v) by (split; by apply wf_sym).
  split_and!.
  - f_equal. by apply bool_decide_ext.
  - split; [intros [= H]; by apply bool_decide_eq_true in H|]. intros H.
    by rewrite bool_decide_eq_true_2.
  - done.
Qed.

Lemma adj_nodes d : WF d -> forall u v, adj (as_graph d) u v ->
  u ∈ g_nodes (as_graph d) /\ v ∈ g_nodes (as_graph d).
Proof.
  intros Hwf u v. pose proof (wf_idx d Hwf) as Hi. rewrite adj_row by done. intros H.
  split; [by eapply row_in|by eapply wf_mem].
Qed.

Lemma edges_at_most_once d : WF d -> forall e, times_crossed e (g_edges (as_graph d)) <= 1.
Proof.
  intros Hwf e. unfold times_crossed. simpl.
  destruct (filter _ _) as [|f1 [|f2 l]] eqn:E; simpl; [lia|lia|exfalso].
  assert (Hnd : NoDup (f1 :: f2 :: l)).
  { rewrite <-E. by apply NoDup_filter, wf_edges_nodup. }
  assert (H1 : f1 ∈ f1 :: f2 :: l) by left. assert (H2 : f2 ∈ f1 :: f2 :: l) by (right; left).
  rewrite <-E in H1, H2. apply elem_of_list_filter in H1 as [S1 H1].
  apply elem_of_list_filter in H2 as [S2 H2].
  apply NoDup_cons in Hnd as [Hn _]. apply Hn.
  assert (f1 = f2) as ->; [|left].
  apply norm_same_edge in S1, S2.
  destruct f1 as [a b], f2 as [c x].
  assert (Hs : same_edge (a, b) (c, x)) by (apply norm_same_edge; congruence).
  destruct Hs as [?|[= -> ->]]; [done|]. by rewrite (wf_edges_once d Hwf x c H1 H2).
Qed.

Lemma edges_once d : WF d -> forall u v, u <> v ->
  adj (as_graph d) u v <-> times_crossed (u, v) (g_edges (as_graph d)) = 1.
Proof.
  intros Hwf u v Hne. pose proof (wf_idx d Hwf) as Hi. rewrite adj_row by done.
  pose proof (edges_at_most_once d Hwf (u, v)) as Hle. unfold times_crossed in *.
  cbn [as_graph g_edges] in *. split.
  - intros Hr. destruct (filter _ _) as [|f l] eqn:E; [exfalso|simpl in *; lia].
    destruct (wf_edges_complete d Hwf u v Hne Hr) as [H|H].
    + assert (Hf : (u, v) ∈ filter (fun f => same_edge (u, v) f) (dg_edges d))
        by (apply elem_of_list_filter; split; [by left|done]).
      rewrite E in Hf. by apply elem_of_nil in Hf.
    + assert (Hf : (v, u) ∈ filter (fun f => same_edge (u, v) f) (dg_edges d))
        by (apply elem_of_list_filter; split; [by right|done]).
      rewrite E in Hf. by apply elem_of_nil in Hf.
  - intros Hl. destruct (filter _ _) as [|[a b] l] eqn:E; [done|].
    assert (Hf : (a, b) ∈ (a, b) :: l) by left. rewrite <-E in Hf.
    apply elem_of_list_filter in Hf as [Hs Hin]. apply (wf_edges_row d Hwf) in Hin.
    destruct Hs as [[= -> ->]|[= -> ->]]; [done|by apply wf_sym].
Qed.

Lemma size_and_neighbors d : WF d ->
  g_size (as_graph d) = length (g_edges (as_graph d)) /\
  forall v l, g_neighbors (as_graph d) v = Ok l -> NoDup (filter (fun w => w <> v) l).
Proof.
  intros Hwf. split; [done|]. intros v l Hl. pose proof (wf_idx d Hwf) as Hi. simpl in Hl.
  destruct (decide (v ∈ dg_nodes d)) as [Hv|Hv].
  - rewrite (neighbors_in d Hi v Hv) in Hl. injection Hl as <-. by apply wf_nodup.
  - by rewrite (neighbors_out d Hi v Hv) in Hl.
Qed.

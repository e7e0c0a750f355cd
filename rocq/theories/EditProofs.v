(** Edit histories, error exactness, handshake. *)
From Verif Require Import Outcome GraphModel TraversalModel ComponentsModel PairingModel Spec GraphProofs.

Record Rep (d : DefaultGraph) (a : agraph) : Prop := {
  rep_wf : WF d;
  rep_nodes : dg_nodes d = a_nodes a;
  rep_edges : dg_edges d = a_edges a;
  rep_row : forall v, row d v = a_neighbors a v
}.

Lemma elem_of_a_neighbors a u v :
  v ∈ a_neighbors a u <-> (u, v) ∈ a_edges a \/ (v, u) ∈ a_edges a.
Proof.
  unfold a_neighbors. rewrite elem_of_list_bind. split.
  - intros ([s t] & [H|H]%elem_of_app & Hin); simpl in *; case_bool_decide;
      first [by apply elem_of_nil in H | apply elem_of_list_singleton in H; subst; auto].
  - intros [H|H]; eexists; (split; [|exact H]); simpl; apply elem_of_app.
    + left. rewrite bool_decide_eq_true_2 by done. by apply elem_of_list_singleton.
    + right. rewrite bool_decide_eq_true_2 by done. by apply elem_of_list_singleton.
Qed.

Lemma rep_new : Rep dg_new (mkA [] []).
Proof. split; [apply wf_new|done..]. Qed.

Lemma rep_step d a o : Rep d a ->
  (run_op d o).2 = a_result a o /\ Rep (run_op d o).1 (a_step a o).
Proof.
  intros [Hwf Hn He Hr]. pose proof (wf_idx d Hwf) as Hi.
  destruct o as [id|s t]; cbn [run_op].
  - pose proof (wf_add_node d id Hwf) as Hwf'.
    unfold a_step. cbn [a_result]. case_bool_decide as Hin.
    + rewrite <-Hn in Hin. rewrite (add_node_dup d Hi id Hin). simpl. done.
    + rewrite <-Hn in Hin.
      destruct (add_node_new d Hi id Hin) as (d' & E & Hi' & Hn' & He' & Hr').
      rewrite E in *. simpl in *. split; [done|]. split; simpl; [done|congruence..|].
      intros v. rewrite Hr', Hr. done.
  - pose proof (wf_add_edge d s t Hwf) as Hwf'.
    unfold a_step. cbn [a_result].
    destruct (bool_decide_reflect (s ∉ a_nodes a)) as [Hs|Hs].
    { rewrite <-Hn in Hs. rewrite (add_edge_missing_l d Hi s t Hs). done. }
    rewrite <-Hn in Hs. apply dec_stable in Hs.
    destruct (bool_decide_reflect (t ∉ a_nodes a)) as [Ht|Ht].
    { rewrite <-Hn in Ht. rewrite (add_edge_missing_r d Hi s t Hs Ht). done. }
    rewrite <-Hn in Ht. apply dec_stable in Ht.
    destruct (bool_decide_reflect ((s, t) ∈ a_edges a \/ (t, s) ∈ a_edges a)) as [Hst|Hst];
      rewrite <-elem_of_a_neighbors, <-Hr in Hst.
    { rewrite (add_edge_dup d Hi s t Hs Ht Hst). done. }
    destruct (add_edge_new d Hi s t Hs Ht Hst) as (d' & E & Hi' & Hn' & He' & Hr').
    rewrite E in *. simpl in *. split; [done|]. split; simpl; [done|congruence..|].
    intros v. rewrite Hr', Hr. unfold a_neighbors. simpl. rewrite bind_app. simpl.
    by rewrite app_nil_r.
Qed.

Lemma rep_run ops d a : Rep d a ->
  (run_ops d ops).2 = a_results a ops /\ Rep (run_ops d ops).1 (foldl a_step a ops).
Proof.
  revert d a. induction ops as [|o ops IH]; intros d a HR; simpl; [done|].
  destruct (rep_step d a o HR) as [-> HR']. destruct (IH _ _ HR') as [-> ?]. done.
Qed.

(** ** C01, C02 *)

Lemma rep_observes d a : Rep d a -> observes d a.
Proof.
  intros [Hwf Hn He Hr]. pose proof (wf_idx d Hwf) as Hi. unfold observes; simpl.
  split_and!; try done.
  - unfold dg_order. by rewrite Hn.
  - unfold dg_size. by rewrite He.
  - unfold dg_is_empty. rewrite Hn. by destruct (a_nodes a).
  - intros v. apply eq_bool_prop_intro. rewrite !Is_true_true.
    rewrite (has_node_true d Hi), bool_decide_eq_true, Hn. done.
  - intros v. rewrite <-Hn, <-Hr. case_bool_decide.
    + by apply neighbors_in. + by apply neighbors_out.
  - intros v. rewrite <-Hn, <-Hr. case_bool_decide.
    + by apply degree_in. + by apply degree_out.
  - intros u v. rewrite <-Hn.
    destruct (bool_decide_reflect (u ∉ dg_nodes d)) as [Hu|Hu]; [by apply has_edge_out_l|].
    apply dec_stable in Hu.
    destruct (bool_decide_reflect (v ∉ dg_nodes d)) as [Hv|Hv]; [by apply has_edge_out_r|].
    apply dec_stable in Hv. rewrite (has_edge_in d Hi u v Hu Hv). f_equal.
    apply bool_decide_ext. rewrite Hr. apply elem_of_a_neighbors.
Qed.

Lemma edit_history ops :
  observes (run_ops dg_new ops).1 (a_run ops) /\
  (run_ops dg_new ops).2 = a_results (mkA [] []) ops.
Proof.
  destruct (rep_run ops dg_new (mkA [] []) rep_new) as [H1 H2].
  split; [by apply rep_observes|done].
Qed.

(** ** Exact behaviour of one edit on any API graph *)

Lemma add_node_exact d id : WF d ->
  (dg_add_node d id).2 =
    if bool_decide (id ∈ dg_nodes d) then Err (DuplicateNode id) else Ok tt.
Proof.
  intros Hwf. pose proof (wf_idx d Hwf) as Hi. case_bool_decide as H.
  - by rewrite (add_node_dup d Hi id H).
  - by destruct (add_node_new d Hi id H) as (d' & -> & _).
Qed.

Lemma add_edge_exact d s t : WF d ->
  (dg_add_edge d s t).2 =
    if bool_decide (s ∉ dg_nodes d) then Err (MissingNode s)
    else if bool_decide (t ∉ dg_nodes d) then Err (MissingNode t)
    else if bool_decide (g_has_edge (as_graph d) s t = Ok true) then Err (DuplicateEdge s t)
    else Ok tt.
Proof.
  intros Hwf. pose proof (wf_idx d Hwf) as Hi.
  destruct (bool_decide_reflect (s ∉ dg_nodes d)) as [Hs|Hs].
  { by rewrite (add_edge_missing_l d Hi s t Hs). }
  apply dec_stable in Hs.
  destruct (bool_decide_reflect (t ∉ dg_nodes d)) as [Ht|Ht].
  { by rewrite (add_edge_missing_r d Hi s t Hs Ht). }
  apply dec_stable in Ht. simpl. rewrite (has_edge_in d Hi s t Hs Ht).
  destruct (decide (t ∈ row d s)) as [H|H].
  - rewrite (bool_decide_eq_true_2 (t ∈ row d s)) by done.
    rewrite bool_decide_eq_true_2 by done. by rewrite (add_edge_dup d Hi s t Hs Ht H).
  - rewrite (bool_decide_eq_false_2 (t ∈ row d s)) by done.
    rewrite bool_decide_eq_false_2 by done.
    by destruct (add_edge_new d Hi s t Hs Ht H) as (d' & -> & _).
Qed.

Lemma failed_op d o : WF d -> (run_op d o).2 <> Ok tt -> (run_op d o).1 = d.
Proof.
  intros Hwf. pose proof (wf_idx d Hwf) as Hi. destruct o as [id|s t]; simpl.
  - destruct (decide (id ∈ dg_nodes d)) as [H|H].
    + by rewrite (add_node_dup d Hi id H).
    + by destruct (add_node_new d Hi id H) as (d' & -> & _).
  - destruct (decide (s ∈ dg_nodes d)) as [Hs|Hs].
    2:{ by rewrite (add_edge_missing_l d Hi s t Hs). }
    destruct (decide (t ∈ dg_nodes d)) as [Ht|Ht].
    2:{ by rewrite (add_edge_missing_r d Hi s t Hs Ht). }
    destruct (decide (t ∈ row d s)) as [H|H].
    + by rewrite (add_edge_dup d Hi s t Hs Ht H).
    + by destruct (add_edge_new d Hi s t Hs Ht H) as (d' & -> & _).
Qed.

Lemma add_node_effect d id d' : WF d -> dg_add_node d id = (d', Ok tt) ->
  g_nodes (as_graph d') = g_nodes (as_graph d) ++ [id] /\
  g_edges (as_graph d') = g_edges (as_graph d) /\
  g_neighbors (as_graph d') id = Ok [] /\
  forall v, v <> id -> g_neighbors (as_graph d') v = g_neighbors (as_graph d) v.
Proof.
  intros Hwf E. pose proof (wf_idx d Hwf) as Hi.
  destruct (decide (id ∈ dg_nodes d)) as [H|H].
  { by rewrite (add_node_dup d Hi id H) in E. }
  destruct (add_node_new d Hi id H) as (d'' & E' & Hi' & Hn & He & Hr).
  rewrite E in E'. simplify_eq. simpl. split_and!; [done|done|..].
  - rewrite neighbors_in; [|done|rewrite Hn; set_solver]. by rewrite Hr, row_out.
  - intros v Hv. destruct (decide (v ∈ dg_nodes d)) as [Hin|Hin].
    + rewrite !neighbors_in; try done; [by rewrite Hr|rewrite Hn; set_solver].
    + rewrite !neighbors_out; try done. rewrite Hn. set_solver.
Qed.

Lemma add_edge_effect d s t d' : WF d -> dg_add_edge d s t = (d', Ok tt) ->
  g_nodes (as_graph d') = g_nodes (as_graph d) /\
  g_edges (as_graph d') = g_edges (as_graph d) ++ [(s, t)] /\
  (s <> t -> forall l, g_neighbors (as_graph d) s = Ok l ->
     g_neighbors (as_graph d') s = Ok (l ++ [t])) /\
  (s <> t -> forall l, g_neighbors (as_graph d) t = Ok l ->
     g_neighbors (as_graph d') t = Ok (l ++ [s])) /\
  (s = t -> forall l, g_neighbors (as_graph d) s = Ok l ->
     g_neighbors (as_graph d') s = Ok (l ++ [s; s])) /\
  forall v, v <> s -> v <> t -> g_neighbors (as_graph d') v = g_neighbors (as_graph d) v.
Proof.
  intros Hwf E. pose proof (wf_idx d Hwf) as Hi.
  destruct (decide (s ∈ dg_nodes d)) as [Hs|Hs].
  2:{ by rewrite (add_edge_missing_l d Hi s t Hs) in E. }
  destruct (decide (t ∈ dg_nodes d)) as [Ht|Ht].
  2:{ by rewrite (add_edge_missing_r d Hi s t Hs Ht) in E. }
  destruct (decide (t ∈ row d s)) as [H|H].
  { by rewrite (add_edge_dup d Hi s t Hs Ht H) in E. }
  destruct (add_edge_new d Hi s t Hs Ht H) as (d'' & E' & Hi' & Hn & He & Hr).
  rewrite E in E'. injection E' as <-.
  assert (Hnb : forall v, g_neighbors (as_graph d') v =
    if bool_decide (v ∈ dg_nodes d) then Ok (row d' v) else Err (MissingNode v)).
  { intros v. simpl. rewrite <-Hn. case_bool_decide; [by apply neighbors_in|by apply neighbors_out]. }
  split_and!; [done|done|..].
  - intros Hne l. rewrite Hnb. simpl. rewrite (neighbors_in d Hi s Hs). intros [= <-].
    rewrite bool_decide_eq_true_2 by done. rewrite Hr.
    rewrite (bool_decide_eq_true_2 (s = s)) by done.
    rewrite (bool_decide_eq_false_2 (t = s)) by done. by rewrite app_nil_r.
  - intros Hne l. rewrite Hnb. simpl. rewrite (neighbors_in d Hi t Ht). intros [= <-].
    rewrite bool_decide_eq_true_2 by done. rewrite Hr.
    rewrite (bool_decide_eq_true_2 (t = t)) by done.
    rewrite (bool_decide_eq_false_2 (s = t)) by done. done.
  - intros <- l. rewrite Hnb. simpl. rewrite (neighbors_in d Hi s Hs). intros [= <-].
    rewrite bool_decide_eq_true_2 by done. rewrite Hr.
    rewrite (bool_decide_eq_true_2 (s = s)) by done. done.
  - intros v Hvs Hvt. rewrite Hnb. simpl. case_bool_decide as Hv.
    + rewrite (neighbors_in d Hi v Hv), Hr.
      rewrite !bool_decide_eq_false_2 by done. by rewrite !app_nil_r.
    + by rewrite (neighbors_out d Hi v Hv).
Qed.

(** ** C05 *)

Lemma no_panic d : WF d ->
  forall u v,
    total (g_neighbors (as_graph d) u) /\ total (g_degree (as_graph d) u) /\
    total (g_has_edge (as_graph d) u v) /\
    total (dg_add_node d u).2 /\ total (dg_add_edge d u v).2.
Proof.
  intros Hwf u v. pose proof (wf_idx d Hwf) as Hi.
  rewrite (add_node_exact d u Hwf), (add_edge_exact d u v Hwf). simpl.
  destruct (decide (u ∈ dg_nodes d)) as [Hu|Hu].
  - rewrite (neighbors_in d Hi u Hu), (degree_in d Hi u Hu).
    destruct (decide (v ∈ dg_nodes d)) as [Hv|Hv].
    + rewrite (has_edge_in d Hi u v Hu Hv). repeat case_bool_decide; simpl; done.
    + rewrite (has_edge_out_r d Hi u v Hu Hv). repeat case_bool_decide; simpl; done.
  - rewrite (neighbors_out d Hi u Hu), (degree_out d Hi u Hu), (has_edge_out_l d Hi u v Hu).
    repeat case_bool_decide; simpl; done.
Qed.

(** ** C08: handshake *)

(** Sum of the lengths of the rows. *)
Definition darts (d : DefaultGraph) : list (N * N) :=
  dg_nodes d ≫= fun u => (fun v => (u, v)) <$> row d u.

Lemma length_bind {A B} (f : A -> list B) l :
  length (l ≫= f) = sum_list (map (fun x => length (f x)) l).
Proof. induction l as [|x l IH]; csimpl; [done|]. by rewrite app_length, IH. Qed.

Lemma degree_sum_darts d : IdxOk d -> degree_sum (as_graph d) = length (darts d).
Proof.
  intros Hi. unfold degree_sum, darts. rewrite length_bind. f_equal.
  apply map_ext_in. intros v Hv%elem_of_list_In. simpl.
  rewrite (degree_in d Hi v Hv), fmap_length. done.
Qed.

Definition row_sum (d : DefaultGraph) (ids : list N) : nat :=
  sum_list (map (fun v => length (row d v)) ids).

Definition HS (d : DefaultGraph) : Prop :=
  row_sum d (dg_nodes d) =
    2 * length (dg_edges d) +
    length (filter (fun v => v ∈ row d v /\ (v, v) ∉ dg_edges d) (dg_nodes d)).

Lemma row_sum_ext d d' ids :
  (forall v, v ∈ ids -> row d v = row d' v) -> row_sum d ids = row_sum d' ids.
Proof.
  intros H. unfold row_sum. f_equal. apply map_ext_in.
  intros v Hv%elem_of_list_In. by rewrite H.
Qed.

Lemma row_sum_upd d d' ids x y :
  NoDup ids ->
  (forall v, row d' v = row d v ++ (if bool_decide (x = v) then [y] else [])
                                ++ (if bool_decide (y = v) then [x] else [])) ->
  row_sum d' ids = row_sum d ids + (if bool_decide (x ∈ ids) then 1 else 0)
                                 + (if bool_decide (y ∈ ids) then 1 else 0).
Proof.
  intros Hnd Hr. unfold row_sum. induction Hnd as [|v ids Hv Hnd IH]; simpl.
  { repeat case_bool_decide; set_solver. }
  rewrite IH, Hr, !app_length.
  assert (Hb : forall z, (if bool_decide (z ∈ v :: ids) then 1 else 0) =
    (if bool_decide (z = v) then 1 else 0) + (if bool_decide (z ∈ ids) then 1 else 0)).
  { intros z. destruct (decide (z = v)) as [->|Hz].
    - rewrite (bool_decide_eq_true_2 (v ∈ v :: ids)) by (left).
      rewrite (bool_decide_eq_true_2 (v = v)) by done.
      by rewrite (bool_decide_eq_false_2 (v ∈ ids)) by done.
    - rewrite (bool_decide_eq_false_2 (z = v)) by done. simpl.
      rewrite (bool_decide_ext (z ∈ v :: ids) (z ∈ ids)); [done|].
      rewrite elem_of_cons. tauto. }
  rewrite (Hb x), (Hb y). repeat case_bool_decide; simpl; lia.
Qed.

Lemma filter_ext_in {A} (P Q : A -> Prop) `{!forall x, Decision (P x), !forall x, Decision (Q x)}
    (l : list A) : (forall x, x ∈ l -> P x <-> Q x) -> filter P l = filter Q l.
Proof.
  induction l as [|x l IH]; intros Hpq; [done|]. rewrite !filter_cons.
  rewrite IH by (intros; apply Hpq; by right).
  assert (P x <-> Q x) by (apply Hpq; left).
  destruct (decide (P x)), (decide (Q x)); tauto.
Qed.

Lemma hs_add_node d v : WF d -> HS d -> HS (dg_add_node d v).1.
Proof.
  intros Hwf H. pose proof (wf_idx d Hwf) as Hi.
  destruct (decide (v ∈ dg_nodes d)) as [Hv|Hv].
  { by rewrite (add_node_dup d Hi v Hv). }
  destruct (add_node_new d Hi v Hv) as (d' & -> & Hi' & Hn & He & Hr). simpl.
  unfold HS in *. rewrite Hn, He.
  assert (Hrs : row_sum d' (dg_nodes d ++ [v]) = row_sum d (dg_nodes d)).
  { unfold row_sum.     rewrite (map_ext_in _ (fun w => length (row d w))) by (intros; by rewrite Hr).
    rewrite map_app. simpl. rewrite (row_out d Hi v Hv).
    clear. induction (map _ _) as [|x l IH]; csimpl in *; [done|by rewrite IH]. }
  rewrite Hrs, H. f_equal. rewrite filter_app, app_length.
  rewrite (filter_ext_in (fun w => w ∈ row d' w /\ (w, w) ∉ dg_edges d)
                         (fun w => w ∈ row d w /\ (w, w) ∉ dg_edges d) (dg_nodes d))
    by (intros; by rewrite Hr).
  rewrite filter_cons_False; [rewrite filter_nil; simpl; lia|].
  rewrite Hr, (row_out d Hi v Hv). set_solver.
Qed.

Lemma hs_add_edge d s t : WF d -> HS d -> HS (dg_add_edge d s t).1.
Proof.
  intros Hwf Hh. pose proof (wf_idx d Hwf) as Hi.
  destruct (decide (s ∈ dg_nodes d)) as [Hs|Hs].
  2:{ by rewrite (add_edge_missing_l d Hi s t Hs). }
  destruct (decide (t ∈ dg_nodes d)) as [Ht|Ht].
  2:{ by rewrite (add_edge_missing_r d Hi s t Hs Ht). }
  destruct (decide (t ∈ row d s)) as [H|H].
  { by rewrite (add_edge_dup d Hi s t Hs Ht H). }
  destruct (add_edge_new d Hi s t Hs Ht H) as (d' & -> & Hi' & Hn & He & Hr). simpl.
  unfold HS in *. rewrite Hn, He, app_length. simpl.
  rewrite (row_sum_upd d d' _ s t (ix_nodup d Hi) Hr).
  rewrite !bool_decide_eq_true_2 by done. rewrite Hh.
  assert (Hf : filter (fun v => v ∈ row d' v /\ (v, v) ∉ dg_edges d ++ [(s, t)]) (dg_nodes d) =
    filter (fun v => v ∈ row d v /\ (v, v) ∉ dg_edges d) (dg_nodes d)).
  { apply filter_ext_in. intros v Hv. rewrite Hr, elem_of_row_app by exact 0%N.
    rewrite elem_of_app, elem_of_list_singleton. split.
    - intros [[Hrow|[[-> ->]|[-> ->]]] Hne]; (split; [try done|]); tauto.
    - intros [Hrow Hne]. split; [tauto|]. intros [?|[= -> ->]]; [done|]. done. }
  rewrite Hf. lia.
Qed.

Lemma elem_of_darts d u v : IdxOk d -> (u, v) ∈ darts d <-> v ∈ row d u.
Proof.
  intros Hi. unfold darts. rewrite elem_of_list_bind. split.
  - intros (w & (x & [= -> ->] & Hx)%elem_of_list_fmap & _). done.
  - intros Hv. exists u. split; [|by eapply row_in]. apply elem_of_list_fmap. eauto.
Qed.

Lemma nodup_bind {A B} (f : A -> list B) (l : list A) :
  NoDup l -> (forall x, x ∈ l -> NoDup (f x)) ->
  (forall x y z, x ∈ l -> y ∈ l -> z ∈ f x -> z ∈ f y -> x = y) ->
  NoDup (l ≫= f).
Proof.
  induction 1 as [|x l Hx Hl IH]; intros Hf Hd; simpl; [constructor|].
  apply NoDup_app. split_and!.
  - apply Hf. left.
  - intros z Hz (y & Hzy & Hy)%elem_of_list_bind.
    assert (x = y) as -> by (eapply (Hd x y z); [left|by right|done|done]). done.
  - apply IH; [intros; apply Hf; by right|]. intros; eapply Hd; try (by right); done.
Qed.

Lemma hs_adjacency rows : valid_rows rows -> HS (adjacency_graph rows).
Proof.
  intros Hv. pose proof (adjacency_wf rows Hv) as Hwf. set (d := adjacency_graph rows) in *.
  pose proof (wf_idx d Hwf) as Hi.
  assert (Hnd : forall u, NoDup (row d u)).
  { intros u. rewrite (adjacency_row rows). destruct (rows !! N.to_nat u) as [r|] eqn:E; simpl;
      [|constructor]. by destruct (Hv _ _ E). }
  assert (Hlt : forall u v, (u, v) ∈ dg_edges d -> (u < v)%N).
  { intros u v. simpl. rewrite elem_of_row_edges. by intros (? & ? & _ & _ & _ & ?). }
  assert (Hperm : darts d ≡ₚ dg_edges d ++ ((fun e : N * N => (e.2, e.1)) <$> dg_edges d) ++
     ((fun v => (v, v)) <$> filter (fun v => v ∈ row d v /\ (v, v) ∉ dg_edges d) (dg_nodes d))).
  { apply NoDup_Permutation.
    - unfold darts. apply nodup_bind; [by apply ix_nodup|..].
      + intros u Hu. apply NoDup_fmap_2; [|done]. by intros ? ? [= ->].
      + intros x y z _ _ (? & -> & _)%elem_of_list_fmap (? & [= -> _] & _)%elem_of_list_fmap. done.
    - apply NoDup_app. split_and!; [by apply wf_edges_nodup|..].
      + intros [a b] Hab%Hlt [H|H]%elem_of_app.
        * apply elem_of_list_fmap in H as ([a' b'] & [= -> ->] & H%Hlt). lia.
        * apply elem_of_list_fmap in H as (? & [= -> ->] & _). lia.
      + apply NoDup_app. split_and!.
        * apply NoDup_fmap_2; [|by apply wf_edges_nodup].
          intros [? ?] [? ?] [= -> ->]. done.
        * intros [a b] H1 H2. apply elem_of_list_fmap in H1 as ([a' b'] & Heq & H%Hlt).
          apply elem_of_list_fmap in H2 as (c & Heq' & _). simplify_eq/=. lia.
        * apply NoDup_fmap_2; [by intros ? ? [= ->]|].
          apply NoDup_filter. by apply ix_nodup.
    - intros [a b]. rewrite (elem_of_darts d a b Hi), !elem_of_app, !elem_of_list_fmap.
      setoid_rewrite elem_of_list_filter. split.
      + intros Hab. destruct (decide (a = b)) as [->|Hne].
        * right; right. exists b. split; [done|]. split_and!; [done| |by eapply row_in].
          intros ?%Hlt. lia.
        * destruct (wf_edges_complete d Hwf a b Hne Hab); [by left|].
          right; left. by exists (b, a).
      + intros [H|[([a' b'] & [= -> ->] & H)|(v & [= -> ->] & (H & _) & _)]].
        * by apply (wf_edges_row d Hwf). 
        * apply (wf_sym d Hwf). by apply (wf_edges_row d Hwf).
        * done. }
  apply Permutation_length in Hperm. rewrite !app_length, !fmap_length in Hperm.
  unfold HS.
  unfold darts in Hperm. rewrite length_bind in Hperm. unfold row_sum.
  rewrite (map_ext_in _ (fun x => length ((fun v => (x, v)) <$> row d x)))
    by (intros; by rewrite fmap_length).
  rewrite Hperm. lia.
Qed.

Lemma hs_local_add_node d v d' : WF d -> HS d -> local (dg_add_node d v) = Ok d' -> HS d'.
Proof.
  intros Hwf Hh H. apply (hs_add_node d v) in Hh; [|done]. unfold local in H.
  destruct (dg_add_node d v) as [? []]; simplify_eq/=. done.
Qed.

Lemma hs_local_add_edge d s t d' : WF d -> HS d -> local (dg_add_edge d s t) = Ok d' -> HS d'.
Proof.
  intros Hwf Hh H. apply (hs_add_edge d s t) in Hh; [|done]. unfold local in H.
  destruct (dg_add_edge d s t) as [? []]; simplify_eq/=. done.
Qed.

Lemma hs_extend_edges es d d' : WF d -> HS d -> dg_extend_edges d es = Ok d' -> HS d'.
Proof.
  revert d. induction es as [|[s t] es IH]; intros d Hwf Hh H; simpl in H.
  { by simplify_eq. }
  apply cbind_ok in H as (d1 & H1 & H). apply cbind_ok in H as (d2 & H2 & H).
  apply cbind_ok in H as (d3 & H3 & H).
  assert (WF d1 /\ HS d1) as [? ?].
  { destruct (dg_has_node d s); simplify_eq; [done|].
    split; [by eapply wf_local_add_node|by eapply hs_local_add_node]. }
  assert (WF d2 /\ HS d2) as [? ?].
  { destruct (dg_has_node d1 t); simplify_eq; [done|].
    split; [by eapply wf_local_add_node|by eapply hs_local_add_node]. }
  apply (IH d3); [by eapply wf_local_add_edge|by eapply hs_local_add_edge|done].
Qed.

Lemma hs_extend_dfs fuel g t d d' : WF d -> HS d -> dg_extend_dfs fuel g t d = Ok d' -> HS d'.
Proof.
  revert t d. induction fuel as [|fuel IH]; intros t d Hwf Hh H; simpl in H; [done|].
  apply cbind_ok in H as ([[step|] t'] & Hn & H); [|by simplify_eq].
  apply cbind_ok in H as (d1 & H1 & H). apply cbind_ok in H as (d2 & H2 & H).
  apply cbind_ok in H as (d3 & H3 & H).
  assert (WF d1 /\ HS d1) as [? ?].
  { destruct (dg_is_empty d); simplify_eq; [|done].
    split; [by eapply wf_local_add_node|by eapply hs_local_add_node]. }
  assert (WF d2 /\ HS d2) as [? ?].
  { destruct (cut step); simplify_eq; [done|].
    split; [by eapply wf_local_add_node|by eapply hs_local_add_node]. }
  apply (IH t' d3); [by eapply wf_local_add_edge|by eapply hs_local_add_edge|done].
Qed.

Lemma hs_new : HS dg_new.
Proof. done. Qed.

Lemma api_hs d : Api d -> HS d.
Proof.
  induction 1 as [|d id Ha IH|d s t Ha IH|rows d H|es d H|fuel g t d H|fuel g c d c' H].
  - apply hs_new.
  - apply hs_add_node; [by apply api_wf|done].
  - apply hs_add_edge; [by apply api_wf|done].
  - apply try_from_adjacency_ok in H as [Hv ->]. by apply hs_adjacency.
  - eapply hs_extend_edges, H; [apply wf_new|apply hs_new].
  - eapply hs_extend_dfs, H; [apply wf_new|apply hs_new].
  - unfold c_next in H. destruct (c_skip _ _) as [[root it]|]; [|done].
    apply cbind_ok in H as (t & Ht & H). apply cbind_ok in H as (comp & Hc & H).
    apply unwrap_ok in Hc.
    assert (WF comp) by (eapply wf_extend_dfs, Hc; apply wf_new).
    assert (HS comp) by (eapply hs_extend_dfs, Hc; [apply wf_new|apply hs_new]).
    destruct (dg_is_empty comp).
    + apply cbind_ok in H as (comp' & Hc' & H). apply unwrap_ok in Hc'. simplify_eq.
      by eapply hs_local_add_node.
    + by simplify_eq.
Qed.

Lemma handshake_exact d : Api d ->
  degree_sum (as_graph d) =
  2 * g_size (as_graph d) + length (unlisted_loops (as_graph d)).
Proof.
  intros Ha. pose proof (api_hs d Ha) as Hh. pose proof (wf_idx d (api_wf d Ha)) as Hi.
  rewrite degree_sum_darts by done. unfold darts. rewrite length_bind.
  rewrite (map_ext_in _ (fun v => length (row d v))) by (intros; by rewrite fmap_length).
  unfold HS, row_sum in Hh. rewrite Hh. unfold unlisted_loops. simpl.
  unfold dg_size. f_equal. f_equal. apply filter_ext_in. intros v Hv.
  rewrite (has_edge_in d Hi v v Hv Hv). split.
  - intros [? ?]. split; [|done]. by rewrite bool_decide_eq_true_2.
  - intros [[= ?%bool_decide_eq_true] ?]. done.
Qed.

Lemma handshake_listed d : Api d -> LoopsListed (as_graph d) ->
  degree_sum (as_graph d) = 2 * g_size (as_graph d).
Proof.
  intros Ha Hl. rewrite handshake_exact by done.
  assert (unlisted_loops (as_graph d) = []) as ->; [|simpl; lia].
  unfold unlisted_loops. 
  destruct (filter _ _) as [|v l] eqn:E; [done|exfalso].
  assert (Hv : v ∈ v :: l) by left. rewrite <-E in Hv.
  apply elem_of_list_filter in Hv as [[H1 H2] Hin]. apply H2, Hl.
  destruct (law_has_edge _ (api_lawful d Ha) v v Hin Hin) as (b & Hb & Hadj).
  rewrite H1 in Hb. injection Hb as <-. by apply Hadj.
Qed.

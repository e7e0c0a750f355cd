(** Invariants of [DefaultGraph]. *)
From Verif Require Import Outcome GraphModel TraversalModel ComponentsModel PairingModel Spec.

(** The adjacency row of a node, as a total function. *)
Definition row (d : DefaultGraph) (v : N) : list N :=
  default [] (dg_indices d !! v ≫= fun i => dg_adjacency d !! i).

Record IdxOk (d : DefaultGraph) : Prop := {
  ix_iff : forall v i, dg_indices d !! v = Some i <-> dg_nodes d !! i = Some v;
  ix_len : length (dg_adjacency d) = length (dg_nodes d)
}.

Record WF (d : DefaultGraph) : Prop := {
  wf_idx : IdxOk d;
  wf_mem : forall u v, v ∈ row d u -> v ∈ dg_nodes d;
  wf_sym : forall u v, v ∈ row d u -> u ∈ row d v;
  wf_nodup : forall u, NoDup (filter (fun w => w <> u) (row d u));
  wf_edges_nodup : NoDup (dg_edges d);
  wf_edges_row : forall u v, (u, v) ∈ dg_edges d -> v ∈ row d u;
  wf_edges_complete : forall u v, u <> v -> v ∈ row d u ->
    (u, v) ∈ dg_edges d \/ (v, u) ∈ dg_edges d;
  wf_edges_once : forall u v, (u, v) ∈ dg_edges d -> (v, u) ∈ dg_edges d -> u = v
}.

Section idx.
  Context (d : DefaultGraph) (Hd : IdxOk d).

  Lemma ix_nodup : NoDup (dg_nodes d).
  Proof.
    apply NoDup_alt. intros i j v Hi Hj.
    apply (ix_iff d Hd) in Hi, Hj. congruence.
  Qed.

  Lemma ix_in v : v ∈ dg_nodes d <-> is_Some (dg_indices d !! v).
  Proof.
    rewrite elem_of_list_lookup. split.
    - intros [i Hi]. apply (ix_iff d Hd) in Hi. eauto.
    - intros [i Hi]. exists i. by apply (ix_iff d Hd).
  Qed.

  Lemma ix_row v i : dg_indices d !! v = Some i -> dg_adjacency d !! i = Some (row d v).
  Proof.
    intros Hi. unfold row. rewrite Hi. simpl.
    destruct (lookup_lt_is_Some_2 (dg_adjacency d) i) as [r Hr].
    { rewrite (ix_len d Hd). apply (ix_iff d Hd) in Hi. by eapply lookup_lt_Some. }
    by rewrite Hr.
  Qed.

  Lemma row_out v : v ∉ dg_nodes d -> row d v = [].
  Proof.
    intros Hv. unfold row. destruct (dg_indices d !! v) eqn:E; [|done].
    destruct Hv. apply ix_in. eauto.
  Qed.

  Lemma row_in u v : v ∈ row d u -> u ∈ dg_nodes d.
  Proof.
    intros Hv. destruct (decide (u ∈ dg_nodes d)) as [|Hu]; [done|].
    rewrite row_out in Hv by done. by apply elem_of_nil in Hv.
  Qed.

  Lemma index_for_in v : v ∈ dg_nodes d ->
    exists i, dg_index_for d v = Ok i /\ index (dg_adjacency d) i = Ok (row d v).
  Proof.
    intros Hv. apply ix_in in Hv as [i Hi]. exists i. unfold dg_index_for, index.
    rewrite Hi, (ix_row v i Hi). done.
  Qed.

  Lemma index_for_out v : v ∉ dg_nodes d -> dg_index_for d v = Err (MissingNode v).
  Proof.
    intros Hv. unfold dg_index_for. destruct (dg_indices d !! v) eqn:E; [|done].
    destruct Hv. apply ix_in. eauto.
  Qed.

  Lemma neighbors_in v : v ∈ dg_nodes d -> dg_neighbors d v = Ok (row d v).
  Proof.
    intros Hv. destruct (index_for_in v Hv) as (i & Hi & Hr).
    unfold dg_neighbors. rewrite Hi. simpl. done.
  Qed.

  Lemma neighbors_out v : v ∉ dg_nodes d -> dg_neighbors d v = Err (MissingNode v).
  Proof. intros Hv. unfold dg_neighbors. by rewrite index_for_out. Qed.

  Lemma degree_in v : v ∈ dg_nodes d -> dg_degree d v = Ok (length (row d v)).
  Proof.
    intros Hv. destruct (index_for_in v Hv) as (i & Hi & Hr).
    unfold dg_degree. rewrite Hi. simpl. by rewrite Hr.
  Qed.

  Lemma degree_out v : v ∉ dg_nodes d -> dg_degree d v = Err (MissingNode v).
  Proof. intros Hv. unfold dg_degree. by rewrite index_for_out. Qed.

  Lemma has_node_true v : dg_has_node d v = true <-> v ∈ dg_nodes d.
  Proof. unfold dg_has_node. rewrite bool_decide_eq_true, ix_in. done. Qed.

  Lemma has_edge_in u v : u ∈ dg_nodes d -> v ∈ dg_nodes d ->
    dg_has_edge d u v = Ok (bool_decide (v ∈ row d u)).
  Proof.
    intros Hu Hv. destruct (index_for_in u Hu) as (i & Hi & Hr).
    unfold dg_has_edge. rewrite Hi. simpl.
    apply has_node_true in Hv. rewrite Hv, Hr. done.
  Qed.

  Lemma has_edge_out_l u v : u ∉ dg_nodes d -> dg_has_edge d u v = Err (MissingNode u).
  Proof. intros Hu. unfold dg_has_edge. by rewrite index_for_out. Qed.

  Lemma has_edge_out_r u v : u ∈ dg_nodes d -> v ∉ dg_nodes d ->
    dg_has_edge d u v = Err (MissingNode v).
  Proof.
    intros Hu Hv. destruct (index_for_in u Hu) as (i & Hi & Hr).
    unfold dg_has_edge. rewrite Hi. simpl.
    destruct (dg_has_node d v) eqn:E; [|done].
    by apply has_node_true in E.
  Qed.

  Lemma is_empty_true : dg_is_empty d = true <-> dg_nodes d = [].
  Proof. unfold dg_is_empty. by destruct (dg_nodes d). Qed.

  (** *** Edits *)

  Lemma add_node_dup v : v ∈ dg_nodes d -> dg_add_node d v = (d, Err (DuplicateNode v)).
  Proof. intros [i Hi]%ix_in. unfold dg_add_node. by rewrite Hi. Qed.

  Lemma add_node_new v : v ∉ dg_nodes d ->
    exists d', dg_add_node d v = (d', Ok tt) /\ IdxOk d' /\
      dg_nodes d' = dg_nodes d ++ [v] /\ dg_edges d' = dg_edges d /\
      forall w, row d' w = row d w.
  Proof.
    intros Hv. unfold dg_add_node.
    destruct (dg_indices d !! v) as [i|] eqn:E.
    { destruct Hv. apply ix_in. eauto. }
    eexists. split; [reflexivity|]. simpl.
    split; [|split; [done|split; [done|]]].
    - split; simpl.
      + intros w j. destruct (decide (w = v)) as [->|Hw].
        * rewrite lookup_insert. split.
          -- intros [= <-]. by rewrite lookup_app_r, Nat.sub_diag by lia.
          -- intros Hj. f_equal. apply lookup_app_Some in Hj as [Hj|[? Hj]].
             ++ destruct Hv. by eapply elem_of_list_lookup_2.
             ++ apply list_lookup_singleton_Some in Hj. lia.
        * rewrite lookup_insert_ne by done. rewrite (ix_iff d Hd). split.
          -- intros Hj. by apply lookup_app_l_Some.
          -- intros [?|[? [_ ?]%list_lookup_singleton_Some]]%lookup_app_Some; [done|congruence].
      + rewrite !app_length, (ix_len d Hd). done.
    - intros w. unfold row. simpl. destruct (decide (w = v)) as [->|Hw].
      + rewrite lookup_insert, E. simpl.
        rewrite lookup_app_r by (rewrite (ix_len d Hd); lia).
        by rewrite (ix_len d Hd), Nat.sub_diag.
      + rewrite lookup_insert_ne by done.
        destruct (dg_indices d !! w) as [i|] eqn:Ew; [|done]. simpl.
        rewrite lookup_app_l; [done|].
        rewrite (ix_len d Hd). apply (ix_iff d Hd) in Ew. by eapply lookup_lt_Some.
  Qed.

  Lemma add_edge_missing_l s t : s ∉ dg_nodes d ->
    dg_add_edge d s t = (d, Err (MissingNode s)).
  Proof.
    intros Hs. unfold dg_add_edge. destruct (dg_indices d !! s) eqn:E; [|done].
    destruct Hs. apply ix_in. eauto.
  Qed.

  Lemma add_edge_missing_r s t : s ∈ dg_nodes d -> t ∉ dg_nodes d ->
    dg_add_edge d s t = (d, Err (MissingNode t)).
  Proof.
    intros [i Hi]%ix_in Ht. unfold dg_add_edge. rewrite Hi.
    destruct (dg_indices d !! t) eqn:E; [|done].
    destruct Ht. apply ix_in. eauto.
  Qed.

  Lemma add_edge_dup s t : s ∈ dg_nodes d -> t ∈ dg_nodes d -> t ∈ row d s ->
    dg_add_edge d s t = (d, Err (DuplicateEdge s t)).
  Proof.
    intros [i Hi]%ix_in [j Hj]%ix_in Hr. unfold dg_add_edge.
    rewrite Hi, Hj, (ix_row s i Hi). by rewrite bool_decide_eq_true_2.
  Qed.

  Lemma add_edge_new s t : s ∈ dg_nodes d -> t ∈ dg_nodes d -> t ∉ row d s ->
    exists d', dg_add_edge d s t = (d', Ok tt) /\ IdxOk d' /\
      dg_nodes d' = dg_nodes d /\ dg_edges d' = dg_edges d ++ [(s, t)] /\
      forall w, row d' w = row d w ++ (if bool_decide (s = w) then [t] else [])
                                   ++ (if bool_decide (t = w) then [s] else []).
  Proof.
    intros [i Hi]%ix_in [j Hj]%ix_in Hr. unfold dg_add_edge.
    rewrite Hi, Hj, (ix_row s i Hi). rewrite bool_decide_eq_false_2 by done.
    pose proof (ix_row s i Hi) as Hri. pose proof (ix_row t j Hj) as Hrj.
    assert (Hlt : i < length (dg_adjacency d)) by (by eapply lookup_lt_Some).
    assert (Hlj : j < length (dg_adjacency d)) by (by eapply lookup_lt_Some).
    destruct (lookup_lt_is_Some_2 (<[i:=row d s ++ [t]]> (dg_adjacency d)) j) as [r' Hr'].
    { by rewrite insert_length. }
    rewrite Hr'. eexists. split; [reflexivity|]. simpl.
    split; [|split; [done|split; [done|]]].
    - split; simpl; [apply (ix_iff d Hd)|]. rewrite !insert_length. apply (ix_len d Hd).
    - intros w. unfold row at 1. simpl.
      destruct (dg_indices d !! w) as [k|] eqn:Ew.
      2:{ assert (s <> w) by congruence. assert (t <> w) by congruence.
          rewrite !bool_decide_eq_false_2 by done.
          unfold row. by rewrite Ew. }
      simpl. pose proof (ix_row w k Ew) as Hrk.
      assert (Hs : s = w <-> i = k).
      { split; [congruence|]. intros ->.
        apply (ix_iff d Hd) in Hi, Ew. congruence. }
      assert (Ht : t = w <-> j = k).
      { split; [congruence|]. intros ->.
        apply (ix_iff d Hd) in Hj, Ew. congruence. }
      destruct (decide (j = k)) as [<-|Hjk].
      + rewrite list_lookup_insert by (by rewrite insert_length). simpl.
        rewrite (bool_decide_eq_true_2 (t = w)) by tauto.
        destruct (decide (i = j)) as [<-|Hij].
        * rewrite list_lookup_insert in Hr' by done.
          rewrite (bool_decide_eq_true_2 (s = w)) by tauto.
          assert (s = w) as -> by tauto. assert (t = w) as -> by tauto.
          simplify_eq. by rewrite <-app_assoc.
        * rewrite list_lookup_insert_ne in Hr' by done.
          rewrite (bool_decide_eq_false_2 (s = w)) by tauto.
          simplify_eq/=. done.
      + rewrite list_lookup_insert_ne by done.
        rewrite (bool_decide_eq_false_2 (t = w)) by tauto. rewrite app_nil_r.
        destruct (decide (i = k)) as [<-|Hik].
        * rewrite list_lookup_insert by done. simpl.
          rewrite (bool_decide_eq_true_2 (s = w)) by tauto.
          assert (s = w) as -> by tauto. done.
        * rewrite list_lookup_insert_ne by done.
          rewrite (bool_decide_eq_false_2 (s = w)) by tauto.
          rewrite Hrk. simpl. by rewrite app_nil_r.
  Qed.
End idx.

Lemma idx_new : IdxOk dg_new.
Proof. split; [|done]. intros v i. unfold dg_new. simpl. by rewrite lookup_empty, lookup_nil. Qed.

Lemma row_new v : row dg_new v = [].
Proof. done. Qed.

(** *** Preservation of [WF] *)

Lemma wf_new : WF dg_new.
Proof.
  split; try apply idx_new; intros *; rewrite ?row_new; simpl;
    rewrite ?elem_of_nil; try done; constructor.
Qed.

(** [WF] only depends on nodes, edges and rows. *)
Lemma wf_add_node d v : WF d -> WF (dg_add_node d v).1.
Proof.
  intros Hwf. pose proof (wf_idx d Hwf) as Hi.
  destruct (decide (v ∈ dg_nodes d)) as [Hv|Hv].
  { by rewrite (add_node_dup d Hi v Hv). }
  destruct (add_node_new d Hi v Hv) as (d' & -> & Hi' & Hn & He & Hr). simpl.
  split; [done|..].
  - intros a b. rewrite Hr, Hn. intros Hb. apply elem_of_app. left. by eapply wf_mem.
  - intros a b. rewrite !Hr. by apply wf_sym.
  - intros a. rewrite Hr. by apply wf_nodup.
  - rewrite He. by apply wf_edges_nodup.
  - intros a b. rewrite He, Hr. by apply wf_edges_row.
  - intros a b. rewrite He, Hr. by apply wf_edges_complete.
  - intros a b. rewrite He. by apply wf_edges_once.
Qed.

Lemma elem_of_row_app (s t u v w : N) (l : list N) :
  v ∈ l ++ (if bool_decide (s = w) then [t] else [])
        ++ (if bool_decide (t = w) then [s] else []) <->
  v ∈ l \/ (s = w /\ v = t) \/ (t = w /\ v = s).
Proof.
  rewrite !elem_of_app. destruct (bool_decide_reflect (s = w)), (bool_decide_reflect (t = w));
    rewrite ?elem_of_list_singleton, ?elem_of_nil; naive_solver.
Qed.

Lemma wf_add_edge d s t : WF d -> WF (dg_add_edge d s t).1.
Proof.
  intros Hwf. pose proof (wf_idx d Hwf) as Hi.
  destruct (decide (s ∈ dg_nodes d)) as [Hs|Hs].
  2:{ by rewrite (add_edge_missing_l d Hi s t Hs). }
  destruct (decide (t ∈ dg_nodes d)) as [Ht|Ht].
  2:{ by rewrite (add_edge_missing_r d Hi s t Hs Ht). }
  destruct (decide (t ∈ row d s)) as [Hst|Hst].
  { by rewrite (add_edge_dup d Hi s t Hs Ht Hst). }
  destruct (add_edge_new d Hi s t Hs Ht Hst) as (d' & -> & Hi' & Hn & He & Hr). simpl.
  assert (Hts : s ∉ row d t) by (intros ?%(wf_sym d Hwf); done).
  split; [done|..].
  - intros a b. rewrite Hr, Hn. intros [Hb|[[-> ->]|[-> ->]]]%elem_of_row_app; [|done..].
    by eapply wf_mem.
  - intros a b. rewrite !Hr, !elem_of_row_app by exact 0%N.
    intros [Hb|[[-> ->]|[-> ->]]]; [|tauto..]. left. by apply wf_sym.
  - intros a. rewrite Hr, !filter_app. apply NoDup_app. split; [by apply wf_nodup|].
    split.
    + intros x. rewrite elem_of_list_filter. intros [Hx Hxa] [Hx'|Hx']%elem_of_app.
      * apply elem_of_list_filter in Hx' as [_ Hx'].
        destruct (bool_decide_reflect (s = a)) as [->|]; [|by apply elem_of_nil in Hx'].
        apply elem_of_list_singleton in Hx' as ->. done.
      * apply elem_of_list_filter in Hx' as [_ Hx'].
        destruct (bool_decide_reflect (t = a)) as [->|]; [|by apply elem_of_nil in Hx'].
        apply elem_of_list_singleton in Hx' as ->. done.
    + destruct (bool_decide_reflect (s = a)) as [->|], (bool_decide_reflect (t = a)) as [->|].
      * rewrite filter_cons_False by (intros H; by apply H).
        rewrite filter_nil. constructor.
      * rewrite filter_cons_True by done. rewrite !filter_nil. apply NoDup_singleton.
      * rewrite filter_nil, filter_cons_True by done. rewrite filter_nil. apply NoDup_singleton.
      * rewrite !filter_nil. constructor.
  - rewrite He. apply NoDup_app. split; [by apply wf_edges_nodup|].
    split; [|apply NoDup_singleton].
    intros [a b] Hab [= -> ->]%elem_of_list_singleton.
    by apply (wf_edges_row d Hwf) in Hab.
  - intros a b. rewrite He, Hr, elem_of_row_app by exact 0%N.
    rewrite elem_of_app, elem_of_list_singleton.
    intros [Hab|[= -> ->]]; [left; by apply wf_edges_row|tauto].
  - intros a b Hne. rewrite He, Hr, elem_of_row_app by exact 0%N.
    rewrite !elem_of_app, !elem_of_list_singleton.
    intros [Hab|[[-> ->]|[-> ->]]]; [|tauto..].
    destruct (wf_edges_complete d Hwf a b Hne Hab); tauto.
  - intros a b. rewrite He, !elem_of_app, !elem_of_list_singleton.
    intros [Hab|[= -> ->]] [Hba|[= ? ?]].
    + by eapply wf_edges_once.
    + subst. apply (wf_edges_row d Hwf) in Hab. done.
    + apply (wf_edges_row d Hwf) in Hba. done.
    + done.
Qed.

Lemma wf_local_add_node d v d' : WF d -> local (dg_add_node d v) = Ok d' -> WF d'.
Proof.
  intros Hwf H. apply (wf_add_node d v) in Hwf. unfold local in H.
  destruct (dg_add_node d v) as [? []]; simplify_eq/=. done.
Qed.

Lemma wf_local_add_edge d s t d' : WF d -> local (dg_add_edge d s t) = Ok d' -> WF d'.
Proof.
  intros Hwf H. apply (wf_add_edge d s t) in Hwf. unfold local in H.
  destruct (dg_add_edge d s t) as [? []]; simplify_eq/=. done.
Qed.

Lemma cbind_ok {A B} (m : comp A) (f : A -> comp B) b :
  cbind m f = Ok b <-> exists a, m = Ok a /\ f a = Ok b.
Proof. destruct m; simpl; naive_solver. Qed.

Lemma unwrap_ok {A} (m : comp A) a : unwrap m = Ok a -> m = Ok a.
Proof. destruct m; naive_solver. Qed.

Lemma wf_extend_edges es d d' : WF d -> dg_extend_edges d es = Ok d' -> WF d'.
Proof.
  revert d. induction es as [|[s t] es IH]; intros d Hwf H; simpl in H.
  { by simplify_eq. }
  apply cbind_ok in H as (d1 & H1 & H). apply cbind_ok in H as (d2 & H2 & H).
  apply cbind_ok in H as (d3 & H3 & H).
  apply (IH d3); [|done]. eapply wf_local_add_edge; [|done].
  assert (WF d1).
  { destruct (dg_has_node d s); simplify_eq; [done|]. by eapply wf_local_add_node. }
  destruct (dg_has_node d1 t); simplify_eq; [done|]. by eapply wf_local_add_node.
Qed.

Lemma wf_extend_dfs fuel g t d d' : WF d -> dg_extend_dfs fuel g t d = Ok d' -> WF d'.
Proof.
  revert t d. induction fuel as [|fuel IH]; intros t d Hwf H; simpl in H; [done|].
  apply cbind_ok in H as ([[step|] t'] & Hn & H); [|by simplify_eq].
  apply cbind_ok in H as (d1 & H1 & H). apply cbind_ok in H as (d2 & H2 & H).
  apply cbind_ok in H as (d3 & H3 & H).
  apply (IH t' d3); [|done]. eapply wf_local_add_edge; [|done].
  assert (WF d1).
  { destruct (dg_is_empty d); simplify_eq; [|done]. by eapply wf_local_add_node. }
  destruct (cut step); simplify_eq; [done|]. by eapply wf_local_add_node.
Qed.

(** *** [try_from(adjacency)] *)

(** The inputs that conversion accepts. *)
Definition valid_entry (rows : list (list N)) (s : N) (t : N) : Prop :=
  exists r, rows !! N.to_nat t = Some r /\ s ∈ r.

Lemma scan_row_ok rows s rest es es' :
  dg_scan_row rows s rest es = Ok es' <->
  NoDup rest /\ (forall t, t ∈ rest -> valid_entry rows s t) /\
  es' = es ++ (filter (fun t => (s < t)%N) rest ≫= fun t => [(s, t)]).
Proof.
  revert es. induction rest as [|t rest IH]; intros es; cbn [dg_scan_row].
  { rewrite filter_nil. simpl. rewrite app_nil_r. split.
    - intros [= ->]. split; [constructor|]. split; [|done]. intros t Ht. by apply elem_of_nil in Ht.
    - by intros (_ & _ & ->). }
  destruct (N.leb_spec (N.of_nat (length rows)) t) as [Hle|Hlt].
  { split; [done|]. intros (_ & Hv & _).
    destruct (Hv t) as (r & Hr & _); [left|]. apply lookup_lt_Some in Hr. lia. }
  case_bool_decide as Hin.
  { split; [done|]. intros (Hnd & _). apply NoDup_cons in Hnd as [? _]. done. }
  unfold index. destruct (rows !! N.to_nat t) as [r|] eqn:Er.
  2:{ apply lookup_ge_None in Er. lia. }
  simpl. case_bool_decide as Hsr.
  - rewrite IH. rewrite NoDup_cons. split.
    + intros (Hnd & Hv & ->). split; [done|]. split.
      * intros t' [->|Ht']%elem_of_cons; [by exists r|by apply Hv].
      * destruct (N.ltb_spec s t).
        -- rewrite filter_cons_True by done. simpl. by rewrite <-app_assoc.
        -- rewrite filter_cons_False by lia. done.
    + intros ([_ Hnd] & Hv & ->). split; [done|]. split.
      * intros t' Ht'. apply Hv. by right.
      * destruct (N.ltb_spec s t).
        -- rewrite filter_cons_True by done. simpl. by rewrite <-app_assoc.
        -- rewrite filter_cons_False by lia. done.
  - split; [done|]. intros (_ & Hv & _). destruct (Hv t) as (r' & Hr' & Hs); [left|].
    rewrite Er in Hr'. injection Hr' as <-. done.
Qed.

(** Edges contributed by the rows from index [k] on. *)
Fixpoint row_edges (k : nat) (rows : list (list N)) : list (N * N) :=
  match rows with
  | [] => []
  | r :: rows' =>
      (filter (fun t => (N.of_nat k < t)%N) r ≫= fun t => [(N.of_nat k, t)])
      ++ row_edges (S k) rows'
  end.

Lemma scan_rows_ok all k rows d d' :
  dg_scan_rows all k rows d = Ok d' <->
  (forall i r, rows !! i = Some r ->
     NoDup r /\ forall t, t ∈ r -> valid_entry all (N.of_nat (k + i)) t) /\
  d' = mkDG (foldl (fun m i => <[N.of_nat i := i]> m) (dg_indices d) (seq k (length rows)))
            (dg_adjacency d)
            (dg_nodes d ++ map N.of_nat (seq k (length rows)))
            (dg_edges d ++ row_edges k rows).
Proof.
  revert k d. induction rows as [|r rows IH]; intros k d; cbn [dg_scan_rows].
  { simpl. rewrite !app_nil_r. destruct d; simpl. naive_solver. }
  split.
  - intros (es & Hes & H)%cbind_ok. apply scan_row_ok in Hes as (Hnd & Hv & ->).
    apply IH in H as [Hrows ->]. split.
    + intros [|i] r' Hi; simplify_eq/=.
      * rewrite Nat.add_0_r. done.
      * rewrite Nat.add_succ_r. by apply (Hrows i).
    + simpl. f_equal; by rewrite <-app_assoc.
  - intros [Hrows ->]. apply cbind_ok. eexists. split.
    { apply scan_row_ok. destruct (Hrows 0 r eq_refl) as [Hnd Hv].
      rewrite Nat.add_0_r in Hv. split_and!; [done|done|reflexivity]. }
    apply IH. split.
    + intros i r' Hi. specialize (Hrows (S i) r' Hi). by rewrite Nat.add_succ_r in Hrows.
    + simpl. f_equal; by rewrite <-app_assoc.
Qed.

Lemma foldl_insert_seq (m : gmap N nat) k n v j :
  foldl (fun m i => <[N.of_nat i := i]> m) m (seq k n) !! v = Some j <->
  (exists i, k <= i < k + n /\ v = N.of_nat i /\ j = i) \/
  ((forall i, k <= i < k + n -> v <> N.of_nat i) /\ m !! v = Some j).
Proof.
  revert k m. induction n as [|n IH]; intros k m; simpl.
  { split; [intros H; right; split; [lia|done]|]. intros [(i & ? & _)|[_ ?]]; [lia|done]. }
  rewrite IH. destruct (decide (v = N.of_nat k)) as [->|Hv].
  - rewrite lookup_insert. split.
    + intros [(i & ? & ? & ->)|[_ [= <-]]]; [lia|]. left. exists k. split_and!; first [lia|done].
    + intros [(i & ? & ? & ->)|[Hn _]].
      * right. assert (i = k) as -> by lia. split; [lia|done].
      * exfalso. apply (Hn k); [lia|done].
  - rewrite lookup_insert_ne by done. split.
    + intros [(i & ? & ? & ->)|[Hn ?]].
      * left. exists i. split_and!; first [lia|done].
      * right. split; [|done]. intros i Hi ->. destruct (decide (i = k)) as [->|]; [done|].
        apply (Hn i); [lia|done].
    + intros [(i & ? & -> & ->)|[Hn ?]].
      * left. exists i. assert (i <> k) by (intros ->; done). split_and!; first [lia|done].
      * right. split; [|done]. intros i Hi. apply Hn. lia.
Qed.

Definition adjacency_graph (rows : list (list N)) : DefaultGraph :=
  mkDG (foldl (fun m i => <[N.of_nat i := i]> m) ∅ (seq 0 (length rows)))
       rows (map N.of_nat (seq 0 (length rows))) (row_edges 0 rows).

Lemma try_from_adjacency_ok rows d :
  dg_try_from_adjacency rows = Ok d <-> valid_rows rows /\ d = adjacency_graph rows.
Proof.
  unfold dg_try_from_adjacency. split.
  - intros (d' & [Hv ->]%scan_rows_ok & [= <-])%cbind_ok. done.
  - intros [Hv ->]. apply cbind_ok. eexists. split.
    { apply scan_rows_ok. split; [exact Hv|reflexivity]. }
    done.
Qed.

Lemma lookup_map_of_nat_seq n i v :
  map N.of_nat (seq 0 n) !! i = Some v <-> v = N.of_nat i /\ i < n.
Proof.
  rewrite list_lookup_fmap. split.
  - intros (j & [-> ?]%lookup_seq & ->)%fmap_Some. done.
  - intros [-> Hi]. rewrite fmap_Some. exists i. by rewrite lookup_seq.
Qed.

Lemma elem_of_map_of_nat_seq n v :
  v ∈ map N.of_nat (seq 0 n) <-> N.to_nat v < n.
Proof.
  rewrite elem_of_list_lookup. setoid_rewrite lookup_map_of_nat_seq. split.
  - intros (i & -> & Hi). lia.
  - intros Hv. exists (N.to_nat v). split; [lia|done].
Qed.

Lemma elem_of_row_edges k rows u v :
  (u, v) ∈ row_edges k rows <->
  exists i r, rows !! i = Some r /\ u = N.of_nat (k + i) /\ v ∈ r /\ (u < v)%N.
Proof.
  revert k. induction rows as [|r rows IH]; intros k; simpl.
  { rewrite elem_of_nil. split; [done|]. intros (i & r & Hi & _). by rewrite lookup_nil in Hi. }
  rewrite elem_of_app, IH, elem_of_list_bind. setoid_rewrite elem_of_list_singleton.
  setoid_rewrite elem_of_list_filter. split.
  - intros [(t & [= -> ->] & Hlt & Hin)|(i & r' & Hi & -> & Hin & Hlt)].
    + exists 0, r. rewrite Nat.add_0_r. done.
    + exists (S i), r'. rewrite Nat.add_succ_r. done.
  - intros ([|i] & r' & Hi & -> & Hin & Hlt); simplify_eq/=.
    + left. exists v. rewrite Nat.add_0_r in *. done.
    + right. exists i, r'. rewrite Nat.add_succ_r in *. done.
Qed.

Lemma row_edges_nodup k rows :
  (forall i r, rows !! i = Some r -> NoDup r) -> NoDup (row_edges k rows).
Proof.
  revert k. induction rows as [|r rows IH]; intros k Hnd; simpl; [constructor|].
  apply NoDup_app. split_and!.
  - assert (Hr : NoDup (filter (fun t => (N.of_nat k < t)%N) r)).
    { apply NoDup_filter. by apply (Hnd 0). }
    induction Hr as [|x l Hx Hl IHl]; simpl; [constructor|].
    apply NoDup_cons. split; [|done].
    rewrite elem_of_list_bind. intros (t & [= ->]%elem_of_list_singleton & Ht). done.
  - intros [a b] (t & [= -> ->]%elem_of_list_singleton & Ht)%elem_of_list_bind.
    rewrite elem_of_row_edges. intros (i & r' & Hi & Heq & _). lia.
  - apply IH. intros i r' Hi. by apply (Hnd (S i)).
Qed.

Section adjacency.
  Context (rows : list (list N)) (Hv : valid_rows rows).
  Let d := adjacency_graph rows.

  Lemma adjacency_idx : IdxOk d.
  Proof.
    split; simpl.
    - intros v i. rewrite foldl_insert_seq, lookup_map_of_nat_seq, lookup_empty.
      split; [intros [(j & ? & -> & ->)|[_ ?]]; [split; [done|lia]|done]|].
      intros [-> Hi]. left. exists i. split_and!; first [lia|done].
    - by rewrite map_length, seq_length.
  Qed.

  Lemma adjacency_row v : row d v = default [] (rows !! N.to_nat v).
  Proof.
    unfold row. destruct (dg_indices d !! v) as [i|] eqn:E; simpl.
    - apply (ix_iff d adjacency_idx) in E. simpl in E.
      apply lookup_map_of_nat_seq in E as [-> _]. by rewrite Nat2N.id.
    - destruct (rows !! N.to_nat v) as [r|] eqn:Er; [|done].
      assert (Hin : v ∈ dg_nodes d).
      { simpl. apply elem_of_map_of_nat_seq. by eapply lookup_lt_Some. }
      apply (ix_in d adjacency_idx) in Hin. rewrite E in Hin. by destruct Hin.
  Qed.

  Lemma adjacency_row_elem u v :
    v ∈ row d u <-> exists r, rows !! N.to_nat u = Some r /\ v ∈ r.
  Proof.
    rewrite adjacency_row. destruct (rows !! N.to_nat u) as [r|]; simpl.
    - naive_solver.
    - rewrite elem_of_nil. naive_solver.
  Qed.

  Lemma adjacency_sym u v : v ∈ row d u -> u ∈ row d v.
  Proof.
    rewrite !adjacency_row_elem. intros (r & Hr & Hin).
    destruct (Hv _ _ Hr) as [_ Ht]. destruct (Ht v Hin) as (r' & Hr' & Hin').
    rewrite N2Nat.id in Hin'. eauto.
  Qed.

  Lemma adjacency_wf : WF d.
  Proof.
    split.
    - apply adjacency_idx.
    - intros u v Huv%adjacency_sym. apply adjacency_row_elem in Huv as (r & Hr & _).
      simpl. apply elem_of_map_of_nat_seq. by eapply lookup_lt_Some.
    - apply adjacency_sym.
    - intros u. apply NoDup_filter. rewrite adjacency_row.
      destruct (rows !! N.to_nat u) as [r|] eqn:E; simpl; [|constructor].
      by destruct (Hv _ _ E).
    - simpl. apply row_edges_nodup. intros i r Hr. by destruct (Hv i r Hr).
    - intros u v. simpl. rewrite elem_of_row_edges.
      intros (i & r & Hr & -> & Hin & _). apply adjacency_row_elem.
      rewrite Nat.add_0_l, Nat2N.id. eauto.
    - intros u v Hne Huv. pose proof (adjacency_sym _ _ Huv) as Hvu.
      apply adjacency_row_elem in Huv as (r & Hr & Hin).
      apply adjacency_row_elem in Hvu as (r' & Hr' & Hin').
      simpl. rewrite !elem_of_row_edges.
      destruct (N.lt_gt_cases u v) as [[Hlt|Hlt] _]; [done|..].
      + left. exists (N.to_nat u), r. rewrite Nat.add_0_l, N2Nat.id. done.
      + right. exists (N.to_nat v), r'. rewrite Nat.add_0_l, N2Nat.id. done.
    - intros u v. simpl. rewrite !elem_of_row_edges.
      intros (? & ? & _ & _ & _ & ?) (? & ? & _ & _ & _ & ?). lia.
  Qed.
End adjacency.

(** *** Every API graph is well formed *)

Lemma wf_c_next fuel g c d c' : c_next fuel g c = Ok (Some d, c') -> WF d.
Proof.
  unfold c_next. destruct (c_skip _ _) as [[root it]|]; [|done].
  intros (t & Ht & H)%cbind_ok. apply cbind_ok in H as (comp & Hc & H).
  apply unwrap_ok in Hc. assert (WF comp) by (eapply wf_extend_dfs, Hc; apply wf_new).
  destruct (dg_is_empty comp).
  - apply cbind_ok in H as (comp' & Hc' & H). apply unwrap_ok in Hc'. simplify_eq.
    by eapply wf_local_add_node.
  - by simplify_eq.
Qed.

Lemma api_wf d : Api d -> WF d.
Proof.
  induction 1 as [|d id _ IH|d s t _ IH|rows d H|es d H|fuel g t d H|fuel g c d c' H].
  - apply wf_new.
  - by apply wf_add_node.
  - by apply wf_add_edge.
  - apply try_from_adjacency_ok in H as [Hv ->]. by apply adjacency_wf.
  - eapply wf_extend_edges, H. apply wf_new.
  - eapply wf_extend_dfs, H. apply wf_new.
  - by eapply wf_c_next.
Qed.

Lemma adj_row d u v : IdxOk d -> adj (as_graph d) u v <-> v ∈ row d u.
Proof.
  intros Hi. unfold adj. simpl. split.
  - intros (l & Hl & Hin). destruct (decide (u ∈ dg_nodes d)) as [Hu|Hu].
    + rewrite (neighbors_in d Hi u Hu) in Hl. by simplify_eq.
    + by rewrite (neighbors_out d Hi u Hu) in Hl.
  - intros Hin. exists (row d u). split; [|done].
    apply neighbors_in; [done|]. by eapply row_in.
Qed.

Lemma wf_lawful d : WF d -> Lawful (as_graph d).
Proof.
  intros Hwf. pose proof (wf_idx d Hwf) as Hi. split; simpl.
  - by apply ix_nodup.
  - apply is_empty_true.
  - done.
  - done.
  - apply (has_node_true d Hi).
  - intros v Hv. exists (row d v). split; [by apply neighbors_in|by apply wf_nodup].
  - apply (neighbors_out d Hi).
  - intros u v. rewrite adj_row by done. by apply wf_mem.
  - intros u v. rewrite !adj_row by done. by apply wf_sym.
  - intros v l Hl. destruct (decide (v ∈ dg_nodes d)) as [Hv|Hv].
    + rewrite (neighbors_in d Hi v Hv) in Hl. simplify_eq. by apply degree_in.
    + by rewrite (neighbors_out d Hi v Hv) in Hl.
  - apply (degree_out d Hi).
  - intros u v Hu Hv. exists (bool_decide (v ∈ row d u)).
    split; [by apply has_edge_in|]. rewrite bool_decide_eq_true, adj_row; done.
  - intros u v Hu. by apply has_edge_out_l.
  - intros u v Hu Hv. by apply has_edge_out_r.
  - by apply wf_edges_nodup.
  - intros u v Huv. apply adj_row; [done|]. by apply wf_edges_row.
  - intros u v Hne Huv%adj_row; [|done]. by apply wf_edges_complete.
  - by apply wf_edges_once.
Qed.

Lemma api_lawful d : Api d -> Lawful (as_graph d).
Proof. intros H. apply wf_lawful, api_wf, H. Qed.

(** The conversions from adjacency and from edge lists. *)
From Verif Require Import Outcome GraphModel TraversalModel ComponentsModel PairingModel Spec GraphProofs EditProofs.

(** ** C10 *)

Definition edef (rows : list (list N)) (s t : N) (post : list N) : option error :=
  match rows !! N.to_nat t with
  | None => Some (MissingNode t)
  | Some r' =>
      if bool_decide (t ∈ post) then Some (DuplicateEdge s t)
      else if bool_decide (s ∈ r') then None
      else Some (MissingEdge t s)
  end.

Lemma entry_defect_edef rows i j :
  entry_defect rows i j =
  match rows !! i with
  | None => None
  | Some r => match r !! j with
              | None => None
              | Some t => edef rows (N.of_nat i) t (drop (S j) r)
              end
  end.
Proof. done. Qed.

Lemma scan_row_cases rows s rest es :
  (exists es', dg_scan_row rows s rest es = Ok es' /\
     forall j t, rest !! j = Some t -> edef rows s t (drop (S j) rest) = None) \/
  (exists e j t, dg_scan_row rows s rest es = Err e /\ rest !! j = Some t /\
     edef rows s t (drop (S j) rest) = Some e /\
     forall j' t', j' < j -> rest !! j' = Some t' -> edef rows s t' (drop (S j') rest) = None).
Proof.
  revert es. induction rest as [|t rest IH]; intros es; cbn [dg_scan_row].
  { left. exists es. split; [done|]. intros j t Hj. by rewrite lookup_nil in Hj. }
  destruct (N.leb_spec (N.of_nat (length rows)) t) as [Hle|Hlt].
  { right. exists (MissingNode t), 0, t. split_and!; [done|done| |lia].
    unfold edef. rewrite lookup_ge_None_2 by lia. done. }
  destruct (lookup_lt_is_Some_2 rows (N.to_nat t)) as [r Hr]; [lia|].
  unfold index. rewrite Hr. simpl.
  case_bool_decide as Hdup.
  { right. exists (DuplicateEdge s t), 0, t. split_and!; [done|done| |lia].
    unfold edef. rewrite Hr. simpl. rewrite drop_0. by rewrite bool_decide_eq_true_2. }
  case_bool_decide as Hsr.
  2:{ right. exists (MissingEdge t s), 0, t. split_and!; [done|done| |lia].
      unfold edef. rewrite Hr. simpl. rewrite drop_0.
      rewrite bool_decide_eq_false_2 by done. by rewrite bool_decide_eq_false_2. }
  assert (Ht : edef rows s t rest = None).
  { unfold edef. rewrite Hr. rewrite bool_decide_eq_false_2 by done.
    by rewrite bool_decide_eq_true_2. }
  edestruct IH as [(es' & E & H)|(e & j & t' & E & Hj & He & H)].
  - left. exists es'. split; [exact E|].
    intros [|j] t' Hj; simpl in *.
    + injection Hj as <-. by rewrite drop_0.
    + by apply H.
  - right. exists e, (S j), t'. split_and!; [exact E|done|done|].
    intros [|j'] t'' Hlt' Hj'; simpl in *.
    + injection Hj' as <-. by rewrite drop_0.
    + apply H; [lia|done].
Qed.

Lemma scan_rows_cases all k rows d :
  (forall i, rows !! i = all !! (k + i)) ->
  (exists d', dg_scan_rows all k rows d = Ok d' /\
     forall i j, k <= i -> entry_defect all i j = None) \/
  (exists e i j, dg_scan_rows all k rows d = Err e /\ k <= i /\
     entry_defect all i j = Some e /\
     forall i' j', k <= i' -> entry_before i' j' i j -> entry_defect all i' j' = None).
Proof.
  revert k d. induction rows as [|r rows IH]; intros k d Hrows; cbn [dg_scan_rows].
  { left. exists d. split; [done|]. intros i j Hi. unfold entry_defect.
    replace i with (k + (i - k)) by lia. by rewrite <-Hrows, lookup_nil. }
  assert (Hk : all !! k = Some r).
  { specialize (Hrows 0). rewrite Nat.add_0_r in Hrows. by rewrite <-Hrows. }
  destruct (scan_row_cases all (N.of_nat k) r (dg_edges d))
    as [(es' & E & H)|(e & j & t & E & Hj & He & H)]; rewrite E; simpl.
  - assert (Hrow : forall j, entry_defect all k j = None).
    { intros j. rewrite entry_defect_edef, Hk. destruct (r !! j) eqn:Ej; [|done]. by apply H. }
    edestruct (IH (S k)) as [(d' & E' & H')|(e & i & j & E' & Hi & He & H')].
    { intros i. specialize (Hrows (S i)). simpl in Hrows. rewrite Hrows. f_equal. lia. }
    + left. exists d'. split; [exact E'|]. intros i j Hi.
      destruct (decide (i = k)) as [->|]; [done|]. apply H'. lia.
    + right. exists e, i, j. split_and!; [exact E'|lia|done|].
      intros i' j' Hi' Hb. destruct (decide (i' = k)) as [->|]; [done|]. apply H'; [lia|done].
  - right. exists e, k, j. split_and!; [done|lia|by rewrite entry_defect_edef, Hk, Hj|].
    intros i' j' Hi' [?|[-> ?]]; [lia|]. rewrite entry_defect_edef, Hk.
    destruct (r !! j') as [t'|] eqn:Ej; [|done]. by apply (H j' t').
Qed.

Lemma try_from_adjacency_err rows e :
  dg_try_from_adjacency rows = Err e <->
  exists i j, entry_defect rows i j = Some e /\
    forall i' j', entry_before i' j' i j -> entry_defect rows i' j' = None.
Proof.
  unfold dg_try_from_adjacency.
  destruct (scan_rows_cases rows 0 rows dg_new)
    as [(d' & E & H)|(e' & i & j & E & _ & He & H)]; [done|..]; rewrite E; simpl.
  - split; [done|]. intros (i & j & Hd & _). by rewrite H in Hd by lia.
  - split.
    + intros [= <-]. exists i, j. split; [done|]. intros i' j' Hb. apply H; [lia|done].
    + intros (i0 & j0 & He0 & H0).
      assert (i0 = i /\ j0 = j) as [-> ->]; [|congruence].
      destruct (Nat.lt_trichotomy i0 i) as [Hlt|[->|Hlt]].
      * rewrite (H i0 j0) in He0; [done|lia|by left].
      * destruct (Nat.lt_trichotomy j0 j) as [Hlt|[->|Hlt]]; [|done|].
        -- rewrite (H i j0) in He0; [done|lia|by right].
        -- rewrite (H0 i j) in He; [done|by right].
      * rewrite (H0 i j) in He; [done|by left].
Qed.

Lemma try_from_adjacency_total rows : total (dg_try_from_adjacency rows).
Proof.
  unfold dg_try_from_adjacency.
  destruct (scan_rows_cases rows 0 rows dg_new)
    as [(d' & E & H)|(e' & i & j & E & _ & He & H)]; [done|..]; by rewrite E.
Qed.

(** ** C09 *)

Lemma try_from_adjacency_spec rows :
  ((exists d, dg_try_from_adjacency rows = Ok d) <-> valid_rows rows) /\
  forall d, dg_try_from_adjacency rows = Ok d ->
    g_nodes (as_graph d) = N.of_nat <$> seq 0 (length rows) /\
    forall i, g_neighbors (as_graph d) i =
      match rows !! N.to_nat i with Some r => Ok r | None => Err (MissingNode i) end.
Proof.
  split.
  - split.
    + intros [d [Hv _]%try_from_adjacency_ok]. done.
    + intros Hv. exists (adjacency_graph rows). by apply try_from_adjacency_ok.
  - intros d [Hv ->]%try_from_adjacency_ok. split; [done|]. intros i.
    pose proof (adjacency_idx rows) as Hi.
    change (g_neighbors (as_graph (adjacency_graph rows)) i)
      with (dg_neighbors (adjacency_graph rows) i).
    destruct (rows !! N.to_nat i) as [r|] eqn:E.
    + rewrite neighbors_in; [|done|].
      * by rewrite adjacency_row, E.
      * simpl. apply elem_of_map_of_nat_seq. by eapply lookup_lt_Some.
    + rewrite neighbors_out; [done|done|]. simpl. rewrite elem_of_map_of_nat_seq.
      apply lookup_ge_None in E. lia.
Qed.

(** ** C11 *)

Lemma same_edge_sym e f : same_edge e f -> same_edge f e.
Proof. destruct e, f. unfold same_edge. simpl. naive_solver. Qed.

Lemma distinct_edges_app es f :
  distinct_edges (es ++ [f]) <->
  distinct_edges es /\ forall e, e ∈ es -> ~ same_edge e f.
Proof.
  unfold distinct_edges. split.
  - intros H. split.
    + intros i j e e' Hi Hj. apply (H i j e e'); by apply lookup_app_l_Some.
    + intros e [i Hi]%elem_of_list_lookup Hs.
      assert (i = length es).
      { apply (H i (length es) e f); [by apply lookup_app_l_Some| |done].
        rewrite lookup_app_r, Nat.sub_diag by lia. done. }
      apply lookup_lt_Some in Hi. lia.
  - intros [H Hf] i j e e' Hi Hj Hs.
    apply lookup_app_Some in Hi as [Hi|[Hi Hi']]; apply lookup_app_Some in Hj as [Hj|[Hj Hj']].
    + by eapply H.
    + apply list_lookup_singleton_Some in Hj' as [_ <-].
      exfalso. eapply Hf; [|exact Hs]. by eapply elem_of_list_lookup_2.
    + apply list_lookup_singleton_Some in Hi' as [_ <-].
      exfalso. eapply (Hf e'); [|by apply same_edge_sym]. by eapply elem_of_list_lookup_2.
    + apply list_lookup_singleton_Some in Hj' as [? _].
      apply list_lookup_singleton_Some in Hi' as [? _]. lia.
Qed.

Definition mention (acc : list N) (x : N) : list N :=
  if bool_decide (x ∈ acc) then acc else acc ++ [x].

Lemma mention_step d x : WF d ->
  exists d', (if dg_has_node d x then Ok d else local (dg_add_node d x)) = Ok d' /\ WF d' /\
    dg_nodes d' = mention (dg_nodes d) x /\ dg_edges d' = dg_edges d /\
    (forall w, row d' w = row d w) /\ x ∈ dg_nodes d'.
Proof.
  intros Hwf. pose proof (wf_idx d Hwf) as Hi. unfold mention.
  destruct (dg_has_node d x) eqn:E.
  - apply (has_node_true d Hi) in E. exists d. rewrite bool_decide_eq_true_2 by done. done.
  - assert (Hx : x ∉ dg_nodes d) by (intros H; apply (has_node_true d Hi) in H; congruence).
    pose proof (wf_add_node d x Hwf) as Hwf'.
    destruct (add_node_new d Hi x Hx) as (d' & E' & Hi' & Hn & He & Hr).
    rewrite E' in Hwf' |- *. exists d'. simpl. rewrite bool_decide_eq_false_2 by done.
    split_and!; try done. rewrite Hn. set_solver.
Qed.

(** [d] is what the edges [es] have produced so far. *)
Record Built (d : DefaultGraph) (es : list (N * N)) : Prop := {
  bl_wf : WF d;
  bl_edges : dg_edges d = es;
  bl_nodes : dg_nodes d = first_mentions (endpoints es);
  bl_distinct : distinct_edges es;
  bl_rows : forall u, row d u = a_neighbors (mkA [] es) u
}.
Lemma bl_row d es : Built d es -> forall u v, v ∈ row d u <-> (u, v) ∈ es \/ (v, u) ∈ es.
Proof. intros Hb u v. by rewrite (bl_rows d es Hb), elem_of_a_neighbors. Qed.

Lemma built_step d es s t : Built d es ->
  (forall rest, ((s, t) ∈ es \/ (t, s) ∈ es) ->
     dg_extend_edges d ((s, t) :: rest) = Err (DuplicateEdge s t)) /\
  (~ ((s, t) ∈ es \/ (t, s) ∈ es) ->
     exists d', Built d' (es ++ [(s, t)]) /\
       forall rest, dg_extend_edges d ((s, t) :: rest) = dg_extend_edges d' rest).
Proof.
  intros Hb. pose proof (bl_row d es Hb) as Hrow. destruct Hb as [Hwf He Hn Hd Hrows].
  destruct (mention_step d s Hwf) as (d1 & E1 & Hwf1 & Hn1 & He1 & Hr1 & Hin1).
  destruct (mention_step d1 t Hwf1) as (d2 & E2 & Hwf2 & Hn2 & He2 & Hr2 & Hin2).
  assert (Hs2 : s ∈ dg_nodes d2).
  { rewrite Hn2. unfold mention. case_bool_decide; set_solver. }
  assert (Hr : forall w, row d2 w = row d w) by (intros; by rewrite Hr2).
  pose proof (wf_idx d2 Hwf2) as Hi2.
  split.
  - intros rest Hin. cbn [dg_extend_edges]. rewrite E1. simpl. rewrite E2. simpl.
    rewrite (add_edge_dup d2 Hi2 s t Hs2 Hin2); [done|]. rewrite Hr. by apply Hrow.
  - intros Hnin. assert (Hst : t ∉ row d2 s) by (rewrite Hr, Hrow; done).
    pose proof (wf_add_edge d2 s t Hwf2) as Hwf3.
    destruct (add_edge_new d2 Hi2 s t Hs2 Hin2 Hst) as (d3 & E3 & Hi3 & Hn3 & He3 & Hr3).
    rewrite E3 in Hwf3. simpl in Hwf3. exists d3. split.
    + split; [done|..].
      * rewrite He3, He2, He1, He. done.
      * rewrite Hn3, Hn2, Hn1, Hn. unfold endpoints, first_mentions.
        rewrite bind_app, foldl_app. simpl. done.
      * apply distinct_edges_app. split; [done|]. intros [a b] Hin [[= -> ->]|[= -> ->]]; tauto.
      * intros u. rewrite Hr3, Hr, Hrows. unfold a_neighbors. cbn [a_edges].
        rewrite bind_app. simpl. by rewrite app_nil_r.
    + intros rest. cbn [dg_extend_edges]. rewrite E1. simpl. rewrite E2. simpl.
      by rewrite E3.
Qed.

Lemma built_extend d es rest : Built d es ->
  (exists d', dg_extend_edges d rest = Ok d' /\ Built d' (es ++ rest)) \/
  (exists pre s t post, rest = pre ++ (s, t) :: post /\
     dg_extend_edges d rest = Err (DuplicateEdge s t) /\
     distinct_edges (es ++ pre) /\ ((s, t) ∈ es ++ pre \/ (t, s) ∈ es ++ pre)).
Proof.
  revert d es. induction rest as [|[s t] rest IH]; intros d es Hb.
  { left. exists d. rewrite app_nil_r. done. }
  destruct (built_step d es s t Hb) as [Hdup Hnew].
  destruct (decide ((s, t) ∈ es \/ (t, s) ∈ es)) as [Hin|Hin].
  - right. exists [], s, t, rest. rewrite app_nil_r. split_and!; [done|by apply Hdup| |done].
    by apply bl_distinct in Hb.
  - destruct (Hnew Hin) as (d' & Hb' & E). rewrite E.
    destruct (IH d' _ Hb') as [(d'' & E' & Hb'')|(pre & s' & t' & post & -> & E' & Hd & Hin')].
    + left. exists d''. split; [done|]. by rewrite <-app_assoc in Hb''.
    + right. exists ((s, t) :: pre), s', t', post. rewrite <-app_assoc in Hd, Hin'. done.
Qed.

Lemma built_new : Built dg_new [].
Proof.
  split; [apply wf_new|done|done| |].
  - intros i j e f Hi. by rewrite lookup_nil in Hi.
  - intros u. by rewrite row_new.
Qed.

Lemma try_from_edges_cases es :
  (exists d, dg_try_from_edges es = Ok d /\ Built d es) \/
  (exists pre s t post, es = pre ++ (s, t) :: post /\
     dg_try_from_edges es = Err (DuplicateEdge s t) /\
     distinct_edges pre /\ ((s, t) ∈ pre \/ (t, s) ∈ pre)).
Proof. apply (built_extend dg_new [] es built_new). Qed.

Lemma distinct_edges_not_dup pre s t post :
  distinct_edges (pre ++ (s, t) :: post) -> ~ ((s, t) ∈ pre \/ (t, s) ∈ pre).
Proof.
  intros Hd Hin.
  assert (exists e, e ∈ pre /\ same_edge e (s, t)) as (e & [i Hi]%elem_of_list_lookup & Hs).
  { destruct Hin; eexists; (split; [done|]); [by left|by right]. }
  assert (i = length pre).
  { apply (Hd i (length pre) e (s, t)); [by apply lookup_app_l_Some| |done].
    by rewrite lookup_app_r, Nat.sub_diag by lia. }
  apply lookup_lt_Some in Hi. lia.
Qed.

Lemma try_from_edges_ok es :
  (exists d, dg_try_from_edges es = Ok d) <-> distinct_edges es.
Proof.
  destruct (try_from_edges_cases es) as [(d & E & Hb)|(pre & s & t & post & -> & E & Hd & Hin)];
    rewrite E.
  - split; [intros _; by eapply bl_distinct|eauto].
  - split; [intros [d ?]; done|]. intros H%distinct_edges_not_dup. done.
Qed.

Lemma try_from_edges_result es d : dg_try_from_edges es = Ok d ->
  g_edges (as_graph d) = es /\ g_nodes (as_graph d) = first_mentions (endpoints es) /\
  (forall u v, adj (as_graph d) u v <-> (u, v) ∈ es \/ (v, u) ∈ es) /\
  observes d (mkA (first_mentions (endpoints es)) es).
Proof.
  destruct (try_from_edges_cases es) as [(d' & E & Hb)|
    (pre & s & t & post & -> & E & Hd & Hin)]; rewrite E; [|done].
  pose proof (bl_row d' es Hb) as Hrow. destruct Hb as [Hwf He Hn _ Hr].
  intros [= <-]. split; [done|]. split; [done|]. split.
  - intros u v. rewrite adj_row; [done|by apply wf_idx].
  - apply rep_observes. by split.
Qed.

(** ** The edges of an adjacency *)

Lemma scan_row_edges rows s rest es es' : dg_scan_row rows s rest es = Ok es' ->
  es' = es ++ ((s,.) <$> filter (fun t => (s < t)%N) rest).
Proof.
  revert es. induction rest as [|t rest IH]; intros es; cbn [dg_scan_row].
  { intros [= ->]. by rewrite app_nil_r. }
  destruct (_ <=? _)%N; [done|]. destruct (bool_decide _); [done|].
  destruct (index rows (N.to_nat t)) as [r| | |]; try done. cbn [cbind].
  destruct (bool_decide _); [|done]. intros ->%IH. rewrite filter_cons.
  destruct (N.ltb_spec s t).
  - rewrite decide_True by done. rewrite <-app_assoc. done.
  - by rewrite decide_False by lia.
Qed.

Lemma scan_rows_edges all k rows d d' : dg_scan_rows all k rows d = Ok d' ->
  dg_edges d' = dg_edges d ++ upper_entries k rows.
Proof.
  revert k d. induction rows as [|r rows IH]; intros k d; cbn [dg_scan_rows upper_entries].
  { intros [= ->]. by rewrite app_nil_r. }
  destruct (dg_scan_row all (N.of_nat k) r (dg_edges d)) as [es'| | |] eqn:E; try done. cbn [cbind].
  intros H%IH. rewrite H. cbn [dg_edges]. apply scan_row_edges in E as ->. by rewrite <-app_assoc.
Qed.

Lemma try_from_adjacency_edges rows d : dg_try_from_adjacency rows = Ok d ->
  g_edges (as_graph d) = upper_entries 0 rows.
Proof.
  unfold dg_try_from_adjacency. destruct (dg_scan_rows _ _ _ _) as [d'| | |] eqn:E; try done.
  cbn [cbind]. intros [= <-]. by apply scan_rows_edges in E.
Qed.

Lemma try_from_edges_err es e :
  dg_try_from_edges es = Err e <->
  exists pre s t post, es = pre ++ (s, t) :: post /\ distinct_edges pre /\
    ((s, t) ∈ pre \/ (t, s) ∈ pre) /\ e = DuplicateEdge s t.
Proof.
  destruct (try_from_edges_cases es) as [(d & E & Hb)|(pre & s & t & post & -> & E & Hd & Hin)];
    rewrite E.
  - split; [done|]. intros (pre & s & t & post & -> & _ & Hin & _).
    apply bl_distinct in Hb. by apply distinct_edges_not_dup in Hb.
  - split.
    + intros [= <-]. by exists pre, s, t, post.
    + intros (pre' & s' & t' & post' & Heq & Hd' & Hin' & ->).
      destruct (Nat.lt_trichotomy (length pre) (length pre')) as [Hlt|[Hlt|Hlt]].
      * exfalso. apply (distinct_edges_not_dup pre s t
          (take (length pre' - length pre - 1) post)); [|done].
        assert (pre' = pre ++ (s, t) :: take (length pre' - length pre - 1) post) as <-; [|done].
        assert (Hp : pre' = take (length pre') (pre' ++ (s', t') :: post')) by (by rewrite take_app).
        rewrite <-Heq in Hp. rewrite Hp at 1. rewrite take_app_ge by lia.
        f_equal. destruct (length pre' - length pre) as [|n] eqn:En; [lia|].
        simpl. by rewrite Nat.sub_0_r.
      * apply app_inj_1 in Heq as [_ [= -> -> _]]; done.
      * exfalso. apply (distinct_edges_not_dup pre' s' t'
          (take (length pre - length pre' - 1) post')); [|done].
        assert (pre = pre' ++ (s', t') :: take (length pre - length pre' - 1) post') as <-; [|done].
        assert (Hp : pre = take (length pre) (pre ++ (s, t) :: post)) by (by rewrite take_app).
        rewrite Heq in Hp. rewrite Hp at 1. rewrite take_app_ge by lia.
        f_equal. destruct (length pre - length pre') as [|n] eqn:En; [lia|].
        simpl. by rewrite Nat.sub_0_r.
Qed.

Lemma try_from_edges_total es : total (dg_try_from_edges es).
Proof.
  destruct (try_from_edges_cases es) as [(d & E & _)|(pre & s & t & post & -> & E & _)];
    by rewrite E.
Qed.

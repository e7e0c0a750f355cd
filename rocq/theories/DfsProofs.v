(** Depth-first traversal. *)
From Verif Require Import Outcome GraphModel TraversalModel ComponentsModel PairingModel Spec
  GraphProofs EditProofs ConvertProofs EqProofs TraversalProofs BfsProofs.

Lemma dfs_root g r steps : Lawful g -> depth_first g r steps -> r ∈ g_nodes g.
Proof.
  intros Hg (t & n & Ht & _). rewrite dfs_new_spec in Ht by done. by case_bool_decide.
Qed.

Lemma dfs_total g r : Lawful g -> r ∈ g_nodes g -> exists steps, depth_first g r steps.
Proof.
  intros Hg Hr. destruct (dfs_run g Hg r (fun _ _ _ => True) Hr) as (steps & V & Hb & _); eauto.
Qed.

Lemma dfs_facts g r steps : Lawful g -> depth_first g r steps -> exists V, TInv g r steps V [].
Proof.
  intros Hg Hb.
  destruct (dfs_run g Hg r (fun _ _ _ => True) (dfs_root g r steps Hg Hb))
    as (steps' & V & Hb' & HI & _); [done|done|].
  rewrite (depth_first_fun g r steps steps' Hb Hb'). eauto.
Qed.

Lemma dfs_cut_exact g r steps : Lawful g -> depth_first g r steps -> cut_exact r steps.
Proof. intros Hg Hb. destruct (dfs_facts g r steps Hg Hb) as (V & HI). apply (ti_cut _ _ _ _ _ HI). Qed.

Lemma dfs_sound g r steps : Lawful g -> depth_first g r steps ->
  (forall s, s ∈ steps -> adj g (sid s) (tid s) /\ reachable g r (sid s) /\ reachable g r (tid s)) /\
  NoDup (discovered r steps) /\
  (forall u v, u <> v -> times_crossed (u, v) (crossed steps) <= 1).
Proof.
  intros Hg Hb. destruct (dfs_facts g r steps Hg Hb) as (V & HI). split_and!.
  - intros s Hs. destruct (ti_emit _ _ _ _ _ HI s Hs) as (? & ? & ?).
    split_and!; [done|by apply (ti_reach _ _ _ _ _ HI)..].
  - apply (ti_nodup _ _ _ _ _ HI).
  - intros u v Hne. pose proof (ti_once _ _ _ _ _ HI u v Hne) as H. by rewrite app_nil_r in H.
Qed.

Lemma dfs_bound g r steps : Lawful g -> LoopFree g -> depth_first g r steps ->
  length steps <= g_size g.
Proof.
  intros Hg Hlf Hb. destruct (dfs_facts g r steps Hg Hb) as (V & HI). by eapply steps_bound.
Qed.

Lemma bfs_bound g r steps : Lawful g -> LoopFree g -> breadth_first g r steps ->
  length steps <= g_size g.
Proof.
  intros Hg Hlf Hb. destruct (bfs_facts g r steps Hg Hb) as (V & HI & _). by eapply steps_bound.
Qed.

Lemma dfs_fused g t t' : dfs_next g t = Ok (None, t') -> dfs_next g t' = Ok (None, t').
Proof.
  unfold dfs_next. destruct t as [V [|[p n] rest]]; simpl; [by intros [= <-]|].
  case_bool_decide; [done|]. intros (l & _ & ?)%cbind_ok. done.
Qed.

Lemma bfs_fused g t t' : bfs_next g t = Ok (None, t') -> bfs_next g t' = Ok (None, t').
Proof.
  unfold bfs_next. destruct t as [V [|[p n] rest]]; simpl; [by intros [= <-]|].
  case_bool_decide; [done|]. intros (l & _ & ?)%cbind_ok. done.
Qed.

(** A step source at position 0 is the root. *)
Lemma cut_exact_head r s steps : cut_exact r (s :: steps) -> sid s = r.
Proof.
  intros H. destruct (H 0 s eq_refl) as [_ [?|(j & _ & Hj & _)]]; [done|lia].
Qed.

(** A traversal yields nothing iff the root has no neighbors. *)
Lemma dfs_nil g r steps : Lawful g -> depth_first g r steps ->
  steps = [] <-> g_neighbors g r = Ok [].
Proof.
  intros Hg Hb. pose proof (dfs_root g r steps Hg Hb) as Hr.
  destruct Hb as (t & n & Ht & Hn). specialize (Hn (S n) ltac:(lia)).
  rewrite dfs_new_spec in Ht by done. rewrite bool_decide_eq_true_2 in Ht by done.
  injection Ht as <-. rewrite (lawful_nbrs g Hg r Hr).
  destruct (nbrs g r) as [|x l] eqn:E.
  - simpl in Hn. injection Hn as <-. done.
  - split; [|done]. intros ->. simpl in Hn. exfalso.
    apply cbind_ok in Hn as ([[s|] t'] & H1 & H2).
    + by apply cbind_ok in H2 as (? & _ & ?).
    + unfold dfs_next in H1. simpl in H1. case_bool_decide; [done|].
      by apply cbind_ok in H1 as (? & _ & ?).
Qed.

(** ** C27 *)

Lemma table_fold r steps nodes edges :
  (nodes = [] -> match steps with s :: _ => sid s = r | [] => True end) ->
  foldl table_step (nodes, edges) steps =
  (match steps with
   | [] => nodes
   | _ => (match nodes with [] => [r] | _ => nodes end) ++ (tid <$> filter (fun s => cut s = false) steps)
   end, edges ++ crossed steps).
Proof.
  revert nodes edges. induction steps as [|s steps IH]; intros nodes edges Hr; cbn [foldl].
  { simpl. by rewrite app_nil_r. }
  unfold table_step at 2. cbn [fst snd]. rewrite IH.
  - change (crossed (s :: steps)) with ([(sid s, tid s)] ++ crossed steps).
    rewrite <-(app_assoc edges). f_equal. rewrite filter_cons.
    assert (Hn : match nodes with [] => [sid s] | _ :: _ => nodes end =
                 match nodes with [] => [r] | _ :: _ => nodes end).
    { destruct nodes; [by rewrite Hr|done]. }
    rewrite Hn. destruct (cut s); simpl.
    + destruct steps; [|destruct nodes; done]. simpl. by rewrite app_nil_r.
    + destruct steps as [|s' steps]; [by destruct nodes|].
      destruct nodes; simpl; [done|]. by rewrite <-app_assoc.
  - destruct nodes; destruct (cut s); simpl; done.
Qed.

Lemma into_table_spec g r steps : Lawful g -> depth_first g r steps ->
  exists t n, dfs_new g r = Ok t /\ forall fuel, n <= fuel ->
    dfs_into_table fuel g t =
      Ok (if bool_decide (steps = []) then ([], []) else (discovered r steps, crossed steps)).
Proof.
  intros Hg Hb. pose proof (dfs_cut_exact g r steps Hg Hb) as Hc.
  destruct Hb as (t & n & Ht & Hn). exists t, n. split; [done|]. intros fuel Hf.
  unfold dfs_into_table. rewrite (Hn fuel Hf). simpl. f_equal.
  rewrite (table_fold r) by (intros _; destruct steps; [done|by apply cut_exact_head in Hc]).
  destruct steps; [done|]. rewrite bool_decide_eq_false_2 by done. done.
Qed.

(** ** C28 *)

Fixpoint apply_steps (steps : list Step) (result : DefaultGraph) : comp DefaultGraph :=
  match steps with
  | [] => Ok result
  | step :: steps' =>
      let! r1 := (if dg_is_empty result
                  then local (dg_add_node result (sid step)) else Ok result) in
      let! r2 := (if cut step then Ok r1
                  else local (dg_add_node r1 (tid step))) in
      let! r3 := local (dg_add_edge r2 (sid step) (tid step)) in
      apply_steps steps' r3
  end.

Lemma extend_dfs_apply fuel g t steps d :
  dfs_collect fuel g t = Ok steps -> dg_extend_dfs fuel g t d = apply_steps steps d.
Proof.
  revert t steps d. induction fuel as [|fuel IH]; intros t steps d H; [done|]. simpl in *.
  destruct (dfs_next g t) as [[[s|] t']| | |]; simpl in *; [|by injection H as <-|done..].
  apply cbind_ok in H as (steps' & Hs & [= <-]). simpl.
  destruct (if dg_is_empty d then _ else _) as [d1| | |]; simpl; [|done..].
  destruct (if cut s then _ else _) as [d2| | |]; simpl; [|done..].
  destruct (local _) as [d3| | |]; simpl; [|done..]. by apply IH.
Qed.

Record DBuilt (r : N) (d : DefaultGraph) (E : list Step) : Prop := {
  db_wf : WF d;
  db_edges : dg_edges d = crossed E;
  db_nodes : dg_nodes d = match E with [] => [] | _ => discovered r E end;
  db_row : forall u v, v ∈ row d u <-> (u, v) ∈ crossed E \/ (v, u) ∈ crossed E;
  db_rows : forall u, row d u = a_neighbors (mkA [] (crossed E)) u
}.

Lemma dbuilt_new r : DBuilt r dg_new [].
Proof.
  split; [apply wf_new|done|done| |].
  - intros u v. rewrite row_new. simpl. set_solver.
  - intros u. by rewrite row_new.
Qed.

Lemma add_node_local d v : WF d -> v ∉ dg_nodes d ->
  exists d', local (dg_add_node d v) = Ok d' /\ WF d' /\
    dg_nodes d' = dg_nodes d ++ [v] /\ dg_edges d' = dg_edges d /\ forall w, row d' w = row d w.
Proof.
  intros Hwf Hv. pose proof (wf_idx d Hwf) as Hi. pose proof (wf_add_node d v Hwf) as Hwf'.
  destruct (add_node_new d Hi v Hv) as (d' & E & Hi' & Hn & He & Hr).
  rewrite E in Hwf' |- *. by exists d'.
Qed.

Lemma add_edge_local d s t : WF d -> s ∈ dg_nodes d -> t ∈ dg_nodes d -> t ∉ row d s ->
  exists d', local (dg_add_edge d s t) = Ok d' /\ WF d' /\
    dg_nodes d' = dg_nodes d /\ dg_edges d' = dg_edges d ++ [(s, t)] /\
    (forall u v, v ∈ row d' u <-> v ∈ row d u \/ (s = u /\ v = t) \/ (t = u /\ v = s)) /\
    (forall w, row d' w = row d w ++ (if bool_decide (s = w) then [t] else [])
                                   ++ (if bool_decide (t = w) then [s] else [])).
Proof.
  intros Hwf Hs Ht Hst. pose proof (wf_idx d Hwf) as Hi. pose proof (wf_add_edge d s t Hwf) as Hwf'.
  destruct (add_edge_new d Hi s t Hs Ht Hst) as (d' & E & Hi' & Hn & He & Hr).
  rewrite E in Hwf' |- *. exists d'. split_and!; try done.
  intros u v. rewrite Hr. by apply elem_of_row_app.
Qed.

(** Facts about a list of steps that suffice to build a graph from them. *)
Lemma dbuilt_step r d E s :
  DBuilt r d E ->
  (E = [] -> sid s = r) ->
  sid s ∈ discovered r E ->
  (cut s = true -> tid s ∈ discovered r E) ->
  (cut s = false -> tid s ∉ discovered r E) ->
  ~ ((sid s, tid s) ∈ crossed E \/ (tid s, sid s) ∈ crossed E) ->
  exists d', DBuilt r d' (E ++ [s]) /\
    forall steps, apply_steps (s :: steps) d = apply_steps steps d'.
Proof.
  intros [Hwf He Hn Hr Hrows] Hfirst Hsid Hcut Hncut Hnew.
  assert (exists d1, (if dg_is_empty d then local (dg_add_node d (sid s)) else Ok d) = Ok d1 /\
    WF d1 /\ dg_nodes d1 = discovered r E /\ dg_edges d1 = dg_edges d /\
    forall w, row d1 w = row d w) as (d1 & E1 & Hwf1 & Hn1 & He1 & Hr1).
  { destruct E as [|e0 E0].
    - assert (dg_is_empty d = true) as -> by (by apply is_empty_true).
      destruct (add_node_local d (sid s) Hwf) as (d1 & -> & Hwf1 & Hn1 & He1 & Hr1).
      { rewrite Hn. set_solver. }
      exists d1. split_and!; try done. rewrite Hn1, Hn, (Hfirst eq_refl). done.
    - destruct (dg_is_empty d) eqn:Ed; [apply is_empty_true in Ed; by rewrite Hn in Ed|].
      by exists d. }
  assert (exists d2, (if cut s then Ok d1 else local (dg_add_node d1 (tid s))) = Ok d2 /\
    WF d2 /\ dg_nodes d2 = discovered r (E ++ [s]) /\ dg_edges d2 = dg_edges d /\
    forall w, row d2 w = row d w) as (d2 & E2 & Hwf2 & Hn2 & He2 & Hr2).
  { rewrite discovered_snoc. destruct (cut s) eqn:Ec.
    - exists d1. rewrite app_nil_r. done.
    - destruct (add_node_local d1 (tid s) Hwf1) as (d2 & -> & Hwf2 & Hn2 & He2 & Hr2).
      { rewrite Hn1. by apply Hncut. }
      exists d2. split_and!; try done; [by rewrite Hn2, Hn1|by rewrite He2|].
      intros w. by rewrite Hr2. }
  destruct (add_edge_local d2 (sid s) (tid s) Hwf2) as (d3 & E3 & Hwf3 & Hn3 & He3 & Hr3 & Hr3').
  { rewrite Hn2, discovered_snoc. set_solver. }
  { rewrite Hn2, discovered_snoc. destruct (cut s) eqn:Ec; [rewrite app_nil_r; by apply Hcut|].
    set_solver. }
  { rewrite Hr2, Hr. done. }
  exists d3. split.
  - split; [done|..].
    + rewrite He3, He2, He. by rewrite crossed_app.
    + rewrite Hn3, Hn2. destruct E; done.
    + intros u v. rewrite Hr3, Hr2, Hr, crossed_app. simpl.
      rewrite !elem_of_app, !elem_of_list_singleton. naive_solver.
    + intros u. rewrite Hr3', Hr2, Hrows, crossed_app. unfold a_neighbors. cbn [a_edges].
      rewrite bind_app. simpl. by rewrite app_nil_r.
  - intros steps. cbn [apply_steps]. rewrite E1. simpl. rewrite E2. simpl. by rewrite E3.
Qed.

Lemma times_crossed_prefix e l k : times_crossed e l <= times_crossed e (l ++ k).
Proof. rewrite times_crossed_app. lia. Qed.

Lemma discovered_prefix r E F v : v ∈ discovered r E -> v ∈ discovered r (E ++ F).
Proof.
  unfold discovered. rewrite filter_app, fmap_app. rewrite !elem_of_cons, elem_of_app. tauto.
Qed.

Lemma cut_exact_prefix r E F : cut_exact r (E ++ F) -> cut_exact r E.
Proof.
  intros H i s Hi. pose proof (lookup_lt_Some _ _ _ Hi) as Hlt.
  destruct (H i s) as [H1 H2]; [by apply lookup_app_l_Some|]. split.
  - rewrite H1. split; (intros [?|(j & x & Hj & Hx & Heq)]; [by left|right]); exists j, x.
    + split; [done|]. split; [by rewrite lookup_app_l in Hx by lia|done].
    + split; [done|]. split; [by apply lookup_app_l_Some|done].
  - destruct H2 as [?|(j & x & Hj & Hx & Heq)]; [by left|right]. exists j, x.
    split; [done|]. split; [by rewrite lookup_app_l in Hx by lia|done].
Qed.

Lemma apply_steps_ok r E steps d :
  DBuilt r d E -> cut_exact r (E ++ steps) ->
  (forall s, s ∈ steps -> sid s <> tid s) ->
  (forall u v, u <> v -> times_crossed (u, v) (crossed (E ++ steps)) <= 1) ->
  NoDup (discovered r (E ++ steps)) ->
  exists d', apply_steps steps d = Ok d' /\ DBuilt r d' (E ++ steps).
Proof.
  revert E d. induction steps as [|s steps IH]; intros E d Hd Hc Hne Honce Hnd.
  { exists d. by rewrite app_nil_r. }
  assert (Hc' : cut_exact r ((E ++ [s]) ++ steps)) by (by rewrite <-app_assoc).
  pose proof (cut_exact_prefix r (E ++ [s]) steps Hc') as Hcs.
  destruct (Hcs (length E) s) as [Hcut Hsid].
  { by rewrite lookup_app_r, Nat.sub_diag by lia. }
  assert (Hdisc : forall v j x, j < length E -> (E ++ [s]) !! j = Some x -> cut x = false ->
    tid x = v -> v ∈ discovered r E).
  { intros v j x Hj Hx Hcx <-. rewrite lookup_app_l in Hx by lia. right.
    apply elem_of_list_fmap. exists x. split; [done|]. apply elem_of_list_filter.
    split; [done|]. by eapply elem_of_list_lookup_2. }
  assert (Htgt : forall x, x ∈ E -> tid x ∈ discovered r E).
  { intros x [j Hj]%elem_of_list_lookup. clear -Hj Hcs.
    revert x Hj. induction j as [j IH] using lt_wf_ind. intros x Hj.
    pose proof (lookup_lt_Some _ _ _ Hj) as Hlt.
    destruct (cut x) eqn:Ec.
    - destruct (Hcs j x) as [Hcut _]; [by apply lookup_app_l_Some|].
      apply Hcut in Ec as [->|(k & y & Hk & Hy & <-)]; [left|].
      rewrite lookup_app_l in Hy by lia. by apply (IH k).
    - right. apply elem_of_list_fmap. exists x. split; [done|]. apply elem_of_list_filter.
      split; [done|]. by eapply elem_of_list_lookup_2. }
  destruct (dbuilt_step r d E s Hd) as (d' & Hd' & Heq).
  - intros ->. by apply cut_exact_head in Hcs.
  - destruct Hsid as [->|(j & x & Hj & Hx & Hcx & <-)]; [left|by eapply Hdisc].
  - intros Ht. apply Hcut in Ht as [->|(j & x & Hj & Hx & <-)]; [left|].
    rewrite lookup_app_l in Hx by lia. apply Htgt. by eapply elem_of_list_lookup_2.
  - intros Ht Hin. apply eq_true_false_abs in Ht; [done|]. apply Hcut.
    unfold discovered in Hin. apply elem_of_cons in Hin as [?|Hin]; [by left|right].
    apply elem_of_list_fmap in Hin as (x & Hx & [_ [j Hj]%elem_of_list_lookup]%elem_of_list_filter).
    exists j, x. split; [by eapply lookup_lt_Some|]. split; [by apply lookup_app_l_Some|done].
  - intros Hin. assert (Hst : sid s <> tid s) by (apply Hne; left).
    specialize (Honce (sid s) (tid s) Hst). rewrite crossed_app in Honce.
    rewrite times_crossed_app in Honce. change (s :: steps) with ([s] ++ steps) in Honce.
    rewrite crossed_app, times_crossed_app in Honce.
    assert (0 < times_crossed (sid s, tid s) (crossed E)).
    { apply times_crossed_pos. destruct Hin as [Hin|Hin]; eexists; (split; [exact Hin|]);
        [by left|by right]. }
    assert (0 < times_crossed (sid s, tid s) (crossed [s])).
    { apply times_crossed_pos. exists (sid s, tid s). split; [left|by left]. }
    lia.
  - rewrite Heq. destruct (IH (E ++ [s]) d') as (d'' & E'' & Hd''); try done.
    + intros x Hx. apply Hne. by right.
    + by rewrite <-app_assoc.
    + by rewrite <-app_assoc.
    + exists d''. split; [done|]. by rewrite <-app_assoc in Hd''.
Qed.

(** The discovered nodes are connected by the crossed edges. *)
Lemma dbuilt_connected r d E : DBuilt r d E -> cut_exact r E ->
  forall v, v ∈ discovered r E -> reachable (as_graph d) r v.
Proof.
  intros Hd Hc v Hv. unfold discovered in Hv. apply elem_of_cons in Hv as [->|Hv]; [constructor|].
  apply elem_of_list_fmap in Hv as (s & -> & [Hcs [i Hi]%elem_of_list_lookup]%elem_of_list_filter).
  revert s Hcs Hi. induction i as [i IH] using lt_wf_ind. intros s Hcs Hi.
  assert (Hadj : adj (as_graph d) (sid s) (tid s)).
  { apply adj_row; [apply wf_idx, (db_wf _ _ _ Hd)|]. apply (db_row _ _ _ Hd). left.
    apply elem_of_list_fmap. exists s. split; [done|]. by eapply elem_of_list_lookup_2. }
  destruct (Hc i s Hi) as [_ [Hs|(j & x & Hj & Hx & Hcx & Hs)]].
  - rewrite Hs in Hadj. by apply rtc_once.
  - rewrite <-Hs in Hadj. eapply rtc_r; [|exact Hadj]. by eapply IH.
Qed.

Lemma dfs_graph_spec g r steps : Lawful g -> LoopFree g -> depth_first g r steps ->
  exists d, dfs_graph g r d /\ DBuilt r d steps.
Proof.
  intros Hg Hlf Hb. destruct (dfs_sound g r steps Hg Hb) as (Hs & Hnd & Honce).
  destruct (apply_steps_ok r [] steps dg_new (dbuilt_new r)) as (d & Hd & HB); simpl.
  - by eapply dfs_cut_exact.
  - intros s Hin Heq. destruct (Hs s Hin) as [Ha _]. rewrite Heq in Ha. by apply (Hlf (tid s)).
  - done.
  - done.
  - exists d. split; [|done]. destruct Hb as (t & n & Ht & Hn). exists t, n. split; [done|].
    intros fuel Hf. unfold dg_try_from_dfs. rewrite (extend_dfs_apply fuel g t steps) by (by apply Hn).
    done.
Qed.

Lemma dbuilt_subgraph g r d steps : Lawful g -> depth_first g r steps -> DBuilt r d steps ->
  forall u v, adj (as_graph d) u v -> adj g u v.
Proof.
  intros Hg Hb Hd u v Ha%adj_row; [|apply wf_idx, (db_wf _ _ _ Hd)].
  destruct (dfs_sound g r steps Hg Hb) as (Hs & _).
  apply (db_row _ _ _ Hd) in Ha as [(s & [= -> ->] & Hin)%elem_of_list_fmap|
    (s & [= -> ->] & Hin)%elem_of_list_fmap]; destruct (Hs s Hin) as [? _]; [done|].
  by apply law_adj_sym.
Qed.

Lemma dfs_graph_fun g r d d' : dfs_graph g r d -> dfs_graph g r d' -> d = d'.
Proof.
  intros (t & n & Ht & Hn) (t' & n' & Ht' & Hn'). rewrite Ht in Ht'. injection Ht' as <-.
  specialize (Hn (n + n') ltac:(lia)). specialize (Hn' (n + n') ltac:(lia)). congruence.
Qed.

Lemma dbuilt_observes r d steps : DBuilt r d steps ->
  observes d (mkA (if bool_decide (steps = []) then [] else discovered r steps) (crossed steps)).
Proof.
  intros [Hwf He Hn _ Hr]. apply rep_observes. split; [done| |done|done].
  rewrite Hn. by destruct steps.
Qed.

Lemma dfs_graph_result g r : Lawful g -> LoopFree g -> r ∈ g_nodes g ->
  exists steps d, depth_first g r steps /\ dfs_graph g r d /\
    observes d (mkA (if bool_decide (steps = []) then [] else discovered r steps) (crossed steps)) /\
    (g_nodes (as_graph d) = [] <-> g_neighbors g r = Ok []) /\
    (forall u v, adj (as_graph d) u v -> adj g u v) /\
    (forall v, v ∈ g_nodes (as_graph d) -> reachable (as_graph d) r v).
Proof.
  intros Hg Hlf Hr. destruct (dfs_total g r Hg Hr) as (steps & Hb).
  destruct (dfs_graph_spec g r steps Hg Hlf Hb) as (d & Hd & HB).
  exists steps, d. pose proof HB as [Hwf He Hn Hrow _].
  split_and!; try done.
  - by apply dbuilt_observes.
  - simpl. rewrite <-(dfs_nil g r steps Hg Hb), Hn. by destruct steps.
  - by eapply dbuilt_subgraph.
  - simpl. intros v Hv. eapply dbuilt_connected; [exact HB|by eapply dfs_cut_exact|].
    rewrite Hn in Hv. destruct steps; [by apply elem_of_nil in Hv|done].
Qed.

(** Exact number of [next] calls. *)
Lemma gcollect_exact {S} (next : S -> comp (option Step * S)) n s steps :
  gcollect next n s = Ok steps ->
  forall fuel, gcollect next fuel s = if length steps <? fuel then Ok steps else NoFuel.
Proof.
  revert s steps. induction n as [|n IH]; intros s steps H fuel; [done|]. cbn [gcollect] in H.
  destruct fuel as [|fuel]; [done|]. cbn [gcollect].
  destruct (next s) as [[[st|] s']| | |]; cbn [cbind] in *; [|by injection H as <-|done..].
  apply cbind_ok in H as (steps' & H & [= <-]). rewrite (IH s' steps' H).
  cbn [length]. change (Datatypes.S (length steps') <? Datatypes.S fuel) with (length steps' <? fuel).
  by destruct (length steps' <? fuel).
Qed.

Lemma dfs_calls g r : Lawful g -> r ∈ g_nodes g ->
  exists t steps, dfs_new g r = Ok t /\
    forall fuel, dfs_collect fuel g t = if length steps <? fuel then Ok steps else NoFuel.
Proof.
  intros Hg Hr. destruct (dfs_total g r Hg Hr) as (steps & t & n & Ht & Hn).
  exists t, steps. split; [done|]. intros fuel. rewrite dfs_gcollect.
  apply gcollect_exact with (n := n). rewrite <-dfs_gcollect. by apply Hn.
Qed.

Lemma bfs_calls g r : Lawful g -> r ∈ g_nodes g ->
  exists t steps, bfs_new g r = Ok t /\
    forall fuel, bfs_collect fuel g t = if length steps <? fuel then Ok steps else NoFuel.
Proof.
  intros Hg Hr. destruct (bfs_total g r Hg Hr) as (steps & t & n & Ht & Hn).
  exists t, steps. split; [done|]. intros fuel. rewrite bfs_gcollect.
  apply gcollect_exact with (n := n). rewrite <-bfs_gcollect. by apply Hn.
Qed.

(** A check used by the examples. *)
Lemma depth_first_run g r t fuel steps :
  dfs_new g r = Ok t -> dfs_collect fuel g t = Ok steps -> depth_first g r steps.
Proof.
  intros Ht Hc. exists t, fuel. split; [done|]. intros fuel' Hf. rewrite dfs_gcollect in *.
  by eapply gcollect_mono.
Qed.
Lemma breadth_first_run g r t fuel steps :
  bfs_new g r = Ok t -> bfs_collect fuel g t = Ok steps -> breadth_first g r steps.
Proof.
  intros Ht Hc. exists t, fuel. split; [done|]. intros fuel' Hf. rewrite bfs_gcollect in *.
  by eapply gcollect_mono.
Qed.

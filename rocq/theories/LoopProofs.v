(** Self-loops: depth-first traversal, its conversion to a graph, components
    and greedy on every lawful graph. *)
From Verif Require Import Outcome GraphModel TraversalModel ComponentsModel PairingModel GreedyModel
  Spec SpecAdvance GraphProofs EditProofs ConvertProofs EqProofs TraversalProofs BfsProofs DfsProofs PathLemmas
  AcyclicProofs CycleProofs NarrowProofs ComponentsProofs PairingProofs GreedyProofs.

Lemma own_nbrs g v : own_entries g v = length (filter (fun w => w = v) (nbrs g v)).
Proof. done. Qed.

(** ** How often a self-loop is crossed *)

Lemma times_loop_star n l v :
  times_crossed (v, v) ((fun x => (n, x)) <$> l) =
  if bool_decide (v = n) then length (filter (fun w => w = n) l) else 0.
Proof.
  unfold times_crossed. induction l as [|x l IH].
  { simpl. by destruct (bool_decide _). }
  rewrite fmap_cons, !filter_cons. destruct (bool_decide_reflect (v = n)) as [Hvn|Hne]; [subst v|].
  - destruct (decide (x = n)) as [->|Hx].
    + rewrite decide_True by (by left). simpl. by rewrite IH.
    + rewrite decide_False by (intros [[= ?]|[= ?]]; congruence). done.
  - rewrite decide_False by (intros [[= ? ?]|[= ? ?]]; congruence). done.
Qed.

Lemma times_loop_zero v l : (forall b, (v, b) ∉ l) -> times_crossed (v, v) l = 0.
Proof.
  intros H. apply times_crossed_zero. intros [a b] Hf [[= <- <-]|[= <- <-]]; by apply (H v).
Qed.

Lemma filter_sublist_length (P : N -> Prop) `{!forall x, Decision (P x)} (l k : list N) :
  sublist l k -> length (filter P l) <= length (filter P k).
Proof.
  induction 1 as [|x l k _ IH|x l k _ IH]; [done|..]; rewrite !filter_cons; case_decide; simpl; lia.
Qed.

Lemma visit_on_cycle' g r E V p n rest x : Lawful g -> TInv g r E V ((p, n) :: rest) ->
  n ∉ V -> x ∈ V -> x <> p -> adj g n x -> on_cycle g n.
Proof.
  intros Hg HT Hn Hx Hxp Hnx. destruct (ti_pend _ _ _ _ _ HT p n) as [Hpn HpV]; [left|].
  assert (Hanc : forall v, v ∈ V -> rtc (within g V) r v).
  { intros v Hv. eapply ancestor_within; [done|]. apply disc_ancestor; [apply (ti_cut _ _ _ _ _ HT)|].
    by apply (ti_disc _ _ _ _ _ HT). }
  destruct (within_path g V x p Hx) as (l & Hnd & Hp & Hh & Hl & Hin).
  { etrans; [apply within_sym; [done|]; by apply Hanc|by apply Hanc]. }
  exists (l ++ [n]). split; [|set_solver].
  split_and!.
  - rewrite app_length. simpl. destruct l as [|a [|b l]]; simpl in *; [done| |lia]. congruence.
  - apply NoDup_app. split_and!; [done| |apply NoDup_singleton].
    intros z Hz ->%elem_of_list_singleton. auto.
  - apply is_path_snoc with (a := p); [done|]. by split.
  - exists x, n. rewrite last_snoc. split_and!; [by destruct l|done|done].
Qed.

(** The pending edges of [v] survive when no visited node other than the
    parent is [v] itself. *)
Lemma dfs_push_loops V p n l rest v : v ∈ V -> n ∉ V -> (v ∈ l -> v = p) ->
  times_crossed (v, v) (foldl (dfs_push V p n) rest l) = times_crossed (v, v) rest.
Proof.
  intros Hv Hn. revert rest. induction l as [|x l IH]; intros rest Hl; [done|]. simpl.
  rewrite IH by (intros; apply Hl; by right). unfold dfs_push. case_bool_decide as Hxp; [done|].
  assert (Hxv : x <> v) by (intros ->; apply Hxp, Hl; left).
  assert (Hvn : v <> n) by congruence.
  change ((n, x) :: ?k) with ([(n, x)] ++ k). rewrite times_crossed_app.
  rewrite (times_loop_zero v [(n, x)]) by (intros b [= ? ?]%elem_of_list_singleton; congruence).
  simpl. case_bool_decide; [|done]. unfold times_crossed.
  induction rest as [|[a b] rest IHr]; [done|]. rewrite !filter_cons.
  destruct (decide (same_edge (v, v) (a, b))) as [Hs|Hs].
  - rewrite decide_True by (destruct Hs as [[= <- <-]|[= <- <-]]; simpl; split; congruence).
    rewrite filter_cons, decide_True by done. simpl. by rewrite IHr.
  - case_decide; [|done]. by rewrite filter_cons, decide_False by done.
Qed.

Definition loops_counted (g : Graph) (E : list Step) (V : gset N) (Q : list (N * N)) : Prop :=
  forall v, v ∈ V ->
    times_crossed (v, v) (crossed E ++ Q) <= own_entries g v /\
    (times_crossed (v, v) (crossed E ++ Q) = own_entries g v \/ on_cycle g v).

Lemma loops_counted_step g r E t s t' : Lawful g ->
  TInv g r E (df_nodes t) (df_stack t) ->
  loops_counted g E (df_nodes t) (df_stack t) -> dfs_next g t = Ok (Some s, t') ->
  loops_counted g (E ++ [s]) (df_nodes t') (df_stack t').
Proof.
  intros Hg HT HJ (p & n & rest & HQ & [(Hn & -> & ->)|(Hn & -> & ->)])%dfs_next_inv;
    cbn [df_nodes df_stack]; rewrite HQ in *; intros v Hv; rewrite crossed_app;
    change (crossed [mkStep p n _]) with [(p, n)].
  { rewrite <-app_assoc. by apply HJ. }
  set (V := df_nodes t) in *.
  destruct (ti_pend _ _ _ _ _ HT p n) as [Hpn HpV]; [left|].
  assert (Hpn' : p <> n) by (by intros ->).
  assert (Hsrc : forall b, (n, b) ∉ crossed E ++ (p, n) :: rest).
  { intros b [(s & [= -> ->] & Hs)%elem_of_list_fmap|Hin]%elem_of_app.
    - by destruct (ti_emit _ _ _ _ _ HT s Hs) as (_ & ? & _).
    - apply (ti_pend _ _ _ _ _ HT) in Hin as [_ ?]. done. }
  destruct (dfs_visit_ok g V p n rest) as (keep & new & Hperm & Hk & Hnew & Hp & Hx).
  assert (Hup : times_crossed (v, v) ((crossed E ++ [(p, n)]) ++
      foldl (dfs_push V p n) rest (reverse (nbrs g n))) <= own_entries g v).
  { rewrite times_crossed_app, (times_crossed_perm _ _ _ Hperm).
    rewrite (times_crossed_app _ keep), times_loop_star. case_bool_decide as Hvn.
    - subst v. rewrite (times_loop_zero n (crossed E ++ _)), (times_loop_zero n keep).
      + rewrite own_nbrs. by apply filter_sublist_length.
      + intros b Hb. apply (Hsrc b). apply elem_of_app. right. right. by eapply sublist_elem.
      + intros b Hb. apply (Hsrc b). set_solver.
    - assert (HvV : v ∈ V) by set_solver. destruct (HJ v HvV) as [Hle _].
      rewrite (times_crossed_app _ (crossed E)) in Hle.
      change ((p, n) :: rest) with ([(p, n)] ++ rest) in Hle. rewrite times_crossed_app in Hle.
      pose proof (times_crossed_sublist (v, v) keep rest Hk). rewrite times_crossed_app. lia. }
  split; [done|]. destruct (decide (v = n)) as [->|Hvn].
  - destruct (decide (Forall (fun x => x <> p -> x ∉ V) (nbrs g n))) as [Hall|Hex].
    2:{ right. apply not_Forall_Exists, Exists_exists in Hex as (x & Hxl & Hxn); [|typeclasses eauto].
        eapply visit_on_cycle'; [done|exact HT|done| | |by apply adj_nbrs].
        - destruct (decide (x ∈ V)); [done|]. by destruct Hxn.
        - intros ->. by destruct Hxn. }
    rewrite Forall_forall in Hall. left.
    rewrite times_crossed_app, (times_loop_zero n (crossed E ++ _)) by (intros b Hb; apply (Hsrc b); set_solver).
    rewrite dfs_push_fresh' by (intros; by apply Hall).
    rewrite times_crossed_app, times_loop_star, bool_decide_eq_true_2 by done.
    rewrite (times_loop_zero n rest) by (intros b Hb; apply (Hsrc b); set_solver).
    rewrite own_nbrs, Nat.add_0_r. simpl. f_equal.
    clear -Hpn'. induction (nbrs g n) as [|x l IH]; [done|]. rewrite !filter_cons.
    destruct (decide (x = n)) as [->|Hxn].
    + rewrite decide_True by congruence. rewrite filter_cons, decide_True by done. by rewrite IH.
    + case_decide; [|done]. by rewrite filter_cons, decide_False by done.
  - assert (HvV : v ∈ V) by set_solver. destruct (HJ v HvV) as [_ [Heq|?]]; [|by right].
    destruct (decide (v ∈ nbrs g n /\ v <> p)) as [[Hin%adj_nbrs Hvp]|Hno].
    { right. by eapply visit_on_cycle. }
    left. rewrite <-Heq, !times_crossed_app, dfs_push_loops; [|done|done|].
    + change ((p, n) :: rest) with ([(p, n)] ++ rest). rewrite times_crossed_app. lia.
    + rewrite elem_of_reverse. intros Hin. destruct (decide (v = p)) as [|Hvp]; [done|]. exfalso. apply Hno. by split.
Qed.

Lemma dfs_loops g r steps : Lawful g -> depth_first g r steps ->
  forall v, times_crossed (v, v) (crossed steps) <= own_entries g v /\
    (v ∈ discovered r steps ->
     times_crossed (v, v) (crossed steps) = own_entries g v \/ on_cycle g v).
Proof.
  intros Hg Hb. pose proof (dfs_root g r steps Hg Hb) as Hr.
  destruct (dfs_run g Hg r (loops_counted g) Hr) as (steps' & V & Hb' & HT & HJ).
  - intros v ->%elem_of_singleton. change (crossed []) with (@nil (N * N)). simpl.
    rewrite times_loop_star, bool_decide_eq_true_2 by done. split; [done|by left].
  - intros E t s t' HT HJ Hn _. by eapply loops_counted_step.
  - rewrite (depth_first_fun g r steps steps' Hb Hb'). intros v.
    destruct (decide (v ∈ V)) as [HvV|HvV].
    + destruct (HJ v HvV) as [H1 H2]. rewrite app_nil_r in *. auto.
    + split.
      * rewrite times_loop_zero; [lia|].
        intros b (s & [= -> ->] & Hs)%elem_of_list_fmap.
        by destruct (ti_emit _ _ _ _ _ HT s Hs) as (_ & ? & _).
      * intros Hd%(ti_disc _ _ _ _ _ HT). done.
Qed.

(** ** Converting the traversal to a graph *)

Lemma dbuilt_dup r d E s :
  DBuilt r d E -> E <> [] -> cut s = true ->
  sid s ∈ discovered r E -> tid s ∈ discovered r E ->
  (sid s, tid s) ∈ crossed E \/ (tid s, sid s) ∈ crossed E ->
  forall steps, apply_steps (s :: steps) d = Err (DuplicateEdge (sid s) (tid s)).
Proof.
  intros [Hwf He Hn Hr _] HE Hc Hs Ht Hin steps. cbn [apply_steps].
  assert (Hn' : dg_nodes d = discovered r E) by (rewrite Hn; by destruct E).
  destruct (dg_is_empty d) eqn:Ed.
  { apply is_empty_true in Ed. by rewrite Hn' in Ed. }
  rewrite Hc. cbn [cbind].
  rewrite (add_edge_dup d (wf_idx d Hwf)); [done|by rewrite Hn'|by rewrite Hn'|by apply Hr].
Qed.

Lemma apply_steps_gen r E steps d :
  DBuilt r d E -> cut_exact r (E ++ steps) ->
  (forall u v, u <> v -> times_crossed (u, v) (crossed (E ++ steps)) <= 1) ->
  NoDup (discovered r (E ++ steps)) ->
  (forall v, times_crossed (v, v) (crossed E) <= 1) ->
  (exists d', apply_steps steps d = Ok d' /\ DBuilt r d' (E ++ steps) /\
     forall v, times_crossed (v, v) (crossed (E ++ steps)) <= 1) \/
  (exists v, apply_steps steps d = Err (DuplicateEdge v v) /\
     2 <= times_crossed (v, v) (crossed (E ++ steps)) /\ crossed_again (E ++ steps) v).
Proof.
  revert E d. induction steps as [|s steps IH]; intros E d Hd Hc Honce Hnd Hl.
  { left. exists d. by rewrite app_nil_r. }
  assert (Hc' : cut_exact r ((E ++ [s]) ++ steps)) by (by rewrite <-app_assoc).
  pose proof (cut_exact_prefix r (E ++ [s]) steps Hc') as Hcs.
  destruct (Hcs (length E) s) as [Hcut Hsid].
  { by rewrite lookup_app_r, Nat.sub_diag by lia. }
  assert (Hdisc : forall v j x, j < length E -> (E ++ [s]) !! j = Some x -> cut x = false ->
    tid x = v -> v ∈ discovered r E).
  { intros v j x Hj Hx Hcx <-. rewrite lookup_app_l in Hx by lia. right.
    apply elem_of_list_fmap. exists x. split; [done|]. apply elem_of_list_filter.
    split; [done|]. by eapply elem_of_list_lookup_2. }
  assert (Htgt : forall x, x ∈ E -> tid x ∈ discovered r E).
  { intros x [j Hj]%elem_of_list_lookup. clear -Hj Hcs.
    revert x Hj. induction j as [j IH] using lt_wf_ind. intros x Hj.
    pose proof (lookup_lt_Some _ _ _ Hj) as Hlt.
    destruct (cut x) eqn:Ec.
    - destruct (Hcs j x) as [Hcut _]; [by apply lookup_app_l_Some|].
      apply Hcut in Ec as [->|(k & y & Hk & Hy & <-)]; [left|].
      rewrite lookup_app_l in Hy by lia. by apply (IH k).
    - right. apply elem_of_list_fmap. exists x. split; [done|]. apply elem_of_list_filter.
      split; [done|]. by eapply elem_of_list_lookup_2. }
  assert (HsD : sid s ∈ discovered r E).
  { destruct Hsid as [->|(j & x & Hj & Hx & Hcx & <-)]; [left|by eapply Hdisc]. }
  assert (HtD : cut s = true -> tid s ∈ discovered r E).
  { intros Ht. apply Hcut in Ht as [->|(j & x & Hj & Hx & <-)]; [left|].
    rewrite lookup_app_l in Hx by lia. apply Htgt. by eapply elem_of_list_lookup_2. }
  assert (HtN : cut s = false -> tid s ∉ discovered r E).
  { intros Ht Hin. apply eq_true_false_abs in Ht; [done|]. apply Hcut.
    unfold discovered in Hin. apply elem_of_cons in Hin as [?|Hin]; [by left|right].
    apply elem_of_list_fmap in Hin as (x & Hx & [_ [j Hj]%elem_of_list_lookup]%elem_of_list_filter).
    exists j, x. split; [by eapply lookup_lt_Some|]. split; [by apply lookup_app_l_Some|done]. }
  assert (Hsplit : forall e, times_crossed e (crossed (E ++ s :: steps)) =
    times_crossed e (crossed E) + times_crossed e (crossed [s]) + times_crossed e (crossed steps)).
  { intros e. change (s :: steps) with ([s] ++ steps). rewrite !crossed_app, !times_crossed_app. lia. }
  assert (Hs1 : times_crossed (sid s, tid s) (crossed [s]) = 1).
  { unfold times_crossed, crossed. simpl. rewrite filter_cons, decide_True by (by left). done. }
  destruct (decide ((sid s, tid s) ∈ crossed E \/ (tid s, sid s) ∈ crossed E)) as [Hin|Hin].
  - assert (Hpos : 0 < times_crossed (sid s, tid s) (crossed E)).
    { apply times_crossed_pos. destruct Hin as [Hin|Hin]; eexists; (split; [exact Hin|]);
        [by left|by right]. }
    specialize (Hsplit (sid s, tid s)).
    destruct (decide (sid s = tid s)) as [Heq|Hne].
    2:{ specialize (Honce _ _ Hne). lia. }
    assert (Hct : cut s = true).
    { destruct (cut s) eqn:Hct; [done|]. exfalso. apply HtN; [done|]. by rewrite <-Heq. }
    right. exists (tid s). rewrite (dbuilt_dup r d E s); [|done| |done|done|by apply HtD|done].
    + split_and!; [by rewrite Heq|rewrite Heq in *; lia|].
      exists E, s, steps. split_and!; [done|done|done| |done]. rewrite Heq in Hin. tauto.
    + intros ->. destruct Hin as [Hin|Hin]; by apply elem_of_nil in Hin.
  - destruct (dbuilt_step r d E s Hd) as (d' & Hd' & Heq); try done.
    { intros ->. by apply cut_exact_head in Hcs. }
    rewrite Heq. destruct (IH (E ++ [s]) d') as [(d'' & E'' & Hd'' & Hl'')|(v & E'' & Hv)]; try done.
    + by rewrite <-app_assoc.
    + by rewrite <-app_assoc.
    + intros v. rewrite crossed_app, times_crossed_app. specialize (Hl v).
      destruct (decide (0 < times_crossed (v, v) (crossed [s]))) as [Hpos|]; [|lia].
      assert (Hst : sid s = v /\ tid s = v).
      { apply times_crossed_pos in Hpos as (f & Hf & Hs). unfold crossed in Hf. simpl in Hf.
        apply elem_of_list_singleton in Hf as ->. by destruct Hs as [[= -> ->]|[= -> ->]]. }
      destruct Hst as [Hv1 Hv2]. rewrite Hv1, Hv2 in Hs1, Hin.
      rewrite Hs1. assert (times_crossed (v, v) (crossed E) = 0); [|lia].
      apply times_crossed_zero. intros [a b] Hf [[= <- <-]|[= <- <-]]; apply Hin; by left.
    + left. exists d''. rewrite <-app_assoc in Hd'', Hl''. done.
    + right. exists v. rewrite <-app_assoc in Hv. done.
Qed.

Lemma dfs_graph_gen g r steps : Lawful g -> depth_first g r steps ->
  (exists d, dfs_graph g r d /\ DBuilt r d steps /\
     forall v, times_crossed (v, v) (crossed steps) <= 1) \/
  (exists v, dfs_graph_error g r (DuplicateEdge v v) /\ 2 <= times_crossed (v, v) (crossed steps) /\
     crossed_again steps v).
Proof.
  intros Hg Hb. destruct (dfs_sound g r steps Hg Hb) as (Hs & Hnd & Honce).
  destruct Hb as (t & n & Ht & Hn).
  destruct (apply_steps_gen r [] steps dg_new (dbuilt_new r)) as [(d & Hd & HB & Hl)|(v & Hd & Hv)]; simpl.
  - eapply dfs_cut_exact; [done|]. by exists t, n.
  - done.
  - done.
  - intros v. unfold times_crossed. simpl. lia.
  - left. exists d. split; [|done]. exists t, n. split; [done|]. intros fuel Hf.
    unfold dg_try_from_dfs. by rewrite (extend_dfs_apply fuel g t steps) by (by apply Hn).
  - right. exists v. split; [|done]. exists t, n. split; [done|]. intros fuel Hf.
    unfold dg_try_from_dfs. by rewrite (extend_dfs_apply fuel g t steps) by (by apply Hn).
Qed.

(** ** components *)

Definition yields1 (g : Graph) (d : DefaultGraph) : Prop :=
  exists r steps, yields g r d /\ depth_first g r steps /\ dg_nodes d = discovered r steps /\
    forall v, times_crossed (v, v) (crossed steps) <= 1.

Lemma c_next_gen g V r iter : Lawful g -> r ∈ g_nodes g -> r ∉ V ->
  (exists d V' n, yields g r d /\ yields1 g d /\ (forall v, v ∈ V' <-> v ∈ dg_nodes d \/ v ∈ V) /\
    forall fuel, n <= fuel -> c_next fuel g (mkC V (r :: iter)) = Ok (Some d, mkC V' iter)) \/
  (exists v n, 2 <= own_entries g v /\
    forall fuel, n <= fuel -> c_next fuel g (mkC V (r :: iter)) = Panic (PUnwrap (DuplicateEdge v v))).
Proof.
  intros Hg Hr HrV. destruct (dfs_total g r Hg Hr) as (steps & Hd).
  destruct (dfs_graph_gen g r steps Hg Hd) as [(d & (t & n & Ht & Hn) & [Hwf He Hnd Hrow Hrows] & Hl)|
    (v & (t & n & Ht & Hn) & Hv & _)].
  2:{ right. exists v, n. split; [destruct (dfs_loops g r steps Hg Hd v); lia|].
      intros fuel Hf. unfold c_next. simpl. rewrite bool_decide_eq_false_2 by done.
      rewrite Ht. simpl. by rewrite Hn. }
  left. unfold c_next. simpl. rewrite bool_decide_eq_false_2 by done. rewrite Ht. simpl.
  destruct (dg_is_empty d) eqn:Ed.
  - apply is_empty_true in Ed.
    assert (steps = []) as -> by (destruct steps; [done|by rewrite Hnd in Ed]).
    destruct (add_node_local d r Hwf) as (d' & Hadd & Hwf' & Hnd' & Hed & Hrd).
    { rewrite Ed. apply not_elem_of_nil. }
    assert (Hy : yields g r d').
    { exists []. split_and!; [done|done| | | |].
      * by rewrite Hnd', Ed.
      * by rewrite Hed, He.
      * intros u v. rewrite Hrd. apply Hrow.
      * intros u. rewrite Hrd. apply Hrows. }
    exists d', ({[r]} ∪ V), n. split_and!; [done| |intros v|intros fuel Hf].
    + exists r, []. split_and!; [done|done|by rewrite Hnd', Ed|done].
    + rewrite Hnd', Ed. set_solver.
    + rewrite Hn by done. simpl. rewrite (proj2 (is_empty_true d)) by done. by rewrite Hadd.
  - assert (Hne : steps <> []).
    { intros ->. rewrite (proj2 (is_empty_true d)) in Ed; done. }
    assert (Hnodes : dg_nodes d = discovered r steps) by (rewrite Hnd; by destruct steps).
    assert (Hy : yields g r d) by (by exists steps).
    exists d, (list_to_set (dg_nodes d) ∪ ({[r]} ∪ V)), n. split_and!; [done| |intros v|intros fuel Hf].
    + by exists r, steps.
    + rewrite Hnodes, !elem_of_union, elem_of_list_to_set, elem_of_singleton.
      unfold discovered. rewrite elem_of_cons. tauto.
    + rewrite Hn by done. simpl. by rewrite Ed.
Qed.

Lemma comps_gen g V iter : Lawful g -> (forall v, v ∈ iter -> v ∈ g_nodes g) ->
  (exists ds n, comps g V iter ds /\ (forall d, d ∈ ds -> yields1 g d) /\
    forall fuel, n <= fuel -> c_collect fuel g (mkC V iter) = Ok ds) \/
  (exists v n, 2 <= own_entries g v /\
    forall fuel, n <= fuel -> c_collect fuel g (mkC V iter) = Panic (PUnwrap (DuplicateEdge v v))).
Proof.
  intros Hg. revert V. induction iter as [|r iter IH]; intros V Hin.
  { left. exists [], 1. split_and!; [constructor|set_solver|]. intros [|fuel] Hf; [lia|]. done. }
  destruct (decide (r ∈ V)) as [HrV|HrV].
  - destruct (IH V) as [(ds & n & Hc & Hy & Hf)|(v & n & Hv & Hf)]; [intros; apply Hin; by right|..].
    + left. exists ds, n. split_and!; [by apply comps_skip|done|]. intros fuel Hle.
      rewrite <-(Hf fuel) by lia. destruct fuel; [done|]. cbn [c_collect]. by rewrite c_next_skip.
    + right. exists v, n. split; [done|]. intros fuel Hle.
      rewrite <-(Hf fuel) by lia. destruct fuel; [done|]. cbn [c_collect]. by rewrite c_next_skip.
  - destruct (c_next_gen g V r iter Hg) as [(d & V' & n1 & Hy & Hy1 & HV' & Hnext)|(v & n & Hv & Hf)];
      [apply Hin; left|done|..].
    + destruct (IH V') as [(ds & n & Hc & Hys & Hf)|(v & n & Hv & Hf)]; [intros; apply Hin; by right|..].
      * left. exists (d :: ds), (S (n1 + n)). split_and!; [by eapply comps_take| |].
        { intros d' [->|Hd']%elem_of_cons; [done|by apply Hys]. }
        intros [|fuel] Hle; [lia|]. cbn [c_collect]. rewrite Hnext by lia. cbn [cbind].
        by rewrite Hf by lia.
      * right. exists v, (S (n1 + n)). split; [done|]. intros [|fuel] Hle; [lia|].
        cbn [c_collect]. rewrite Hnext by lia. cbn [cbind]. by rewrite Hf by lia.
    + right. exists v, (S n). split; [done|]. intros [|fuel] Hle; [lia|].
      cbn [c_collect]. by rewrite Hf by lia.
Qed.

Lemma components_confined g : Lawful g ->
  (exists ds, components_are g ds /\
    (forall d, d ∈ ds -> connected_subgraph d g) /\
    (forall v, v ∈ g_nodes g -> exists d, d ∈ ds /\ v ∈ g_nodes (as_graph d)) /\
    (forall v, 2 <= own_entries g v -> on_cycle g v)) \/
  (exists v, components_panic g (DuplicateEdge v v) /\ 2 <= own_entries g v).
Proof.
  intros Hg. destruct (comps_gen g ∅ (g_nodes g) Hg) as [(ds & n & Hc & Hy & Hf)|(v & n & Hv & Hf)];
    [done|left|right].
  - exists ds. assert (Hcov : forall v, v ∈ g_nodes g -> exists d, d ∈ ds /\ v ∈ g_nodes (as_graph d)).
    { intros v Hv. destruct (comps_cover _ _ _ _ _ Hc Hv) as [Hv'|?]; [set_solver|done]. }
    split_and!; [by exists n| |done|].
    + intros d Hd. destruct (comps_subgraph _ _ _ _ _ Hc Hd) as (r & Hyr). by eapply yields_subgraph.
    + intros v Hv. destruct (decide (v ∈ g_nodes g)) as [Hvg|Hvg].
      2:{ unfold own_entries in Hv. rewrite (law_neighbors_err g Hg v Hvg) in Hv. simpl in Hv. lia. }
      destruct (Hcov v Hvg) as (d & Hd & Hvd).
      destruct (Hy d Hd) as (r & steps & _ & Hdf & Hn & Hl). simpl in Hvd. rewrite Hn in Hvd.
      destruct (dfs_loops g r steps Hg Hdf v) as [_ Heq]. specialize (Hl v).
      destruct (Heq Hvd) as [?|?]; [lia|done].
  - exists v. split; [|done]. by exists n.
Qed.

(** ** greedy *)

Lemma greedy_gen g V iter st : Lawful g -> (forall v, v ∈ iter -> v ∈ g_nodes g) ->
  (exists ds st' n, comps g V iter ds /\ (forall d, d ∈ ds -> yields1 g d) /\ greedy_on st ds st' /\
    forall fuel, n <= fuel -> greedy_loop fuel g (mkC V iter) st = Ok st'.2 /\
      c_collect fuel g (mkC V iter) = Ok ds) \/
  (exists v n, 2 <= own_entries g v /\
    forall fuel, n <= fuel -> greedy_loop fuel g (mkC V iter) st = Panic (PUnwrap (DuplicateEdge v v)) /\
      c_collect fuel g (mkC V iter) = Panic (PUnwrap (DuplicateEdge v v))).
Proof.
  intros Hg. revert V st. induction iter as [|r iter IH]; intros V st Hin.
  { left. exists [], st, 1. split_and!; [constructor|set_solver|constructor|].
    intros [|fuel] Hf; [lia|]. done. }
  destruct (decide (r ∈ V)) as [HrV|HrV].
  - destruct (IH V st) as [(ds & st' & n & Hc & Hy & Hgo & Hf)|(v & n & Hv & Hf)];
      [intros; apply Hin; by right|..].
    + left. exists ds, st', n. split_and!; [by apply comps_skip|done|done|]. intros fuel Hle.
      destruct (Hf fuel Hle) as [<- <-]. destruct fuel; [done|]. cbn [greedy_loop c_collect]. by rewrite c_next_skip.
    + right. exists v, n. split; [done|]. intros fuel Hle.
      destruct (Hf fuel Hle) as [<- <-]. destruct fuel; [done|]. cbn [greedy_loop c_collect]. by rewrite c_next_skip.
  - destruct (c_next_gen g V r iter Hg) as [(d & V' & n1 & Hy & Hy1 & HV' & Hnext)|(v & n & Hv & Hf)];
      [apply Hin; left|done|..].
    2:{ right. exists v, (S n). split; [done|]. intros [|fuel] Hle; [lia|].
        cbn [greedy_loop c_collect]. by rewrite Hf by lia. }
    assert (Hgd : Lawful (as_graph d)).
    { destruct Hy as (? & Hwf & _). by apply wf_lawful. }
    assert (Hh : head (dg_nodes d) = Some r).
    { destruct Hy as (? & _ & _ & -> & _). done. }
    assert (Hr : r ∈ g_nodes (as_graph d)) by (simpl; by eapply yields_root).
    destruct (dfs_total (as_graph d) r Hgd Hr) as (steps & Hd).
    pose proof Hd as (t & n2 & Ht & Hn2).
    assert (Hloop : forall fuel, n1 + n2 <= fuel -> greedy_loop (S fuel) g (mkC V (r :: iter)) st =
      greedy_loop fuel g (mkC V' iter) (foldl greedy_step st steps) /\
      c_collect (S fuel) g (mkC V (r :: iter)) =
        let! rest := c_collect fuel g (mkC V' iter) in Ok (d :: rest)).
    { intros fuel Hle. cbn [greedy_loop c_collect]. rewrite Hnext by lia. cbn [cbind]. split; [|done]. rewrite Hh.
      cbn [expect_some cbind]. rewrite Ht. cbn [unwrap cbind]. by rewrite Hn2 by lia. }
    destruct (IH V' (foldl greedy_step st steps)) as [(ds & st' & n & Hc & Hys & Hgo & Hf)|(v & n & Hv & Hf)];
      [intros; apply Hin; by right|..].
    + left. exists (d :: ds), st', (S (n1 + n2 + n)).
      split_and!; [by eapply comps_take| |by econstructor|].
      { intros d' [->|Hd']%elem_of_cons; [done|by apply Hys]. }
      intros [|fuel] Hle; [lia|]. destruct (Hloop fuel) as [-> ->]; [lia|].
      destruct (Hf fuel) as [-> ->]; [lia|]. done.
    + right. exists v, (S (n1 + n2 + n)). split; [done|].
      intros [|fuel] Hle; [lia|]. destruct (Hloop fuel) as [-> ->]; [lia|].
      destruct (Hf fuel) as [-> ->]; [lia|]. done.
Qed.

Lemma greedy_on_valid g ds st st' : Lawful g ->
  (forall d, d ∈ ds -> exists r, yields g r d) ->
  greedy_on st ds st' -> GInv g st -> GInv g st'.
Proof.
  intros Hg Hsub Hgo. induction Hgo as [st|st d ds r steps st' Hh Hd _ IH]; intros HG; [done|].
  apply IH; [intros; apply Hsub; by right|].
  apply ginv_fold; [done|done|]. destruct (Hsub d) as (r' & Hy); [left|].
  destruct (yields_subgraph g r' d Hg Hy) as (_ & _ & Hadj & _).
  assert (Hgd : Lawful (as_graph d)) by (destruct Hy as (? & Hwf & _); by apply wf_lawful).
  intros s Hs. apply Hadj. by apply (dfs_sound _ _ _ Hgd Hd).
Qed.

Lemma greedy_confined g : Lawful g ->
  (exists p, greedy_is g p /\ pairing_of g p /\ exists ds, components_are g ds) \/
  (exists v, greedy_panic g (DuplicateEdge v v) /\ components_panic g (DuplicateEdge v v) /\ 2 <= own_entries g v).
Proof.
  intros Hg. destruct (greedy_gen g ∅ (g_nodes g) (∅, p_new) Hg)
    as [(ds & st' & n & Hc & Hy & Hgo & Hf)|(v & n & Hv & Hf)]; [done|left|right].
  - exists st'.2. split_and!; [by exists n; intros; apply Hf| |].
    + destruct (greedy_on_valid g ds (∅, p_new) st' Hg) as [? _]; [|done| |done].
      * intros d Hd. destruct (Hy d Hd) as (r & ? & ? & _). eauto.
      * split; simpl.
        -- split; [apply new_symmetric|]. intros u v Hu. unfold p_new in Hu. by rewrite lookup_empty in Hu.
        -- intros x [y Hx]. unfold p_new in Hx. by rewrite lookup_empty in Hx.
    + exists ds, n. intros. by apply Hf.
  - exists v. split_and!; [| |done]; exists n; intros; by apply Hf.
Qed.

(** ** Self-loops of the graphs the API builds *)

(** An invariant of the two mutators holds of every API graph if it holds of
    the graphs built from adjacency lists. *)
Lemma api_inv (P : DefaultGraph -> Prop) :
  P dg_new ->
  (forall d v, WF d -> P d -> P (dg_add_node d v).1) ->
  (forall d s t, WF d -> P d -> P (dg_add_edge d s t).1) ->
  (forall rows, valid_rows rows -> P (adjacency_graph rows)) ->
  forall d, Api d -> P d.
Proof.
  intros Hnew Hnode Hedge Hadj.
  assert (Hln : forall d v d', WF d -> P d -> local (dg_add_node d v) = Ok d' -> P d').
  { intros d v d' Hwf Hd H. apply (Hnode d v) in Hd; [|done]. unfold local in H.
    destruct (dg_add_node d v) as [? []]; simplify_eq/=. done. }
  assert (Hle : forall d s t d', WF d -> P d -> local (dg_add_edge d s t) = Ok d' -> P d').
  { intros d s t d' Hwf Hd H. apply (Hedge d s t) in Hd; [|done]. unfold local in H.
    destruct (dg_add_edge d s t) as [? []]; simplify_eq/=. done. }
  assert (Hext : forall fuel g t d d', WF d -> P d -> dg_extend_dfs fuel g t d = Ok d' -> P d').
  { intros fuel g. induction fuel as [|fuel IH]; intros t d d' Hwf Hh H; simpl in H; [done|].
    apply cbind_ok in H as ([[step|] t'] & Hn & H); [|by simplify_eq].
    apply cbind_ok in H as (d1 & H1 & H). apply cbind_ok in H as (d2 & H2 & H).
    apply cbind_ok in H as (d3 & H3 & H).
    assert (WF d1 /\ P d1) as [? ?].
    { destruct (dg_is_empty d); simplify_eq; [|done].
      split; [by eapply wf_local_add_node|by eapply Hln]. }
    assert (WF d2 /\ P d2) as [? ?].
    { destruct (cut step); simplify_eq; [done|].
      split; [by eapply wf_local_add_node|by eapply Hln]. }
    apply (IH t' d3 d'); [by eapply wf_local_add_edge|by eapply Hle|done]. }
  assert (Hes : forall es d d', WF d -> P d -> dg_extend_edges d es = Ok d' -> P d').
  { induction es as [|[s t] es IH]; intros d d' Hwf Hh H; simpl in H; [by simplify_eq|].
    apply cbind_ok in H as (d1 & H1 & H). apply cbind_ok in H as (d2 & H2 & H).
    apply cbind_ok in H as (d3 & H3 & H).
    assert (WF d1 /\ P d1) as [? ?].
    { destruct (dg_has_node d s); simplify_eq; [done|].
      split; [by eapply wf_local_add_node|by eapply Hln]. }
    assert (WF d2 /\ P d2) as [? ?].
    { destruct (dg_has_node d1 t); simplify_eq; [done|].
      split; [by eapply wf_local_add_node|by eapply Hln]. }
    apply (IH d3 d'); [by eapply wf_local_add_edge|by eapply Hle|done]. }
  induction 1 as [|d id Ha IH|d s t Ha IH|rows d H|es d H|fuel g t d H|fuel g c d c' H].
  - done.
  - apply Hnode; [by apply api_wf|done].
  - apply Hedge; [by apply api_wf|done].
  - apply try_from_adjacency_ok in H as [Hv ->]. by apply Hadj.
  - eapply Hes, H; [apply wf_new|done].
  - eapply Hext, H; [apply wf_new|done].
  - unfold c_next in H. destruct (c_skip _ _) as [[root it]|]; [|done].
    apply cbind_ok in H as (t & Ht & H). apply cbind_ok in H as (comp & Hc & H).
    apply unwrap_ok in Hc.
    assert (WF comp) by (eapply wf_extend_dfs, Hc; apply wf_new).
    assert (P comp) by (eapply Hext, Hc; [apply wf_new|done]).
    destruct (dg_is_empty comp).
    + apply cbind_ok in H as (comp' & Hc' & H). apply unwrap_ok in Hc'. simplify_eq. by eapply Hln.
    + by simplify_eq.
Qed.

Definition own_row (d : DefaultGraph) (v : N) : nat := length (filter (fun w => w = v) (row d v)).

Lemma own_row_zero d v : v ∉ row d v -> own_row d v = 0.
Proof.
  intros H. unfold own_row. destruct (filter _ _) as [|x l] eqn:E; [done|exfalso].
  assert (Hx : x ∈ x :: l) by left. rewrite <-E in Hx.
  apply elem_of_list_filter in Hx as [-> Hx]. done.
Qed.

Lemma api_own_row d : Api d -> forall v,
  own_row d v = if bool_decide ((v, v) ∈ dg_edges d) then 2
                else if bool_decide (v ∈ row d v) then 1 else 0.
Proof.
  revert d. apply (api_inv (fun d => forall v, own_row d v =
    if bool_decide ((v, v) ∈ dg_edges d) then 2 else if bool_decide (v ∈ row d v) then 1 else 0)).
  - done.
  - intros d v Hwf Hd w. pose proof (wf_idx d Hwf) as Hi.
    destruct (decide (v ∈ dg_nodes d)) as [Hv|Hv].
    { rewrite (add_node_dup d Hi v Hv). apply Hd. }
    destruct (add_node_new d Hi v Hv) as (d' & -> & _ & _ & He & Hr). simpl.
    unfold own_row. rewrite He, Hr. apply Hd.
  - intros d s t Hwf Hd w. pose proof (wf_idx d Hwf) as Hi.
    destruct (decide (s ∈ dg_nodes d)) as [Hs|Hs].
    2:{ by rewrite (add_edge_missing_l d Hi s t Hs). }
    destruct (decide (t ∈ dg_nodes d)) as [Ht|Ht].
    2:{ by rewrite (add_edge_missing_r d Hi s t Hs Ht). }
    destruct (decide (t ∈ row d s)) as [Hst|Hst].
    { by rewrite (add_edge_dup d Hi s t Hs Ht Hst). }
    destruct (add_edge_new d Hi s t Hs Ht Hst) as (d' & -> & Hi' & Hn & He & Hr). simpl.
    specialize (Hd w). unfold own_row. rewrite He, Hr, !filter_app, !app_length.
    change (length (filter (fun x => x = w) (row d w))) with (own_row d w).
    destruct (decide (s = w /\ t = w)) as [[-> ->]|Hne].
    + rewrite own_row_zero by done.
      rewrite (bool_decide_eq_true_2 ((w, w) ∈ dg_edges d ++ [(w, w)])) by set_solver.
      rewrite !(bool_decide_eq_true_2 (w = w)) by done. rewrite !filter_cons, !decide_True by done. done.
    + assert (Hz : forall a b : N, (s = a /\ t = b \/ s = b /\ t = a) ->
        length (filter (fun x => x = w) (if bool_decide (a = w) then [b] else [])) = 0).
      { intros a b Hab. destruct (bool_decide_reflect (a = w)); [|done]. rewrite filter_cons, decide_False; [done|].
        intros ->. naive_solver. }
      rewrite (Hz s t), (Hz t s), Hd by auto.
      rewrite (bool_decide_ext ((w, w) ∈ dg_edges d ++ [(s, t)]) ((w, w) ∈ dg_edges d)).
      2:{ rewrite elem_of_app, elem_of_list_singleton. naive_solver. }
      rewrite (bool_decide_ext (w ∈ row d w ++ _ ++ _) (w ∈ row d w)).
      2:{ rewrite elem_of_row_app by done. naive_solver. }
      lia.
  - intros rows Hv v. pose proof (adjacency_wf rows Hv) as Hwf.
    set (d := adjacency_graph rows) in *.
    rewrite bool_decide_eq_false_2.
    2:{ simpl. rewrite elem_of_row_edges. intros (? & ? & _ & _ & _ & ?). lia. }
    case_bool_decide as Hin; [|by apply own_row_zero].
    assert (Hnd : NoDup (row d v)).
    { rewrite (adjacency_row rows). destruct (rows !! N.to_nat v) as [r|] eqn:E; simpl;
        [|constructor]. by destruct (Hv _ _ E). }
    unfold own_row. clear -Hnd Hin. induction (row d v) as [|x l IH]; [by apply elem_of_nil in Hin|].
    apply NoDup_cons in Hnd as [Hx Hnd]. rewrite filter_cons. case_decide as Hxv.
    + subst x. simpl. destruct (filter (fun w => w = v) l) as [|y k] eqn:E; [done|exfalso].
      assert (Hy : y ∈ y :: k) by left. rewrite <-E in Hy.
      apply elem_of_list_filter in Hy as [-> ?]. done.
    + apply elem_of_cons in Hin as [->|?]; [done|]. by apply IH.
Qed.

Lemma api_own_entries d v : Api d ->
  own_entries (as_graph d) v =
  if bool_decide ((v, v) ∈ g_edges (as_graph d)) then 2
  else if bool_decide (g_has_edge (as_graph d) v v = Ok true) then 1 else 0.
Proof.
  intros Ha. pose proof (wf_idx d (api_wf d Ha)) as Hi.
  rewrite own_nbrs. destruct (decide (v ∈ dg_nodes d)) as [Hv|Hv].
  - change (nbrs (as_graph d) v) with
      (match dg_neighbors d v with Ok l => l | _ => [] end).
    rewrite (neighbors_in d Hi v Hv).
    change (length _) with (own_row d v). rewrite (api_own_row d Ha). simpl.
    rewrite (has_edge_in d Hi v v Hv Hv).
    rewrite (bool_decide_ext (Ok (bool_decide (v ∈ row d v)) = Ok true) (v ∈ row d v)); [done|].
    split; [by intros [= ?%bool_decide_eq_true]|intros; by rewrite bool_decide_eq_true_2].
  - pose proof (api_lawful d Ha) as Hg. unfold nbrs. rewrite (law_neighbors_err _ Hg v Hv). simpl.
    rewrite bool_decide_eq_false_2.
    2:{ intros Hin%(wf_edges_row d (api_wf d Ha)). apply Hv. by eapply row_in. }
    rewrite bool_decide_eq_false_2; [done|]. simpl. by rewrite (has_edge_out_l d Hi v v Hv).
Qed.

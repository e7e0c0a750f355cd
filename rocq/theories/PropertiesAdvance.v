(** Property C69: a traversal that has already been advanced. *)
From Verif Require Import Outcome GraphModel TraversalModel ComponentsModel PairingModel GreedyModel Spec SpecAdvance
  GraphProofs Checks EditProofs TraversalProofs BfsProofs DfsProofs PairingProofs GreedyProofs GreedyRule LoopProofs
  PropertiesTraversal PropertiesSelection PropertiesLoops AdvanceProofs.

(** C69: the [i]-th call of [next] returns the [i]-th step ([None] after the
    last), whatever the caller does between the calls; collecting after [k]
    calls gives the other steps. *)
Theorem C69_depth_first_resumes g r k steps : depth_first g r steps ->
  exists outs t, dfs_after g r k outs t /\ length outs = k /\
    (forall i, i < k -> outs !! i = Some (steps !! i)) /\
    exists n, forall calls, n <= calls -> dfs_collect calls g t = Ok (drop k steps).
Proof. exact (dfs_resume g r k steps). Qed.
Print Assumptions C69_depth_first_resumes.
Theorem C69_breadth_first_resumes g r k steps : breadth_first g r steps ->
  exists outs t, bfs_after g r k outs t /\ length outs = k /\
    (forall i, i < k -> outs !! i = Some (steps !! i)) /\
    exists n, forall calls, n <= calls -> bfs_collect calls g t = Ok (drop k steps).
Proof. exact (bfs_resume g r k steps). Qed.
Print Assumptions C69_breadth_first_resumes.

(** ... into_table of an advanced traversal lists the source of its next step,
    the nodes discovered after it, and the remaining edges. *)
Theorem C69_into_table_advanced g r k steps outs t : depth_first g r steps -> dfs_after g r k outs t ->
  exists n, forall calls, n <= calls -> dfs_into_table calls g t = Ok (table_of (drop k steps)).
Proof.
  intros Hb Ha. destruct (dfs_resume g r k steps Hb) as (o' & t' & Ha' & _ & _ & n & Hn).
  destruct (dfs_after_fun _ _ _ _ _ _ _ Ha Ha') as [_ <-]. exists n. intros calls Hc.
  by apply table_of_spec, Hn.
Qed.
Print Assumptions C69_into_table_advanced.

(** ... DefaultGraph::try_from of an advanced traversal gives that table's
    graph when every remaining step has its ends introduced by the steps
    before it, and otherwise fails with MissingNode of the first end that was
    not.  It never panics. *)
Theorem C69_dfs_to_graph_advanced g (Hg : Lawful g) (Hl : LoopFree g) r k steps outs t :
  depth_first g r steps -> dfs_after g r k outs t ->
  let rest := drop k steps in
  ((forall i s, rest !! i = Some s -> ends_known rest i s) ->
   exists d n, observes d (mkA (table_of rest).1 (table_of rest).2) /\
     forall calls, n <= calls -> dg_try_from_dfs calls g t = Ok d) /\
  ((exists i s, rest !! i = Some s /\ ~ ends_known rest i s) ->
   exists x n, first_unknown rest x /\
     forall calls, n <= calls -> dg_try_from_dfs calls g t = Err (MissingNode x)).
Proof.
  intros Hb Ha rest. destruct (dfs_resume g r k steps Hb) as (o' & t' & Ha' & _ & _ & n & Hn).
  destruct (dfs_after_fun _ _ _ _ _ _ _ Ha Ha') as [_ <-]. split.
  - intros Hk. destruct (advanced_graph g r k steps t n Hg Hl Hb (Hn n ltac:(lia)))
      as [(d & Hd & Ho & _)|(x & _ & Hx)]; [|by apply unknown_not_known in Hx].
    exists d, n. split; [done|]. intros calls Hc. rewrite <-Hd.
    unfold dg_try_from_dfs. by rewrite !(extend_dfs_apply _ g t rest) by (apply Hn; lia).
  - intros (i & s & Hi & Hk). destruct (advanced_graph g r k steps t n Hg Hl Hb (Hn n ltac:(lia)))
      as [(d & _ & _ & Hkn)|(x & Hx & Hu)]; [by destruct (Hk (Hkn i s Hi))|].
    exists x, n. split; [done|]. intros calls Hc. rewrite <-Hx.
    unfold dg_try_from_dfs. by rewrite !(extend_dfs_apply _ g t rest) by (apply Hn; lia).
Qed.
Print Assumptions C69_dfs_to_graph_advanced.

(** From 1 the steps over [kite] are 1-0, 0-3, 3-2, 2-1 (cut), 2-0 (cut).
    After one step the graph of the rest lacks node 1; a traversal whose last
    step alone is left (2-0) lacks 0; one that is used up gives the empty graph. *)
Example C69_case :
  depth_first (as_graph kite) 1
    [mkStep 1 0 false; mkStep 0 3 false; mkStep 3 2 false; mkStep 2 1 true; mkStep 2 0 true]%N /\
  LoopFree (as_graph kite) /\ Lawful (as_graph kite) /\
  (let! t := dfs_new (as_graph kite) 1 in let! r := dfs_advance 1 (as_graph kite) t in
   let! x := dfs_into_table 50 (as_graph kite) r.2 in Ok (r.1, x))
  = Ok ([Some (mkStep 1 0 false)], ([0; 3; 2], [(0, 3); (3, 2); (2, 1); (2, 0)]))%N /\
  (let! t := dfs_new (as_graph kite) 1 in let! r := dfs_advance 1 (as_graph kite) t in
   dg_try_from_dfs 50 (as_graph kite) r.2) = Err (MissingNode 1)%N /\
  (let! t := dfs_new (as_graph kite) 1 in let! r := dfs_advance 4 (as_graph kite) t in
   dg_try_from_dfs 50 (as_graph kite) r.2) = Err (MissingNode 0)%N /\
  (let! t := dfs_new (as_graph kite) 1 in let! r := dfs_advance 9 (as_graph kite) t in
   let! d := dg_try_from_dfs 50 (as_graph kite) r.2 in Ok (r.1 !! 4, r.1 !! 5, dg_nodes d))
  = Ok (Some (Some (mkStep 2 0 true)), Some None, [])%N.
Proof.
  split; [exact C22_C23_case|]. split; [exact kite_loop_free|].
  split; [apply api_lawful, kite_api|]. split_and!; vm_compute; reflexivity.
Qed.
(** ... and a rest that is converted: on [twigs] from 0, after 0-1, 1-2, 1-3
    the next step 3-5 stands on its own, but 0-4 does not; from 8 the only
    step does. *)
Example C69_convert_case :
  (let! t := dfs_new (as_graph twigs) 4 in let! r := dfs_advance 1 (as_graph twigs) t in
   let! d := dg_try_from_dfs 50 (as_graph twigs) r.2 in Ok (dg_nodes d, dg_edges d))
  = Ok ([0; 1; 2; 3; 5], [(0, 1); (1, 2); (1, 3); (3, 5)])%N /\
  (let! t := dfs_new (as_graph twigs) 0 in let! r := dfs_advance 3 (as_graph twigs) t in
   dg_try_from_dfs 50 (as_graph twigs) r.2) = Err (MissingNode 0)%N.
Proof. split; vm_compute; reflexivity. Qed.

(** C70: the calls of [next] on components(g), on every lawful graph,
    self-loops included: the graphs of [selects] one per call, and after them
    [None] for ever or, if a traversal crossed a self-loop twice, the panic of
    the [unwrap] of its DuplicateEdge.  The graphs before it are delivered. *)
Theorem C70_components_calls g (Hg : Lawful g) :
  exists ds e, selects g [] (g_nodes g) ds e /\
    forall k, exists n, forall fuel, n <= fuel -> c_advance fuel k g (components g) =
      if k <=? length ds then Ok (Some <$> take k ds)
      else match e with
           | None => Ok ((Some <$> ds) ++ replicate (k - length ds) None)
           | Some e => Panic (PUnwrap e)
           end.
Proof.
  destruct (components_exact g Hg (g_nodes g) [] ∅) as (ds & e & n & Hs & Ha & _); [done|set_solver|].
  exists ds, e. split; [done|]. intros k. exists n. intros fuel Hf. by apply Ha.
Qed.
Print Assumptions C70_components_calls.

(** So collecting returns exactly when no traversal crosses a self-loop twice ... *)
Theorem C70_components_exact g (Hg : Lawful g) :
  (forall ds, components_are g ds -> selects g [] (g_nodes g) ds None) /\
  (forall e, components_panic g e <-> exists ds, selects g [] (g_nodes g) ds (Some e)) /\
  ((exists ds, components_are g ds) <-> exists ds, selects g [] (g_nodes g) ds None).
Proof.
  destruct (components_exact g Hg (g_nodes g) [] ∅) as (ds & e & n & Hs & _ & Hc); [done|set_solver|].
  assert (Hare : forall ds', components_are g ds' -> e = None /\ ds = ds').
  { intros ds' (m & Hm). specialize (Hm (m + n) ltac:(lia)). unfold components in Hm.
    rewrite Hc in Hm by lia. destruct e; [done|]. by injection Hm as ->. }
  assert (Hpan : forall x, components_panic g x <-> e = Some x).
  { intros x. split.
    - intros (m & Hm). specialize (Hm (m + n) ltac:(lia)). unfold components in Hm.
      rewrite Hc in Hm by lia. destruct e; [|done]. by injection Hm as ->.
    - intros ->. exists n. intros fuel Hf. unfold components. by rewrite Hc. }
  split_and!.
  - intros ds' H. by destruct (Hare ds' H) as [-> ->].
  - intros x. rewrite Hpan. split; [intros ->; by exists ds|]. intros (ds' & H).
    by destruct (selects_fun _ _ _ _ _ Hs _ _ H) as [-> _].
  - split.
    + intros (ds' & H). destruct (Hare ds' H) as [-> ->]. by exists ds'.
    + intros (ds' & H). destruct (selects_fun _ _ _ _ _ Hs _ _ H) as [-> _]. exists ds, n.
      intros fuel Hf. unfold components. by rewrite Hc.
Qed.
Print Assumptions C70_components_exact.

(** ... and [selects] leaves nothing open: the error and every query on every
    yielded graph are determined by g. *)
Theorem C70_selects_determined g seen todo ds e ds' e' :
  selects g seen todo ds e -> selects g seen todo ds' e' ->
  e = e' /\ Forall2 (fun d d' => exists a, observes d a /\ observes d' a) ds ds'.
Proof. intros H H'. by eapply selects_fun. Qed.
Print Assumptions C70_selects_determined.

(** A path 3-4 in front of a path 0-1-2 whose node 2 has a listed self-loop
    that is crossed twice: the first graph is delivered, the second call
    panics.  With the self-loop of [lucky], on the ring, nothing goes wrong. *)
Definition late : DefaultGraph :=
  get (dg_try_from_edges [(3, 4); (0, 1); (1, 2); (2, 2)]%N).
Lemma late_api : Api late. Proof. apply get_edges_api; is_ok. Qed.
Example C70_case :
  Lawful (as_graph late) /\ Lawful (as_graph lucky) /\
  (let! l := c_advance 50 1 (as_graph late) (components (as_graph late)) in
   Ok (map (fmap (M := option) (fun d => (dg_nodes d, dg_edges d))) l)) = Ok [Some ([3; 4], [(3, 4)])]%N /\
  c_advance 50 2 (as_graph late) (components (as_graph late)) = Panic (PUnwrap (DuplicateEdge 2 2)) /\
  crossed_again [mkStep 0 1 false; mkStep 1 2 false; mkStep 2 2 true; mkStep 2 2 true]%N 2 /\
  depth_first (as_graph late) 0 [mkStep 0 1 false; mkStep 1 2 false; mkStep 2 2 true; mkStep 2 2 true]%N /\
  (let! l := c_advance 50 3 (as_graph lucky) (components (as_graph lucky)) in
   Ok (map (fmap (M := option) dg_nodes) l)) = Ok [Some [0; 1; 2]; None; None]%N.
Proof.
  split; [apply api_lawful, late_api|]. split; [apply api_lawful, lucky_api|].
  split; [vm_compute; reflexivity|]. split; [vm_compute; reflexivity|]. split_and!.
  - exists [mkStep 0 1 false; mkStep 1 2 false; mkStep 2 2 true]%N, (mkStep 2 2 true), [].
    split_and!; [done|done|done|set_solver|]. intros y. unfold times_crossed. simpl.
    rewrite !filter_cons. repeat case_decide; simpl; try lia;
      repeat match goal with H : same_edge _ _ |- _ => unfold same_edge in H; simpl in H end; naive_solver.
  - run_dfs.
  - vm_compute. reflexivity.
Qed.

(** C64 on every lawful graph: with self-loops the rule is the same for the
    edges between two nodes, a self-loop only spends its node. *)
Theorem C64_greedy_rule_self_loops g (Hg : Lawful g) p ds :
  greedy_is g p -> components_are g ds ->
  exists runs, Forall2 (fun d steps => exists r, head (g_nodes (as_graph d)) = Some r /\
      depth_first (as_graph d) r steps) ds runs /\
    forall u v, p !! u = Some v <-> u <> v /\ taken (concat runs) p u v.
Proof.
  intros (n & Hn) (m & Hm). destruct (greedy_gen g ∅ (g_nodes g) (∅, p_new) Hg)
    as [(ds' & st' & k & _ & _ & Hgo & Hf)|(v & k & _ & Hf)]; [done|..].
  2:{ specialize (Hm (m + k) ltac:(lia)). unfold components in Hm.
      destruct (Hf (m + k) ltac:(lia)) as [_ H]. congruence. }
  assert (p = st'.2) as ->.
  { specialize (Hn (n + k) ltac:(lia)). unfold greedy, components in Hn.
    destruct (Hf (n + k) ltac:(lia)) as [H _]. congruence. }
  assert (ds = ds') as ->.
  { specialize (Hm (m + k) ltac:(lia)). unfold components in Hm.
    destruct (Hf (m + k) ltac:(lia)) as [_ H]. congruence. }
  destruct (greedy_on_rule _ _ _ Hgo [] rinv_new) as (runs & H1 & H2). exists runs.
  split; [done|]. apply (ri_rule _ _ H2).
Qed.
Print Assumptions C64_greedy_rule_self_loops.
Example C64_loop_case :
  greedy 50 (as_graph eyes) = Ok (pair_all [(1, 2)]%N).
Proof. vm_compute. reflexivity. Qed.

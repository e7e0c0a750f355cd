(** Property C87: what traversals, components and greedy ask of the graph, and when. *)
From Verif Require Import Outcome GraphModel TraversalModel ComponentsModel PairingModel GreedyModel
  Spec SpecAdvance GraphProofs Checks EditProofs TraversalProofs BfsProofs DfsProofs ComponentsProofs AdvanceProofs
  QueryModel SpecQuery QueryProofs PropertiesGraph PropertiesTraversal PropertiesSelection PropertiesAdvance.

(** The model that records the calls of [neighbors] and the one that does not
    agree, on every graph. *)
Theorem C87_same_outcome g r c k fuel :
  (dfs_run_asks k g r).2 = (let! t := dfs_new g r in dfs_advance k g t) /\
  (bfs_run_asks k g r).2 = (let! t := bfs_new g r in bfs_advance k g t) /\
  (c_advance_asks fuel k g c).2 = c_advance fuel k g c /\
  (greedy_asks fuel g).2 = greedy fuel g.
Proof.
  split_and!; [apply dfs_run_asks_same|apply bfs_run_asks_same|apply c_advance_asks_same|].
  apply greedy_loop_asks_same.
Qed.
Print Assumptions C87_same_outcome.

(** C87.  After [DepthFirst::new] and [k] calls of [next], [neighbors] has been
    called on the nodes discovered so far, once on each, in the order of
    discovery, and on no other node; whatever the graph is. *)
Theorem C87_depth_first_asks k g r qs outs t :
  dfs_run_asks k g r = (qs, Ok (outs, t)) -> qs = discovered r (omap id outs) /\ NoDup qs.
Proof. apply dfs_run_asks_ok. Qed.
Print Assumptions C87_depth_first_asks.
Theorem C87_breadth_first_asks k g r qs outs t :
  bfs_run_asks k g r = (qs, Ok (outs, t)) -> qs = discovered r (omap id outs) /\ NoDup qs.
Proof. apply bfs_run_asks_ok. Qed.
Print Assumptions C87_breadth_first_asks.

(** If a run does not end normally, the last node asked is the one the graph had
    no answer for: the root, and then the constructor returns the error; or a node
    discovered by a later call, and then that call panics with it. *)
Theorem C87_depth_first_failure k g r qs m :
  dfs_run_asks k g r = (qs, m) -> (forall res, m <> Ok res) ->
  exists x, (forall l, g_neighbors g x <> Ok l) /\
    ((x = r /\ qs = [r] /\ m = (let! l := g_neighbors g r in NoFuel)) \/
     (exists j outs t, j < k /\ dfs_run_asks j g r = (discovered r (omap id outs), Ok (outs, t)) /\
        x ∉ discovered r (omap id outs) /\ qs = discovered r (omap id outs) ++ [x] /\
        m = (let! l := unwrap (g_neighbors g x) in NoFuel))).
Proof.
  intros H Hm. unfold dfs_run_asks in *. destruct (dfs_new_asks g r) as [q0 m0] eqn:E0.
  destruct m0 as [t0|e|e|].
  2-4: exists r; unfold abind in H; cbn [fst snd] in H; injection H as <- <-;
    unfold dfs_new_asks, ask, abind in E0; cbn [fst snd] in E0;
    destruct (g_neighbors g r); cbn in E0; simplify_eq; split; [done|]; left; split_and!; done.
  destruct (dfs_new_asks_ok _ _ _ _ E0) as [-> Ht0].
  unfold abind in H. cbn [fst snd] in H. destruct (dfs_advance_asks k g t0) as [q1 m1] eqn:E1.
  injection H as <- <-. rewrite dfs_gadvance_asks in E1.
  destruct (gadvance_asks_bad _ _ _ (dfs_next_asks_ok g) (dfs_next_asks_bad g) _ _ _ _ E1 Hm)
    as (j & outs & t' & x & Hj & Hr & -> & Hx & Hnx & ->).
  exists x. split; [done|]. right. exists j, outs, t'. split_and!; [done| | |done|done].
  - unfold abind. cbn [fst snd]. rewrite dfs_gadvance_asks, Hr. done.
  - destruct (gadvance_asks_ok _ _ (dfs_next_asks_ok g) _ _ _ _ _ Hr) as (_ & _ & _ & Hn).
    unfold discovered. fold (found outs). rewrite Hn, Ht0 in Hx. set_solver.
Qed.
Print Assumptions C87_depth_first_failure.
Theorem C87_breadth_first_failure k g r qs m :
  bfs_run_asks k g r = (qs, m) -> (forall res, m <> Ok res) ->
  exists x, (forall l, g_neighbors g x <> Ok l) /\
    ((x = r /\ qs = [r] /\ m = (let! l := g_neighbors g r in NoFuel)) \/
     (exists j outs t, j < k /\ bfs_run_asks j g r = (discovered r (omap id outs), Ok (outs, t)) /\
        x ∉ discovered r (omap id outs) /\ qs = discovered r (omap id outs) ++ [x] /\
        m = (let! l := unwrap (g_neighbors g x) in NoFuel))).
Proof.
  intros H Hm. unfold bfs_run_asks in *. destruct (bfs_new_asks g r) as [q0 m0] eqn:E0.
  destruct m0 as [t0|e|e|].
  2-4: exists r; unfold abind in H; cbn [fst snd] in H; injection H as <- <-;
    unfold bfs_new_asks, ask, abind in E0; cbn [fst snd] in E0;
    destruct (g_neighbors g r); cbn in E0; simplify_eq; split; [done|]; left; split_and!; done.
  destruct (bfs_new_asks_ok _ _ _ _ E0) as [-> Ht0].
  unfold abind in H. cbn [fst snd] in H. destruct (bfs_advance_asks k g t0) as [q1 m1] eqn:E1.
  injection H as <- <-. rewrite bfs_gadvance_asks in E1.
  destruct (gadvance_asks_bad _ _ _ (bfs_next_asks_ok g) (bfs_next_asks_bad g) _ _ _ _ E1 Hm)
    as (j & outs & t' & x & Hj & Hr & -> & Hx & Hnx & ->).
  exists x. split; [done|]. right. exists j, outs, t'. split_and!; [done| | |done|done].
  - unfold abind. cbn [fst snd]. rewrite bfs_gadvance_asks, Hr. done.
  - destruct (gadvance_asks_ok _ _ (bfs_next_asks_ok g) _ _ _ _ _ Hr) as (_ & _ & _ & Hn).
    unfold discovered. fold (found outs). rewrite Hn, Ht0 in Hx. set_solver.
Qed.
Print Assumptions C87_breadth_first_failure.

(** Nothing else is looked at: on a graph that gives the same answers for the
    nodes asked, and for [components] and [greedy] lists the same nodes, the run
    is the same, however the graphs differ elsewhere. *)
Theorem C87_only_asked g h r k fuel :
  (agree g h (dfs_run_asks k g r).1 -> dfs_run_asks k h r = dfs_run_asks k g r) /\
  (agree g h (bfs_run_asks k g r).1 -> bfs_run_asks k h r = bfs_run_asks k g r) /\
  (g_nodes h = g_nodes g -> agree g h (c_advance_asks fuel k g (components g)).1 ->
     c_advance_asks fuel k h (components h) = c_advance_asks fuel k g (components g)) /\
  (g_nodes h = g_nodes g -> agree g h (greedy_asks fuel g).1 -> greedy_asks fuel h = greedy_asks fuel g).
Proof.
  split_and!; [apply dfs_run_agree|apply bfs_run_agree|..].
  - intros Hn. unfold components. rewrite Hn. apply c_advance_agree.
  - intros Hn. unfold greedy_asks, components. rewrite Hn. apply greedy_agree.
Qed.
Print Assumptions C87_only_asked.

(** In the words of C69: the first [k] results and the state after them depend
    on the answers for the nodes discovered until then only. *)
Theorem C87_prefix_local g h r k outs t :
  agree g h (discovered r (omap id outs)) ->
  forall u, (dfs_after g r k outs t -> dfs_after h r k outs t) /\
            (bfs_after g r k outs u -> bfs_after h r k outs u).
Proof.
  intros Ha u. split.
  - intros (t0 & Ht0 & Hk). pose proof (dfs_run_asks_same k g r) as Hs. rewrite Ht0 in Hs. cbn [cbind] in Hs.
    rewrite Hk in Hs. destruct (dfs_run_asks k g r) as [qs m] eqn:E. cbn [snd] in Hs. subst m.
    destruct (dfs_run_asks_ok _ _ _ _ _ _ E) as [-> _].
    pose proof (dfs_run_agree g h k r) as Hr. rewrite E in Hr. specialize (Hr Ha).
    pose proof (dfs_run_asks_same k h r) as Hs. rewrite Hr in Hs. cbn [snd] in Hs. symmetry in Hs.
    apply cbind_ok in Hs as (t1 & Ht1 & Hk1). by exists t1.
  - intros (t0 & Ht0 & Hk). pose proof (bfs_run_asks_same k g r) as Hs. rewrite Ht0 in Hs. cbn [cbind] in Hs.
    rewrite Hk in Hs. destruct (bfs_run_asks k g r) as [qs m] eqn:E. cbn [snd] in Hs. subst m.
    destruct (bfs_run_asks_ok _ _ _ _ _ _ E) as [-> _].
    pose proof (bfs_run_agree g h k r) as Hr. rewrite E in Hr. specialize (Hr Ha).
    pose proof (bfs_run_asks_same k h r) as Hs. rewrite Hr in Hs. cbn [snd] in Hs. symmetry in Hs.
    apply cbind_ok in Hs as (t1 & Ht1 & Hk1). by exists t1.
Qed.
Print Assumptions C87_prefix_local.

Lemma omap_lookups {A} (outs : list (option A)) (l : list A) : length l <= length outs ->
  (forall i, i < length outs -> outs !! i = Some (l !! i)) -> omap id outs = l.
Proof.
  revert l. induction outs as [|o outs IH]; intros l Hl H.
  { by destruct l; [|cbn in Hl; lia]. }
  pose proof (H 0 ltac:(cbn; lia)) as H0. cbn in H0. injection H0 as ->. destruct l as [|x l]; cbn.
  - apply (IH []); [cbn; lia|]. intros i Hi. apply (H (S i)). cbn. lia.
  - f_equal. apply IH; [cbn in Hl; lia|]. intros i Hi. apply (H (S i)). cbn. lia.
Qed.

(** A whole traversal of a lawful graph asks once each node it discovers;
    breadth first, these are the nodes connected to the root. *)
Theorem C87_whole_traversal g (Hg : Lawful g) r steps :
  (depth_first g r steps -> depth_first_asks g r (discovered r steps) /\ length (discovered r steps) <= g_order g) /\
  (breadth_first g r steps -> breadth_first_asks g r (discovered r steps) /\
     NoDup (discovered r steps) /\ forall v, v ∈ discovered r steps <-> reachable g r v).
Proof.
  assert (Hord : forall l : list N, NoDup l -> (forall v, v ∈ l -> v ∈ g_nodes g) -> length l <= g_order g).
  { intros l Hl Hin. rewrite (law_order g Hg). apply submseteq_length, NoDup_submseteq; [done|]. exact Hin. }
  split.
  - intros Hd. assert (Ha : depth_first_asks g r (discovered r steps)).
    { exists (length steps). intros k Hk.
      destruct (dfs_resume g r k steps Hd) as (outs & t & (t0 & Ht0 & Hk0) & Hlen & Hi & _).
      pose proof (dfs_run_asks_same k g r) as Hs. rewrite Ht0 in Hs. cbn [cbind] in Hs. rewrite Hk0 in Hs.
      destruct (dfs_run_asks k g r) as [qs m] eqn:E. cbn [snd] in Hs. subst m.
      destruct (dfs_run_asks_ok _ _ _ _ _ _ E) as [-> _]. cbn [fst].
      rewrite (omap_lookups outs steps); [done|lia|]. intros i Hi'. apply Hi. lia. }
    split; [done|]. destruct Ha as (n & Hn).
    destruct (dfs_resume g r n steps Hd) as (outs & t & (t0 & Ht0 & Hk0) & _).
    pose proof (dfs_run_asks_same n g r) as Hs. rewrite Ht0 in Hs. cbn [cbind] in Hs. rewrite Hk0 in Hs.
    specialize (Hn n ltac:(lia)). destruct (dfs_run_asks n g r) as [qs m] eqn:E. cbn [fst snd] in *. subst m qs.
    destruct (dfs_run_asks_ok _ _ _ _ _ _ E) as [_ Hnd]. apply Hord; [done|].
    intros v Hv. destruct (C23_depth_first_sound g Hg r steps Hd) as (Hin & _).
    apply elem_of_cons in Hv as [->|Hv]; [by apply (dfs_root g r steps)|].
    apply elem_of_list_fmap in Hv as (s & -> & [_ Hs]%elem_of_list_filter).
    destruct (Hin s Hs) as (_ & _ & Hre). apply (reachable_node g Hg r); [by apply (dfs_root g r steps)|done].
  - intros Hd. assert (Ha : breadth_first_asks g r (discovered r steps)).
    { exists (length steps). intros k Hk.
      destruct (bfs_resume g r k steps Hd) as (outs & t & (t0 & Ht0 & Hk0) & Hlen & Hi & _).
      pose proof (bfs_run_asks_same k g r) as Hs. rewrite Ht0 in Hs. cbn [cbind] in Hs. rewrite Hk0 in Hs.
      destruct (bfs_run_asks k g r) as [qs m] eqn:E. cbn [snd] in Hs. subst m.
      destruct (bfs_run_asks_ok _ _ _ _ _ _ E) as [-> _]. cbn [fst].
      rewrite (omap_lookups outs steps); [done|lia|]. intros i Hi'. apply Hi. lia. }
    split; [done|]. apply (C17_breadth_first_component g Hg r steps Hd).
Qed.
Print Assumptions C87_whole_traversal.

(** Each call of [next] on the iterator of [components] asks for the nodes of the
    graph it yields, in their order, and for no other; whatever the graph is.
    [components] itself asks for none. *)
Theorem C87_components_lazy fuel k g qs outs :
  c_advance_asks fuel k g (components g) = (qs, Ok outs) ->
  qs = omap id outs ≫= (fun d => g_nodes (as_graph d)).
Proof. apply c_advance_asks_nodes. Qed.
Print Assumptions C87_components_lazy.

(** [components(g).collect()] and [greedy(g)] ask the same: the nodes of all
    the graphs yielded. *)
Theorem C87_components_asks g (Hg : Lawful g) ds :
  components_are g ds ->
  components_ask g (ds ≫= (fun d => g_nodes (as_graph d))) /\
  (forall p, greedy_is g p -> greedy_asked g (ds ≫= (fun d => g_nodes (as_graph d)))).
Proof.
  intros Hds. split.
  - destruct (C70_components_calls g Hg) as (ds' & e & Hs & Hk).
    destruct (C70_components_exact g Hg) as (H1 & _). specialize (H1 ds Hds).
    destruct (selects_fun _ _ _ _ _ Hs _ _ H1) as [-> Hsame].
    assert ((ds' ≫= fun d => g_nodes (as_graph d)) = ds ≫= fun d => g_nodes (as_graph d)) as <-.
    { clear -Hsame. induction Hsame as [|d d' l l' (a & Ho & Ho') _ IH]; [done|].
      rewrite !bind_cons, IH. f_equal. destruct Ho as [-> _], Ho' as [-> _]. done. }
    exists (S (length ds')). intros k Hle. destruct (Hk k) as (n & Hn). exists n. intros fuel Hf.
    specialize (Hn fuel Hf). destruct (Nat.leb_spec k (length ds')) as [?|_]; [lia|].
    pose proof (c_advance_asks_same fuel k g (components g)) as Hs'. rewrite Hn in Hs'.
    destruct (c_advance_asks fuel k g (components g)) as [qs m] eqn:E. cbn [snd] in Hs'. subst m. cbn [fst].
    apply c_advance_asks_nodes in E as ->. f_equal. rewrite omap_app.
    assert (forall j, omap id (replicate j (@None DefaultGraph)) = []) as -> by (induction j; done).
    rewrite app_nil_r. clear. induction ds' as [|d ds IH]; [done|]. cbn. by rewrite IH.
  - intros p (n & Hn). destruct Hds as (m & Hm). exists (n + m). intros fuel Hf.
    pose proof (greedy_loop_asks_same fuel g (components g) (∅, p_new)) as Hs.
    specialize (Hn fuel ltac:(lia)). unfold greedy in Hn. rewrite Hn in Hs. unfold greedy_asks.
    destruct (greedy_loop_asks fuel g (components g) (∅, p_new)) as [qs o] eqn:E. cbn [snd] in Hs. subst o.
    apply greedy_asks_nodes in E as (ds' & Hc & ->). rewrite Hm in Hc by lia. by injection Hc as <-.
Qed.
Print Assumptions C87_components_asks.

(** So where components partitions the graph (C30), each node is asked for once. *)
Theorem C87_components_once_narrow g (Hg : Lawful g) (Ha : narrow_components g) :
  exists qs, components_ask g qs /\ greedy_asked g qs /\ qs ≡ₚ g_nodes g.
Proof.
  destruct (C29_components_total g Hg (proj1 Ha)) as (ds & Hds & _).
  destruct (C36_greedy_valid g Hg (proj1 Ha)) as (p & Hp & _).
  destruct (C87_components_asks g Hg ds Hds) as [H1 H2]. eexists. split_and!; [exact H1|by apply (H2 p)|].
  apply (C30_components_exact_partial g Hg Ha ds Hds).
Qed.
Print Assumptions C87_components_once_narrow.

(** In other graphs without self-loops a node can be asked
    for more than once: in the triangle 0-1-2 with pendant node 3, components
    yields [0; 1; 2] and [3; 0; 1; 2]. *)
Theorem C87_components_twice :
  exists d qs v, Api d /\ LoopFree (as_graph d) /\ components_ask (as_graph d) qs /\
    v ∈ g_nodes (as_graph d) /\ length (filter (fun x => x = v) qs) = 2.
Proof.
  exists pan, [0; 1; 2; 3; 0; 1; 2]%N, 0%N. pose proof (api_lawful _ pan_api) as Hg.
  split; [apply pan_api|]. split; [apply pan_loop_free|]. split; [|split; [tb_in|vm_compute; reflexivity]].
  destruct (comps_run (as_graph pan) Hg pan_loop_free ∅ (g_nodes (as_graph pan)) ltac:(done)) as (ds & _ & Hf).
  assert (Hds : components_are (as_graph pan) ds) by (eexists; intros fuel Hfuel; apply Hf; exact Hfuel).
  destruct (C87_components_asks _ Hg ds Hds) as [Hask _].
  pose proof (Hf 20 ltac:(vm_compute; lia)) as H20. vm_compute in H20. injection H20 as <-. exact Hask.
Qed.
Print Assumptions C87_components_twice.

(** Examples.  A graph without end, neighbors of [v] being [v - 1] and [v + 1]:
    the first three calls ask for four nodes.  Breadth first in [kite] from 1, 
    two calls.  On a graph that knows no neighbors of 2, the third call panics,
    and a graph that differs from it at 7 only behaves alike. *)
Definition endless : Graph :=
  mkGraph false 0 0 [] (fun v => Ok (if bool_decide (v = 0) then [1] else [v - 1; v + 1]))%N
    (fun _ => true) (fun _ => Ok 2) [] (fun _ _ => Ok true).
Definition hole : Graph :=
  mkGraph false 0 0 [] (fun v => if bool_decide (v = 2) then Err (MissingNode 2) else Ok [v + 1])%N
    (fun _ => true) (fun _ => Ok 2) [] (fun _ _ => Ok true).
Definition hole7 : Graph :=
  mkGraph true 5 5 [4]%N
    (fun v => if bool_decide (v = 7) then Ok [] else g_neighbors hole v)%N
    (fun _ => false) (fun _ => Ok 0) [] (fun _ _ => Ok false).
Example C87_case :
  (dfs_run_asks 3 endless 0).1 = [0; 1; 2; 3]%N /\
  (exists t, (dfs_run_asks 3 endless 0).2 = Ok ([Some (mkStep 0 1 false); Some (mkStep 1 2 false); Some (mkStep 2 3 false)], t))%N /\
  (bfs_run_asks 2 (as_graph kite) 1).1 = [1; 0; 2]%N /\
  dfs_run_asks 3 hole 0 = ([0; 1; 2]%N, Panic (PUnwrap (MissingNode 2))) /\
  dfs_run_asks 3 hole7 0 = dfs_run_asks 3 hole 0 /\
  dfs_run_asks 3 hole 2 = ([2]%N, Err (MissingNode 2)).
Proof.
  split_and!; [vm_compute; reflexivity|eexists; vm_compute; reflexivity|vm_compute; reflexivity..| |vm_compute; reflexivity].
  apply (C87_only_asked hole hole7 0 3 0). intros v Hv.
  assert (v = 0 \/ v = 1 \/ v = 2)%N as [-> |[-> | ->]]; [|vm_compute; reflexivity..].
  vm_compute in Hv. set_solver.
Qed.
Example C87_components_case : Lawful (as_graph twigs) /\ narrow_components (as_graph twigs) /\
  (c_advance_asks 50 1 (as_graph twigs) (components (as_graph twigs))).1 = [0; 1; 2; 3; 5; 4]%N /\
  (c_advance_asks 50 9 (as_graph twigs) (components (as_graph twigs))).1 = [0; 1; 2; 3; 5; 4; 7; 8]%N /\
  (greedy_asks 50 (as_graph twigs)).1 = [0; 1; 2; 3; 5; 4; 7; 8]%N.
Proof.
  split; [apply api_lawful, twigs_api|]. split; [apply C30_forests_have_narrow_components, twigs_acyclic|].
  split_and!; vm_compute; reflexivity.
Qed.

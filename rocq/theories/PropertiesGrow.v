(** Property C75: matching while the graph grows. *)
From Verif Require Import Outcome GraphModel TraversalModel ComponentsModel PairingModel GreedyModel
  Spec GraphProofs Checks EditProofs ConvertProofs TraversalProofs PairingProofs
  MatchTheory MaximumModel BlossomProofs ContractProofs TameProofs CalmProofs MaximumProofs
  ClassChecks PropertiesGraph PropertiesMatching.

Lemma drop_one (s t : N) M : NoDup (endpoints M) ->
  length M <= 1 + length (filter (fun e : N * N => ~ (e = (s, t) \/ e = (t, s))) M).
Proof.
  induction M as [|[a b] M IH]; intros Hnd; [simpl; lia|].
  rewrite filter_cons. cbn [endpoints mbind list_bind] in Hnd.
  change (NoDup (a :: b :: endpoints M)) in Hnd.
  apply NoDup_cons in Hnd as [Ha Hnd]. apply NoDup_cons in Hnd as [Hb Hnd].
  destruct (decide (~ ((a, b) = (s, t) \/ (a, b) = (t, s)))) as [Hne|Heq].
  - cbn [length]. specialize (IH Hnd). lia.
  - assert (Hall : filter (fun e : N * N => ~ (e = (s, t) \/ e = (t, s))) M = M); [|rewrite Hall; simpl; lia].
    assert (Hno : forall e, e ∈ M -> ~ (e = (s, t) \/ e = (t, s))).
    2:{ clear -Hno. induction M as [|e M IH]; [done|]. rewrite filter_cons_True by (apply Hno; left).
        f_equal. apply IH. intros x Hx. apply Hno. by right. }
    intros [x y] Hxy.
    assert (Hin : x ∈ endpoints M /\ y ∈ endpoints M).
    { unfold endpoints. split; apply elem_of_list_bind; exists (x, y); (split; [|done]); set_solver. }
    assert (Heq' : (a, b) = (s, t) \/ (a, b) = (t, s)).
    { destruct (decide ((a, b) = (s, t) \/ (a, b) = (t, s))); tauto. }
    intros Hx. apply Ha. right. destruct Heq' as [[= -> ->]|[= -> ->]], Hx as [[= -> ->]|[= -> ->]]; tauto.
Qed.

(** Between different nodes, adjacency is what [edges] lists. *)
Lemma adj_listed g u v : Lawful g -> u <> v -> adj g u v <-> (u, v) ∈ g_edges g \/ (v, u) ∈ g_edges g.
Proof.
  intros Hg Hne. split; [by apply law_edges_complete|].
  intros [H|H]; [by apply law_edges_adj|]. by apply (law_adj_sym g Hg), law_edges_adj.
Qed.

Lemma matching_listed g M : Lawful g ->
  matching g M <-> (forall u v, (u, v) ∈ M -> (u, v) ∈ g_edges g \/ (v, u) ∈ g_edges g) /\ NoDup (endpoints M).
Proof.
  intros Hg.
  assert (Hne : forall u v, NoDup (endpoints M) -> (u, v) ∈ M -> u <> v).
  { intros u v Hnd Huv ->. apply elem_of_list_split in Huv as (M1 & M2 & ->).
    unfold endpoints in Hnd. rewrite bind_app in Hnd. apply NoDup_app in Hnd as (_ & _ & Hnd).
    cbn [mbind list_bind] in Hnd. change (NoDup (v :: v :: endpoints M2)) in Hnd.
    apply NoDup_cons in Hnd as [Hv _]. apply Hv. left. }
  split; intros [H1 Hnd]; (split; [|done]); intros u v Huv; specialize (H1 u v Huv);
    apply (adj_listed g u v Hg (Hne u v Hnd Huv)); done.
Qed.

(** A matching of a graph with [length es] more edges. *)
Lemma matching_shrinks M E es : (forall u v, (u, v) ∈ M -> (u, v) ∈ E ++ es \/ (v, u) ∈ E ++ es) ->
  NoDup (endpoints M) ->
  exists M', (forall u v, (u, v) ∈ M' -> (u, v) ∈ E \/ (v, u) ∈ E) /\ NoDup (endpoints M') /\
    length M <= length M' + length es.
Proof.
  revert M. induction es as [|[s t] es IH]; intros M HM Hnd.
  { exists M. rewrite app_nil_r in HM. split; [done|]. split; [done|]. simpl. lia. }
  set (M1 := filter (fun e : N * N => ~ (e = (s, t) \/ e = (t, s))) M).
  destruct (IH M1) as (M' & H1 & H2 & H3).
  - intros u v [Hne Huv]%elem_of_list_filter. destruct (HM u v Huv) as [H|H].
    + left. apply elem_of_app in H as [H|[H|H]%elem_of_cons]; [apply elem_of_app; by left| |apply elem_of_app; by right].
      exfalso. apply Hne. by left.
    + right. apply elem_of_app in H as [H|[[= -> ->]|H]%elem_of_cons]; [apply elem_of_app; by left| |apply elem_of_app; by right].
      exfalso. apply Hne. by right.
  - unfold M1. clear -Hnd. induction M as [|[a b] M IH]; [done|].
    change (NoDup (a :: b :: endpoints M)) in Hnd.
    apply NoDup_cons in Hnd as [Ha Hnd]. apply NoDup_cons in Hnd as [Hb Hnd].
    assert (Hsub : forall x, x ∈ endpoints (filter (fun e : N * N => ~ (e = (s, t) \/ e = (t, s))) M) -> x ∈ endpoints M).
    { intros x (e & Hx & [_ He]%elem_of_list_filter)%elem_of_list_bind.
      apply elem_of_list_bind. by exists e. }
    rewrite filter_cons. destruct (decide _); [|by apply IH].
    change (NoDup (a :: b :: endpoints (filter (fun e : N * N => ~ (e = (s, t) \/ e = (t, s))) M))).
    apply NoDup_cons. split.
    { intros [->|H]%elem_of_cons; [apply Ha; left|]. apply Ha. right. by apply Hsub. }
    apply NoDup_cons. split; [intros H; by apply Hb, Hsub|by apply IH].
  - exists M'. split; [done|]. split; [done|]. pose proof (drop_one s t M Hnd) as Hd. fold M1 in Hd.
    simpl. lia.
Qed.

(** What edits do to [edges]. *)
Theorem C75_edits d (Hd : Api d) ops : let d' := (run_ops d ops).1 in
  Api d' /\ exists es, g_edges (as_graph d') = g_edges (as_graph d) ++ es /\
    g_size (as_graph d') = g_size (as_graph d) + length es.
Proof.
  revert d Hd. induction ops as [|o ops IH]; intros d Hd d'.
  { split; [done|]. exists []. rewrite app_nil_r. split; [done|]. by rewrite Nat.add_0_r. }
  assert (Hd1 : Api (run_op d o).1).
  { destruct o; [by apply api_add_node|by apply api_add_edge]. }
  destruct (IH _ Hd1) as [Hd' (es & He & Hs)]. unfold d'. cbn [run_ops fst].
  split; [done|].
  assert (Hone : exists es0, g_edges (as_graph (run_op d o).1) = g_edges (as_graph d) ++ es0).
  { destruct (decide ((run_op d o).2 = Ok tt)) as [Hok|Hno].
    - destruct o as [id|s t]; cbn [run_op] in *.
      + destruct (dg_add_node d id) as [d1 r] eqn:E. simpl in Hok. subst r. cbn [fst].
        destruct (C04_add_node_effect d Hd id d1 E) as (_ & -> & _). exists []. by rewrite app_nil_r.
      + destruct (dg_add_edge d s t) as [d1 r] eqn:E. simpl in Hok. subst r. cbn [fst].
        destruct (C04_add_edge_effect d Hd s t d1 E) as (_ & -> & _). by exists [(s, t)].
    - rewrite (C03_failed_edit_no_effect d Hd o Hno). exists []. by rewrite app_nil_r. }
  destruct Hone as (es0 & E0).
  exists (es0 ++ es). rewrite He, E0, <-app_assoc. split; [done|].
  rewrite (law_size _ (api_lawful _ Hd')), (law_size _ (api_lawful _ Hd)), He, E0, !app_length. lia.
Qed.
Print Assumptions C75_edits.

(** A pairing made for a graph is a pairing for every graph with more edges,
    and a maximum matching gains at most one pair per added edge. *)
Theorem C75_size_grows g h (Hg : Lawful g) (Hh : Lawful h) es iter (Hit : hash_order_ok iter)
    iter' (Hit' : hash_order_ok iter') p (Hp : pairing_of g p) p' (Hp' : pairing_of h p') q q' :
  g_edges h ≡ₚ g_edges g ++ es ->
  matching_run iter g p (Ok q) -> matching_run iter' h p' (Ok q') ->
  pairing_of h q /\ p_order q <= p_order q' <= p_order q + 2 * length es.
Proof.
  intros He Hq Hq'.
  destruct (run_maximum g iter p q _ Hg Hit Hp Hq (listed_here q)) as [[HM Hmax] Hlen].
  destruct (run_maximum h iter' p' q' _ Hh Hit' Hp' Hq' (listed_here q')) as [[HM' Hmax'] Hlen'].
  destruct (run_ok g iter p q Hg Hit Hp Hq) as (Hqp & _).
  split.
  { destruct Hqp as [Hs Ha]. split; [done|]. intros u v Huv. destruct (Hs u v Huv) as [_ Hne].
    apply (adj_listed h u v Hh Hne). specialize (Ha u v Huv). apply (adj_listed g u v Hg Hne) in Ha.
    rewrite !He. rewrite !elem_of_app. tauto. }
  split.
  - assert (length (p_edges_of (map_to_list q)) <= length (p_edges_of (map_to_list q'))); [|lia].
    apply Hmax'. apply matching_listed in HM as [H1 H2]; [|done]. apply matching_listed; [done|].
    split; [|done]. intros u v Huv. specialize (H1 u v Huv). rewrite !He, !elem_of_app. tauto.
  - apply matching_listed in HM' as [H1 H2]; [|done].
    destruct (matching_shrinks (p_edges_of (map_to_list q')) (g_edges g) es) as (M & H3 & H4 & H5).
    { intros u v Huv. specialize (H1 u v Huv). by rewrite !He in H1. }
    { done. }
    assert (length M <= length (p_edges_of (map_to_list q))); [|lia].
    apply Hmax. by apply matching_listed.
Qed.
Print Assumptions C75_size_grows.

(** Taking up the matching again after edits: the earlier answer is accepted;
    if no edge was added it is returned unchanged; on graphs with calm odd
    cycles (bipartite graphs and forests among them) there are at most as many
    augmentations as new edges. *)
Theorem C75_resume d (Hd : Api d) ops iter (Hit : hash_order_ok iter) p (Hp : pairing_of (as_graph d) p) q :
  let d' := (run_ops d ops).1 in
  let added := g_size (as_graph d') - g_size (as_graph d) in
  matching_run iter (as_graph d) p (Ok q) ->
  pairing_of (as_graph d') q /\
  (forall r, matching_run iter (as_graph d') q (Ok r) -> p_order q <= p_order r <= p_order q + 2 * added) /\
  (added = 0 -> id_room (as_graph d') \/ (forall c, ~ odd_cycle (as_graph d') c) ->
     matching_run iter (as_graph d') q (Ok q)) /\
  (calm_odd_cycles (as_graph d') -> id_room (as_graph d') ->
     exists paths r, augmentations iter (as_graph d') q paths r /\ matching_run iter (as_graph d') q (Ok r) /\
       length paths <= added /\ (forall M, listed_edges r M -> maximum (as_graph d') M) /\
       forall v, is_Some (q !! v) -> is_Some (r !! v)).
Proof.
  intros d' added Hq. destruct (C75_edits d Hd ops) as [Hd' (es & He & Hs)]. fold d' in Hd', He, Hs.
  pose proof (api_lawful _ Hd) as Hg. pose proof (api_lawful _ Hd') as Hh.
  assert (Hadd : added = length es) by (unfold added; lia).
  destruct (run_ok (as_graph d) iter p q Hg Hit Hp Hq) as (Hqp & _).
  assert (Hqh : pairing_of (as_graph d') q).
  { destruct Hqp as [Hsy Ha]. split; [done|]. intros u v Huv. destruct (Hsy u v Huv) as [_ Hne].
    apply (adj_listed _ u v Hh Hne). specialize (Ha u v Huv). apply (adj_listed _ u v Hg Hne) in Ha.
    rewrite He. rewrite !elem_of_app. tauto. }
  assert (Hsize : forall r, matching_run iter (as_graph d') q (Ok r) ->
    p_order q <= p_order r <= p_order q + 2 * added).
  { intros r Hr. rewrite Hadd.
    eapply (C75_size_grows (as_graph d) (as_graph d') Hg Hh es iter Hit iter Hit p Hp q Hqh); try done.
    by rewrite He. }
  split; [done|]. split; [done|]. split.
  - intros H0 Hroom.
    destruct (C42_exact_test (as_graph d') Hh iter Hit q Hqh) as (_ & H & _).
    apply H; [done|]. intros M HM.
    destruct (run_maximum _ iter p q M Hg Hit Hp Hq HM) as [[HMg Hmax] _].
    assert (es = []) as -> by (apply nil_length_inv; lia). rewrite app_nil_r in He.
    split.
    + apply matching_listed; [done|]. rewrite He. by apply matching_listed.
    + intros M' HM'. apply Hmax. apply matching_listed; [done|]. rewrite <-He. by apply matching_listed.
  - intros Hcalm Hroom.
    destruct (C49_tame_total (as_graph d') Hh iter Hit q Hqh Hcalm Hroom) as (paths & r & Hr & Haug & Hmax & Hord & Hkeep).
    exists paths, r. split; [done|]. split; [done|]. split; [|done].
    specialize (Hsize r Hr). lia.
Qed.
Print Assumptions C75_resume.

(** A pentagon and an edge; then a node and two edges are added, between edits
    that fail. *)
Example C75_case iter (Hit : hash_order_ok iter) :
  let d := get (dg_try_from_edges [(0, 1); (1, 2); (2, 3); (3, 4); (4, 0); (5, 6)]%N) in
  let ops := [AddNode 7; AddEdge 7 2; AddNode 0; AddEdge 5 9; AddEdge 6 0]%N in
  let d' := (run_ops d ops).1 in
  Api d /\ pairing_of (as_graph d) p_new /\ g_size (as_graph d') - g_size (as_graph d) = 2 /\
  exists q r, matching_run iter (as_graph d) p_new (Ok q) /\ matching_run iter (as_graph d') q (Ok r) /\
    p_order q = 6 /\ p_order r = 8.
Proof.
  intros d ops d'. assert (Hd : Api d) by (apply get_edges_api; is_ok).
  split; [done|]. split; [apply empty_pairing|]. split; [vm_compute; reflexivity|].
  assert (Hg : Lawful (as_graph d)) by (by apply api_lawful).
  assert (Hg' : Lawful (as_graph d')) by (by apply api_lawful, C75_edits).
  exists (pair_all [(0, 1); (2, 3); (5, 6)]%N), (pair_all [(0, 1); (2, 7); (3, 4); (5, 6)]%N).
  split; [a_result|]. split; [a_result|]. split; vm_compute; reflexivity.
Qed.

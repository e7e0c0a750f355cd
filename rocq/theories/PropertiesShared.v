(** Property C68: one pairing shared by several calls of maximum_matching. *)
From Verif Require Import Outcome GraphModel TraversalModel ComponentsModel PairingModel GreedyModel
  Spec GraphProofs Checks EditProofs ConvertProofs TraversalProofs PathLemmas AcyclicProofs NarrowProofs
  ComponentsProofs PairingProofs MatchTheory MaximumModel ForestProofs BlossomProofs ContractProofs
  CycleProofs TameProofs MaximumProofs CalmProofs ShareProofs OrderChecks ClassChecks
  PropertiesTraversal PropertiesSelection PropertiesMatching.

(** C68: false of the code.  What does hold: pairs of nodes outside the graph
    are carried along, and change nothing, if no such node has an id just above
    the ids of the graph, or the graph has no odd cycle. *)
Theorem C68_shared_partial g (Hg : Lawful g) iter (Hit : hash_order_ok iter)
    p (Hp : pairing_of g p) o :
  symmetric_pairing o -> apart g o -> ids_clear g (fun x => is_Some (o !! x)) ->
  (forall q, matching_run iter g (p ∪ o) (Ok q) <->
     exists q0, matching_run iter g p (Ok q0) /\ q = q0 ∪ o) /\
  (forall e, matching_run iter g (p ∪ o) (Panic e) <-> matching_run iter g p (Panic e)) /\
  (matching_diverges iter g (p ∪ o) <-> matching_diverges iter g p).
Proof.
  intros Hs Ho Hc. split_and!.
  - intros q. by apply shared_ok.
  - intros e. by apply shared_panic.
  - by apply shared_diverges.
Qed.
Print Assumptions C68_shared_partial.

(** Calls for the parts of a graph, one after another, with one pairing: the
    result is a maximum matching of the whole graph. *)
Theorem C68_parts_maximum_partial g (Hg : Lawful g) gs q :
  (forall h, h ∈ gs -> Lawful h) -> parts_of g gs -> ids_spaced gs ->
  matching_each gs p_new q -> pairing_of g q /\ forall M, listed_edges q M -> maximum g M.
Proof. intros Hgs Hparts Hsp. by apply parts_maximum. Qed.
Print Assumptions C68_parts_maximum_partial.

(** Where C40 holds of the parts, there is such a result. *)
Lemma each_total gs iter : hash_order_ok iter -> forall o, (forall h, h ∈ gs -> Lawful h) ->
  NoDup (gs ≫= g_nodes) -> symmetric_pairing o -> (forall h, h ∈ gs -> apart h o) ->
  (forall h, h ∈ gs -> ids_clear h (fun x => exists y, o !! x = Some y)) -> ids_spaced gs ->
  (forall h, h ∈ gs -> calm_odd_cycles h /\ id_room h) ->
  exists q, matching_each gs o q.
Proof.
  intros Hit. induction gs as [|h gs IH]; intros o Hg Hnd Hso Ho Hc Hsp Hcalm; [eexists; constructor|].
  assert (Hgh : Lawful h) by (apply Hg; left).
  cbn in Hnd. apply NoDup_app in Hnd as (Hndh & Hdis & Hnd).
  destruct (Hcalm h) as [Hch Hroom]; [left|].
  destruct (C40_matching_returns_partial h Hgh iter Hit p_new (empty_pairing h) Hch Hroom) as [r1 Hr1].
  destruct (run_ok h iter p_new r1 Hgh Hit (empty_pairing h) Hr1) as [Hpr1 _].
  assert (Hr1n : forall x y, r1 !! x = Some y -> x ∈ g_nodes h).
  { intros x y Hxy. apply (adj_nodes h Hgh x y). by apply Hpr1. }
  assert (Hd1 : r1 ##ₘ o) by (apply (off_disjoint h); [done|done|apply Ho; left]).
  destruct (IH (r1 ∪ o)) as [q Hq].
  - intros h' Hh'. apply Hg. by right.
  - done.
  - apply (union_symmetric h); try done. apply Ho. left.
  - intros h' Hh' x y [Hxy|Hxy]%lookup_union_Some; [..|done].
    + intros Hx. apply (Hdis x); [by eapply Hr1n|by eapply in_nodes].
    + apply (Ho h' ltac:(by right) _ _ Hxy).
  - intros h' Hh'. apply clear_union; [|apply Hc; by right].
    apply (clear_sub h' _ (fun x => x ∈ g_nodes h)); [intros x (y & Hxy); by eapply Hr1n|].
    apply elem_of_list_lookup in Hh' as (j & Hj). apply (Hsp 0 (S j)); [lia|done|done].
  - intros i j a b Hij Ha Hb. apply (Hsp (S i) (S j)); [lia|done|done].
  - intros h' Hh'. apply Hcalm. by right.
  - exists q. econstructor; [exact Hit| |exact Hq].
    rewrite <-(left_id_L ∅ (∪) o) at 1.
    apply shared_ok; [done|done|apply Ho; left|apply Hc; left|done|apply empty_pairing|].
    by exists r1.
Qed.

Theorem C68_parts_total_partial g (Hg : Lawful g) gs iter (Hit : hash_order_ok iter) :
  (forall h, h ∈ gs -> Lawful h) -> parts_of g gs -> ids_spaced gs ->
  (forall h, h ∈ gs -> calm_odd_cycles h /\ id_room h) ->
  exists q, matching_each gs p_new q.
Proof.
  intros Hgs [Hn _] Hsp Hcalm. apply (each_total gs iter Hit); try done.
  - rewrite Hn. apply law_nodes, Hg.
  - intros h Hh. right. by intros x [y Hy].
Qed.
Print Assumptions C68_parts_total_partial.

Lemma collect_api fuel : forall g c ds d, c_collect fuel g c = Ok ds -> d ∈ ds -> Api d.
Proof.
  induction fuel as [|fuel IH]; intros g c ds d H Hd; [done|]. cbn [c_collect] in H.
  destruct (c_next (S fuel) g c) as [[[a|] c']| | |] eqn:E; try done; cbn [cbind] in H.
  - destruct (c_collect fuel g c') as [rest| | |] eqn:Er; try done. injection H as <-.
    apply elem_of_cons in Hd as [->|Hd]; [by eapply api_component|by eapply IH].
  - injection H as <-. by apply elem_of_nil in Hd.
Qed.
Lemma components_api g ds : components_are g ds -> forall d, d ∈ ds -> Api d.
Proof. intros (n & Hn) d. apply (collect_api n g (components g)). by apply Hn. Qed.

Lemma components_shared g (Hg : Lawful g) ds q :
  components_are g ds ->
  (ds ≫= (fun d => g_nodes (as_graph d))) ≡ₚ g_nodes g ->
  (forall d u v, d ∈ ds -> u ∈ g_nodes (as_graph d) -> (adj (as_graph d) u v <-> adj g u v)) ->
  ids_spaced (as_graph <$> ds) \/ (forall c, ~ odd_cycle g c) ->
  matching_each (as_graph <$> ds) p_new q ->
  pairing_of g q /\ forall M, listed_edges q M -> maximum g M.
Proof.
  intros Hds Hn Hadj Hsp.
  assert (Hlaw : forall d, d ∈ ds -> Lawful (as_graph d)).
  { intros d Hd. apply api_lawful. by apply (components_api g ds). }
  assert (Hsub : forall d u v, d ∈ ds -> adj (as_graph d) u v -> adj g u v).
  { intros d u v Hd Huv. apply (Hadj d u v Hd); [|done]. by apply (adj_nodes _ (Hlaw d Hd) u v). }
  apply C68_parts_maximum_partial; [done|..].
  - intros h Hh. apply elem_of_list_fmap in Hh as (d & -> & Hd). by apply Hlaw.
  - split.
    + assert ((as_graph <$> ds) ≫= g_nodes = ds ≫= (fun d => g_nodes (as_graph d))) as ->; [|done].
      clear. induction ds as [|d ds IH]; [done|].
      change (g_nodes (as_graph d) ++ ((as_graph <$> ds) ≫= g_nodes) =
        g_nodes (as_graph d) ++ (ds ≫= (fun d => g_nodes (as_graph d)))). by rewrite IH.
    + intros u v. split.
      * intros Huv. assert (Hu : u ∈ ds ≫= (fun d => g_nodes (as_graph d))).
        { rewrite Hn. by apply (adj_nodes g Hg u v). }
        apply elem_of_list_bind in Hu as (d & Hu & Hd). exists (as_graph d).
        split; [apply elem_of_list_fmap; by exists d|]. by apply (Hadj d).
      * intros (h & Hh & Huv). apply elem_of_list_fmap in Hh as (d & -> & Hd). by apply (Hsub d).
  - destruct Hsp as [Hsp|Hbip]; [done|]. intros i j h h' _ _ Hj. left. intros c (Hnd & Hodd & Hp & Hc).
    apply elem_of_list_lookup_2 in Hj. apply elem_of_list_fmap in Hj as (d & -> & Hd).
    apply (Hbip c). split_and!; [done|done| |].
    + intros k x y Hx Hy. apply (Hsub d); [done|]. by apply (Hp k).
    + intros a b Hha Hlb. apply (Hsub d); [done|]. by apply Hc.
Qed.

(** With [components]: if the iterator yields the components and the ids are
    spaced (always so without odd cycles), the loop
    [for c in components(&g) { maximum_matching(&c, &mut p) }] leaves a maximum
    matching of [g]. *)
Theorem C68_components_partial g (Hg : Lawful g) (Ha : narrow_components g) ds q :
  components_are g ds ->
  ids_spaced (as_graph <$> ds) \/ (forall c, ~ odd_cycle g c) ->
  matching_each (as_graph <$> ds) p_new q ->
  pairing_of g q /\ forall M, listed_edges q M -> maximum g M.
Proof.
  intros Hds. destruct (C30_components_exact_partial g Hg Ha ds Hds) as (Hn & _ & Hadj & _).
  by apply components_shared.
Qed.
Print Assumptions C68_components_partial.

(** A pair 4-5 and a triangle 0-2-3 with pendant node 1. *)
Definition paired_pan : DefaultGraph := get (dg_try_from_edges
  [(4, 5); (0, 2); (3, 0); (3, 2); (1, 2)]%N).
Lemma paired_pan_api : Api paired_pan. Proof. apply get_edges_api; is_ok. Qed.
(** A pair 6-7 and two triangles joined by an edge. *)
Definition paired_rings : DefaultGraph := get (dg_try_from_edges
  [(6, 7); (0, 4); (2, 3); (1, 2); (1, 4); (5, 4); (3, 1); (5, 0)]%N).
Lemma paired_rings_api : Api paired_rings. Proof. apply get_edges_api; is_ok. Qed.

Lemma ends_check m (q : Pairing) : match m with Some (Ok q') => bool_decide (q' = q) | _ => false end = true ->
  m = Some (Ok q).
Proof. destruct m as [[q'| | |]|]; try done. intros H%bool_decide_eq_true. by subst. Qed.
Ltac a_shared_result := apply (run_check _ 20); [assumption|apply ends_check; vm_compute; reflexivity|discriminate].
Ltac a_shared_panic := apply (run_check _ 20); [assumption|vm_compute; reflexivity|discriminate].


Definition subset_b (l k : list N) : bool := forallb (fun x => bool_decide (x ∈ k)) l.
Lemma subset_check l k : subset_b l k = true -> forall x, x ∈ l -> x ∈ k.
Proof.
  intros H x Hx. unfold subset_b in H. rewrite forallb_forall in H.
  apply (bool_decide_eq_true_1 _), H. by apply elem_of_list_In.
Qed.
Definition parts_b (g : Graph) (gs : list Graph) : bool :=
  if bool_decide (NoDup (gs ≫= g_nodes)) then
  if subset_b (gs ≫= g_nodes) (g_nodes g) then
  if subset_b (g_nodes g) (gs ≫= g_nodes) then
    forallb (fun h => forallb (fun u => if subset_b (nb h u) (nb g u) then subset_b (nb g u) (nb h u) else false)
      (g_nodes h)) gs
  else false else false else false.
Lemma parts_check g gs : Lawful g -> (forall h, h ∈ gs -> Lawful h) -> parts_b g gs = true -> parts_of g gs.
Proof.
  intros Hg Hgs H. unfold parts_b in H.
  destruct (bool_decide _) eqn:E1; [|done]. apply bool_decide_eq_true in E1.
  destruct (subset_b (gs ≫= g_nodes) _) eqn:E2; [|done].
  destruct (subset_b (g_nodes g) _) eqn:E3; [|done].
  pose proof (subset_check _ _ E2) as H2. pose proof (subset_check _ _ E3) as H3.
  assert (Hnb : forall h u v, h ∈ gs -> u ∈ g_nodes h -> (adj h u v <-> adj g u v)).
  { intros h u v Hh Hu. rewrite forallb_forall in H. apply elem_of_list_In in Hh. specialize (H h Hh).
    rewrite forallb_forall in H. apply elem_of_list_In in Hu. specialize (H u Hu).
    rewrite <-!nb_adj. destruct (subset_b (nb h u) _) eqn:E4; [|done].
    split; by apply subset_check. }
  split.
  - apply NoDup_Permutation; [done|apply law_nodes, Hg|]. intros x. split; auto.
  - intros u v. split.
    + intros Huv. assert (Hu : u ∈ gs ≫= g_nodes) by (apply H3; by apply (adj_nodes g Hg u v)).
      apply elem_of_list_bind in Hu as (h & Hu & Hh). exists h. split; [done|]. by apply Hnb.
    + intros (h & Hh & Huv). apply (Hnb h); [done| |done]. by apply (adj_nodes h (Hgs h Hh) u v).
Qed.

(** The loop over the components of [paired_pan] panics in its second call,
    although each component alone, and the whole graph, is matched without
    trouble: the id of the blossom, 4, is that of a paired node. *)
Theorem C68_shared_panics_refuted :
  exists d a b p q r, Api d /\ LoopFree (as_graph d) /\ calm_odd_cycles (as_graph d) /\
    components_are (as_graph d) [a; b] /\ parts_of (as_graph d) [as_graph a; as_graph b] /\
    forall iter, hash_order_ok iter ->
      matching_run iter (as_graph d) p_new (Ok r) /\ matching_run iter (as_graph b) p_new (Ok q) /\
      matching_run iter (as_graph a) p_new (Ok p) /\
      matching_run iter (as_graph b) p (Panic (PUnwrap (MissingNode 5))).
Proof.
  pose proof paired_pan_api as Hd. pose proof (api_lawful _ Hd) as Hg.
  assert (Hl : LoopFree (as_graph paired_pan)) by no_loops.
  destruct (comps_run (as_graph paired_pan) Hg Hl ∅ (g_nodes (as_graph paired_pan))
    ltac:(done)) as (ds & _ & Hf).
  assert (Hds : components_are (as_graph paired_pan) ds).
  { eexists. intros fuel Hfuel. apply Hf. exact Hfuel. }
  pose proof (components_api _ _ Hds) as Hapi.
  pose proof (Hf 30 ltac:(vm_compute; lia)) as H30. vm_compute in H30.
  match type of H30 with Ok [?a; ?b] = Ok _ =>
    assert (Ha : Api a) by (apply Hapi; injection H30 as <-; left);
    assert (Hb : Api b) by (apply Hapi; injection H30 as <-; right; left);
    exists paired_pan, a, b, (pair_all [(4, 5)]%N), (pair_all [(0, 3); (1, 2)]%N), (pair_all [(4, 5); (0, 3); (1, 2)]%N) end.
  injection H30 as <-.
  split; [done|]. split; [done|]. split; [apply calm_check; [done|vm_compute; reflexivity]|].
  split; [done|]. split.
  { apply parts_check; [done| |vm_compute; reflexivity].
    intros h [-> | [-> | ?%elem_of_nil]%elem_of_cons]%elem_of_cons; [by apply api_lawful..|done]. }
  intros iter Hit. split_and!.
  - a_shared_result.
  - a_shared_result.
  - a_shared_result.
  - a_shared_panic.
Qed.
Print Assumptions C68_shared_panics_refuted.

(** ... and on [paired_rings] it returns one pair short of the maximum. *)
Theorem C68_shared_short_refuted :
  exists d a b p q r, Api d /\ LoopFree (as_graph d) /\
    components_are (as_graph d) [a; b] /\ parts_of (as_graph d) [as_graph a; as_graph b] /\
    forall iter, hash_order_ok iter ->
      matching_run iter (as_graph d) p_new (Ok r) /\
      matching_run iter (as_graph a) p_new (Ok p) /\ matching_run iter (as_graph b) p (Ok q) /\
      p_order r = 8 /\ p_order q = 6.
Proof.
  pose proof paired_rings_api as Hd. pose proof (api_lawful _ Hd) as Hg.
  assert (Hl : LoopFree (as_graph paired_rings)) by no_loops.
  destruct (comps_run (as_graph paired_rings) Hg Hl ∅ (g_nodes (as_graph paired_rings))
    ltac:(done)) as (ds & _ & Hf).
  assert (Hds : components_are (as_graph paired_rings) ds).
  { eexists. intros fuel Hfuel. apply Hf. exact Hfuel. }
  pose proof (components_api _ _ Hds) as Hapi.
  pose proof (Hf 40 ltac:(vm_compute; lia)) as H40. vm_compute in H40.
  match type of H40 with Ok [?a; ?b] = Ok _ =>
    assert (Ha : Api a) by (apply Hapi; injection H40 as <-; left);
    assert (Hb : Api b) by (apply Hapi; injection H40 as <-; right; left);
    exists paired_rings, a, b, (pair_all [(6, 7)]%N), (pair_all [(0, 4); (1, 2); (6, 7)]%N), (pair_all [(0, 5); (1, 4); (2, 3); (6, 7)]%N) end.
  injection H40 as <-.
  split; [done|]. split; [done|].
  split; [done|]. split.
  { apply parts_check; [done| |vm_compute; reflexivity].
    intros h [-> | [-> | ?%elem_of_nil]%elem_of_cons]%elem_of_cons; [by apply api_lawful..|done]. }
  intros iter Hit. split_and!.
  - a_shared_result.
  - a_shared_result.
  - a_shared_result.
  - vm_compute; reflexivity.
  - vm_compute; reflexivity.
Qed.
Print Assumptions C68_shared_short_refuted.

(** A triangle 2-3-4 with pendant node 5, an edge 0-1, and both together. *)
Definition high_pan : DefaultGraph := get (dg_try_from_edges [(2, 3); (3, 4); (4, 2); (3, 5)]%N).
Lemma high_pan_api : Api high_pan. Proof. apply get_edges_api; is_ok. Qed.
Definition low_pair : DefaultGraph := get (dg_try_from_edges [(0, 1)]%N).
Lemma low_pair_api : Api low_pair. Proof. apply get_edges_api; is_ok. Qed.
Definition pair_and_pan : DefaultGraph := get (dg_try_from_edges [(0, 1); (2, 3); (3, 4); (4, 2); (3, 5)]%N).
Lemma pair_and_pan_api : Api pair_and_pan. Proof. apply get_edges_api; is_ok. Qed.

Definition clear_b (g : Graph) (xs : list N) : bool :=
  forallb (fun x =>
    if existsb (fun v => (x <=? v)%N) (g_nodes g) then true
    else forallb (fun v => (v + N.of_nat (length (g_nodes g) + length (looped g)) <? x)%N) (g_nodes g)) xs.
Lemma clear_check g (P : N -> Prop) xs : (forall x, P x -> x ∈ xs) -> clear_b g xs = true -> ids_clear g P.
Proof.
  intros HP H. right. intros x Hx%HP. unfold clear_b in H. rewrite forallb_forall in H.
  apply elem_of_list_In in Hx. specialize (H x Hx).
  destruct (existsb _ _) eqn:E.
  - left. apply existsb_exists in E as (v & Hv & Hle). exists v.
    split; [by apply elem_of_list_In|by apply N.leb_le].
  - right. rewrite forallb_forall in H. intros v Hv. apply N.ltb_lt, H. by apply elem_of_list_In.
Qed.
Lemma keys_elem (o : Pairing) x : is_Some (o !! x) -> x ∈ (map_to_list o).*1.
Proof. intros [y Hy]. apply elem_of_list_fmap. exists (x, y). split; [done|]. by apply elem_of_map_to_list. Qed.
Definition apart_b (g : Graph) (o : Pairing) : bool :=
  forallb (fun x => bool_decide (x ∉ g_nodes g)) (map_to_list o).*1.
Lemma apart_check g o : apart_b g o = true -> apart g o.
Proof.
  intros H x y Hxy. unfold apart_b in H. rewrite forallb_forall in H.
  apply (bool_decide_eq_true_1 _), H, elem_of_list_In, keys_elem. by exists y.
Qed.

Example C68_case iter (Hit : hash_order_ok iter) : let g := as_graph high_pan in
  let p := pair_all [(2, 3)]%N in let o := pair_all [(0, 1); (20, 10)]%N in
  Lawful g /\ pairing_of g p /\ symmetric_pairing o /\ apart g o /\
  ids_clear g (fun x => is_Some (o !! x)) /\ odd_cycle g [2; 3; 4]%N /\
  matching_run iter g (p ∪ o) (Ok (pair_all [(2, 4); (3, 5); (0, 1); (10, 20)]%N)).
Proof.
  intros g p o. assert (Hg : Lawful g) by apply api_lawful, high_pan_api.
  split; [done|]. split; [a_pairing|]. split; [apply symmetric_check; vm_compute; reflexivity|].
  split; [apply apart_check; vm_compute; reflexivity|].
  split; [apply (clear_check _ _ (map_to_list o).*1); [apply keys_elem|vm_compute; reflexivity]|].
  split; [|a_shared_result].
  assert (H : forall u v, v ∈ nb g u -> adj g u v) by (intros; by apply nb_adj).
  split; [|split; [done|split]].
  - apply (bool_decide_eq_true_1 (NoDup [2; 3; 4]%N)). vm_compute. reflexivity.
  - intros [|[|[|i]]] a b Ha Hb; try done; injection Ha as <-; injection Hb as <-; apply H;
      apply (bool_decide_eq_true_1 _); vm_compute; reflexivity.
  - intros a b [= <-] [= <-]. apply H. apply (bool_decide_eq_true_1 _). vm_compute. reflexivity.
Qed.

Example C68_parts_case : let g := as_graph pair_and_pan in
  let gs := [as_graph low_pair; as_graph high_pan] in
  Lawful g /\ (forall h, h ∈ gs -> Lawful h /\ calm_odd_cycles h /\ id_room h) /\ parts_of g gs /\ ids_spaced gs /\
  matching_each gs p_new (pair_all [(0, 1); (2, 4); (3, 5)]%N).
Proof.
  intros g gs. assert (Hg : Lawful g) by apply api_lawful, pair_and_pan_api.
  assert (H1 : Lawful (as_graph low_pair)) by apply api_lawful, low_pair_api.
  assert (H2 : Lawful (as_graph high_pan)) by apply api_lawful, high_pan_api.
  assert (Hgs : forall h, h ∈ gs -> Lawful h /\ calm_odd_cycles h /\ id_room h).
  { intros h [-> | [-> | ?%elem_of_nil]%elem_of_cons]%elem_of_cons; [..|done];
      (split; [done|]; split; [apply calm_check; [done|vm_compute; reflexivity]|
       apply id_room_check; vm_compute; reflexivity]). }
  split; [done|]. split; [done|]. split.
  { apply parts_check; [done| |vm_compute; reflexivity]. intros h Hh. by apply Hgs. }
  split.
  { intros i j h h' Hij Hi Hj. destruct i as [|i]; [|destruct j as [|[|j]]; [lia| |done]].
    - injection Hi as <-. destruct j as [|[|j]]; [lia| |done]. injection Hj as <-.
      apply (clear_check _ _ [0; 1]%N); [done|vm_compute; reflexivity].
    - assert (i = 0 \/ i > 0) as [->|?] by lia; lia. }
  apply (each_cons canon _ _ _ (pair_all [(0, 1)]%N)); [apply canon_ok|pose proof canon_ok; a_shared_result|].
  apply (each_cons canon _ _ _ (pair_all [(0, 1); (2, 4); (3, 5)]%N)); [apply canon_ok|pose proof canon_ok; a_shared_result|].
  constructor.
Qed.

(** A forest satisfies the hypotheses of the theorem about components. *)
Example C68_components_case : exists ds q,
  Lawful (as_graph twigs) /\ narrow_components (as_graph twigs) /\
  components_are (as_graph twigs) ds /\ length ds = 2 /\
  (forall c, ~ odd_cycle (as_graph twigs) c) /\
  matching_each (as_graph <$> ds) p_new q /\ p_order q = 8.
Proof.
  pose proof (api_lawful _ twigs_api) as Hg. pose proof twigs_acyclic as Ha.
  destruct (comps_run (as_graph twigs) Hg (proj1 Ha) ∅ (g_nodes (as_graph twigs)) ltac:(done))
    as (ds & _ & Hf).
  assert (Hds : components_are (as_graph twigs) ds).
  { eexists. intros fuel Hfuel. apply Hf. exact Hfuel. }
  pose proof (Hf 50 ltac:(vm_compute; lia)) as H50. vm_compute in H50. injection H50 as <-.
  eexists _, (pair_all [(0, 4); (1, 2); (3, 5); (7, 8)]%N).
  split; [done|]. split; [by apply acyclic_narrow_components|]. split; [exact Hds|]. split; [done|].
  split; [intros c; by apply acyclic_no_odd|]. split; [|vm_compute; reflexivity].
  pose proof canon_ok as Hit.
  apply (each_cons canon _ _ _ (pair_all [(0, 4); (1, 2); (3, 5)]%N)); [done|a_shared_result|].
  apply (each_cons canon _ _ _ (pair_all [(0, 4); (1, 2); (3, 5); (7, 8)]%N)); [done|a_shared_result|].
  constructor.
Qed.

(** Property C86: what the searches of maximum_matching that find nothing cost. *)
From Verif Require Import Outcome GraphModel TraversalModel ComponentsModel PairingModel Spec SpecWork SpecLast
  GraphProofs Checks EditProofs ConvertProofs EqProofs TraversalProofs PairingProofs MatchTheory
  MaximumModel WorkModel ForestProofs TameProofs MaximumProofs CalmProofs ClassChecks WorkProofs LastProofs
  PropertiesGraph PropertiesTraversal PropertiesMatching PropertiesWork.

(** C86.  After k augmentations the last k+1 searches are the same one; each of
    the k before makes at least one [neighbors] call on the graph.  If that last
    search looks at no contraction, the number of its [neighbors] calls is the
    number of unpaired nodes plus the degrees of the nodes that some maximum
    matching leaves out. *)
Theorem C86_last_searches g (Hg : Lawful g) iter (Hit : hash_order_ok iter) p (Hp : pairing_of g p) paths q :
  augmentations iter g p paths q ->
  exists W s, length W = length paths /\
    (forall iter', hash_order_ok iter' -> works iter' g p (W ++ replicate (S (length paths)) s) (Ok q)) /\
    (forall s', s' ∈ W -> exists c rest, s' = c :: rest /\ 1 <= c) /\
    ((forall o, ~ odd_cycle g o) -> length s = 1) /\
    forall c D, s = [c] -> NoDup D -> (forall v, v ∈ D <-> spared g v) ->
      c + p_order q = g_order g + degrees g D.
Proof.
  intros [Hr Hs]%rounds_augmentations.
  destruct (work_return_last g Hg iter Hit p paths q Hp Hr Hs) as (W & s & H1 & H2 & H3 & H4 & n & Hn).
  exists W, s. split_and!; [done| |done|apply (H2 s); left|done].
  intros iter' Hit'. split; [done|]. exists n. intros fuel Hfu. by apply Hn.
Qed.
Print Assumptions C86_last_searches.

(** On bipartite graphs and forests that number depends on the graph alone. *)
Theorem C86_last_bipartite g (Hg : Lawful g) iter (Hit : hash_order_ok iter) p (Hp : pairing_of g p) M D :
  Bipartite g \/ Acyclic g -> maximum g M -> NoDup D -> (forall v, v ∈ D <-> spared g v) ->
  exists k q W c, 2 * k + p_order p = 2 * length M /\ length W = k /\
    works iter g p (W ++ replicate (S k) [c]) (Ok q) /\
    c + 2 * length M = g_order g + degrees g D /\
    (forall s, s ∈ W -> exists c', s = [c'] /\ 1 <= c' <= g_order g + g_size g) /\
    k + S k * c <= all_calls (W ++ replicate (S k) [c]).
Proof.
  intros Hb [HM HMmax] HD HDs.
  assert (Hno : forall c, ~ odd_cycle g c).
  { intros c. destruct Hb; [by apply bipartite_no_odd|by apply acyclic_no_odd]. }
  destruct (tame_total g Hg iter Hit p Hp (no_odd_quiet g Hno) (or_intror Hno)) as (paths & q & Haug & Hord & _).
  assert (Hrun : matching_run iter g p (Ok q)) by (apply run_iff; eauto).
  assert (Hq : pairing_of g q) by (by eapply aug_pairing).
  destruct (run_maximum g iter p q _ Hg Hit Hp Hrun (listed_here q)) as [[HL HLmax] Hlen].
  pose proof (HMmax _ HL). pose proof (HLmax _ HM).
  apply rounds_augmentations in Haug as [Hr Hs].
  destruct (work_return_last g Hg iter Hit p paths q Hp Hr Hs) as (W & s & H1 & H2 & H3 & H4 & n & Hn).
  assert (Hone : length s = 1) by (apply (H2 s); [left|done]).
  destruct s as [|c [|]]; try done.
  assert (HW : forall s, s ∈ W -> exists c', s = [c'] /\ 1 <= c' <= g_order g + g_size g).
  { intros s Hs'. destruct (H3 s Hs') as (c' & rest & -> & Hc').
    destruct (H2 (c' :: rest)) as (_ & Hle & Hl); [by right|]. specialize (Hl Hno).
    destruct rest; [|done]. exists c'. split; [done|]. split; [done|]. apply Hle. left. }
  exists (length paths), q, W, c. split_and!; [lia|done| | |done|].
  - split; [done|]. exists n. intros fuel Hfu. by apply Hn.
  - specialize (H4 c D eq_refl HD HDs). lia.
  - rewrite <-H1. clear -HW. generalize (S (length W)). intros k. unfold all_calls. rewrite fmap_app, sum_list_with_app.
    assert (E : sum_list_with id (sum_list <$> replicate k [c]) = k * c).
    { induction k as [|k IH]; [done|]. cbn [replicate]. rewrite fmap_cons. cbn [sum_list_with]. rewrite IH.
      unfold id. cbn. unfold id. lia. }
    rewrite E. assert (length W <= sum_list_with id (sum_list <$> W)); [|lia]. clear E.
    induction W as [|s W IH]; [done|]. rewrite fmap_cons. cbn [sum_list_with length].
    destruct (HW s) as (c' & -> & Hc'); [left|]. specialize (IH (fun s Hs => HW s (elem_of_list_further _ _ _ Hs))).
    unfold id in *. cbn in *. lia.
Qed.
Print Assumptions C86_last_bipartite.

(** The path 0-1-2-3-4: some maximum matching leaves 0, 2 or 4 out, none 1 or 3. *)
Definition path5 : DefaultGraph := get (dg_try_from_edges [(0, 1); (1, 2); (2, 3); (3, 4)]%N).
Lemma path5_api : Api path5.
Proof. apply get_edges_api. is_ok. Qed.
Lemma path5_edges : g_edges (as_graph path5) = [(0, 1); (1, 2); (2, 3); (3, 4)]%N.
Proof. vm_compute. reflexivity. Qed.
Lemma path5_in M : (forall e, e ∈ M -> e ∈ [(0, 1); (1, 2); (2, 3); (3, 4)]%N) -> NoDup (endpoints M) ->
  matching (as_graph path5) M.
Proof.
  intros HM Hnd. split; [|done]. intros u v Huv%HM. rewrite <-path5_edges in Huv.
  by apply (law_edges_adj _ (api_lawful _ path5_api)).
Qed.
Lemma path5_out M u v : matching (as_graph path5) M -> (u, v) ∈ M -> (u ∈ [1; 3] \/ v ∈ [1; 3])%N.
Proof.
  intros HM Huv. pose proof (matching_ne _ _ _ _ HM Huv) as Hne. apply HM in Huv.
  apply (law_edges_complete _ (api_lawful _ path5_api)) in Huv; [|done]. rewrite path5_edges in Huv.
  rewrite !elem_of_cons, !elem_of_nil in Huv. rewrite !elem_of_cons, !elem_of_nil.
  destruct Huv as [H|H]; destruct_or?; simplify_eq; auto.
Qed.
Lemma path5_maximum M : (forall e, e ∈ M -> e ∈ [(0, 1); (1, 2); (2, 3); (3, 4)]%N) -> NoDup (endpoints M) ->
  length M = 2 -> maximum (as_graph path5) M.
Proof.
  intros HM Hnd Hl. split; [by apply path5_in|]. intros M' HM'. rewrite Hl.
  apply (touch_bound M' [1; 3]%N (proj2 HM')). intros u v Huv. by apply (path5_out M').
Qed.
Lemma path5_spared v : v ∈ [0; 2; 4]%N <-> spared (as_graph path5) v.
Proof.
  assert (Hm : forall es, length es = 2 -> forallb (fun e => bool_decide (e ∈ [(0, 1); (1, 2); (2, 3); (3, 4)]%N)) es = true ->
    bool_decide (NoDup (endpoints es)) = true -> maximum (as_graph path5) es).
  { intros es Hl Hin Hnd. apply bool_decide_eq_true in Hnd. apply path5_maximum; [|done|done].
    intros e He. rewrite forallb_forall in Hin. apply elem_of_list_In, Hin, bool_decide_eq_true in He. done. }
  assert (Hn : g_nodes (as_graph path5) = [0; 1; 2; 3; 4]%N) by (vm_compute; reflexivity).
  split.
  - intros Hv. rewrite !elem_of_cons, elem_of_nil in Hv.
    destruct Hv as [->|[->|[->|[]]]]; (split; [rewrite Hn, !elem_of_cons; tauto|]).
    + exists [(1, 2); (3, 4)]%N. split; [by apply Hm|by eapply bool_decide_eq_false; vm_compute; reflexivity].
    + exists [(0, 1); (3, 4)]%N. split; [by apply Hm|by eapply bool_decide_eq_false; vm_compute; reflexivity].
    + exists [(0, 1); (2, 3)]%N. split; [by apply Hm|by eapply bool_decide_eq_false; vm_compute; reflexivity].
  - intros (Hv & M & [HM HMmax] & HvM). rewrite Hn in Hv.
    assert (Hlen : 2 <= length M).
    { apply (HMmax [(0, 1); (2, 3)]%N). by apply Hm. }
    assert (Hx : forall x y : N, (forall z, (z ∈ [1; 3])%N -> z = x \/ z = y) -> v = x -> length M <= 1).
    { intros x y Hxy ->. apply (touch_bound M [y] (proj2 HM)). intros a b Hab.
      assert (Ha : a <> x /\ b <> x).
      { split; intros ->; apply HvM, elem_of_endpoints; eexists; (split; [exact Hab|]); [by left|by right]. }
      destruct (path5_out M a b HM Hab) as [H|H]; apply Hxy in H; rewrite !elem_of_list_singleton; tauto. }
    rewrite !elem_of_cons, elem_of_nil in Hv. rewrite !elem_of_cons. destruct Hv as [->|[->|[->|[->|[->|[]]]]]]; auto; exfalso.
    + assert (length M <= 1); [|lia]. apply (Hx 1%N 3%N); [|done]. intros z. rewrite !elem_of_cons, elem_of_nil. tauto.
    + assert (length M <= 1); [|lia]. apply (Hx 3%N 1%N); [|done]. intros z. rewrite !elem_of_cons, elem_of_nil. tauto.
Qed.

(** From nothing paired: two augmentations, then three searches of 1 + 4 calls
    (one unpaired node; degrees 1, 2 and 1). *)
Example C86_last_case : let g := as_graph path5 in
  Lawful g /\ Acyclic g /\ pairing_of g ∅ /\ maximum g [(0, 1); (2, 3)]%N /\
  (forall v, v ∈ [0; 2; 4]%N <-> spared g v) /\ g_order g = 5 /\ degrees g [0; 2; 4]%N = 4 /\
  (maximum_matching_work canon [] 20 g ∅).1 = [[1]; [2]; [5]; [5]; [5]].
Proof.
  intros g. split_and!.
  - apply api_lawful, path5_api.
  - apply forest_check; [apply path5_api|vm_compute; reflexivity..].
  - split; intros u v H; by rewrite lookup_empty in H.
  - apply path5_maximum; [intros e; rewrite !elem_of_cons, elem_of_nil; tauto|eapply bool_decide_eq_true; vm_compute; reflexivity|done].
  - apply path5_spared.
  - vm_compute. reflexivity.
  - vm_compute. reflexivity.
  - vm_compute. reflexivity.
Qed.

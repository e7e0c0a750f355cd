(** The search of maximum_matching on a pairing in which nodes may be paired
    with themselves. *)
From Verif Require Import Outcome GraphModel TraversalModel ComponentsModel PairingModel Spec
  GraphProofs Checks EditProofs ConvertProofs EqProofs TraversalProofs PairingProofs MatchTheory
  MaximumModel ForestProofs.

Section self_pairs.
  Context (g : Graph) (p : Pairing).

  (** Every node of the forest is a root. *)
  Definition all_roots (f : Forest) : Prop :=
    NoDup (f_nodes f) /\ forall x, x ∈ f_nodes f -> f_parents f !! x = Some (mkEntry None Even).

  Lemma find_v_roots P m pre post : (forall x, x ∈ pre -> P !! x = Some (mkEntry None Even)) ->
    (forall x, x ∈ pre -> x ∈ mk_nodes m) -> find_v P m (pre ++ post) = find_v P m post.
  Proof.
    intros HP Hm. induction pre as [|x pre IH]; [done|]. cbn [app find_v]. rewrite (HP x) by left.
    unfold mk_has_node. rewrite bool_decide_eq_true_2 by (apply Hm; left).
    apply IH; intros; [apply HP|apply Hm]; by right.
  Qed.

  Lemma find_v_next P m v post : P !! v = Some (mkEntry None Even) -> v ∉ mk_nodes m ->
    find_v P m (v :: post) = Ok (Some v).
  Proof. intros HP Hm. cbn [find_v]. rewrite HP. unfold mk_has_node. by rewrite bool_decide_eq_false_2. Qed.

  (** Nodes all of whose edges are marked are passed over one after another. *)
  Definition stuck (m : Marker) (u : N) : Prop :=
    exists l, g_neighbors g u = Ok l /\ forall x, x ∈ l -> mk_has_edge m u x = true.

  Lemma has_edge_same m m' u x : mk_edges m' = mk_edges m -> mk_has_edge m' u x = mk_has_edge m u x.
  Proof. intros H. unfold mk_has_edge. by rewrite H. Qed.

  Lemma filter_marked m u l r : (forall x, x ∈ l -> mk_has_edge m u x = true) ->
    filter (fun id => mk_has_edge m u id = false) (l ++ r) = filter (fun id => mk_has_edge m u id = false) r.
  Proof.
    induction l as [|x l IH]; intros H; [done|]. cbn [app]. rewrite filter_cons, decide_False.
    - apply IH. intros y Hy. apply H. by right.
    - rewrite H by left. done.
  Qed.

  Lemma search_v_skip f us : forall pre post m fuel, all_roots f -> f_nodes f = pre ++ us ++ post ->
    (forall x, x ∈ mk_nodes m <-> x ∈ pre) -> (forall u, u ∈ us -> stuck m u) ->
    exists m', mk_edges m' = mk_edges m /\ (forall x, x ∈ mk_nodes m' <-> x ∈ pre ++ us) /\
      search_v (length us + fuel) g p f m = search_v fuel g p f m'.
  Proof.
    induction us as [|u us IH]; intros pre post m fuel Hf Hn Hm Hus.
    { exists m. split_and!; [done| |done]. intros x. by rewrite app_nil_r. }
    destruct Hf as [Hnd HP].
    assert (Hu : u ∉ pre).
    { rewrite Hn in Hnd. apply NoDup_app in Hnd as (_ & Hd & _). intros Hu. apply (Hd u Hu). left. }
    set (m1 := mkMarker ({[u]} ∪ mk_nodes m) (mk_edges m)).
    destruct (IH (pre ++ [u]) post m1 fuel) as (m' & H1 & H2 & H3).
    - by split.
    - rewrite Hn. by rewrite <-app_assoc.
    - intros x. cbn [mk_nodes m1]. rewrite elem_of_union, elem_of_singleton, Hm, elem_of_app, elem_of_list_singleton. tauto.
    - intros x Hx. destruct (Hus x) as (l & Hl & Hin); [by right|]. exists l. split; [done|].
      intros y Hy. rewrite <-(Hin y Hy). by apply has_edge_same.
    - exists m'. split; [done|]. split; [intros x; rewrite H2, <-app_assoc; done|].
      rewrite <-H3. cbn [length Nat.add search_v]. unfold some_v. rewrite Hn.
      rewrite find_v_roots.
      2:{ intros x Hx. apply HP. rewrite Hn. apply elem_of_app. by left. }
      2:{ intros x Hx. by apply Hm. }
      cbn [app]. rewrite find_v_next.
      2:{ apply HP. rewrite Hn. apply elem_of_app. right. left. }
      2:{ by rewrite Hm. }
      destruct (Hus u) as (l & Hl & Hin); [left|].
      cbn [cbind search_w]. unfold some_w. rewrite Hl. cbn [unwrap cbind].
      assert (E : filter (fun id => mk_has_edge m u id = false) l = []).
      { rewrite <-(app_nil_r l) at 1. by rewrite filter_marked. }
      rewrite E. cbn [head cbind].
      unfold mk_mark_node. rewrite bool_decide_eq_false_2 by (by rewrite Hm). done.
  Qed.

  Lemma search_v_dead f m : all_roots f -> mk_nodes m = ∅ ->
    (forall u, u ∈ f_nodes f -> stuck m u) ->
    exists m', forall fuel, length (f_nodes f) < fuel -> search_v fuel g p f m = Ok (Exhausted f m').
  Proof.
    intros Hf Hm Hus.
    exists (mkMarker (list_to_set (f_nodes f)) (mk_edges m)). intros fuel Hfu.
    destruct (search_v_skip f (f_nodes f) [] [] m (fuel - length (f_nodes f)) Hf) as (m' & H1 & H2 & H3);
      [by rewrite app_nil_r| |done|].
    { intros x. rewrite Hm. set_solver. }
    replace (length (f_nodes f) + (fuel - length (f_nodes f))) with fuel in H3 by lia. rewrite H3.
    destruct (fuel - length (f_nodes f)) as [|k] eqn:Ek; [lia|]. cbn [search_v]. unfold some_v.
    rewrite <-(app_nil_r (f_nodes f)), find_v_roots.
    2:{ apply Hf. }
    2:{ intros x Hx. by apply H2. }
    cbn [find_v cbind]. rewrite app_nil_r. do 2 f_equal. destruct m' as [mn me]. cbn in *. f_equal; [|done].
    apply leibniz_equiv. intros x. by rewrite H2, elem_of_list_to_set.
  Qed.

  Lemma search_v_self f m us v l1 w l2 x post : all_roots f -> mk_nodes m = ∅ ->
    f_nodes f = us ++ v :: post -> (forall u, u ∈ us -> stuck m u) ->
    g_neighbors g v = Ok (l1 ++ w :: l2) -> (forall y, y ∈ l1 -> mk_has_edge m v y = true) ->
    mk_has_edge m v w = false -> p !! w = Some x ->
    f_parents f !! w = None -> x = w \/ is_Some (f_parents f !! x) ->
    forall fuel, length us < fuel -> search_v fuel g p f m = Panic (PForestDuplicate x).
  Proof.
    intros Hf Hm Hn Hus Hv Hl1 Hmv Hw Hfw Hfx fuel Hfu.
    destruct (search_v_skip f us [] (v :: post) m (fuel - length us) Hf) as (m' & H1 & H2 & H3); [done| |done|].
    { intros y. rewrite Hm. set_solver. }
    replace (length us + (fuel - length us)) with fuel in H3 by lia. rewrite H3.
    destruct (fuel - length us) as [|k] eqn:Ek; [lia|]. destruct Hf as [Hnd HP].
    assert (Hvus : v ∉ us).
    { rewrite Hn in Hnd. apply NoDup_app in Hnd as (_ & Hd & _). intros Hu. apply (Hd v Hu). left. }
    assert (HPv : f_parents f !! v = Some (mkEntry None Even)).
    { apply HP. rewrite Hn. apply elem_of_app. right. left. }
    cbn [search_v]. unfold some_v. rewrite Hn, find_v_roots.
    2:{ intros y Hy. apply HP. rewrite Hn. apply elem_of_app. by left. }
    2:{ intros y Hy. by apply H2. }
    rewrite find_v_next; [|done|by rewrite H2].
    cbn [cbind search_w]. unfold some_w. rewrite Hv. cbn [unwrap cbind].
    rewrite filter_marked by (intros y Hy; rewrite (has_edge_same m) by done; by apply Hl1).
    rewrite filter_cons, decide_True by (by rewrite (has_edge_same m)). cbn [head cbind].
    unfold f_path. rewrite Hfw. cbn [cbind]. unfold f_add_edge at 1. rewrite HPv, Hfw. cbn [cbind].
    unfold p_mate. rewrite Hw. cbn [cbind]. unfold f_add_edge. cbn [f_parents]. rewrite lookup_insert.
    destruct (decide (x = w)) as [->|Hne]; [by rewrite lookup_insert|].
    rewrite lookup_insert_ne by done. destruct Hfx as [?|[e ->]]; [done|]. done.
  Qed.

  (** The edges a pairing lists are marked without a panic, whatever the
      pairing is. *)
  Lemma mark_edges_any es : forall m, NoDup es.*1 -> (forall e, e ∈ es -> (e.1 < e.2)%N) ->
    (forall s l a, s ∈ es.*1 -> mk_edges m !! s = Some l -> a ∈ l -> (a < s)%N) ->
    exists m', mark_edges m es = Ok m' /\ mk_nodes m' = mk_nodes m /\
      forall x y, mk_has_edge m' x y = true <-> mk_has_edge m x y = true \/ (x, y) ∈ es \/ (y, x) ∈ es.
  Proof.
    induction es as [|[s t] es IH]; intros m Hnd Hlt Hm.
    { exists m. split_and!; [done|done|]. intros x y. split; [by left|].
      intros [?|[H|H]]; [done|by apply elem_of_nil in H..]. }
    rewrite fmap_cons in Hnd. apply NoDup_cons in Hnd as [Hs Hnd]. cbn [fst] in Hs.
    assert (Hst : (s < t)%N) by (apply (Hlt (s, t)); left).
    cbn [mark_edges]. destruct (mark_edge_ok m s t) as (m1 & -> & Hn1 & H1).
    { intros (l & Hl & Ht)%hedge_alt.
      assert ((t < s)%N); [|lia]. eapply Hm; [|done|done]. rewrite fmap_cons. left. }
    cbn [cbind].
    destruct (IH m1) as (m' & Hm' & Hn' & H2); [done|intros e He; apply Hlt; by right| |].
    - intros s' l a Hs' Hl Ha. assert (Hh : hedge m1 s' a) by (apply hedge_alt; by exists l).
      apply H1 in Hh as [(l' & Hl' & Ha')%hedge_alt|[[-> ->]|[-> ->]]]; [|done|done].
      eapply Hm; [|done|done]. rewrite fmap_cons. by right.
    - exists m'. split; [exact Hm'|]. split; [congruence|]. intros x y. unfold hedge in H1.
      rewrite H2, H1, !elem_of_cons. split.
      + intros [[?|[[-> ->]|[-> ->]]]|[?|?]]; tauto.
      + intros [?|[[[= -> ->]|?]|[[= -> ->]|?]]]; tauto.
  Qed.

  Context (Hg : Lawful g) (iter : hash_order) (Hit : hash_order_ok iter).

  Lemma self_marks tag : exists m, mark_edges mk_new (p_edges iter tag p) = Ok m /\ mk_nodes m = ∅ /\
    forall x y, p !! x = None -> mk_has_edge m x y = true <-> (y < x)%N /\ p !! y = Some x.
  Proof.
    pose proof (p_edges_elem p (iter tag p) (Hit tag p)) as He. unfold p_edges.
    destruct (mark_edges_any (p_edges_of (iter tag p)) mk_new) as (m & Hm & Hmn & H2).
    - assert (Hnd : NoDup (iter tag p).*1) by (rewrite (Hit tag p); apply NoDup_fst_map_to_list).
      unfold p_edges_of. revert Hnd. clear. induction (iter tag p) as [|e l IH]; [done|].
      rewrite fmap_cons, filter_cons. intros [Hx Hnd]%NoDup_cons. case_decide; [|by apply IH].
      rewrite fmap_cons. apply NoDup_cons. split; [|by apply IH].
      intros (e' & Heq & [_ Hin]%elem_of_list_filter)%elem_of_list_fmap. apply Hx.
      apply elem_of_list_fmap. by exists e'.
    - intros [a b] [_ ?]%He. done.
    - intros s l a _ Hl. cbn in Hl. by rewrite lookup_empty in Hl.
    - exists m. split_and!; [done|done|]. intros x y Hx. rewrite H2, !He. unfold mk_has_edge. cbn.
      rewrite lookup_empty. split; [|tauto]. intros [?|[[? _]|?]]; [done|congruence|tauto].
  Qed.

  Lemma self_roots : exists f, add_roots f_new p (g_nodes g) = Ok f /\ all_roots f /\
    f_nodes f = filter (fun x => p !! x = None) (g_nodes g) /\
    forall x, is_Some (f_parents f !! x) <-> x ∈ g_nodes g /\ p !! x = None.
  Proof.
    destruct (add_roots_spec p (g_nodes g) f_new (law_nodes g Hg)) as (f & Hf & Hn & Hl); [done|].
    cbn [f_nodes f_parents f_new app] in Hn, Hl. exists f. split; [done|]. split; [split|split].
    - rewrite Hn. apply NoDup_filter, Hg.
    - intros x. rewrite Hn, elem_of_list_filter, Hl. intros [? ?]. by rewrite bool_decide_eq_true_2.
    - done.
    - intros x. rewrite Hl. case_bool_decide as Hx; [split; [done|by eexists]|].
      split; [intros [? ?]; done|tauto].
  Qed.

  (** [u]'s edges are all marked from the start. *)
  Definition shadowed (u w : N) : Prop := (w < u)%N /\ p !! w = Some u.

  Lemma shadowed_stuck m u : u ∈ g_nodes g -> p !! u = None ->
    (forall x y, p !! x = None -> mk_has_edge m x y = true <-> shadowed x y) ->
    (forall w, adj g u w -> shadowed u w) -> stuck m u.
  Proof.
    intros Hu Hpu Hm H. destruct (law_neighbors g Hg u Hu) as (l & Hl & _). exists l. split; [done|].
    intros x Hx. apply Hm; [done|]. apply H. by exists l.
  Qed.

  Lemma self_pair_panics pre v post l1 w l2 x : g_nodes g = pre ++ v :: post ->
    (forall u, u ∈ pre -> is_Some (p !! u) \/ forall w, adj g u w -> shadowed u w) ->
    p !! v = None -> g_neighbors g v = Ok (l1 ++ w :: l2) -> (forall y, y ∈ l1 -> shadowed v y) ->
    ~ shadowed v w -> p !! w = Some x -> x = w \/ (x ∈ g_nodes g /\ p !! x = None) ->
    matching_run iter g p (Panic (PForestDuplicate x)).
  Proof.
    intros Hn Hpre Hv Hnv Hl1 Hvw Hw Hx. split; [done|]. exists (S (length (g_nodes g))). intros [|fuel] Hfu; [lia|].
    destruct (self_marks [0; 0]) as (m & Hm & Hmn & Hme). destruct self_roots as (f & Hf & Har & Hfn & Hfp).
    cbn [maximum_matching augmenting_path]. rewrite Hm. cbn [cbind]. rewrite Hf. cbn [cbind].
    rewrite Hn, filter_app, filter_cons, decide_True in Hfn by done.
    rewrite (search_v_self f m _ v l1 w l2 x _ Har Hmn Hfn); [done| |done| | |done| | |].
    - intros u [Hu Hin]%elem_of_list_filter. destruct (Hpre u Hin) as [[y Hy]|Hs]; [congruence|].
      apply shadowed_stuck; [|done|done|done]. rewrite Hn. apply elem_of_app. by left.
    - intros y Hy. apply Hme; [done|]. by apply Hl1.
    - apply not_true_is_false. by rewrite Hme.
    - apply eq_None_not_Some. rewrite Hfp. intros [_ ?]. congruence.
    - destruct Hx as [?|?]; [by left|right; by apply Hfp].
    - rewrite Hn, app_length in Hfu. cbn in Hfu. pose proof (filter_length (fun x => p !! x = None) pre). lia.
  Qed.

  Lemma self_pair_idle : (forall u, u ∈ g_nodes g -> p !! u = None -> forall w, adj g u w -> shadowed u w) ->
    matching_run iter g p (Ok p).
  Proof.
    intros Hdead. split; [done|]. exists (S (length (g_nodes g))). intros [|fuel] Hfu; [lia|].
    destruct (self_marks [0; 0]) as (m & Hm & Hmn & Hme). destruct self_roots as (f & Hf & Har & Hfn & Hfp).
    cbn [maximum_matching augmenting_path]. rewrite Hm. cbn [cbind]. rewrite Hf. cbn [cbind].
    destruct (search_v_dead f m Har Hmn) as (m' & Hs).
    { intros u. rewrite Hfn. intros [? ?]%elem_of_list_filter. apply shadowed_stuck; auto. }
    rewrite Hs; [done|]. rewrite Hfn. pose proof (filter_length (fun x => p !! x = None) (g_nodes g)). lia.
  Qed.
End self_pairs.

(** The first augmentations of maximum_matching: as long as the first unpaired
    node that has neighbors can be paired with its first neighbor, it is. *)
From Verif Require Import Outcome GraphModel TraversalModel ComponentsModel PairingModel Spec
  GraphProofs Checks EditProofs ConvertProofs EqProofs TraversalProofs PairingProofs MatchTheory
  MaximumModel ForestProofs TameProofs MaximumProofs SelfPairProofs.

Section start.
  Context (g : Graph) (Hg : Lawful g) (iter : hash_order) (Hit : hash_order_ok iter).

  Lemma search_v_pair p f m us v w rest post : all_roots f -> mk_nodes m = ∅ ->
    f_nodes f = us ++ v :: post -> (forall u, u ∈ us -> stuck g m u) ->
    g_neighbors g v = Ok (w :: rest) -> mk_has_edge m v w = false ->
    f_parents f !! w = Some (mkEntry None Even) ->
    forall fuel, length us < fuel -> search_v fuel g p f m = Ok (EvenPath v [w] f).
  Proof.
    intros Hf Hm Hn Hus Hv Hmv Hfw fuel Hfu.
    destruct (search_v_skip g p f us [] (v :: post) m (fuel - length us) Hf) as (m' & H1 & H2 & H3); [done| |done|].
    { intros y. rewrite Hm. set_solver. }
    replace (length us + (fuel - length us)) with fuel in H3 by lia. rewrite H3.
    destruct (fuel - length us) as [|k] eqn:Ek; [lia|]. destruct Hf as [Hnd HP].
    assert (Hvus : v ∉ us).
    { rewrite Hn in Hnd. apply NoDup_app in Hnd as (_ & Hd & _). intros Hu. apply (Hd v Hu). left. }
    assert (HPv : f_parents f !! v = Some (mkEntry None Even)).
    { apply HP. rewrite Hn. apply elem_of_app. right. left. }
    cbn [search_v]. unfold some_v. rewrite Hn, find_v_roots.
    2:{ intros y Hy. apply HP. rewrite Hn. apply elem_of_app. by left. }
    2:{ intros y Hy. by apply H2. }
    rewrite find_v_next; [|done|by rewrite H2].
    cbn [cbind search_w]. unfold some_w. rewrite Hv. cbn [unwrap cbind].
    rewrite filter_cons, decide_True by (by rewrite (has_edge_same m)). cbn [head cbind].
    unfold f_path. rewrite Hfw. cbn [cbind e_parent f_climb]. done.
  Qed.

  Lemma start_search p pre v post w rest : g_nodes g = pre ++ v :: post ->
    (forall u, u ∈ pre -> is_Some (p !! u) \/ forall y, adj g u y -> shadowed p u y) ->
    p !! v = None -> g_neighbors g v = Ok (w :: rest) -> p !! w = None -> w <> v ->
    search_is iter g p (Some [v; w]).
  Proof.
    intros Hn Hpre Hv Hnv Hw Hvw. exists (S (length (g_nodes g))). intros [|fuel] tag Hfu; [lia|].
    destruct (self_marks p iter Hit (0 :: tag)) as (m & Hm & Hmn & Hme).
    destruct (self_roots g p Hg) as (f & Hf & Har & Hfn & Hfp).
    assert (Hwg : w ∈ g_nodes g) by (apply (law_adj_node g Hg v); exists (w :: rest); split; [done|left]).
    assert (Hfw : f_parents f !! w = Some (mkEntry None Even)).
    { apply Har. rewrite Hfn, elem_of_list_filter. done. }
    assert (Hfv : f_parents f !! v = Some (mkEntry None Even)).
    { apply Har. rewrite Hfn, elem_of_list_filter, Hn. split; [done|]. apply elem_of_app. right. left. }
    cbn [augmenting_path]. rewrite Hm. cbn [cbind]. rewrite Hf. cbn [cbind].
    rewrite Hn, filter_app, filter_cons, decide_True in Hfn by done.
    rewrite (search_v_pair p f m _ v w rest _ Har Hmn Hfn); [|  |done| |done|].
    - cbn [cbind]. unfold f_path. rewrite Hfv. cbn [cbind e_parent f_climb expect_some last].
      rewrite bool_decide_eq_false_2 by congruence. done.
    - intros u [Hu Hin]%elem_of_list_filter. destruct (Hpre u Hin) as [[y Hy]|Hs]; [congruence|].
      apply (shadowed_stuck g p Hg); [|done|done|done]. rewrite Hn. apply elem_of_app. by left.
    - apply not_true_is_false. rewrite Hme by done. intros [_ ?]. congruence.
    - rewrite Hn, app_length in Hfu. cbn in Hfu. pose proof (filter_length (fun x => p !! x = None) pre). lia.
  Qed.

  (** A run and the run after its first augmentation end alike. *)
  Lemma run_first p path p1 m : pairing_of g p -> search_is iter g p (Some path) ->
    p_augment p path = Ok p1 -> matching_run iter g p m <-> matching_run iter g p1 m.
  Proof.
    intros Hp Hs Ha. split; [|by eapply run_back].
    assert (Hp1 : pairing_of g p1) by (by eapply (search_step g Hg iter Hit)).
    intros Hrun. pose proof Hrun as (Hne & n & Hn).
    pose proof (mm_post g n iter [] p Hg Hit Hp) as Hm. rewrite Hn in Hm by lia. destruct m as [q| |e|]; try done.
    - apply (run_iff g Hg iter Hit) in Hrun as (paths & Haug); [|done]. apply (run_iff g Hg iter Hit); [done|].
      inversion Haug as [? Hnone|? path' p1' paths' ? Hs' Ha' Haug']; subst.
      + pose proof (search_det g iter _ _ _ Hs Hnone). done.
      + pose proof (search_det g iter _ _ _ Hs Hs') as [= <-]. rewrite Ha in Ha'. injection Ha' as <-. by exists paths'.
    - apply (run_panic g Hg iter Hit) in Hrun as (paths & q & Hr & Hend); [|done].
      apply (run_panic g Hg iter Hit); [done|].
      inversion Hr as [?|? path' p1' paths' ? Hs' Ha' Hr']; subst.
      + exfalso. destruct Hend as [[k Hk]|(path' & Hs' & Ha')].
        * destruct Hs as [k' Hk']. specialize (Hk (k + k') [] ltac:(lia)). specialize (Hk' (k + k') [] ltac:(lia)). congruence.
        * pose proof (search_det g iter _ _ _ Hs Hs') as [= <-]. congruence.
      + pose proof (search_det g iter _ _ _ Hs Hs') as [= <-]. rewrite Ha in Ha'. injection Ha' as <-.
        by exists paths', q.
  Qed.
End start.

(** Textbook depth-first search, and when the code agrees with it. *)
From Verif Require Import Outcome GraphModel TraversalModel ComponentsModel PairingModel Spec SpecSearch
  GraphProofs EditProofs ConvertProofs EqProofs TraversalProofs BfsProofs DfsProofs PathLemmas
  AcyclicProofs CycleProofs NarrowProofs ComponentsProofs DescentProofs SearchProofs.

Lemma textbook_fun g r done T A B : textbook g r done T A -> textbook g r done T B -> A = B.
Proof.
  intros HA. revert B. induction HA as [|done p n T A Hd _ IH|done p n T A H1 H2 H3 _ IH|done p n T l A H1 H2 H3 H4 Hl _ IH];
    intros B HB; inversion HB; subst; try tauto.
  - by apply IH.
  - f_equal. by apply IH.
  - destruct H3 as [?|[q Hq]]; [done|]. exfalso. match goal with H : forall q, _ ∉ _ |- _ => by apply (H q) end.
  - match goal with H : _ \/ _ |- _ => destruct H as [?|[q ?]] end; [done|]. exfalso. by eapply H4.
  - f_equal. apply IH. match goal with H : g_neighbors g n = Ok ?l' |- _ => rewrite Hl in H; injection H as -> end. done.
Qed.

Section textbook.
  Context (g : Graph) (Hg : Lawful g) (r : N) (Hr : r ∈ g_nodes g).

  (** The nodes not met yet. *)
  Definition unmet (done : list (N * N)) : list N :=
    filter (fun v => v <> r /\ v ∉ snd <$> done) (g_nodes g).

  Lemma unmet_more done e : length (unmet (done ++ [e])) <= length (unmet done).
  Proof.
    apply sublist_length. unfold unmet. generalize (g_nodes g) as l. induction l as [|x l IH]; [done|].
    rewrite !filter_cons. case_decide as H1.
    - rewrite decide_True; [by apply sublist_skip|].
      rewrite fmap_app, not_elem_of_app in H1. tauto.
    - case_decide; [by apply sublist_cons|done].
  Qed.

  Lemma unmet_less done p n : n ∈ g_nodes g -> n <> r -> n ∉ snd <$> done ->
    length (unmet (done ++ [(p, n)])) < length (unmet done).
  Proof.
    intros Hn Hnr Hnd. unfold unmet.
    assert (Heq : filter (fun v => v <> r /\ v ∉ snd <$> done ++ [(p, n)]) (g_nodes g) =
      filter (fun v => v <> n) (filter (fun v => v <> r /\ v ∉ snd <$> done) (g_nodes g))).
    { rewrite filter_filter. apply filter_ext_in. intros x _.
      rewrite fmap_app, not_elem_of_app. cbn. rewrite not_elem_of_cons. set_solver. }
    rewrite Heq. assert (Hin : n ∈ filter (fun v => v <> r /\ v ∉ snd <$> done) (g_nodes g))
      by (by apply elem_of_list_filter).
    revert Hin. generalize (filter (fun v => v <> r /\ v ∉ snd <$> done) (g_nodes g)) as l.
    intros l (l1 & l2 & ->)%elem_of_list_split. rewrite filter_app, filter_cons, decide_False by tauto.
    rewrite !app_length. simpl.
    pose proof (sublist_length _ _ (sublist_filter (fun v => v <> n) l1)).
    pose proof (sublist_length _ _ (sublist_filter (fun v => v <> n) l2)). lia.
  Qed.

  Lemma textbook_total_gen m : forall done T, length (unmet done) <= m ->
    (forall a b, (a, b) ∈ T -> adj g a b) -> exists steps, textbook g r done T steps.
  Proof.
    induction m as [m IH] using lt_wf_ind. intros done T. revert done.
    induction T as [|[p n] T IHT]; intros done Hm HT; [eexists; constructor|].
    assert (HT' : forall a b, (a, b) ∈ T -> adj g a b) by (intros; apply HT; by right).
    destruct (decide ((p, n) ∈ done \/ (n, p) ∈ done)) as [Hd|Hd].
    { destruct (IHT done Hm HT') as [steps Hs]. exists steps. by apply tb_skip. }
    assert (Hiff : n ∈ snd <$> done <-> exists q, (q, n) ∈ done).
    { rewrite elem_of_list_fmap. split; [intros ([q x] & -> & H); by exists q|intros [q H]; by exists (q, n)]. }
    destruct (decide (n = r \/ n ∈ snd <$> done)) as [Hn|Hn].
    - destruct (IHT (done ++ [(p, n)])) as [steps Hs]; [|done|].
      { etrans; [apply unmet_more|done]. }
      eexists. apply tb_cut; [tauto|tauto| |done]. rewrite Hiff in Hn. tauto.
    - assert (Hng : n ∈ g_nodes g) by (eapply law_adj_node; [done|apply HT; left]).
      destruct (IH (length (unmet (done ++ [(p, n)])))) with (done := done ++ [(p, n)])
        (T := ((fun x => (n, x)) <$> nbrs g n) ++ T) as [steps Hs].
      + eapply Nat.lt_le_trans; [apply unmet_less; tauto|done].
      + done.
      + intros a b [(x & [= -> ->] & Hx)%elem_of_list_fmap|H]%elem_of_app; [by apply adj_nbrs|auto].
      + eexists. eapply tb_visit; [tauto|tauto|tauto| |by apply lawful_nbrs|done].
        intros q Hq. apply Hn. right. apply Hiff. by exists q.
  Qed.

  Lemma textbook_total : exists steps, textbook_run g r steps.
  Proof.
    destruct (textbook_total_gen _ [] ((fun x => (r, x)) <$> nbrs g r) (le_n _)) as [steps Hs].
    { intros a b (x & [= -> ->] & Hx)%elem_of_list_fmap. by apply adj_nbrs. }
    exists steps, (nbrs g r). split; [by apply lawful_nbrs|done].
  Qed.

  Context (Hl : LoopFree g).

  Record BkInv (E : list Step) (T : list (N * N)) : Prop := {
    bk_mem : forall x y, uncrossed_edge g r E x y -> (x, y) ∈ T;
    bk_ok : forall a b, (a, b) ∈ T -> a ∈ discovered r E /\ adj g a b;
    bk_sorted : StronglySorted (ranked g (discovered r E)) T;
    bk_nodup : NoDup (discovered r E);
    bk_met : forall n, (n = r \/ exists q, (q, n) ∈ crossed E) -> n ∈ discovered r E
  }.

  Lemma bk_rule E p n T : BkInv E ((p, n) :: T) -> (p, n) ∉ crossed E -> (n, p) ∉ crossed E ->
    youngest g (discovered r E) (uncrossed_edge g r E) p n.
  Proof.
    intros [Hm Hok Hs Hnd _] H1 H2. destruct (Hok p n) as [Hp Ha]; [left|].
    assert (Hne : p <> n) by (intros ->; by apply (Hl n)).
    apply StronglySorted_inv in Hs as [_ Hf]. rewrite Forall_forall in Hf.
    assert (Hin : forall a b, uncrossed_edge g r E a b -> (a, b) = (p, n) \/ ranked g (discovered r E) (p, n) (a, b)).
    { intros a b [Heq|Hab]%Hm%elem_of_cons; [by left|right]. by apply Hf. }
    split; [by split_and!|]. split.
    - intros a b [[= -> ->]|[H|[H _]]]%Hin; [by left|by right|by left].
    - intros b l Hb%Hin Hl'. destruct Hb as [[= ->]|[H|[_ H]]]; [by left|simpl in H..].
      + by destruct (before_asym _ _ _ Hnd H H).
      + right. unfold nbrs in H. by rewrite Hl' in H.
  Qed.

  Lemma bk_run done T steps : textbook g r done T steps -> forall E, done = crossed E -> BkInv E T ->
    (forall pre s post, steps = pre ++ s :: post ->
       youngest g (discovered r (E ++ pre)) (uncrossed_edge g r (E ++ pre)) (sid s) (tid s) /\
       (cut s = true <-> tid s ∈ discovered r (E ++ pre))) /\
    (forall x y, ~ uncrossed_edge g r (E ++ steps) x y).
  Proof.
    induction 1 as [done|done p n T steps Hd _ IH|done p n T steps H1 H2 H3 _ IH|done p n T l steps H1 H2 H3 H4 Hln _ IH];
      intros E -> HB.
    - split; [by intros []|]. rewrite app_nil_r. intros x y H%(bk_mem _ _ HB). by apply elem_of_nil in H.
    - apply IH; [done|]. destruct HB as [Hm Hok Hs Hnd Hmet]. split; [|..].
      + intros x y Hxy. pose proof (Hm x y Hxy) as [[= -> ->]|H]%elem_of_cons; [|done].
        destruct Hxy as (_ & _ & _ & ? & ?). tauto.
      + intros a b Hab. apply Hok. by right.
      + by apply StronglySorted_inv in Hs as [? _].
      + done.
      + done.
    - pose proof (bk_rule E p n T HB H1 H2) as Hrule.
      assert (Hn : n ∈ discovered r E) by (by apply (bk_met _ _ HB)).
      destruct (IH (E ++ [mkStep p n true])) as [HA Hend].
      { by rewrite crossed_snoc. }
      { assert (Hd : discovered r (E ++ [mkStep p n true]) = discovered r E)
          by (rewrite discovered_snoc; apply app_nil_r).
        destruct HB as [Hm Hok Hs Hnd Hmet]. split; rewrite ?Hd.
        - intros x y (G1 & G2 & G3 & G4 & G5). rewrite Hd in G1. rewrite crossed_snoc in G4, G5.
          cbn [sid tid] in G4, G5. apply not_elem_of_app in G4 as [G4 G6], G5 as [G5 G7].
          rewrite elem_of_list_singleton in G6, G7.
          assert (Hf : (x, y) ∈ (p, n) :: T) by (apply Hm; by split_and!).
          apply elem_of_cons in Hf as [Heq|Hf]; done.
        - intros a b Hab. apply Hok. by right.
        - by apply StronglySorted_inv in Hs as [? _].
        - done.
        - intros x [->|[q Hq]]; [apply Hmet; by left|]. rewrite crossed_snoc in Hq.
          apply elem_of_app in Hq as [Hq|Hq%elem_of_list_singleton]; [apply Hmet; right; by exists q|].
          cbn [sid tid] in Hq. by simplify_eq. }
      rewrite <-app_assoc in Hend. split; [|done].
      intros [|s0 pre] s post Heq; simplify_eq/=.
      + rewrite app_nil_r. split; [done|]. done.
      + specialize (HA pre s post eq_refl). by rewrite <-app_assoc in HA.
    - pose proof (bk_rule E p n T HB H1 H2) as Hrule.
      assert (Hn : n ∉ discovered r E).
      { unfold discovered. rewrite not_elem_of_cons. split; [done|].
        intros (s & -> & [_ Hs]%elem_of_list_filter)%elem_of_list_fmap.
        apply (H4 (sid s)). apply elem_of_list_fmap. by exists s. }
      destruct (IH (E ++ [mkStep p n false])) as [HA Hend].
      { by rewrite crossed_snoc. }
      { assert (Hd : discovered r (E ++ [mkStep p n false]) = discovered r E ++ [n])
          by (by rewrite discovered_snoc).
        destruct HB as [Hm Hok Hs Hnd Hmet]. destruct (Hok p n) as [Hp Hpn]; [left|].
        assert (Hnb : nbrs g n = l) by (unfold nbrs; by rewrite Hln).
        split; rewrite ?Hd.
        - intros x y (G1 & G2 & G3 & G4 & G5). rewrite Hd in G1. rewrite crossed_snoc in G4, G5.
          cbn [sid tid] in G4, G5. apply not_elem_of_app in G4 as [G4 G6], G5 as [G5 G7].
          rewrite elem_of_list_singleton in G6, G7. apply elem_of_app. apply elem_of_app in G1 as [G1|G1].
          + right. assert (Hf : (x, y) ∈ (p, n) :: T) by (apply Hm; by split_and!).
            apply elem_of_cons in Hf as [Heq|Hf]; done.
          + left. apply elem_of_list_singleton in G1 as ->. apply elem_of_list_fmap. exists y.
            split; [done|]. rewrite <-Hnb. by apply adj_nbrs.
        - intros a b [(x & [= -> ->] & Hx)%elem_of_list_fmap|Hab]%elem_of_app.
          + split; [apply elem_of_app; right; left|]. apply adj_nbrs. by rewrite Hnb.
          + destruct (Hok a b) as [? ?]; [by right|]. split; [apply elem_of_app; by left|done].
        - apply StronglySorted_app_2.
          + rewrite <-(filter_all (fun _ => True) l) by done. apply ranked_row. by exists [].
          + apply StronglySorted_inv in Hs as [Hs _]. eapply StronglySorted_impl; [|exact Hs].
            intros e f. apply ranked_app.
          + intros e [a b] (y & -> & _)%elem_of_list_fmap Hab. left. cbn [fst snd].
            apply before_snoc. apply (Hok a b). by right.
        - apply NoDup_app. split_and!; [done|by intros x Hx ->%elem_of_list_singleton|apply NoDup_singleton].
        - intros x [->|[q Hq]]; [apply elem_of_app; left; apply Hmet; by left|]. rewrite crossed_snoc in Hq.
          apply elem_of_app in Hq as [Hq|Hq%elem_of_list_singleton]; apply elem_of_app.
          + left. apply Hmet. right. by exists q.
          + right. cbn [sid tid] in Hq. simplify_eq. left. }
      rewrite <-app_assoc in Hend. split; [|done].
      intros [|s0 pre] s post Heq; simplify_eq/=.
      + rewrite app_nil_r. split; [done|]. done.
      + specialize (HA pre s post eq_refl). by rewrite <-app_assoc in HA.
  Qed.

  Lemma textbook_obeys steps : textbook_run g r steps -> textbook_rule g r steps.
  Proof.
    intros (l & Hln & HT). refine (bk_run _ _ _ HT [] eq_refl _).
    assert (Hnb : nbrs g r = l) by (unfold nbrs; by rewrite Hln). split.
    - intros x y (Hx & Ha & _). unfold discovered in Hx. apply elem_of_list_singleton in Hx as ->.
      apply elem_of_list_fmap. exists y. split; [done|]. rewrite <-Hnb. by apply adj_nbrs.
    - intros a b (x & [= -> ->] & Hx)%elem_of_list_fmap. split; [left|]. apply adj_nbrs. by rewrite Hnb.
    - rewrite <-(filter_all (fun _ => True) l) by done. apply ranked_row. by exists [].
    - apply NoDup_singleton.
    - intros n [->|[q Hq]]; [left|by apply elem_of_nil in Hq].
  Qed.

  Lemma textbook_rule_unique A B : textbook_rule g r A -> textbook_rule g r B -> A = B.
  Proof.
    apply (rule_unique r (uncrossed_edge g r) (youngest g)).
    - intros E x y x' y'. apply youngest_unique; [done|]. intros a b (_ & H1 & H2 & _). done.
    - intros E x y [H _]. done.
  Qed.

  Lemma textbook_rule_iff steps : textbook_run g r steps <-> textbook_rule g r steps.
  Proof.
    split; [apply textbook_obeys|]. intros H. destruct textbook_total as [T HT].
    by rewrite (textbook_rule_unique steps T H (textbook_obeys T HT)).
  Qed.

  (** The code agrees with the textbook exactly if the textbook traversal never
      goes on from a bypassed node. *)
  Lemma dfs_is_textbook T : textbook_run g r T ->
    depth_first g r T <-> (forall pre s post, T = pre ++ s :: post -> ~ bypassed g r pre (sid s)).
  Proof.
    intros HT. rewrite (dfs_rule_iff g Hg r T Hl Hr). apply textbook_obeys in HT as [HT1 HT2]. split.
    - intros [H _] pre s post Heq. destruct (H pre s post Heq) as [[[_ Hn] _] _]. done.
    - intros H. split.
      + intros pre s post Heq. destruct (HT1 pre s post Heq) as [(H1 & H2 & H3) Hc]. split; [|done].
        split_and!.
        * split; [done|]. by eapply H.
        * intros a b [Hab _]. by eapply H2.
        * intros b l [Hb _]. by apply H3.
      + intros x y [Hxy _]. by apply (HT2 x y).
  Qed.

  (** They agree until the textbook traversal first goes on from a bypassed node. *)
  Lemma dfs_agrees_until T steps pre post : textbook_run g r T -> depth_first g r steps ->
    T = pre ++ post ->
    (forall pre' s post', pre = pre' ++ s :: post' -> ~ bypassed g r pre' (sid s)) ->
    exists rest, steps = pre ++ rest.
  Proof.
    intros HT Hd. apply textbook_obeys in HT as [HT1 HT2].
    apply (dfs_rule_iff g Hg r steps Hl Hr) in Hd as [HD1 HD2].
    revert post. induction pre as [|s pre IH] using rev_ind; intros post Heq Hnb; [by exists steps|].
    rewrite <-app_assoc in Heq. simpl in Heq.
    destruct (IH (s :: post) Heq) as [rest Hrest].
    { intros pre' x post' ->. apply (Hnb pre' x (post' ++ [s])). by rewrite <-app_assoc. }
    destruct (HT1 pre s post Heq) as [(H1 & H2 & H3) Hc].
    assert (Hfree : depth_free g r pre (sid s) (tid s)) by (split; [done|by apply (Hnb pre s [])]).
    destruct rest as [|s' rest].
    { exfalso. rewrite app_nil_r in Hrest. subst steps. by apply (HD2 (sid s) (tid s)). }
    destruct (HD1 pre s' rest Hrest) as [Hy' Hc'].
    assert (Hnd : NoDup (discovered r pre)).
    { apply (rule_nodup r (fun pre s => youngest g (discovered r pre) (depth_free g r pre) (sid s) (tid s))).
      intros q x k ->. apply (HD1 q x (k ++ s' :: rest)). by rewrite Hrest, <-app_assoc. }
    assert (Hy : youngest g (discovered r pre) (depth_free g r pre) (sid s) (tid s)).
    { split_and!; [done|intros a b [Hab _]; by eapply H2|intros b l [Hb _]; by apply H3]. }
    destruct (youngest_unique g Hg r pre (depth_free g r pre) (sid s) (tid s) (sid s') (tid s'))
      as [Hs Ht]; [|done..|].
    { intros a b [(_ & ? & ? & _) _]. done. }
    exists rest. rewrite Hrest, <-app_assoc. f_equal. simpl. f_equal.
    destruct s as [p n c], s' as [p' n' c']. cbn [sid tid cut] in *. subst p' n'. f_equal.
    destruct c, c'; [done| | |done].
    - apply Hc'. by apply Hc.
    - symmetry. apply Hc. by apply Hc'.
  Qed.
End textbook.

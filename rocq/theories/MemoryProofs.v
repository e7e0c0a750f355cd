(** What the two traversals keep in memory. *)
From Verif Require Import Outcome GraphModel TraversalModel ComponentsModel PairingModel
  Spec SpecAdvance GraphProofs EditProofs ConvertProofs EqProofs TraversalProofs BfsProofs DfsProofs AdvanceProofs.

Lemma edges_bound g (L : list (N * N)) : Lawful g -> LoopFree g ->
  (forall u v, (u, v) ∈ L -> adj g u v) -> (forall u v, u <> v -> times_crossed (u, v) L <= 1) ->
  length L <= g_size g.
Proof.
  intros Hg Hlf Hadj Honce. rewrite (law_size g Hg).
  assert (Hnd : NoDup (norm <$> L)).
  { clear Hg. revert Hadj Honce. induction L as [|[a b] L IH]; intros Hadj Honce; [constructor|].
    assert (Hab : adj g a b) by (apply Hadj; left).
    assert (Hne : a <> b) by (intros ->; by apply (Hlf b)).
    rewrite fmap_cons. apply NoDup_cons. split.
    - intros ([c d] & E & Hcd)%elem_of_list_fmap. specialize (Honce a b Hne).
      unfold times_crossed in Honce. rewrite filter_cons, decide_True in Honce by (by left). simpl in Honce.
      assert (Hin : (c, d) ∈ filter (fun f => same_edge (a, b) f) L).
      { apply elem_of_list_filter. split; [by apply norm_same_edge|done]. }
      destruct (filter _ L); [by apply elem_of_nil in Hin|simpl in Honce; lia].
    - apply IH; [intros; apply Hadj; by right|]. intros u v Huv. specialize (Honce u v Huv).
      unfold times_crossed in *. rewrite filter_cons in Honce. case_decide; simpl in Honce; lia. }
  assert (Hsub : (norm <$> L) ⊆+ (norm <$> g_edges g)).
  { apply NoDup_submseteq; [done|]. intros e ([a b] & -> & Hab)%elem_of_list_fmap.
    specialize (Hadj a b Hab). assert (Hne : a <> b) by (intros ->; by apply (Hlf b)).
    apply elem_of_list_fmap. destruct (law_edges_complete g Hg a b Hne Hadj); [eauto|].
    exists (b, a). split; [|done]. apply norm_same_edge. by right. }
  apply submseteq_length in Hsub. by rewrite !fmap_length in Hsub.
Qed.

Lemma pending_bound g r E V Q : Lawful g -> LoopFree g -> TInv g r E V Q -> length E + length Q <= g_size g.
Proof.
  intros Hg Hl HT. replace (length E + length Q) with (length (crossed E ++ Q))
    by (unfold crossed; by rewrite app_length, fmap_length).
  apply edges_bound; [done|done| |apply (ti_once _ _ _ _ _ HT)].
  intros u v [(s & [= -> ->] & Hs)%elem_of_list_fmap|H]%elem_of_app.
  - by apply (ti_emit _ _ _ _ _ HT).
  - by apply (ti_pend _ _ _ _ _ HT).
Qed.

Lemma times_distinct (L : list (N * N)) : (forall u v, (u, v) ∈ L -> u <> v) ->
  (forall u v, u <> v -> times_crossed (u, v) L <= 1) -> distinct_edges L.
Proof.
  intros Hne Honce.
  assert (Hlt : forall i j e f, i < j -> L !! i = Some e -> L !! j = Some f -> same_edge e f -> False).
  { intros i j [a b] f Hij Hi Hj Hs.
    assert (Hab : a <> b) by (apply Hne; by eapply elem_of_list_lookup_2).
    specialize (Honce a b Hab). rewrite <-(take_drop_middle L i _ Hi), times_crossed_app in Honce.
    unfold times_crossed in Honce at 2. rewrite filter_cons, decide_True in Honce by (by left). simpl in Honce.
    assert (Hin : f ∈ filter (fun f => same_edge (a, b) f) (drop (S i) L)).
    { apply elem_of_list_filter. split; [done|]. apply elem_of_list_lookup. exists (j - S i).
      rewrite lookup_drop, <-Hj. f_equal. lia. }
    destruct (filter _ (drop (S i) L)); [by apply elem_of_nil in Hin|simpl in Honce; lia]. }
  intros i j e f Hi Hj Hs. destruct (Nat.lt_trichotomy i j) as [?|[?|?]]; [exfalso; eauto|done|exfalso].
  eapply (Hlt j i f e); try done. destruct e, f, Hs as [[=]|[=]]; simpl in *; subst; [by left|by right].
Qed.

Lemma tinv_distinct g r E V Q : LoopFree g -> TInv g r E V Q -> distinct_edges (crossed E ++ Q).
Proof.
  intros Hl HT. apply times_distinct; [|apply (ti_once _ _ _ _ _ HT)].
  intros u v Huv ->. apply (Hl v).
  apply elem_of_app in Huv as [(s & [= Ea Eb] & Hs)%elem_of_list_fmap|H].
  - pose proof (proj1 (ti_emit _ _ _ _ _ HT s Hs)) as H. by rewrite <-Ea, <-Eb in H.
  - by apply (ti_pend _ _ _ _ _ HT).
Qed.

Lemma visited_bound g r E V Q : Lawful g -> r ∈ g_nodes g -> TInv g r E V Q -> size V <= g_order g.
Proof.
  intros Hg Hr HT. rewrite (law_order g Hg).
  assert (Hsub : V ⊆ list_to_set (g_nodes g)).
  { intros v Hv%(ti_reach _ _ _ _ _ HT). apply elem_of_list_to_set. by eapply reachable_node. }
  apply subseteq_size in Hsub. rewrite size_list_to_set in Hsub; [done|]. by apply law_nodes.
Qed.

Lemma dfs_advance_inv g r k E t outs t' : Lawful g -> TInv g r E (df_nodes t) (df_stack t) ->
  dfs_advance k g t = Ok (outs, t') -> TInv g r (E ++ omap id outs) (df_nodes t') (df_stack t').
Proof.
  intros Hg. revert E t outs. induction k as [|k IH]; intros E t outs HT H.
  { injection H as <- <-. by rewrite app_nil_r. }
  cbn [dfs_advance] in H. apply cbind_ok in H as ([o t1] & Hn & H).
  apply cbind_ok in H as ([outs1 t2] & Ha & [= <- <-]). cbn [fst snd] in *.
  destruct (decide (df_stack t = [])) as [E0|Hne].
  - unfold dfs_next in Hn. rewrite E0 in Hn. injection Hn as <- <-. by apply (IH E t outs1).
  - destruct (dfs_next_step g Hg t Hne) as (s & t3 & Hn3 & Hst).
    { intros p n Hp. by apply (ti_pend _ _ _ _ _ HT). }
    rewrite Hn in Hn3. injection Hn3 as -> ->.
    pose proof (tinv_step g Hg r E _ _ _ _ _ HT Hst) as HT1. specialize (IH _ _ _ HT1 Ha).
    by rewrite <-app_assoc in IH.
Qed.

Lemma bfs_advance_inv g r k E t outs t' : Lawful g -> TInv g r E (bf_nodes t) (bf_queue t) ->
  bfs_advance k g t = Ok (outs, t') -> TInv g r (E ++ omap id outs) (bf_nodes t') (bf_queue t').
Proof.
  intros Hg. revert E t outs. induction k as [|k IH]; intros E t outs HT H.
  { injection H as <- <-. by rewrite app_nil_r. }
  cbn [bfs_advance] in H. apply cbind_ok in H as ([o t1] & Hn & H).
  apply cbind_ok in H as ([outs1 t2] & Ha & [= <- <-]). cbn [fst snd] in *.
  destruct (decide (bf_queue t = [])) as [E0|Hne].
  - unfold bfs_next in Hn. rewrite E0 in Hn. injection Hn as <- <-. by apply (IH E t outs1).
  - destruct (bfs_next_step g Hg t Hne) as (s & t3 & Hn3 & Hst).
    { intros p n Hp. by apply (ti_pend _ _ _ _ _ HT). }
    rewrite Hn in Hn3. injection Hn3 as -> ->.
    pose proof (tinv_step g Hg r E _ _ _ _ _ HT Hst) as HT1. specialize (IH _ _ _ HT1 Ha).
    by rewrite <-app_assoc in IH.
Qed.

Lemma dfs_after_inv g r k outs t : Lawful g -> dfs_after g r k outs t ->
  r ∈ g_nodes g /\ TInv g r (omap id outs) (df_nodes t) (df_stack t).
Proof.
  intros Hg (t0 & Hn & Ha). rewrite dfs_new_spec in Hn by done. case_bool_decide as Hr; [|done].
  injection Hn as <-. split; [done|]. apply (dfs_advance_inv g r k [] _ outs t Hg) in Ha; [done|].
  by apply tinv_new.
Qed.
Lemma bfs_after_inv g r k outs t : Lawful g -> bfs_after g r k outs t ->
  r ∈ g_nodes g /\ TInv g r (omap id outs) (bf_nodes t) (bf_queue t).
Proof.
  intros Hg (t0 & Hn & Ha). rewrite bfs_new_spec in Hn by done. case_bool_decide as Hr; [|done].
  injection Hn as <-. split; [done|]. apply (bfs_advance_inv g r k [] _ outs t Hg) in Ha; [done|].
  by apply tinv_new.
Qed.

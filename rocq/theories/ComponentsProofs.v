(** components(). *)
From Verif Require Import Outcome GraphModel TraversalModel ComponentsModel PairingModel Spec
  GraphProofs EditProofs ConvertProofs EqProofs TraversalProofs BfsProofs DfsProofs PathLemmas
  AcyclicProofs NarrowProofs.

(** What one iteration yields for root [r]: the graph of the depth-first
    traversal from [r], or the single node [r]. *)
Definition yields (g : Graph) (r : N) (d : DefaultGraph) : Prop :=
  exists steps, WF d /\ depth_first g r steps /\
    dg_nodes d = discovered r steps /\ dg_edges d = crossed steps /\
    (forall u v, v ∈ row d u <-> (u, v) ∈ crossed steps \/ (v, u) ∈ crossed steps) /\
    forall u, row d u = a_neighbors (mkA [] (crossed steps)) u.

Inductive comps (g : Graph) : gset N -> list N -> list DefaultGraph -> Prop :=
| comps_nil V : comps g V [] []
| comps_skip V r iter ds : r ∈ V -> comps g V iter ds -> comps g V (r :: iter) ds
| comps_take V V' r iter d ds : r ∉ V -> yields g r d ->
    (forall v, v ∈ V' <-> v ∈ dg_nodes d \/ v ∈ V) ->
    comps g V' iter ds -> comps g V (r :: iter) (d :: ds).

Section components.
  Context (g : Graph) (Hg : Lawful g) (Hl : LoopFree g).

  Lemma dfs_collect_size r t steps : depth_first g r steps -> dfs_new g r = Ok t ->
    forall fuel, g_size g < fuel -> dfs_collect fuel g t = Ok steps.
  Proof.
    intros Hd Ht fuel Hf. pose proof (dfs_bound g r steps Hg Hl Hd) as Hb.
    destruct Hd as (t' & n & Ht' & Hn). rewrite Ht in Ht'. injection Ht' as <-.
    rewrite dfs_gcollect. rewrite (gcollect_exact (dfs_next g) n t steps).
    - assert (length steps <? fuel = true) as ->; [|done]. apply Nat.ltb_lt. lia.
    - rewrite <-dfs_gcollect. by apply Hn.
  Qed.

  (** One call of [next] with a root to process. *)
  Lemma c_next_take V r iter : r ∈ g_nodes g -> r ∉ V ->
    exists d V', yields g r d /\ (forall v, v ∈ V' <-> v ∈ dg_nodes d \/ v ∈ V) /\
      forall fuel, g_size g < fuel -> c_next fuel g (mkC V (r :: iter)) = Ok (Some d, mkC V' iter).
  Proof.
    intros Hr HrV. destruct (dfs_total g r Hg Hr) as (steps & Hd).
    destruct (dfs_sound g r steps Hg Hd) as (H1 & H2 & H3).
    destruct (apply_steps_ok r [] steps dg_new (dbuilt_new r)) as (d & Happ & HB); simpl.
    { by eapply dfs_cut_exact. }
    { intros s Hs Heq. destruct (H1 s Hs) as [Ha _]. rewrite Heq in Ha. by apply (Hl (tid s)). }
    { done. }
    { done. }
    pose proof Hd as (t & n & Ht & Hn).
    assert (Htry : forall fuel, g_size g < fuel -> dg_try_from_dfs fuel g t = Ok d).
    { intros fuel Hf. unfold dg_try_from_dfs. rewrite (extend_dfs_apply fuel g t steps); [done|].
      by eapply dfs_collect_size. }
    unfold c_next. simpl. rewrite bool_decide_eq_false_2 by done. rewrite Ht. simpl.
    simpl in HB. destruct HB as [Hwf He Hn' Hrow Hrows].
    destruct (dg_is_empty d) eqn:Ed.
    - apply is_empty_true in Ed.
      assert (steps = []) as -> by (destruct steps; [done|by rewrite Hn' in Ed]).
      destruct (add_node_local d r Hwf) as (d' & Hadd & Hwf' & Hnd & Hed & Hrd).
      { rewrite Ed. apply not_elem_of_nil. }
      exists d', ({[r]} ∪ V). split_and!; [|intros v|intros fuel Hf].
      + exists []. split_and!; [done|done| | | |].
        * by rewrite Hnd, Ed.
        * by rewrite Hed, He.
        * intros u v. rewrite Hrd. apply Hrow.
        * intros u. rewrite Hrd. apply Hrows.
      + rewrite Hnd, Ed. set_solver.
      + rewrite Htry by done. simpl. rewrite (proj2 (is_empty_true d)) by done. by rewrite Hadd.
    - assert (Hne : steps <> []).
      { intros ->. rewrite (proj2 (is_empty_true d)) in Ed; done. }
      assert (Hnodes : dg_nodes d = discovered r steps) by (rewrite Hn'; by destruct steps).
      exists d, (list_to_set (dg_nodes d) ∪ ({[r]} ∪ V)). split_and!; [|intros v|intros fuel Hf].
      + exists steps. done.
      + rewrite Hnodes, !elem_of_union, elem_of_list_to_set, elem_of_singleton.
        unfold discovered. rewrite elem_of_cons. tauto.
      + rewrite Htry by done. simpl. by rewrite Ed.
  Qed.

  Lemma c_next_skip V r iter fuel : r ∈ V ->
    c_next fuel g (mkC V (r :: iter)) = c_next fuel g (mkC V iter).
  Proof. intros Hr. unfold c_next. simpl. by rewrite bool_decide_eq_true_2. Qed.

  Lemma comps_run V iter : (forall v, v ∈ iter -> v ∈ g_nodes g) ->
    exists ds, comps g V iter ds /\
      forall fuel, g_size g + length iter < fuel -> c_collect fuel g (mkC V iter) = Ok ds.
  Proof.
    revert V. induction iter as [|r iter IH]; intros V Hin.
    { exists []. split; [constructor|]. intros [|fuel] Hf; [lia|]. done. }
    destruct (decide (r ∈ V)) as [HrV|HrV].
    - destruct (IH V) as (ds & Hc & Hf); [intros; apply Hin; by right|].
      exists ds. split; [by apply comps_skip|]. intros fuel Hlt. simpl in Hlt.
      rewrite <-(Hf fuel) by lia. destruct fuel; [done|]. cbn [c_collect].
      by rewrite c_next_skip.
    - destruct (c_next_take V r iter) as (d & V' & Hy & HV' & Hnext); [apply Hin; left|done|].
      destruct (IH V') as (ds & Hc & Hf); [intros; apply Hin; by right|].
      exists (d :: ds). split; [by eapply comps_take|]. intros [|fuel] Hlt; [lia|]. simpl in Hlt.
      cbn [c_collect]. rewrite Hnext by lia. cbn [cbind]. rewrite Hf by lia. done.
  Qed.

  Lemma components_run : exists ds, components_are g ds /\ comps g ∅ (g_nodes g) ds.
  Proof.
    destruct (comps_run ∅ (g_nodes g)) as (ds & Hc & Hf); [done|].
    exists ds. split; [|done]. exists (S (g_size g + length (g_nodes g))). intros fuel Hle.
    apply Hf. lia.
  Qed.
End components.

Lemma components_are_fun g ds ds' : components_are g ds -> components_are g ds' -> ds = ds'.
Proof.
  intros (n & Hn) (m & Hm). specialize (Hn (n + m) ltac:(lia)). specialize (Hm (n + m) ltac:(lia)).
  congruence.
Qed.

Lemma reach_trans g u v w : reachable g u v -> reachable g v w -> reachable g u w.
Proof. apply rtc_transitive. Qed.

Lemma yields_root g r d : yields g r d -> r ∈ dg_nodes d.
Proof. intros (steps & _ & _ & -> & _). left. Qed.

Lemma yields_subgraph g r d : Lawful g -> yields g r d -> connected_subgraph d g.
Proof.
  intros Hg (steps & Hwf & Hd & Hn & He & Hr & _).
  destruct (dfs_sound g r steps Hg Hd) as (H1 & H2 & H3).
  assert (Hrg : r ∈ g_nodes g) by (by eapply dfs_root).
  assert (Hreach : forall v, v ∈ discovered r steps -> reachable g r v /\ reachable (as_graph d) r v).
  { intros v Hv. split.
    - unfold discovered in Hv. apply elem_of_cons in Hv as [->|Hv]; [constructor|].
      apply elem_of_list_fmap in Hv as (s & -> & [_ Hs]%elem_of_list_filter).
      by apply (H1 s Hs).
    - pose proof (dfs_cut_exact g r steps Hg Hd) as Hc.
      unfold discovered in Hv. apply elem_of_cons in Hv as [->|Hv]; [constructor|].
      apply elem_of_list_fmap in Hv as (s & -> & [Hcs [i Hi]%elem_of_list_lookup]%elem_of_list_filter).
      revert s Hcs Hi. induction i as [i IH] using lt_wf_ind. intros s Hcs Hi.
      assert (Hadj : adj (as_graph d) (sid s) (tid s)).
      { apply adj_row; [by apply wf_idx|]. apply Hr. left.
        apply elem_of_list_fmap. exists s. split; [done|]. by eapply elem_of_list_lookup_2. }
      destruct (Hc i s Hi) as [_ [Hs|(j & x & Hj & Hx & Hcx & Hs)]].
      + rewrite Hs in Hadj. by apply rtc_once.
      + rewrite <-Hs in Hadj. eapply rtc_r; [|exact Hadj]. by eapply IH. }
  split_and!; simpl; try rewrite Hn.
  - done.
  - intros v Hv. eapply reachable_node; [done|done|]. by apply Hreach.
  - intros u v Ha%adj_row; [|by apply wf_idx].
    apply Hr in Ha as [(s & [= -> ->] & Hs)%elem_of_list_fmap|(s & [= -> ->] & Hs)%elem_of_list_fmap];
      destruct (H1 s Hs) as [? _]; [done|by apply law_adj_sym].
  - intros u v Hu Hv. apply (reach_trans _ u r).
    + apply reachable_sym; [by apply wf_lawful|]. by apply Hreach.
    + by apply Hreach.
Qed.

Lemma comps_subgraph g V iter ds d : comps g V iter ds -> d ∈ ds -> exists r, yields g r d.
Proof.
  intros H. induction H as [V|V r iter ds Hr _ IH|V V' r iter d' ds Hr Hy HV' _ IH]; intros Hd.
  - by apply elem_of_nil in Hd.
  - by apply IH.
  - apply elem_of_cons in Hd as [->|Hd]; [by exists r|by apply IH].
Qed.

Lemma comps_cover g V iter ds v : comps g V iter ds -> v ∈ iter ->
  v ∈ V \/ exists d, d ∈ ds /\ v ∈ dg_nodes d.
Proof.
  intros H. revert v. induction H as [V|V r iter ds Hr _ IH|V V' r iter d ds Hr Hy HV' _ IH]; intros v Hv.
  - by apply elem_of_nil in Hv.
  - apply elem_of_cons in Hv as [->|Hv]; [by left|by apply IH].
  - apply elem_of_cons in Hv as [->|Hv].
    + right. exists d. split; [left|by eapply yields_root].
    + destruct (IH v Hv) as [[Hd|HvV]%HV'|(d' & Hd' & Hv')].
      * right. exists d. split; [left|done].
      * by left.
      * right. exists d'. split; [by right|done].
Qed.

Lemma components_general g : Lawful g -> LoopFree g ->
  exists ds, components_are g ds /\
    (forall d, d ∈ ds -> connected_subgraph d g) /\
    (forall v, v ∈ g_nodes g -> exists d, d ∈ ds /\ v ∈ g_nodes (as_graph d)).
Proof.
  intros Hg Hl. destruct (components_run g Hg Hl) as (ds & Hc & Hcs). exists ds.
  split_and!; [done| |].
  - intros d Hd. destruct (comps_subgraph _ _ _ _ _ Hcs Hd) as (r & Hy). by eapply yields_subgraph.
  - intros v Hv. destruct (comps_cover _ _ _ _ _ Hcs Hv) as [Hv'|?]; [set_solver|done].
Qed.

(** ** Narrow rings *)

(** With narrow rings, one iteration yields the whole component. *)
Lemma yields_narrow g r d : Lawful g -> narrow_rings g r -> yields g r d ->
  (forall v, v ∈ dg_nodes d <-> reachable g r v) /\
  (forall u v, u ∈ dg_nodes d -> adj (as_graph d) u v <-> adj g u v) /\
  NoDup (dg_nodes d) /\ head (dg_nodes d) = Some r.
Proof.
  intros Hg Ha Hy. destruct (yields_subgraph g r d Hg Hy) as (_ & _ & Hsub & _).
  destruct Hy as (steps & Hwf & Hd & Hn & He & Hr & _).
  destruct (narrow_dfs g Hg r Ha steps Hd) as (H1 & H2 & H3). rewrite Hn. split_and!.
  - intros v. symmetry. apply H1.
  - intros u v Hu%H1. split; [apply Hsub|]. intros Huv.
    specialize (H2 u v Hu Huv). apply adj_row; [by apply wf_idx|]. apply Hr.
    assert (Hpos : 0 < times_crossed (u, v) (crossed steps)) by lia.
    apply times_crossed_pos in Hpos as ([a b] & Hin & [[= -> ->]|[= -> ->]]); auto.
  - apply (dfs_sound g r steps Hg Hd).
  - done.
Qed.

(** [d] is the whole component of [r]. *)
Definition whole_from (g : Graph) (r : N) : Prop := forall d, yields g r d ->
  (forall v, v ∈ dg_nodes d <-> reachable g r v) /\
  (forall u v, u ∈ dg_nodes d -> adj (as_graph d) u v <-> adj g u v) /\
  NoDup (dg_nodes d) /\ head (dg_nodes d) = Some r.
Definition whole_firsts (g : Graph) : Prop :=
  forall i r, g_nodes g !! i = Some r ->
    (forall j v, j < i -> g_nodes g !! j = Some v -> ~ reachable g r v) -> whole_from g r.

Lemma first_whole g (V : gset N) pre r iter : Lawful g -> whole_firsts g ->
  g_nodes g = pre ++ r :: iter ->
  (forall v, v ∈ pre -> v ∈ V) -> (forall u v, u ∈ V -> reachable g u v -> v ∈ V) -> r ∉ V ->
  whole_from g r.
Proof.
  intros Hg Ha Hpre HpV Hcl Hr. apply (Ha (length pre)).
  - by rewrite Hpre, lookup_app_r, Nat.sub_diag by lia.
  - intros j v Hj Hv Hrv. rewrite Hpre, lookup_app_l in Hv by done. apply Hr.
    apply (Hcl v r); [|by apply reachable_sym]. apply HpV. by eapply elem_of_list_lookup_2.
Qed.

Lemma first_narrow g (V : gset N) pre r iter : Lawful g -> narrow_components g ->
  g_nodes g = pre ++ r :: iter ->
  (forall v, v ∈ pre -> v ∈ V) -> (forall u v, u ∈ V -> reachable g u v -> v ∈ V) -> r ∉ V ->
  narrow_rings g r.
Proof.
  intros Hg [_ Ha] Hpre HpV Hcl Hr. apply (Ha (length pre)).
  - by rewrite Hpre, lookup_app_r, Nat.sub_diag by lia.
  - intros j v Hj Hv Hrv. rewrite Hpre, lookup_app_l in Hv by done. apply Hr.
    apply (Hcl v r); [|by apply reachable_sym]. apply HpV. by eapply elem_of_list_lookup_2.
Qed.

(** The nodes before the remaining ones are visited, and the visited set is a
    union of components. *)
Lemma comps_whole g V pre iter ds : Lawful g -> whole_firsts g ->
  comps g V iter ds -> g_nodes g = pre ++ iter ->
  (forall v, v ∈ pre -> v ∈ V) ->
  (forall u v, u ∈ V -> reachable g u v -> v ∈ V) ->
  NoDup (ds ≫= dg_nodes) /\
  (forall d v, d ∈ ds -> v ∈ dg_nodes d -> v ∉ V) /\
  (forall d u v, d ∈ ds -> u ∈ dg_nodes d -> (v ∈ dg_nodes d <-> reachable g u v)) /\
  (forall d u v, d ∈ ds -> u ∈ dg_nodes d -> (adj (as_graph d) u v <-> adj g u v)) /\
  (exists roots, (fun d => head (dg_nodes d)) <$> ds = Some <$> roots /\ sublist roots iter) /\
  (forall d r i j v, d ∈ ds -> head (dg_nodes d) = Some r ->
     g_nodes g !! i = Some r -> g_nodes g !! j = Some v -> v ∈ dg_nodes d -> i <= j).
Proof.
  intros Hg Ha Hc. revert pre.
  induction Hc as [V|V r iter ds Hr _ IH|V V' r iter d ds Hr Hy HV' _ IH]; intros pre Hpre HpV Hcl.
  - split_and!; try (intros; set_solver).
    + constructor.
    + exists []. split; [done|constructor].
  - destruct (IH (pre ++ [r])) as (H1 & H2 & H3 & H4 & (roots & H5 & H6) & H7).
    { by rewrite <-app_assoc. }
    { intros v [Hv| ->%elem_of_list_singleton]%elem_of_app; auto. }
    { done. }
    split_and!; try done. exists roots. split; [done|]. by constructor.
  - destruct (first_whole g V pre r iter Hg Ha Hpre HpV Hcl Hr d Hy) as (Y1 & Y2 & Y3 & Y4).
    destruct (IH (pre ++ [r])) as (H1 & H2 & H3 & H4 & (roots & H5 & H6) & H7).
    { by rewrite <-app_assoc. }
    { intros v [Hv| ->%elem_of_list_singleton]%elem_of_app; apply HV'; [by right; auto|].
      left. by eapply yields_root. }
    { intros u v [Hu|Hu]%HV' Huv; apply HV'.
      - left. apply Y1. apply Y1 in Hu. by apply (reach_trans g r u).
      - right. by eapply Hcl. }
    assert (HdV : forall v, v ∈ dg_nodes d -> v ∉ V).
    { intros v Hv HvV. apply Hr. eapply Hcl; [exact HvV|].
      apply reachable_sym; [done|]. by apply Y1. }
    split_and!.
    + cbn. apply NoDup_app. split_and!; [done| |done].
      intros v Hv (d' & Hv' & Hd')%elem_of_list_bind. apply (H2 d' v Hd' Hv'). apply HV'. by left.
    + intros d' v [->|Hd']%elem_of_cons Hv; [by apply HdV|].
      intros HvV. apply (H2 d' v Hd' Hv). apply HV'. by right.
    + intros d' u v [->|Hd']%elem_of_cons Hu; [|by apply H3].
      rewrite Y1. apply Y1 in Hu. split.
      * intros Hv. apply (reach_trans g u r); [|done]. by apply reachable_sym.
      * intros Hv. by apply (reach_trans g r u).
    + intros d' u v [->|Hd']%elem_of_cons Hu; [by apply Y2|by apply H4].
    + exists (r :: roots). split; [|by constructor]. by rewrite !fmap_cons, Y4, H5.
    + intros d' r' i j v [->|Hd']%elem_of_cons Hh Hi Hj Hv; [|by eapply H7].
      rewrite Y4 in Hh. injection Hh as <-.
      assert (Hlen : i = length pre).
      { eapply NoDup_lookup; [apply (law_nodes g Hg)|done|]. rewrite Hpre.
        by rewrite lookup_app_r, Nat.sub_diag by lia. }
      subst i. destruct (decide (j < length pre)) as [Hlt|]; [|lia].
      rewrite Hpre, lookup_app_l in Hj by done.
      destruct (HdV v Hv). apply HpV. by eapply elem_of_list_lookup_2.
Qed.

Lemma components_whole g ds : Lawful g -> LoopFree g -> whole_firsts g -> components_are g ds ->
  (ds ≫= (fun d => g_nodes (as_graph d))) ≡ₚ g_nodes g /\
  (forall d u v, d ∈ ds -> u ∈ g_nodes (as_graph d) ->
     (v ∈ g_nodes (as_graph d) <-> reachable g u v)) /\
  (forall d u v, d ∈ ds -> u ∈ g_nodes (as_graph d) -> (adj (as_graph d) u v <-> adj g u v)) /\
  (exists roots, (fun d => head (g_nodes (as_graph d))) <$> ds = Some <$> roots /\
     sublist roots (g_nodes g)) /\
  (forall d r i j v, d ∈ ds -> head (g_nodes (as_graph d)) = Some r ->
     g_nodes g !! i = Some r -> g_nodes g !! j = Some v -> v ∈ g_nodes (as_graph d) -> i <= j).
Proof.
  intros Hg Hl Ha Hc.
  destruct (components_run g Hg Hl) as (ds' & Hc' & Hcs).
  rewrite <-(components_are_fun g ds ds' Hc Hc') in Hcs. clear Hc'.
  destruct (components_general g Hg Hl) as (ds2 & Hc2 & Hsub & Hcov).
  rewrite <-(components_are_fun g ds ds2 Hc Hc2) in Hsub, Hcov.
  destruct (comps_whole g ∅ [] (g_nodes g) ds) as (H1 & H2 & H3 & H4 & H5 & H6);
    [done|done|done|done|set_solver|set_solver|].
  split_and!; try done.
  apply NoDup_Permutation; [done|apply (law_nodes g Hg)|].
  intros v. rewrite elem_of_list_bind. split.
  - intros (d & Hv & Hd). destruct (Hsub d Hd) as (_ & Hn & _). by apply Hn.
  - intros Hv. destruct (Hcov v Hv) as (d & Hd & Hvd). by exists d.
Qed.

Lemma narrow_whole g : Lawful g -> narrow_components g -> whole_firsts g.
Proof. intros Hg [_ Ha] i r Hi Hf d Hy. eapply yields_narrow; [done|by eapply Ha|done]. Qed.

Lemma components_narrow g ds : Lawful g -> narrow_components g -> components_are g ds ->
  (ds ≫= (fun d => g_nodes (as_graph d))) ≡ₚ g_nodes g /\
  (forall d u v, d ∈ ds -> u ∈ g_nodes (as_graph d) ->
     (v ∈ g_nodes (as_graph d) <-> reachable g u v)) /\
  (forall d u v, d ∈ ds -> u ∈ g_nodes (as_graph d) -> (adj (as_graph d) u v <-> adj g u v)) /\
  (exists roots, (fun d => head (g_nodes (as_graph d))) <$> ds = Some <$> roots /\
     sublist roots (g_nodes g)) /\
  (forall d r i j v, d ∈ ds -> head (g_nodes (as_graph d)) = Some r ->
     g_nodes g !! i = Some r -> g_nodes g !! j = Some v -> v ∈ g_nodes (as_graph d) -> i <= j).
Proof.
  intros Hg Ha. apply components_whole; [done|apply Ha|by apply narrow_whole].
Qed.

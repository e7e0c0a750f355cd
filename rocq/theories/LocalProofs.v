(** Other components have no influence. *)
From Verif Require Import Outcome GraphModel TraversalModel ComponentsModel PairingModel GreedyModel
  Spec SpecPart GraphProofs EditProofs ConvertProofs EqProofs TraversalProofs BfsProofs DfsProofs PathLemmas
  AcyclicProofs CycleProofs NarrowProofs ComponentsProofs PairingProofs GreedyProofs EquivProofs ReplayProofs LoopProofs ReturnProofs.

(** ** Traversals *)

Section local.
  Context (g h : Graph) (r : N).
  Context (H : forall v, reachable g r v -> g_neighbors h v = g_neighbors g v).

  Definition tame (S : list (N * N)) : Prop := forall e, e ∈ S -> reachable g r e.2.

  Lemma dfs_next_local V S : tame S ->
    dfs_next h (mkDF V S) = dfs_next g (mkDF V S) /\
    forall s t, dfs_next g (mkDF V S) = Ok (Some s, t) -> tame (df_stack t).
  Proof using H.
    intros HS. unfold dfs_next. cbn [df_stack df_nodes]. destruct S as [|[p n] S]; [done|].
    assert (Hn : reachable g r n) by (apply (HS (p, n)); left).
    case_bool_decide as HV.
    - split; [done|]. intros s t [= <- <-]. intros e He. apply HS. by right.
    - rewrite (H n Hn). split; [done|]. intros s t Heq.
      apply cbind_ok in Heq as (l & Hl & [= <- <-]). cbn [df_stack].
      intros e [[He _]|(He1 & He2 & _)]%dfs_push_inv; [apply HS; by right|].
      rewrite elem_of_reverse in He2. eapply rtc_r; [exact Hn|]. exists l. split; [|done].
      by destruct (g_neighbors g n); simplify_eq/=.
  Qed.

  Lemma dfs_collect_local fuel V S : tame S -> dfs_collect fuel h (mkDF V S) = dfs_collect fuel g (mkDF V S).
  Proof using H.
    revert V S. induction fuel as [|fuel IH]; intros V S HS; [done|]. cbn [dfs_collect].
    destruct (dfs_next_local V S HS) as [-> Ht].
    destruct (dfs_next g (mkDF V S)) as [[[s|] [V' S']]| | |]; cbn [cbind]; [|done..].
    by rewrite IH by (by apply (Ht s (mkDF V' S'))).
  Qed.

  Lemma dg_extend_local fuel V S d : tame S -> dg_extend_dfs fuel h (mkDF V S) d = dg_extend_dfs fuel g (mkDF V S) d.
  Proof using H.
    revert V S d. induction fuel as [|fuel IH]; intros V S d HS; [done|]. cbn [dg_extend_dfs].
    destruct (dfs_next_local V S HS) as [-> Ht].
    destruct (dfs_next g (mkDF V S)) as [[[s|] [V' S']]| | |]; cbn [cbind]; [|done..].
    specialize (Ht s _ eq_refl). cbn [df_stack] in Ht.
    repeat (match goal with |- cbind ?m _ = cbind ?m _ => destruct m; cbn [cbind]; [|done..] end).
    by apply IH.
  Qed.

  Lemma dfs_new_local : dfs_new h r = dfs_new g r /\ forall t, dfs_new g r = Ok t -> tame (df_stack t).
  Proof using H.
    unfold dfs_new. rewrite (H r) by constructor. split; [done|]. intros t Ht.
    apply cbind_ok in Ht as (l & Hl & [= <-]). cbn [df_stack]. intros e He.
    rewrite elem_of_reverse in He.
    assert (Hgen : forall l' acc, e ∈ foldl (fun st x => (r, x) :: st) acc l' -> e ∈ acc \/ e.2 ∈ l').
    { clear. induction l' as [|x l' IH]; intros acc He; [by left|]. apply IH in He as [He|He].
      - apply elem_of_cons in He as [->|He]; [right; left|by left].
      - right. by right. }
    apply Hgen in He as [He|He]; [by apply elem_of_nil in He|].
    apply rtc_once. by exists l.
  Qed.

  Lemma depth_first_local steps : depth_first h r steps <-> depth_first g r steps.
  Proof using H.
    destruct dfs_new_local as [Hn Ht]. unfold depth_first. rewrite Hn.
    split; intros ([V S] & n & Hnew & Hf); exists (mkDF V S), n; (split; [done|]); intros fuel Hle;
      specialize (Hf fuel Hle); rewrite dfs_collect_local in *; try done; by apply (Ht (mkDF V S)).
  Qed.

  Lemma dfs_graph_local d : dfs_graph h r d <-> dfs_graph g r d.
  Proof using H.
    destruct dfs_new_local as [Hn Ht]. unfold dfs_graph, dg_try_from_dfs. rewrite Hn.
    split; intros ([V S] & n & Hnew & Hf); exists (mkDF V S), n; (split; [done|]); intros fuel Hle;
      specialize (Hf fuel Hle); rewrite dg_extend_local in *; try done; by apply (Ht (mkDF V S)).
  Qed.

  Lemma dfs_graph_error_local e : dfs_graph_error h r e <-> dfs_graph_error g r e.
  Proof using H.
    destruct dfs_new_local as [Hn Ht]. unfold dfs_graph_error, dg_try_from_dfs. rewrite Hn.
    split; intros ([V S] & n & Hnew & Hf); exists (mkDF V S), n; (split; [done|]); intros fuel Hle;
      specialize (Hf fuel Hle); rewrite dg_extend_local in *; try done; by apply (Ht (mkDF V S)).
  Qed.

  Lemma bfs_next_local V S : tame S ->
    bfs_next h (mkBF V S) = bfs_next g (mkBF V S) /\
    forall s t, bfs_next g (mkBF V S) = Ok (Some s, t) -> tame (bf_queue t).
  Proof using H.
    intros HS. unfold bfs_next. cbn [bf_queue bf_nodes]. destruct S as [|[p n] S]; [done|].
    assert (Hn : reachable g r n) by (apply (HS (p, n)); left).
    case_bool_decide as HV.
    - split; [done|]. intros s t [= <- <-]. intros e He. apply HS. by right.
    - rewrite (H n Hn). split; [done|]. intros s t Heq.
      apply cbind_ok in Heq as (l & Hl & [= <- <-]). cbn [bf_queue]. rewrite bfs_push_spec.
      intros e [He|(x & -> & [_ Hx]%elem_of_list_filter)%elem_of_list_fmap]%elem_of_app; [apply HS; by right|].
      cbn [snd]. eapply rtc_r; [exact Hn|]. exists l. split; [|done].
      by destruct (g_neighbors g n); simplify_eq/=.
  Qed.

  Lemma bfs_collect_local fuel V S : tame S -> bfs_collect fuel h (mkBF V S) = bfs_collect fuel g (mkBF V S).
  Proof using H.
    revert V S. induction fuel as [|fuel IH]; intros V S HS; [done|]. cbn [bfs_collect].
    destruct (bfs_next_local V S HS) as [-> Ht].
    destruct (bfs_next g (mkBF V S)) as [[[s|] [V' S']]| | |]; cbn [cbind]; [|done..].
    by rewrite IH by (by apply (Ht s (mkBF V' S'))).
  Qed.

  Lemma bfs_new_local : bfs_new h r = bfs_new g r /\ forall t, bfs_new g r = Ok t -> tame (bf_queue t).
  Proof using H.
    unfold bfs_new. rewrite (H r) by constructor. split; [done|]. intros t Ht.
    apply cbind_ok in Ht as (l & Hl & [= <-]). cbn [bf_queue]. intros e He.
    assert (Hgen : forall l' acc, e ∈ foldl (fun q x => q ++ [(r, x)]) acc l' -> e ∈ acc \/ e.2 ∈ l').
    { clear. induction l' as [|x l' IH]; intros acc He; [by left|]. apply IH in He as [He|He].
      - apply elem_of_app in He as [He| ->%elem_of_list_singleton]; [by left|right; left].
      - right. by right. }
    apply Hgen in He as [He|He]; [by apply elem_of_nil in He|].
    apply rtc_once. by exists l.
  Qed.

  Lemma breadth_first_local steps : breadth_first h r steps <-> breadth_first g r steps.
  Proof using H.
    destruct bfs_new_local as [Hn Ht]. unfold breadth_first. rewrite Hn.
    split; intros ([V S] & n & Hnew & Hf); exists (mkBF V S), n; (split; [done|]); intros fuel Hle;
      specialize (Hf fuel Hle); rewrite bfs_collect_local in *; try done; by apply (Ht (mkBF V S)).
  Qed.
End local.

(** ** Parts *)

Lemma dfs_reaches h r steps v : Lawful h -> depth_first h r steps -> v ∈ discovered r steps -> reachable h r v.
Proof.
  intros Hh Hd [->|(s & -> & [_ Hs]%elem_of_list_filter)%elem_of_list_fmap]%elem_of_cons; [constructor|].
  by apply (dfs_sound h r steps Hh Hd).
Qed.

Section part.
  Context (g h : Graph) (Hg : Lawful g) (Hh : Lawful h) (Hp : part_of g h).

  Lemma part_reach v w : v ∈ g_nodes g -> reachable g v w -> w ∈ g_nodes g.
  Proof using Hg. intros. by eapply reachable_node. Qed.

  Lemma part_adj u v : u ∈ g_nodes g -> adj h u v <-> adj g u v.
  Proof using Hp. intros Hu. unfold adj. destruct Hp as [_ Hn]. by rewrite Hn. Qed.

  Lemma part_reach_h v w : v ∈ g_nodes g -> reachable h v w -> w ∈ g_nodes g.
  Proof using Hg Hp.
    intros Hv H. induction H as [|x y z Hxy _ IH]; [done|]. apply IH.
    apply part_adj in Hxy; [|done]. by eapply law_adj_node.
  Qed.

  Lemma part_local r : r ∈ g_nodes g -> forall v, reachable g r v -> g_neighbors h v = g_neighbors g v.
  Proof using Hg Hp. intros Hr v Hv. destruct Hp as [_ Hn]. apply Hn. by eapply part_reach. Qed.

  Lemma part_yields r d : r ∈ g_nodes g -> yields h r d -> yields g r d.
  Proof using Hg Hp.
    intros Hr (steps & H1 & H2 & H3). exists steps. split; [done|]. split; [|done].
    apply (depth_first_local g h r); [by apply part_local|done].
  Qed.

  Lemma part_yields_in r d : r ∈ g_nodes g -> yields h r d -> inside g d.
  Proof using Hg Hh Hp.
    intros Hr Hy. apply Forall_forall. intros v Hv. eapply part_reach_h; [exact Hr|].
    destruct Hy as (steps & _ & Hd & Hn & _). cbn in Hv. rewrite Hn in Hv. by eapply dfs_reaches.
  Qed.

  Lemma part_yields_out r d v : r ∉ g_nodes g -> yields h r d -> v ∈ dg_nodes d -> v ∉ g_nodes g.
  Proof using Hg Hh Hp.
    intros Hr (steps & _ & Hd & Hn & _) Hv Hvg. apply Hr. eapply part_reach_h; [exact Hvg|].
    apply reachable_sym; [done|]. rewrite Hn in Hv. by eapply dfs_reaches.
  Qed.

  Lemma part_comps V V' iter ds : comps h V iter ds -> (forall v, v ∈ g_nodes g -> v ∈ V <-> v ∈ V') ->
    comps g V' (filter (fun v => v ∈ g_nodes g) iter) (filter (inside g) ds) /\
    forall d, d ∈ ds -> inside g d \/ forall v, v ∈ dg_nodes d -> v ∉ g_nodes g.
  Proof using Hg Hh Hp.
    intros Hc. revert V'. induction Hc as [V|V r iter ds Hr _ IH|V V1 r iter d ds Hr Hy HV1 _ IH]; intros V' HV.
    - split; [constructor|]. intros d Hd. by apply elem_of_nil in Hd.
    - destruct (IH V' HV) as [Hc Hd]. split; [|done]. rewrite filter_cons. destruct (decide _) as [Hin|]; [|done].
      apply comps_skip; [by apply HV|done].
    - rewrite !filter_cons. destruct (decide (r ∈ g_nodes g)) as [Hin|Hin].
      + pose proof (part_yields_in r d Hin Hy) as Hd. rewrite decide_True by done.
        destruct (IH (list_to_set (dg_nodes d) ∪ V')) as [Hc Hds].
        { intros v Hv. rewrite HV1, elem_of_union, elem_of_list_to_set, HV; done. }
        split.
        * eapply comps_take; [by rewrite <-HV|by apply part_yields| |exact Hc].
          intros v. by rewrite elem_of_union, elem_of_list_to_set.
        * intros d' [->|Hd']%elem_of_cons; [by left|by apply Hds].
      + assert (Hout : forall v, v ∈ dg_nodes d -> v ∉ g_nodes g) by (intros v; by apply (part_yields_out r)).
        rewrite decide_False.
        2:{ intros Hd. unfold inside in Hd. rewrite Forall_forall in Hd. apply Hin, Hd. simpl.
            by eapply yields_root. }
        destruct (IH V') as [Hc Hds].
        { intros v Hv. rewrite HV1, <-HV by done. split; [intros [Hd|?]; [by destruct (Hout v)|done]|by right]. }
        split; [done|]. intros d' [->|Hd']%elem_of_cons; [by right|by apply Hds].
  Qed.

  Lemma part_yields1 d : inside g d -> (exists r, yields h r d) -> yields1 h d -> yields1 g d.
  Proof using Hg Hp.
    intros Hin (r & Hy) H1. destruct (yields1_steps h r d Hy H1) as (steps & Hd & Hs).
    assert (Hr : r ∈ g_nodes g).
    { unfold inside in Hin. rewrite Forall_forall in Hin. apply Hin. simpl. by eapply yields_root. }
    exists r, steps. split; [by apply part_yields|]. split; [|split; [|done]].
    - apply (depth_first_local g h r); [by apply part_local|done].
    - destruct Hy as (steps' & _ & Hd' & -> & _). by rewrite (depth_first_fun _ _ _ _ Hd' Hd).
  Qed.

  Lemma part_components ds : components_are h ds ->
    components_are g (filter (inside g) ds) /\
    forall d, d ∈ ds -> inside g d \/ forall v, v ∈ dg_nodes d -> v ∉ g_nodes g.
  Proof using Hg Hh Hp.
    intros [Hc Hy]%(comps_returns h ds Hh).
    destruct (part_comps ∅ ∅ _ _ Hc) as [Hc2 Hd]; [done|]. split; [|done].
    apply comps_returns; [done|]. destruct Hp as [Hn _]. rewrite <-Hn in Hc2. split; [done|].
    intros d [Hin Hds]%elem_of_list_filter. apply part_yields1; [done| |by apply Hy].
    by eapply comps_subgraph.
  Qed.

  (** ** greedy *)

  Definition agree (st st' : gset N * Pairing) : Prop :=
    forall v, v ∈ g_nodes g -> (v ∈ st.1 <-> v ∈ st'.1) /\ st.2 !! v = st'.2 !! v.

  Lemma fresh_pair_lookup (p : Pairing) a b x : symmetric_pairing p -> a <> b -> p !! a = None -> p !! b = None ->
    p_pair p a b !! x = if bool_decide (x = a) then Some b else if bool_decide (x = b) then Some a else p !! x.
  Proof.
    clear. intros Hs Hab Ha Hb. rewrite pair_lookup by done. repeat case_bool_decide; try done.
    exfalso. match goal with H : _ \/ _ |- _ => destruct H as [H|H]; apply Hs in H as [H _]; congruence end.
  Qed.

  Lemma agree_in st st' s : GInv h st -> GInv g st' -> agree st st' ->
    sid s ∈ g_nodes g -> tid s ∈ g_nodes g -> agree (greedy_step st s) (greedy_step st' s).
  Proof using Hg Hh Hp.
    destruct st as [V p], st' as [V' p']. intros [[Hs _] Hd] [[Hs' _] Hd'] Ha H1 H2. simpl in *.
    rewrite (bool_decide_ext _ _ (proj1 (Ha (sid s) H1))). simpl. case_bool_decide as Hsv; [done|].
    assert (Ht : tid s ∈ {[sid s]} ∪ V <-> tid s ∈ {[sid s]} ∪ V').
    { rewrite !elem_of_union. pose proof (proj1 (Ha (tid s) H2)) as E. simpl in E. by rewrite E. }
    rewrite (bool_decide_ext _ _ Ht). case_bool_decide as Htv.
    - intros v Hv. destruct (Ha v Hv) as [E1 E2]. simpl in *. by rewrite !elem_of_union, E1.
    - assert (Hne : sid s <> tid s) by set_solver.
      assert (Hn : forall x, x ∉ V -> p !! x = None).
      { intros x Hx. destruct (p !! x) eqn:E; [|done]. destruct Hx. apply Hd. by eexists. }
      assert (Hn' : forall x, x ∉ V' -> p' !! x = None).
      { intros x Hx. destruct (p' !! x) eqn:E; [|done]. destruct Hx. apply Hd'. by eexists. }
      pose proof (proj1 (Ha (sid s) H1)) as E1. pose proof (proj1 (Ha (tid s) H2)) as E2. simpl in E1, E2.
      apply not_elem_of_union in Htv as [_ Htv].
      intros v Hv. destruct (Ha v Hv) as [E3 E4]. simpl in E3, E4. cbn [fst snd].
      rewrite !fresh_pair_lookup by (try done; try (by apply Hn'); apply Hn; naive_solver).
      rewrite !elem_of_union, E3, E4. done.
  Qed.

  Lemma agree_out st st' s : GInv h st -> agree st st' ->
    sid s ∉ g_nodes g -> tid s ∉ g_nodes g -> agree (greedy_step st s) st'.
  Proof using Hg Hh Hp.
    destruct st as [V p], st' as [V' p']. intros [[Hs _] Hd] Ha H1 H2. simpl in *.
    case_bool_decide as Hsv; [done|]. case_bool_decide as Htv.
    - intros v Hv. destruct (Ha v Hv) as [E1 E2]. simpl in *. split; [|done].
      rewrite elem_of_union, elem_of_singleton, <-E1. split; [intros [->|?]; done|by right].
    - assert (Hne : sid s <> tid s) by set_solver.
      assert (Hn : forall x, x ∉ V -> p !! x = None).
      { intros x Hx. destruct (p !! x) eqn:E; [|done]. destruct Hx. apply Hd. by eexists. }
      apply not_elem_of_union in Htv as [_ Htv].
      intros v Hv. destruct (Ha v Hv) as [E3 E4]. simpl in E3, E4. cbn [fst snd].
      rewrite fresh_pair_lookup by (try done; by apply Hn).
      rewrite !bool_decide_eq_false_2 by (intros ->; done). split; [|done].
      rewrite !elem_of_union, !elem_of_singleton, <-E3. split; [intros [->|[->|?]]; done|by right; right].
  Qed.

  Lemma part_greedy_on st ds st' st1 : greedy_on st ds st' ->
    (forall d, d ∈ ds -> exists r, yields h r d) ->
    (forall d, d ∈ ds -> inside g d \/ forall v, v ∈ dg_nodes d -> v ∉ g_nodes g) ->
    GInv h st -> GInv g st1 -> agree st st1 ->
    exists st1', greedy_on st1 (filter (inside g) ds) st1' /\ GInv h st' /\ GInv g st1' /\ agree st' st1'.
  Proof using Hg Hh Hp.
    intros Hgo. revert st1. induction Hgo as [st|st d ds r steps st' Hhd Hd _ IH];
      intros st1 Hy Hio HG HG1 Ha.
    { exists st1. split; [constructor|done]. }
    destruct (Hy d) as (r' & Hyd); [left|].
    assert (Hgd : Lawful (as_graph d)) by (destruct Hyd as (? & Hwf & _); by apply wf_lawful).
    destruct (yields_subgraph h r' d Hh Hyd) as (_ & _ & Hsub & _).
    assert (Hst : forall s, s ∈ steps -> adj (as_graph d) (sid s) (tid s)).
    { intros s Hs. by apply (dfs_sound _ _ _ Hgd Hd). }
    assert (HGf : GInv h (foldl greedy_step st steps)).
    { apply ginv_fold; [done|done|]. intros s Hs. by apply Hsub, Hst. }
    assert (Hnodes : forall s, s ∈ steps -> sid s ∈ dg_nodes d /\ tid s ∈ dg_nodes d).
    { intros s Hs. specialize (Hst s Hs). split; [by apply (lawful_adj_l _ Hgd (sid s) (tid s))|].
      by apply (law_adj_node _ Hgd (sid s) (tid s)). }
    assert (Hy' : forall d, d ∈ ds -> exists r, yields h r d) by (intros; apply Hy; by right).
    assert (Hio' : forall d, d ∈ ds -> inside g d \/ forall v, v ∈ dg_nodes d -> v ∉ g_nodes g)
      by (intros; apply Hio; by right).
    rewrite filter_cons. destruct (decide (inside g d)) as [Hin|Hin].
    - assert (Hin' : forall v, v ∈ dg_nodes d -> v ∈ g_nodes g).
      { unfold inside in Hin. rewrite Forall_forall in Hin. apply Hin. }
      assert (Hfold : forall l a b, (forall s, s ∈ l -> s ∈ steps) -> GInv h a -> GInv g b -> agree a b ->
        GInv g (foldl greedy_step b l) /\ agree (foldl greedy_step a l) (foldl greedy_step b l)).
      { induction l as [|s l IHl]; intros a b Hl' Ga Gb Hab; [done|]. cbn [foldl].
        assert (Hs : s ∈ steps) by (apply Hl'; left). destruct (Hnodes s Hs) as [N1 N2].
        apply IHl.
        - intros; apply Hl'; by right.
        - apply ginv_step; [done|done|]. by apply Hsub, Hst.
        - apply ginv_step; [done|done|]. apply part_adj; [by apply Hin'|]. by apply Hsub, Hst.
        - apply agree_in; auto. }
      destruct (Hfold steps st st1) as [HG1' Ha']; [done..|].
      destruct (IH _ Hy' Hio' HGf HG1' Ha') as (st1' & Hgo1 & ?). exists st1'. split; [|done].
      by econstructor.
    - destruct (Hio d) as [?|Hout]; [left|done|].
      assert (Hfold : forall l a, (forall s, s ∈ l -> s ∈ steps) -> GInv h a -> agree a st1 ->
        agree (foldl greedy_step a l) st1).
      { induction l as [|s l IHl]; intros a Hl' Ga Hab; [done|]. cbn [foldl].
        assert (Hs : s ∈ steps) by (apply Hl'; left). destruct (Hnodes s Hs) as [N1 N2].
        apply IHl.
        - intros; apply Hl'; by right.
        - apply ginv_step; [done|done|]. by apply Hsub, Hst.
        - apply agree_out; auto. }
      by apply (IH _ Hy' Hio' HGf HG1), Hfold.
  Qed.

  Lemma ginv_new k : GInv k (∅, p_new).
  Proof.
    clear. split; simpl.
    - split; [apply new_symmetric|]. intros u v Hu. unfold p_new in Hu. by rewrite lookup_empty in Hu.
    - intros x [y Hx]. unfold p_new in Hx. by rewrite lookup_empty in Hx.
  Qed.

  Lemma part_greedy q : greedy_is h q -> greedy_is g (pairs_within g q).
  Proof using Hg Hh Hp.
    intros (ds & st & Hds & Hgo & ->)%(greedy_returns h q Hh).
    destruct (part_components ds Hds) as [Hds' Hio].
    destruct (part_greedy_on _ _ _ (∅, p_new) Hgo) as (st1 & Hgo1 & HG & HG1 & Ha); try done.
    { intros d Hd. apply comps_returns in Hds as [Hc _]; [|done]. by eapply comps_subgraph. }
    { apply ginv_new. } { apply ginv_new. }
    apply greedy_returns; [done|]. exists (filter (inside g) ds), st1. split; [done|]. split; [done|].
    symmetry. apply map_eq. intros x. unfold pairs_within. apply option_eq. intros y.
    rewrite map_filter_lookup_Some. simpl. split.
    - intros Hx. destruct HG1 as [[_ Hadj] _]. specialize (Hadj x y Hx).
      assert (Hxg : x ∈ g_nodes g) by (by eapply lawful_adj_l).
      destruct (Ha x Hxg) as [_ ->]. split_and!; [done|done|]. by apply (law_adj_node g Hg x y).
    - intros [Hx [Hxg _]]. by destruct (Ha x Hxg) as [_ <-].
  Qed.
End part.

(** ** Adding elsewhere *)

Lemma filter_id (P : N -> Prop) `{!forall v, Decision (P v)} (l : list N) : (forall v, v ∈ l -> P v) -> filter P l = l.
Proof. intros Hall. by apply filter_all. Qed.

Lemma part_refl d : part_of (as_graph d) (as_graph d).
Proof. split; [|done]. symmetry. by apply filter_id. Qed.

Lemma part_ops d0 d ops : WF d -> part_of (as_graph d0) (as_graph d) ->
  (forall v, v ∈ dg_nodes d0 -> v ∈ dg_nodes d) ->
  (forall s t, AddEdge s t ∈ ops -> s ∉ dg_nodes d0 /\ t ∉ dg_nodes d0) ->
  part_of (as_graph d0) (as_graph (run_ops d ops).1).
Proof.
  revert d. induction ops as [|o ops IH]; intros d Hwf Hp Hin Hops; [done|].
  cbn [run_ops]. cbn [fst].
  assert (Hops' : forall s t, AddEdge s t ∈ ops -> s ∉ dg_nodes d0 /\ t ∉ dg_nodes d0)
    by (intros; apply Hops; by right).
  pose proof (wf_idx d Hwf) as Hi. destruct o as [v|s t]; cbn [run_op].
  - pose proof (wf_add_node d v Hwf) as Hwf'.
    destruct (decide (v ∈ dg_nodes d)) as [Hv|Hv].
    { rewrite (add_node_dup d Hi v Hv) in *. by apply IH. }
    destruct (add_node_new d Hi v Hv) as (d' & E & _ & Hn & _). rewrite E in *. cbn [fst] in *.
    destruct (add_node_effect d v d' Hwf E) as (_ & _ & _ & Hnb).
    apply IH; [done| |intros; rewrite Hn; set_solver|done].
    destruct Hp as [P1 P2]. split.
    + simpl in *. rewrite Hn, filter_app, <-P1, filter_cons_False, filter_nil, app_nil_r; [done|].
      intros Hv0. by apply Hv, Hin.
    + intros w Hw. rewrite Hnb; [by apply P2|]. intros ->. by apply Hv, Hin.
  - pose proof (wf_add_edge d s t Hwf) as Hwf'.
    destruct (Hops s t) as [Hs0 Ht0]; [left|].
    pose proof (add_edge_exact d s t Hwf) as Hex.
    destruct (dg_add_edge d s t) as [d' res] eqn:E. cbn [fst snd] in *.
    assert (d' = d \/ res = Ok tt) as [->| ->].
    { destruct (decide (s ∈ dg_nodes d)) as [Hs|Hs].
      2:{ rewrite (add_edge_missing_l d Hi s t Hs) in E. left. congruence. }
      destruct (decide (t ∈ dg_nodes d)) as [Ht|Ht].
      2:{ rewrite (add_edge_missing_r d Hi s t Hs Ht) in E. left. congruence. }
      destruct (decide (t ∈ row d s)) as [H|H].
      { rewrite (add_edge_dup d Hi s t Hs Ht H) in E. left. congruence. }
      destruct (add_edge_new d Hi s t Hs Ht H) as (d'' & E' & _). right. congruence. }
    { by apply IH. }
    destruct (add_edge_effect d s t d' Hwf E) as (Hn & _ & _ & _ & _ & Hnb).
    apply IH; [done| |intros; simpl in Hn; rewrite Hn; auto|done].
    destruct Hp as [P1 P2]. split; [by rewrite Hn|].
    intros w Hw. rewrite Hnb; [by apply P2|by intros ->|by intros ->].
Qed.

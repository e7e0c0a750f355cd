(** When [components] and [greedy] return: self-loops in other components, in
    renamed graphs and in parts of a graph. *)
From Verif Require Import Outcome GraphModel TraversalModel ComponentsModel PairingModel GreedyModel
  Spec SpecAdvance GraphProofs EditProofs ConvertProofs EqProofs TraversalProofs BfsProofs DfsProofs PathLemmas
  AcyclicProofs CycleProofs NarrowProofs ComponentsProofs PairingProofs GreedyProofs DescentProofs EquivProofs
  ReplayProofs LoopProofs.

Lemma comps_fun g V iter ds ds' : comps g V iter ds -> comps g V iter ds' -> ds = ds'.
Proof.
  intros Hc. revert ds'. induction Hc as [V|V r iter ds Hr _ IH|V V1 r iter d ds Hr Hy HV1 _ IH]; intros ds' Hc'.
  - by inversion Hc'.
  - inversion Hc'; subst; [by apply IH|done].
  - inversion Hc' as [|? ? ? ? H1|? V2 ? ? d2 ds2 H1 Hy2 HV2 Hc2]; subst; [done|].
    assert (d2 = d) as -> by (by eapply yields_fun). f_equal. apply IH.
    replace V1 with V2; [done|]. apply set_eq. intros v. by rewrite HV1, HV2.
Qed.

(** The next call returns when the traversal crosses no self-loop twice. *)
Lemma c_next_returns g V r iter steps : Lawful g -> r ∈ g_nodes g -> r ∉ V -> depth_first g r steps ->
  (forall v, times_crossed (v, v) (crossed steps) <= 1) ->
  exists d V' n, yields g r d /\ yields1 g d /\ (forall v, v ∈ V' <-> v ∈ dg_nodes d \/ v ∈ V) /\
    forall fuel, n <= fuel -> c_next fuel g (mkC V (r :: iter)) = Ok (Some d, mkC V' iter).
Proof.
  intros Hg Hr HrV Hd H1. destruct (c_next_gen g V r iter Hg Hr HrV) as [?|(v & n & _ & Hf)]; [done|]. exfalso.
  destruct (dfs_graph_gen g r steps Hg Hd) as [(d & (t & m & Ht & Hm) & [Hwf _ _ _ _] & _)|(w & _ & Hw & _)];
    [|specialize (H1 w); lia].
  specialize (Hf (n + m) ltac:(lia)). unfold c_next in Hf. simpl in Hf.
  rewrite bool_decide_eq_false_2 in Hf by done. rewrite Ht in Hf. simpl in Hf. rewrite Hm in Hf by lia. simpl in Hf.
  destruct (dg_is_empty d) eqn:Ed; [|done]. apply is_empty_true in Ed.
  destruct (add_node_local d r Hwf) as (d' & Hadd & _); [rewrite Ed; apply not_elem_of_nil|].
  by rewrite Hadd in Hf.
Qed.

Lemma yields1_steps g r d : yields g r d -> yields1 g d ->
  exists steps, depth_first g r steps /\ forall v, times_crossed (v, v) (crossed steps) <= 1.
Proof.
  intros (s1 & _ & Hd1 & Hn1 & _) (r2 & s2 & _ & Hd2 & Hn2 & H2).
  assert (r2 = r) as ->.
  { rewrite Hn1 in Hn2. unfold discovered in Hn2. by injection Hn2. }
  by exists s2.
Qed.

Lemma comps_collect g V iter ds : Lawful g -> comps g V iter ds -> (forall d, d ∈ ds -> yields1 g d) ->
  (forall v, v ∈ iter -> v ∈ g_nodes g) ->
  exists n, forall fuel, n <= fuel -> c_collect fuel g (mkC V iter) = Ok ds.
Proof.
  intros Hg Hc. induction Hc as [V|V r iter ds Hr _ IH|V V1 r iter d ds Hr Hy HV1 _ IH]; intros H1 Hin.
  - exists 1. intros [|fuel] Hf; [lia|]. done.
  - destruct IH as (n & Hf); [done|intros; apply Hin; by right|]. exists n. intros fuel Hle.
    rewrite <-(Hf fuel) by lia. destruct fuel; [done|]. cbn [c_collect]. by rewrite c_next_skip.
  - destruct IH as (n & Hf); [intros; apply H1; by right|intros; apply Hin; by right|].
    destruct (yields1_steps g r d Hy (H1 d ltac:(left))) as (steps & Hd & Hs).
    destruct (c_next_returns g V r iter steps Hg) as (d' & V' & m & Hy' & _ & HV' & Hnext);
      [apply Hin; left|done|done|done|].
    assert (d' = d) as -> by (by eapply yields_fun).
    assert (V' = V1) as -> by (apply set_eq; intros v; by rewrite HV1, HV').
    exists (S (m + n)). intros [|fuel] Hle; [lia|]. cbn [c_collect]. rewrite Hnext by lia. cbn [cbind].
    by rewrite Hf by lia.
Qed.

Lemma comps_returns g ds : Lawful g ->
  components_are g ds <-> comps g ∅ (g_nodes g) ds /\ forall d, d ∈ ds -> yields1 g d.
Proof.
  intros Hg. split.
  - intros (m & Hm). destruct (comps_gen g ∅ (g_nodes g) Hg) as [(ds' & n & Hc & Hy & Hf)|(v & n & _ & Hf)]; [done| |].
    + specialize (Hm (m + n) ltac:(lia)). specialize (Hf (m + n) ltac:(lia)). unfold components in Hm.
      rewrite Hf in Hm. by injection Hm as <-.
    + specialize (Hm (m + n) ltac:(lia)). specialize (Hf (m + n) ltac:(lia)). unfold components in Hm.
      by rewrite Hf in Hm.
  - intros [Hc Hy]. destruct (comps_collect g ∅ (g_nodes g) ds) as (n & Hn); [done..|]. by exists n.
Qed.

Lemma greedy_returns g p : Lawful g ->
  greedy_is g p <-> exists ds st, components_are g ds /\ greedy_on (∅, p_new) ds st /\ p = st.2.
Proof.
  intros Hg. destruct (greedy_gen g ∅ (g_nodes g) (∅, p_new) Hg)
    as [(ds & st & n & Hc & Hy & Hgo & Hf)|(v & n & _ & Hf)]; [done|..].
  - assert (Hds : components_are g ds) by (by apply comps_returns). split.
    + intros (m & Hm). specialize (Hm (m + n) ltac:(lia)). destruct (Hf (m + n) ltac:(lia)) as [Hf' _].
      unfold greedy, components in Hm. rewrite Hf' in Hm. injection Hm as <-. by exists ds, st.
    + intros (ds' & st' & Hds' & Hgo' & ->). rewrite (components_are_fun g ds' ds Hds' Hds) in Hgo'.
      assert (st' = st) as ->.
      { clear -Hgo Hgo'. revert st' Hgo'. induction Hgo as [st|st d ds r steps st1 Hh Hd _ IH]; intros st2 H2.
        - by inversion H2.
        - inversion H2 as [|? ? ? r' steps' ? Hh' Hd' H2']; subst. apply IH.
          assert (r' = r) as -> by congruence.
          by rewrite (depth_first_fun _ _ _ _ Hd Hd'). }
      exists n. intros fuel Hle. unfold greedy, components. by apply Hf.
  - split.
    + intros (m & Hm). specialize (Hm (m + n) ltac:(lia)). destruct (Hf (m + n) ltac:(lia)) as [Hf' _].
      unfold greedy, components in Hm. by rewrite Hf' in Hm.
    + intros (ds & st & (m & Hm) & _). specialize (Hm (m + n) ltac:(lia)).
      destruct (Hf (m + n) ltac:(lia)) as [_ Hf']. unfold components in Hm. by rewrite Hf' in Hm.
Qed.

(** ** What components yields *)

Lemma components_roots_gen g ds : Lawful g -> components_are g ds ->
  (forall i d, ds !! i = Some d ->
    exists p r q steps, g_nodes g = p ++ r :: q /\
      (forall v, v ∈ p -> exists j d', j < i /\ ds !! j = Some d' /\ v ∈ g_nodes (as_graph d')) /\
      (forall j d', j < i -> ds !! j = Some d' -> r ∉ g_nodes (as_graph d')) /\
      depth_first g r steps /\
      observes d (mkA (discovered r steps) (crossed steps))).
Proof.
  intros Hg [Hcs _]%(comps_returns g ds Hg) i d Hi.
  destruct (comps_roots g ∅ [] (g_nodes g) ds Hcs eq_refl ltac:(set_solver) i d Hi)
    as (p & r & q & H1 & (steps & Hwf & H2 & H3 & H4 & _ & Hrow) & H5 & _ & H6).
  exists p, r, q, steps. split_and!; try done; [|by apply rep_observes].
  intros v Hv. destruct (H5 v Hv) as [?|?]; [set_solver|done].
Qed.

(** ** Renaming *)

Section renaming.
  Context (f : N -> N) (g h : Graph) (Hg : Lawful g) (Hh : Lawful h) (Hr : renamed f g h).

  Lemma crossed_renamed steps v : (forall s, s ∈ steps -> sid s ∈ g_nodes g /\ tid s ∈ g_nodes g) ->
    v ∈ g_nodes g ->
    times_crossed (f v, f v) (crossed (rename_step f <$> steps)) = times_crossed (v, v) (crossed steps).
  Proof using Hr.
    intros Hs Hv. destruct Hr as (Hinj & _). induction steps as [|[a b c] steps IH]; [done|].
    specialize (IH (fun s H => Hs s ltac:(by right))).
    destruct (Hs (mkStep a b c) ltac:(left)) as [Ha Hb]. simpl in Ha, Hb.
    unfold crossed, times_crossed in *. rewrite !fmap_cons, !filter_cons.
    assert (Hiff : same_edge (f v, f v) (f a, f b) <-> same_edge (v, v) (a, b)).
    { unfold same_edge. split; [intros [[= E1 E2]|[= E1 E2]]|intros [[= E1 E2]|[= E1 E2]]; subst; auto];
        apply Hinj in E1, E2; subst; auto. }
    cbn [sid tid rename_step fst snd]. 
    destruct (decide (same_edge (f v, f v) (f a, f b))) as [H1|H1];
      destruct (decide (same_edge (v, v) (a, b))) as [H2|H2]; try tauto; simpl; by rewrite IH.
  Qed.

  Lemma times_one_renamed r steps : depth_first g r steps ->
    (forall v, times_crossed (v, v) (crossed steps) <= 1) ->
    forall w, times_crossed (w, w) (crossed (rename_step f <$> steps)) <= 1.
  Proof using Hg Hr.
    intros Hd H1 w. destruct (dfs_sound g r steps Hg Hd) as (HS & _ & _).
    assert (HE : forall s, s ∈ steps -> sid s ∈ g_nodes g /\ tid s ∈ g_nodes g).
    { intros s Hs. destruct (HS s Hs) as [Ha _].
      split; [by eapply law_adj_node, law_adj_sym|by eapply (law_adj_node g Hg)]. }
    destruct (decide (w ∈ f <$> g_nodes g)) as [(v & -> & Hv)%elem_of_list_fmap|Hw].
    - rewrite crossed_renamed by done. apply H1.
    - rewrite times_loop_zero; [lia|]. intros b (s & [= -> ->] & (s0 & -> & Hs0)%elem_of_list_fmap)%elem_of_list_fmap.
      apply Hw. apply elem_of_list_fmap. exists (sid s0). split; [by destruct s0|]. by apply HE.
  Qed.

  Lemma comps_same_gen V V' iter ds : (forall v, v ∈ iter -> v ∈ g_nodes g) ->
    same_set f g V V' -> comps g V iter ds -> (forall d, d ∈ ds -> yields1 g d) ->
    exists es, comps h V' (f <$> iter) es /\ (forall e, e ∈ es -> yields1 h e) /\
      Forall2 (same_graph f) ds es.
  Proof using Hg Hh Hr.
    intros Hin HV Hc. revert V' HV Hin.
    induction Hc as [V|V r iter ds Hrv _ IH|V V1 r iter d ds Hrv Hy HV1 _ IH];
      intros V' HV Hin H1; cbn [fmap list_fmap].
    - exists []. split_and!; [constructor| |constructor]. intros e He. by apply elem_of_nil in He.
    - assert (Hrg : r ∈ g_nodes g) by (apply Hin; left).
      destruct (IH V' HV) as (es & He1 & He2 & He3); [intros; apply Hin; by right|done|].
      exists es. split_and!; [|done|done]. apply comps_skip; [by apply HV|done].
    - assert (Hrg : r ∈ g_nodes g) by (apply Hin; left).
      destruct (yields1_steps g r d Hy (H1 d ltac:(left))) as (steps & Hd & Hs).
      pose proof (depth_first_same f g h Hg Hr r steps Hrg Hd) as Hd'.
      destruct (c_next_returns h V' (f r) (f <$> iter) (rename_step f <$> steps) Hh) as (e & V1' & n & Hye & Hye1 & HV1' & _);
        [|intros Hbad; by apply Hrv, HV|exact Hd'|by eapply times_one_renamed|].
      { destruct Hr as (_ & -> & _). by apply elem_of_list_fmap_1. }
      pose proof (yields_same f g h Hg Hr r d e Hrg Hy Hye) as Hsame.
      destruct (IH V1') as (es & He1 & He2 & He3).
      + intros v Hv. rewrite HV1, HV1', (HV v Hv). destruct Hsame as ((_ & Hn & _) & _). simpl in Hn.
        rewrite Hn, elem_of_list_fmap. split; [|by intros [?|?]; [left; eauto|right]].
        intros [(w & Hw & Hwd)|?]; [|by right]. left.
        destruct (yields_subgraph g r d Hg Hy) as (_ & Hsub & _).
        destruct Hr as (Hinj & _). apply Hinj in Hw; [by subst|done|by apply Hsub].
      + intros; apply Hin; by right.
      + intros; apply H1; by right.
      + exists (e :: es). split_and!; [eapply comps_take; [intros Hbad; by apply Hrv, HV|exact Hye|exact HV1'|exact He1]| |by constructor].
        intros e' [->|He']%elem_of_cons; [done|by apply He2].
  Qed.

  Lemma components_same_gen ds : components_are g ds ->
    exists es, components_are h es /\ Forall2 (same_graph f) ds es.
  Proof using Hg Hh Hr.
    intros [Hc Hy]%(comps_returns g ds Hg).
    destruct (comps_same_gen ∅ ∅ (g_nodes g) ds) as (es & H1 & H2 & H3); [done|intros v Hv; set_solver|done|done|].
    exists es. split; [|done]. apply comps_returns; [done|]. split; [|done].
    destruct Hr as (_ & -> & _). done.
  Qed.

  (** ** greedy *)

  Lemma fresh_pair (p : Pairing) a b x : symmetric_pairing p -> a <> b -> p !! a = None -> p !! b = None ->
    p_pair p a b !! x = if bool_decide (x = a) then Some b else if bool_decide (x = b) then Some a else p !! x.
  Proof.
    clear. intros Hs Hab Ha Hb. rewrite pair_lookup by done. repeat case_bool_decide; try done.
    exfalso. match goal with H : _ \/ _ |- _ => destruct H as [H|H]; apply Hs in H as [H _]; congruence end.
  Qed.

  (** States of greedy that correspond. *)
  Definition gsame (st st' : gset N * Pairing) : Prop :=
    forall v, v ∈ g_nodes g -> (f v ∈ st'.1 <-> v ∈ st.1) /\ st'.2 !! f v = f <$> st.2 !! v.

  Lemma gsame_step st st' s : GInv g st -> GInv h st' -> gsame st st' ->
    sid s ∈ g_nodes g -> tid s ∈ g_nodes g ->
    gsame (greedy_step st s) (greedy_step st' (rename_step f s)).
  Proof using Hr.
    destruct st as [V p], st' as [V' p'], s as [a b c]. intros [[Hs _] Hd] [[Hs' _] Hd'] Ha H1 H2. simpl in *.
    assert (Hinj : forall u v, u ∈ g_nodes g -> v ∈ g_nodes g -> f u = f v <-> u = v).
    { intros u v Hu Hv. split; [by apply Hr|by intros ->]. }
    rewrite (bool_decide_ext _ _ (proj1 (Ha a H1))). simpl. case_bool_decide as Hsv; [done|].
    assert (Ht : f b ∈ {[f a]} ∪ V' <-> b ∈ {[a]} ∪ V).
    { rewrite !elem_of_union, !elem_of_singleton, Hinj by done.
      pose proof (proj1 (Ha b H2)) as E. simpl in E. by rewrite E. }
    rewrite (bool_decide_ext _ _ Ht). case_bool_decide as Htv.
    - intros v Hv. destruct (Ha v Hv) as [E1 E2]. simpl in *.
      by rewrite !elem_of_union, !elem_of_singleton, E1, Hinj.
    - rewrite elem_of_union, elem_of_singleton in Htv.
      assert (Hne : a <> b) by (intros ->; apply Htv; by left).
      assert (Hn : forall x, x ∉ V -> p !! x = None).
      { intros x Hx. destruct (p !! x) eqn:E; [|done]. destruct Hx. apply Hd. by eexists. }
      assert (Hn' : forall x, x ∉ V' -> p' !! x = None).
      { intros x Hx. destruct (p' !! x) eqn:E; [|done]. destruct Hx. apply Hd'. by eexists. }
      assert (Hb : b ∉ V) by (intros ?; apply Htv; by right).
      assert (Ha' : f a ∉ V') by (intros E; by apply (Ha a H1) in E).
      assert (Hb' : f b ∉ V') by (intros E; by apply (Ha b H2) in E).
      intros v Hv. destruct (Ha v Hv) as [E3 E4]. simpl in E3, E4. cbn [fst snd]. split.
      + by rewrite !elem_of_union, !elem_of_singleton, !Hinj, E3 by done.
      + rewrite (fresh_pair p' (f a) (f b) (f v)); [|done|by rewrite Hinj|by apply Hn'|by apply Hn'].
        rewrite (fresh_pair p a b v); [|done|done|by apply Hn|by apply Hn].
        rewrite (bool_decide_ext _ _ (Hinj v a Hv H1)), (bool_decide_ext _ _ (Hinj v b Hv H2)).
        by repeat case_bool_decide.
  Qed.

  Lemma gsame_fold steps st st' : GInv g st -> GInv h st' -> gsame st st' ->
    (forall s, s ∈ steps -> adj g (sid s) (tid s)) ->
    (forall s, s ∈ steps -> adj h (f (sid s)) (f (tid s))) ->
    GInv g (foldl greedy_step st steps) /\ GInv h (foldl greedy_step st' (rename_step f <$> steps)) /\
    gsame (foldl greedy_step st steps) (foldl greedy_step st' (rename_step f <$> steps)).
  Proof using Hg Hh Hr.
    revert st st'. induction steps as [|s steps IH]; intros st st' G1 G2 Hsame A1 A2; [done|].
    rewrite fmap_cons. cbn [foldl]. apply IH.
    - apply ginv_step; [done|done|]. apply A1. left.
    - apply ginv_step; [done|done|]. specialize (A2 s ltac:(left)). by destruct s.
    - assert (Ha : adj g (sid s) (tid s)) by (apply A1; left). apply gsame_step; [done..| |].
      + eapply law_adj_node; [done|]. by apply law_adj_sym.
      + by eapply law_adj_node.
    - intros; apply A1; by right.
    - intros; apply A2; by right.
  Qed.

  Lemma gsame_on st ds stg st' es : greedy_on st ds stg -> Forall2 (same_graph f) ds es ->
    (forall d, d ∈ ds -> exists r, yields g r d) -> (forall e, e ∈ es -> exists r, yields h r e) ->
    GInv g st -> GInv h st' -> gsame st st' ->
    exists sth, greedy_on st' es sth /\ GInv g stg /\ GInv h sth /\ gsame stg sth.
  Proof using Hg Hh Hr.
    intros Hgo. revert st' es. induction Hgo as [st|st d ds r steps stg Hhd Hd _ IH];
      intros st' es Hall Yg Yh G1 G2 Hsame.
    { inversion Hall; subst. exists st'. split; [constructor|done]. }
    inversion Hall as [|? e ? es' [Hde _] Hall']; subst.
    destruct (Yg d) as (rg & Hyg); [left|]. destruct (Yh e) as (rh & Hyh); [left|].
    assert (Hgd : Lawful (as_graph d)) by (destruct Hyg as (? & Hwf & _); by apply wf_lawful).
    assert (Hge : Lawful (as_graph e)) by (destruct Hyh as (? & Hwf & _); by apply wf_lawful).
    destruct (yields_subgraph g rg d Hg Hyg) as (_ & _ & Hsubg & _).
    destruct (yields_subgraph h rh e Hh Hyh) as (_ & _ & Hsubh & _).
    assert (Hrd : r ∈ g_nodes (as_graph d)).
    { simpl. destruct (dg_nodes d) as [|x l]; [done|]. injection Hhd as ->. left. }
    pose proof (depth_first_same f (as_graph d) (as_graph e) Hgd Hde r steps Hrd Hd) as Hd'.
    assert (Hhe : head (dg_nodes e) = Some (f r)).
    { destruct Hde as (_ & Hn & _). simpl in Hn. rewrite Hn. destruct (dg_nodes d); [done|].
      by injection Hhd as ->. }
    destruct (gsame_fold steps st st') as (J1 & J2 & J3); [done|done|done| | |].
    - intros s Hs. apply Hsubg. by apply (dfs_sound _ _ _ Hgd Hd).
    - intros s Hs. apply Hsubh.
      destruct (dfs_sound _ _ _ Hge Hd') as (HS & _ & _).
      destruct (HS (rename_step f s)) as [H _]; [by apply elem_of_list_fmap_1|]. by destruct s.
    - destruct (IH _ es' Hall' (fun x H => Yg x ltac:(by right)) (fun x H => Yh x ltac:(by right)) J1 J2 J3)
        as (sth & Hon & ?).
      exists sth. split; [|done]. by econstructor.
  Qed.

  Lemma greedy_same_gen p : greedy_is g p ->
    exists q, greedy_is h q /\ forall v, v ∈ g_nodes g -> q !! f v = f <$> p !! v.
  Proof using Hg Hh Hr.
    intros (ds & st & Hds & Hgo & ->)%(greedy_returns g p Hg).
    destruct (components_same_gen ds Hds) as (es & Hes & Hall).
    assert (Hnew : forall k, GInv k (∅, p_new)).
    { intros k. split; simpl.
      - split; [apply new_symmetric|]. intros u v Hu. unfold p_new in Hu. by rewrite lookup_empty in Hu.
      - intros x [y Hx]. unfold p_new in Hx. by rewrite lookup_empty in Hx. }
    destruct (gsame_on (∅, p_new) ds st (∅, p_new) es) as (sth & Hon & _ & _ & Hsame); try done.
    { intros d Hd. apply comps_returns in Hds as [Hc _]; [|done]. by eapply comps_subgraph. }
    { intros d Hd. apply comps_returns in Hes as [Hc _]; [|done]. by eapply comps_subgraph. }
    exists sth.2. split; [apply greedy_returns; [done|]; by exists es, sth|]. intros v Hv. by apply Hsame.
  Qed.
End renaming.

Lemma greedy_is_pairing g p : Lawful g -> greedy_is g p -> pairing_of g p.
Proof.
  intros Hg Hp. destruct (greedy_confined g Hg) as [(q & Hq & Hv & _)|(v & (n & Hn) & _)].
  - by rewrite (greedy_is_fun g p q Hp Hq).
  - destruct Hp as (m & Hm). specialize (Hm (m + n) ltac:(lia)). by rewrite Hn in Hm by lia.
Qed.

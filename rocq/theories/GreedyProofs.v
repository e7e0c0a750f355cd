(** greedy(). *)
From Verif Require Import Outcome GraphModel TraversalModel ComponentsModel PairingModel GreedyModel
  Spec GraphProofs EditProofs ConvertProofs EqProofs TraversalProofs BfsProofs DfsProofs PathLemmas
  AcyclicProofs CycleProofs NarrowProofs ComponentsProofs PairingProofs.

Inductive greedy_on : gset N * Pairing -> list DefaultGraph -> gset N * Pairing -> Prop :=
| go_nil st : greedy_on st [] st
| go_cons st d ds r steps st' : head (dg_nodes d) = Some r -> depth_first (as_graph d) r steps ->
    greedy_on (foldl greedy_step st steps) ds st' -> greedy_on st (d :: ds) st'.

Lemma yields_loop_free g r d : Lawful g -> LoopFree g -> yields g r d ->
  Lawful (as_graph d) /\ LoopFree (as_graph d) /\ g_size (as_graph d) <= g_size g /\
  head (dg_nodes d) = Some r.
Proof.
  intros Hg Hl Hy. destruct (yields_subgraph g r d Hg Hy) as (_ & _ & Hsub & _).
  destruct Hy as (steps & Hwf & Hd & Hn & He & Hr). split_and!.
  - by apply wf_lawful.
  - intros v Hv%Hsub. by apply (Hl v).
  - simpl. unfold dg_size. rewrite He. unfold crossed. rewrite fmap_length. by eapply dfs_bound.
  - by rewrite Hn.
Qed.

Lemma discovered_app r E F :
  discovered r (E ++ F) = discovered r E ++ (tid <$> filter (fun s => cut s = false) F).
Proof. unfold discovered. by rewrite filter_app, fmap_app. Qed.

Section greedy.
  Context (g : Graph) (Hg : Lawful g) (Hl : LoopFree g).

  Lemma greedy_run V iter st : (forall v, v ∈ iter -> v ∈ g_nodes g) ->
    exists ds st', comps g V iter ds /\ greedy_on st ds st' /\
      forall fuel, g_size g + length iter < fuel -> greedy_loop fuel g (mkC V iter) st = Ok st'.2.
  Proof.
    revert V st. induction iter as [|r iter IH]; intros V st Hin.
    { exists [], st. split_and!; [constructor|constructor|]. intros [|fuel] Hf; [lia|]. done. }
    destruct (decide (r ∈ V)) as [HrV|HrV].
    - destruct (IH V st) as (ds & st' & Hc & Hgo & Hf); [intros; apply Hin; by right|].
      exists ds, st'. split_and!; [by apply comps_skip|done|]. intros fuel Hlt. simpl in Hlt.
      rewrite <-(Hf fuel) by lia. destruct fuel; [done|]. cbn [greedy_loop].
      by rewrite c_next_skip.
    - destruct (c_next_take g Hg Hl V r iter) as (d & V' & Hy & HV' & Hnext); [apply Hin; left|done|].
      destruct (yields_loop_free g r d Hg Hl Hy) as (Hgd & Hld & Hsz & Hh).
      assert (Hr : r ∈ g_nodes (as_graph d)) by (simpl; by eapply yields_root).
      destruct (dfs_total (as_graph d) r Hgd Hr) as (steps & Hd).
      destruct (IH V' (foldl greedy_step st steps)) as (ds & st' & Hc & Hgo & Hf);
        [intros; apply Hin; by right|].
      exists (d :: ds), st'. split_and!; [by eapply comps_take|by econstructor|].
      intros [|fuel] Hlt; [lia|]. simpl in Hlt.
      cbn [greedy_loop]. rewrite Hnext by lia. cbn [cbind]. rewrite Hh. cbn [expect_some cbind].
      pose proof Hd as (t & n & Ht & _). rewrite Ht. cbn [unwrap cbind].
      rewrite (dfs_collect_size (as_graph d) Hgd Hld r t steps Hd Ht) by lia. cbn [cbind].
      rewrite Hf by lia. done.
  Qed.

  (** ** Validity *)

  Definition GInv (st : gset N * Pairing) : Prop :=
    pairing_of g st.2 /\ forall x, is_Some (st.2 !! x) -> x ∈ st.1.

  Lemma ginv_step st s : GInv st -> adj g (sid s) (tid s) -> GInv (greedy_step st s).
  Proof.
    clear Hl.
    destruct st as [V p]. unfold GInv. simpl. intros [[Hs Ha] Hd] Hadj.
    case_bool_decide as H1; [done|]. case_bool_decide as H2; simpl.
    - split; [done|]. intros x Hx. specialize (Hd x Hx). set_solver.
    - assert (Hne : sid s <> tid s) by set_solver.
      split; [split; [by apply pair_symmetric|]|].
      + intros u v. rewrite pair_lookup by done. repeat case_bool_decide; intros; simplify_eq.
        * done.
        * by apply law_adj_sym.
        * by apply Ha.
      + intros x. rewrite pair_lookup by done. repeat case_bool_decide; intros Hx; subst.
        * set_solver.
        * set_solver.
        * by destruct Hx.
        * specialize (Hd x Hx). set_solver.
  Qed.

  Lemma ginv_fold steps st : GInv st -> (forall s, s ∈ steps -> adj g (sid s) (tid s)) ->
    GInv (foldl greedy_step st steps).
  Proof.
    clear Hl.
    revert st. induction steps as [|s steps IH]; intros st HG Ha; [done|]. cbn [foldl].
    apply IH; [|intros; apply Ha; by right]. apply ginv_step; [done|]. apply Ha. left.
  Qed.

  Lemma greedy_valid : exists p n, pairing_of g p /\ forall fuel, n <= fuel -> greedy fuel g = Ok p.
  Proof.
    destruct (greedy_run ∅ (g_nodes g) (∅, p_new)) as (ds & st' & Hc & Hgo & Hf); [done|].
    exists st'.2, (S (g_size g + length (g_nodes g))). split.
    - assert (Hsub : forall d, d ∈ ds -> Lawful (as_graph d) /\ forall u v, adj (as_graph d) u v -> adj g u v).
      { intros d Hd. destruct (comps_subgraph _ _ _ _ _ Hc Hd) as (r & Hy). split.
        - by apply (yields_loop_free g r d Hg Hl Hy).
        - by apply (yields_subgraph g r d Hg Hy). }
      assert (HG : GInv (∅, p_new)).
      { split; simpl.
        - split; [apply new_symmetric|]. intros u v Hu. unfold p_new in Hu. by rewrite lookup_empty in Hu.
        - intros x [y Hx]. unfold p_new in Hx. by rewrite lookup_empty in Hx. }
      clear Hf Hc. induction Hgo as [st|st d ds r steps st' Hh Hd _ IH]; [apply HG|].
      apply IH; [intros; apply Hsub; by right|].
      apply ginv_fold; [done|]. destruct (Hsub d) as [Hgd Hadj]; [left|].
      intros s Hs. apply Hadj. by apply (dfs_sound _ _ _ Hgd Hd).
    - intros fuel Hf'. unfold greedy, components. apply Hf. lia.
  Qed.

  (** ** Maximality when every component is a tree or a ring *)

  Lemma greedy_fold_max r E steps st :
    NoDup (discovered r (E ++ steps)) -> cut_exact r (E ++ steps) ->
    (forall s, s ∈ E ++ steps -> sid s <> tid s) ->
    (* a cut step is the last one at its source, and leads to the source of an
       earlier non-cut step *)
    (forall i j s s', i < j -> (E ++ steps) !! i = Some s -> (E ++ steps) !! j = Some s' ->
       cut s = true -> sid s' <> sid s) ->
    (forall i s, (E ++ steps) !! i = Some s -> cut s = true ->
       exists j s', j < i /\ (E ++ steps) !! j = Some s' /\ cut s' = false /\ sid s' = tid s) ->
    symmetric_pairing st.2 ->
    (forall x, is_Some (st.2 !! x) -> x ∈ st.1) ->
    (forall x, x ∈ st.1 -> x ∈ discovered r (E ++ steps) ->
       x ∈ discovered r E /\ (is_Some (st.2 !! x) \/ exists s, s ∈ E /\ cut s = true /\ sid s = x)) ->
    (forall s, s ∈ E -> cut s = false -> is_Some (st.2 !! sid s)) ->
    let st' := foldl greedy_step st steps in
    symmetric_pairing st'.2 /\
    (forall x, is_Some (st'.2 !! x) -> x ∈ st'.1) /\
    (forall x, is_Some (st.2 !! x) -> is_Some (st'.2 !! x)) /\
    (forall x, x ∈ st'.1 -> x ∈ st.1 \/ x ∈ discovered r (E ++ steps)) /\
    (forall s, s ∈ steps -> is_Some (st'.2 !! sid s) \/ is_Some (st'.2 !! tid s)).
  Proof.
    revert E st. induction steps as [|s steps IH];
      intros E [V p] Hnd Hcut Hne Hlast Hanc Hs Hdom Hfresh Hsrc.
    { simpl in *. split_and!; try done; [by left|]. intros s Hs'. by apply elem_of_nil in Hs'. }
    cbn [foldl]. simpl in Hs, Hdom, Hfresh, Hsrc.
    assert (Happ : E ++ s :: steps = (E ++ [s]) ++ steps) by (by rewrite <-app_assoc).
    assert (HsL : (E ++ s :: steps) !! length E = Some s)
      by (by rewrite lookup_app_r, Nat.sub_diag by lia).
    assert (HdE : forall x, x ∈ discovered r E -> x ∈ discovered r (E ++ [s])).
    { intros x. rewrite discovered_snoc. set_solver. }
    assert (HdF : forall x, x ∈ discovered r (E ++ [s]) -> x ∈ discovered r (E ++ s :: steps)).
    { intros x Hx. rewrite Happ. by apply discovered_prefix. }
    assert (HsE : sid s ∈ discovered r E).
    { destruct (Hcut (length E) s HsL) as [_ [->|(j & x & Hj & Hx & Hcx & <-)]].
      - left.
      - rewrite lookup_app_l in Hx by lia. right. apply elem_of_list_fmap. exists x. split; [done|].
        apply elem_of_list_filter. split; [done|]. by eapply elem_of_list_lookup_2. }
    assert (Hst : sid s <> tid s) by (apply Hne; set_solver).
    assert (Hnb : ~ exists s', s' ∈ E /\ cut s' = true /\ sid s' = sid s).
    { intros (s' & Hs' & Hc' & Heq). apply elem_of_list_lookup in Hs' as (i & Hi).
      pose proof (lookup_lt_Some _ _ _ Hi) as Hil.
      apply (Hlast i (length E) s' s); [done|by rewrite lookup_app_l|done|done|done]. }
    assert (HsV : sid s ∈ V -> is_Some (p !! sid s)).
    { intros H. destruct (Hfresh _ H) as [_ [?|?]]; [by apply HdF, HdE|done|done]. }
    assert (HtV : cut s = true -> is_Some (p !! tid s)).
    { intros Hc. destruct (Hanc _ _ HsL Hc) as (j & s' & Hj & Hs' & Hc' & <-).
      rewrite lookup_app_l in Hs' by done. apply Hsrc; [|done]. by eapply elem_of_list_lookup_2. }
    assert (HtV' : cut s = false -> tid s ∉ V).
    { intros Hcs Hin. rewrite Happ, discovered_app, discovered_snoc, Hcs in Hnd.
      apply NoDup_app in Hnd as (Hnd & _ & _). apply NoDup_app in Hnd as (_ & Hnd & _).
      apply (Hnd (tid s)); [|left]. apply Hfresh; [done|]. apply HdF.
      rewrite discovered_snoc, Hcs. set_solver. }
    assert (HtE : tid s ∈ discovered r (E ++ [s])).
    { rewrite discovered_snoc. destruct (cut s) eqn:Hcs; [|set_solver]. rewrite app_nil_r.
      apply Hfresh; [by apply Hdom, HtV|].
      destruct (Hanc _ _ HsL Hcs) as (j & s' & Hj & Hs' & Hc' & <-).
      destruct (Hcut j s' Hs') as [_ [->|(k & x & Hk & Hx & Hcx & <-)]]; [left|].
      right. apply elem_of_list_fmap. exists x. split; [done|].
      apply elem_of_list_filter. split; [done|]. by eapply elem_of_list_lookup_2. }
    assert (exists V' p', greedy_step (V, p) s = (V', p') /\
      symmetric_pairing p' /\ (forall x, is_Some (p' !! x) -> x ∈ V') /\
      (forall x, is_Some (p !! x) -> is_Some (p' !! x)) /\
      (forall x, x ∈ V' -> x ∈ V \/ x ∈ discovered r (E ++ [s])) /\
      (forall x, x ∈ V' -> x ∈ V \/ is_Some (p' !! x) \/ cut s = true /\ sid s = x) /\
      (cut s = false -> is_Some (p' !! sid s)) /\
      (is_Some (p' !! sid s) \/ is_Some (p' !! tid s)))
      as (V' & p' & Heq & Hs' & Hdom' & Hmono & Hbd & Hbd2 & Hsid & Hedge).
    { simpl. case_bool_decide as H1.
      - eexists _, _. split; [done|]. split_and!; try done; [by left|by left|by auto|by auto].
      - case_bool_decide as H2.
        + assert (Hcs : cut s = true).
          { destruct (cut s) eqn:Hcs; [done|]. exfalso.
            apply elem_of_union in H2 as [H2%elem_of_singleton|H2]; [done|]. by apply HtV'. }
          eexists _, _. split; [done|]. split_and!; try done.
          * intros x Hx. apply elem_of_union. right. by apply Hdom.
          * intros x [->%elem_of_singleton|?]%elem_of_union; [right; by apply HdE|by left].
          * intros x [->%elem_of_singleton|?]%elem_of_union; [|by left]. by right; right.
          * by rewrite Hcs.
          * right. by apply HtV.
        + assert (Hps : p !! sid s = None).
          { destruct (p !! sid s) eqn:Hp; [|done]. destruct H1. apply Hdom. by eexists. }
          assert (Hpt : p !! tid s = None).
          { destruct (p !! tid s) eqn:Hp; [|done]. destruct H2. apply elem_of_union. right.
            apply Hdom. by eexists. }
          assert (Hl1 : p_pair p (sid s) (tid s) !! sid s = Some (tid s)).
          { rewrite pair_lookup by done. by rewrite bool_decide_eq_true_2. }
          assert (Hl2 : p_pair p (sid s) (tid s) !! tid s = Some (sid s)).
          { rewrite pair_lookup by done. rewrite bool_decide_eq_false_2 by done.
            by rewrite bool_decide_eq_true_2. }
          assert (Hlo : forall x, x <> sid s -> x <> tid s -> p_pair p (sid s) (tid s) !! x = p !! x).
          { intros x Hx1 Hx2. rewrite pair_lookup by done.
            rewrite bool_decide_eq_false_2 by done. rewrite bool_decide_eq_false_2 by done.
            case_bool_decide as H3; [|done]. exfalso.
            destruct H3 as [H3|H3]; apply Hs in H3 as [H3 _]; congruence. }
          eexists _, _. split; [done|]. split_and!.
          * by apply pair_symmetric.
          * intros x Hx. rewrite !elem_of_union, !elem_of_singleton.
            destruct (decide (x = sid s)); [by right; left|]. destruct (decide (x = tid s)); [by left|].
            right; right. apply Hdom. by rewrite <-Hlo.
          * intros x Hx. destruct (decide (x = sid s)) as [->|]; [by eexists|].
            destruct (decide (x = tid s)) as [->|]; [by eexists|]. by rewrite Hlo.
          * intros x. rewrite !elem_of_union, !elem_of_singleton. intros [->|[->|?]]; auto.
          * intros x. rewrite !elem_of_union, !elem_of_singleton. intros [->|[->|?]]; eauto.
          * intros _. by eexists.
          * left. by eexists. }
    rewrite Heq. rewrite Happ in *.
    destruct (IH (E ++ [s]) (V', p')) as (J1 & J2 & J3 & J4 & J5); try done.
    { simpl. intros x Hx Hxd. split.
      - destruct (Hbd x Hx) as [HxV|?]; [|done]. apply HdE. by apply Hfresh.
      - destruct (Hbd2 x Hx) as [HxV|[?|[? ?]]]; [|by left|].
        + destruct (Hfresh x HxV Hxd) as [_ [?|(s' & ? & ? & ?)]]; [left; by apply Hmono|right].
          exists s'. set_solver.
        + right. exists s. set_solver. }
    { simpl. intros s' [Hs1| ->%elem_of_list_singleton]%elem_of_app Hc; [|by apply Hsid].
      by apply Hmono, Hsrc. }
    simpl in J1, J2, J3, J4. split_and!; try done.
    - intros x Hx. by apply J3, Hmono.
    - intros x Hx. destruct (J4 x Hx) as [Hx'|?]; [|by right].
      destruct (Hbd x Hx') as [?|?]; [by left|right]. by apply HdF.
    - intros s' [->|Hs1]%elem_of_cons; [|by apply J5].
      destruct Hedge; [left|right]; by apply J3.
  Qed.

  Context (Ha : lone_rings g).

  (** In a tree or a ring a cut step is the last one at its source. *)
  Lemma lone_cut_last d r steps : Lawful (as_graph d) ->
    (forall u v, adj (as_graph d) u v -> adj g u v) -> depth_first (as_graph d) r steps ->
    (forall i j s s', i < j -> steps !! i = Some s -> steps !! j = Some s' ->
       cut s = true -> sid s' <> sid s) /\
    (forall i s, steps !! i = Some s -> cut s = true ->
       exists j s', j < i /\ steps !! j = Some s' /\ cut s' = false /\ sid s' = tid s).
  Proof.
    intros Hgd Hsub Hd. pose proof (lone_narrow g (as_graph d) r Hg Hgd Hsub Ha) as Hnar.
    destruct (narrow_dfs (as_graph d) Hgd r Hnar steps Hd) as (_ & _ & Hanc).
    destruct (dfs_facts (as_graph d) r steps Hgd Hd) as (V & HT).
    pose proof (ti_cut _ _ _ _ _ HT) as Hce.
    assert (Hneq : forall s, s ∈ steps -> sid s <> tid s).
    { intros s Hs Heq. destruct (ti_emit _ _ _ _ _ HT s Hs) as (Hadj & _ & _).
      rewrite Heq in Hadj. apply (Hl (tid s)). by apply Hsub. }
    (* the two facts about a cut step: a parent step before it, and its ancestor *)
    assert (Hnoroot' : forall a b, rtc (fun a b => mkStep a b false ∈ steps) a b -> b = r -> a = r).
    { intros a b Hab. induction Hab as [|x y z Hxy _ IH']; [done|]. intros Hz.
      specialize (IH' Hz). subst y. exfalso.
      apply elem_of_list_lookup in Hxy as (k & Hk).
      destruct (proj1 (Hce k _ Hk)) as [_ Hbad]. simpl in Hbad.
      discriminate Hbad. by left. }
    assert (Hnoroot : forall a b, rtc (fun a b => mkStep a b false ∈ steps) a b -> b = r -> a = b).
    { intros a b Hab ->. by apply (Hnoroot' a r). }
    assert (Hpar : forall i s, steps !! i = Some s -> cut s = true -> sid s <> r).
    { intros i s Hi Hc Heq. pose proof (elem_of_list_lookup_2 _ _ _ Hi) as Hin.
      specialize (Hanc s Hin Hc). apply (Hneq s Hin). symmetry. by apply (Hnoroot _ _ Hanc). }
    split.
    - intros i j s s' Hij Hi Hj Hc Heq.
      pose proof (elem_of_list_lookup_2 _ _ _ Hi) as Hin. pose proof (elem_of_list_lookup_2 _ _ _ Hj) as Hjn.
      destruct (Hce i s Hi) as [_ [Hr|(k & q & Hk & Hq & Hqc & Hqt)]]; [by destruct (Hpar i s)|].
      pose proof (elem_of_list_lookup_2 _ _ _ Hq) as Hqn.
      assert (Hcyc : on_cycle g (sid s)).
      { apply (on_cycle_mono g (as_graph d)); [done|]. eapply cut_on_cycle; [done|done|done|done|auto]. }
      assert (Honce : forall a b, a <> b -> times_crossed (a, b) (crossed steps) <= 1).
      { intros a b Hab. pose proof (ti_once _ _ _ _ _ HT a b Hab) as H. by rewrite app_nil_r in H. }
      assert (Hdist : forall k1 k2 x1 x2, k1 < k2 -> steps !! k1 = Some x1 -> steps !! k2 = Some x2 ->
        same_edge (sid x1, tid x1) (sid x2, tid x2) -> False).
      { intros k1 k2 x1 x2 Hlt H1 H2 Hsame.
        pose proof (Honce (sid x1) (tid x1) (Hneq x1 (elem_of_list_lookup_2 _ _ _ H1))) as Hle.
        pose proof (take_drop_middle steps k1 x1 H1) as Hsplit. rewrite <-Hsplit in Hle.
        rewrite crossed_app in Hle. rewrite times_crossed_app in Hle.
        assert (Hpos1 : 2 <= times_crossed (sid x1, tid x1) (crossed (x1 :: drop (S k1) steps))); [|lia].
        unfold crossed. rewrite fmap_cons. unfold times_crossed. rewrite filter_cons.
        rewrite decide_True by (by left). simpl. apply le_n_S.
        apply times_crossed_pos. exists (sid x2, tid x2). split; [|done].
        apply elem_of_list_fmap. exists x2. split; [done|].
        apply elem_of_list_lookup. exists (k2 - S k1). rewrite lookup_drop. rewrite <-H2. f_equal. lia. }
      assert (Hadjs : forall x, x ∈ steps -> adj g (sid x) (tid x)).
      { intros x Hx. apply Hsub. by apply (ti_emit _ _ _ _ _ HT x Hx). }
      assert (H3 : length [sid q; tid s; tid s'] <= 2); [|simpl in H3; lia].
      apply (lone_degree g (sid s)); [done|done|done| |].
      + rewrite !NoDup_cons, !not_elem_of_cons. split_and!; try apply not_elem_of_nil; [| | |apply NoDup_nil_2].
        * intros E. apply (Hdist k i q s); [done|done|done|]. right. simpl. congruence.
        * intros E. apply (Hdist k j q s'); [lia|done|done|]. right. simpl. congruence.
        * intros E. apply (Hdist i j s s'); [done|done|done|]. left. simpl. congruence.
      + intros x Hx. rewrite !elem_of_cons, elem_of_nil in Hx. destruct Hx as [->|[->|[->|[]]]].
        * rewrite <-Hqt. apply law_adj_sym; [done|]. by apply Hadjs.
        * by apply Hadjs.
        * rewrite <-Heq. by apply Hadjs.
    - intros i s Hi Hc. pose proof (elem_of_list_lookup_2 _ _ _ Hi) as Hin.
      specialize (Hanc s Hin Hc).
      destruct (Hce i s Hi) as [_ [Hr|(k & q & Hk & Hq & Hqc & Hqt)]]; [by destruct (Hpar i s)|].
      assert (Hback : forall b, rtc (fun a b => mkStep a b false ∈ steps) (tid s) b ->
        forall k x, steps !! k = Some x -> cut x = false -> tid x = b -> b <> tid s ->
        exists j s', j <= k /\ steps !! j = Some s' /\ cut s' = false /\ sid s' = tid s).
      { apply (rtc_ind_r (fun b => forall k x, steps !! k = Some x -> cut x = false -> tid x = b ->
          b <> tid s -> exists j s', j <= k /\ steps !! j = Some s' /\ cut s' = false /\ sid s' = tid s));
          [done|].
        intros y b Hy Hyb IH' k' x Hx Hxc Hxb Hne'. apply elem_of_list_lookup in Hyb as (k2 & Hk2).
        assert (k2 = k') as ->.
        { destruct (Nat.lt_trichotomy k2 k') as [Hlt|[?|Hlt]]; [|done|]; exfalso.
          - pose proof (proj2 (proj1 (Hce k' x Hx))) as Hbad. rewrite Hbad in Hxc; [done|].
            right. exists k2, (mkStep y b false). split_and!; auto.
          - pose proof (proj2 (proj1 (Hce k2 _ Hk2))) as Hbad. simpl in Hbad. discriminate Hbad.
            right. exists k', x. split_and!; auto. }
        destruct (decide (y = tid s)) as [->|Hys].
        { exists k', (mkStep (tid s) b false). split_and!; auto. }
        destruct (Hce k' _ Hk2) as [_ [Hr|(k3 & q3 & Hk3 & Hq3 & Hq3c & Hq3t)]]; simpl in *.
        - subst y. exfalso. apply Hys. symmetry. by apply (Hnoroot (tid s) r Hy).
        - destruct (IH' k3 q3 Hq3 Hq3c Hq3t Hys) as (j & s' & ? & ? & ? & ?).
          exists j, s'. split_and!; auto. lia. }
      destruct (Hback _ Hanc k q Hq Hqc Hqt (Hneq s Hin)) as (j & s' & ? & ? & ? & ?).
      exists j, s'. split_and!; auto. lia.
  Qed.
  Lemma greedy_lone V pre iter ds st st' :
    comps g V iter ds -> greedy_on st ds st' -> g_nodes g = pre ++ iter ->
    (forall v, v ∈ pre -> v ∈ V) ->
    (forall u v, u ∈ V -> reachable g u v -> v ∈ V) ->
    symmetric_pairing st.2 -> (forall x, is_Some (st.2 !! x) -> x ∈ st.1) ->
    (forall x, x ∈ st.1 -> x ∈ V) ->
    (forall u v, u ∈ V -> adj g u v -> is_Some (st.2 !! u) \/ is_Some (st.2 !! v)) ->
    forall u v, (u ∈ V \/ u ∈ iter) -> adj g u v -> is_Some (st'.2 !! u) \/ is_Some (st'.2 !! v).
  Proof.
    intros Hc. revert pre st.
    induction Hc as [V|V r iter ds Hr _ IH|V V' r iter d ds Hr Hy HV' _ IH];
      intros pre st Hgo Hpre HpV Hcl Hs Hdom HsV Hdec.
    - inversion Hgo; subst. intros u v [Hu|Hu] Huv; [|by apply elem_of_nil in Hu].
      by apply Hdec.
    - intros u v Hu Huv. eapply (IH (pre ++ [r]) st); try done.
      + by rewrite <-app_assoc.
      + intros w [Hw| ->%elem_of_list_singleton]%elem_of_app; auto.
      + destruct Hu as [?|[->|?]%elem_of_cons]; auto.
    - inversion Hgo as [|? ? ? r' steps ? Hh Hd Hgo']; subst.
      destruct (yields_narrow g r d Hg (lone_narrow g g r Hg Hg (fun _ _ H => H) Ha) Hy) as (Y1 & Y2 & Y3 & Y4).
      rewrite Y4 in Hh. injection Hh as <-.
      destruct (yields_loop_free g r d Hg Hl Hy) as (Hgd & Hld & _ & _).
      destruct (yields_subgraph g r d Hg Hy) as (_ & Hnsub & Hsub & Hconn).
      pose proof (lone_narrow g (as_graph d) r Hg Hgd Hsub Ha) as Hnar.
      destruct (narrow_dfs (as_graph d) Hgd r Hnar steps Hd) as (A1 & A2 & _).
      destruct (lone_cut_last d r steps Hgd Hsub Hd) as (L1 & L2).
      destruct (dfs_sound (as_graph d) r steps Hgd Hd) as (S1 & S2 & S3).
      assert (Hrd : r ∈ dg_nodes d) by (by eapply yields_root).
      assert (Hdn : forall v, v ∈ dg_nodes d <-> v ∈ discovered r steps).
      { intros v. rewrite <-A1. split.
        - intros Hv. by apply Hconn.
        - intros Hv. by apply (reachable_node (as_graph d) Hgd r). }
      assert (HdV : forall v, v ∈ dg_nodes d -> v ∉ V).
      { intros v Hv HvV. apply Hr. eapply Hcl; [exact HvV|].
        apply reachable_sym; [done|]. by apply Y1. }
      destruct (greedy_fold_max r [] steps st) as (J1 & J2 & J3 & J4 & J5); simpl; try done.
      { by eapply dfs_cut_exact. }
      { intros s Hs' Heq. destruct (S1 s Hs') as [Hadj _]. rewrite Heq in Hadj. by apply (Hld (tid s)). }
      { intros x Hx Hxd. destruct (HdV x); [by apply Hdn|]. by apply HsV. }
      { intros s Hs'. by apply elem_of_nil in Hs'. }
      simpl in *. intros u v Hu Huv.
      eapply (IH (pre ++ [r]) (foldl greedy_step st steps)); try done.
      + by rewrite <-app_assoc.
      + intros w [Hw| ->%elem_of_list_singleton]%elem_of_app; apply HV'; [by right; auto|by left].
      + intros a b [Hab|Hab]%HV' Hreach; apply HV'.
        * left. apply Y1. apply Y1 in Hab. by eapply reach_trans.
        * right. by eapply Hcl.
      + intros x Hx. apply HV'. destruct (J4 x Hx) as [?|?]; [right; by apply HsV|left; by apply Hdn].
      + intros a b [Had'|HaV]%HV' Hab.
        * assert (Habd : adj (as_graph d) a b) by (by apply Y2).
          assert (Har : reachable (as_graph d) r a) by (apply A1; by apply Hdn).
          specialize (A2 a b Har Habd). assert (Hpos : 0 < times_crossed (a, b) (crossed steps)) by lia.
          apply times_crossed_pos in Hpos as (f & (s & -> & Hs')%elem_of_list_fmap & Hsame).
          destruct (J5 s Hs') as [?|?], Hsame as [[= -> ->]|[= -> ->]]; auto.
        * destruct (Hdec a b HaV Hab); [left|right]; by apply J3.
      + destruct Hu as [?|[->|?]%elem_of_cons]; [left; apply HV'; by right|left; apply HV'; by left|by right].
  Qed.

  Lemma greedy_maximal : exists p n, pairing_of g p /\
    (forall u v, adj g u v -> is_Some (p !! u) \/ is_Some (p !! v)) /\
    forall fuel, n <= fuel -> greedy fuel g = Ok p.
  Proof.
    destruct greedy_valid as (p & n & Hp & Hf). exists p, n. split_and!; try done.
    destruct (greedy_run ∅ (g_nodes g) (∅, p_new)) as (ds & st' & Hc & Hgo & Hf'); [done|].
    specialize (Hf (n + S (g_size g + length (g_nodes g))) ltac:(lia)).
    specialize (Hf' (n + S (g_size g + length (g_nodes g))) ltac:(lia)).
    unfold greedy, components in Hf. rewrite Hf in Hf'. injection Hf' as ->.
    intros u v Huv. eapply (greedy_lone ∅ [] (g_nodes g) ds (∅, p_new) st'); try done.
    - intros w Hw. by apply elem_of_nil in Hw.
    - intros x [y Hy]. simpl in Hy. unfold p_new in Hy. by rewrite lookup_empty in Hy.
    - right. by eapply lawful_adj_l.
  Qed.
End greedy.

(** Depth-first traversal of forests. *)
From Verif Require Import Outcome GraphModel TraversalModel ComponentsModel PairingModel Spec
  GraphProofs EditProofs ConvertProofs EqProofs TraversalProofs BfsProofs DfsProofs PathLemmas.

Lemma loop_free_nodup g v : Lawful g -> LoopFree g -> NoDup (nbrs g v).
Proof.
  intros Hg Hlf. pose proof (lawful_nbrs_nodup g Hg v) as H.
  assert (Hne : forall x, x ∈ nbrs g v -> x <> v).
  { intros x Hx ->. apply (Hlf v). by apply adj_nbrs. }
  clear Hlf. revert H Hne. generalize (nbrs g v). intros l.
  induction l as [|x l IH]; intros H Hne; [constructor|].
  rewrite filter_cons, decide_True in H by (apply Hne; left).
  apply NoDup_cons in H as [H1 H2]. apply NoDup_cons. split.
  - intros Hx. apply H1. apply elem_of_list_filter. split; [apply Hne; left|done].
  - apply IH; [done|]. intros y Hy. apply Hne. by right.
Qed.

Record AInv (g : Graph) (r : N) (E : list Step) (V : gset N) (Q : list (N * N)) : Prop := {
  ai_fresh : forall p n, (p, n) ∈ Q -> n ∉ V;
  ai_nodup : NoDup (snd <$> Q);
  ai_conn : forall v, v ∈ V -> rtc (within g V) r v;
  ai_root : r ∈ V;
  ai_all : forall v x, v ∈ V -> adj g v x -> exists f, f ∈ crossed E ++ Q /\ same_edge (v, x) f;
  ai_cut : forall s, s ∈ E -> cut s = false
}.

Section acyclic.
  Context (g : Graph) (Hg : Lawful g) (Ha : Acyclic g).

  Lemma ainv_new r : r ∈ g_nodes g -> AInv g r [] {[r]} ((fun x => (r, x)) <$> nbrs g r).
  Proof.
    intros Hr. destruct Ha as [Hlf _]. split.
    - intros p n (x & [= -> ->] & Hx)%elem_of_list_fmap ->%elem_of_singleton.
      apply (Hlf r). by apply adj_nbrs.
    - rewrite <-list_fmap_compose. simpl. rewrite list_fmap_id. by apply loop_free_nodup.
    - intros v ->%elem_of_singleton. constructor.
    - set_solver.
    - intros v x ->%elem_of_singleton Hx. exists (r, x). split; [|by left].
      simpl. apply elem_of_list_fmap. exists x. split; [done|]. by apply adj_nbrs.
    - intros s Hs. by apply elem_of_nil in Hs.
  Qed.

  (** The neighbors of a node about to be visited, its parent apart, are new. *)
  Lemma acyclic_fresh r E V p n rest x :
    TInv g r E V ((p, n) :: rest) -> AInv g r E V ((p, n) :: rest) ->
    adj g n x -> x <> p -> x ∉ V /\ forall q, (q, x) ∉ rest.
  Proof.
    intros HT HA Hnx Hxp. destruct Ha as [Hlf Hcyc].
    destruct (ti_pend _ _ _ _ _ HT p n) as [Hpn HpV]; [left|].
    assert (HnV : n ∉ V) by (apply (ai_fresh _ _ _ _ _ HA p n); left).
    assert (Hpath : forall y, y ∈ V -> exists l, NoDup l /\ is_path g l /\ head l = Some p /\
      last l = Some y /\ forall z, z ∈ l -> z ∈ V).
    { intros y Hy. apply within_path; [done|].
      etrans; [|by apply (ai_conn _ _ _ _ _ HA)].
      apply within_sym; [done|]. by apply (ai_conn _ _ _ _ _ HA). }
    split.
    - intros HxV. destruct (Hpath x HxV) as (l & Hnd & Hp & Hh & Hl & Hin).
      apply (Hcyc (l ++ [n])). split_and!.
      + rewrite app_length. simpl. destruct l as [|a [|b l]]; simpl in *; [done| |lia]. congruence.
      + apply NoDup_app. split_and!; [done| |apply NoDup_singleton].
        intros z Hz ->%elem_of_list_singleton. auto.
      + apply is_path_snoc with (a := x); [done|]. split; [done|]. by apply law_adj_sym.
      + exists p, n. rewrite last_snoc. split_and!; [by destruct l|done|by apply law_adj_sym].
    - intros q Hq. destruct (ti_pend _ _ _ _ _ HT q x) as [Hqx HqV]; [by right|].
      assert (HxV : x ∉ V) by (apply (ai_fresh _ _ _ _ _ HA q x); by right).
      assert (Hxn : x <> n) by (intros ->; by apply (Hlf n)).
      destruct (Hpath q HqV) as (l & Hnd & Hp & Hh & Hl & Hin).
      apply (Hcyc (l ++ [x; n])). split_and!.
      + rewrite app_length. simpl. destruct l; simpl in *; [done|lia].
      + apply NoDup_app. split_and!; [done| |].
        * intros z Hz Hz'. specialize (Hin z Hz). set_solver.
        * apply NoDup_cons. split; [by rewrite elem_of_list_singleton|apply NoDup_singleton].
      + apply is_path_app. split_and!; [done| |].
        * apply is_path_cons2. split; [by apply law_adj_sym|apply is_path_singleton].
        * intros a b Ea [= <-]. congruence.
      + exists p, n. rewrite last_app_cons. split_and!; [by destruct l|done|by apply law_adj_sym].
  Qed.

  Lemma dfs_push_fresh V p n l rest :
    (forall x, x ∈ l -> x <> p -> x ∉ V) ->
    foldl (dfs_push V p n) rest (reverse l) =
    ((fun x => (n, x)) <$> filter (fun x => x <> p) l) ++ rest.
  Proof.
    intros Hf. induction l as [|x l IH]; [done|].
    rewrite reverse_cons, foldl_app, IH by (intros; apply Hf; [by right|done]).
    cbn [foldl]. unfold dfs_push at 1. rewrite filter_cons.
    case_bool_decide as Hx.
    - rewrite decide_False by tauto. done.
    - rewrite decide_True by done. rewrite bool_decide_eq_false_2; [done|].
      apply Hf; [left|done].
  Qed.

  Lemma acyclic_next r E t p n rest :
    df_stack t = (p, n) :: rest ->
    TInv g r E (df_nodes t) (df_stack t) -> AInv g r E (df_nodes t) (df_stack t) ->
    g_neighbors g n = Ok (nbrs g n) /\
    dfs_next g t = Ok (Some (mkStep p n false), mkDF ({[n]} ∪ df_nodes t)
      (((fun x => (n, x)) <$> filter (fun x => x <> p) (nbrs g n)) ++ rest)).
  Proof.
    destruct t as [V Q]. simpl. intros -> HT HA.
    assert (Hn : g_neighbors g n = Ok (nbrs g n)).
    { apply lawful_nbrs; [done|]. destruct (ti_pend _ _ _ _ _ HT p n) as [Hpn _]; [left|].
      by eapply law_adj_node. }
    split; [done|]. unfold dfs_next. simpl.
    rewrite bool_decide_eq_false_2 by (apply (ai_fresh _ _ _ _ _ HA p n); left).
    rewrite Hn. simpl. rewrite dfs_push_fresh; [done|].
    intros x Hx Hxp. eapply acyclic_fresh; [done|done|by apply adj_nbrs|done].
  Qed.

  Lemma ainv_step r E V p n rest :
    TInv g r E V ((p, n) :: rest) -> AInv g r E V ((p, n) :: rest) ->
    AInv g r (E ++ [mkStep p n false]) ({[n]} ∪ V)
      (((fun x => (n, x)) <$> filter (fun x => x <> p) (nbrs g n)) ++ rest).
  Proof.
    intros HT HA. pose proof (acyclic_fresh r E V p n rest) as Hfresh.
    destruct Ha as [Hlf _].
    destruct (ti_pend _ _ _ _ _ HT p n) as [Hpn HpV]; [left|].
    pose proof (ai_nodup _ _ _ _ _ HA) as Hnd. cbn in Hnd. apply NoDup_cons in Hnd as [Hnr Hnd].
    split.
    - intros q x [(y & [= -> ->] & [Hyp Hy%adj_nbrs]%elem_of_list_filter)%elem_of_list_fmap|Hq]%elem_of_app.
      + destruct (Hfresh y HT HA Hy Hyp) as [? _]. assert (y <> n) by (intros ->; by apply (Hlf n)).
        set_solver.
      + assert (x ∉ V) by (apply (ai_fresh _ _ _ _ _ HA q x); by right).
        assert (x <> n); [|set_solver]. intros ->. apply Hnr.
        apply elem_of_list_fmap. by exists (q, n).
    - rewrite fmap_app, <-list_fmap_compose. simpl. rewrite list_fmap_id.
      apply NoDup_app. split_and!; [apply NoDup_filter, loop_free_nodup; done| |done].
      intros x [Hxp Hx%adj_nbrs]%elem_of_list_filter ([q y] & Heq & Hq)%elem_of_list_fmap.
      simpl in Heq. subst y. destruct (Hfresh x HT HA Hx Hxp) as [_ H]. by apply (H q).
    - assert (HV : V ⊆ {[n]} ∪ V) by set_solver.
      intros v [->%elem_of_singleton|Hv]%elem_of_union.
      + eapply rtc_r; [eapply within_mono, (ai_conn _ _ _ _ _ HA); done|].
        split; [done|set_solver].
      + eapply within_mono; [done|]. by apply (ai_conn _ _ _ _ _ HA).
    - apply elem_of_union. right. apply (ai_root _ _ _ _ _ HA).
    - intros v x [->%elem_of_singleton|Hv]%elem_of_union Hx.
      + destruct (decide (x = p)) as [->|Hxp].
        * exists (p, n). split; [|by right]. rewrite crossed_app. simpl. set_solver.
        * exists (n, x). split; [|by left]. rewrite !elem_of_app. right. left.
          apply elem_of_list_fmap. exists x. split; [done|]. apply elem_of_list_filter.
          split; [done|]. by apply adj_nbrs.
      + destruct (ai_all _ _ _ _ _ HA v x Hv Hx) as (f & Hf & Hs). exists f. split; [|done].
        rewrite crossed_app. cbn. rewrite !elem_of_app, elem_of_list_singleton in *.
        rewrite elem_of_cons in Hf. tauto.
    - intros s [Hs| ->%elem_of_list_singleton]%elem_of_app; [|done]. by apply (ai_cut _ _ _ _ _ HA).
  Qed.

  Lemma acyclic_run r : r ∈ g_nodes g ->
    exists steps V, depth_first g r steps /\ TInv g r steps V [] /\ AInv g r steps V [].
  Proof.
    intros Hr. apply dfs_run; [done|done|by apply ainv_new|].
    intros E t s t' HT HA Hn Hst. destruct (df_stack t) as [|[p n] rest] eqn:Es.
    { unfold dfs_next in Hn. by rewrite Es in Hn. }
    rewrite <-Es in HT, HA. destruct (acyclic_next r E t p n rest Es HT HA) as [_ Hn'].
    rewrite Hn in Hn'. injection Hn' as -> ->. simpl. rewrite Es in HT, HA. by apply ainv_step.
  Qed.

  (** Every node and every edge of the component is visited, without cuts. *)
  Lemma acyclic_dfs r steps : depth_first g r steps ->
    (forall v, reachable g r v <-> v ∈ discovered r steps) /\
    (forall u v, reachable g r u -> adj g u v -> times_crossed (u, v) (crossed steps) = 1) /\
    (forall s, s ∈ steps -> cut s = false).
  Proof.
    intros Hb. pose proof (dfs_root g r steps Hg Hb) as Hr.
    destruct (acyclic_run r Hr) as (steps' & V & Hb' & HT & HA).
    rewrite (depth_first_fun g r steps steps' Hb Hb'). clear dependent steps. rename steps' into steps.
    assert (Hall : forall u v, u ∈ V -> adj g u v ->
      (exists f, f ∈ crossed steps /\ same_edge (u, v) f) /\ v ∈ V).
    { intros u v Hu Huv. destruct (ai_all _ _ _ _ _ HA u v Hu Huv) as (f & Hf & Hs).
      rewrite app_nil_r in Hf. split; [by exists f|].
      apply elem_of_list_fmap in Hf as (s & -> & Hin).
      destruct (ti_emit _ _ _ _ _ HT s Hin) as (_ & ? & ?).
      destruct Hs as [[= -> ->]|[= -> ->]]; done. }
    assert (HV : forall v, reachable g r v <-> v ∈ V).
    { intros v. split; [|apply (ti_reach _ _ _ _ _ HT)].
      pose proof (ai_root _ _ _ _ _ HA) as Hrv. clear -Hall Hrv. unfold reachable. intros Hv.
      revert Hrv. induction Hv as [|x y z Hxy _ IH]; [done|]. intros Hx. apply IH.
      by eapply Hall. }
    split_and!.
    - intros v. rewrite HV. apply (ti_disc _ _ _ _ _ HT).
    - intros u v Hu%HV Huv. destruct (Hall u v Hu Huv) as [Hf _].
      apply times_crossed_pos in Hf. destruct Ha as [Hlf _].
      assert (Huv' : u <> v) by (intros ->; by apply (Hlf v)).
      pose proof (ti_once _ _ _ _ _ HT u v Huv') as H1. rewrite app_nil_r in H1. lia.
    - apply (ai_cut _ _ _ _ _ HA).
  Qed.

  (** ** Pre-order *)

  Lemma pre_order_app A B S : pre_order g (A ++ B) S ->
    exists S1 S2, S = S1 ++ S2 /\ pre_order g A S1 /\ pre_order g B S2.
  Proof.
    revert S. induction A as [|[p n] A IH]; intros S H.
    { exists [], S. split_and!; [done|constructor|done]. }
    inversion H as [|? ? ? l sub rest Hn Hsub Hrest]; subst.
    destruct (IH rest Hrest) as (S1 & S2 & -> & H1 & H2).
    exists (mkStep p n false :: sub ++ S1), S2. split_and!; [|by econstructor|done].
    simpl. by rewrite <-app_assoc.
  Qed.

  Lemma acyclic_pre_order fuel r E t steps :
    TInv g r E (df_nodes t) (df_stack t) -> AInv g r E (df_nodes t) (df_stack t) ->
    dfs_collect fuel g t = Ok steps -> pre_order g (df_stack t) steps.
  Proof.
    revert E t steps. induction fuel as [|fuel IH]; intros E t steps HT HA Hc; [done|].
    cbn [dfs_collect] in Hc. destruct (df_stack t) as [|[p n] rest] eqn:Es.
    { rewrite dfs_next_done in Hc by done. injection Hc as <-. constructor. }
    rewrite <-Es in HT, HA. destruct (acyclic_next r E t p n rest Es HT HA) as [Hn Hnext].
    rewrite Hnext in Hc. cbn [cbind] in Hc. apply cbind_ok in Hc as (steps' & Hc & [= <-]).
    assert (Hp : pre_order g (((fun x => (n, x)) <$> filter (fun x => x <> p) (nbrs g n)) ++ rest) steps').
    { refine (IH _ (mkDF _ _) _ _ _ Hc); cbn [df_nodes df_stack]; rewrite Es in HT, HA.
      - eapply tinv_step; [done|done|].
        destruct (dfs_next_step g Hg t) as (s & t' & Hn1 & Hn2).
        { by rewrite Es. }
        { rewrite Es. intros q x Hq. by apply (ti_pend _ _ _ _ _ HT). }
        rewrite Hnext in Hn1. injection Hn1 as <- <-. rewrite Es in Hn2. exact Hn2.
      - by apply ainv_step. }
    apply pre_order_app in Hp as (S1 & S2 & -> & H1 & H2). by econstructor.
  Qed.

  Lemma acyclic_dfs_pre_order r steps : depth_first g r steps ->
    exists l, g_neighbors g r = Ok l /\ pre_order g ((fun x => (r, x)) <$> l) steps.
  Proof.
    intros Hb. pose proof (dfs_root g r steps Hg Hb) as Hr. exists (nbrs g r).
    split; [by apply lawful_nbrs|]. destruct Hb as (t & n & Ht & Hn).
    rewrite dfs_new_spec in Ht by done. rewrite bool_decide_eq_true_2 in Ht by done.
    injection Ht as <-. refine (acyclic_pre_order n r [] (mkDF _ _) steps _ _ (Hn n ltac:(lia))).
    - by apply tinv_new.
    - by apply ainv_new.
  Qed.

  (** ** Agreement with the textbook *)

  Definition uncrossed (done : list (N * N)) (e : N * N) : Prop :=
    e ∉ done /\ (e.2, e.1) ∉ done.
  Local Instance uncrossed_dec done e : Decision (uncrossed done e).
  Proof. unfold uncrossed. apply _. Defined.

  Lemma acyclic_textbook fuel r E t steps Q' :
    TInv g r E (df_nodes t) (df_stack t) -> AInv g r E (df_nodes t) (df_stack t) ->
    filter (uncrossed (crossed E)) Q' = df_stack t ->
    dfs_collect fuel g t = Ok steps -> textbook g r (crossed E) Q' steps.
  Proof.
    revert E t steps Q'. induction fuel as [|fuel IHf]; intros E t steps Q' HT HA HQ Hc; [done|].
    induction Q' as [|[p n] Q' IHQ].
    { simpl in HQ. cbn [dfs_collect] in Hc. rewrite dfs_next_done in Hc by done.
      injection Hc as <-. constructor. }
    rewrite filter_cons in HQ. case_decide as Hun.
    2:{ apply tb_skip; [|by apply IHQ]. unfold uncrossed in Hun. simpl in Hun.
        destruct (decide ((p, n) ∈ crossed E)); [by left|].
        destruct (decide ((n, p) ∈ crossed E)); [by right|]. tauto. }
    clear IHQ. destruct Hun as [Hun1 Hun2]. simpl in Hun2.
    cbn [dfs_collect] in Hc. symmetry in HQ.
    destruct (acyclic_next r E t p n _ HQ HT HA) as [Hn Hnext].
    rewrite Hnext in Hc. cbn [cbind] in Hc. apply cbind_ok in Hc as (steps' & Hc & [= <-]).
    rewrite HQ in HT, HA.
    pose proof (ai_fresh _ _ _ _ _ HA p n ltac:(left)) as HnV.
    destruct (ti_pend _ _ _ _ _ HT p n) as [Hpn HpV]; [left|].
    assert (Hcr : forall a b, (a, b) ∈ crossed E -> a ∈ df_nodes t /\ b ∈ df_nodes t).
    { intros a b (s & [= -> ->] & Hs)%elem_of_list_fmap. by apply (ti_emit _ _ _ _ _ HT s Hs). }
    eapply tb_visit; [done|done| | |done|].
    - intros ->. apply HnV. apply (ai_root _ _ _ _ _ HA).
    - intros q Hq. apply HnV. by apply (Hcr q n).
    - assert (crossed E ++ [(p, n)] = crossed (E ++ [mkStep p n false])) as ->
        by (by rewrite crossed_app).
      refine (IHf _ (mkDF _ _) _ _ _ _ _ Hc); cbn [df_nodes df_stack].
      + eapply tinv_step; [done|done|].
        destruct (dfs_next_step g Hg t) as (s & t' & Hn1 & Hn2).
        { by rewrite HQ. }
        { rewrite HQ. intros q x Hq. by apply (ti_pend _ _ _ _ _ HT). }
        rewrite Hnext in Hn1. injection Hn1 as <- <-. rewrite HQ in Hn2. exact Hn2.
      + by apply ainv_step.
      + rewrite filter_app. f_equal.
        * assert (Hgen : forall l : list N, (forall x, x ∈ l -> adj g n x) ->
            filter (uncrossed (crossed (E ++ [mkStep p n false]))) ((fun x => (n, x)) <$> l) =
            (fun x => (n, x)) <$> filter (fun x => x <> p) l); [|apply Hgen; intros; by apply adj_nbrs].
          intros l. induction l as [|x l IHl]; intros Hadj; [done|].
          rewrite fmap_cons, !filter_cons, IHl by (intros; apply Hadj; by right).
          assert (uncrossed (crossed (E ++ [mkStep p n false])) (n, x) <-> x <> p).
          { unfold uncrossed. rewrite crossed_app. cbn. rewrite !elem_of_app, !elem_of_list_singleton.
            split; [intros [_ H] ->; apply H; by right|]. intros Hxp. split.
            - intros [Hx|[= -> ->]]; [by apply HnV, (Hcr n x)|done].
            - intros [Hx|[= ->]]; [by apply HnV, (Hcr x n)|done]. }
          do 2 case_decide; try tauto; done.
        * pose proof (ai_nodup _ _ _ _ _ HA) as Hnd. cbn in Hnd. apply NoDup_cons in Hnd as [Hnr _].
          assert (Hfr : forall q x, (q, x) ∈ filter (uncrossed (crossed E)) Q' -> x <> n /\ x <> p).
          { intros q x Hq. split; intros ->.
            - apply Hnr. apply elem_of_list_fmap. by exists (q, n).
            - apply (ai_fresh _ _ _ _ _ HA q p); [by right|done]. }
          clear -Hfr. induction Q' as [|[q x] Q' IHQ]; [done|]. rewrite !filter_cons in *.
          case_decide as H1.
          -- case_decide as H2.
             ++ f_equal. apply IHQ. intros a b Hab. apply (Hfr a b). by right.
             ++ exfalso. apply H2. destruct (Hfr q x) as [H3 H4]; [left|].
                destruct H1 as [H5 H6]. split; rewrite crossed_app; cbn;
                  rewrite elem_of_app, elem_of_list_singleton; cbn in *;
                  intros [?|?]; simplify_eq; done.
          -- case_decide as H2; [|by apply IHQ]. exfalso. apply H1.
             destruct H2 as [H3 H4]. rewrite crossed_app in H3, H4. unfold uncrossed. set_solver.
  Qed.

  Lemma acyclic_dfs_textbook r steps : depth_first g r steps ->
    exists l, g_neighbors g r = Ok l /\ textbook g r [] ((fun x => (r, x)) <$> l) steps.
  Proof.
    intros Hb. pose proof (dfs_root g r steps Hg Hb) as Hr. exists (nbrs g r).
    split; [by apply lawful_nbrs|]. destruct Hb as (t & n & Ht & Hn).
    rewrite dfs_new_spec in Ht by done. rewrite bool_decide_eq_true_2 in Ht by done.
    injection Ht as <-. refine (acyclic_textbook n r [] (mkDF _ _) steps _ _ _ _ (Hn n ltac:(lia))).
    - by apply tinv_new.
    - by apply ainv_new.
    - simpl. generalize (nbrs g r). intros l. induction l as [|x l IH]; [done|].
      rewrite fmap_cons, filter_cons, decide_True, IH; [done|].
      split; apply not_elem_of_nil.
  Qed.
End acyclic.

Lemma textbook_fun g r D Q S S' : textbook g r D Q S -> textbook g r D Q S' -> S = S'.
Proof.
  intros H. revert S'.
  induction H as [D|D p n Q S Hx _ IH|D p n Q S H1 H2 H3 _ IH|D p n Q l S H1 H2 H3 H4 Hl _ IH];
    intros S' H'; inversion H' as [|? ? ? ? ? K1 K2|? ? ? ? ? K1 K2 K3 K4|? ? ? ? l' ? K1 K2 K3 K4 K5 K6];
    subst; try done.
  - by apply IH.
  - destruct Hx; done.
  - destruct Hx; done.
  - destruct K1; done.
  - f_equal. by apply IH.
  - destruct H3 as [?|[q ?]]; [done|]. by destruct (K4 q).
  - destruct K1; done.
  - destruct K3 as [?|[q ?]]; [done|]. by destruct (H4 q).
  - rewrite Hl in K5. injection K5 as <-. f_equal. by apply IH.
Qed.

(** The pre-order of a list of pending edges is unique. *)
Lemma pre_order_fun g Q S S' : pre_order g Q S -> pre_order g Q S' -> S = S'.
Proof.
  intros H. revert S'. induction H as [|p n Q l sub rest Hn _ IH1 _ IH2]; intros S' H'.
  { by inversion H'. }
  inversion H' as [|? ? ? l' sub' rest' Hn' Hsub Hrest]; subst.
  rewrite Hn in Hn'. injection Hn' as <-. by rewrite (IH1 _ Hsub), (IH2 _ Hrest).
Qed.

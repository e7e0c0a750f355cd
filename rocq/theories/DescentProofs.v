(** How the depth-first traversal descends and backtracks, on any lawful graph. *)
From Verif Require Import Outcome GraphModel TraversalModel ComponentsModel PairingModel Spec
  GraphProofs EditProofs ConvertProofs EqProofs TraversalProofs BfsProofs DfsProofs PathLemmas
  AcyclicProofs CycleProofs NarrowProofs ComponentsProofs.

(** Visiting [n]: its edges (some to itself or to [p] left out) before a part
    of the rest, from which whole rows and edges to [n] were dropped. *)
Lemma dfs_push_shape V p n l rest : n ∉ V ->
  exists new (drops : list N),
    foldl (dfs_push V p n) rest (reverse l) =
      ((fun x => (n, x)) <$> new) ++
      filter (fun e : N * N => e.1 ∉ drops /\ (drops <> [] -> e.2 <> n)) rest /\
    filter (fun x => x <> p /\ x <> n) new = filter (fun x => x <> p /\ x <> n) l /\
    (forall x, x ∈ new -> x ∈ l) /\ (forall x, x ∈ drops -> x ∈ V).
Proof.
  intros HnV. induction l as [|x l (new & drops & IH & Hf & Hsub & HV)].
  { exists [], []. split_and!; [|done|done|set_solver]. simpl. symmetry. apply filter_all.
    intros e _. split; [set_solver|done]. }
  rewrite reverse_cons, foldl_app, IH. cbn [foldl]. unfold dfs_push at 1.
  destruct (bool_decide_reflect (x = p)) as [->|Hxp].
  { exists new, drops. split_and!; [done| |set_solver|done].
    rewrite (filter_cons _ p), decide_False by tauto. done. }
  destruct (bool_decide_reflect (x ∈ V)) as [HxV|HxV].
  - assert (Hxn : x <> n) by (by intros ->).
    exists (x :: filter (fun y => y <> n) new), (x :: drops). split_and!.
    + rewrite filter_app, fmap_cons, <-app_comm_cons. f_equal. f_equal.
      * clear -Hxn. induction new as [|y new IH]; [done|]. rewrite fmap_cons, !filter_cons. simpl.
        destruct (decide (y <> n)).
        -- rewrite decide_True by done. rewrite fmap_cons. by f_equal.
        -- rewrite decide_False by tauto. done.
      * rewrite filter_filter. apply filter_ext_in. intros e _. rewrite not_elem_of_cons.
        split; [|naive_solver]. intros ([H1 H2] & H3 & H4). naive_solver.
    + rewrite !filter_cons. rewrite !decide_True by done. f_equal. rewrite <-Hf, filter_filter.
      apply filter_ext_in. intros y _. tauto.
    + intros y [->|[_ Hy]%elem_of_list_filter]%elem_of_cons; [left|right; auto].
    + set_solver.
  - exists (x :: new), drops. split_and!; [done| |set_solver|done].
    rewrite !filter_cons, Hf. done.
Qed.

(** The undiscovered neighbors of [v], in neighbor order. *)
Definition fresh (g : Graph) (V : gset N) (v : N) : list N := filter (fun x => x ∉ V) (nbrs g v).
(** The undiscovered targets among the pending edges of [a]. *)
Definition row (V : gset N) (a : N) (Q : list (N * N)) : list N :=
  snd <$> filter (fun e : N * N => e.1 = a /\ e.2 ∉ V) Q.

(** What one step has to do with the steps before it. *)
Definition descends (g : Graph) (r : N) (E : list Step) (s : Step) : Prop :=
  forall v, last (discovered r E) = Some v ->
    ancestor E (sid s) v /\
    ((exists w, adj g v w /\ w ∉ discovered r E) -> sid s = v) /\
    (cut s = false -> exists l1 l2, g_neighbors g (sid s) = Ok (l1 ++ tid s :: l2) /\
       forall w, w ∈ l1 -> w ∈ discovered r E).

Record DInv (g : Graph) (r : N) (E : list Step) (V : gset N) (Q : list (N * N)) : Prop := {
  di_sorted : StronglySorted (fun e f => ancestor E f.1 e.1) Q;
  di_last : exists v l Q', last (discovered r E) = Some v /\ Q = ((fun x => (v, x)) <$> l) ++ Q' /\
    filter (fun x => x ∉ V) l = fresh g V v /\ (forall e, e ∈ Q -> ancestor E e.1 v);
  di_row : forall a, row V a Q = [] \/ row V a Q = fresh g V a;
  di_past : forall pre s post, E = pre ++ s :: post -> descends g r pre s
}.

Lemma row_nil (V : gset N) a Q : (forall e, e ∈ Q -> e.1 <> a) -> row V a Q = [].
Proof.
  intros H. unfold row. induction Q as [|e Q IH]; [done|]. rewrite filter_cons, decide_False.
  - apply IH. intros f Hf. apply H. by right.
  - intros [H1 _]. by apply (H e); [left|].
Qed.

Lemma row_app V a Q Q' : row V a (Q ++ Q') = row V a Q ++ row V a Q'.
Proof. unfold row. by rewrite filter_app, fmap_app. Qed.

Lemma row_own V a l : row V a ((fun x => (a, x)) <$> l) = filter (fun x => x ∉ V) l.
Proof.
  induction l as [|x l IH]; [done|]. unfold row in *. rewrite fmap_cons, !filter_cons. simpl.
  destruct (decide (x ∉ V)).
  - rewrite decide_True by done. rewrite fmap_cons. by f_equal.
  - rewrite decide_False by tauto. done.
Qed.

Lemma row_filter V V' a Q (P : N * N -> Prop) `{!forall e, Decision (P e)} (D : N -> Prop)
    `{!forall x, Decision (D x)} :
  (forall e, e ∈ Q -> e.1 = a -> (P e /\ e.2 ∉ V') <-> (D e.2 /\ e.2 ∉ V)) ->
  row V' a (filter P Q) = filter D (row V a Q).
Proof.
  unfold row. induction Q as [|e Q IH]; intros Hpq; [done|]. rewrite !filter_cons.
  specialize (IH ltac:(intros f Hf; apply Hpq; by right)).
  pose proof (Hpq e ltac:(left)) as He.
  destruct (decide (P e)) as [HP|HP].
  - rewrite filter_cons. destruct (decide (e.1 = a /\ e.2 ∉ V')) as [[Ha HV']|Hn].
    + destruct (He Ha) as [[HD HV] _]; [done|]. rewrite decide_True by done.
      rewrite !fmap_cons, filter_cons, decide_True by done. by f_equal.
    + destruct (decide (e.1 = a /\ e.2 ∉ V)) as [[Ha HV]|Hn'].
      * rewrite fmap_cons, filter_cons, decide_False; [done|]. intros HD. apply Hn.
        split; [done|]. by apply He.
      * done.
  - destruct (decide (e.1 = a /\ e.2 ∉ V)) as [[Ha HV]|Hn']; [|done].
    rewrite fmap_cons, filter_cons, decide_False; [done|]. intros HD. apply HP. by apply He.
Qed.

Section descent.
  Context (g : Graph) (Hg : Lawful g) (r : N).

  Lemma dinv_new : r ∈ g_nodes g -> DInv g r [] {[r]} ((fun x => (r, x)) <$> nbrs g r).
  Proof.
    intros Hr. split.
    - generalize (nbrs g r). intros l. induction l as [|x l IH]; [constructor|].
      rewrite fmap_cons. constructor; [done|]. apply Forall_forall.
      intros e (y & -> & _)%elem_of_list_fmap. constructor.
    - exists r, (nbrs g r), []. split_and!; [done|by rewrite app_nil_r|done|].
      intros e (y & -> & _)%elem_of_list_fmap. constructor.
    - intros a. destruct (decide (a = r)) as [->|Ha].
      + right. by rewrite row_own.
      + left. apply row_nil. intros e (y & -> & _)%elem_of_list_fmap. by simpl.
    - intros pre s post H. by destruct pre.
  Qed.

  (** The step about to be made obeys the law. *)
  Lemma dinv_law E V p n rest c : TInv g r E V ((p, n) :: rest) -> DInv g r E V ((p, n) :: rest) ->
    (c = false -> n ∉ V) -> descends g r E (mkStep p n c).
  Proof.
    intros HT [Hs (v & l & Q' & Hv & HQ & Hl & Ha) Hrow _] Hc v' Hv'. cbn [sid tid cut].
    rewrite Hv in Hv'. injection Hv' as <-. split_and!.
    - apply (Ha (p, n)). left.
    - intros (w & Hw & Hwn). destruct l as [|y l].
      + exfalso. assert (Hin : w ∈ fresh g V v).
        { apply elem_of_list_filter. split; [by rewrite (ti_disc _ _ _ _ _ HT)|by apply adj_nbrs]. }
        rewrite <-Hl in Hin. by apply elem_of_nil in Hin.
      + rewrite fmap_cons in HQ. simpl in HQ. congruence.
    - intros ->. specialize (Hc eq_refl).
      destruct (ti_pend _ _ _ _ _ HT p n) as [Hpn HpV]; [left|].
      destruct (Hrow p) as [Hr|Hr]; unfold row in Hr;
        rewrite filter_cons, decide_True, fmap_cons in Hr by done; simpl in Hr; [done|].
      assert (Hp : p ∈ g_nodes g) by (by eapply lawful_adj_l).
      rewrite (lawful_nbrs g Hg p Hp).
      assert (Hgen : forall L k, n :: k = filter (fun x => x ∉ V) L ->
        exists l1 l2, L = l1 ++ n :: l2 /\ forall w, w ∈ l1 -> w ∈ V).
      { clear. induction L as [|x L IH]; intros k Hk; [done|]. rewrite filter_cons in Hk.
        destruct (decide (x ∉ V)) as [Hx|Hx].
        - injection Hk as <- _. exists [], L. split; [done|]. intros w Hw. by apply elem_of_nil in Hw.
        - destruct (IH k Hk) as (l1 & l2 & -> & H). exists (x :: l1), l2. split; [done|].
          intros w [->|Hw]%elem_of_cons; [|auto]. destruct (decide (x ∈ V)); [done|tauto]. }
      destruct (Hgen _ _ Hr) as (l1 & l2 & -> & H). exists l1, l2. split; [done|].
      intros w Hw. apply (ti_disc _ _ _ _ _ HT). auto.
  Qed.

  Lemma past_snoc E s :
    (forall pre x post, E = pre ++ x :: post -> descends g r pre x) -> descends g r E s ->
    forall pre x post, E ++ [s] = pre ++ x :: post -> descends g r pre x.
  Proof.
    intros H Hs pre x post Heq. destruct post as [|y post] using rev_ind.
    - apply app_inj_tail in Heq as [-> ->]. done.
    - clear IHpost. rewrite app_comm_cons, app_assoc in Heq. apply app_inj_tail in Heq as [-> _]. by eapply H.
  Qed.

  Lemma dinv_cut E V p n rest : TInv g r E V ((p, n) :: rest) -> DInv g r E V ((p, n) :: rest) ->
    n ∈ V -> DInv g r (E ++ [mkStep p n true]) V rest.
  Proof.
    intros HT HD Hn. pose proof (dinv_law E V p n rest true HT HD ltac:(done)) as Hlaw.
    destruct HD as [Hs (v & l & Q' & Hv & HQ & Hl & Ha) Hrow Hpast].
    assert (Hmono : forall a b, ancestor E a b -> ancestor (E ++ [mkStep p n true]) a b).
    { intros a b. apply ancestor_mono. set_solver. }
    split.
    - apply StronglySorted_inv in Hs as [Hs _]. eapply StronglySorted_impl; [|exact Hs]. simpl. auto.
    - destruct l as [|y l].
      + exists v, [], rest. split_and!; [by rewrite discovered_snoc, app_nil_r|done|done|].
        intros e He. apply Hmono, Ha. by right.
      + rewrite fmap_cons in HQ. simpl in HQ. injection HQ as -> -> HQ.
        exists v, l, Q'. split_and!; [by rewrite discovered_snoc, app_nil_r|done| |].
        * rewrite <-Hl. rewrite filter_cons, decide_False by tauto. done.
        * intros e He. apply Hmono, Ha. by right.
    - intros a. specialize (Hrow a). unfold row in *. rewrite filter_cons, decide_False in Hrow; [done|].
      simpl. tauto.
    - by apply past_snoc.
  Qed.

  Lemma dinv_visit E V p n rest : TInv g r E V ((p, n) :: rest) -> DInv g r E V ((p, n) :: rest) ->
    n ∉ V ->
    DInv g r (E ++ [mkStep p n false]) ({[n]} ∪ V)
      (foldl (dfs_push V p n) rest (reverse (nbrs g n))).
  Proof.
    intros HT HD Hn. pose proof (dinv_law E V p n rest false HT HD ltac:(done)) as Hlaw.
    destruct HD as [Hs (v & l & Q' & Hv & HQ & Hl & Ha) Hrow Hpast].
    destruct (ti_pend _ _ _ _ _ HT p n) as [Hpn HpV]; [left|].
    set (E' := E ++ [mkStep p n false]) in *.
    assert (Hmono : forall a b, ancestor E a b -> ancestor E' a b).
    { intros a b. apply ancestor_mono. unfold E'. set_solver. }
    assert (Hup : forall a, ancestor E a p -> ancestor E' a n).
    { intros a H. eapply rtc_r; [by apply Hmono|]. unfold E'. set_solver. }
    apply StronglySorted_inv in Hs as [Hs Hf]. rewrite Forall_forall in Hf.
    destruct (dfs_push_shape V p n (nbrs g n) rest Hn) as (new & drops & -> & Hnew & Hsub & Hdr).
    assert (Hfresh : filter (fun x => x ∉ ({[n]} ∪ V)) new = fresh g ({[n]} ∪ V) n).
    { unfold fresh.
      assert (Hboth : forall L : list N, filter (fun x => x ∉ ({[n]} ∪ V)) L =
        filter (fun x => x ∉ ({[n]} ∪ V)) (filter (fun x => x <> p /\ x <> n) L)).
      { intros L. rewrite filter_filter. apply filter_ext_in. intros x _.
        rewrite not_elem_of_union, not_elem_of_singleton. split; [|tauto].
        intros [H1 H2]. split_and!; [done..| |done]. by intros ->. }
      rewrite (Hboth new), Hnew, <-Hboth. done. }
    split.
    - assert (Hrest : forall P `{!forall e : N * N, Decision (P e)},
        StronglySorted (fun e f : N * N => ancestor E' f.1 e.1) (filter P rest)).
      { intros P HP. apply StronglySorted_filter. eapply StronglySorted_impl; [|exact Hs]. simpl. auto. }
      clear Hnew Hsub Hfresh. induction new as [|x new IH]; [apply Hrest|].
      rewrite fmap_cons, <-app_comm_cons. constructor; [done|]. apply Forall_forall.
      intros e [(y & -> & _)%elem_of_list_fmap|[_ He]%elem_of_list_filter]%elem_of_app; [constructor|].
      simpl. apply Hup. by apply (Hf e).
    - eexists n, new, _. split_and!; [|done|done|].
      + unfold E'. rewrite discovered_snoc. cbn [cut tid]. by rewrite last_snoc.
      + intros e [(y & -> & _)%elem_of_list_fmap|[_ He]%elem_of_list_filter]%elem_of_app; [constructor|].
        apply Hup. by apply (Hf e).
    - intros a. rewrite row_app. destruct (decide (a = n)) as [->|Han].
      { right. rewrite row_own, Hfresh, (row_nil _ n (filter _ rest)), app_nil_r; [done|].
        intros [b c] [_ Hbc]%elem_of_list_filter. simpl. intros ->. apply Hn.
        apply (ti_pend _ _ _ _ _ HT n c). by right. }
      rewrite (row_nil _ a ((fun x => (n, x)) <$> new)).
      2: { intros e (y & -> & _)%elem_of_list_fmap. simpl. by intros ->. }
      simpl. destruct (decide (a ∈ drops)) as [Had|Had].
      { left. apply row_nil. intros e [[He _] _]%elem_of_list_filter Heq. by rewrite Heq in He. }
      rewrite (row_filter V _ a rest _ (fun x => x <> n)).
      2: { intros e _ He. rewrite not_elem_of_union, not_elem_of_singleton, He. tauto. }
      assert (Hfr : fresh g ({[n]} ∪ V) a = filter (fun x => x <> n) (fresh g V a)).
      { unfold fresh. rewrite filter_filter. apply filter_ext_in. intros x _.
        rewrite not_elem_of_union, not_elem_of_singleton. tauto. }
      assert (Hhead : filter (fun x => x <> n) (row V a rest) =
                      filter (fun x => x <> n) (row V a ((p, n) :: rest))).
      { unfold row. rewrite (filter_cons _ (p, n)). destruct (decide _) as [Hd|Hd]; [|done].
        rewrite fmap_cons, (filter_cons _ (snd (p, n))), decide_False by (simpl; tauto). done. }
      rewrite Hhead. destruct (Hrow a) as [->| ->]; [by left|right; done].
    - by apply past_snoc.
  Qed.

  Lemma descent_run : r ∈ g_nodes g ->
    exists steps V, depth_first g r steps /\ TInv g r steps V [] /\ DInv g r steps V [].
  Proof.
    intros Hr. apply dfs_run; [done|done|by apply dinv_new|].
    intros E t s t' HT HD (p & n & rest & HQ & [(Hn & -> & ->)|(Hn & -> & ->)])%dfs_next_inv _;
      cbn [df_nodes df_stack]; rewrite HQ in *; [by eapply dinv_cut|by apply dinv_visit].
  Qed.

  Lemma dfs_descent steps : depth_first g r steps ->
    (forall pre s post, steps = pre ++ s :: post -> descends g r pre s) /\
    (forall v w, last (discovered r steps) = Some v -> adj g v w -> w ∈ discovered r steps).
  Proof.
    intros Hb. pose proof (dfs_root g r steps Hg Hb) as Hr.
    destruct (descent_run Hr) as (steps' & V & Hb' & HT & [_ (v & l & Q' & Hv & HQ & Hl & _) _ Hpast]).
    rewrite (depth_first_fun g r steps steps' Hb Hb'). split; [done|].
    intros v' w Hv' Hw. rewrite Hv in Hv'. injection Hv' as <-.
    destruct l as [|y l]; [|done]. apply (ti_disc _ _ _ _ _ HT).
    destruct (decide (w ∈ V)) as [|HwV]; [done|exfalso].
    assert (Hin : w ∈ fresh g V v) by (apply elem_of_list_filter; split; [done|by apply adj_nbrs]).
    rewrite <-Hl in Hin. by apply elem_of_nil in Hin.
  Qed.

  (** Components that are cliques: no node is missed. *)
  Lemma trans_reach : adjacency_transitive g -> forall u v, reachable g u v -> u = v \/ adj g u v.
  Proof.
    intros Ht u v H. induction H as [|x y z Hxy _ IH]; [by left|].
    destruct (decide (x = z)) as [|Hxz]; [by left|right].
    destruct IH as [<-|Hyz]; [done|]. by eapply Ht.
  Qed.

  Lemma clique_dfs steps : adjacency_transitive g -> depth_first g r steps ->
    forall v, reachable g r v <-> v ∈ discovered r steps.
  Proof.
    intros Ht Hb. pose proof (dfs_root g r steps Hg Hb) as Hr.
    destruct (dfs_descent steps Hb) as [_ Hlast].
    destruct (descent_run Hr) as (steps' & V & Hb' & HT & _).
    rewrite <-(depth_first_fun g r steps steps' Hb Hb') in HT.
    assert (Hdr : forall v, v ∈ discovered r steps -> reachable g r v).
    { intros v Hv. apply (ti_reach _ _ _ _ _ HT). by apply (ti_disc _ _ _ _ _ HT). }
    intros v. split; [|apply Hdr]. intros Hv.
    destruct (last (discovered r steps)) as [z|] eqn:Hz.
    2: { apply last_None in Hz. done. }
    assert (Hzd : z ∈ discovered r steps).
    { rewrite last_lookup in Hz. by eapply elem_of_list_lookup_2. }
    assert (Hzv : reachable g z v).
    { eapply reach_trans; [|exact Hv]. apply reachable_sym; [done|]. by apply Hdr. }
    apply trans_reach in Hzv as [<-|Hzv]; [done|..|done]. by eapply Hlast.
  Qed.
End descent.

(** ** components, on any loop-free graph *)

Lemma comps_roots g V pre iter ds : comps g V iter ds -> g_nodes g = pre ++ iter ->
  (forall v, v ∈ pre -> v ∈ V) ->
  forall i d, ds !! i = Some d ->
  exists p r q, g_nodes g = p ++ r :: q /\ yields g r d /\
    (forall v, v ∈ p -> v ∈ V \/ exists j d', j < i /\ ds !! j = Some d' /\ v ∈ dg_nodes d') /\
    r ∉ V /\ (forall j d', j < i -> ds !! j = Some d' -> r ∉ dg_nodes d').
Proof.
  intros Hc. revert pre.
  induction Hc as [V|V r iter ds Hr _ IH|V V' r iter d ds Hr Hy HV' _ IH]; intros pre Hpre HpV i d0 Hi.
  - done.
  - apply (IH (pre ++ [r])); [by rewrite <-app_assoc| |done].
    intros v [Hv| ->%elem_of_list_singleton]%elem_of_app; auto.
  - destruct i as [|i]; simpl in Hi.
    + injection Hi as <-. exists pre, r, iter. split_and!; [done|done|by left; auto|done|lia].
    + destruct (IH (pre ++ [r])) with (i := i) (d := d0) as (p & r' & q & H1 & H2 & H3 & H4 & H5); [| |done|].
      { by rewrite <-app_assoc. }
      { intros v [Hv| ->%elem_of_list_singleton]%elem_of_app; apply HV'; [by right; auto|].
        left. by eapply yields_root. }
      exists p, r', q. rewrite HV' in H4. split_and!; [done|done| |tauto|].
      * intros v Hv. destruct (H3 v Hv) as [HvV|(j & d' & Hj & Hd' & Hin)].
        -- apply HV' in HvV as [Hd|HvV]; [|by left]. right. exists 0, d. split_and!; [lia|done|done].
        -- right. exists (S j), d'. split_and!; [lia|done|done].
      * intros [|j] d' Hj Hd'; simpl in Hd'; [injection Hd' as <-; tauto|]. apply (H5 j); [lia|done].
Qed.

Lemma components_roots g ds : Lawful g -> LoopFree g -> components_are g ds ->
  (forall i d, ds !! i = Some d ->
    exists p r q steps, g_nodes g = p ++ r :: q /\
      (forall v, v ∈ p -> exists j d', j < i /\ ds !! j = Some d' /\ v ∈ g_nodes (as_graph d')) /\
      (forall j d', j < i -> ds !! j = Some d' -> r ∉ g_nodes (as_graph d')) /\
      depth_first g r steps /\
      observes d (mkA (discovered r steps) (crossed steps))).
Proof.
  intros Hg Hl Hc i d Hi.
  destruct (components_run g Hg Hl) as (ds' & Hc' & Hcs).
  rewrite <-(components_are_fun g ds ds' Hc Hc') in Hcs. clear Hc'.
  destruct (comps_roots g ∅ [] (g_nodes g) ds Hcs eq_refl ltac:(set_solver) i d Hi)
    as (p & r & q & H1 & (steps & Hwf & H2 & H3 & H4 & _ & Hrow) & H5 & _ & H6).
  exists p, r, q, steps. split_and!; try done; [|by apply rep_observes].
  intros v Hv. destruct (H5 v Hv) as [?|?]; [set_solver|done].
Qed.

(** When no traversal misses a node of the component of its root. *)
Lemma components_whole g ds : Lawful g -> LoopFree g ->
  (forall r steps v, depth_first g r steps -> reachable g r v -> v ∈ discovered r steps) ->
  components_are g ds ->
  (ds ≫= (fun d => g_nodes (as_graph d))) ≡ₚ g_nodes g /\
  (forall d u v, d ∈ ds -> u ∈ g_nodes (as_graph d) ->
     (v ∈ g_nodes (as_graph d) <-> reachable g u v)).
Proof.
  intros Hg Hl Hwhole Hc. pose proof (components_roots g ds Hg Hl Hc) as Hroots.
  destruct (components_general g Hg Hl) as (ds2 & Hc2 & Hsub & Hcov).
  rewrite <-(components_are_fun g ds ds2 Hc Hc2) in Hsub, Hcov. clear ds2 Hc2.
  assert (Hcomp : forall d u v, d ∈ ds -> u ∈ g_nodes (as_graph d) ->
    (v ∈ g_nodes (as_graph d) <-> reachable g u v)).
  { intros d u v [i Hi]%elem_of_list_lookup Hu.
    destruct (Hroots i d Hi) as (p & r & q & steps & _ & _ & _ & Hd & (Hn & _)).
    rewrite Hn in *. destruct (dfs_sound g r steps Hg Hd) as (H1 & _ & _).
    assert (Hreach : forall x, x ∈ discovered r steps -> reachable g r x).
    { intros x Hx. unfold discovered in Hx. apply elem_of_cons in Hx as [->|Hx]; [constructor|].
      apply elem_of_list_fmap in Hx as (s & -> & [_ Hs]%elem_of_list_filter). by apply (H1 s Hs). }
    split.
    - intros Hv. eapply reach_trans; [apply reachable_sym; [done|by apply Hreach]|by apply Hreach].
    - intros Huv. eapply Hwhole; [done|]. eapply reach_trans; [by apply Hreach|done]. }
  split; [|done].
  apply NoDup_Permutation; [|apply (law_nodes g Hg)|].
  - assert (Hnd : forall i d, ds !! i = Some d -> NoDup (g_nodes (as_graph d))).
    { intros i d Hi. destruct (Hroots i d Hi) as (p & r & q & steps & _ & _ & _ & Hd & (-> & _)).
      apply (dfs_sound g r steps Hg Hd). }
    assert (Hdis : forall i j d d' v, i < j -> ds !! i = Some d -> ds !! j = Some d' ->
      v ∈ g_nodes (as_graph d) -> v ∉ g_nodes (as_graph d')).
    { intros i j d d' v Hij Hi Hj Hv Hv'.
      destruct (Hroots j d' Hj) as (p & r & q & steps & _ & _ & Hr & Hd & (Hn & _)).
      apply (Hr i d Hij Hi). apply (Hcomp d v r); [by eapply elem_of_list_lookup_2|done|].
      apply (Hcomp d' v r); [by eapply elem_of_list_lookup_2|done|]. rewrite Hn. left. }
    clear -Hnd Hdis. induction ds as [|d ds IH]; [constructor|]. cbn. apply NoDup_app. split_and!.
    + by apply (Hnd 0).
    + intros v Hv (d' & Hv' & [j Hj]%elem_of_list_lookup)%elem_of_list_bind.
      by apply (Hdis 0 (S j) d d' v); [lia|..].
    + apply IH.
      * intros i d' Hi. by apply (Hnd (S i)).
      * intros i j d1 d2 v Hij Hi Hj. apply (Hdis (S i) (S j)); [lia|done..].
  - intros v. rewrite elem_of_list_bind. split.
    + intros (d & Hv & Hd). destruct (Hsub d Hd) as (_ & Hn & _). by apply Hn.
    + intros Hv. destruct (Hcov v Hv) as (d & Hd & Hvd). by exists d.
Qed.

(** The traversals follow their rules. *)
From Verif Require Import Outcome GraphModel TraversalModel ComponentsModel PairingModel Spec SpecSearch
  GraphProofs EditProofs ConvertProofs EqProofs TraversalProofs BfsProofs DfsProofs PathLemmas
  AcyclicProofs CycleProofs NarrowProofs ComponentsProofs DescentProofs.

(** ** Order in a list *)
Lemma before_app_l l k x y : before l x y -> before (l ++ k) x y.
Proof. intros (l1 & l2 & -> & Hy). exists l1, (l2 ++ k). rewrite <-app_assoc. split; [done|set_solver]. Qed.
Lemma before_snoc l x y : x ∈ l -> before (l ++ [y]) x y.
Proof.
  intros (l1 & l2 & ->)%elem_of_list_split. exists l1, (l2 ++ [y]). rewrite <-app_assoc.
  split; [done|set_solver].
Qed.
Lemma before_cons l x y : y ∈ l -> before (x :: l) x y.
Proof. intros Hy. by exists [], l. Qed.
Lemma before_skip l x y z : before l x y -> before (z :: l) x y.
Proof. intros (l1 & l2 & -> & Hy). by exists (z :: l1), l2. Qed.
Lemma before_in_l l x y : before l x y -> x ∈ l.
Proof. intros (l1 & l2 & -> & _). set_solver. Qed.
Lemma before_in_r l x y : before l x y -> y ∈ l.
Proof. intros (l1 & l2 & -> & Hy). set_solver. Qed.
Lemma before_cons_inv l x y z : before (z :: l) x y -> (x = z /\ y ∈ l) \/ before l x y.
Proof.
  intros ([|w l1] & l2 & Heq & Hy); simplify_eq/=; [by left|right]. by exists l1, l2.
Qed.
Lemma before_nil x y : ~ before [] x y.
Proof. by intros ([|] & ? & ? & ?). Qed.
Lemma before_filter (P : N -> Prop) `{!forall x, Decision (P x)} l x y :
  before (filter P l) x y -> before l x y.
Proof.
  induction l as [|z l IH]; [done|]. rewrite filter_cons. case_decide as Hz.
  - intros [[-> [_ Hy]%elem_of_list_filter]|Hb]%before_cons_inv; [by apply before_cons|by apply before_skip, IH].
  - intros Hb. by apply before_skip, IH.
Qed.
Lemma filter_before (P : N -> Prop) `{!forall x, Decision (P x)} l x y :
  before l x y -> P x -> P y -> before (filter P l) x y.
Proof.
  intros (l1 & l2 & -> & Hy) Hx HPy. exists (filter P l1), (filter P l2).
  rewrite filter_app, filter_cons, decide_True by done. split; [done|]. by apply elem_of_list_filter.
Qed.
Lemma before_total l x y : x ∈ l -> y ∈ l -> x = y \/ before l x y \/ before l y x.
Proof.
  induction l as [|z l IH]; [by intros ?%elem_of_nil|]. intros [->|Hx]%elem_of_cons [->|Hy]%elem_of_cons.
  - by left.
  - right; left. by apply before_cons.
  - right; right. by apply before_cons.
  - destruct (IH Hx Hy) as [?|[?|?]]; [by left|right; left; by apply before_skip|right; right; by apply before_skip].
Qed.
Lemma before_asym l x y : NoDup l -> before l x y -> before l y x -> False.
Proof.
  induction l as [|z l IH]; intros Hnd; [by intros ?%before_nil|]. apply NoDup_cons in Hnd as [Hz Hnd].
  intros [[-> Hy]|H1]%before_cons_inv [[-> Hx]|H2]%before_cons_inv; try done.
  - by apply before_in_r in H2.
  - by apply before_in_r in H1.
  - by apply IH.
Qed.

(** ** Steps *)
Lemma crossed_snoc E s : crossed (E ++ [s]) = crossed E ++ [(sid s, tid s)].
Proof. unfold crossed. by rewrite fmap_app. Qed.

Lemma bypassed_snoc g r E s a : bypassed g r (E ++ [s]) a <->
  bypassed g r E a \/ (cut s = false /\ a ∈ discovered r E /\ adj g (tid s) a /\ sid s <> a).
Proof.
  split.
  - intros (pre & x & post & Heq & H). destruct post as [|y post _] using rev_ind.
    + apply app_inj_tail in Heq as [-> ->]. by right.
    + rewrite app_comm_cons, app_assoc in Heq. apply app_inj_tail in Heq as [-> _]. left. by exists pre, x, post.
  - intros [(pre & x & post & -> & H)|H].
    + exists pre, x, (post ++ [s]). by rewrite <-app_assoc.
    + by exists E, s, [].
Qed.
Lemma bypassed_nil g r a : ~ bypassed g r [] a.
Proof. by intros ([|] & ? & ? & ? & ?). Qed.
Lemma bypassed_disc g r E a : bypassed g r E a -> a ∈ discovered r E.
Proof. intros (pre & s & post & -> & _ & H & _). by apply discovered_prefix. Qed.

Lemma bypassed_dec g r E a : bypassed g r E a \/ ~ bypassed g r E a.
Proof.
  induction E as [|s E IH] using rev_ind; [right; apply bypassed_nil|]. rewrite bypassed_snoc.
  destruct IH as [IH|IH]; [by left; left|].
  destruct (decide (cut s = false /\ a ∈ discovered r E /\ a ∈ nbrs g (tid s) /\ sid s <> a)) as [H|H];
    rewrite <-adj_nbrs in H; tauto.
Qed.

(** The pending edges that are no self-loops, in order. *)
Definition proper (e : N * N) : Prop := e.1 <> e.2.
Global Instance proper_dec e : Decision (proper e).
Proof. unfold proper. apply _. Defined.

(** The node list of [e] before [f]: younger source, or same source and earlier. *)
Definition ranked (g : Graph) (D : list N) (e f : N * N) : Prop :=
  before D f.1 e.1 \/ (f.1 = e.1 /\ before (nbrs g e.1) e.2 f.2).

Lemma ranked_app g D k e f : ranked g D e f -> ranked g (D ++ k) e f.
Proof. intros [H|H]; [left; by apply before_app_l|by right]. Qed.

Lemma ranked_row g D n (l : list N) (P : N -> Prop) `{!forall x, Decision (P x)} :
  (exists k, nbrs g n = k ++ l) ->
  StronglySorted (ranked g D) ((fun x => (n, x)) <$> filter P l).
Proof.
  induction l as [|x l IH]; intros [k Hk]; [constructor|]. rewrite filter_cons.
  assert (Hl : exists k, nbrs g n = k ++ l) by (exists (k ++ [x]); by rewrite <-app_assoc).
  case_decide; [|by apply IH]. rewrite fmap_cons. constructor; [by apply IH|].
  apply Forall_forall. intros e (y & -> & [_ Hy]%elem_of_list_filter)%elem_of_list_fmap.
  right. simpl. split; [done|]. by exists k, l.
Qed.

Record SInv (g : Graph) (r : N) (E : list Step) (Q : list (N * N)) : Prop := {
  si_mem : forall x y, (x, y) ∈ Q /\ x <> y <-> depth_free g r E x y;
  si_sorted : StronglySorted (ranked g (discovered r E)) (filter proper Q);
  si_past : forall pre s post, E = pre ++ s :: post ->
     (sid s <> tid s -> youngest g (discovered r pre) (depth_free g r pre) (sid s) (tid s)) /\
     (cut s = true <-> tid s ∈ discovered r pre)
}.

(** Visiting [n], self-loops apart. *)
Lemma dfs_push_proper V p n l rest : n ∉ V ->
  filter proper (foldl (dfs_push V p n) rest (reverse l)) =
    ((fun x => (n, x)) <$> filter (fun x => x <> p /\ x <> n) l) ++
    filter (fun e : N * N => e.1 ∉ filter (fun x => x <> p /\ x ∈ V) l /\
      (filter (fun x => x <> p /\ x ∈ V) l <> [] -> e.2 <> n)) (filter proper rest).
Proof.
  intros HnV. induction l as [|x l IH].
  { simpl. symmetry. apply filter_all. intros e _. split; [set_solver|done]. }
  rewrite reverse_cons, foldl_app. cbn [foldl]. unfold dfs_push at 1.
  set (Q := foldl (dfs_push V p n) rest (reverse l)) in *.
  destruct (bool_decide_reflect (x = p)) as [->|Hxp].
  { rewrite (filter_cons (fun x => x <> p /\ x <> n)), (filter_cons (fun x => x <> p /\ x ∈ V)),
      !decide_False by tauto. done. }
  destruct (bool_decide_reflect (x ∈ V)) as [HxV|HxV].
  - assert (Hxn : x <> n) by (by intros ->).
    rewrite (filter_cons (fun x => x <> p /\ x <> n)), (filter_cons (fun x => x <> p /\ x ∈ V)),
      !decide_True by done.
    rewrite filter_cons, decide_True by (unfold proper; simpl; congruence).
    rewrite fmap_cons, <-app_comm_cons. f_equal.
    assert (Hcomm : filter proper (filter (fun edge : N * N => edge.1 <> x /\ edge.2 <> n) Q) =
                    filter (fun edge : N * N => edge.1 <> x /\ edge.2 <> n) (filter proper Q)).
    { rewrite !filter_filter. apply filter_ext_in. intros e _. tauto. }
    rewrite Hcomm, IH, filter_app. f_equal.
    + apply filter_all. intros e (y & -> & [Hy _]%elem_of_list_filter)%elem_of_list_fmap. simpl.
      split; [congruence|tauto].
    + rewrite filter_filter. apply filter_ext_in. intros e _. rewrite not_elem_of_cons.
      split; [|naive_solver]. intros ([H1 H2] & H3 & H4). naive_solver.
  - rewrite (filter_cons (fun x => x <> p /\ x ∈ V)), (decide_False (P := x <> p /\ x ∈ V)) by tauto.
    rewrite filter_cons, (filter_cons (fun x => x <> p /\ x <> n)).
    destruct (decide (x = n)) as [->|Hxn].
    + rewrite !decide_False; [done|tauto|]. unfold proper. simpl. tauto.
    + rewrite !decide_True; [|done|unfold proper; simpl; congruence].
      rewrite fmap_cons, <-app_comm_cons. by f_equal.
Qed.

Lemma past_snoc_all (P : list Step -> Step -> Prop) E s :
  (forall pre x post, E = pre ++ x :: post -> P pre x) -> P E s ->
  forall pre x post, E ++ [s] = pre ++ x :: post -> P pre x.
Proof.
  intros H Hs pre x post Heq. destruct post as [|y post _] using rev_ind.
  - apply app_inj_tail in Heq as [-> ->]. done.
  - rewrite app_comm_cons, app_assoc in Heq. apply app_inj_tail in Heq as [-> _]. by eapply H.
Qed.

Section search.
  Context (g : Graph) (Hg : Lawful g) (r : N).

  Lemma sinv_new : r ∈ g_nodes g -> SInv g r [] ((fun x => (r, x)) <$> nbrs g r).
  Proof.
    intros Hr. split.
    - intros x y. split.
      + intros [(z & [= -> ->] & Hz)%elem_of_list_fmap Hne]. split; [|apply bypassed_nil].
        split_and!; [set_solver|by apply adj_nbrs|done|..]; by intros ?%elem_of_nil.
      + intros [(Hx & Ha & Hne & _) _]. unfold discovered in Hx. apply elem_of_list_singleton in Hx as ->.
        split; [|done]. apply elem_of_list_fmap. exists y. split; [done|by apply adj_nbrs].
    - assert (Heq : filter proper ((fun x => (r, x)) <$> nbrs g r) =
        (fun x => (r, x)) <$> filter (fun x => x <> r) (nbrs g r)).
      { generalize (nbrs g r) as l. intros l. induction l as [|x l IH]; [done|].
        rewrite fmap_cons, !filter_cons. unfold proper at 1. simpl. destruct (decide (x = r)) as [->|Hx].
        - rewrite !decide_False by (unfold proper; simpl; tauto). done.
        - rewrite !decide_True by (unfold proper; simpl; congruence). rewrite fmap_cons. by f_equal. }
      rewrite Heq. apply ranked_row. by exists [].
    - intros [|] ? ? ?; done.
  Qed.

  (** The next step obeys the rule. *)
  Lemma sinv_rule E p n rest : SInv g r E ((p, n) :: rest) -> p <> n -> NoDup (discovered r E) ->
    youngest g (discovered r E) (depth_free g r E) p n.
  Proof.
    intros [Hm Hs _] Hne Hnd. split; [apply Hm; split; [left|done]|].
    rewrite filter_cons, decide_True in Hs by done. apply StronglySorted_inv in Hs as [_ Hf].
    rewrite Forall_forall in Hf.
    assert (Hin : forall a b, depth_free g r E a b -> (a, b) = (p, n) \/ ranked g (discovered r E) (p, n) (a, b)).
    { intros a b [[Heq|Hab]%elem_of_cons Hab']%Hm; [by left|right]. apply Hf.
      apply elem_of_list_filter. by split. }
    split.
    - intros a b [[= -> ->]|[H|[H _]]]%Hin; [by left|by right|by left].
    - intros b l Hb%Hin Hl. destruct Hb as [[= ->]|[H|[_ H]]]; [by left|simpl in H..].
      + by destruct (before_asym _ _ _ Hnd H H).
      + right. unfold nbrs in H. by rewrite Hl in H.
  Qed.

  Lemma sinv_cut E V p n rest : TInv g r E V ((p, n) :: rest) -> SInv g r E ((p, n) :: rest) ->
    n ∈ V -> SInv g r (E ++ [mkStep p n true]) rest.
  Proof.
    intros HT HS Hn. destruct (ti_pend _ _ _ _ _ HT p n) as [Hpn HpV]; [left|].
    pose proof (fun H => sinv_rule E p n rest HS H (ti_nodup _ _ _ _ _ HT)) as Hlaw.
    destruct HS as [Hm Hs Hpast].
    assert (Hd : discovered r (E ++ [mkStep p n true]) = discovered r E)
      by (rewrite discovered_snoc; apply app_nil_r).
    assert (Hby : forall a, bypassed g r (E ++ [mkStep p n true]) a <-> bypassed g r E a).
    { intros a. rewrite bypassed_snoc. cbn [cut]. naive_solver. }
    split.
    - intros x y. split.
      + intros [Hxy Hne].
        destruct (proj1 (Hm x y)) as [(H1 & H2 & _ & H3 & H4) H5]; [split; [by right|done]|].
        split; [|by rewrite Hby]. unfold uncrossed_edge. rewrite Hd, crossed_snoc. cbn [sid tid].
        assert (Hsame : ~ same_edge (x, y) (p, n)).
        { intros Hsame. pose proof (ti_once _ _ _ _ _ HT x y Hne) as Ho.
          rewrite times_crossed_app in Ho. change ((p, n) :: rest) with ([(p, n)] ++ rest) in Ho.
          rewrite times_crossed_app in Ho.
          assert (0 < times_crossed (x, y) [(p, n)]) by (apply times_crossed_pos; exists (p, n); split; [left|done]).
          assert (0 < times_crossed (x, y) rest) by (apply times_crossed_pos; exists (x, y); split; [done|by left]).
          lia. }
        split_and!; try done.
        * intros [H|H%elem_of_list_singleton]%elem_of_app; [done|]. apply Hsame. by left.
        * intros [H|H%elem_of_list_singleton]%elem_of_app; [done|]. apply Hsame. right. by simplify_eq.
      + intros [(H1 & H2 & H3 & H4 & H5) H6]. rewrite Hd in H1. rewrite Hby in H6.
        rewrite crossed_snoc in H4, H5. cbn [sid tid] in H4, H5.
        apply not_elem_of_app in H4 as [H4 H4'], H5 as [H5 H5'].
        rewrite elem_of_list_singleton in H4', H5'.
        assert (Hf : depth_free g r E x y) by (split; [by split_and!|done]).
        apply Hm in Hf as [[Heq|Hin]%elem_of_cons _]; done.
    - rewrite Hd. rewrite filter_cons in Hs. case_decide; [by apply StronglySorted_inv in Hs as [? _]|done].
    - refine (past_snoc_all _ E _ Hpast _). cbn [sid tid cut]. split; [done|].
      rewrite <-(ti_disc _ _ _ _ _ HT). done.
  Qed.

  Lemma sinv_visit E V p n rest : TInv g r E V ((p, n) :: rest) -> SInv g r E ((p, n) :: rest) ->
    n ∉ V -> SInv g r (E ++ [mkStep p n false]) (foldl (dfs_push V p n) rest (reverse (nbrs g n))).
  Proof.
    intros HT HS Hn. destruct (ti_pend _ _ _ _ _ HT p n) as [Hpn HpV]; [left|].
    assert (Hne : p <> n) by (by intros ->).
    pose proof (sinv_rule E p n rest HS Hne (ti_nodup _ _ _ _ _ HT)) as Hlaw.
    destruct HS as [Hm Hs Hpast].
    assert (Hd : discovered r (E ++ [mkStep p n false]) = discovered r E ++ [n])
      by (by rewrite discovered_snoc).
    assert (Hnd : n ∉ discovered r E) by (by rewrite <-(ti_disc _ _ _ _ _ HT)).
    assert (HVd : forall x, x ∈ V <-> x ∈ discovered r E) by apply (ti_disc _ _ _ _ _ HT).
    pose proof (dfs_push_proper V p n (nbrs g n) rest Hn) as Hpush.
    set (D := filter (fun x => x <> p /\ x ∈ V) (nbrs g n)) in *.
    assert (HD : forall x, x ∈ D <-> x <> p /\ x ∈ V /\ adj g n x).
    { intros x. unfold D. rewrite elem_of_list_filter, adj_nbrs. tauto. }
    assert (Hcr : forall u v, (u, v) ∈ crossed E -> u ∈ V /\ v ∈ V).
    { intros u v (s & [= -> ->] & Hin)%elem_of_list_fmap. by apply (ti_emit _ _ _ _ _ HT). }
    split.
    - intros x y.
      assert (Hmem : forall Q : list (N * N), (x, y) ∈ Q /\ x <> y <-> (x, y) ∈ filter proper Q).
      { intros Q. rewrite elem_of_list_filter. unfold proper. simpl. tauto. }
      rewrite Hmem, Hpush. unfold depth_free, uncrossed_edge. rewrite Hd, crossed_snoc, bypassed_snoc.
      cbn [sid tid cut]. rewrite !not_elem_of_app, !elem_of_list_singleton, !elem_of_app, elem_of_list_singleton.
      split.
      + intros [(z & [= -> ->] & [[Hzp Hzn] Hz]%elem_of_list_filter)%elem_of_list_fmap|
                [[H1 H2] [Hxy Hin]%elem_of_list_filter]%elem_of_list_filter].
        * split.
          -- split_and!; [by right|by apply adj_nbrs|done| |congruence| |congruence].
             ++ intros [Hnv _]%Hcr. done.
             ++ intros [_ Hnv]%Hcr. done.
          -- intros [H|(_ & H & _)]; [by apply bypassed_disc in H|done].
        * unfold proper in Hxy. simpl in *.
          destruct (proj1 (Hm x y)) as [(G1 & G2 & _ & G3 & G4) G5]; [split; [by right|done]|].
          split.
          -- split_and!; [by left|done|done|done| |done|].
             ++ intros [= -> ->]. by apply (pending_not_twice g r E V p n rest HT Hn p).
             ++ intros [= -> ->]. apply Hn. by apply HVd.
          -- intros [H|(_ & _ & Ha & Hpx)]; [done|]. apply H1. apply HD. rewrite HVd. done.
      + intros [([Hx|Hx] & Ha & Hxy & [Hc1 Hc2] & [Hc3 Hc4]) Hby].
        * right. apply elem_of_list_filter. simpl.
          assert (Hf : depth_free g r E x y) by (split; [by split_and!|tauto]).
          apply Hm in Hf as [[Heq|Hin]%elem_of_cons _]; [done|].
          split; [|apply elem_of_list_filter; by split].
          split.
          -- intros (H1 & H2 & H3)%HD. apply Hby. right. split_and!; done.
          -- intros _ ->. destruct (decide (x = p)) as [->|Hxp]; [done|].
             apply Hby. right. split_and!; [done|done| |done]. by apply (law_adj_sym g Hg).
        * subst x. left. apply elem_of_list_fmap. exists y. split; [done|].
          apply elem_of_list_filter. split; [|by apply adj_nbrs]. split; [|done].
          intros ->. done.
    - rewrite Hpush, Hd. rewrite filter_cons, decide_True in Hs by done.
      apply StronglySorted_inv in Hs as [Hs _].
      assert (Hrest : forall P `{!forall e : N * N, Decision (P e)},
        StronglySorted (ranked g (discovered r E ++ [n])) (filter P (filter proper rest))).
      { intros P HP. apply StronglySorted_filter. eapply StronglySorted_impl; [|exact Hs].
        intros e f. apply ranked_app. }
      pose proof (ranked_row g (discovered r E ++ [n]) n (nbrs g n) (fun x => x <> p /\ x <> n)
        ltac:(by exists [])) as Hrow.
      revert Hrow. generalize (filter (fun x => x <> p /\ x <> n) (nbrs g n)) as l.
      intros l. induction l as [|x l IH]; intros Hrow; [apply Hrest|].
      rewrite fmap_cons, <-app_comm_cons in *. apply StronglySorted_inv in Hrow as [Hrow Hf].
      constructor; [by apply IH|]. apply Forall_app. split; [done|]. apply Forall_forall.
      intros [a b] [_ [_ Hin]%elem_of_list_filter]%elem_of_list_filter. left. cbn [fst snd].
      apply before_snoc, HVd. apply (ti_pend _ _ _ _ _ HT a b). by right.
    - refine (past_snoc_all _ E _ Hpast _). cbn [sid tid cut]. split; [done|]. by split.
  Qed.

  Lemma search_run : r ∈ g_nodes g ->
    exists steps V, depth_first g r steps /\ TInv g r steps V [] /\ SInv g r steps [].
  Proof.
    intros Hr. apply (dfs_run g Hg r (fun E V Q => SInv g r E Q)); [done|by apply sinv_new|].
    intros E t s t' HT HS (p & n & rest & HQ & [(Hn & -> & ->)|(Hn & -> & ->)])%dfs_next_inv _;
      cbn [df_nodes df_stack]; rewrite HQ in *; [by eapply sinv_cut|by apply sinv_visit].
  Qed.

  Lemma dfs_follows_rule steps : depth_first g r steps ->
    (forall pre s post, steps = pre ++ s :: post ->
       (sid s <> tid s -> youngest g (discovered r pre) (depth_free g r pre) (sid s) (tid s)) /\
       (cut s = true <-> tid s ∈ discovered r pre)) /\
    (forall x y, ~ depth_free g r steps x y).
  Proof.
    intros Hd. destruct (search_run (dfs_root g r steps Hg Hd)) as (steps' & V & Hd' & HT & [Hm _ Hp]).
    rewrite (depth_first_fun g r steps steps' Hd Hd'). split; [done|].
    intros x y [H _]%Hm. by apply elem_of_nil in H.
  Qed.

  Lemma dfs_rule steps : LoopFree g -> depth_first g r steps -> depth_rule g r steps.
  Proof.
    intros Hl Hd. destruct (dfs_follows_rule steps Hd) as [H1 H2]. split; [|done].
    intros pre s post Heq. destruct (H1 pre s post Heq) as [H3 H4]. split; [|done]. apply H3.
    intros Hs. destruct (dfs_sound g r steps Hg Hd) as (Ha & _).
    apply (Hl (tid s)). rewrite <-Hs at 1. apply (Ha s). rewrite Heq. set_solver.
  Qed.
End search.

(** ** The rule determines the steps *)
Lemma rule_nodup r (P : list Step -> Step -> Prop) steps :
  (forall pre s post, steps = pre ++ s :: post -> P pre s /\ (cut s = true <-> tid s ∈ discovered r pre)) ->
  NoDup (discovered r steps).
Proof.
  induction steps as [|s steps IH] using rev_ind; intros H.
  { apply NoDup_singleton. }
  rewrite discovered_snoc. destruct (H steps s []) as [_ Hc]; [done|].
  assert (Hnd : NoDup (discovered r steps)).
  { apply IH. intros pre x post ->. apply (H pre x (post ++ [s])). by rewrite <-app_assoc. }
  destruct (cut s) eqn:Hs; [by rewrite app_nil_r|]. apply NoDup_app. split_and!; [done| |apply NoDup_singleton].
  intros x Hx ->%elem_of_list_singleton. apply Hc in Hx. done.
Qed.

Lemma rule_unique r (free : list Step -> N -> N -> Prop)
    (pick : list N -> (N -> N -> Prop) -> N -> N -> Prop) A B :
  (forall E x y x' y', NoDup (discovered r E) -> pick (discovered r E) (free E) x y ->
     pick (discovered r E) (free E) x' y' -> x = x' /\ y = y') ->
  (forall E x y, pick (discovered r E) (free E) x y -> free E x y) ->
  let rule steps :=
    (forall pre s post, steps = pre ++ s :: post ->
       pick (discovered r pre) (free pre) (sid s) (tid s) /\ (cut s = true <-> tid s ∈ discovered r pre)) /\
    (forall x y, ~ free steps x y) in
  rule A -> rule B -> A = B.
Proof.
  intros Hu Hf rule. change A with ([] ++ A). change B with ([] ++ B) at 1.
  assert (Hgen : forall A B pre, rule (pre ++ A) -> rule (pre ++ B) -> A = B).
  2: { intros HA HB. apply (Hgen A B []); done. }
  clear A B. induction A as [|s A IH]; intros [|s' B] pre [HA HA'] [HB HB']; [done|..].
  - rewrite app_nil_r in HA'. destruct (HB pre s' B eq_refl) as [H _]. by apply Hf, HA' in H.
  - rewrite app_nil_r in HB'. destruct (HA pre s A eq_refl) as [H _]. by apply Hf, HB' in H.
  - destruct (HA pre s A eq_refl) as [H1 H2], (HB pre s' B eq_refl) as [H3 H4].
    assert (Hnd : NoDup (discovered r pre)).
    { apply (rule_nodup r (fun pre s => pick (discovered r pre) (free pre) (sid s) (tid s))).
      intros q x post ->. apply (HA q x (post ++ s :: A)). by rewrite <-app_assoc. }
    destruct (Hu _ _ _ _ _ Hnd H1 H3) as [Hs Ht].
    assert (Heq : s = s').
    { destruct s as [p n c], s' as [p' n' c']. simpl in *. subst p' n'. f_equal.
      destruct c, c'; naive_solver. }
    subst s'. f_equal. apply (IH B (pre ++ [s])); rewrite <-app_assoc; by split.
Qed.

Section picks.
  Context (g : Graph) (Hg : Lawful g) (r : N).

  Lemma first_unique x y y' (free : N -> N -> Prop) :
    (forall a b, free a b -> adj g a b /\ a <> b) -> free x y -> free x y' ->
    (forall b l, free x b -> g_neighbors g x = Ok l -> b = y \/ before l y b) ->
    (forall b l, free x b -> g_neighbors g x = Ok l -> b = y' \/ before l y' b) -> y = y'.
  Proof.
    intros Hf Hy Hy' H1 H2. destruct (Hf x y Hy) as [(l & Hl & _) Hn], (Hf x y' Hy') as [_ Hn'].
    destruct (H1 y' l Hy' Hl) as [?|Hb1]; [done|]. destruct (H2 y l Hy Hl) as [?|Hb2]; [done|].
    pose proof (lawful_nbrs_nodup g Hg x) as Hnd. unfold nbrs in Hnd. rewrite Hl in Hnd.
    exfalso. eapply before_asym; [exact Hnd|apply filter_before; [exact Hb1|congruence..]|].
    apply filter_before; [done|congruence..].
  Qed.

  Lemma youngest_unique E (free : N -> N -> Prop) x y x' y' :
    (forall a b, free a b -> adj g a b /\ a <> b) -> NoDup (discovered r E) ->
    youngest g (discovered r E) free x y -> youngest g (discovered r E) free x' y' -> x = x' /\ y = y'.
  Proof.
    intros Hf Hnd (H1 & H2 & H3) (H4 & H5 & H6).
    assert (x = x') as <-.
    { destruct (H2 x' y' H4) as [?|Hb1]; [done|]. destruct (H5 x y H1) as [?|Hb2]; [done|].
      exfalso. by eapply before_asym. }
    split; [done|]. by eapply first_unique.
  Qed.
  Lemma oldest_unique E (free : N -> N -> Prop) x y x' y' :
    (forall a b, free a b -> adj g a b /\ a <> b) -> NoDup (discovered r E) ->
    oldest g (discovered r E) free x y -> oldest g (discovered r E) free x' y' -> x = x' /\ y = y'.
  Proof.
    intros Hf Hnd (H1 & H2 & H3) (H4 & H5 & H6).
    assert (x = x') as <-.
    { destruct (H2 x' y' H4) as [?|Hb1]; [done|]. destruct (H5 x y H1) as [?|Hb2]; [done|].
      exfalso. by eapply before_asym. }
    split; [done|]. by eapply first_unique.
  Qed.

  Lemma depth_rule_unique A B : depth_rule g r A -> depth_rule g r B -> A = B.
  Proof.
    apply (rule_unique r (depth_free g r) (youngest g)).
    - intros E x y x' y'. apply youngest_unique. intros a b [(_ & H1 & H2 & _) _]. done.
    - intros E x y [H _]. done.
  Qed.
  Lemma breadth_rule_unique A B : breadth_rule g r A -> breadth_rule g r B -> A = B.
  Proof.
    apply (rule_unique r (uncrossed_edge g r) (oldest g)).
    - intros E x y x' y'. apply oldest_unique. intros a b (_ & H1 & H2 & _). done.
    - intros E x y [H _]. done.
  Qed.

  Lemma dfs_rule_iff steps : LoopFree g -> r ∈ g_nodes g ->
    depth_first g r steps <-> depth_rule g r steps.
  Proof.
    intros Hl Hr. split; [by apply dfs_rule|]. intros H.
    destruct (dfs_total g r Hg Hr) as (steps' & Hd).
    by rewrite (depth_rule_unique steps steps' H (dfs_rule g Hg r steps' Hl Hd)).
  Qed.
End picks.

(** ** Breadth first *)
Definition queued (g : Graph) (D : list N) (e f : N * N) : Prop :=
  before D e.1 f.1 \/ (f.1 = e.1 /\ before (nbrs g e.1) e.2 f.2).

Lemma queued_app g D k e f : queued g D e f -> queued g (D ++ k) e f.
Proof. intros [H|H]; [left; by apply before_app_l|by right]. Qed.

Lemma queued_row g D n (l : list N) (P : N -> Prop) `{!forall x, Decision (P x)} :
  (exists k, nbrs g n = k ++ l) ->
  StronglySorted (queued g D) ((fun x => (n, x)) <$> filter P l).
Proof.
  induction l as [|x l IH]; intros [k Hk]; [constructor|]. rewrite filter_cons.
  assert (Hl : exists k, nbrs g n = k ++ l) by (exists (k ++ [x]); by rewrite <-app_assoc).
  case_decide; [|by apply IH]. rewrite fmap_cons. constructor; [by apply IH|].
  apply Forall_forall. intros e (y & -> & [_ Hy]%elem_of_list_filter)%elem_of_list_fmap.
  right. simpl. split; [done|]. by exists k, l.
Qed.

Lemma StronglySorted_app_2 {A} (R : A -> A -> Prop) (l k : list A) :
  StronglySorted R l -> StronglySorted R k -> (forall x y, x ∈ l -> y ∈ k -> R x y) ->
  StronglySorted R (l ++ k).
Proof.
  induction l as [|x l IH]; intros Hl Hk H; [done|]. apply StronglySorted_inv in Hl as [Hl Hf].
  rewrite <-app_comm_cons. constructor.
  - apply IH; [done|done|]. intros a b Ha. apply H. by right.
  - apply Forall_app. split; [done|]. apply Forall_forall. intros y Hy. apply H; [left|done].
Qed.

Lemma before_snoc_inv l x y n : y <> n -> before (l ++ [n]) x y -> before l x y.
Proof.
  intros Hy (l1 & l2 & Heq & Hin). destruct l2 as [|z l2 _] using rev_ind; [by apply elem_of_nil in Hin|].
  rewrite app_comm_cons, app_assoc in Heq. apply app_inj_tail in Heq as [-> <-].
  exists l1, l2. split; [done|]. set_solver.
Qed.
Lemma before_trans l x y z : NoDup l -> before l x y -> before l y z -> before l x z.
Proof.
  induction l as [|w l IH]; intros Hnd; [by intros ?%before_nil|]. apply NoDup_cons in Hnd as [Hw Hnd].
  intros [[-> Hy]|H1]%before_cons_inv [[-> Hz]|H2]%before_cons_inv.
  - done.
  - apply before_cons. by eapply before_in_r.
  - by apply before_in_r in H1.
  - apply before_skip. by eapply IH.
Qed.
Lemma row_proper r (l : list N) (P : N -> Prop) `{!forall x, Decision (P x)} :
  filter proper ((fun x => (r, x)) <$> filter P l) = (fun x => (r, x)) <$> filter (fun x => P x /\ x <> r) l.
Proof.
  induction l as [|x l IH]; [done|]. rewrite !filter_cons. destruct (decide (P x)) as [HP|HP].
  - rewrite fmap_cons, filter_cons. destruct (decide (x = r)) as [->|Hx].
    + rewrite !decide_False by (unfold proper; simpl; tauto). done.
    + rewrite !decide_True by (unfold proper; simpl; done). rewrite fmap_cons. by f_equal.
  - rewrite (decide_False (P := P x /\ x <> r)) by tauto. done.
Qed.

Record WInv (g : Graph) (r : N) (E : list Step) (Q : list (N * N)) : Prop := {
  wi_mem : forall x y, (x, y) ∈ Q /\ x <> y <->
    uncrossed_edge g r E x y /\ ~ before (discovered r E) y x;
  wi_sorted : StronglySorted (queued g (discovered r E)) (filter proper Q);
  wi_past : forall pre s post, E = pre ++ s :: post ->
     (sid s <> tid s -> oldest g (discovered r pre) (uncrossed_edge g r pre) (sid s) (tid s)) /\
     (cut s = true <-> tid s ∈ discovered r pre)
}.

Section bsearch.
  Context (g : Graph) (Hg : Lawful g) (r : N).

  Lemma uncrossed_rev E x y : uncrossed_edge g r E x y -> y ∈ discovered r E -> uncrossed_edge g r E y x.
  Proof.
    intros (H1 & H2 & H3 & H4 & H5) Hy. split_and!; [done|by apply (law_adj_sym g Hg)|congruence|done|done].
  Qed.

  Lemma winv_new : r ∈ g_nodes g -> WInv g r [] ((fun x => (r, x)) <$> nbrs g r).
  Proof.
    intros Hr. split.
    - intros x y. split.
      + intros [(z & [= -> ->] & Hz)%elem_of_list_fmap Hne]. split.
        * split_and!; [set_solver|by apply adj_nbrs|done|..]; by intros ?%elem_of_nil.
        * intros [[_ H]|H]%before_cons_inv; [by apply elem_of_nil in H|by apply before_nil in H].
      + intros [(Hx & Ha & Hne & _) _]. unfold discovered in Hx. apply elem_of_list_singleton in Hx as ->.
        split; [|done]. apply elem_of_list_fmap. exists y. split; [done|by apply adj_nbrs].
    - assert (Heq : nbrs g r = filter (fun _ => True) (nbrs g r)) by (symmetry; by apply filter_all).
      rewrite Heq, row_proper. apply queued_row. by exists [].
    - intros [|] ? ? ?; done.
  Qed.

  Lemma winv_rule E p n rest : WInv g r E ((p, n) :: rest) -> p <> n -> NoDup (discovered r E) ->
    oldest g (discovered r E) (uncrossed_edge g r E) p n.
  Proof.
    intros [Hm Hs _] Hne Hnd. destruct (proj1 (Hm p n)) as [Hpn Hnb]; [split; [left|done]|].
    rewrite filter_cons, decide_True in Hs by done. apply StronglySorted_inv in Hs as [_ Hf].
    rewrite Forall_forall in Hf.
    assert (Hin : forall a b, uncrossed_edge g r E a b -> ~ before (discovered r E) b a ->
      (a, b) = (p, n) \/ queued g (discovered r E) (p, n) (a, b)).
    { intros a b Hab Hb. destruct (proj2 (Hm a b) (conj Hab Hb)) as [[Heq|Hin]%elem_of_cons Hne'];
        [by left|right]. apply Hf. apply elem_of_list_filter. by split. }
    assert (Hin' : forall a b, uncrossed_edge g r E a b -> ~ before (discovered r E) b a ->
      a = p \/ before (discovered r E) p a).
    { intros a b Hab Hb. destruct (Hin a b Hab Hb) as [[= -> ->]|[H|[H _]]]; [by left|by right|by left]. }
    assert (Hrev : forall a b, uncrossed_edge g r E a b -> before (discovered r E) b a ->
      b = p \/ before (discovered r E) p b).
    { intros a b Hab Hb. apply (Hin' b a).
      - apply uncrossed_rev; [done|]. by eapply before_in_l.
      - intros Hb'. by eapply before_asym. }
    (* is [b] before [a]? *)
    assert (Hdec : forall a b, uncrossed_edge g r E a b -> before (discovered r E) b a \/ ~ before (discovered r E) b a).
    { intros a b Hab. destruct (decide (b ∈ discovered r E)) as [Hb|Hb].
      - destruct (before_total (discovered r E) a b) as [->|[H|H]]; [apply Hab|done|..].
        + right. intros H. by eapply before_asym.
        + right. intros H'. by eapply before_asym.
        + by left.
      - right. intros H. apply Hb. by eapply before_in_l. }
    split_and!; [done|..].
    - intros a b Hab. destruct (Hdec a b Hab) as [Hb|Hb]; [|by eapply Hin'].
      right. destruct (Hrev a b Hab Hb) as [->|H]; [done|]. by eapply before_trans.
    - intros b l Hpb Hl. destruct (Hdec p b Hpb) as [Hb|Hb].
      + exfalso. destruct (Hrev p b Hpb Hb) as [->|H]; by eapply before_asym.
      + destruct (Hin p b Hpb Hb) as [[= ->]|[H|[_ H]]]; [by left|simpl in H..].
        * by destruct (before_asym _ _ _ Hnd H H).
        * right. unfold nbrs in H. by rewrite Hl in H.
  Qed.

  Lemma winv_cut E V p n rest : TInv g r E V ((p, n) :: rest) -> WInv g r E ((p, n) :: rest) ->
    n ∈ V -> WInv g r (E ++ [mkStep p n true]) rest.
  Proof.
    intros HT HS Hn. destruct (ti_pend _ _ _ _ _ HT p n) as [Hpn HpV]; [left|].
    pose proof (fun H => winv_rule E p n rest HS H (ti_nodup _ _ _ _ _ HT)) as Hlaw.
    destruct HS as [Hm Hs Hpast].
    assert (Hd : discovered r (E ++ [mkStep p n true]) = discovered r E)
      by (rewrite discovered_snoc; apply app_nil_r).
    split.
    - intros x y. rewrite Hd. split.
      + intros [Hxy Hne].
        destruct (proj1 (Hm x y)) as [(H1 & H2 & _ & H3 & H4) H5]; [split; [by right|done]|].
        split; [|done]. unfold uncrossed_edge. rewrite Hd, crossed_snoc. cbn [sid tid].
        assert (Hsame : ~ same_edge (x, y) (p, n)).
        { intros Hsame. pose proof (ti_once _ _ _ _ _ HT x y Hne) as Ho.
          rewrite times_crossed_app in Ho. change ((p, n) :: rest) with ([(p, n)] ++ rest) in Ho.
          rewrite times_crossed_app in Ho.
          assert (0 < times_crossed (x, y) [(p, n)]) by (apply times_crossed_pos; exists (p, n); split; [left|done]).
          assert (0 < times_crossed (x, y) rest) by (apply times_crossed_pos; exists (x, y); split; [done|by left]).
          lia. }
        split_and!; try done.
        * intros [H|H%elem_of_list_singleton]%elem_of_app; [done|]. apply Hsame. by left.
        * intros [H|H%elem_of_list_singleton]%elem_of_app; [done|]. apply Hsame. right. by simplify_eq.
      + intros [(H1 & H2 & H3 & H4 & H5) H6]. rewrite Hd in H1.
        rewrite crossed_snoc in H4, H5. cbn [sid tid] in H4, H5.
        apply not_elem_of_app in H4 as [H4 H4'], H5 as [H5 H5'].
        rewrite elem_of_list_singleton in H4', H5'.
        assert (Hf : uncrossed_edge g r E x y) by (by split_and!).
        destruct (proj2 (Hm x y) (conj Hf H6)) as [[Heq|Hin]%elem_of_cons _]; done.
    - rewrite Hd. rewrite filter_cons in Hs. case_decide; [by apply StronglySorted_inv in Hs as [? _]|done].
    - refine (past_snoc_all _ E _ Hpast _). cbn [sid tid cut]. split; [done|].
      rewrite <-(ti_disc _ _ _ _ _ HT). done.
  Qed.

  Lemma winv_visit E V p n rest : TInv g r E V ((p, n) :: rest) -> WInv g r E ((p, n) :: rest) ->
    n ∉ V -> WInv g r (E ++ [mkStep p n false]) (foldl (bfs_push V p n) rest (nbrs g n)).
  Proof.
    intros HT HS Hn. destruct (ti_pend _ _ _ _ _ HT p n) as [Hpn HpV]; [left|].
    assert (Hne : p <> n) by (by intros ->).
    pose proof (winv_rule E p n rest HS Hne (ti_nodup _ _ _ _ _ HT)) as Hlaw.
    destruct HS as [Hm Hs Hpast].
    assert (Hd : discovered r (E ++ [mkStep p n false]) = discovered r E ++ [n])
      by (by rewrite discovered_snoc).
    assert (Hnd : n ∉ discovered r E) by (by rewrite <-(ti_disc _ _ _ _ _ HT)).
    assert (HVd : forall x, x ∈ V <-> x ∈ discovered r E) by apply (ti_disc _ _ _ _ _ HT).
    assert (Hcr : forall u v, (u, v) ∈ crossed E -> u ∈ V /\ v ∈ V).
    { intros u v (s & [= -> ->] & Hin)%elem_of_list_fmap. by apply (ti_emit _ _ _ _ _ HT). }
    rewrite bfs_push_spec. split.
    - intros x y. rewrite elem_of_app.
      unfold uncrossed_edge. rewrite Hd, crossed_snoc.
      cbn [sid tid cut]. rewrite !not_elem_of_app, !elem_of_list_singleton, !elem_of_app, elem_of_list_singleton.
      split.
      + intros [[Hin|(z & [= -> ->] & [[Hzp HzV] Hz]%elem_of_list_filter)%elem_of_list_fmap] Hxy].
        * destruct (proj1 (Hm x y)) as [(G1 & G2 & _ & G3 & G4) G5]; [split; [by right|done]|].
          split.
          -- split_and!; [by left|done|done|done| |done|].
             ++ intros [= -> ->]. by apply (pending_not_twice g r E V p n rest HT Hn p).
             ++ intros [= -> ->]. apply Hn. by apply HVd.
          -- intros H. apply G5. eapply before_snoc_inv; [|done]. intros ->. done.
        * split.
          -- split_and!; [by right|by apply adj_nbrs|done| |congruence| |congruence].
             ++ intros [Hnv _]%Hcr. done.
             ++ intros [_ Hnv]%Hcr. done.
          -- intros H%before_in_l. apply elem_of_app in H as [H|H%elem_of_list_singleton]; [by apply HzV, HVd|done].
      + intros [([Hx|Hx] & Ha & Hxy & [Hc1 Hc2] & [Hc3 Hc4]) Hb].
        * split; [left|done].
          assert (Hf : uncrossed_edge g r E x y) by (by split_and!).
          destruct (proj2 (Hm x y)) as [[Heq|Hin]%elem_of_cons _]; [split; [done|]|done|done].
          intros H. apply Hb. by apply before_app_l.
        * subst x. split; [right|done]. apply elem_of_list_fmap. exists y. split; [done|].
          apply elem_of_list_filter. split; [|by apply adj_nbrs]. split; [by intros ->|].
          intros HyV. apply Hb, before_snoc. by apply HVd.
    - rewrite Hd. rewrite filter_cons, decide_True in Hs by done.
      apply StronglySorted_inv in Hs as [Hs _]. rewrite filter_app, row_proper.
      apply StronglySorted_app_2.
      + eapply StronglySorted_impl; [|exact Hs]. intros e f. apply queued_app.
      + apply queued_row. by exists [].
      + intros [a b] e [_ Hab]%elem_of_list_filter (y & -> & _)%elem_of_list_fmap. left. cbn [fst snd].
        apply before_snoc, HVd. apply (ti_pend _ _ _ _ _ HT a b). by right.
    - refine (past_snoc_all _ E _ Hpast _). cbn [sid tid cut]. split; [done|]. by split.
  Qed.

  Lemma bsearch_run : r ∈ g_nodes g ->
    exists steps V, breadth_first g r steps /\ TInv g r steps V [] /\ WInv g r steps [].
  Proof.
    intros Hr. apply (bfs_run g Hg r (fun E V Q => WInv g r E Q)); [done|by apply winv_new|].
    intros E t s t' HT HS (p & n & rest & HQ & [(Hn & -> & ->)|(Hn & -> & ->)])%bfs_next_inv _;
      cbn [bf_nodes bf_queue]; rewrite HQ in *; [by eapply winv_cut|].
    rewrite <-bfs_push_spec. by apply winv_visit.
  Qed.

  Lemma bfs_follows_rule steps : breadth_first g r steps ->
    (forall pre s post, steps = pre ++ s :: post ->
       (sid s <> tid s -> oldest g (discovered r pre) (uncrossed_edge g r pre) (sid s) (tid s)) /\
       (cut s = true <-> tid s ∈ discovered r pre)) /\
    (forall x y, ~ uncrossed_edge g r steps x y).
  Proof.
    intros Hd. destruct (bsearch_run (bfs_root g r steps Hg Hd)) as (steps' & V & Hd' & HT & [Hm _ Hp]).
    rewrite (breadth_first_fun g r steps steps' Hd Hd'). split; [done|].
    assert (Hno : forall x y, uncrossed_edge g r steps' x y -> before (discovered r steps') y x -> False).
    { intros x y Hxy Hb. destruct (proj2 (Hm y x)) as [H _]; [|by apply elem_of_nil in H]. split.
      - apply uncrossed_rev; [done|]. by eapply before_in_l.
      - intros Hb'. eapply before_asym; [apply (ti_nodup _ _ _ _ _ HT)|done..]. }
    intros x y Hxy. destruct (proj2 (Hm x y)) as [H _]; [|by apply elem_of_nil in H].
    split; [done|]. intros Hb. by eapply Hno.
  Qed.

  Lemma bfs_rule steps : LoopFree g -> breadth_first g r steps -> breadth_rule g r steps.
  Proof.
    intros Hl Hd. destruct (bfs_follows_rule steps Hd) as [H1 H2]. split; [|done].
    intros pre s post Heq. destruct (H1 pre s post Heq) as [H3 H4]. split; [|done]. apply H3.
    intros Hs. destruct (bfs_facts g r steps Hg Hd) as (V & HT & _).
    apply (Hl (tid s)). rewrite <-Hs at 1. apply (ti_emit _ _ _ _ _ HT s). rewrite Heq. set_solver.
  Qed.

  Lemma bfs_rule_iff steps : LoopFree g -> r ∈ g_nodes g ->
    breadth_first g r steps <-> breadth_rule g r steps.
  Proof.
    intros Hl Hr. split; [by apply bfs_rule|]. intros H.
    destruct (bfs_total g r Hg Hr) as (steps' & Hd).
    by rewrite (breadth_rule_unique g Hg r steps steps' H (bfs_rule steps' Hl Hd)).
  Qed.
End bsearch.

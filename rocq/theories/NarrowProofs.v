(** Depth-first traversal: what is never left out, and graphs on which it is
    the textbook algorithm. *)
From Verif Require Import Checks Outcome GraphModel TraversalModel ComponentsModel PairingModel Spec
  GraphProofs EditProofs ConvertProofs EqProofs TraversalProofs BfsProofs DfsProofs PathLemmas
  CycleProofs.

(** ** A visited neighbor other than the parent lies on a cycle *)

Lemma ancestor_within g r E V Q a b : TInv g r E V Q -> ancestor E a b -> rtc (within g V) a b.
Proof.
  intros HT H. eapply rtc_subrel; [|exact H]. intros x y Hxy.
  apply (ti_emit _ _ _ _ _ HT) in Hxy as (? & ? & ?). by split_and!.
Qed.

Lemma visit_on_cycle g r E V p n rest x : Lawful g -> TInv g r E V ((p, n) :: rest) ->
  n ∉ V -> x ∈ V -> x <> p -> adj g n x -> on_cycle g x.
Proof.
  intros Hg HT Hn Hx Hxp Hnx. destruct (ti_pend _ _ _ _ _ HT p n) as [Hpn HpV]; [left|].
  assert (Hanc : forall v, v ∈ V -> rtc (within g V) r v).
  { intros v Hv. eapply ancestor_within; [done|]. apply disc_ancestor; [apply (ti_cut _ _ _ _ _ HT)|].
    by apply (ti_disc _ _ _ _ _ HT). }
  destruct (within_path g V x p Hx) as (l & Hnd & Hp & Hh & Hl & Hin).
  { etrans; [apply within_sym; [done|]; by apply Hanc|by apply Hanc]. }
  exists (l ++ [n]). split.
  - split_and!.
    + rewrite app_length. simpl. destruct l as [|a [|b l]]; simpl in *; [done| |lia]. congruence.
    + apply NoDup_app. split_and!; [done| |apply NoDup_singleton].
      intros z Hz ->%elem_of_list_singleton. auto.
    + apply is_path_snoc with (a := p); [done|]. by split.
    + exists x, n. rewrite last_snoc. split_and!; [by destruct l|done|done].
  - apply elem_of_app. left. destruct l; [done|]. simpl in Hh. injection Hh as ->. left.
Qed.

(** ** Nodes off the cycles *)

Lemma dfs_push_inv V p n l rest e : e ∈ foldl (dfs_push V p n) rest l ->
  (e ∈ rest /\ forall x, x ∈ l -> x <> p -> x ∈ V -> e.1 <> x /\ e.2 <> n) \/
  (e.1 = n /\ e.2 ∈ l /\ e.2 <> p).
Proof.
  revert rest. induction l as [|x l IH]; intros rest He; simpl in *.
  { left. split; [done|]. intros x Hx. by apply elem_of_nil in Hx. }
  apply IH in He as [[He H]|(? & ? & ?)]; [|right; split_and!; [done|by right|done]].
  unfold dfs_push in He. case_bool_decide as Hxp.
  { left. split; [done|]. intros y [->|Hy]%elem_of_cons; [done|by apply H]. }
  apply elem_of_cons in He as [->|He].
  { right. simpl. split_and!; [done|left|done]. }
  left. case_bool_decide as HxV.
  - apply elem_of_list_filter in He as [Hc He]. split; [done|].
    intros y [->|Hy]%elem_of_cons; [done|by apply H].
  - split; [done|]. intros y [->|Hy]%elem_of_cons; [done|by apply H].
Qed.

Record off_covered (g : Graph) (E : list Step) (V : gset N) (Q : list (N * N)) : Prop := {
  oc_all : forall v w, v ∈ V -> v <> w -> adj g v w ->
    (exists e, e ∈ crossed E ++ Q /\ same_edge (v, w) e) \/ on_cycle g v;
  oc_back : forall a b, (a, b) ∈ Q -> b ∈ V -> a <> b -> on_cycle g b
}.

Lemma pending_not_twice g r E V p n rest : TInv g r E V ((p, n) :: rest) -> n ∉ V ->
  forall a, (a, n) ∈ rest -> a <> p.
Proof.
  intros HT Hn a Ha ->. destruct (ti_pend _ _ _ _ _ HT p n) as [_ HpV]; [left|].
  assert (Hne : p <> n) by (by intros ->).
  pose proof (ti_once _ _ _ _ _ HT p n Hne) as H. rewrite times_crossed_app in H.
  change ((p, n) :: rest) with ([(p, n)] ++ rest) in H. rewrite times_crossed_app in H.
  assert (0 < times_crossed (p, n) [(p, n)]) by (apply times_crossed_pos; exists (p, n); split; [left|by left]).
  assert (0 < times_crossed (p, n) rest) by (apply times_crossed_pos; exists (p, n); split; [done|by left]).
  lia.
Qed.

Lemma off_covered_step g r E t s t' : Lawful g ->
  TInv g r E (df_nodes t) (df_stack t) ->
  off_covered g E (df_nodes t) (df_stack t) -> dfs_next g t = Ok (Some s, t') ->
  off_covered g (E ++ [s]) (df_nodes t') (df_stack t').
Proof.
  intros Hg HT [HJ HB] (p & n & rest & HQ & [(Hn & -> & ->)|(Hn & -> & ->)])%dfs_next_inv;
    cbn [df_nodes df_stack]; rewrite HQ in *; split; rewrite ?crossed_app; simpl.
  { intros v w Hv Hne Ha. destruct (HJ v w Hv Hne Ha) as [(e & He & Hs)|?]; [left|by right].
    exists e. by rewrite <-app_assoc. }
  { intros a b Hab. apply HB. by right. }
  all: set (V := df_nodes t) in *.
  - intros v w [->%elem_of_singleton|Hv]%elem_of_union Hne Ha.
    + left. destruct (decide (w = p)) as [->|Hwp].
      { exists (p, n). split; [set_solver|by right]. }
      exists (n, w). split; [|by left]. apply elem_of_app. right.
      apply dfs_push_new; [done|by rewrite elem_of_reverse, <-adj_nbrs|done|done].
    + destruct (HJ v w Hv Hne Ha) as [(e & He & Hs)|?]; [|by right].
      destruct (decide (e ∈ crossed E ++ [(p, n)])) as [He'|He'].
      { left. exists e. split; [set_solver|done]. }
      assert (Her : e ∈ rest) by set_solver.
      destruct e as [a b]. destruct (ti_pend _ _ _ _ _ HT a b) as [Hab HaV]; [by right|].
      destruct (decide (b = n)) as [->|Hbn].
      { left. pose proof (pending_not_twice g r E V p n rest HT Hn a Her) as Hap.
        exists (n, a). split.
        - apply elem_of_app. right. apply dfs_push_new; [done| |done|by intros ->].
          rewrite elem_of_reverse, <-adj_nbrs. by apply law_adj_sym.
        - destruct Hs as [[= -> ->]|[= -> ->]]; [by right|by left]. }
      destruct (decide (a ∈ nbrs g n /\ a <> p)) as [[Hna%adj_nbrs Hap]|Hno].
      * right. destruct Hs as [[= -> ->]|[= -> ->]]; [by eapply visit_on_cycle|].
        apply (HB a b); [by right|done|done].
      * left. exists (a, b). split; [|done]. apply elem_of_app. right. apply dfs_push_keep; [done|].
        intros x Hx Hxp HxV. rewrite elem_of_reverse in Hx. split; [|done]. simpl. intros Heq. apply Hno. rewrite Heq. by split.
  - intros a b [[Hab Hk]|(? & Hb & Hbp)]%dfs_push_inv HbV Hne; simpl in *; [|rewrite elem_of_reverse, <-adj_nbrs in Hb].
    + apply elem_of_union in HbV as [->%elem_of_singleton|HbV].
      * exfalso. destruct (ti_pend _ _ _ _ _ HT a n) as [Han HaV]; [by right|].
        pose proof (pending_not_twice g r E V p n rest HT Hn a Hab) as Hap.
        apply (Hk a); [|done|done|done]. rewrite elem_of_reverse, <-adj_nbrs. by apply law_adj_sym.
      * apply (HB a b); [by right|done|done].
    + subst a. apply elem_of_union in HbV as [->%elem_of_singleton|HbV]; [done|].
      by eapply visit_on_cycle.
Qed.

Lemma dfs_off_cycle g r steps : Lawful g -> depth_first g r steps ->
  forall u v, u ∈ discovered r steps -> u <> v -> adj g u v ->
    times_crossed (u, v) (crossed steps) = 1 \/ on_cycle g u.
Proof.
  intros Hg Hb. pose proof (dfs_root g r steps Hg Hb) as Hr.
  destruct (dfs_run g Hg r (off_covered g) Hr) as (steps' & V & Hb' & HT & [HJ _]).
  - split.
    + intros v w ->%elem_of_singleton _ Hadj. left. exists (r, w). split; [|by left].
      simpl. apply elem_of_list_fmap. exists w. split; [done|]. by apply adj_nbrs.
    + intros a b (x & [= -> ->] & _)%elem_of_list_fmap ->%elem_of_singleton. done.
  - intros E t s t' HT HJ Hn _. by eapply off_covered_step.
  - rewrite (depth_first_fun g r steps steps' Hb Hb'). intros u v Hu Hne Ha.
    apply (ti_disc _ _ _ _ _ HT) in Hu. destruct (HJ u v Hu Hne Ha) as [(e & He & Hs)|?]; [|by right].
    left. rewrite app_nil_r in He. pose proof (ti_once _ _ _ _ _ HT u v Hne) as H.
    rewrite app_nil_r in H.
    assert (0 < times_crossed (u, v) (crossed steps')) by (apply times_crossed_pos; eauto). lia.
Qed.

(** ** Narrow rings *)

Lemma filter_ext_in {A} (P Q : A -> Prop) `{!forall x, Decision (P x)} `{!forall x, Decision (Q x)} (l : list A) :
  (forall x, x ∈ l -> P x <-> Q x) -> filter P l = filter Q l.
Proof.
  induction l as [|x l IH]; intros Hx; [done|]. rewrite !filter_cons, IH by (intros; apply Hx; by right).
  pose proof (Hx x ltac:(left)). do 2 case_decide; tauto || done.
Qed.

Lemma filter_all {A} (P : A -> Prop) `{!forall x, Decision (P x)} (l : list A) :
  (forall x, x ∈ l -> P x) -> filter P l = l.
Proof.
  induction l as [|x l IH]; intros Hx; [done|]. rewrite filter_cons, decide_True by (apply Hx; left).
  by rewrite IH by (intros; apply Hx; by right).
Qed.

Lemma filter_filter {A} (P Q : A -> Prop) `{!forall x, Decision (P x)} `{!forall x, Decision (Q x)} (l : list A) :
  filter P (filter Q l) = filter (fun x => P x /\ Q x) l.
Proof.
  induction l as [|x l IH]; [done|]. rewrite !filter_cons.
  destruct (decide (Q x)); [rewrite filter_cons|]; repeat case_decide; rewrite ?IH; tauto || done.
Qed.

Lemma dfs_push_general V p n l rest : n ∉ V -> n ∉ l ->
  foldl (dfs_push V p n) rest (reverse l) =
  ((fun x => (n, x)) <$> filter (fun x => x <> p) l) ++
  filter (fun e : N * N => Forall (fun x => x <> p -> x ∈ V -> e.1 <> x /\ e.2 <> n) l) rest.
Proof.
  intros HnV. induction l as [|x l IH]; intros Hnl.
  { simpl. symmetry. apply filter_all. constructor. }
  apply not_elem_of_cons in Hnl as [Hnx Hnl].
  rewrite reverse_cons, foldl_app, IH by done. cbn [foldl]. unfold dfs_push at 1. rewrite filter_cons.
  destruct (bool_decide_reflect (x = p)) as [->|Hxp].
  - rewrite decide_False by tauto. f_equal. apply filter_ext_in. intros e _.
    rewrite Forall_cons. tauto.
  - rewrite decide_True by done. rewrite fmap_cons, <-app_comm_cons. f_equal.
    destruct (bool_decide_reflect (x ∈ V)) as [HxV|HxV].
    + rewrite filter_app. f_equal.
      * apply filter_all. intros e (y & -> & [_ Hy]%elem_of_list_filter)%elem_of_list_fmap. simpl.
        split; [by intros ->|]. by intros ->.
      * rewrite filter_filter. apply filter_ext_in. intros e _. rewrite Forall_cons. tauto.
    + f_equal. apply filter_ext_in. intros e _. rewrite Forall_cons. tauto.
Qed.

Record NInv (g : Graph) (E : list Step) (V : gset N) (Q : list (N * N)) : Prop := {
  ni_all : forall v w, v ∈ V -> adj g v w -> exists e, e ∈ crossed E ++ Q /\ same_edge (v, w) e;
  ni_anc : StronglySorted (fun e f => ancestor E f.1 e.1) Q;
  ni_back : forall a b, (a, b) ∈ Q -> b ∈ V -> ancestor E b a;
  ni_cut : forall s, s ∈ E -> cut s = true -> ancestor E (tid s) (sid s)
}.

Lemma StronglySorted_impl {A} (R S : A -> A -> Prop) l :
  (forall a b, R a b -> S a b) -> StronglySorted R l -> StronglySorted S l.
Proof.
  intros H. induction 1 as [|a l Hs IH Hf]; constructor; [done|]. eapply Forall_impl; [done|auto].
Qed.

Lemma StronglySorted_filter {A} (R : A -> A -> Prop) (P : A -> Prop) `{!forall x, Decision (P x)} (l : list A) :
  StronglySorted R l -> StronglySorted R (filter P l).
Proof.
  induction 1 as [|a l Hs IH Hf]; [constructor|]. rewrite filter_cons. case_decide; [|done].
  constructor; [done|]. rewrite Forall_forall in *. intros x [_ Hx]%elem_of_list_filter. auto.
Qed.

Section narrow.
  Context (g : Graph) (Hg : Lawful g) (r : N) (Hnar : narrow_rings g r).

  Lemma narrow_no_loop v : reachable g r v -> ~ adj g v v.
  Proof.
    intros Hv Ha. assert (Hn : v ∈ g_nodes g) by (by eapply law_adj_node).
    destruct (Hnar v (length (nbrs g v)) Hv) as [H _]; [|done].
    apply law_degree; [done|]. by apply lawful_nbrs.
  Qed.

  Lemma narrow_no_loss E V p n rest x y :
    TInv g r E V ((p, n) :: rest) -> NInv g E V ((p, n) :: rest) -> n ∉ V ->
    (x, y) ∈ rest -> x ∈ nbrs g n -> x <> p -> y = n.
  Proof.
    intros HT HN HnV Hxy Hxn%adj_nbrs Hxp. destruct (decide (y = n)) as [|Hyn]; [done|exfalso].
    destruct (ti_pend _ _ _ _ _ HT x y) as [Haxy HxV]; [by right|].
    destruct (ti_pend _ _ _ _ _ HT p n) as [Hpn HpV]; [left|].
    assert (Hcyc : on_cycle g x) by (by eapply visit_on_cycle).
    pose proof (ti_reach _ _ _ _ _ HT x HxV) as Hxr.
    assert (Hxg : x ∈ g_nodes g) by (by eapply law_adj_node).
    destruct (Hnar x (length (nbrs g x)) Hxr) as [Hloop Hdeg].
    { apply law_degree; [done|]. by apply lawful_nbrs. }
    destruct (Hdeg Hcyc) as [Hdeg3 Hdeg2]. clear Hdeg.
    assert (Hnoloop : forall z, adj g x z -> x <> z) by (intros z Hz ->; done).
    (* a child of x *)
    pose proof (ni_anc _ _ _ _ HN) as Hs. apply StronglySorted_inv in Hs as [_ Hf].
    rewrite Forall_forall in Hf. specialize (Hf (x, y) Hxy). simpl in Hf. unfold ancestor in Hf.
    apply rtc_inv in Hf as [?|(c & Hc & _)]; [done|].
    destruct (ti_emit _ _ _ _ _ HT _ Hc) as (Hxc & _ & HcV). simpl in *.
    assert (Hnc : n <> c) by (by intros ->).
    assert (Hyc : y <> c).
    { intros ->. pose proof (ti_once _ _ _ _ _ HT x c (Hnoloop _ Hxc)) as H.
      rewrite times_crossed_app in H.
      assert (0 < times_crossed (x, c) (crossed E)).
      { apply times_crossed_pos. exists (x, c). split; [|by left]. apply elem_of_list_fmap.
        by exists (mkStep x c false). }
      assert (0 < times_crossed (x, c) ((p, n) :: rest)).
      { apply times_crossed_pos. exists (x, c). split; [by right|by left]. }
      lia. }
    assert (Hthree : NoDup [n; y; c] /\ forall z, z ∈ [n; y; c] -> z ∈ nbrs g x).
    { split.
      - rewrite !NoDup_cons, !not_elem_of_cons. split_and!; try done; try apply not_elem_of_nil. apply NoDup_nil_2.
      - intros z Hz. apply adj_nbrs. rewrite !elem_of_cons, elem_of_nil in Hz.
        destruct Hz as [->|[->|[->|[]]]]; [by apply law_adj_sym|done|done]. }
    destruct Hthree as [Hnd3 Hin3].
    destruct (decide (x = r)) as [->|Hxr'].
    - specialize (Hdeg2 eq_refl).
      assert (Hle : length [n; y; c] <= length (nbrs g r)).
      { apply submseteq_length. by apply NoDup_submseteq. }
      simpl in Hle. lia.
    - (* the parent of x *)
      apply (ti_disc _ _ _ _ _ HT) in HxV. unfold discovered in HxV.
      apply elem_of_cons in HxV as [?|HxV]; [done|].
      apply elem_of_list_fmap in HxV as ([q x' []] & Hx' & [Hcs Hq]%elem_of_list_filter);
        simpl in Hcs, Hx'; [done|]. subst x'.
      destruct (ti_emit _ _ _ _ _ HT _ Hq) as (Hqx & HqV & _). simpl in *.
      assert (Hxq : x <> q) by (apply Hnoloop; by apply law_adj_sym).
      assert (Hqc : q <> c).
      { intros ->. pose proof (ti_once _ _ _ _ _ HT x c Hxq) as H. rewrite times_crossed_app in H.
        pose proof (times_crossed_two E _ _ Hc Hq) as H2. simpl in H2.
        assert (2 <= times_crossed (x, c) (crossed E)); [|lia].
        apply H2; [intros [= ->]; done|by right]. }
      assert (Hqy : q <> y).
      { intros ->. pose proof (ti_once _ _ _ _ _ HT x y Hxq) as H. rewrite times_crossed_app in H.
        assert (0 < times_crossed (x, y) (crossed E)).
        { apply times_crossed_pos. exists (y, x). split; [|by right]. apply elem_of_list_fmap.
          by exists (mkStep y x false). }
        assert (0 < times_crossed (x, y) ((p, n) :: rest)).
        { apply times_crossed_pos. exists (x, y). split; [by right|by left]. }
        lia. }
      assert (Hqn : q <> n) by (by intros ->).
      assert (Hle : length [q; n; y; c] <= length (nbrs g x)).
      { apply submseteq_length. apply NoDup_submseteq.
        - apply NoDup_cons. split; [|done]. rewrite !not_elem_of_cons.
          split_and!; try done. apply not_elem_of_nil.
        - intros z [->|Hz]%elem_of_cons; [|by apply Hin3]. apply adj_nbrs. by apply law_adj_sym. }
      simpl in Hle. lia.
  Qed.

  Lemma narrow_push E V p n rest :
    TInv g r E V ((p, n) :: rest) -> NInv g E V ((p, n) :: rest) -> n ∉ V ->
    foldl (dfs_push V p n) rest (reverse (nbrs g n)) =
    ((fun x => (n, x)) <$> filter (fun x => x <> p) (nbrs g n)) ++
    filter (fun e : N * N => e.2 <> n) rest.
  Proof.
    intros HT HN HnV. destruct (ti_pend _ _ _ _ _ HT p n) as [Hpn HpV]; [left|].
    assert (Hnn : n ∉ nbrs g n).
    { rewrite <-adj_nbrs. apply narrow_no_loop. eapply rtc_r; [|exact Hpn].
      by apply (ti_reach _ _ _ _ _ HT). }
    rewrite dfs_push_general by done. f_equal. apply filter_ext_in. intros [x y] Hxy. simpl.
    destruct (ti_pend _ _ _ _ _ HT x y) as [Haxy HxV]; [by right|].
    rewrite Forall_forall. split.
    - intros H ->. pose proof (pending_not_twice g r E V p n rest HT HnV x Hxy) as Hxp.
      apply (H x); [|done|done|done]. apply adj_nbrs. by apply law_adj_sym.
    - intros Hyn z Hz Hzp HzV. split; [|done]. intros ->. apply Hyn.
      by eapply narrow_no_loss.
  Qed.

  Lemma ninv_new : r ∈ g_nodes g -> NInv g [] {[r]} ((fun x => (r, x)) <$> nbrs g r).
  Proof.
    intros Hr. split.
    - apply all_covered_new.
    - generalize (nbrs g r). intros l. induction l as [|x l IH]; [constructor|].
      rewrite fmap_cons. constructor; [done|]. apply Forall_forall.
      intros e (y & -> & _)%elem_of_list_fmap. constructor.
    - intros a b (x & [= -> ->] & _)%elem_of_list_fmap ->%elem_of_singleton. constructor.
    - intros s Hs. by apply elem_of_nil in Hs.
  Qed.

  Lemma ninv_cut E V p n rest :
    NInv g E V ((p, n) :: rest) -> n ∈ V -> NInv g (E ++ [mkStep p n true]) V rest.
  Proof.
    intros [H1 H2 H3 H4] Hn.
    assert (Hmono : forall a b, ancestor E a b -> ancestor (E ++ [mkStep p n true]) a b).
    { intros a b. apply ancestor_mono. set_solver. }
    split.
    - intros v w Hv Ha. destruct (H1 v w Hv Ha) as (e & He & Hs). exists e. split; [|done].
      rewrite crossed_app, <-app_assoc. done.
    - apply StronglySorted_inv in H2 as [H2 _]. eapply StronglySorted_impl; [|exact H2]. simpl. auto.
    - intros a b Hab Hb. apply Hmono, H3; [by right|done].
    - intros s [Hs| ->%elem_of_list_singleton]%elem_of_app Hc; [by apply Hmono, H4|].
      simpl. apply Hmono, H3; [left|done].
  Qed.

  Lemma ninv_visit E V p n rest :
    TInv g r E V ((p, n) :: rest) -> NInv g E V ((p, n) :: rest) -> n ∉ V ->
    NInv g (E ++ [mkStep p n false]) ({[n]} ∪ V)
      (((fun x => (n, x)) <$> filter (fun x => x <> p) (nbrs g n)) ++
       filter (fun e : N * N => e.2 <> n) rest).
  Proof.
    intros HT [H1 H2 H3 H4] Hn. destruct (ti_pend _ _ _ _ _ HT p n) as [Hpn HpV]; [left|].
    set (E' := E ++ [mkStep p n false]).
    assert (Hmono : forall a b, ancestor E a b -> ancestor E' a b).
    { intros a b. apply ancestor_mono. set_solver. }
    assert (Hup : forall a, ancestor E a p -> ancestor E' a n).
    { intros a Ha. eapply rtc_r; [by apply Hmono|]. unfold E'. set_solver. }
    apply StronglySorted_inv in H2 as [H2 Hf]. rewrite Forall_forall in Hf.
    assert (Hnew : forall x, adj g n x -> x <> p ->
      (n, x) ∈ ((fun x => (n, x)) <$> filter (fun x => x <> p) (nbrs g n))).
    { intros x Hx Hxp. apply elem_of_list_fmap. exists x. split; [done|]. apply elem_of_list_filter.
      split; [done|]. by apply adj_nbrs. }
    split.
    - intros v w [->%elem_of_singleton|Hv]%elem_of_union Ha; unfold E'; rewrite crossed_app; simpl.
      + destruct (decide (w = p)) as [->|Hwp].
        { exists (p, n). split; [set_solver|by right]. }
        exists (n, w). split; [|by left]. rewrite !elem_of_app. right; left. by apply Hnew.
      + destruct (H1 v w Hv Ha) as ([a b] & He & Hs).
        destruct (decide ((a, b) ∈ rest /\ b = n)) as [[Hr ->]|Hno].
        * pose proof (pending_not_twice g r E V p n rest HT Hn a Hr) as Hap.
          exists (n, a). split.
          -- rewrite !elem_of_app. right; left. apply Hnew; [|done].
             apply law_adj_sym; [done|]. apply (ti_pend _ _ _ _ _ HT). by right.
          -- destruct Hs as [[= -> ->]|[= -> ->]]; [by right|by left].
        * exists (a, b). split; [|done]. rewrite !elem_of_app in *. rewrite elem_of_cons in He.
          rewrite elem_of_list_singleton, elem_of_list_filter. simpl. tauto.
    - assert (Hrest : StronglySorted (fun e f : N * N => ancestor E' f.1 e.1)
        (filter (fun e : N * N => e.2 <> n) rest)).
      { apply StronglySorted_filter. eapply StronglySorted_impl; [|exact H2]. simpl. auto. }
      generalize (filter (fun x => x <> p) (nbrs g n)). intros l.
      induction l as [|x l IH]; [done|]. rewrite fmap_cons, <-app_comm_cons.
      constructor; [done|]. apply Forall_forall.
      intros e [(y & -> & _)%elem_of_list_fmap|[_ He]%elem_of_list_filter]%elem_of_app; [constructor|].
      simpl. apply Hup. by apply (Hf e).
    - intros a b [(y & [= -> ->] & [Hyp Hy%adj_nbrs]%elem_of_list_filter)%elem_of_list_fmap|
        [Hbn Hab]%elem_of_list_filter]%elem_of_app; simpl in *.
      + intros [->%elem_of_singleton|HyV]%elem_of_union; [constructor|].
        destruct (H1 y n HyV) as ([a b] & He & Hs); [by apply law_adj_sym|].
        apply elem_of_app in He as [He|He].
        * exfalso. apply elem_of_list_fmap in He as (s & [= -> ->] & He).
          destruct (ti_emit _ _ _ _ _ HT s He) as (_ & Hs1 & Hs2).
          destruct Hs as [[= -> ->]|[= -> ->]]; done.
        * destruct (ti_pend _ _ _ _ _ HT a b He) as [_ HaV].
          destruct Hs as [[= -> ->]|[= -> ->]]; [|done].
          apply elem_of_cons in He as [[= ->]|He]; [done|].
          apply Hup. by apply (Hf _ He).
      + intros [->%elem_of_singleton|HbV]%elem_of_union; [done|]. apply Hmono, H3; [by right|done].
    - intros s [Hs| ->%elem_of_list_singleton]%elem_of_app Hc; [by apply Hmono, H4|done].
  Qed.

  Lemma ninv_step E t s t' :
    TInv g r E (df_nodes t) (df_stack t) -> NInv g E (df_nodes t) (df_stack t) ->
    dfs_next g t = Ok (Some s, t') -> NInv g (E ++ [s]) (df_nodes t') (df_stack t').
  Proof.
    intros HT HN (p & n & rest & HQ & [(Hn & -> & ->)|(Hn & -> & ->)])%dfs_next_inv;
      cbn [df_nodes df_stack]; rewrite HQ in *; [by apply ninv_cut|].
    rewrite (narrow_push E) by done. by apply ninv_visit.
  Qed.

  Lemma narrow_run : r ∈ g_nodes g ->
    exists steps V, depth_first g r steps /\ TInv g r steps V [] /\ NInv g steps V [].
  Proof.
    intros Hr. apply dfs_run; [done|done|by apply ninv_new|].
    intros E t s t' HT HN Hn _. by eapply ninv_step.
  Qed.

  Lemma narrow_dfs steps : depth_first g r steps ->
    (forall v, reachable g r v <-> v ∈ discovered r steps) /\
    (forall u v, reachable g r u -> adj g u v -> times_crossed (u, v) (crossed steps) = 1) /\
    (forall s, s ∈ steps -> cut s = true -> ancestor steps (tid s) (sid s)).
  Proof.
    intros Hb. pose proof (dfs_root g r steps Hg Hb) as Hr.
    destruct (narrow_run Hr) as (steps' & V & Hb' & HT & [H1 _ _ H4]).
    rewrite (depth_first_fun g r steps steps' Hb Hb'). clear dependent steps. rename steps' into steps.
    assert (Hall : forall u v, u ∈ V -> adj g u v ->
      (exists f, f ∈ crossed steps /\ same_edge (u, v) f) /\ v ∈ V).
    { intros u v Hu Huv. destruct (H1 u v Hu Huv) as (f & Hf & Hs).
      rewrite app_nil_r in Hf. split; [by exists f|].
      apply elem_of_list_fmap in Hf as (s & -> & Hin).
      destruct (ti_emit _ _ _ _ _ HT s Hin) as (_ & ? & ?).
      destruct Hs as [[= -> ->]|[= -> ->]]; done. }
    assert (HrV : r ∈ V) by (apply (ti_disc _ _ _ _ _ HT); left).
    assert (HV : forall v, reachable g r v <-> v ∈ V).
    { intros v. split; [|apply (ti_reach _ _ _ _ _ HT)].
      assert (Hcl : forall a b, rtc (adj g) a b -> a ∈ V -> b ∈ V); [|intros Hv; by eapply Hcl].
      intros a b Hab. induction Hab as [|x y z Hxy _ IH]; [done|]. intros Hx. apply IH.
      by eapply Hall. }
    split_and!; [|..|done].
    - intros v. rewrite HV. apply (ti_disc _ _ _ _ _ HT).
    - intros u v Hru Huv. pose proof Hru as Hu%HV. destruct (Hall u v Hu Huv) as [Hf _].
      apply times_crossed_pos in Hf.
      assert (Huv' : u <> v) by (intros ->; by apply (narrow_no_loop v)).
      pose proof (ti_once _ _ _ _ _ HT u v Huv') as Honce. rewrite app_nil_r in Honce. lia.
  Qed.

  (** *** Agreement with the textbook *)

  Fixpoint live (D T : list (N * N)) : list (N * N) :=
    match T with
    | [] => []
    | e :: T' => if decide (e ∈ D \/ (e.2, e.1) ∈ D) then live D T' else e :: live (D ++ [e]) T'
    end.

  Lemma live_ext D D' T : (forall e, e ∈ D <-> e ∈ D') -> live D T = live D' T.
  Proof.
    revert D D'. induction T as [|e T IH]; intros D D' H; [done|]. simpl.
    destruct (decide (e ∈ D \/ (e.2, e.1) ∈ D)) as [H1|H1], (decide (e ∈ D' \/ (e.2, e.1) ∈ D')) as [H2|H2];
      rewrite !H in H1; try tauto; [by apply IH|].
    f_equal. apply IH. intros f. rewrite !elem_of_app, H. done.
  Qed.

  Lemma live_more D K T :
    live (D ++ K) T = filter (fun e : N * N => e ∉ K /\ (e.2, e.1) ∉ K) (live D T).
  Proof.
    revert D K. induction T as [|e T IH]; intros D K; [done|]. simpl.
    destruct (decide (e ∈ D \/ (e.2, e.1) ∈ D)) as [H1|H1].
    { rewrite decide_True by (rewrite !elem_of_app; tauto). apply IH. }
    rewrite filter_cons. destruct (decide (e ∉ K /\ (e.2, e.1) ∉ K)) as [H2|H2].
    - rewrite decide_False by (rewrite !elem_of_app; tauto). f_equal.
      rewrite <-IH. apply live_ext. intros f. rewrite !elem_of_app. tauto.
    - rewrite decide_True by (rewrite !elem_of_app; destruct (decide (e ∈ K)), (decide ((e.2, e.1) ∈ K)); tauto).
      rewrite (IH D K), (IH D [e]), filter_filter. apply filter_ext_in. intros f _.
      rewrite !elem_of_list_singleton. split; [|tauto]. intros [Hf1 Hf2]. split; [done|].
      destruct e as [a b], f as [c d]. simpl in *. split; intros Heq; simplify_eq; tauto.
  Qed.

  Lemma live_app D A B : live D (A ++ B) = live D A ++ live (D ++ live D A) B.
  Proof.
    revert D. induction A as [|e A IH]; intros D; simpl; [by rewrite app_nil_r|].
    case_decide; [by rewrite IH|]. simpl. f_equal. rewrite IH. f_equal. f_equal. by rewrite <-app_assoc.
  Qed.

  Lemma live_star D p n l : NoDup l -> n ∉ l ->
    (forall x, x ∈ l -> (n, x) ∈ D \/ (x, n) ∈ D <-> x = p) ->
    live D ((fun x => (n, x)) <$> l) = (fun x => (n, x)) <$> filter (fun x => x <> p) l.
  Proof.
    intros Hnd. revert D. induction Hnd as [|x l Hx Hnd IH]; intros D Hn HD; [done|].
    apply not_elem_of_cons in Hn as [Hnx Hn].
    rewrite fmap_cons, filter_cons. simpl. pose proof (HD x ltac:(left)) as Hx'.
    destruct (decide (x <> p)) as [Hxp|Hxp].
    - rewrite decide_False by tauto. rewrite fmap_cons. f_equal. apply IH; [done|].
      intros y Hy. rewrite <-(HD y) by (by right). rewrite !elem_of_app, !elem_of_list_singleton.
      split; [|tauto]. intros [[?|[= ->]]|[?|[= -> ->]]]; tauto || done.
    - rewrite decide_True by (apply dec_stable in Hxp; tauto). apply IH; [done|].
      intros y Hy. apply HD. by right.
  Qed.

  Lemma nbrs_nodup v : ~ adj g v v -> NoDup (nbrs g v).
  Proof.
    intros Hl. pose proof (lawful_nbrs_nodup g Hg v) as H. rewrite filter_all in H; [done|].
    intros x Hx ->. by apply Hl, adj_nbrs.
  Qed.

  Lemma narrow_textbook fuel E t steps T :
    TInv g r E (df_nodes t) (df_stack t) -> NInv g E (df_nodes t) (df_stack t) ->
    live (crossed E) T = df_stack t ->
    dfs_collect fuel g t = Ok steps -> textbook g r (crossed E) T steps.
  Proof.
    revert E t steps T. induction fuel as [|fuel IHf]; intros E t steps T HT HN HQ Hc; [done|].
    induction T as [|[p n] T IHT].
    { simpl in HQ. cbn [dfs_collect] in Hc. rewrite dfs_next_done in Hc by done.
      injection Hc as <-. constructor. }
    cbn [live] in HQ. cbn [fst snd] in HQ. case_decide as Hst.
    { apply tb_skip; [done|]. by apply IHT. }
    clear IHT. cbn [dfs_collect] in Hc. symmetry in HQ.
    assert (Hcr : forall a b, (a, b) ∈ crossed E -> a ∈ df_nodes t /\ b ∈ df_nodes t).
    { intros a b (s & [= -> ->] & Hs)%elem_of_list_fmap. by apply (ti_emit _ _ _ _ _ HT s Hs). }
    destruct (dfs_next_step g Hg t) as (s & t' & Hnext & Hstep).
    { by rewrite HQ. }
    { intros q x Hq. by apply (ti_pend _ _ _ _ _ HT). }
    rewrite Hnext in Hc. cbn [cbind] in Hc. apply cbind_ok in Hc as (steps' & Hc & [= <-]).
    assert (HT' : TInv g r (E ++ [s]) (df_nodes t') (df_stack t')) by (by eapply tinv_step).
    assert (HN' : NInv g (E ++ [s]) (df_nodes t') (df_stack t')) by (by eapply ninv_step).
    apply dfs_next_inv in Hnext as (p' & n' & rest & HQ' & Hcase).
    rewrite HQ in HQ'. injection HQ' as <- <- Hrest. rewrite HQ in HT, HN.
    assert (HrV : r ∈ df_nodes t) by (apply (ti_disc _ _ _ _ _ HT); left).
    destruct Hcase as [(Hn & -> & ->)|(Hn & -> & ->)].
    - apply tb_cut; [tauto|tauto| |].
      + apply (ti_disc _ _ _ _ _ HT) in Hn. unfold discovered in Hn.
        apply elem_of_cons in Hn as [->|Hn]; [by left|right].
        apply elem_of_list_fmap in Hn as (s & -> & [_ Hs]%elem_of_list_filter).
        exists (sid s). apply elem_of_list_fmap. by exists s.
      + assert (crossed E ++ [(p, n)] = crossed (E ++ [mkStep p n true])) as Heq
          by (by rewrite crossed_app).
        rewrite Heq. rewrite Heq in Hrest. by eapply IHf.
    - destruct (ti_pend _ _ _ _ _ HT p n) as [Hpn HpV]; [left|].
      assert (Hng : n ∈ g_nodes g) by (by eapply law_adj_node).
      assert (Hnl : ~ adj g n n).
      { apply narrow_no_loop. eapply rtc_r; [|exact Hpn]. by apply (ti_reach _ _ _ _ _ HT). }
      eapply tb_visit; [tauto|tauto| | |by apply lawful_nbrs|].
      + by intros ->.
      + intros q Hq. apply Hn. by apply (Hcr q n).
      + assert (crossed E ++ [(p, n)] = crossed (E ++ [mkStep p n false])) as Heq
          by (by rewrite crossed_app).
        rewrite Heq. rewrite Heq in Hrest. eapply IHf; [exact HT'|exact HN'| |exact Hc].
        cbn [df_nodes df_stack] in *. rewrite <-Hrest, <-Heq.
        rewrite (narrow_push E) by done. rewrite live_app.
        assert (Hstar : live (crossed E ++ [(p, n)]) ((fun x => (n, x)) <$> nbrs g n) =
          (fun x => (n, x)) <$> filter (fun x => x <> p) (nbrs g n)).
        { apply live_star; [by apply nbrs_nodup|by rewrite <-adj_nbrs|].
          intros x Hx. rewrite !elem_of_app, !elem_of_list_singleton. split.
          - intros [[H|[= -> ->]]|[H|[= ->]]]; [|done| |done].
            + exfalso. by apply Hn, (Hcr n x).
            + exfalso. by apply Hn, (Hcr x n).
          - intros ->. right. by right. }
        rewrite Hstar. f_equal. rewrite live_more. apply filter_ext_in.
        intros [a b] Hab. simpl. destruct (ti_pend _ _ _ _ _ HT a b) as [Haab HaV]; [by right|].
        split.
        * intros [_ H] ->. apply H. apply elem_of_list_fmap. exists a. split; [done|].
          apply elem_of_list_filter. split; [|apply adj_nbrs; by apply law_adj_sym].
          by eapply pending_not_twice.
        * intros Hbn. split.
          -- intros (x & [= -> ->] & _)%elem_of_list_fmap. done.
          -- intros (x & [= -> ->] & _)%elem_of_list_fmap. done.
  Qed.

  Lemma narrow_dfs_textbook steps : depth_first g r steps ->
    exists l, g_neighbors g r = Ok l /\ textbook g r [] ((fun x => (r, x)) <$> l) steps.
  Proof.
    intros Hb. pose proof (dfs_root g r steps Hg Hb) as Hr. exists (nbrs g r).
    split; [by apply lawful_nbrs|]. destruct Hb as (t & n & Ht & Hn).
    rewrite dfs_new_spec in Ht by done. rewrite bool_decide_eq_true_2 in Ht by done.
    injection Ht as <-. refine (narrow_textbook n [] (mkDF _ _) steps _ _ _ _ (Hn n ltac:(lia))).
    - by apply tinv_new.
    - by apply ninv_new.
    - assert (Hrr : ~ adj g r r) by (apply narrow_no_loop; constructor).
      simpl. rewrite (live_star [] r r).
      + f_equal. apply filter_all. intros x Hx ->. by apply Hrr, adj_nbrs.
      + by apply nbrs_nodup.
      + by rewrite <-adj_nbrs.
      + intros x Hx. split; [intros [H|H]; by apply elem_of_nil in H|]. intros ->. exfalso.
        by apply Hrr, adj_nbrs.
  Qed.
End narrow.

Lemma acyclic_narrow g r : Acyclic g -> narrow_rings g r.
Proof.
  intros [Hlf Hc] v n _ _. split; [apply Hlf|]. intros (c & Hcyc & _). by destruct (Hc c).
Qed.

Lemma on_cycle_mono g h v : (forall a b, adj h a b -> adj g a b) -> on_cycle h v -> on_cycle g v.
Proof.
  intros Hsub (c & (H1 & H2 & H3 & a & b & H4 & H5 & H6) & Hv). exists c. split; [|done].
  split_and!; [done|done| |].
  - intros i x y Hx Hy. apply Hsub. by eapply H3.
  - exists a, b. auto.
Qed.

Lemma lone_degree g v l : Lawful g -> lone_rings g -> on_cycle g v ->
  NoDup l -> (forall x, x ∈ l -> adj g v x) -> length l <= 2.
Proof.
  intros Hg [_ Hd] Hc Hnd Hl. destruct (decide (l = [])) as [->|Hne]; [simpl; lia|].
  assert (Hv : v ∈ g_nodes g).
  { destruct l as [|x l]; [done|]. eapply lawful_adj_l; [done|]. apply (Hl x). left. }
  trans (length (nbrs g v)).
  - apply submseteq_length. apply NoDup_submseteq; [done|]. intros x Hx. by apply adj_nbrs, Hl.
  - apply (Hd v); [done|]. apply law_degree; [done|]. by apply lawful_nbrs.
Qed.

Lemma lone_narrow g h r : Lawful g -> Lawful h -> (forall a b, adj h a b -> adj g a b) ->
  lone_rings g -> narrow_rings h r.
Proof.
  intros Hg Hh Hsub Hlone v n Hv Hn. pose proof Hlone as [Hl _].
  assert (Hll : forall v, ~ adj h v v) by (intros x Hx%Hsub; by apply (Hl x)).
  split; [done|]. intros Hc%(on_cycle_mono g h v Hsub).
  destruct (decide (v ∈ g_nodes h)) as [Hvh|Hvh].
  - pose proof (law_degree h Hh v (nbrs h v) (lawful_nbrs h Hh v Hvh)) as Hn'.
    rewrite Hn in Hn'. injection Hn' as ->.
    assert (length (nbrs h v) <= 2); [|lia]. apply (lone_degree g v); [done|done|done| |].
    + by apply (nbrs_nodup h Hh).
    + intros x Hx. by apply Hsub, adj_nbrs.
  - exfalso. pose proof (law_degree_err h Hh v Hvh) as Hm. congruence.
Qed.

Lemma lone_narrow_components g : Lawful g -> lone_rings g -> narrow_components g.
Proof.
  intros Hg Hl. split; [apply Hl|]. intros i r _ _. by apply (lone_narrow g g).
Qed.

Lemma acyclic_lone g : Acyclic g -> lone_rings g.
Proof. intros [Hl Hc]. split; [done|]. intros v n (c & Hcyc & _). by destruct (Hc c). Qed.

Lemma acyclic_narrow_components g : Acyclic g -> narrow_components g.
Proof. intros Ha. split; [apply Ha|]. intros i r _ _. by apply acyclic_narrow. Qed.

(** A computable sufficient condition: no self-loops, all degrees at most
    three, and the root of degree at most two. *)
Lemma narrow_check d r : Api d -> loop_free_b d = true ->
  forallb (fun row => length row <=? 3) (dg_adjacency d) = true ->
  (match g_degree (as_graph d) r with Ok n => n <=? 2 | _ => true end) = true ->
  narrow_rings (as_graph d) r.
Proof.
  intros Ha Hl Hd Hr v n Hv Hn. split; [by apply loop_free_check|]. intros _. split.
  - simpl in Hn. unfold dg_degree, dg_index_for in Hn.
    destruct (dg_indices d !! v) as [i|]; [|done]. cbn [cbind] in Hn. unfold index in Hn.
    destruct (dg_adjacency d !! i) as [row|] eqn:Hrow; [|done]. injection Hn as <-.
    rewrite forallb_forall in Hd. apply Nat.leb_le, Hd. apply elem_of_list_In.
    by eapply elem_of_list_lookup_2.
  - intros ->. rewrite Hn in Hr. by apply Nat.leb_le.
Qed.

Lemma lone_check d : Api d -> loop_free_b d = true ->
  forallb (fun row => length row <=? 2) (dg_adjacency d) = true -> lone_rings (as_graph d).
Proof.
  intros Ha Hl Hd. split; [by apply loop_free_check|]. intros v n _ Hn.
  simpl in Hn. unfold dg_degree, dg_index_for in Hn.
  destruct (dg_indices d !! v) as [i|]; [|done]. cbn [cbind] in Hn. unfold index in Hn.
  destruct (dg_adjacency d !! i) as [row|] eqn:Hrow; [|done]. injection Hn as <-.
  rewrite forallb_forall in Hd. apply Nat.leb_le, Hd. apply elem_of_list_In.
  by eapply elem_of_list_lookup_2.
Qed.

(** Which graphs the depth-first traversal handles for every neighbor order. *)
From Verif Require Import Outcome GraphModel TraversalModel ComponentsModel PairingModel Spec SpecSearch SpecTangle
  GraphProofs EditProofs ConvertProofs EqProofs TraversalProofs BfsProofs DfsProofs PathLemmas
  AcyclicProofs CycleProofs NarrowProofs ComponentsProofs DescentProofs SearchProofs TextbookProofs.

Lemma rtc_last (R : N -> N -> Prop) (x : N) (P : N -> Prop) : P x ->
  (forall y z, rtc R x y -> R y z -> P y -> P z) -> forall z, rtc R x z -> P z.
Proof. intros H1 H2. by apply rtc_ind_r. Qed.

(** ** Runs of the textbook rule, and their prefixes *)
Definition upto (g : Graph) (r : N) (E : list Step) : Prop :=
  forall pre s post, E = pre ++ s :: post ->
    youngest g (discovered r pre) (uncrossed_edge g r pre) (sid s) (tid s) /\
    (cut s = true <-> tid s ∈ discovered r pre).

Section upto.
  Context (g : Graph) (r : N).

  Lemma upto_prefix E F : upto g r (E ++ F) -> upto g r E.
  Proof. intros H pre s post ->. apply (H pre s (post ++ F)). by rewrite <-app_assoc. Qed.

  Lemma upto_nodup E : upto g r E -> NoDup (discovered r E).
  Proof. intros H. eapply (rule_nodup r (fun pre s => youngest g (discovered r pre) (uncrossed_edge g r pre) (sid s) (tid s))). exact H. Qed.

  Lemma disc_mono E F x : x ∈ discovered r E -> x ∈ discovered r (E ++ F).
  Proof. unfold discovered. rewrite filter_app, fmap_app, !elem_of_cons, elem_of_app. tauto. Qed.

  Lemma disc_app E F : exists k, discovered r (E ++ F) = discovered r E ++ k.
  Proof. unfold discovered. rewrite filter_app, fmap_app. eexists. simpl. reflexivity. Qed.

  Lemma tree_disc E x y : mkStep x y false ∈ E -> y ∈ discovered r E.
  Proof.
    intros H. unfold discovered. right. apply elem_of_list_fmap. exists (mkStep x y false).
    split; [done|]. by apply elem_of_list_filter.
  Qed.

  (** Both ends of a crossed edge are discovered. *)
  Lemma crossed_disc E x y : upto g r E -> (x, y) ∈ crossed E ->
    x ∈ discovered r E /\ y ∈ discovered r E /\ adj g x y.
  Proof.
    induction E as [|s E IH] using rev_ind; intros HE Hx; [by apply elem_of_nil in Hx|].
    rewrite crossed_snoc, elem_of_app, elem_of_list_singleton in Hx. destruct Hx as [Hx|[= -> ->]].
    - destruct (IH (upto_prefix _ _ HE) Hx) as (H1 & H2 & H3). split_and!; [by apply disc_mono..|done].
    - destruct (HE E s [] eq_refl) as [((H1 & H2 & _) & _) Hc].
      split_and!; [by apply disc_mono| |done]. rewrite discovered_snoc.
      destruct (cut s); [rewrite app_nil_r; by apply Hc|]. rewrite elem_of_app. right. left.
  Qed.

  Lemma tree_before E x y : upto g r E -> mkStep x y false ∈ E -> before (discovered r E) x y.
  Proof.
    induction E as [|s E IH] using rev_ind; intros HE Hx; [by apply elem_of_nil in Hx|].
    destruct (HE E s [] eq_refl) as [((H1 & _) & _) Hc].
    rewrite discovered_snoc. rewrite elem_of_app, elem_of_list_singleton in Hx. destruct Hx as [Hx|<-].
    - apply before_app_l, IH; [|done]. by eapply upto_prefix.
    - cbn [cut tid]. by apply before_snoc.
  Qed.

  Lemma tree_parent E x x' y : upto g r E -> mkStep x y false ∈ E -> mkStep x' y false ∈ E -> x = x'.
  Proof.
    induction E as [|s E IH] using rev_ind; intros HE Hx Hx'; [by apply elem_of_nil in Hx|].
    destruct (HE E s [] eq_refl) as [_ Hc]. apply upto_prefix in HE.
    rewrite elem_of_app, elem_of_list_singleton in Hx, Hx'.
    destruct Hx as [Hx|<-], Hx' as [Hx'|Heq]; [by apply IH|..].
    - subst s. apply tree_disc in Hx. cbn in Hc. by apply Hc in Hx.
    - apply tree_disc in Hx'. cbn in Hc. by apply Hc in Hx'.
    - congruence.
  Qed.

  Lemma tree_not_root E x : upto g r E -> mkStep x r false ∉ E.
  Proof.
    intros HE Hx. apply tree_before in Hx; [|done]. pose proof (upto_nodup E HE) as Hnd.
    destruct Hx as (l1 & l2 & Heq & Hr). unfold discovered in *. rewrite Heq in Hnd.
    destruct l1 as [|z l1]; simpl in Heq; injection Heq as Hz Heq; subst.
    - apply NoDup_cons in Hnd as [Hnd _]. done.
    - simpl in Hnd. apply NoDup_cons in Hnd as [Hnd _]. apply Hnd. set_solver.
  Qed.

  Lemma anc_before E a b : upto g r E -> ancestor E a b -> a = b \/ before (discovered r E) a b.
  Proof.
    intros HE H. unfold ancestor in H. induction H as [|x y z Hxy _ IH]; [by left|]. right.
    apply tree_before in Hxy; [|done]. destruct IH as [->|IH]; [done|].
    eapply before_trans; [by apply upto_nodup|done..].
  Qed.

  Lemma anc_disc E a b : upto g r E -> ancestor E a b -> a ∈ discovered r E -> b ∈ discovered r E.
  Proof.
    intros HE H Ha. destruct (anc_before E a b HE H) as [<-|Hb]; [done|]. by eapply before_in_r.
  Qed.

  Lemma anc_chain E a b c : upto g r E -> ancestor E a c -> ancestor E b c -> ancestor E a b \/ ancestor E b a.
  Proof.
    intros HE Ha. revert b. unfold ancestor in Ha |- *.
    pattern c. eapply rtc_last; [| |exact Ha]; clear c Ha; [|intros y z Hay Hyz IH]; intros b Hb; [by right|].
    apply rtc_inv_r in Hb as [->|(y' & Hb & Hy')].
    - left. by eapply rtc_r.
    - assert (y' = y) as -> by (by eapply tree_parent). by apply IH.
  Qed.

  Lemma disc_anc E v : upto g r E -> v ∈ discovered r E -> ancestor E r v.
  Proof.
    revert v. induction E as [|s E IH] using rev_ind; intros v HE Hv.
    { apply elem_of_list_singleton in Hv as ->. constructor. }
    destruct (HE E s [] eq_refl) as [((H1 & _) & _) _]. apply upto_prefix in HE.
    rewrite discovered_snoc in Hv. destruct (cut s) eqn:Hc.
    { rewrite app_nil_r in Hv. eapply ancestor_mono; [|by apply IH]. set_solver. }
    rewrite elem_of_app, elem_of_list_singleton in Hv. destruct Hv as [Hv|Hv].
    { eapply ancestor_mono; [|by apply IH]. set_solver. }
    subst v. eapply rtc_r; [eapply ancestor_mono; [|by apply (IH (sid s) HE)]; set_solver|].
    cbn beta. rewrite elem_of_app, elem_of_list_singleton. right. destruct s; simpl in *. by subst.
  Qed.

  Lemma uncrossed_back E s x y : x ∈ discovered r E -> uncrossed_edge g r (E ++ [s]) x y -> uncrossed_edge g r E x y.
  Proof.
    intros Hx (_ & H2 & H3 & H4 & H5). rewrite crossed_snoc, elem_of_app in H4, H5.
    unfold uncrossed_edge. tauto.
  Qed.
  Lemma uncrossed_back' E F x y : x ∈ discovered r E -> uncrossed_edge g r (E ++ F) x y -> uncrossed_edge g r E x y.
  Proof.
    intros Hx (_ & H2 & H3 & H4 & H5). rewrite crossed_app, elem_of_app in H4, H5.
    unfold uncrossed_edge. tauto.
  Qed.

  (** Every node with an uncrossed edge is an ancestor of the source of the next
      step. *)
  Lemma open_ancestor E s x y : upto g r (E ++ [s]) -> uncrossed_edge g r E x y -> ancestor E x (sid s).
  Proof.
    revert s x y. induction E as [|t E IH] using rev_ind; intros s x y HE Hx.
    { destruct (HE [] s [] eq_refl) as [((H1 & _) & _) _]. destruct Hx as [H2 _].
      apply elem_of_list_singleton in H1, H2. rewrite H1, H2. constructor. }
    destruct (HE (E ++ [t]) s [] eq_refl) as [(H1 & H2 & _) _]. apply upto_prefix in HE.
    destruct (HE E t [] eq_refl) as [_ Hct].
    pose proof (upto_nodup _ HE) as Hnd.
    assert (Hmono : forall a b, ancestor E a b -> ancestor (E ++ [t]) a b).
    { intros a b. apply ancestor_mono. set_solver. }
    assert (Hyoung : x = sid s \/ before (discovered r (E ++ [t])) x (sid s)) by (by eapply H2).
    destruct (decide (x ∈ discovered r E)) as [Hxd|Hxd].
    2: { destruct Hx as [Hx _]. rewrite discovered_snoc in Hx, Hnd, Hyoung.
      destruct (cut t); [by rewrite app_nil_r in Hx|].
      rewrite elem_of_app, elem_of_list_singleton in Hx. destruct Hx as [?| ->]; [done|].
      destruct Hyoung as [->|Hb]; [constructor|]. exfalso.
      assert (Hlast : before (discovered r E ++ [tid t]) (tid t) (sid s) -> False); [|by apply Hlast].
      clear Hb. intros (l1 & l2 & Heq & Hin).
      destruct l2 as [|w l2 _] using rev_ind; [by apply elem_of_nil in Hin|].
      rewrite app_comm_cons, app_assoc in Heq. apply app_inj_tail in Heq as [Heq _].
      apply Hxd. rewrite Heq. set_solver. }
    pose proof (IH t x y HE (uncrossed_back _ _ _ _ Hxd Hx)) as Hax.
    assert (Has : ancestor (E ++ [t]) (sid s) (sid t) \/ (cut t = false /\ sid s = tid t)).
    { destruct (decide (sid s ∈ discovered r E)) as [Hsd|Hsd].
      - left. apply Hmono, (IH t (sid s) (tid s) HE). by apply uncrossed_back with t.
      - right. destruct H1 as [H1 _]. rewrite discovered_snoc in H1.
        destruct (cut t); [by rewrite app_nil_r in H1|]. split; [done|]. set_solver. }
    destruct Has as [Has|[Hc ->]].
    - destruct (anc_chain _ _ _ _ HE (Hmono _ _ Hax) Has) as [?|Hsx]; [done|].
      destruct (anc_before _ _ _ HE Hsx) as [->|Hb]; [constructor|].
      destruct Hyoung as [->|Hb']; [constructor|]. exfalso. by eapply before_asym.
    - eapply rtc_r; [by apply Hmono|]. cbn beta. rewrite elem_of_app, elem_of_list_singleton. right.
      destruct t; simpl in *. by subst.
  Qed.

  (** The tree path to a discovered node. *)
  Lemma tree_path E a : upto g r E -> a ∈ discovered r E ->
    exists P, is_path g P /\ NoDup P /\ head P = Some r /\ last P = Some a /\
      (forall z, z ∈ P <-> ancestor E z a) /\
      (forall P' x y P'', P = P' ++ x :: y :: P'' -> mkStep x y false ∈ E).
  Proof.
    intros HE Ha. pose proof (disc_anc E a HE Ha) as H. clear Ha. unfold ancestor in H.
    pattern a. eapply rtc_last; [| |exact H]; clear a H; [|intros b c Hb Hbc IH].
    { exists [r]. split_and!; [apply is_path_singleton|apply NoDup_singleton|done|done| |].
      - intros z. rewrite elem_of_list_singleton. split; [intros ->; constructor|].
        intros [?|(y & _ & Hy)]%rtc_inv_r; [done|]. by apply tree_not_root in Hy.
      - intros P' x y P'' Heq. apply (f_equal length) in Heq. rewrite app_length in Heq. simpl in Heq. lia. }
    destruct IH as (P & H1 & H2 & H3 & H4 & H5 & H6).
    assert (HcP : c ∉ P).
    { intros Hc%H5. assert (Hcb : ancestor E b c) by (by apply rtc_once).
      destruct (anc_before _ _ _ HE Hc) as [->|Hx].
      - apply tree_before in Hbc; [|done]. eapply before_asym; [by apply upto_nodup|done..].
      - apply tree_before in Hbc; [|done]. eapply before_asym; [by apply upto_nodup|done..]. }
    assert (Hadj : adj g b c).
    { destruct (crossed_disc E b c HE) as (_ & _ & H); [|done].
      apply elem_of_list_fmap. by exists (mkStep b c false). }
    exists (P ++ [c]). split_and!.
    - by apply (is_path_snoc g P b c).
    - apply NoDup_app. split_and!; [done| |apply NoDup_singleton]. intros z Hz ->%elem_of_list_singleton. done.
    - destruct P; [done|]. done.
    - by rewrite last_snoc.
    - intros z. rewrite elem_of_app, elem_of_list_singleton, H5. split.
      + intros [Hz| ->]; [by eapply rtc_r|constructor].
      + intros [->|(y & Hz & Hy)]%rtc_inv_r; [by right|]. left.
        assert (y = b) as -> by (by eapply tree_parent). done.
    - intros P' x y P'' Heq. destruct P'' as [|w P'' _] using rev_ind.
      + change (P' ++ [x; y]) with (P' ++ [x] ++ [y]) in Heq. rewrite app_assoc in Heq.
        apply app_inj_tail in Heq as [-> ->]. rewrite last_snoc in H4. injection H4 as ->. done.
      + rewrite !app_comm_cons, app_assoc in Heq. apply app_inj_tail in Heq as [Heq _]. by eapply H6.
  Qed.

  (** A tree path below a child of [a] avoids the ancestors of [a]. *)
  Lemma below_joined E a P c w : upto g r E -> mkStep a c false ∈ E -> ancestor E c w ->
    (forall z, z ∈ P -> z = a \/ before (discovered r E) z a) ->
    joined g P c w /\ w ∉ P.
  Proof.
    intros HE Hac Hcw HP.
    assert (Hout : forall z, ancestor E c z -> z ∉ P).
    { intros z Hz HzP. pose proof (upto_nodup E HE) as Hnd. pose proof (tree_before E a c HE Hac) as Hb.
      assert (Haz : before (discovered r E) a z).
      { destruct (anc_before E c z HE Hz) as [<-|Hcz]; [done|]. by eapply before_trans. }
      destruct (HP z HzP) as [->|Hza]; by eapply before_asym. }
    split; [|by apply Hout]. unfold ancestor in Hcw. unfold joined.
    pattern w. eapply rtc_last; [| |exact Hcw]; clear w Hcw; [constructor|intros y z Hcy Hyz IH].
    eapply rtc_r; [exact IH|]. split_and!; [|by apply Hout|apply Hout; by eapply rtc_r].
    destruct (crossed_disc E y z HE) as (_ & _ & H); [|done].
    apply elem_of_list_fmap. by exists (mkStep y z false).
  Qed.
End upto.

(** ** Untangled graphs: the traversal is the textbook one *)
Section untangled.
  Context (g : Graph) (Hg : Lawful g) (r : N) (Hu : untangled g r).

  Lemma untangled_step E s : upto g r (E ++ [s]) -> ~ bypassed g r E (sid s).
  Proof using All.
    intros HE (pre1 & s1 & post1 & -> & Hc1 & Ha1 & Hadj1 & Hne1).
    destruct (HE _ s [] eq_refl) as [(Hs & Hyoung & _) _].
    pose proof (upto_prefix g r _ _ HE) as HE'.
    set (E := pre1 ++ s1 :: post1) in *. set (a := sid s) in *. set (x := tid s) in *.
    set (p := sid s1) in *. set (n := tid s1) in *.
    assert (HE1 : upto g r (pre1 ++ [s1])).
    { apply (upto_prefix g r _ post1). by rewrite <-app_assoc. }
    pose proof (upto_prefix g r _ _ HE1) as HE0.
    destruct (HE1 pre1 s1 [] eq_refl) as [_ Hcut1].
    assert (Hn1 : n ∉ discovered r pre1). { intros H. apply Hcut1 in H. congruence. }
    assert (Hun1 : uncrossed_edge g r pre1 a n).
    { split_and!; [done|by apply law_adj_sym| | |].
      - intros Heq. apply Hn1. by rewrite <-Heq.
      - intros H. apply (crossed_disc g r) in H as (_ & H & _); [|done..]. done.
      - intros H. apply (crossed_disc g r) in H as (H & _ & _); [|done..]. done. }
    pose proof (open_ancestor g r pre1 s1 a n HE1 Hun1) as Hap.
    assert (HapE : ancestor E a p). { eapply ancestor_mono; [|exact Hap]. unfold E. set_solver. }
    apply rtc_inv in Hap as [Heq|(c & Hac & Hcp)]; [by subst|].
    assert (HacE : mkStep a c false ∈ E). { unfold E. set_solver. }
    assert (HcnE : ancestor E c n).
    { eapply rtc_r; [eapply ancestor_mono; [|exact Hcp]; unfold E; set_solver|].
      cbn beta. unfold E. rewrite elem_of_app, elem_of_cons. right; left.
      unfold p, n. destruct s1; simpl in *. by subst. }
    destruct Hs as (HaE & Hax & Hnax & Hcr1 & Hcr2).
    destruct (tree_path g r E a HE' HaE) as (P & HP1 & HP2 & HP3 & HP4 & HP5 & HP6).
    assert (HPa : forall z, z ∈ P -> z = a \/ before (discovered r E) z a).
    { intros z Hz%HP5. by apply (anc_before g r). }
    destruct (below_joined g r E a P c n HE' HacE HcnE HPa) as [Hcn HnP].
    destruct (below_joined g r E a P c c HE' HacE (rtc_refl _ _) HPa) as [_ HcP].
    assert (Hadjac : adj g a c).
    { destruct (crossed_disc g r E a c HE') as (_ & _ & H); [|done].
      apply elem_of_list_fmap. by exists (mkStep a c false). }
    assert (Hcnn : c <> n).
    { intros ->. apply Hn1. by eapply (tree_disc r). }
    destruct (Hu P a c n x HP1 HP2 HP3 HP4 Hadjac (law_adj_sym g Hg _ _ Hadj1) Hcnn HcP HnP Hcn Hax) as [Hx1 Hx2].
    destruct (decide (x ∈ P)) as [HxP|HxP].
    { destruct (Hx1 HxP) as [P' HP']. apply Hcr2. apply elem_of_list_fmap. exists (mkStep x a false).
      split; [done|]. by eapply HP6. }
    specialize (Hx2 HxP). pose proof (upto_nodup g r E HE') as Hnd.
    assert (Hafter : forall w, joined g P c w -> before (discovered r E) a w).
    { intros w Hw. unfold joined in Hw. pattern w. eapply rtc_last; [| |exact Hw]; clear w Hw;
        [|intros w z Hcw (Hwz & HwP & HzP) IH].
      { by apply (tree_before g r). }
      pose proof (before_in_r _ _ _ IH) as Hwd.
      destruct (decide (z ∈ discovered r E)) as [Hzd|Hzd].
      2: { exfalso. assert (Hf : uncrossed_edge g r E w z).
        { split_and!; [done|done| | |]; [intros ->; done|..]; intros H;
            apply (crossed_disc g r) in H as (? & ? & _); done. }
        destruct (Hyoung w z Hf) as [->|Hb]; [|by eapply before_asym].
        by eapply before_asym. }
      destruct (before_total _ z a Hzd HaE) as [->|[Hza|?]]; [|exfalso|done].
      { exfalso. apply HzP, HP5. constructor. }
      apply HzP, HP5.
      (* when [a] was discovered, [z] still had the edge to [w] *)
      assert (Hr : a <> r).
      { intros Har. rewrite Har in Hza. destruct Hza as (l1 & l2 & Heq & Hin). rewrite Heq in Hnd.
        unfold discovered in Heq. destruct l1 as [|q l1]; simpl in Heq; injection Heq as Hq Heq; subst.
        - by apply NoDup_cons in Hnd as [? _].
        - simpl in Hnd. apply NoDup_cons in Hnd as [Hnd _]. apply Hnd. set_solver. }
      assert (Hdisc : a ∈ tid <$> filter (fun s => cut s = false) E).
      { unfold discovered in HaE. apply elem_of_cons in HaE as [?|?]; done. }
      apply elem_of_list_fmap in Hdisc as (s0 & Hs0 & [Hc0 Hin0]%elem_of_list_filter).
      apply elem_of_list_split in Hin0 as (E0 & F0 & HEeq).
      assert (HE00 : upto g r (E0 ++ [s0])).
      { apply (upto_prefix g r _ F0). rewrite <-app_assoc. simpl. by rewrite <-HEeq. }
      assert (Hd0 : discovered r (E0 ++ [s0]) = discovered r E0 ++ [a]).
      { rewrite discovered_snoc, Hc0, <-Hs0. done. }
      destruct (disc_app r (E0 ++ [s0]) F0) as [k Hk].
      assert (Hdk : discovered r E = discovered r E0 ++ a :: k).
      { rewrite HEeq. replace (E0 ++ s0 :: F0) with ((E0 ++ [s0]) ++ F0) by (by rewrite <-app_assoc).
        rewrite Hk, Hd0, <-app_assoc. done. }
      assert (Hz0 : z ∈ discovered r E0).
      { rewrite Hdk in Hza, Hnd, Hzd. apply elem_of_app in Hzd as [?|Hz]; [done|].
        apply elem_of_cons in Hz as [->|Hz]; [exfalso; by eapply before_asym|].
        exfalso. eapply before_asym; [exact Hnd|exact Hza|]. exists (discovered r E0), k. done. }
      assert (Hw0 : w ∉ discovered r E0).
      { intros Hw0. rewrite Hdk in Hnd, IH. eapply before_asym; [exact Hnd|exact IH|].
        rewrite cons_middle, app_assoc. by apply before_app_l, before_snoc. }
      assert (Hf : uncrossed_edge g r E0 z w).
      { pose proof (upto_prefix g r _ _ HE00) as HE000. split_and!; [done|by apply law_adj_sym| | |].
        - intros ->. done.
        - intros H. apply (crossed_disc g r) in H as (_ & H & _); done.
        - intros H. apply (crossed_disc g r) in H as (H & _ & _); done. }
      pose proof (open_ancestor g r E0 s0 z w HE00 Hf) as Hanc.
      eapply rtc_r.
      - eapply ancestor_mono; [|exact Hanc]. rewrite HEeq. set_solver.
      - cbn beta. rewrite HEeq, elem_of_app, elem_of_cons. right; left. destruct s0; simpl in *. by subst. }
    specialize (Hafter x Hx2). pose proof (before_in_r _ _ _ Hafter) as Hxd.
    destruct (Hyoung x a) as [Heq|Hb].
    { split_and!; [done|by apply law_adj_sym|done|done|done]. }
    { done. }
    by eapply before_asym.
  Qed.

  Lemma untangled_textbook (Hl : LoopFree g) (Hr : r ∈ g_nodes g) T steps :
    textbook_run g r T -> depth_first g r steps -> steps = T.
  Proof using All.
    intros HT Hd. assert (Hd' : depth_first g r T).
    { apply (dfs_is_textbook g Hg r Hr Hl T HT). intros pre s post Heq.
      apply untangled_step. apply (upto_prefix g r _ post). rewrite <-app_assoc. simpl. rewrite <-Heq.
      apply textbook_rule_iff in HT; [|done..]. exact (proj1 HT). }
    by eapply depth_first_fun.
  Qed.
End untangled.

(** ** Following a given path *)
Fixpoint along (W : list N) : list Step :=
  match W with
  | a :: ((b :: _) as W') => mkStep a b false :: along W'
  | _ => []
  end.

Lemma along_snoc A a b : along (A ++ [a; b]) = along (A ++ [a]) ++ [mkStep a b false].
Proof.
  induction A as [|x A IH]; [done|]. destruct A as [|y A]; [done|].
  cbn [app along] in *. rewrite IH. done.
Qed.

Lemma disc_along r W : head W = Some r -> discovered r (along W) = W.
Proof.
  revert r. induction W as [|a W IH]; intros r; [done|]. intros [= ->]. destruct W as [|b W]; [done|].
  change (along (r :: b :: W)) with (mkStep r b false :: along (b :: W)).
  unfold discovered. rewrite filter_cons, decide_True by done. rewrite fmap_cons. cbn [tid].
  f_equal. by apply (IH b).
Qed.

Lemma along_in W s : s ∈ along W -> exists A B, W = A ++ sid s :: tid s :: B /\ cut s = false.
Proof.
  induction W as [|a W IH]; [by intros ?%elem_of_nil|]. destruct W as [|b W]; [by intros ?%elem_of_nil|].
  change (along (a :: b :: W)) with (mkStep a b false :: along (b :: W)).
  intros [->|H]%elem_of_cons; [by exists [], W|].
  destruct (IH H) as (A & B & Heq & Hc). exists (a :: A), B. by rewrite Heq.
Qed.

Lemma in_along A x y B : mkStep x y false ∈ along (A ++ x :: y :: B).
Proof.
  induction A as [|a A IH]; [left|]. destruct A as [|b A]; [right; left|]. right. exact IH.
Qed.

Lemma nodup_split (A B A' B' : list N) x : NoDup (A ++ x :: B) -> A ++ x :: B = A' ++ x :: B' -> A = A' /\ B = B'.
Proof.
  revert A'. induction A as [|a A IH]; intros [|a' A'] Hnd Heq; simpl in *; inversion Heq; subst.
  - done.
  - apply NoDup_cons in Hnd as [Hnd _]. exfalso. apply Hnd. set_solver.
  - apply NoDup_cons in Hnd as [Hnd _]. exfalso. apply Hnd. set_solver.
  - apply NoDup_cons in Hnd as [_ Hnd]. destruct (IH A' Hnd) as [-> ->]; done.
Qed.

(** Each node of the path lists the next one before all others, except perhaps
    the previous one. *)
Definition prefers (h : Graph) (W : list N) : Prop :=
  forall A u w B l b, W = A ++ u :: w :: B -> g_neighbors h u = Ok l -> b ∈ l ->
    b = w \/ last A = Some b \/ before l w b.

Section follow.
  Context (h : Graph) (Hh : Lawful h) (Hl : LoopFree h) (r : N) (T : list Step).
  Context (HT : textbook_rule h r T).

  Lemma follow W : is_path h W -> NoDup W -> head W = Some r -> prefers h W -> exists post, T = along W ++ post.
  Proof using Hh HT Hl.
    intros Hp Hnd Hhd Hpr. cut (forall A B, W = A ++ B -> exists post, T = along A ++ post).
    { intros H. apply (H W []). by rewrite app_nil_r. }
    induction A as [|w A IH] using rev_ind; intros B HW; [by exists T|].
    destruct A as [|u A _] using rev_ind; [by exists T|].
    rewrite <-app_assoc in HW. destruct (IH _ HW) as [rest Hrest].
    assert (HW' : W = A ++ u :: w :: B) by (rewrite HW, <-app_assoc; done).
    set (E := along (A ++ [u])) in *.
    assert (HE : upto h r E). { apply (upto_prefix h r _ rest). rewrite <-Hrest. exact (proj1 HT). }
    assert (HD : discovered r E = A ++ [u]).
    { apply disc_along. rewrite HW' in Hhd. by destruct A. }
    assert (Huw : adj h u w).
    { rewrite HW' in Hp. apply is_path_app in Hp as (_ & Hp & _). by apply is_path_cons2 in Hp as [? _]. }
    assert (Hw : w ∉ A ++ [u]).
    { rewrite HW', cons_middle, app_assoc in Hnd. apply NoDup_app in Hnd as (_ & Hd & _).
      intros H. apply (Hd w H). left. }
    assert (Hf : uncrossed_edge h r E u w).
    { rewrite <-HD in Hw. split_and!; [rewrite HD; set_solver|done| | |].
      - intros ->. apply Hw. rewrite HD. set_solver.
      - intros H. apply (crossed_disc h r) in H as (_ & H & _); done.
      - intros H. apply (crossed_disc h r) in H as (H & _ & _); done. }
    destruct rest as [|s rest].
    { rewrite app_nil_r in Hrest. rewrite <-Hrest in Hf. by apply (proj2 HT) in Hf. }
    destruct (proj1 HT E s rest Hrest) as [Hy Hc].
    assert (Hy' : youngest h (discovered r E) (uncrossed_edge h r E) u w).
    { split_and!; [done| |].
      - intros a b (Ha & _). rewrite HD in Ha |- *. apply elem_of_app in Ha as [Ha|Ha].
        + right. by apply before_snoc.
        + left. by apply elem_of_list_singleton in Ha.
      - intros b l (_ & (l' & Hl' & Hb) & _ & _ & Hcr) Hnb. rewrite Hnb in Hl'. injection Hl' as <-.
        destruct (Hpr A u w B l b HW' Hnb Hb) as [?|[HbA|?]]; [by left| |by right].
        exfalso. apply Hcr. apply last_Some in HbA as [A' ->]. apply elem_of_list_fmap.
        exists (mkStep b u false). split; [done|]. unfold E. rewrite <-app_assoc. apply in_along. }
    destruct (youngest_unique h Hh r E (uncrossed_edge h r E) _ _ _ _
      ltac:(by intros a b (_ & ? & ? & _)) (upto_nodup h r E HE) Hy' Hy) as [-> ->].
    exists rest. rewrite <-app_assoc. change ([sid s] ++ [tid s]) with [sid s; tid s].
    rewrite along_snoc, <-app_assoc. rewrite Hrest. f_equal. simpl. f_equal.
    destruct s as [p n c]. cbn [sid tid cut] in *. f_equal. destruct c; [|done].
    exfalso. apply Hw. rewrite <-HD. by apply Hc.
  Qed.

  (** If moreover no step starts at a bypassed node, what hangs off the path at
      [v] is in one part. *)
  Lemma one_part P C v c d x : (forall pre s post, T = pre ++ s :: post -> ~ bypassed h r pre (sid s)) ->
    is_path h (P ++ C) -> NoDup (P ++ C) -> head P = Some r -> last P = Some v ->
    head C = Some c -> last C = Some d -> c <> d -> adj h v d -> adj h v x -> prefers h (P ++ C) ->
    (x ∈ P -> exists P', P = P' ++ [x; v]) /\ (x ∉ P -> joined h P c x).
  Proof using All.
    intros Hnb Hp Hnd Hhd Hlast Hc Hd Hcd Hvd Hvx Hpr.
    assert (Hhd' : head (P ++ C) = Some r) by (by destruct P).
    destruct (follow (P ++ C) Hp Hnd Hhd' Hpr) as [post Hpost].
    assert (HvP : v ∈ P) by (apply last_Some in Hlast as [P' ->]; set_solver).
    assert (Hd1 : discovered r (along (P ++ C)) = P ++ C) by (by apply disc_along).
    assert (Hbyp : bypassed h r (along (P ++ C)) v).
    { apply last_Some in Hd as [C1 ->]. destruct C1 as [|u C1 _] using rev_ind.
      { simpl in Hc. congruence. }
      exists (along (P ++ C1 ++ [u])), (mkStep u d false), [].
      split.
      { replace (P ++ (C1 ++ [u]) ++ [d]) with ((P ++ C1) ++ [u; d]) by (by rewrite <-!app_assoc).
        rewrite (app_assoc P C1 [u]). apply along_snoc. }
      split; [done|]. split_and!.
      - rewrite disc_along by (by destruct P). set_solver.
      - cbn. by apply law_adj_sym.
      - cbn. intros ->. apply NoDup_app in Hnd as (_ & Hnd & _). apply (Hnd v HvP). set_solver. }
    assert (Hsrc : forall s, s ∈ post -> sid s <> v).
    { intros s (q1 & q2 & ->)%elem_of_list_split Hv. apply (Hnb (along (P ++ C) ++ q1) s q2).
      { by rewrite Hpost, <-app_assoc. }
      rewrite Hv. destruct Hbyp as (pre & s0 & k & -> & Hrest). exists pre, s0, (k ++ q1).
      split; [by rewrite <-app_assoc|done]. }
    pose proof (proj1 HT : upto h r T) as HU.
    assert (HvT : v ∈ discovered r T).
    { rewrite Hpost. apply disc_mono. rewrite Hd1. set_solver. }
    assert (Hne : v <> x). { intros ->. by apply (Hl x). }
    assert (HcP : c ∉ P).
    { intros HcP. apply NoDup_app in Hnd as (_ & Hnd & _). apply (Hnd c HcP). destruct C; [done|].
      injection Hc as ->. left. }
    assert (Hnext : forall y, mkStep v y false ∈ along (P ++ C) -> y = c).
    { intros y (A & B & Heq & _)%along_in. cbn in Heq. apply last_Some in Hlast as [P' ->].
      destruct C as [|c' C]; [done|]. injection Hc as ->.
      rewrite <-app_assoc in Heq, Hnd. simpl in Heq, Hnd.
      destruct (nodup_split _ _ _ _ _ Hnd Heq) as [_ H]. congruence. }
    assert (Hor : (v, x) ∈ crossed T \/ (x, v) ∈ crossed T).
    { destruct (decide ((v, x) ∈ crossed T)) as [|H1]; [by left|].
      destruct (decide ((x, v) ∈ crossed T)) as [|H2]; [by right|].
      exfalso. apply (proj2 HT v x). by split_and!. }
    destruct Hor as [Hvx'|Hxv].
    { apply elem_of_list_fmap in Hvx' as (s & [= Hs1 Hs2] & Hs).
      rewrite Hpost, elem_of_app in Hs. destruct Hs as [Hs|Hs]; [|by destruct (Hsrc s Hs)].
      assert (x = c) as ->.
      { apply Hnext. destruct (along_in _ _ Hs) as (_ & _ & _ & Hf). destruct s; simpl in *. by subst. }
      split; [done|]. intros _. constructor. }
    apply elem_of_list_fmap in Hxv as (s & [= Hs1 Hs2] & Hs).
    rewrite Hpost, elem_of_app in Hs. destruct Hs as [Hs|Hs].
    { destruct (along_in _ _ Hs) as (A & B & Heq & Hf). rewrite <-Hs1, <-Hs2 in Heq.
      apply last_Some in Hlast as [P' ->]. rewrite <-app_assoc in Heq, Hnd. simpl in Heq, Hnd.
      change (A ++ x :: v :: B) with (A ++ [x] ++ v :: B) in Heq. rewrite app_assoc in Heq.
      destruct (nodup_split _ _ _ _ _ Hnd Heq) as [-> _]. split.
      - intros _. exists A. by rewrite <-app_assoc.
      - intros Hx. exfalso. apply Hx. set_solver. }
    apply elem_of_list_split in Hs as (q1 & q2 & Hq).
    set (E := along (P ++ C) ++ q1).
    assert (HTE : T = E ++ s :: q2) by (unfold E; by rewrite Hpost, Hq, <-app_assoc).
    destruct (HU E s q2 HTE) as [((Hxd & _ & _ & Hn1 & Hn2) & Hyoung & _) _].
    rewrite <-Hs1 in *. rewrite <-Hs2 in *.
    assert (HEs : upto h r (E ++ [s])).
    { apply (upto_prefix h r _ q2). rewrite <-app_assoc. simpl. by rewrite <-HTE. }
    pose proof (upto_prefix h r _ _ HEs) as HE.
    assert (HvE : v ∈ discovered r E). { unfold E. apply disc_mono. rewrite Hd1. set_solver. }
    assert (Hf : uncrossed_edge h r E v x) by (by split_and!).
    pose proof (open_ancestor h r E s v x HEs Hf) as Hanc. rewrite <-Hs1 in Hanc.
    apply rtc_inv in Hanc as [?|(c' & Hvc & Hcx)]; [done|].
    assert (c' = c) as ->.
    { unfold E in Hvc. rewrite elem_of_app in Hvc. destruct Hvc as [Hvc|Hvc]; [by apply Hnext|].
      exfalso. apply (Hsrc (mkStep v c' false)); [|done]. rewrite Hq. set_solver. }
    assert (HPv : forall z, z ∈ P -> z = v \/ before (discovered r E) z v).
    { intros z Hz. destruct (disc_app r (along (P ++ C)) q1) as [k Hk]. unfold E. rewrite Hk, Hd1.
      apply last_Some in Hlast as [P' ->]. apply elem_of_app in Hz as [Hz|Hz].
      - right. rewrite <-!app_assoc, app_assoc. apply before_app_l. by apply before_snoc.
      - left. by apply elem_of_list_singleton in Hz. }
    destruct (below_joined h r E v P c x HE Hvc Hcx HPv) as [H1 H2]. done.
  Qed.
End follow.

(** ** Reordering the neighbors *)
Lemma reordered_adj g h : reordered g h -> forall u v, adj h u v <-> adj g u v.
Proof.
  intros (_ & _ & _ & _ & _ & _ & _ & _ & H) u v. specialize (H u). unfold adj.
  destruct (g_neighbors g u) as [l|e|p|]; rewrite ?H; [|done..].
  destruct H as (l' & -> & Hp). split; intros (k & [= <-] & Hk); eexists; (split; [done|]).
  - by rewrite Hp.
  - by rewrite <-Hp.
Qed.

Lemma reordered_lawful g h : reordered g h -> Lawful g -> Lawful h.
Proof.
  intros Hre Hg. pose proof (reordered_adj g h Hre) as Hadj.
  destruct Hre as (H1 & H2 & H3 & H4 & H5 & H6 & H7 & H8 & Hn).
  split; rewrite ?H1, ?H2, ?H3, ?H4, ?H5, ?H6, ?H7, ?H8; try by apply Hg.
  - intros v Hv. destruct (law_neighbors g Hg v Hv) as (l & Hl & Hnd). specialize (Hn v). rewrite Hl in Hn.
    destruct Hn as (l' & Hl' & Hp). exists l'. split; [done|]. by rewrite <-Hp.
  - intros v Hv. specialize (Hn v). rewrite (law_neighbors_err g Hg v Hv) in Hn. done.
  - intros u v. rewrite Hadj. apply Hg.
  - intros u v. rewrite !Hadj. apply Hg.
  - intros v l Hl. specialize (Hn v). destruct (decide (v ∈ g_nodes g)) as [Hv|Hv].
    + destruct (law_neighbors g Hg v Hv) as (k & Hk & _). rewrite Hk in Hn.
      destruct Hn as (l' & Hl' & Hp). rewrite Hl in Hl'. injection Hl' as <-. rewrite <-Hp.
      by apply (law_degree g Hg).
    + rewrite (law_neighbors_err g Hg v Hv) in Hn. congruence.
  - intros u v Hu Hv. destruct (law_has_edge g Hg u v Hu Hv) as (b & Hb & Hb'). exists b.
    split; [done|]. by rewrite Hadj.
  - intros u v Huv. rewrite Hadj. by apply (law_edges_adj g Hg).
  - intros u v Huv. rewrite Hadj. by apply (law_edges_complete g Hg).
Qed.

Lemma reordered_loop_free g h : reordered g h -> LoopFree g -> LoopFree h.
Proof. intros Hre Hl v Hv. apply (Hl v). by apply (reordered_adj g h). Qed.

Lemma untangled_transfer g h r : (forall u v, adj g u v <-> adj h u v) -> untangled g r -> untangled h r.
Proof.
  intros Hadj Hu.
  assert (Hj : forall P u v, joined g P u v <-> joined h P u v).
  { intros P u v. unfold joined. split; apply rtc_subrel; intros a b (? & ? & ?); (split; [by apply Hadj|done]). }
  intros P v c d x Hp Hnd Hh Hl Hc Hd Hcd HcP HdP Hcj Hx. rewrite <-Hj.
  apply (Hu P v c d x); try done; [|by apply Hadj..|by apply Hj|by apply Hadj].
  intros i a b Ha Hb. apply Hadj. by apply (Hp i).
Qed.

Fixpoint next (W : list N) (u : N) : option N :=
  match W with
  | a :: ((b :: _) as W') => if decide (u = a) then Some b else next W' u
  | _ => None
  end.

Lemma next_spec A u w B : NoDup (A ++ u :: w :: B) -> next (A ++ u :: w :: B) u = Some w.
Proof.
  induction A as [|a A IH]; intros Hnd.
  { cbn. by rewrite decide_True. }
  simpl in Hnd. apply NoDup_cons in Hnd as [Ha Hnd]. specialize (IH Hnd).
  assert (u <> a) by set_solver.
  destruct A as [|b A]; cbn [app next] in *; by rewrite decide_False.
Qed.

(** [g] with each node of [W] listing the next one first. *)
Definition front_row (o : option N) (l : list N) : list N :=
  match o with Some w => filter (fun b => b = w) l ++ filter (fun b => b <> w) l | None => l end.
Definition front (g : Graph) (W : list N) : Graph :=
  mkGraph (g_is_empty g) (g_order g) (g_size g) (g_nodes g)
    (fun v => match g_neighbors g v with Ok l => Ok (front_row (next W v) l) | m => m end)
    (g_has_node g) (g_degree g) (g_edges g) (g_has_edge g).

Lemma front_row_perm o l : Permutation l (front_row o l).
Proof.
  destruct o as [w|]; [|done]. simpl. induction l as [|b l IH]; [done|].
  rewrite !filter_cons. destruct (decide (b = w)) as [E|E].
  - rewrite decide_False by (intros H; by apply H). simpl. by constructor.
  - rewrite decide_True by done. rewrite <-Permutation_middle. by constructor.
Qed.

Lemma front_reordered g W : reordered g (front g W).
Proof.
  split_and!; try done. intros v. cbn [front g_neighbors].
  destruct (g_neighbors g v); [|done..]. eexists. split; [done|]. apply front_row_perm.
Qed.

Lemma front_prefers g W : is_path g W -> NoDup W -> prefers (front g W) W.
Proof.
  intros Hp Hnd A u w B l b HW Hl Hb. cbn [front g_neighbors] in Hl.
  assert (Huw : adj g u w).
  { rewrite HW in Hp. apply is_path_app in Hp as (_ & Hp & _). by apply is_path_cons2 in Hp as [? _]. }
  destruct Huw as (k & Hk & Hw). rewrite Hk in Hl. injection Hl as <-.
  rewrite HW in Hb |- *. rewrite HW in Hnd. rewrite (next_spec A u w B Hnd) in *. simpl in *.
  destruct (decide (b = w)) as [|Hne]; [by left|]. right; right.
  assert (Hin : w ∈ filter (fun b => b = w) k) by (by apply elem_of_list_filter).
  assert (Hb' : b ∈ filter (fun b => b <> w) k).
  { apply elem_of_app in Hb as [Hb|Hb]; [|done]. apply elem_of_list_filter in Hb as [? _]. done. }
  apply elem_of_list_split in Hin as (l1 & l2 & ->). exists l1, (l2 ++ filter (fun b => b <> w) k).
  split; [by rewrite <-app_assoc|]. apply elem_of_app. by right.
Qed.

(** From [joined] to a simple path. *)
Lemma joined_path g P c d : c ∉ P -> joined g P c d ->
  exists C, is_path g C /\ NoDup C /\ head C = Some c /\ last C = Some d /\ forall z, z ∈ C -> z ∉ P.
Proof.
  intros Hc H. destruct (rtc_chain _ c d H) as (C & Hnd & Hh & Hl & Hp & Hin). exists C.
  split_and!; [|done..|].
  - intros i a b Ha Hb. by apply (Hp i a b).
  - intros z Hz. specialize (Hin z Hz). apply rtc_inv_r in Hin as [<-|(y & _ & _ & _ & Hz')]; done.
Qed.

Section iff.
  Context (g : Graph) (Hg : Lawful g) (Hl : LoopFree g) (r : N) (Hr : r ∈ g_nodes g).

  (** [h] lists each node of the path next, or before it only the previous one. *)
  Lemma tangled_order h P C v c d x : Lawful h -> (forall u w, adj h u w <-> adj g u w) -> r ∈ g_nodes h ->
    (forall steps, depth_first h r steps -> textbook_run h r steps) ->
    prefers h (P ++ C) ->
    is_path g P -> NoDup P -> head P = Some r -> last P = Some v -> adj g v c -> adj g v d -> c <> d ->
    is_path g C -> NoDup C -> head C = Some c -> last C = Some d -> (forall z, z ∈ C -> z ∉ P) -> adj g v x ->
    (x ∈ P -> exists P', P = P' ++ [x; v]) /\ (x ∉ P -> joined g P c x).
  Proof using All.
    intros Hh Hadj Hrh Hall Hpr Hp Hnd Hhd Hlast Hvc Hvd Hcd HC HCnd HCh HCl HCP Hvx.
    assert (Hlh : LoopFree h). { intros w Hw. apply (Hl w). by apply Hadj. }
    destruct (dfs_total h r Hh Hrh) as (T & Hd). pose proof (Hall T Hd) as HT.
    assert (Hpath : is_path h (P ++ C)).
    { intros i a b Ha Hb. apply Hadj. revert i a b Ha Hb. apply is_path_app. split_and!; [done..|].
      intros a b Ha Hb. congruence. }
    assert (HNd : NoDup (P ++ C)).
    { apply NoDup_app. split_and!; [done| |done]. intros z Hz Hz'. by apply (HCP z). }
    destruct (one_part h Hh Hlh r T (proj1 (textbook_rule_iff h Hh r Hrh Hlh T) HT) P C v c d x) as [H1 H2]; try done.
    - intros pre s post Heq. by apply (proj1 (dfs_is_textbook h Hh r Hrh Hlh T HT) Hd pre s post).
    - by apply Hadj.
    - by apply Hadj.
    - split; [done|]. intros Hx. eapply rtc_subrel; [|exact (H2 Hx)].
      intros a b (? & ? & ?). split; [by apply Hadj|done].
  Qed.

  Lemma untangled_only_if :
    (forall h, reordered g h -> forall steps, depth_first h r steps -> textbook_run h r steps) ->
    untangled g r.
  Proof using All.
    intros Hall P v c d x Hp Hnd Hhd Hlast Hvc Hvd Hcd HcP HdP Hj Hvx.
    destruct (joined_path g P c d HcP Hj) as (C & HC & HCnd & HCh & HCl & HCP).
    pose proof (front_reordered g (P ++ C)) as Hre.
    apply (tangled_order (front g (P ++ C)) P C v c d x); try done.
    - by eapply reordered_lawful.
    - by apply reordered_adj.
    - by apply Hall.
    - apply front_prefers.
      + apply is_path_app. split_and!; [done..|]. intros a b Ha Hb. congruence.
      + apply NoDup_app. split_and!; [done| |done]. intros z Hz Hz'. by apply (HCP z).
  Qed.
End iff.

(** ** Edge lists in another order *)
Lemma split_perm {A} (P : A -> Prop) `{!forall x, Decision (P x)} (l : list A) :
  Permutation (filter P l ++ filter (fun x => ~ P x) l) l.
Proof.
  induction l as [|b l IH]; [done|]. rewrite !filter_cons. destruct (decide (P b)) as [E|E].
  - rewrite (decide_False (P := ~ P b)) by tauto. simpl. by constructor.
  - rewrite (decide_True (P := ~ P b)) by done. rewrite <-Permutation_middle. by constructor.
Qed.

Lemma same_edge_sym e f : same_edge e f -> same_edge f e.
Proof. destruct e, f. unfold same_edge. simpl. intros [[= -> ->]|[= -> ->]]; auto. Qed.
Lemma same_edge_trans e f k : same_edge e f -> same_edge f k -> same_edge e k.
Proof. destruct e, f, k. unfold same_edge. simpl. intros [[= -> ->]|[= -> ->]] [[= -> ->]|[= -> ->]]; auto. Qed.

(** The edges of [es] that are in [L], in the order of [L], then the others. *)
Definition first_edges (L es : list (N * N)) : list (N * N) :=
  (L ≫= fun e => filter (fun f => same_edge e f) es) ++ filter (fun f => Forall (fun e => ~ same_edge e f) L) es.

Lemma first_edges_perm L es : ForallOrdPairs (fun e f => ~ same_edge e f) L -> Permutation (first_edges L es) es.
Proof.
  unfold first_edges. induction 1 as [|e L He _ IH].
  { simpl. induction es as [|f es IH]; [done|]. rewrite filter_cons, decide_True by constructor. by constructor. }
  rewrite bind_cons. rewrite <-app_assoc. etrans; [|exact IH].
  rewrite !app_assoc, (Permutation_app_comm (filter _ es) (L ≫= _)), <-!app_assoc. apply Permutation_app; [done|].
  rewrite <-(split_perm (fun f => same_edge e f) (filter (fun f => Forall (fun e => ~ same_edge e f) L) es)).
  rewrite !list_filter_filter. apply Permutation_app; apply reflexive_eq; apply list_filter_iff; intros f.
  - split; [|tauto]. intros Hf. split; [done|]. eapply Forall_impl; [exact He|]. intros k Hk Hkf. apply Hk.
    eapply same_edge_trans; [exact Hf|]. by apply same_edge_sym.
  - rewrite Forall_cons. tauto.
Qed.

Lemma crossed_along_in W e : e ∈ crossed (along W) -> e.1 ∈ W /\ e.2 ∈ W.
Proof.
  intros (s & -> & (A & B & -> & _)%along_in)%elem_of_list_fmap. simpl. set_solver.
Qed.

Lemma along_distinct W : NoDup W -> ForallOrdPairs (fun e f => ~ same_edge e f) (crossed (along W)).
Proof.
  induction W as [|a W IH]; intros Hnd; [constructor|]. destruct W as [|b W]; [constructor|].
  change (crossed (along (a :: b :: W))) with ((a, b) :: crossed (along (b :: W))).
  apply NoDup_cons in Hnd as [Ha Hnd]. constructor; [|by apply IH].
  apply Forall_forall. intros f Hf He. apply crossed_along_in in Hf as [H1 H2].
  destruct f as [x y]. simpl in *. destruct He as [[= -> ->]|[= -> ->]]; done.
Qed.

Lemma distinct_cons e es : distinct_edges (e :: es) <-> distinct_edges es /\ forall f, f ∈ es -> ~ same_edge e f.
Proof.
  unfold distinct_edges. split.
  - intros H. split.
    + intros i j x y Hi Hj Hs. specialize (H (S i) (S j) x y Hi Hj Hs). lia.
    + intros f [j Hj]%elem_of_list_lookup Hs. specialize (H 0 (S j) e f eq_refl Hj Hs). lia.
  - intros [H1 H2] [|i] [|j] x y Hi Hj Hs; simpl in *.
    + done.
    + injection Hi as <-. exfalso. eapply H2; [by eapply elem_of_list_lookup_2|done].
    + injection Hj as <-. exfalso. eapply H2; [by eapply elem_of_list_lookup_2|by apply same_edge_sym].
    + f_equal. by eapply H1.
Qed.

Lemma distinct_perm es es' : Permutation es es' -> distinct_edges es -> distinct_edges es'.
Proof.
  induction 1 as [|e l l' Hp IH|e f l|l1 l2 l3 _ IH1 _ IH2]; [done|..|tauto].
  - rewrite !distinct_cons. intros [H1 H2]. split; [by apply IH|]. intros k. rewrite <-Hp. apply H2.
  - rewrite !distinct_cons. intros [[H1 H2] H3]. split_and!; [done| |].
    + intros k Hk. apply H3. by right.
    + intros k [->|Hk]%elem_of_cons; [|by apply H2]. intros Hs%same_edge_sym. apply (H3 e); [left|done].
Qed.

Lemma first_edges_prefers W es d : NoDup W ->
  (forall u v, (u, v) ∈ crossed (along W) -> (u, v) ∈ es \/ (v, u) ∈ es) ->
  dg_try_from_edges (first_edges (crossed (along W)) es) = Ok d -> prefers (as_graph d) W.
Proof.
  intros Hnd Hin Hd A u w B l b HW Hl Hb.
  destruct (try_from_edges_result _ _ Hd) as (_ & _ & _ & Hobs).
  destruct Hobs as (_ & _ & _ & _ & _ & _ & Hn & _). rewrite Hn in Hl. case_bool_decide; [|done].
  injection Hl as <-. clear Hn. unfold a_neighbors, first_edges in *. cbn [a_edges] in *.
  rewrite bind_app in Hb |- *.
  set (L1 := crossed (along W) ≫= fun e => filter (fun f => same_edge e f) es) in *.
  set (ends := fun e : N * N => (if bool_decide (e.1 = u) then [e.2] else []) ++
    (if bool_decide (e.2 = u) then [e.1] else [])) in *.
  assert (Hends : forall x e, e ∈ L1 -> x ∈ ends e -> same_edge e (u, x)).
  { intros x [p q] HL Hx. clear HL. unfold ends in Hx. simpl in Hx. apply elem_of_app in Hx as [Hx|Hx].
    - case_bool_decide; [|by apply elem_of_nil in Hx]. apply elem_of_list_singleton in Hx as ->. subst. by left.
    - case_bool_decide; [|by apply elem_of_nil in Hx]. apply elem_of_list_singleton in Hx as ->. subst. by right. }
  apply elem_of_app in Hb as [Hb|Hb].
  - apply elem_of_list_bind in Hb as (f & Hbf & HfL).
    pose proof (Hends b f HfL Hbf) as Hs. unfold L1 in HfL.
    apply elem_of_list_bind in HfL as (e & [Hef _]%elem_of_list_filter & He).
    assert (Heb : same_edge e (u, b)) by (by eapply same_edge_trans).
    apply elem_of_list_fmap in He as (s & -> & (A' & B' & HW' & _)%along_in).
    assert (Hnd' := Hnd). rewrite HW in Hnd'. rewrite HW in HW'.
    destruct Heb as [[= Hu Hb']|[= Hu Hb']].
    + rewrite Hu in HW'. destruct (nodup_split _ _ _ _ _ Hnd' HW') as [_ [= ]]. left. congruence.
    + right; left. rewrite Hb', Hu in HW'.
      change (A' ++ b :: u :: B') with (A' ++ [b] ++ u :: B') in HW'. rewrite app_assoc in HW'.
      destruct (nodup_split _ _ _ _ _ Hnd' HW') as [-> _]. by rewrite last_snoc.
  - right; right.
    assert (Hw : w ∈ L1 ≫= ends).
    { assert (Huw : (u, w) ∈ crossed (along W)).
      { apply elem_of_list_fmap. exists (mkStep u w false). split; [done|]. rewrite HW. apply in_along. }
      destruct (Hin u w Huw) as [Hes|Hes].
      - apply elem_of_list_bind. exists (u, w). split.
        + unfold ends. simpl. rewrite bool_decide_eq_true_2 by done. left.
        + unfold L1. apply elem_of_list_bind. exists (u, w). split; [|done].
          apply elem_of_list_filter. split; [by left|done].
      - apply elem_of_list_bind. exists (w, u). split.
        + unfold ends. simpl. rewrite (bool_decide_eq_true_2 (u = u)) by done. apply elem_of_app. right. left.
        + unfold L1. apply elem_of_list_bind. exists (u, w). split; [|done].
          apply elem_of_list_filter. split; [by right|done]. }
    apply elem_of_list_split in Hw as (l1 & l2 & ->). eexists l1, (l2 ++ _).
    split; [by rewrite <-app_assoc|]. apply elem_of_app. by right.
Qed.

Lemma edge_order_only_if es d r : dg_try_from_edges es = Ok d -> LoopFree (as_graph d) ->
  r ∈ g_nodes (as_graph d) ->
  (forall es' d', Permutation es es' -> dg_try_from_edges es' = Ok d' ->
     forall steps, depth_first (as_graph d') r steps -> textbook_run (as_graph d') r steps) ->
  untangled (as_graph d) r.
Proof.
  intros Hd Hl Hr Hall P v c e x Hp Hnd Hhd Hlast Hvc Hve Hce HcP HeP Hj Hvx.
  destruct (joined_path _ P c e HcP Hj) as (C & HC & HCnd & HCh & HCl & HCP).
  assert (Hg : Lawful (as_graph d)). { apply api_lawful. by eapply api_edges. }
  destruct (try_from_edges_result _ _ Hd) as (_ & _ & Hadj & _).
  assert (HNd : NoDup (P ++ C)).
  { apply NoDup_app. split_and!; [done| |done]. intros z Hz Hz'. by apply (HCP z). }
  assert (HPC : is_path (as_graph d) (P ++ C)).
  { apply is_path_app. split_and!; [done..|]. intros a b Ha Hb. congruence. }
  set (es' := first_edges (crossed (along (P ++ C))) es).
  assert (Hperm : Permutation es es'). { symmetry. apply first_edges_perm. by apply along_distinct. }
  destruct (proj2 (try_from_edges_ok es')) as [d' Hd'].
  { eapply distinct_perm; [exact Hperm|]. apply try_from_edges_ok. by exists d. }
  destruct (try_from_edges_result _ _ Hd') as (_ & _ & Hadj' & _).
  assert (Hsame : forall u w, adj (as_graph d') u w <-> adj (as_graph d) u w).
  { intros u w. rewrite Hadj, Hadj', Hperm. done. }
  assert (Hg' : Lawful (as_graph d')). { apply api_lawful. by eapply api_edges. }
  apply (tangled_order (as_graph d) Hg Hl r Hr (as_graph d') P C v c e x); try done.
  - destruct (decide (r = v)) as [->|Hrv].
    + eapply (lawful_adj_l _ Hg'). by apply Hsame.
    + apply (elem_of_is_path (as_graph d') P); [done| | |].
      * intros i a b Ha Hb. apply Hsame. by apply (Hp i).
      * destruct P as [|p [|q P]]; simpl in *; [done|congruence|lia].
      * destruct P; [done|]. injection Hhd as ->. left.
  - by apply (Hall es' d').
  - apply (first_edges_prefers _ es); [done| |done]. intros u w Huw. apply Hadj.
    apply elem_of_list_fmap in Huw as (s & [= -> ->] & (A & B & HW & _)%along_in).
    rewrite HW in HPC. apply is_path_app in HPC as (_ & HPC & _). by apply is_path_cons2 in HPC as [? _].
Qed.

(** ** Narrow rings are untangled *)
Lemma narrow_untangled g r : Lawful g -> narrow_rings g r -> untangled g r.
Proof.
  intros Hg Hnar P v c d x Hp Hnd Hhd Hlast Hvc Hvd Hcd HcP HdP Hj Hvx.
  destruct (joined_path g P c d HcP Hj) as (C & HC & HCnd & HCh & HCl & HCP).
  assert (HvP : v ∈ P) by (apply last_Some in Hlast as [P' ->]; set_solver).
  assert (Hreach : reachable g r v).
  { clear -Hp Hhd Hlast. revert r Hhd. induction P as [|p P IH]; intros r Hhd; [done|]. injection Hhd as ->.
    destruct P as [|q P]; [injection Hlast as ->; constructor|].
    apply is_path_cons2 in Hp as [Hpq Hp]. eapply rtc_l; [exact Hpq|]. by apply IH. }
  assert (Hcyc : on_cycle g v).
  { exists (v :: C). split; [|left]. split_and!.
    - destruct C as [|a [|b C]]; simpl in *; [done|congruence|lia].
    - constructor; [|done]. intros HvC. by apply (HCP v).
    - apply is_path_cons. split; [done|]. intros y Hy. congruence.
    - exists v, d. split_and!; [done| |by apply law_adj_sym]. by destruct C. }
  pose proof (lawful_adj_l g Hg _ _ Hvx) as Hv.
  pose proof (lawful_nbrs g Hg v Hv) as Hnb.
  destruct (Hnar v _ Hreach (law_degree g Hg v _ Hnb)) as [Hloop Hdeg]. destruct (Hdeg Hcyc) as [H3 H2].
  apply adj_nbrs in Hvc, Hvd, Hvx.
  assert (Hxv : x <> v). { intros ->. apply Hloop. by apply adj_nbrs. }
  destruct (decide (x = c)) as [->|Hxc]; [split; [done|]; intros _; constructor|].
  destruct (decide (x = d)) as [->|Hxd]; [split; [done|]; intros _; done|].
  destruct (decide (v = r)) as [Hvr|Hvr].
  { exfalso. specialize (H2 Hvr).
    assert (Hle : length [c; d; x] <= length (nbrs g v)); [|simpl in *; lia].
    apply submseteq_length, NoDup_submseteq.
    - repeat constructor; set_solver.
    - intros y. rewrite !elem_of_cons, elem_of_nil. intros [->|[->|[->|[]]]]; done. }
  apply last_Some in Hlast as [P' ->]. destruct P' as [|q P' _] using rev_ind; [by injection Hhd as ->|].
  assert (Hqv : q ∈ nbrs g v).
  { apply adj_nbrs, law_adj_sym; [done|]. rewrite <-app_assoc in Hp. simpl in Hp.
    apply is_path_app in Hp as (_ & Hp & _). by apply is_path_cons2 in Hp as [? _]. }
  destruct (decide (x = q)) as [->|Hxq].
  { split; [intros _; exists P'; by rewrite <-app_assoc|]. intros Hn. exfalso. apply Hn. set_solver. }
  exfalso. assert (Hle : length [c; d; x; q] <= length (nbrs g v)); [|simpl in *; lia].
  apply submseteq_length, NoDup_submseteq.
  - repeat constructor; set_solver.
  - intros y. rewrite !elem_of_cons, elem_of_nil. intros [->|[->|[->|[->|[]]]]]; done.
Qed.

(** ** A checker *)
Section check.
  Context (g : Graph).

  Fixpoint spread (n : nat) (P S : list N) : list N :=
    match n with
    | 0 => S
    | Datatypes.S n => spread n P (S ++ filter (fun y => y ∉ P /\ y ∉ S) (S ≫= nbrs g))
    end.
  Definition closed_b (P S : list N) : bool :=
    forallb (fun a => forallb (fun b => bool_decide (b ∈ P) || bool_decide (b ∈ S)) (nbrs g a)) S.
  Definition vertex_b (n : nat) (v : N) (R : list N) : bool :=
    forallb (fun c => bool_decide (c ∈ v :: R) ||
      let S := spread n (v :: R) [c] in
      closed_b (v :: R) S &&
      (forallb (fun d => bool_decide (d = c) || bool_decide (d ∉ S)) (nbrs g v) ||
       forallb (fun x => if bool_decide (x ∈ v :: R) then bool_decide (head R = Some x) else bool_decide (x ∈ S))
         (nbrs g v))) (nbrs g v).
  Fixpoint untangled_b (n : nat) (v : N) (R : list N) : bool :=
    match n with
    | 0 => false
    | Datatypes.S n' => vertex_b (n + length R) v R &&
        forallb (fun y => bool_decide (y ∈ v :: R) || untangled_b n' y (v :: R)) (nbrs g v)
    end.

  Lemma spread_joined n P c S : c ∉ P -> (forall y, y ∈ S -> joined g P c y /\ y ∉ P) ->
    forall y, y ∈ spread n P S -> joined g P c y.
  Proof.
    intros Hc. revert S. induction n as [|n IH]; intros S HS y Hy; [by apply HS|].
    apply (IH (S ++ filter (fun y => y ∉ P /\ y ∉ S) (S ≫= nbrs g))); [|done].
    intros z [Hz|Hz]%elem_of_app; [by apply HS|].
    apply elem_of_list_filter in Hz as [[HzP _] (a & Ha & HaS)%elem_of_list_bind]. split; [|done].
    destruct (HS a HaS) as [H1 H2]. eapply rtc_r; [exact H1|]. split_and!; [by apply adj_nbrs|done..].
  Qed.
  Lemma spread_start n P S y : y ∈ S -> y ∈ spread n P S.
  Proof. revert S. induction n as [|n IH]; intros S Hy; [done|]. apply IH. apply elem_of_app. by left. Qed.

  Lemma closed_joined P S c y : closed_b P S = true -> c ∈ S -> joined g P c y -> y ∈ S.
  Proof.
    intros Hb Hc Hj. unfold joined in Hj. induction Hj as [|a b y (Hab & Ha & HbP) _ IH]; [done|].
    apply IH. unfold closed_b in Hb. rewrite forallb_forall in Hb.
    specialize (Hb a (proj1 (elem_of_list_In _ _) Hc)). rewrite forallb_forall in Hb.
    specialize (Hb b (proj1 (elem_of_list_In _ _) (proj1 (adj_nbrs _ _ _) Hab))).
    apply orb_true_iff in Hb as [Hb|Hb]; apply bool_decide_eq_true in Hb; done.
  Qed.

  Lemma vertex_sound n v R c d x : vertex_b n v R = true ->
    adj g v c -> adj g v d -> c <> d -> c ∉ v :: R -> d ∉ v :: R -> joined g (v :: R) c d -> adj g v x ->
    (x ∈ v :: R -> head R = Some x) /\ (x ∉ v :: R -> joined g (v :: R) c x).
  Proof.
    intros Hb Hc Hd Hcd HcP HdP Hj Hx. apply adj_nbrs, elem_of_list_In in Hc, Hd, Hx.
    unfold vertex_b in Hb. rewrite forallb_forall in Hb. specialize (Hb c Hc).
    rewrite bool_decide_eq_false_2 in Hb by done. cbn [orb] in Hb. cbv zeta in Hb.
    apply andb_true_iff in Hb as [Hcl Hb].
    set (S := spread n (v :: R) [c]) in *.
    assert (HcS : c ∈ S) by (apply spread_start; left).
    assert (HS : forall y, y ∈ S -> joined g (v :: R) c y).
    { apply spread_joined; [done|]. intros y ->%elem_of_list_singleton. split; [constructor|done]. }
    assert (HdS : d ∈ S) by (by eapply closed_joined).
    apply orb_true_iff in Hb as [Hb|Hb]; rewrite forallb_forall in Hb.
    - specialize (Hb d Hd). apply orb_true_iff in Hb as [Hb|Hb]; apply bool_decide_eq_true in Hb; [congruence|done].
    - specialize (Hb x Hx). split; intros HxP.
      + rewrite bool_decide_eq_true_2 in Hb by done. by apply bool_decide_eq_true in Hb.
      + rewrite bool_decide_eq_false_2 in Hb by done. apply bool_decide_eq_true in Hb. by apply HS.
  Qed.

  Lemma joined_iff P Q u v : (forall x, x ∈ P <-> x ∈ Q) -> joined g P u v -> joined g Q u v.
  Proof. intros H. apply rtc_subrel. intros a b (? & ? & ?). rewrite <-!H. done. Qed.

  Lemma untangled_sound n v R Q w c d x : untangled_b n v R = true ->
    let P := reverse (v :: R) ++ Q in
    is_path g P -> NoDup P -> last P = Some w ->
    adj g w c -> adj g w d -> c <> d -> c ∉ P -> d ∉ P -> joined g P c d -> adj g w x ->
    (x ∈ P -> exists P', P = P' ++ [x; w]) /\ (x ∉ P -> joined g P c x).
  Proof.
    revert n v R. induction Q as [|y Q IH]; intros n v R Hb P Hp Hnd Hlast Hc Hd Hcd HcP HdP Hj Hx;
      (destruct n as [|n]; [done|]); cbn [untangled_b] in Hb; apply andb_true_iff in Hb as [Hb1 Hb2].
    - unfold P in *. clear P. rewrite app_nil_r in *. rewrite reverse_cons in Hlast. rewrite last_snoc in Hlast.
      injection Hlast as ->. rewrite !elem_of_reverse in *.
      destruct (vertex_sound _ w R c d x Hb1 Hc Hd Hcd HcP HdP) as [H1 H2]; [|done|].
      { eapply joined_iff; [|exact Hj]. intros z. by rewrite elem_of_reverse. }
      split.
      + intros HxP. specialize (H1 HxP). destruct R as [|q R]; [done|]. injection H1 as ->.
        exists (reverse R). rewrite !reverse_cons, <-app_assoc. done.
      + intros HxP. eapply joined_iff; [|exact (H2 HxP)]. intros z. by rewrite elem_of_reverse.
    - assert (Heq : P = reverse (y :: v :: R) ++ Q).
      { unfold P. rewrite (reverse_cons (v :: R) y), <-app_assoc. done. }
      assert (Hvy : adj g v y).
      { unfold P in Hp. apply is_path_app in Hp as (_ & _ & Hp). apply Hp; [|done].
        by rewrite reverse_cons, last_snoc. }
      rewrite forallb_forall in Hb2. specialize (Hb2 y (proj1 (elem_of_list_In _ _) (proj1 (adj_nbrs _ _ _) Hvy))).
      assert (HyR : y ∉ v :: R).
      { intros HyR. unfold P in Hnd. apply NoDup_app in Hnd as (_ & Hnd & _). apply (Hnd y); [|left].
        by apply elem_of_reverse. }
      rewrite bool_decide_eq_false_2 in Hb2 by done. cbn [orb] in Hb2.
      rewrite Heq in *. by apply (IH n y (v :: R)).
  Qed.

  Lemma untangled_check n r : untangled_b n r [] = true -> untangled g r.
  Proof.
    intros Hb P v c d x Hp Hnd Hhd Hlast Hc Hd Hcd HcP HdP Hj Hx.
    destruct P as [|p Q]; [done|]. injection Hhd as ->.
    by apply (untangled_sound n r [] Q v c d x Hb).
  Qed.
End check.

(** ** What the textbook traversal achieves *)
Section complete.
  Context (g : Graph) (Hg : Lawful g) (Hl : LoopFree g) (r : N) (Hr : r ∈ g_nodes g) (Hu : untangled g r).

  Lemma untangled_run steps : depth_first g r steps -> textbook_run g r steps.
  Proof using All.
    intros Hd. destruct (textbook_total g Hg r Hr) as [T HT].
    by rewrite (untangled_textbook g Hg r Hu Hl Hr T steps HT Hd).
  Qed.

  Lemma untangled_dfs steps : depth_first g r steps ->
    (forall v, reachable g r v <-> v ∈ discovered r steps) /\
    (forall u v, reachable g r u -> adj g u v -> times_crossed (u, v) (crossed steps) = 1) /\
    (forall s, s ∈ steps -> cut s = true -> ancestor steps (tid s) (sid s)).
  Proof using All.
    intros Hd. pose proof (untangled_run steps Hd) as HT.
    apply (textbook_rule_iff g Hg r Hr Hl) in HT as [HT1 HT2].
    destruct (dfs_sound g r steps Hg Hd) as (Hs1 & _ & Hs3).
    assert (Hcr : forall u v, u ∈ discovered r steps -> adj g u v -> (u, v) ∈ crossed steps \/ (v, u) ∈ crossed steps).
    { intros u v Hu' Huv. destruct (decide ((u, v) ∈ crossed steps)) as [|H1]; [by left|].
      destruct (decide ((v, u) ∈ crossed steps)) as [|H2]; [by right|]. exfalso. apply (HT2 u v).
      split_and!; [done|done| |done|done]. intros ->. by apply (Hl v). }
    assert (Hall : forall v, reachable g r v -> v ∈ discovered r steps).
    { intros v Hv. unfold reachable in Hv. pattern v. eapply rtc_last; [| |exact Hv]; clear v Hv.
      - left.
      - intros y z _ Hyz Hy. destruct (Hcr y z Hy Hyz) as [H|H]; by apply (crossed_disc g r steps) in H as (? & ? & _). }
    split_and!.
    - intros v. split; [apply Hall|]. intros Hv. unfold discovered in Hv.
      apply elem_of_cons in Hv as [->|Hv]; [constructor|].
      apply elem_of_list_fmap in Hv as (s & -> & [_ Hs]%elem_of_list_filter). by apply Hs1.
    - intros u v Hu' Huv. assert (Hne : u <> v) by (intros ->; by apply (Hl v)).
      assert (Hpos : 0 < times_crossed (u, v) (crossed steps)).
      { apply times_crossed_pos. destruct (Hcr u v (Hall u Hu') Huv) as [H|H];
          [exists (u, v)|exists (v, u)]; (split; [done|]); [by left|by right]. }
      specialize (Hs3 u v Hne). lia.
    - intros s (pre & post & Heq)%elem_of_list_split Hc.
      destruct (HT1 pre s post Heq) as [((H1 & H2 & H3 & H4 & H5) & _) Hcut].
      eapply ancestor_mono; [|apply (open_ancestor g r pre s (tid s) (sid s))].
      + intros x Hx. rewrite Heq. set_solver.
      + apply (upto_prefix g r _ post). rewrite <-app_assoc. simpl. by rewrite <-Heq.
      + split_and!; [by apply Hcut|by apply law_adj_sym|congruence|done|done].
  Qed.

  Lemma untangled_whole : whole_from g r.
  Proof using All.
    intros d Hy. destruct (yields_subgraph g r d Hg Hy) as (_ & _ & Hsub & _).
    destruct Hy as (steps & Hwf & Hd & Hn & He & Hrow & _).
    destruct (untangled_dfs steps Hd) as (H1 & H2 & H3). rewrite Hn. split_and!.
    - intros v. symmetry. apply H1.
    - intros u v Hu'%H1. split; [apply Hsub|]. intros Huv.
      specialize (H2 u v Hu' Huv). apply adj_row; [by apply wf_idx|]. apply Hrow.
      assert (Hpos : 0 < times_crossed (u, v) (crossed steps)) by lia.
      apply times_crossed_pos in Hpos as ([a b] & Hin & [[= -> ->]|[= -> ->]]); auto.
    - apply (dfs_sound g r steps Hg Hd).
    - done.
  Qed.
End complete.

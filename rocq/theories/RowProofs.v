(** The depth-first traversal of a graph whose nodes are listed along a path. *)
From Verif Require Import Outcome GraphModel TraversalModel ComponentsModel PairingModel GreedyModel
  Spec SpecSearch SpecRow GraphProofs EditProofs ConvertProofs EqProofs TraversalProofs BfsProofs DfsProofs
  PathLemmas AcyclicProofs CycleProofs NarrowProofs ComponentsProofs GreedyProofs SearchProofs TextbookProofs.

Lemma nodup_sub (l k : list N) : l `sublist_of` k -> NoDup k -> NoDup l.
Proof.
  induction 1 as [|x l k H IH|x l k H IH]; intros Hnd; [done|..]; apply NoDup_cons in Hnd as [Hx Hnd].
  - constructor; [|by apply IH]. intros Hl. apply Hx. by eapply elem_of_submseteq, sublist_submseteq.
  - by apply IH.
Qed.

Lemma in_sub (l k : list N) x : l `sublist_of` k -> x ∈ l -> x ∈ k.
Proof. intros H Hx. by eapply elem_of_submseteq, sublist_submseteq. Qed.

Lemma filter_none {A} (P : A -> Prop) `{forall x, Decision (P x)} (l : list A) :
  (forall x, x ∈ l -> ~ P x) -> filter P l = [].
Proof.
  induction l as [|x l IH]; intros Hl; [done|]. rewrite filter_cons_False by (apply Hl; left).
  apply IH. intros y Hy. apply Hl. by right.
Qed.

Section row.
  Context (g : Graph) (Hg : Lawful g) (r : N).

  Lemma back_run v S E l Q T :
    (forall u, u ∈ l -> u ∈ S /\ (u = r \/ exists q, (q, u) ∈ E)) ->
    (forall u, u ∈ l -> (v, u) ∉ E) -> NoDup l -> v ∉ l ->
    (forall u, u ∈ l -> ((u, v) ∈ E <-> last S = Some u)) ->
    let C := filter (fun u => u ∈ S /\ last S <> Some u) l in
    textbook g r (E ++ ((fun u => (v, u)) <$> C)) Q T ->
    textbook g r E (((fun u => (v, u)) <$> l) ++ Q) (((fun u => mkStep v u true) <$> C) ++ T).
  Proof using Type.
    revert E. induction l as [|u l IH]; intros E Hin Hvu Hnd Hv Huv C Hrun.
    { subst C. cbn in *. by rewrite app_nil_r in Hrun. }
    apply NoDup_cons in Hnd as [Hul Hnd].
    assert (Hne : v <> u) by (intros ->; apply Hv; left).
    assert (Hvl : v ∉ l) by (intros H; apply Hv; by right).
    destruct (Hin u ltac:(left)) as [HuS Hud].
    rewrite fmap_cons. cbn [app]. subst C. rewrite filter_cons in *.
    destruct (decide (last S = Some u)) as [Hl|Hl].
    - rewrite decide_False in * by tauto. apply tb_skip; [right; apply Huv; [left|done]|].
      apply IH; [..|done]; try done.
      + intros x Hx. apply Hin. by right.
      + intros x Hx. apply Hvu. by right.
      + intros x Hx. apply Huv. by right.
    - rewrite decide_True in * by done. rewrite !fmap_cons in *. cbn [app] in *. apply tb_cut.
      + apply Hvu. left.
      + rewrite Huv by left. done.
      + done.
      + apply IH; [..|by rewrite <-app_assoc]; try done.
        * intros x Hx. destruct (Hin x ltac:(by right)) as [H1 [->|[q Hq]]]; (split; [done|]); [by left|].
          right. exists q. rewrite elem_of_app. by left.
        * intros x Hx. rewrite elem_of_app, elem_of_list_singleton. intros [H|[= ->]]; [|done].
          revert H. apply Hvu. by right.
        * intros x Hx. rewrite elem_of_app, elem_of_list_singleton, <-(Huv x) by (by right).
          split; [|by left]. intros [H|[= Hx1 Hx2]]; [done|]. exfalso. by apply Hne.
  Qed.

  Lemma skip_done E l : (forall e, e ∈ l -> e ∈ E \/ (e.2, e.1) ∈ E) -> textbook g r E l [].
  Proof using Type.
    induction l as [|[a b] l IH]; intros H; [constructor|]. apply tb_skip; [apply (H (a, b)); left|].
    apply IH. intros e He. apply H. by right.
  Qed.

  (** The edges [E] crossed on arrival at [v], after the nodes [S]. *)
  Record arrived (E : list (N * N)) (S : list N) (v : N) : Prop := {
    ar_in : forall a b, (a, b) ∈ E -> a ∈ S /\ b ∈ S ++ [v];
    ar_all : forall a b, a ∈ S -> b ∈ S -> adj g a b -> (a, b) ∈ E \/ (b, a) ∈ E;
    ar_last : forall a, (a, v) ∈ E <-> last S = Some a;
    ar_met : forall a, a ∈ S ++ [v] -> a = r \/ exists q, (q, a) ∈ E;
    ar_root : r ∈ S ++ [v]
  }.

  Lemma row_run (Hrow : in_a_row g) todo : forall S v E P,
    g_nodes g = S ++ v :: todo -> arrived E S v ->
    (forall e, e ∈ P -> adj g e.1 e.2) ->
    forall l, g_neighbors g v = Ok l ->
    textbook g r E (((fun u => (v, u)) <$> l) ++ P) (row_steps g S (v :: todo)).
  Proof using Hg.
    destruct Hrow as (Hl & Hpath & Hsub).
    induction todo as [|w todo IH]; intros S v E P Hn HE HP l Hvl.
    - pose proof (law_nodes g Hg) as Hnd. rewrite Hn in Hnd.
      cbn [row_steps]. rewrite Hvl, app_nil_l.
      pose proof (Hsub v l Hvl) as Hls.
      assert (HlS : forall u, u ∈ l -> u ∈ S).
      { intros u Hu. assert (Huv : adj g v u) by (by exists l). assert (u ∈ g_nodes g) as H by (by eapply (law_adj_node g Hg)).
        rewrite Hn, elem_of_app, elem_of_list_singleton in H. destruct H as [?| ->]; [done|]. by apply Hl in Huv. }
      apply NoDup_app in Hnd as (HndS & HSv & _).
      assert (HvS : v ∉ S) by (intros H; apply (HSv v H); left).
      apply back_run.
      + intros u Hu. split; [by apply HlS|]. apply HE. rewrite elem_of_app. left. by apply HlS.
      + intros u Hu H. apply HE in H as [H _]. done.
      + eapply nodup_sub; [exact Hls|apply Hg].
      + intros H. by apply HvS, HlS.
      + intros u _. apply HE.
      + apply skip_done. intros [a b] He. apply HP in He. cbn [fst snd] in *.
        assert (Ha : a ∈ S ++ [v]) by (rewrite <-Hn; by eapply lawful_adj_l).
        assert (Hb : b ∈ S ++ [v]) by (rewrite <-Hn; by eapply (law_adj_node g Hg)).
        rewrite !elem_of_app, elem_of_list_singleton in *.
        assert (Hnew : forall c, adj g v c -> c ∈ S ->
          (c, v) ∈ E \/ (v, c) ∈ (fun u => (v, u)) <$> filter (fun u => u ∈ S /\ last S <> Some u) l).
        { intros c Hc HcS. destruct (decide (last S = Some c)) as [Hlc|Hlc]; [left; by apply HE|right].
          apply elem_of_list_fmap. exists c. split; [done|]. apply elem_of_list_filter. split; [done|].
          destruct Hc as (l' & Hl' & Hc). rewrite Hvl in Hl'. by injection Hl' as <-. }
        destruct Ha as [Ha| ->], Hb as [Hb| ->].
        * destruct (ar_all _ _ _ HE a b Ha Hb He); tauto.
        * destruct (Hnew a) as [?|?]; [by apply (law_adj_sym g Hg)|done|tauto..].
        * destruct (Hnew b) as [?|?]; [done..|tauto|tauto].
        * by apply Hl in He.
    - pose proof (law_nodes g Hg) as Hnd. rewrite Hn in Hnd.
      apply NoDup_app in Hnd as (HndS & HSv & Hnd).
      apply NoDup_cons in Hnd as [Hvw Hnd]. apply NoDup_cons in Hnd as [Hw Hnd].
      assert (HvS : v ∉ S) by (intros H; apply (HSv v H); left).
      assert (HwS : w ∉ S) by (intros H; apply (HSv w H); right; left).
      assert (Hwv : w <> v) by (intros ->; apply Hvw; left).
      assert (Hadj : adj g v w).
      { apply (Hpath (length S)); rewrite Hn.
        - by rewrite list_lookup_middle.
        - rewrite lookup_app_r by lia. by replace (Datatypes.S (length S) - length S) with 1 by lia. }
      assert (Hwl : w ∈ l) by (destruct Hadj as (l' & Hl' & H); rewrite Hvl in Hl'; by injection Hl' as <-).
      assert (Hvl' : v ∉ l) by (intros H; apply (Hl v); by exists l).
      (* the neighbors: earlier ones, [w], later ones *)
      pose proof (Hsub v l Hvl) as Hls. rewrite Hn in Hls.
      apply sublist_app_r in Hls as (l1 & l2 & -> & Hl1 & Hl2).
      rewrite elem_of_app in Hvl'. rewrite elem_of_app in Hwl.
      assert (Hwl2 : w ∈ l2).
      { destruct Hwl as [H|H]; [|done]. exfalso. by apply HwS, (in_sub l1). }
      apply sublist_cons_r in Hl2 as [Hl2|(l2' & -> & _)].
      2: { exfalso. apply Hvl'. right. left. }
      apply sublist_cons_r in Hl2 as [Hl2|(l2' & -> & Hl2)].
      { exfalso. by apply Hw, (in_sub l2). }
      cbn [row_steps]. rewrite Hvl. fold (row_steps g (S ++ [v]) (w :: todo)).
      set (C := filter (fun u => u ∈ S /\ last S <> Some u) l1).
      assert (HC : filter (fun u => u ∈ S /\ last S <> Some u) (l1 ++ w :: l2') = C).
      { rewrite filter_app, filter_cons_False by tauto. rewrite (filter_none _ l2'); [apply app_nil_r|].
        intros x Hx [HxS _]. apply (HSv x HxS). right. right. by apply (in_sub l2'). }
      rewrite HC. clear HC.
      rewrite fmap_app, fmap_cons. rewrite <-app_assoc. cbn [app].
      assert (HSE : forall a b, (a, b) ∈ E ++ ((fun u => (v, u)) <$> C) -> a ∈ S ++ [v] /\ b ∈ S ++ [v]).
      { intros a b. rewrite elem_of_app, elem_of_list_fmap. intros [H|(x & [= -> ->] & H)].
        - apply HE in H as [H1 H2]. split; [|done]. rewrite elem_of_app. by left.
        - apply elem_of_list_filter in H as [[H _] _]. rewrite !elem_of_app, elem_of_list_singleton. tauto. }
      assert (HwSv : w ∉ S ++ [v]) by (rewrite elem_of_app, elem_of_list_singleton; tauto).
      apply back_run.
      + intros u Hu. split; [by apply (in_sub l1)|]. apply HE. rewrite elem_of_app. left. by apply (in_sub l1).
      + intros u Hu H. apply HE in H as [H _]. done.
      + by eapply nodup_sub.
      + tauto.
      + intros u _. apply HE.
      + fold C.
        assert (Hwn : w ∈ g_nodes g) by (by eapply (law_adj_node g Hg)).
        destruct (law_neighbors g Hg w Hwn) as (lw & Hlw & _).
        apply tb_visit with lw.
        * intros H. by apply HSE in H as [_ H].
        * intros H. by apply HSE in H as [H _].
        * intros ->. by apply HwSv, HE.
        * intros q H. by apply HSE in H as [_ H].
        * done.
        * apply IH; [by rewrite <-app_assoc|..|done].
          -- assert (Hnew : forall c, adj g v c -> c ∈ S -> (c, v) ∈ E \/ c ∈ C).
             { intros c (l' & Hl' & Hc) HcS. rewrite Hvl in Hl'. injection Hl' as <-.
               destruct (decide (last S = Some c)) as [Hlc|Hlc]; [left; by apply HE|right].
               apply elem_of_list_filter. split; [done|]. rewrite elem_of_app, elem_of_cons in Hc.
               destruct Hc as [Hc|[->|Hc]]; [done|done|]. exfalso. apply (HSv c HcS). right. right. by apply (in_sub l2'). }
             split.
             ++ intros a b. rewrite elem_of_app, elem_of_list_singleton. intros [H|[= -> ->]].
                ** apply HSE in H as [H1 H2]. split; [done|]. rewrite elem_of_app. by left.
                ** rewrite !elem_of_app, !elem_of_list_singleton. tauto.
             ++ intros a b. rewrite !elem_of_app, !elem_of_list_singleton, !elem_of_list_fmap.
                intros [Ha| ->] [Hb| ->] Hab.
                ** destruct (ar_all _ _ _ HE a b Ha Hb Hab); tauto.
                ** destruct (Hnew a) as [?|?]; [by apply (law_adj_sym g Hg)|done|tauto|]. right. left. right. by exists a.
                ** destruct (Hnew b) as [?|?]; [done..|tauto|]. left. left. right. by exists b.
                ** by apply Hl in Hab.
             ++ intros a. rewrite last_snoc, elem_of_app, elem_of_list_singleton. split.
                ** intros [H|[= ->]]; [|done]. exfalso. by apply HSE in H as [_ H].
                ** intros [= ->]. by right.
             ++ intros a. rewrite elem_of_app, elem_of_list_singleton. intros [Ha| ->].
                ** apply HE in Ha as [->|[q Hq]]; [by left|right]. exists q. rewrite !elem_of_app. tauto.
                ** right. exists v. rewrite !elem_of_app, elem_of_list_singleton. tauto.
             ++ rewrite elem_of_app. left. apply HE.
          -- intros e. rewrite elem_of_app, elem_of_list_fmap. intros [(x & -> & Hx)|He]; [|by apply HP].
             exists (l1 ++ w :: l2'). split; [done|]. rewrite elem_of_app, elem_of_cons. tauto.
  Qed.

  Lemma row_textbook todo : in_a_row g -> g_nodes g = r :: todo -> textbook_run g r (row_steps g [] (r :: todo)).
  Proof using Hg.
    intros Hrow Hn. assert (Hr : r ∈ g_nodes g) by (rewrite Hn; left).
    destruct (law_neighbors g Hg r Hr) as (l & Hl & _). exists l. split; [done|].
    rewrite <-(app_nil_r ((fun x => (r, x)) <$> l)). apply row_run; try done.
    - split.
      + by intros a b ?%elem_of_nil.
      + by intros a b ?%elem_of_nil.
      + intros a. split; [by intros ?%elem_of_nil|done].
      + intros a ->%elem_of_list_singleton. by left.
      + left.
    - by intros e ?%elem_of_nil.
  Qed.

  Lemma row_sources todo : forall S s, s ∈ row_steps g S todo -> sid s ∈ todo.
  Proof using Type.
    induction todo as [|x l IH]; intros S s Hs; [by apply elem_of_nil in Hs|].
    cbn [row_steps] in Hs. rewrite !elem_of_app in Hs. destruct Hs as [Hs|[Hs|Hs]].
    - apply elem_of_list_fmap in Hs as (u & -> & _). left.
    - destruct l as [|y l]; [by apply elem_of_nil in Hs|]. apply elem_of_list_singleton in Hs as ->. left.
    - right. by eapply IH.
  Qed.

  (** After a step to a new node, the steps start there or later. *)
  Lemma row_later todo : forall S A s B, row_steps g S todo = A ++ s :: B -> cut s = false ->
    exists M T', todo = M ++ tid s :: T' /\ last M = Some (sid s) /\
      (forall s', s' ∈ B -> sid s' ∈ tid s :: T') /\
      (forall s', s' ∈ A -> cut s' = false -> tid s' ∈ M) /\
      (forall x T, M = x :: T -> forall y, y ∈ T -> exists s', s' ∈ A /\ cut s' = false /\ tid s' = y).
  Proof using Type.
    induction todo as [|v todo IH]; intros S A s B Heq Hcut; [by destruct A|].
    cbn [row_steps] in Heq. revert Heq.
    set (C := filter _ _). clearbody C. intros Heq.
    assert (HA : exists A', A = ((fun u => mkStep v u true) <$> C) ++ A' /\
      match todo with w :: _ => [mkStep v w false] | [] => [] end ++ row_steps g (S ++ [v]) todo = A' ++ s :: B).
    { clear IH. revert A Heq. induction C as [|c C IHC]; intros A Heq; [by exists A|].
      rewrite fmap_cons in Heq. destruct A as [|a A]; cbn [app] in Heq; injection Heq as Hs Heq.
      - rewrite <-Hs in Hcut. done.
      - destruct (IHC A Heq) as (A' & -> & HA). exists A'. by rewrite <-Hs. }
    destruct HA as (A' & -> & HA). clear Heq.
    destruct todo as [|w todo]; [by destruct A'|].
    destruct A' as [|a A']; cbn [app] in HA; injection HA as Hs HA.
    - rewrite <-Hs. cbn [sid tid]. exists [v], todo.
      split; [done|]. split; [done|]. split; [|split].
      + intros s' Hs'. rewrite <-HA in Hs'.
        by apply (row_sources (w :: todo) (S ++ [v])).
      + intros s' Hs' Hc. rewrite app_nil_r in Hs'. apply elem_of_list_fmap in Hs' as (u & -> & _). done.
      + intros x T [= <- <-] y Hy. by apply elem_of_nil in Hy.
    - destruct (IH (S ++ [v]) A' s B HA Hcut) as (M & T' & Heq & Hlast & H1 & H2 & H3).
      destruct M as [|w' M]; [done|]. injection Heq as <- Heq.
      exists (v :: w :: M), T'. split; [by rewrite Heq|]. split; [done|]. split; [done|]. split.
      + intros s' Hs' Hc. rewrite elem_of_app, elem_of_cons in Hs'. destruct Hs' as [Hs'|[->|Hs']].
        * apply elem_of_list_fmap in Hs' as (u & -> & _). done.
        * rewrite <-Hs. right. left.
        * right. by apply H2.
      + intros x T [= <- <-] y [->|Hy]%elem_of_cons.
        * exists a. rewrite elem_of_app, elem_of_cons, <-Hs. tauto.
        * destruct (H3 w M eq_refl y Hy) as (s' & Hs' & Hc & Ht). exists s'. rewrite elem_of_app, elem_of_cons. tauto.
  Qed.

  Lemma row_not_bypassed todo : NoDup (r :: todo) -> forall pre s post,
    row_steps g [] (r :: todo) = pre ++ s :: post -> ~ bypassed g r pre (sid s).
  Proof using Type.
    intros Hnd pre s post Heq (p1 & s1 & p2 & -> & Hc & Hd & _ & Hne).
    rewrite <-app_assoc in Heq. cbn [app] in Heq.
    destruct (row_later _ _ _ _ _ Heq Hc) as (M & T' & Hn & Hlast & Hlate & Hearly & _).
    rewrite Hn in Hnd. apply NoDup_app in Hnd as (_ & Hdis & _).
    apply (Hdis (sid s)); [|apply Hlate; rewrite elem_of_app; right; left].
    unfold discovered in Hd. apply elem_of_cons in Hd as [->|Hd].
    - destruct M as [|x M]; [done|]. injection Hn as <- _. left.
    - apply elem_of_list_fmap in Hd as (s' & -> & Hd). apply elem_of_list_filter in Hd as [Hc' Hd].
      by apply Hearly.
  Qed.

  Lemma row_depth_first todo : in_a_row g -> g_nodes g = r :: todo -> depth_first g r (row_steps g [] (r :: todo)).
  Proof using Hg.
    intros Hrow Hn. assert (Hr : r ∈ g_nodes g) by (rewrite Hn; left).
    apply (dfs_is_textbook g Hg r Hr (proj1 Hrow) _ (row_textbook todo Hrow Hn)).
    apply row_not_bypassed. rewrite <-Hn. apply Hg.
  Qed.

  Lemma row_discovered todo : discovered r (row_steps g [] (r :: todo)) = r :: todo.
  Proof using Type.
    unfold discovered. f_equal. generalize (@nil N). generalize r. induction todo as [|w todo IH]; intros v S.
    - cbn [row_steps]. rewrite !filter_app, filter_none; [done|].
      intros x (u & -> & _)%elem_of_list_fmap. done.
    - cbn [row_steps]. rewrite filter_app, filter_none; [|intros x (u & -> & _)%elem_of_list_fmap; done].
      rewrite filter_app, filter_cons_True by done. rewrite filter_nil. cbn [app]. rewrite fmap_cons. cbn [tid].
      f_equal. apply IH.
  Qed.

  Lemma row_all_crossed todo : in_a_row g -> g_nodes g = r :: todo -> forall u v, adj g u v ->
    (u, v) ∈ crossed (row_steps g [] (r :: todo)) \/ (v, u) ∈ crossed (row_steps g [] (r :: todo)).
  Proof using Hg.
    intros Hrow Hn u v Huv. assert (Hr : r ∈ g_nodes g) by (rewrite Hn; left).
    pose proof (row_textbook todo Hrow Hn) as HT. apply (textbook_rule_iff g Hg) in HT; [|done|apply Hrow].
    destruct HT as [_ Hno].
    assert (Hdec : forall x : N * N, x ∈ crossed (row_steps g [] (r :: todo)) \/ x ∉ crossed (row_steps g [] (r :: todo))).
    { intros x. destruct (decide (x ∈ crossed (row_steps g [] (r :: todo)))); tauto. }
    destruct (Hdec (u, v)) as [?|H1]; [by left|]. destruct (Hdec (v, u)) as [?|H2]; [by right|]. exfalso.
    apply (Hno u v). split; [|split; [done|split; [|done]]].
    - rewrite row_discovered, <-Hn. by eapply lawful_adj_l.
    - intros ->. by apply Hrow in Huv.
  Qed.
End row.

Section pairs.
  Context (g : Graph).

  Lemma row_split S1 : forall S0 u L, exists pre, row_steps g S0 (S1 ++ u :: L) = pre ++ row_steps g (S0 ++ S1) (u :: L) /\
    (forall s, s ∈ pre -> sid s ∈ S1 /\ ((cut s = true /\ tid s ∈ S0 ++ S1) \/
       (cut s = false /\ exists P Q, S1 ++ [u] = P ++ sid s :: tid s :: Q))) /\
    (forall x, last S1 = Some x -> mkStep x u false ∈ pre).
  Proof using Type.
    induction S1 as [|v S1 IH]; intros S0 u L.
    { exists []. rewrite app_nil_r. split_and!; [done| |done]. by intros s ?%elem_of_nil. }
    destruct (IH (S0 ++ [v]) u L) as (pre & Heq & Hpre & Hlast).
    rewrite <-app_assoc in Heq, Hpre. cbn [app] in *. cbn [row_steps]. set (C := filter _ _).
    assert (Hnext : exists w, match S1 ++ u :: L with w :: _ => [mkStep v w false] | [] => [] end = [mkStep v w false] /\
      exists Q, S1 ++ [u] = w :: Q) by (destruct S1 as [|w S1]; eexists; cbn [app]; eauto).
    destruct Hnext as (w & -> & Q & HQ). rewrite Heq.
    exists (((fun u => mkStep v u true) <$> C) ++ [mkStep v w false] ++ pre).
    split; [rewrite <-app_assoc; reflexivity|]. split.
    - intros s Hs. rewrite !elem_of_app, elem_of_list_singleton in Hs. destruct Hs as [Hs|[->|Hs]].
      + apply elem_of_list_fmap in Hs as (x & -> & Hx). cbn [sid tid cut]. split; [left|]. left. split; [done|].
        apply elem_of_list_filter in Hx as [[Hx _] _]. rewrite elem_of_app. by left.
      + cbn [sid tid cut]. split; [left|]. right. split; [done|]. exists [], Q. cbn [app]. by rewrite HQ.
      + destruct (Hpre s Hs) as [H1 [[H2 H3]|(H2 & P & Q' & H3)]].
        * split; [by right|]. left. done.
        * split; [by right|]. right. split; [done|]. exists (v :: P), Q'. cbn [app]. by rewrite H3.
    - intros x Hx. rewrite !elem_of_app, elem_of_list_singleton. destruct S1 as [|y S1].
      + injection Hx as <-. cbn [app] in HQ. injection HQ as <- _. tauto.
      + right. right. apply Hlast. done.
  Qed.

  (** A cut step leads to a node that steps were made from before. *)
  Lemma row_cut_back todo : forall S A s B, row_steps g S todo = A ++ s :: B -> cut s = true ->
    tid s ∈ S \/ exists s', s' ∈ A /\ sid s' = tid s.
  Proof using Type.
    induction todo as [|v todo IH]; intros S A s B Heq Hcut; [by destruct A|].
    cbn [row_steps] in Heq. revert Heq.
    assert (HC : forall u, u ∈ filter (fun u => u ∈ S /\ last S <> Some u) (match g_neighbors g v with Ok l => l | _ => [] end) -> u ∈ S).
    { by intros u [[? _] _]%elem_of_list_filter. }
    revert HC. set (C := filter _ _). clearbody C. intros HC Heq.
    assert (HA : tid s ∈ S \/ exists A', A = ((fun u => mkStep v u true) <$> C) ++ A' /\
      match todo with w :: _ => [mkStep v w false] | [] => [] end ++ row_steps g (S ++ [v]) todo = A' ++ s :: B).
    { clear IH. revert A Heq. induction C as [|c C IHC]; intros A Heq; [by right; exists A|].
      rewrite fmap_cons in Heq. destruct A as [|a A]; cbn [app] in Heq; injection Heq as Hs Heq.
      - left. rewrite <-Hs. apply HC. left.
      - destruct (IHC ltac:(intros u Hu; apply HC; by right) A Heq) as [?|(A' & -> & HA)]; [by left|right].
        exists A'. by rewrite <-Hs. }
    destruct HA as [?|(A' & -> & HA)]; [by left|]. clear Heq.
    destruct todo as [|w todo]; [by destruct A'|].
    destruct A' as [|a A']; cbn [app] in HA; injection HA as Hs HA.
    - by rewrite <-Hs in Hcut.
    - destruct (IH (S ++ [v]) A' s B HA Hcut) as [Ht|(s' & Hs' & Ht)].
      + rewrite elem_of_app, elem_of_list_singleton in Ht. destruct Ht as [?|Ht]; [by left|]. right. exists a.
        rewrite elem_of_app, elem_of_cons, <-Hs, Ht. cbn [sid]. tauto.
      + right. exists s'. rewrite elem_of_app, elem_of_cons. tauto.
  Qed.

  Context (p : Pairing) (L : list N) (Hnd : NoDup L).
  Context (Hrule : forall u v, p !! u = Some v <-> taken (row_steps g [] L) p u v).

  Lemma row_pairs_consecutive u v : p !! u = Some v ->
    exists S T, L = S ++ u :: v :: T \/ L = S ++ v :: u :: T.
  Proof using Hrule.
    intros Huv. apply Hrule in Huv as (pre & s & post & Heq & Hor & Hpre).
    destruct (cut s) eqn:Hc.
    - exfalso. destruct (row_cut_back _ _ _ _ _ Heq Hc) as [?%elem_of_nil|(s' & Hs' & Ht)]; [done|].
      destruct (Hpre s' Hs') as (H1 & H2 & _). rewrite Ht in *. destruct Hor as [[= -> ->]|[= -> ->]]; done.
    - destruct (row_later _ _ _ _ _ _ Heq Hc) as (M & T & HL & Hlast & _).
      apply last_Some in Hlast as (S & ->). rewrite <-app_assoc in HL. cbn [app] in HL.
      exists S, T. destruct Hor as [[= -> ->]|[= -> ->]]; tauto.
  Qed.

  Lemma row_pair S u w T : L = S ++ u :: w :: T -> LoopFree g -> (forall l, g_neighbors g u = Ok l -> NoDup l) ->
    symmetric_pairing p ->
    (p !! u = Some w <->
      (forall x, x ∈ S -> adj g u x -> last S = Some x) /\ (forall x, last S = Some x -> p !! x <> Some u)).
  Proof using Hnd Hrule.
    intros HL Hl Hnb Hsym. rewrite HL in Hnd.
    destruct (row_split S [] u (w :: T)) as (pre & Heq & Hpre & Hlast). cbn [app] in Heq, Hpre.
    rewrite Hrule, HL, Heq. cbn [row_steps]. set (C := filter _ _).
    assert (HC : C = [] <-> forall x, x ∈ S -> adj g u x -> last S = Some x).
    { subst C. split.
      - intros HC x Hx (l & Hnl & Hxl). rewrite Hnl in HC. destruct (decide (last S = Some x)) as [?|Hn]; [done|].
        exfalso. apply (not_elem_of_nil x). rewrite <-HC. apply elem_of_list_filter. done.
      - intros HS. apply filter_none. intros x Hx [H1 H2]. apply H2, HS; [done|].
        destruct (g_neighbors g u) as [l|?|?|] eqn:Hnl; [by exists l|by apply elem_of_nil in Hx..]. }
    apply NoDup_app in Hnd as (HndS & Hdis & Hnd'). apply NoDup_cons in Hnd' as [Huw Hnd'].
    assert (HuS : u ∉ S) by (intros H; apply (Hdis u H); left).
    assert (HwS : w ∉ S) by (intros H; apply (Hdis w H); right; left).
    assert (Hne : u <> w) by (intros ->; apply Huw; left).
    assert (Hprew : forall s, s ∈ pre -> tid s <> w /\ sid s <> w /\ sid s <> u).
    { intros s Hs. destruct (Hpre s Hs) as [H1 H2]. split_and!; [|intros E; rewrite E in H1; done..].
      intros Ht. rewrite Ht in H2. destruct H2 as [[_ H2]|(_ & P & Q & H2)]; [done|].
      assert (Hin : w ∈ S ++ [u]) by (rewrite H2, elem_of_app, !elem_of_cons; tauto).
      rewrite elem_of_app, elem_of_list_singleton in Hin. destruct Hin as [?|?]; [done|by apply Hne]. }
    assert (Hpreu : forall s, s ∈ pre -> tid s = u -> last S = Some (sid s)).
    { intros s Hs Ht. destruct (Hpre s Hs) as [H1 [[_ H2]|(_ & P & Q & H2)]]; rewrite Ht in H2; [done|].
      destruct Q as [|q Q _] using rev_ind.
      - change [sid s; u] with ([sid s] ++ [u]) in H2. rewrite app_assoc in H2.
        apply app_inj_tail in H2 as [-> _]. apply last_snoc.
      - exfalso. rewrite app_comm_cons, app_comm_cons, app_assoc in H2. apply app_inj_tail in H2 as [H2 _].
        apply HuS. rewrite H2, elem_of_app, !elem_of_cons. tauto. }
    rewrite <-HC. split.
    - intros (p1 & s & p2 & Hs & Hor & Hp1).
      assert (HsS : sid s ∉ S) by (destruct Hor as [[= Ha Hb]|[= Ha Hb]]; congruence).
      assert (Hp : exists p1', p1 = pre ++ p1').
      { assert (Hs' : s ∉ pre) by (intros H; apply HsS; by apply Hpre). clear -Hs Hs'. revert pre Hs Hs'.
        induction p1 as [|x p1 IH]; intros [|y pre] Hs Hs'; cbn [app] in Hs; [by exists []|..].
        - injection Hs as Hs _. exfalso. apply Hs'. rewrite Hs. left.
        - by exists (x :: p1).
        - injection Hs as -> Hs. destruct (IH pre Hs) as (l & ->); [|by exists l]. intros H. apply Hs'. by right. }
      destruct Hp as [p1' ->]. rewrite <-(app_assoc pre p1') in Hs. apply app_inv_head in Hs.
      assert (HCn : C = []).
      { destruct C as [|c C'] eqn:EC; [done|]. exfalso. rewrite fmap_cons in Hs. cbn [app] in Hs.
        assert (HcS : c ∈ S).
        { assert (Hc : c ∈ C) by (rewrite EC; left). unfold C in Hc. by apply elem_of_list_filter in Hc as [[? _] _]. }
        destruct p1' as [|x p1']; cbn [app] in Hs; injection Hs as Hs _.
        - rewrite <-Hs in Hor. cbn [sid tid] in Hor. destruct Hor as [[= <-]|[= _ H]]; [done|by apply Hne].
        - destruct (Hp1 x) as (H & _); [rewrite elem_of_app; right; left|]. by rewrite <-Hs in H. }
      split; [done|]. intros x Hx. apply Hlast in Hx.
      destruct (Hp1 (mkStep x u false)) as (_ & _ & H); [rewrite elem_of_app; by left|]. apply H. by left.
    - intros [HCn Hlp]. rewrite HCn. exists pre, (mkStep u w false), (row_steps g (S ++ [u]) (w :: T)).
      split; [done|]. split; [by left|]. intros s Hs. destruct (Hprew s Hs) as (H1 & H2 & H3). split_and!; [done..|].
      intros [Ht|Ht]; [|done]. rewrite Ht. apply Hlp. by apply Hpreu.
  Qed.
End pairs.

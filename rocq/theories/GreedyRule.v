(** Which edges greedy() takes, on any loop-free graph. *)
From Verif Require Import Outcome GraphModel TraversalModel ComponentsModel PairingModel GreedyModel
  Spec GraphProofs EditProofs ConvertProofs EqProofs TraversalProofs BfsProofs DfsProofs PathLemmas
  AcyclicProofs CycleProofs NarrowProofs ComponentsProofs PairingProofs GreedyProofs.

Record RInv (E : list Step) (st : gset N * Pairing) : Prop := {
  ri_sym : symmetric_pairing st.2;
  ri_used : forall x, x ∈ st.1 <->
    (exists s, s ∈ E /\ sid s = x) \/ (exists s, s ∈ E /\ tid s = x /\ st.2 !! sid s = Some x);
  ri_dom : forall x, is_Some (st.2 !! x) -> x ∈ st.1;
  ri_rule : forall u v, st.2 !! u = Some v <-> u <> v /\ taken E st.2 u v
}.

Lemma taken_snoc E s (p p' : Pairing) u v :
  (forall s', s' ∈ E -> p' !! sid s' = p !! sid s') ->
  taken (E ++ [s]) p' u v <-> taken E p u v \/
    (((u, v) = (sid s, tid s) \/ (u, v) = (tid s, sid s)) /\
     forall s', s' ∈ E -> sid s' <> u /\ sid s' <> v /\
       ((tid s' = u \/ tid s' = v) -> p !! sid s' <> Some (tid s'))).
Proof.
  intros Hp. split.
  - intros (E1 & x & E2 & Heq & Hx & Hb). destruct E2 as [|y E2] using rev_ind.
    + apply app_inj_tail in Heq as [-> ->]. right. split; [done|]. intros s' Hs'.
      destruct (Hb s' Hs') as (? & ? & H). rewrite Hp in H by done. done.
    + clear IHE2. rewrite app_comm_cons, app_assoc in Heq. apply app_inj_tail in Heq as [-> _]. left.
      exists E1, x, E2. split_and!; [done|done|]. intros s' Hs'.
      destruct (Hb s' Hs') as (? & ? & H). rewrite Hp in H; [done|]. set_solver.
  - intros [(E1 & x & E2 & -> & Hx & Hb)|[Hx Hb]].
    + exists E1, x, (E2 ++ [s]). split_and!; [by rewrite <-app_assoc|done|].
      intros s' Hs'. destruct (Hb s' Hs') as (? & ? & H). rewrite Hp; [done|]. set_solver.
    + exists E, s, []. split_and!; [done|done|]. intros s' Hs'.
      destruct (Hb s' Hs') as (? & ? & H). rewrite Hp; done.
Qed.

Lemma rinv_step E st s : RInv E st -> RInv (E ++ [s]) (greedy_step st s).
Proof.
  destruct st as [V p]. intros [Hsym Hused Hdom Hrule]. cbn [fst snd] in *.
  unfold greedy_step. case_bool_decide as H1; [|case_bool_decide as H2].
  - split; cbn [fst snd]; [done| |done|].
    + intros x. rewrite Hused. split.
      * intros [(s' & Hs' & <-)|(s' & Hs' & <- & Hp)]; [left|right]; exists s'; set_solver.
      * intros [(s' & [Hs'| ->%elem_of_list_singleton]%elem_of_app & <-)|
                (s' & [Hs'| ->%elem_of_list_singleton]%elem_of_app & <- & Hp)].
        -- left. eauto.
        -- by apply Hused.
        -- right. eauto.
        -- apply Hused, Hdom. apply Hsym in Hp as [Hp _]. eauto.
    + intros u v. rewrite (taken_snoc E s p p) by done. rewrite Hrule. split; [tauto|].
      intros [Hne [|[Huv Hb]]]; [done|]. exfalso.
      apply Hused in H1 as [(s' & Hs' & Heq)|(s' & Hs' & Heq & Hp)]; destruct (Hb s' Hs') as (? & ? & H).
      * destruct Huv as [[= -> ->]|[= -> ->]]; congruence.
      * apply H; [|congruence]. destruct Huv as [[= -> ->]|[= -> ->]]; auto.
  - assert (HtV : sid s = tid s \/ tid s ∈ V) by set_solver. split; cbn [fst snd]; [done| |set_solver|].
    + intros x. rewrite elem_of_union, elem_of_singleton, Hused. split.
      * intros [->|[(s' & Hs' & <-)|(s' & Hs' & <- & Hp)]].
        -- left. exists s. set_solver.
        -- left. exists s'. set_solver.
        -- right. exists s'. set_solver.
      * intros [(s' & [Hs'| ->%elem_of_list_singleton]%elem_of_app & <-)|
                (s' & [Hs'| ->%elem_of_list_singleton]%elem_of_app & <- & Hp)].
        -- right. left. eauto.
        -- by left.
        -- right. right. eauto.
        -- destruct H1. apply Hdom. eauto.
    + intros u v. rewrite (taken_snoc E s p p) by done. rewrite Hrule. split; [tauto|].
      intros [Hne [|[Huv Hb]]]; [done|]. exfalso. destruct HtV as [Heq|HtV].
      { destruct Huv as [[= -> ->]|[= -> ->]]; congruence. }
      apply Hused in HtV as [(s' & Hs' & Heq)|(s' & Hs' & Heq & Hp)]; destruct (Hb s' Hs') as (? & ? & H).
      * destruct Huv as [[= -> ->]|[= -> ->]]; congruence.
      * apply H; [|congruence]. destruct Huv as [[= -> ->]|[= -> ->]]; auto.
  - assert (HtV : tid s ∉ V) by set_solver.
    assert (Hne : sid s <> tid s) by set_solver.
    assert (Hfree : forall x, x ∉ V -> p !! x = None /\ forall y, p !! y <> Some x).
    { intros x Hx. split.
      - destruct (p !! x) eqn:Hp; [|done]. destruct Hx. apply Hdom. eauto.
      - intros y Hy. apply Hx, Hdom. apply Hsym in Hy as [Hy _]. eauto. }
    destruct (Hfree _ H1) as [Hs0 Hs1]. destruct (Hfree _ HtV) as [Ht0 Ht1].
    assert (Hp' : forall x, p_pair p (sid s) (tid s) !! x =
      if bool_decide (x = sid s) then Some (tid s) else if bool_decide (x = tid s) then Some (sid s)
      else p !! x).
    { intros x. rewrite pair_lookup by done. repeat case_bool_decide; try done. naive_solver. }
    assert (HpE : forall s', s' ∈ E -> p_pair p (sid s) (tid s) !! sid s' = p !! sid s').
    { intros s' Hs'. rewrite Hp'. assert (sid s' ∈ V) by (apply Hused; eauto).
      rewrite !bool_decide_eq_false_2 by congruence. done. }
    split; cbn [fst snd].
    + by apply pair_symmetric.
    + intros x. rewrite !elem_of_union, !elem_of_singleton, Hused. split.
      * intros [->|[->|[(s' & Hs' & <-)|(s' & Hs' & <- & Hp)]]].
        -- right. exists s. split_and!; [set_solver|done|]. rewrite Hp'. by rewrite bool_decide_eq_true_2.
        -- left. exists s. set_solver.
        -- left. exists s'. set_solver.
        -- right. exists s'. rewrite HpE by done. set_solver.
      * intros [(s' & [Hs'| ->%elem_of_list_singleton]%elem_of_app & <-)|
                (s' & [Hs'| ->%elem_of_list_singleton]%elem_of_app & <- & Hp)].
        -- right. right. left. eauto.
        -- by right; left.
        -- rewrite HpE in Hp by done. right. right. right. eauto.
        -- by left.
    + intros x [y Hx]. rewrite Hp' in Hx. repeat case_bool_decide; [set_solver..|].
      assert (x ∈ V) by (apply Hdom; eauto). set_solver.
    + intros u v. rewrite (taken_snoc E s p) by done. rewrite Hp'.
      assert (Hnew : forall s', s' ∈ E -> sid s' <> sid s /\ sid s' <> tid s /\
        ((tid s' = sid s \/ tid s' = tid s) -> p !! sid s' <> Some (tid s'))).
      { intros s' Hs'. assert (sid s' ∈ V) by (apply Hused; eauto).
        split_and!; [congruence|congruence|]. intros [-> | ->]; auto. }
      split.
      * case_bool_decide as Hu1; [|case_bool_decide as Hu2].
        -- intros [= <-]. subst u. split; [done|]. right. split; [by left|done].
        -- intros [= <-]. subst u. split; [done|]. right. split; [by right|]. intros s' Hs'.
           destruct (Hnew s' Hs') as (? & ? & ?). split_and!; tauto.
        -- intros Hp. apply Hrule in Hp as [? ?]. auto.
      * intros [Huv [Hp|[[[= -> ->]|[= -> ->]] _]]].
        -- assert (Hp2 : p !! u = Some v) by (by apply Hrule).
           rewrite !bool_decide_eq_false_2; [done|congruence..].
        -- by rewrite bool_decide_eq_true_2.
        -- rewrite bool_decide_eq_false_2 by congruence. by rewrite bool_decide_eq_true_2.
Qed.

Lemma rinv_fold E st steps : RInv E st ->
  RInv (E ++ steps) (foldl greedy_step st steps).
Proof.
  revert E st. induction steps as [|s steps IH]; intros E st HR; [by rewrite app_nil_r|].
  cbn [foldl]. replace (E ++ s :: steps) with ((E ++ [s]) ++ steps) by (by rewrite <-app_assoc).
  apply IH. by apply rinv_step.
Qed.

(** One run of both loops. *)
Lemma greedy_runs g (Hg : Lawful g) (Hl : LoopFree g) V iter E st : (forall v, v ∈ iter -> v ∈ g_nodes g) ->
  RInv E st ->
  exists ds runs st',
    Forall2 (fun d steps => exists r, head (g_nodes (as_graph d)) = Some r /\
      depth_first (as_graph d) r steps) ds runs /\
    RInv (E ++ concat runs) st' /\ (forall s, s ∈ concat runs -> sid s <> tid s) /\
    (forall fuel, g_size g + length iter < fuel -> c_collect fuel g (mkC V iter) = Ok ds) /\
    (forall fuel, g_size g + length iter < fuel -> greedy_loop fuel g (mkC V iter) st = Ok st'.2).
Proof.
  revert V E st. induction iter as [|r iter IH]; intros V E st Hin HR.
  { exists [], [], st. split_and!; [constructor|by rewrite app_nil_r|set_solver| |]; intros [|fuel] Hf; (done || lia). }
  destruct (decide (r ∈ V)) as [HrV|HrV].
  - destruct (IH V E st) as (ds & runs & st' & H1 & H2 & Hne & H3 & H4); [intros; apply Hin; by right|done|].
    exists ds, runs, st'. split_and!; [done|done|done| |]; intros fuel Hlt; simpl in Hlt.
    + rewrite <-(H3 fuel) by lia. destruct fuel; [done|]. cbn [c_collect]. by rewrite c_next_skip.
    + rewrite <-(H4 fuel) by lia. destruct fuel; [done|]. cbn [greedy_loop]. by rewrite c_next_skip.
  - destruct (c_next_take g Hg Hl V r iter) as (d & V' & Hy & HV' & Hnext); [apply Hin; left|done|].
    destruct (yields_loop_free g r d Hg Hl Hy) as (Hgd & Hld & Hsz & Hh).
    assert (Hr : r ∈ g_nodes (as_graph d)) by (simpl; by eapply yields_root).
    destruct (dfs_total (as_graph d) r Hgd Hr) as (steps & Hd).
    destruct (IH V' (E ++ steps) (foldl greedy_step st steps)) as (ds & runs & st' & H1 & H2 & Hne & H3 & H4).
    { intros; apply Hin; by right. }
    { by apply rinv_fold. }
    exists (d :: ds), (steps :: runs), st'. split_and!.
    + constructor; [by exists r|done].
    + cbn [concat]. by rewrite app_assoc.
    + intros s. cbn [concat]. rewrite elem_of_app. intros [Hs|Hs]; [|by apply Hne]. intros Heq.
      destruct (dfs_sound _ _ _ Hgd Hd) as (HS & _ & _). destruct (HS s Hs) as [Hadj _].
      rewrite Heq in Hadj. by apply (Hld (tid s)).
    + intros [|fuel] Hlt; [lia|]. simpl in Hlt.
      cbn [c_collect]. rewrite Hnext by lia. cbn [cbind]. rewrite H3 by lia. done.
    + intros [|fuel] Hlt; [lia|]. simpl in Hlt.
      cbn [greedy_loop]. rewrite Hnext by lia. cbn [cbind]. rewrite Hh. cbn [expect_some cbind].
      pose proof Hd as (t & n & Ht & _). rewrite Ht. cbn [unwrap cbind].
      rewrite (dfs_collect_size (as_graph d) Hgd Hld r t steps Hd Ht) by lia. cbn [cbind].
      rewrite H4 by lia. done.
Qed.

Lemma rinv_new : RInv [] (∅, p_new).
Proof.
  split; cbn [fst snd].
  - apply new_symmetric.
  - intros x. split; [set_solver|]. intros [(s & Hs & _)|(s & Hs & _)]; by apply elem_of_nil in Hs.
  - intros x [y Hx]. unfold p_new in Hx. by rewrite lookup_empty in Hx.
  - intros u v. unfold p_new. rewrite lookup_empty. split; [done|].
    intros (_ & E1 & s & E2 & H & _). by destruct E1.
Qed.

Lemma greedy_rule g p ds : Lawful g -> LoopFree g -> greedy_is g p -> components_are g ds ->
  exists runs, Forall2 (fun d steps => exists r, head (g_nodes (as_graph d)) = Some r /\
      depth_first (as_graph d) r steps) ds runs /\
    forall u v, p !! u = Some v <-> taken (concat runs) p u v.
Proof.
  intros Hg Hl (n & Hn) (m & Hm).
  destruct (greedy_runs g Hg Hl ∅ (g_nodes g) [] (∅, p_new)) as (ds' & runs & st' & H1 & H2 & Hne & H3 & H4);
    [done|apply rinv_new|].
  exists runs.
  assert (ds' = ds) as ->.
  { specialize (H3 (m + S (g_size g + length (g_nodes g))) ltac:(lia)).
    specialize (Hm (m + S (g_size g + length (g_nodes g))) ltac:(lia)).
    unfold components in Hm. congruence. }
  assert (p = st'.2) as ->.
  { specialize (H4 (n + S (g_size g + length (g_nodes g))) ltac:(lia)).
    specialize (Hn (n + S (g_size g + length (g_nodes g))) ltac:(lia)).
    unfold greedy, components in Hn. congruence. }
  split; [done|]. intros u v. rewrite (ri_rule _ _ H2 u v). split; [by intros []|]. intros H. split; [|done].
  destruct H as (E1 & s & E2 & Heq & Huv & _).
  assert (Hs : sid s <> tid s) by (apply Hne; simpl in Heq; rewrite Heq; set_solver).
  destruct Huv as [[= -> ->]|[= -> ->]]; congruence.
Qed.

(** With self-loops. *)
Lemma greedy_on_rule st ds st' : greedy_on st ds st' -> forall E, RInv E st ->
  exists runs, Forall2 (fun d steps => exists r, head (g_nodes (as_graph d)) = Some r /\
      depth_first (as_graph d) r steps) ds runs /\ RInv (E ++ concat runs) st'.
Proof.
  induction 1 as [st|st d ds r steps st' Hh Hd _ IH]; intros E HR.
  { exists []. rewrite app_nil_r. done. }
  destruct (IH (E ++ steps)) as (runs & H1 & H2); [by apply rinv_fold|].
  exists (steps :: runs). cbn [concat]. rewrite app_assoc. split; [|done]. constructor; [by exists r|done].
Qed.

(** Proofs for C69: traversals that have already been advanced. *)
From Verif Require Import Outcome GraphModel TraversalModel ComponentsModel PairingModel Spec SpecAdvance
  GraphProofs EditProofs TraversalProofs BfsProofs DfsProofs ComponentsProofs LoopProofs.

Fixpoint gadvance {S} (next : S -> comp (option Step * S)) (k : nat) (s : S) : comp (list (option Step) * S) :=
  match k with
  | O => Ok ([], s)
  | Datatypes.S k' => let! r := next s in
            let! r' := gadvance next k' r.2 in
            Ok (r.1 :: r'.1, r'.2)
  end.

Lemma dfs_gadvance k g t : dfs_advance k g t = gadvance (dfs_next g) k t.
Proof.
  revert t. induction k as [|k IH]; intros t; cbn; [done|].
  destruct (dfs_next g t); cbn; [|done..]. by rewrite IH.
Qed.
Lemma bfs_gadvance k g t : bfs_advance k g t = gadvance (bfs_next g) k t.
Proof.
  revert t. induction k as [|k IH]; intros t; cbn; [done|].
  destruct (bfs_next g t); cbn; [|done..]. by rewrite IH.
Qed.

Lemma gadvance_spec {S} (next : S -> comp (option Step * S)) :
  (forall s s', next s = Ok (None, s') -> next s' = Ok (None, s')) ->
  forall k n s steps, gcollect next n s = Ok steps ->
  exists outs s', gadvance next k s = Ok (outs, s') /\ length outs = k /\
    (forall i, i < k -> outs !! i = Some (steps !! i)) /\
    exists n', gcollect next n' s' = Ok (drop k steps).
Proof.
  intros Hf. induction k as [|k IH]; intros n s steps Hc.
  { exists [], s. split_and!; [done|done|lia|]. exists n. by rewrite drop_0. }
  destruct n as [|n]; [done|]. pose proof Hc as Hc0. cbn [gcollect] in Hc. cbn [gadvance].
  destruct (next s) as [[[st|] s1]| | |] eqn:En; cbn [cbind] in Hc |- *; [..|done|done|done].
  - apply cbind_ok in Hc as (steps' & Hc & [= <-]).
    destruct (IH n s1 steps' Hc) as (outs & s' & Ha & Hl & Hi & Hr). cbn [snd fst]. rewrite Ha.
    cbn [cbind fst snd]. exists (Some st :: outs), s'. split_and!; [done|by simpl; rewrite Hl| |done].
    intros [|i] Hlt; [done|]. cbn. apply Hi. lia.
  - injection Hc as <-. pose proof (Hf s s1 En) as En1.
    destruct (IH (Datatypes.S n) s1 []) as (outs & s' & Ha & Hl & Hi & Hr).
    { cbn [gcollect]. by rewrite En1. }
    cbn [snd fst]. rewrite Ha. cbn [cbind fst snd]. exists (None :: outs), s'.
    split_and!; [done|by simpl; rewrite Hl| |by rewrite drop_nil in *].
    intros [|i] Hlt; [done|]. cbn. rewrite Hi by lia. by rewrite lookup_nil.
Qed.

Lemma dfs_resume g r k steps : depth_first g r steps ->
  exists outs t, dfs_after g r k outs t /\ length outs = k /\
    (forall i, i < k -> outs !! i = Some (steps !! i)) /\
    exists n, forall fuel, n <= fuel -> dfs_collect fuel g t = Ok (drop k steps).
Proof.
  intros (t0 & n & Ht & Hn). specialize (Hn n ltac:(lia)). rewrite dfs_gcollect in Hn.
  destruct (gadvance_spec (dfs_next g) (dfs_fused g) k n t0 steps Hn)
    as (outs & t & Ha & Hl & Hi & n' & Hc).
  exists outs, t. split_and!; [|done|done|].
  - exists t0. by rewrite dfs_gadvance.
  - exists n'. intros fuel Hf. rewrite dfs_gcollect. by eapply gcollect_mono.
Qed.
Lemma bfs_resume g r k steps : breadth_first g r steps ->
  exists outs t, bfs_after g r k outs t /\ length outs = k /\
    (forall i, i < k -> outs !! i = Some (steps !! i)) /\
    exists n, forall fuel, n <= fuel -> bfs_collect fuel g t = Ok (drop k steps).
Proof.
  intros (t0 & n & Ht & Hn). specialize (Hn n ltac:(lia)). rewrite bfs_gcollect in Hn.
  destruct (gadvance_spec (bfs_next g) (bfs_fused g) k n t0 steps Hn)
    as (outs & t & Ha & Hl & Hi & n' & Hc).
  exists outs, t. split_and!; [|done|done|].
  - exists t0. by rewrite bfs_gadvance.
  - exists n'. intros fuel Hf. rewrite bfs_gcollect. by eapply gcollect_mono.
Qed.

(** [dfs_after] determines its results. *)
Lemma dfs_after_fun g r k o t o' t' : dfs_after g r k o t -> dfs_after g r k o' t' -> o = o' /\ t = t'.
Proof. intros (a & Ha & H) (b & Hb & H'). split; congruence. Qed.
Lemma bfs_after_fun g r k o t o' t' : bfs_after g r k o t -> bfs_after g r k o' t' -> o = o' /\ t = t'.
Proof. intros (a & Ha & H) (b & Hb & H'). split; congruence. Qed.

Lemma table_of_spec g t fuel rest : dfs_collect fuel g t = Ok rest ->
  dfs_into_table fuel g t = Ok (table_of rest).
Proof.
  intros Hc. unfold dfs_into_table. rewrite Hc. cbn [cbind]. f_equal.
  destruct rest as [|s rest]; [done|]. rewrite (table_fold (sid s)) by done. done.
Qed.

Lemma known_discovered E F s x : (E ++ F) !! 0 = Some s ->
  known (E ++ F) (length E) x <-> x ∈ discovered (sid s) E.
Proof.
  intros H0. unfold known, discovered. rewrite elem_of_cons, elem_of_list_fmap. split.
  - intros [(s' & H & <-)|(j & y & Hj & Hy & Hc & <-)].
    + left. congruence.
    + right. rewrite lookup_app_l in Hy by lia. exists y. split; [done|].
      apply elem_of_list_filter. split; [done|]. by eapply elem_of_list_lookup_2.
  - intros [->|(y & -> & [Hc [j Hj]%elem_of_list_lookup]%elem_of_list_filter)].
    + left. by exists s.
    + right. exists j, y. split_and!; [by eapply lookup_lt_Some|by apply lookup_app_l_Some|done|done].
Qed.

Lemma dbuilt_missing r d E s steps :
  DBuilt r d E -> (E = [] -> sid s = r) -> sid s <> tid s ->
  (cut s = false -> tid s ∉ discovered r E) ->
  (sid s ∉ discovered r E -> apply_steps (s :: steps) d = Err (MissingNode (sid s))) /\
  (sid s ∈ discovered r E -> cut s = true -> tid s ∉ discovered r E ->
   apply_steps (s :: steps) d = Err (MissingNode (tid s))).
Proof.
  intros [Hwf He Hn Hr Hrows] Hfirst Hst Hncut.
  assert (exists d1, (if dg_is_empty d then local (dg_add_node d (sid s)) else Ok d) = Ok d1 /\
    WF d1 /\ dg_nodes d1 = discovered r E) as (d1 & E1 & Hwf1 & Hn1).
  { destruct E as [|e0 E0].
    - assert (dg_is_empty d = true) as -> by (by apply is_empty_true).
      destruct (add_node_local d (sid s) Hwf) as (d1 & -> & Hwf1 & Hn1 & He1 & Hr1).
      { rewrite Hn. set_solver. }
      exists d1. split_and!; try done. rewrite Hn1, Hn, (Hfirst eq_refl). done.
    - destruct (dg_is_empty d) eqn:Ed; [apply is_empty_true in Ed; by rewrite Hn in Ed|].
      by exists d. }
  cbn [apply_steps]. rewrite E1. cbn [cbind].
  assert (exists d2, (if cut s then Ok d1 else local (dg_add_node d1 (tid s))) = Ok d2 /\
    WF d2 /\ dg_nodes d2 = discovered r (E ++ [s])) as (d2 & E2 & Hwf2 & Hn2).
  { rewrite discovered_snoc. destruct (cut s) eqn:Ec.
    - exists d1. rewrite app_nil_r. done.
    - destruct (add_node_local d1 (tid s) Hwf1) as (d2 & -> & Hwf2 & Hn2 & He2 & Hr2).
      { rewrite Hn1. by apply Hncut. }
      exists d2. split_and!; try done. by rewrite Hn2, Hn1. }
  rewrite E2. cbn [cbind]. rewrite discovered_snoc in Hn2. split.
  - intros Hs. erewrite add_edge_missing_l; [done|by apply wf_idx|].
    rewrite Hn2. destruct (cut s); set_solver.
  - intros Hs Hc Ht. erewrite add_edge_missing_r; [done|by apply wf_idx|..]; rewrite Hn2, Hc; set_solver.
Qed.

Lemma apply_rest s0 rest : rest !! 0 = Some s0 ->
  (forall s, s ∈ rest -> sid s <> tid s) ->
  (forall u v, u <> v -> times_crossed (u, v) (crossed rest) <= 1) ->
  NoDup (discovered (sid s0) rest) ->
  forall steps E d, rest = E ++ steps -> DBuilt (sid s0) d E ->
  (forall j s, j < length E -> rest !! j = Some s -> ends_known rest j s) ->
  (exists d', apply_steps steps d = Ok d' /\ DBuilt (sid s0) d' rest /\
     forall j s, rest !! j = Some s -> ends_known rest j s) \/
  (exists x, apply_steps steps d = Err (MissingNode x) /\ first_unknown rest x).
Proof.
  intros H0 Hne Honce Hnd. induction steps as [|s steps IH]; intros E d Hrest Hd Hk.
  { left. exists d. rewrite app_nil_r in Hrest. subst E. split_and!; [done|done|].
    intros j s Hj. apply Hk; [by eapply lookup_lt_Some|done]. }
  assert (Hs : rest !! length E = Some s) by (by rewrite Hrest, lookup_app_r, Nat.sub_diag by lia).
  assert (Hkd : forall x, known rest (length E) x <-> x ∈ discovered (sid s0) E).
  { intros x. rewrite Hrest. apply known_discovered. by rewrite <-Hrest. }
  assert (Hst : sid s <> tid s) by (apply Hne; by eapply elem_of_list_lookup_2).
  assert (Hfirst : E = [] -> sid s = sid s0) by (intros ->; simpl in Hs; congruence).
  assert (Hnc : cut s = false -> tid s ∉ discovered (sid s0) E).
  { intros Hc Hin. rewrite Hrest in Hnd. change (s :: steps) with ([s] ++ steps) in Hnd.
    rewrite app_assoc in Hnd. unfold discovered in *. rewrite filter_app, fmap_app in Hnd.
    rewrite app_comm_cons in Hnd. apply NoDup_app in Hnd as (Hnd & _). fold (discovered (sid s0) (E ++ [s])) in Hnd.
    rewrite discovered_snoc, Hc in Hnd. apply NoDup_app in Hnd as (_ & Hd' & _). apply (Hd' (tid s) Hin). left. }
  destruct (dbuilt_missing _ d E s steps Hd Hfirst Hst Hnc) as [Hm1 Hm2].
  destruct (decide (sid s ∈ discovered (sid s0) E)) as [Hin|Hin]; [|right].
  2:{ exists (sid s). split; [by apply Hm1|]. exists (length E), s. split; [done|]. split; [done|].
      left. by rewrite Hkd. }
  destruct (decide (cut s = true /\ tid s ∉ discovered (sid s0) E)) as [[Hc Ht]|Hc]; [right|].
  { exists (tid s). split; [by apply Hm2|]. exists (length E), s. split; [done|]. split; [done|].
    right. by rewrite !Hkd. }
  assert (Hcut : cut s = true -> tid s ∈ discovered (sid s0) E).
  { intros Ht. destruct (decide (tid s ∈ discovered (sid s0) E)); [done|]. exfalso. by apply Hc. }
  destruct (dbuilt_step _ d E s Hd Hfirst Hin Hcut Hnc) as (d' & Hd' & Heq).
  { intros Hx. specialize (Honce (sid s) (tid s) Hst). rewrite Hrest, crossed_app in Honce.
    rewrite times_crossed_app in Honce. change (s :: steps) with ([s] ++ steps) in Honce.
    rewrite crossed_app, times_crossed_app in Honce.
    assert (0 < times_crossed (sid s, tid s) (crossed E)).
    { apply times_crossed_pos. destruct Hx as [Hx|Hx]; eexists; (split; [exact Hx|]);
        [by left|by right]. }
    assert (0 < times_crossed (sid s, tid s) (crossed [s])).
    { apply times_crossed_pos. exists (sid s, tid s). split; [left|by left]. }
    lia. }
  rewrite Heq. apply (IH (E ++ [s])); [by rewrite <-app_assoc|done|].
  intros j x Hj Hx. rewrite app_length in Hj. simpl in Hj.
  destruct (decide (j = length E)) as [->|]; [|apply Hk; [lia|done]].
  rewrite Hs in Hx. injection Hx as <-. split; [by apply Hkd|]. intros Ht. by apply Hkd, Hcut.
Qed.

(** The remaining steps of a traversal meet the hypotheses of [apply_rest]. *)
Lemma rest_facts g r k steps : Lawful g -> LoopFree g -> depth_first g r steps ->
  forall s0, drop k steps !! 0 = Some s0 ->
  (forall s, s ∈ drop k steps -> sid s <> tid s) /\
  (forall u v, u <> v -> times_crossed (u, v) (crossed (drop k steps)) <= 1) /\
  NoDup (discovered (sid s0) (drop k steps)).
Proof.
  intros Hg Hl Hb s0 H0. destruct (dfs_sound g r steps Hg Hb) as (Hs & Hnd & Honce).
  pose proof (dfs_cut_exact g r steps Hg Hb) as Hc. split_and!.
  - intros s Hin Heq. destruct (Hs s) as [Ha _].
    { rewrite <-(take_drop k steps). apply elem_of_app. by right. }
    rewrite Heq in Ha. by apply (Hl (tid s)).
  - intros u v Huv. specialize (Honce u v Huv). rewrite <-(take_drop k steps) in Honce.
    rewrite crossed_app, times_crossed_app in Honce. lia.
  - assert (Hin : sid s0 ∈ discovered r (take k steps)).
    { rewrite lookup_drop, Nat.add_0_r in H0.
      destruct (Hc k s0 H0) as [_ [->|(j & x & Hj & Hx & Hcx & <-)]]; [left|]. right.
      apply elem_of_list_fmap. exists x. split; [done|]. apply elem_of_list_filter. split; [done|].
      apply elem_of_list_lookup_2 with j. by rewrite lookup_take. }
    rewrite <-(take_drop k steps) in Hnd. unfold discovered in *.
    rewrite filter_app, fmap_app, app_comm_cons in Hnd. apply NoDup_app in Hnd as (_ & Hd & Hn).
    apply NoDup_cons. split; [by apply Hd|done].
Qed.

Lemma advanced_graph g r k steps t fuel : Lawful g -> LoopFree g -> depth_first g r steps ->
  dfs_collect fuel g t = Ok (drop k steps) ->
  (exists d, dg_try_from_dfs fuel g t = Ok d /\
     observes d (mkA (table_of (drop k steps)).1 (table_of (drop k steps)).2) /\
     forall i s, drop k steps !! i = Some s -> ends_known (drop k steps) i s) \/
  (exists x, dg_try_from_dfs fuel g t = Err (MissingNode x) /\ first_unknown (drop k steps) x).
Proof.
  intros Hg Hl Hb Hc. unfold dg_try_from_dfs. rewrite (extend_dfs_apply fuel g t _ dg_new Hc).
  destruct (drop k steps) as [|s0 rest] eqn:Er.
  { left. exists dg_new. split_and!; [done| |by intros i s ?].
    apply (dbuilt_observes r dg_new []), dbuilt_new. }
  destruct (rest_facts g r k steps Hg Hl Hb s0) as (H1 & H2 & H3); [by rewrite Er|].
  rewrite Er in H1, H2, H3.
  destruct (apply_rest s0 (s0 :: rest) eq_refl H1 H2 H3 (s0 :: rest) [] dg_new eq_refl
    (dbuilt_new _)) as [(d & Hd & HB & Hk)|(x & Hx & Hk)].
  - simpl. lia.
  - left. exists d. split_and!; [done| |done]. apply dbuilt_observes in HB.
    by rewrite bool_decide_eq_false_2 in HB by done.
  - right. by exists x.
Qed.
Lemma unknown_not_known rest x : first_unknown rest x ->
  ~ forall i s, rest !! i = Some s -> ends_known rest i s.
Proof.
  intros (i & s & Hi & _ & H) Hk. destruct (Hk i s Hi) as [H1 H2].
  destruct H as [[? _]|(_ & ? & ? & _)]; auto.
Qed.

(** ** C70 *)

Lemma c_next_exact g V r iter : Lawful g -> r ∈ g_nodes g -> r ∉ V ->
  exists steps, depth_first g r steps /\
  ((exists d V' n, (forall x, times_crossed (x, x) (crossed steps) <= 1) /\
      observes d (mkA (discovered r steps) (crossed steps)) /\
      (forall v, v ∈ V' <-> v ∈ discovered r steps \/ v ∈ V) /\
      forall fuel, n <= fuel -> c_next fuel g (mkC V (r :: iter)) = Ok (Some d, mkC V' iter)) \/
   (exists x n, crossed_again steps x /\
      forall fuel, n <= fuel -> c_next fuel g (mkC V (r :: iter)) = Panic (PUnwrap (DuplicateEdge x x)))).
Proof.
  intros Hg Hr HrV. destruct (dfs_total g r Hg Hr) as (steps & Hd). exists steps. split; [done|].
  destruct (dfs_graph_gen g r steps Hg Hd) as [(d & (t & n & Ht & Hn) & HB & Hl)|
    (v & (t & n & Ht & Hn) & _ & Hv)].
  2:{ right. exists v, n. split; [done|].
      intros fuel Hf. unfold c_next. simpl. rewrite bool_decide_eq_false_2 by done.
      rewrite Ht. simpl. by rewrite Hn. }
  left. pose proof (dbuilt_observes r d steps HB) as Hobs. destruct HB as [Hwf He Hnd Hrow Hrows].
  unfold c_next. simpl. rewrite bool_decide_eq_false_2 by done. rewrite Ht. simpl.
  destruct (dg_is_empty d) eqn:Ed.
  - apply is_empty_true in Ed.
    assert (steps = []) as -> by (destruct steps; [done|by rewrite Hnd in Ed]).
    destruct (add_node_local d r Hwf) as (d' & Hadd & Hwf' & Hnd' & Hed & Hrd).
    { rewrite Ed. apply not_elem_of_nil. }
    exists d', ({[r]} ∪ V), n. split_and!; [done| |intros v|intros fuel Hf].
    + apply rep_observes. split; [done|by rewrite Hnd', Ed|by rewrite Hed, He|].
      intros u. rewrite Hrd. apply Hrows.
    + unfold discovered. simpl. set_solver.
    + rewrite Hn by done. simpl. rewrite (proj2 (is_empty_true d)) by done. by rewrite Hadd.
  - assert (Hne : steps <> []).
    { intros ->. rewrite (proj2 (is_empty_true d)) in Ed; done. }
    assert (Hnodes : dg_nodes d = discovered r steps) by (rewrite Hnd; by destruct steps).
    exists d, (list_to_set (dg_nodes d) ∪ ({[r]} ∪ V)), n. split_and!; [done| |intros v|intros fuel Hf].
    + by rewrite bool_decide_eq_false_2 in Hobs by done.
    + rewrite Hnodes, !elem_of_union, elem_of_list_to_set, elem_of_singleton.
      unfold discovered. rewrite elem_of_cons. tauto.
    + rewrite Hn by done. simpl. by rewrite Ed.
Qed.

Lemma c_next_done g V fuel : c_next fuel g (mkC V []) = Ok (None, mkC V []).
Proof. done. Qed.
Lemma c_advance_done g V fuel k : c_advance fuel k g (mkC V []) = Ok (replicate k None).
Proof. induction k as [|k IH]; [done|]. cbn [c_advance]. rewrite c_next_done. cbn [cbind fst snd]. by rewrite IH. Qed.

(** The first [k] results. *)
Definition first_calls (ds : list DefaultGraph) (e : option error) (k : nat) : comp (list (option DefaultGraph)) :=
  if k <=? length ds then Ok (Some <$> take k ds)
  else match e with
       | None => Ok ((Some <$> ds) ++ replicate (k - length ds) None)
       | Some e => Panic (PUnwrap e)
       end.

Lemma components_exact g : Lawful g -> forall todo seen V, (forall v, v ∈ todo -> v ∈ g_nodes g) ->
  (forall v, v ∈ V <-> v ∈ seen) ->
  exists ds e n, selects g seen todo ds e /\
    (forall fuel, n <= fuel -> forall k, c_advance fuel k g (mkC V todo) = first_calls ds e k) /\
    (forall fuel, n <= fuel -> c_collect fuel g (mkC V todo) =
       match e with None => Ok ds | Some e => Panic (PUnwrap e) end).
Proof.
  intros Hg. induction todo as [|r todo IH]; intros seen V Hin HV.
  { exists [], None, 1. split_and!; [constructor|..].
    - intros fuel _ k. rewrite c_advance_done. destruct k; [done|]. done.
    - intros [|fuel] Hf; [lia|]. done. }
  destruct (decide (r ∈ V)) as [HrV|HrV].
  { destruct (IH seen V) as (ds & e & n & Hs & Ha & Hc); [intros; apply Hin; by right|done|].
    exists ds, e, n. split_and!; [apply sel_seen; [by apply HV|done]|..].
    - intros fuel Hf [|k]; [by rewrite <-(Ha fuel)|]. rewrite <-(Ha fuel) by done. cbn [c_advance].
      by rewrite c_next_skip.
    - intros fuel Hf. rewrite <-(Hc fuel) by lia. destruct fuel; [done|]. cbn [c_collect].
      by rewrite c_next_skip. }
  destruct (c_next_exact g V r todo Hg) as (steps & Hd & [(d & V' & n1 & Hl & Ho & HV' & Hn)|(x & n & Hx & Hn)]);
    [apply Hin; left|done|..].
  - destruct (IH (discovered r steps ++ seen) V') as (ds & e & n & Hs & Ha & Hc);
      [intros; apply Hin; by right|intros v; rewrite HV', elem_of_app, HV; done|].
    exists (d :: ds), e, (S (n1 + n)). split_and!.
    + eapply sel_yield; try done. by rewrite <-HV.
    + intros fuel Hf [|k]; [done|]. cbn [c_advance]. rewrite Hn by lia. cbn [cbind fst snd].
      rewrite Ha by lia. unfold first_calls. cbn [length].
      change (S k <=? S (length ds)) with (k <=? length ds).
      destruct (k <=? length ds); [done|]. by destruct e.
    + intros [|fuel] Hf; [lia|]. cbn [c_collect]. rewrite Hn by lia. cbn [cbind].
      rewrite Hc by lia. by destruct e.
  - exists [], (Some (DuplicateEdge x x)), (S n). split_and!.
    + eapply sel_fail; [by rewrite <-HV|done|done].
    + intros fuel Hf [|k]; [done|]. cbn [c_advance]. by rewrite Hn by lia.
    + intros [|fuel] Hf; [lia|]. cbn [c_collect]. by rewrite Hn by lia.
Qed.

Lemma crossed_again_fun steps x y : crossed_again steps x -> crossed_again steps y -> x = y.
Proof.
  intros (p & s & q & Hp & Hs1 & Hs2 & Hin & Hle) (p' & s' & q' & Hp' & Hs1' & Hs2' & Hin' & Hle').
  assert (Hno : forall p s q p' s' q' x, p ++ s :: q = p' ++ s' :: q' -> length p < length p' ->
    sid s = x -> tid s = x -> (x, x) ∈ crossed p ->
    (forall y, times_crossed (y, y) (crossed p') <= 1) -> False).
  { clear. intros p s q p' s' q' x Heq Hlt Hs1 Hs2 Hin Hle.
    assert (Hp' : p' = p ++ s :: take (length p' - S (length p)) q).
    { assert (Ht : take (length p') (p ++ s :: q) = p') by (rewrite Heq; by rewrite take_app).
      rewrite <-Ht at 1. rewrite take_app_ge by lia.
      replace (length p' - length p) with (S (length p' - S (length p))) by lia. done. }
    specialize (Hle x). rewrite Hp', crossed_app, times_crossed_app in Hle.
    assert (0 < times_crossed (x, x) (crossed p)).
    { apply times_crossed_pos. exists (x, x). split; [done|by left]. }
    assert (0 < times_crossed (x, x) (crossed (s :: take (length p' - S (length p)) q))).
    { apply times_crossed_pos. exists (x, x). split; [|by left]. unfold crossed. cbn.
      rewrite Hs1, Hs2. left. }
    lia. }
  rewrite Hp in Hp'.
  destruct (decide (length p < length p')) as [Hlt|].
  { destruct (Hno p s q p' s' q' x); try done. }
  destruct (decide (length p' < length p)) as [Hlt|].
  { destruct (Hno p' s' q' p s q y); try done. }
  assert (length p = length p') as Heq by lia. apply app_inj_1 in Hp' as [_ [= -> _]]; [|done]. congruence.
Qed.
Lemma crossed_again_twice steps x : crossed_again steps x -> 2 <= times_crossed (x, x) (crossed steps).
Proof.
  intros (p & s & q & -> & Hs1 & Hs2 & Hin & _). rewrite crossed_app, times_crossed_app.
  assert (0 < times_crossed (x, x) (crossed p)).
  { apply times_crossed_pos. exists (x, x). split; [done|by left]. }
  assert (0 < times_crossed (x, x) (crossed (s :: q))).
  { apply times_crossed_pos. exists (x, x). split; [|by left]. unfold crossed. cbn.
    rewrite Hs1, Hs2. left. }
  lia.
Qed.

Lemma selects_fun g seen todo ds e : selects g seen todo ds e -> forall ds' e', selects g seen todo ds' e' ->
  e = e' /\ Forall2 (fun d d' => exists a, observes d a /\ observes d' a) ds ds'.
Proof.
  induction 1 as [seen|seen v todo ds e Hv _ IH|seen v todo steps d ds e Hv Hd Hl Ho _ IH|
    seen v todo steps x Hv Hd Hx]; intros ds' e' H'; inversion H'; subst; try done.
  - auto.
  - match goal with H : depth_first _ _ _, H2 : depth_first _ _ _ |- _ =>
      pose proof (depth_first_fun _ _ _ _ H H2); subst end.
    match goal with H : selects _ _ todo _ _ |- _ => destruct (IH _ _ H) as [-> ?] end.
    split; [done|]. constructor; [|done]. eauto.
  - match goal with H : depth_first _ _ _, H2 : depth_first _ _ _ |- _ =>
      pose proof (depth_first_fun _ _ _ _ H H2); subst end.
    match goal with H : crossed_again _ _ |- _ => apply crossed_again_twice in H end.
    match goal with H : forall x, _ <= 1, H2 : 2 <= times_crossed (?y, _) _ |- _ => specialize (H y); lia end.
  - match goal with H : depth_first _ _ _, H2 : depth_first _ _ _ |- _ =>
      pose proof (depth_first_fun _ _ _ _ H H2); subst end.
    match goal with H : crossed_again _ _ |- _ => apply crossed_again_twice in H end.
    match goal with H : forall x, _ <= 1, H2 : 2 <= times_crossed (?y, _) _ |- _ => specialize (H y); lia end.
  - match goal with H : depth_first _ _ _, H2 : depth_first _ _ _ |- _ =>
      pose proof (depth_first_fun _ _ _ _ H H2); subst end.
    match goal with H : crossed_again _ ?a, H2 : crossed_again _ ?b |- _ = Some (DuplicateEdge ?b ?b) /\ _ =>
      rewrite (crossed_again_fun _ _ _ H H2) end. done.
Qed.

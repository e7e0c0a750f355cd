(** Traversals of graphs that obey no law. *)
From Verif Require Import Outcome GraphModel TraversalModel ComponentsModel PairingModel Spec SpecDirected
  GraphProofs EditProofs ConvertProofs EqProofs TraversalProofs BfsProofs BfsOrder DfsProofs.

(** ** Running any traversal *)

Section run.
  Context {S : Type} (next : S -> comp (option Step * S)).
  Context (pend : S -> list (N * N)).
  Context (done_ : forall s, pend s = [] -> next s = Ok (None, s)).
  Context (some_ : forall s s', next s = Ok (None, s') -> pend s = []).

  Lemma gcollect_ends (I : list Step -> S -> Prop) fuel s E steps :
    (forall E s st s', I E s -> next s = Ok (Some st, s') -> I (E ++ [st]) s') ->
    I E s -> gcollect next fuel s = Ok steps ->
    exists s', I (E ++ steps) s' /\ pend s' = [].
  Proof using some_.
    intros Hstep. revert s E steps. induction fuel as [|fuel IH]; intros s E steps HI H; [done|].
    simpl in H. apply cbind_ok in H as ([[st|] s'] & Hn & H).
    - apply cbind_ok in H as (rest & Hr & [= <-]).
      destruct (IH s' (E ++ [st]) rest) as (sf & Hf & Hp); [by eapply Hstep|done|].
      exists sf. rewrite <-app_assoc in Hf. done.
    - injection H as <-. exists s. rewrite app_nil_r. split; [done|by eapply some_].
  Qed.

  Lemma gcollect_outcome (I : list Step -> S -> Prop) (P : panic -> Prop) (m : S -> nat) :
    (forall E s, I E s -> pend s <> [] ->
       (exists st s', next s = Ok (Some st, s') /\ I (E ++ [st]) s' /\ m s' < m s) \/
       (exists p, next s = Panic p /\ P p)) ->
    forall s E, I E s ->
    (exists steps s', (forall fuel, m s < fuel -> gcollect next fuel s = Ok steps) /\
      I (E ++ steps) s' /\ pend s' = []) \/
    (exists p, (forall fuel, m s < fuel -> gcollect next fuel s = Panic p) /\ P p).
  Proof using done_.
    intros Hstep s. induction s as [s IH] using (well_founded_induction (Wf_nat.well_founded_ltof _ m)).
    intros E HI. destruct (pend s) as [|q Q] eqn:Hp.
    - left. exists [], s. split; [|rewrite app_nil_r; done].
      intros [|fuel] Hf; [lia|]. simpl. by rewrite (done_ s Hp).
    - destruct (Hstep E s HI) as [(st & s' & Hn & HI' & Hlt)|(p & Hn & HP)]; [by rewrite Hp|..].
      + destruct (IH s' Hlt _ HI') as [(steps & sf & Hc & Hf & Hpf)|(p & Hc & HP)].
        * left. exists (st :: steps), sf. rewrite <-app_assoc in Hf. split; [|done].
          intros [|fuel] Hfuel; [lia|]. simpl. rewrite Hn. simpl. rewrite Hc by lia. done.
        * right. exists p. split; [|done]. intros [|fuel] Hfuel; [lia|]. simpl. rewrite Hn. simpl.
          rewrite Hc by lia. done.
      + right. exists p. split; [|done]. intros [|fuel] Hfuel; [lia|]. simpl. by rewrite Hn.
  Qed.
End run.

(** ** The common invariant *)

Record OInv (g : Graph) (r : N) (E : list Step) (V : gset N) (Q : list (N * N)) : Prop := {
  oi_disc : forall v, v ∈ V <-> v ∈ discovered r E;
  oi_nodup : NoDup (discovered r E);
  oi_pend : forall p n, (p, n) ∈ Q -> adj g p n /\ p ∈ V;
  oi_emit : forall s, s ∈ E -> adj g (sid s) (tid s) /\ sid s ∈ V /\ tid s ∈ V;
  oi_ok : forall v, v ∈ V -> exists l, g_neighbors g v = Ok l;
  oi_reach : forall v, v ∈ V -> reachable g r v;
  oi_cut : cut_exact r E
}.

Lemma oinv_new g r l : g_neighbors g r = Ok l -> OInv g r [] {[r]} ((fun x => (r, x)) <$> l).
Proof.
  intros Hl. split.
  - intros v. unfold discovered. simpl. set_solver.
  - unfold discovered. simpl. apply NoDup_singleton.
  - intros p n (x & [= -> ->] & Hx)%elem_of_list_fmap. split; [by exists l|set_solver].
  - intros s Hs. by apply elem_of_nil in Hs.
  - intros v ->%elem_of_singleton. eauto.
  - intros v ->%elem_of_singleton. apply rtc_refl.
  - intros i s Hi. by rewrite lookup_nil in Hi.
Qed.

(** One step, whichever traversal: [Q'] is what is pending afterwards. *)
Inductive ostep (g : Graph) (V : gset N) (Q : list (N * N)) : Step -> gset N -> list (N * N) -> Prop :=
| ostep_cut p n rest : Q = (p, n) :: rest -> n ∈ V -> ostep g V Q (mkStep p n true) V rest
| ostep_visit p n rest l Q' : Q = (p, n) :: rest -> n ∉ V -> g_neighbors g n = Ok l ->
    (forall a b, (a, b) ∈ Q' -> (a, b) ∈ rest \/ (a = n /\ b ∈ l)) ->
    length Q' <= length rest + length l ->
    ostep g V Q (mkStep p n false) ({[n]} ∪ V) Q'.

Lemma oinv_step g r E V Q s V' Q' :
  OInv g r E V Q -> ostep g V Q s V' Q' -> OInv g r (E ++ [s]) V' Q'.
Proof.
  intros HI Hst.
  assert (Hdisc : forall n, n ∈ V <-> n = r \/ exists s', s' ∈ E /\ tid s' = n).
  { intros n. split.
    - intros Hn. apply (oi_disc _ _ _ _ _ HI) in Hn. unfold discovered in Hn.
      apply elem_of_cons in Hn as [?|Hn]; [by left|right].
      apply elem_of_list_fmap in Hn as (s' & -> & [_ Hs']%elem_of_list_filter). eauto.
    - intros [->|(s' & Hs' & <-)]; [apply (oi_disc _ _ _ _ _ HI); left|by apply (oi_emit _ _ _ _ _ HI)]. }
  destruct Hst as [p n rest -> Hn|p n rest l Q' -> Hn Hl HQ' _].
  - destruct (oi_pend _ _ _ _ _ HI p n) as [Ha Hp]; [left|]. split.
    + intros v. rewrite discovered_snoc. simpl. rewrite app_nil_r. apply (oi_disc _ _ _ _ _ HI).
    + rewrite discovered_snoc. simpl. rewrite app_nil_r. apply (oi_nodup _ _ _ _ _ HI).
    + intros a b Hab. apply (oi_pend _ _ _ _ _ HI). by right.
    + intros s [Hs| ->%elem_of_list_singleton]%elem_of_app; [by apply (oi_emit _ _ _ _ _ HI)|done].
    + apply (oi_ok _ _ _ _ _ HI).
    + apply (oi_reach _ _ _ _ _ HI).
    + apply cut_exact_snoc; [apply (oi_cut _ _ _ _ _ HI)| |by apply (oi_disc _ _ _ _ _ HI)].
      simpl. split; [|done]. intros _. by apply Hdisc.
  - destruct (oi_pend _ _ _ _ _ HI p n) as [Ha Hp]; [left|].
    assert (Hreach : reachable g r n).
    { eapply rtc_r; [by apply (oi_reach _ _ _ _ _ HI)|done]. }
    split.
    + intros v. rewrite discovered_snoc. cbn [cut tid].
      rewrite elem_of_union, elem_of_singleton, elem_of_app, elem_of_list_singleton.
      rewrite (oi_disc _ _ _ _ _ HI). tauto.
    + rewrite discovered_snoc. cbn [cut tid]. apply NoDup_app. split_and!.
      * apply (oi_nodup _ _ _ _ _ HI).
      * intros x Hx Hx'%elem_of_list_singleton. subst x. by apply Hn, (oi_disc _ _ _ _ _ HI).
      * apply NoDup_singleton.
    + intros a b [Hr|[-> Hb]]%HQ'.
      * destruct (oi_pend _ _ _ _ _ HI a b); [by right|]. split; [done|set_solver].
      * split; [by exists l|set_solver].
    + intros s [Hs| ->%elem_of_list_singleton]%elem_of_app.
      * destruct (oi_emit _ _ _ _ _ HI s Hs) as (? & ? & ?). split_and!; [done|set_solver..].
      * simpl. split_and!; [done|set_solver..].
    + intros v [->%elem_of_singleton|Hv]%elem_of_union; [eauto|by apply (oi_ok _ _ _ _ _ HI)].
    + intros v [->%elem_of_singleton|Hv]%elem_of_union; [done|by apply (oi_reach _ _ _ _ _ HI)].
    + apply cut_exact_snoc; [apply (oi_cut _ _ _ _ _ HI)| |by apply (oi_disc _ _ _ _ _ HI)].
      simpl. split; [done|]. intros Hx%Hdisc. done.
Qed.

(** ** Termination *)

Definition left_over (g : Graph) (L : list N) (V : gset N) (Q : list (N * N)) : nat :=
  length Q + sum_list (map (fun v => if bool_decide (v ∈ V) then 0 else length (nbrs g v)) L).

Lemma left_over_mono g (L : list N) (V : gset N) n :
  sum_list (map (fun v => if bool_decide (v ∈ {[n]} ∪ V) then 0 else length (nbrs g v)) L) <=
  sum_list (map (fun v => if bool_decide (v ∈ V) then 0 else length (nbrs g v)) L).
Proof.
  induction L as [|x L IH]; simpl; [done|].
  case_bool_decide as H1; case_bool_decide as H2; simpl; [lia..|set_solver|lia].
Qed.

Lemma left_over_visit g (L : list N) (V : gset N) n : n ∈ L -> n ∉ V ->
  length (nbrs g n) +
  sum_list (map (fun v => if bool_decide (v ∈ {[n]} ∪ V) then 0 else length (nbrs g v)) L) <=
  sum_list (map (fun v => if bool_decide (v ∈ V) then 0 else length (nbrs g v)) L).
Proof.
  intros Hin Hn. induction L as [|x L IH]; [by apply elem_of_nil in Hin|]. simpl.
  apply elem_of_cons in Hin as [<-|Hin].
  - rewrite bool_decide_eq_true_2 by set_solver. rewrite bool_decide_eq_false_2 by done.
    pose proof (left_over_mono g L V n). lia.
  - specialize (IH Hin).
    case_bool_decide as H1; case_bool_decide as H2; simpl; [lia..|set_solver|lia].
Qed.

Lemma left_over_step g r E L V Q s V' Q' : (forall v, reachable g r v -> v ∈ L) ->
  OInv g r E V Q -> ostep g V Q s V' Q' -> left_over g L V' Q' < left_over g L V Q.
Proof.
  intros HL HI [p n rest -> Hn|p n rest l Q'' -> Hn Hl _ Hlen]; unfold left_over; simpl; [lia|].
  destruct (oi_pend _ _ _ _ _ HI p n) as [Ha Hp]; [left|].
  assert (HnL : n ∈ L) by (apply HL; eapply rtc_r; [by apply (oi_reach _ _ _ _ _ HI)|done]).
  pose proof (left_over_visit g L V n HnL Hn). assert (nbrs g n = l) by (unfold nbrs; by rewrite Hl).
  subst l. lia.
Qed.

(** ** Instances *)

Lemma bfs_new_ok g r t : bfs_new g r = Ok t ->
  exists l, g_neighbors g r = Ok l /\ t = mkBF {[r]} ((fun x => (r, x)) <$> l).
Proof.
  unfold bfs_new. intros (l & Hl & [= <-])%cbind_ok. exists l. split; [done|].
  by rewrite foldl_snoc_map.
Qed.
Lemma dfs_new_ok g r t : dfs_new g r = Ok t ->
  exists l, g_neighbors g r = Ok l /\ t = mkDF {[r]} ((fun x => (r, x)) <$> l).
Proof.
  unfold dfs_new. intros (l & Hl & [= <-])%cbind_ok. exists l. split; [done|].
  by rewrite foldl_cons_rev, app_nil_r, reverse_involutive.
Qed.
Lemma bfs_new_of g r l : g_neighbors g r = Ok l ->
  bfs_new g r = Ok (mkBF {[r]} ((fun x => (r, x)) <$> l)).
Proof. intros Hl. unfold bfs_new. rewrite Hl. simpl. by rewrite foldl_snoc_map. Qed.
Lemma dfs_new_of g r l : g_neighbors g r = Ok l ->
  dfs_new g r = Ok (mkDF {[r]} ((fun x => (r, x)) <$> l)).
Proof. intros Hl. unfold dfs_new. rewrite Hl. simpl. by rewrite foldl_cons_rev, app_nil_r, reverse_involutive. Qed.

Lemma bfs_next_none g t t' : bfs_next g t = Ok (None, t') -> bf_queue t = [].
Proof.
  unfold bfs_next. destruct t as [V [|[p n] Q]]; simpl; [done|]. case_bool_decide; [done|].
  by intros (l & _ & ?)%cbind_ok.
Qed.
Lemma dfs_next_none g t t' : dfs_next g t = Ok (None, t') -> df_stack t = [].
Proof.
  unfold dfs_next. destruct t as [V [|[p n] Q]]; simpl; [done|]. case_bool_decide; [done|].
  by intros (l & _ & ?)%cbind_ok.
Qed.

Lemma bfs_next_ostep g t s t' : bfs_next g t = Ok (Some s, t') ->
  ostep g (bf_nodes t) (bf_queue t) s (bf_nodes t') (bf_queue t').
Proof.
  unfold bfs_next. destruct t as [V [|[p n] Q]]; simpl; [done|]. case_bool_decide as Hn.
  - intros [= <- <-]. simpl. by econstructor.
  - intros (l & Hl%unwrap_ok & [= <- <-])%cbind_ok. simpl. rewrite bfs_push_spec.
    eapply ostep_visit; [done|done|done|..].
    + intros a b [?|(x & [= -> ->] & [_ Hx]%elem_of_list_filter)%elem_of_list_fmap]%elem_of_app; eauto.
    + rewrite app_length, fmap_length. pose proof (sublist_length _ _ (sublist_filter
        (fun x => x <> p /\ x ∉ V) l)). lia.
Qed.
Lemma dfs_next_ostep g t s t' : dfs_next g t = Ok (Some s, t') ->
  ostep g (df_nodes t) (df_stack t) s (df_nodes t') (df_stack t').
Proof.
  unfold dfs_next. destruct t as [V [|[p n] Q]]; simpl; [done|]. case_bool_decide as Hn.
  - intros [= <- <-]. simpl. by econstructor.
  - intros (l & Hl%unwrap_ok & [= <- <-])%cbind_ok. simpl.
    destruct (dfs_push_visit V p n (reverse l) Q) as (keep & new & -> & Hk & Hnew & _ & _).
    rewrite reverse_involutive in Hnew.
    eapply ostep_visit; [done|done|done|..].
    + intros a b [(x & [= -> ->] & Hx)%elem_of_list_fmap|Hx]%elem_of_app.
      * right. split; [done|]. eapply elem_of_submseteq; [done|by apply sublist_submseteq].
      * left. eapply elem_of_submseteq; [done|by apply sublist_submseteq].
    + rewrite app_length, fmap_length. pose proof (sublist_length _ _ Hk).
      pose proof (sublist_length _ _ Hnew). lia.
Qed.

(** A call of [next] with something pending. *)
Lemma bfs_next_cases g t : bf_queue t <> [] -> (forall p n, (p, n) ∈ bf_queue t -> total (g_neighbors g n)) ->
  (exists s t', bfs_next g t = Ok (Some s, t')) \/
  (exists p n e, (p, n) ∈ bf_queue t /\ g_neighbors g n = Err e /\ bfs_next g t = Panic (PUnwrap e)).
Proof.
  destruct t as [V [|[p n] Q]]; [done|]. intros _ Ht. unfold bfs_next. cbn [bf_queue bf_nodes] in *.
  case_bool_decide; [left; eauto|]. specialize (Ht p n ltac:(left)).
  destruct (g_neighbors g n) as [l|e| |] eqn:Hn; simpl in *; [left; eauto| |done..].
  right. exists p, n, e. split; [left|done].
Qed.
Lemma dfs_next_cases g t : df_stack t <> [] -> (forall p n, (p, n) ∈ df_stack t -> total (g_neighbors g n)) ->
  (exists s t', dfs_next g t = Ok (Some s, t')) \/
  (exists p n e, (p, n) ∈ df_stack t /\ g_neighbors g n = Err e /\ dfs_next g t = Panic (PUnwrap e)).
Proof.
  destruct t as [V [|[p n] Q]]; [done|]. intros _ Ht. unfold dfs_next. cbn [df_stack df_nodes] in *.
  case_bool_decide; [left; eauto|]. specialize (Ht p n ltac:(left)).
  destruct (g_neighbors g n) as [l|e| |] eqn:Hn; simpl in *; [left; eauto| |done..].
  right. exists p, n, e. split; [left|done].
Qed.

Lemma bfs_ends g r (J : list Step -> gset N -> list (N * N) -> Prop) steps :
  (forall l, g_neighbors g r = Ok l -> J [] {[r]} ((fun x => (r, x)) <$> l)) ->
  (forall E t s t', OInv g r E (bf_nodes t) (bf_queue t) -> J E (bf_nodes t) (bf_queue t) ->
     bfs_next g t = Ok (Some s, t') -> J (E ++ [s]) (bf_nodes t') (bf_queue t')) ->
  breadth_first g r steps ->
  exists V, OInv g r steps V [] /\ J steps V [].
Proof.
  intros H0 HJ (t & n & (l & Hl & ->)%bfs_new_ok & Hn).
  specialize (Hn n ltac:(done)). rewrite bfs_gcollect in Hn.
  destruct (gcollect_ends (bfs_next g) bf_queue (bfs_next_none g)
    (fun E t => OInv g r E (bf_nodes t) (bf_queue t) /\ J E (bf_nodes t) (bf_queue t))
    n (mkBF {[r]} ((fun x => (r, x)) <$> l)) [] steps) as (tf & [HI HJf] & Hp).
  - intros E s st s' [HI HJs] Hns. split; [|by eapply HJ].
    eapply oinv_step; [done|]. by apply bfs_next_ostep.
  - simpl. split; [by apply oinv_new|by apply H0].
  - done.
  - simpl in *. rewrite Hp in *. by exists (bf_nodes tf).
Qed.
Lemma dfs_ends g r (J : list Step -> gset N -> list (N * N) -> Prop) steps :
  (forall l, g_neighbors g r = Ok l -> J [] {[r]} ((fun x => (r, x)) <$> l)) ->
  (forall E t s t', OInv g r E (df_nodes t) (df_stack t) -> J E (df_nodes t) (df_stack t) ->
     dfs_next g t = Ok (Some s, t') -> J (E ++ [s]) (df_nodes t') (df_stack t')) ->
  depth_first g r steps ->
  exists V, OInv g r steps V [] /\ J steps V [].
Proof.
  intros H0 HJ (t & n & (l & Hl & ->)%dfs_new_ok & Hn).
  specialize (Hn n ltac:(done)). rewrite dfs_gcollect in Hn.
  destruct (gcollect_ends (dfs_next g) df_stack (dfs_next_none g)
    (fun E t => OInv g r E (df_nodes t) (df_stack t) /\ J E (df_nodes t) (df_stack t))
    n (mkDF {[r]} ((fun x => (r, x)) <$> l)) [] steps) as (tf & [HI HJf] & Hp).
  - intros E s st s' [HI HJs] Hns. split; [|by eapply HJ].
    eapply oinv_step; [done|]. by apply dfs_next_ostep.
  - simpl. split; [by apply oinv_new|by apply H0].
  - done.
  - simpl in *. rewrite Hp in *. by exists (df_nodes tf).
Qed.

Lemma oinv_pend_reach g r E V Q p n : OInv g r E V Q -> (p, n) ∈ Q -> reachable g r n.
Proof.
  intros HI Hin. destruct (oi_pend _ _ _ _ _ HI p n Hin) as [Ha Hp].
  eapply rtc_r; [by apply (oi_reach _ _ _ _ _ HI)|done].
Qed.

(** Each traversal returns, or panics on a reachable node. *)
Lemma bfs_outcome g r l : finite_reach g r -> polite g r -> g_neighbors g r = Ok l ->
  (exists steps, breadth_first g r steps) \/
  (exists v e, reachable g r v /\ g_neighbors g v = Err e /\ breadth_first_panics g r e).
Proof.
  intros [L HL] Hpol Hl.
  destruct (gcollect_outcome (bfs_next g) bf_queue (bfs_next_done g)
    (fun E t => OInv g r E (bf_nodes t) (bf_queue t))
    (fun p => exists v e, reachable g r v /\ g_neighbors g v = Err e /\ p = PUnwrap e)
    (fun t => left_over g L (bf_nodes t) (bf_queue t))) with
    (s := mkBF {[r]} ((fun x => (r, x)) <$> l)) (E := @nil Step)
    as [(steps & t & Hc & _)|(p & Hc & v & e & Hv & He & ->)].
  - intros E t HI Hne.
    assert (Htot : forall p n, (p, n) ∈ bf_queue t -> total (g_neighbors g n)).
    { intros p n Hin. apply Hpol. by eapply oinv_pend_reach. }
    destruct (bfs_next_cases g t Hne Htot) as [(s & t' & Hn)|(p & n & e & Hin & He & Hn)].
    + left. exists s, t'. split; [done|]. apply bfs_next_ostep in Hn.
      split; [by eapply oinv_step|by eapply left_over_step].
    + right. eexists. split; [done|]. exists n, e. split; [by eapply oinv_pend_reach|done].
  - by apply oinv_new.
  - left. exists steps. eexists _, _. split; [by apply bfs_new_of|]. intros fuel Hf.
    rewrite bfs_gcollect. apply Hc, Hf.
  - right. exists v, e. split; [done|]. split; [done|]. eexists _, _. split; [by apply bfs_new_of|].
    intros fuel Hf. rewrite bfs_gcollect. apply Hc, Hf.
Qed.
Lemma dfs_outcome g r l : finite_reach g r -> polite g r -> g_neighbors g r = Ok l ->
  (exists steps, depth_first g r steps) \/
  (exists v e, reachable g r v /\ g_neighbors g v = Err e /\ depth_first_panics g r e).
Proof.
  intros [L HL] Hpol Hl.
  destruct (gcollect_outcome (dfs_next g) df_stack (dfs_next_done g)
    (fun E t => OInv g r E (df_nodes t) (df_stack t))
    (fun p => exists v e, reachable g r v /\ g_neighbors g v = Err e /\ p = PUnwrap e)
    (fun t => left_over g L (df_nodes t) (df_stack t))) with
    (s := mkDF {[r]} ((fun x => (r, x)) <$> l)) (E := @nil Step)
    as [(steps & t & Hc & _)|(p & Hc & v & e & Hv & He & ->)].
  - intros E t HI Hne.
    assert (Htot : forall p n, (p, n) ∈ df_stack t -> total (g_neighbors g n)).
    { intros p n Hin. apply Hpol. by eapply oinv_pend_reach. }
    destruct (dfs_next_cases g t Hne Htot) as [(s & t' & Hn)|(p & n & e & Hin & He & Hn)].
    + left. exists s, t'. split; [done|]. apply dfs_next_ostep in Hn.
      split; [by eapply oinv_step|by eapply left_over_step].
    + right. eexists. split; [done|]. exists n, e. split; [by eapply oinv_pend_reach|done].
  - by apply oinv_new.
  - left. exists steps. eexists _, _. split; [by apply dfs_new_of|]. intros fuel Hf.
    rewrite dfs_gcollect. apply Hc, Hf.
  - right. exists v, e. split; [done|]. split; [done|]. eexists _, _. split; [by apply dfs_new_of|].
    intros fuel Hf. rewrite dfs_gcollect. apply Hc, Hf.
Qed.

(** ** Breadth first *)

(** Every edge of a visited node leads to a visited node or is pending. *)
Definition ocovers (g : Graph) (V : gset N) (Q : list (N * N)) : Prop :=
  forall v w, v ∈ V -> adj g v w -> w ∈ V \/ (v, w) ∈ Q.

Lemma ocovers_new g r l : g_neighbors g r = Ok l -> ocovers g {[r]} ((fun x => (r, x)) <$> l).
Proof.
  intros Hl v w ->%elem_of_singleton (l' & Hl' & Hw). rewrite Hl in Hl'. injection Hl' as <-.
  right. apply elem_of_list_fmap. eauto.
Qed.

Lemma ocovers_step g r E t s t' : OInv g r E (bf_nodes t) (bf_queue t) ->
  ocovers g (bf_nodes t) (bf_queue t) -> bfs_next g t = Ok (Some s, t') ->
  ocovers g (bf_nodes t') (bf_queue t').
Proof.
  intros HI HJ (p & n & rest & HQ & [(Hn & -> & ->)|(Hn & -> & ->)])%bfs_next_inv; simpl;
    unfold ocovers in *; rewrite HQ in *.
  - intros v w Hv Ha. destruct (HJ v w Hv Ha) as [?|[[= -> ->]|?]%elem_of_cons]; eauto.
  - destruct (oi_pend _ _ _ _ _ HI p n) as [_ Hp]; [left|].
    intros v w [->%elem_of_singleton|Hv]%elem_of_union Ha.
    + destruct (decide (w ∈ bf_nodes t)); [left; set_solver|right].
      apply elem_of_app. right. apply elem_of_list_fmap. exists w. split; [done|].
      apply elem_of_list_filter. split; [|by apply adj_nbrs]. split; [|done]. by intros ->.
    + destruct (HJ v w Hv Ha) as [?|[[= -> ->]|?]%elem_of_cons]; [left; set_solver..|].
      right. apply elem_of_app. by left.
Qed.

Lemma ocovers_closed g (V : gset N) r : r ∈ V -> ocovers g V [] -> forall v, reachable g r v -> v ∈ V.
Proof.
  intros Hr HJ v Hv. induction Hv as [|x y z Ha _ IH]; [done|]. apply IH.
  destruct (HJ x y Hr Ha) as [?|?%elem_of_nil]; done.
Qed.

Definition olevels (g : Graph) (r : N) (E : list Step) (V : gset N) (Q : list (N * N)) : Prop :=
  exists (L : N -> nat) (k : nat),
    (forall v, v ∈ V -> distance g r v (L v)) /\
    StronglySorted le (map (fun q => L q.1) Q) /\
    (forall q, q ∈ Q -> k <= L q.1) /\
    (forall v, v ∈ V -> L v <= S k) /\
    (forall m w, walk g m r w -> m <= k -> w ∈ V) /\
    StronglySorted le (map L (discovered r E)) /\
    (forall s, s ∈ E -> cut s = false -> L (tid s) = S (L (sid s))).

Lemma olevels_new g r l : olevels g r [] {[r]} ((fun x => (r, x)) <$> l).
Proof.
  exists (fun _ => 0), 0. split_and!.
  - intros v ->%elem_of_singleton. split; [constructor|lia].
  - induction (_ <$> _); simpl; constructor; [done|]. apply Forall_forall.
    intros x Hx. lia.
  - intros; lia.
  - intros; lia.
  - intros m w Hw Hm. assert (m = 0) as -> by lia. inversion Hw; subst. set_solver.
  - repeat constructor.
  - intros s Hs. by apply elem_of_nil in Hs.
Qed.

Lemma olevels_advance g r E V p n rest L k :
  OInv g r E V ((p, n) :: rest) -> ocovers g V ((p, n) :: rest) ->
  (forall v, v ∈ V -> distance g r v (L v)) ->
  StronglySorted le (map (fun q => L q.1) ((p, n) :: rest)) ->
  k <= L p ->
  (forall v, v ∈ V -> L v <= S k) ->
  (forall m w, walk g m r w -> m <= k -> w ∈ V) ->
  (forall v, v ∈ V -> L v <= S (L p)) /\
  (forall m w, walk g m r w -> m <= L p -> w ∈ V).
Proof.
  intros HI HJ HL Hs Hk HV Hw.
  destruct (oi_pend _ _ _ _ _ HI p n) as [_ HpV]; [left|].
  pose proof (HV p HpV). split; [intros v Hv; specialize (HV v Hv); lia|].
  intros m w Hwalk Hm. destruct (decide (m <= k)); [by eapply Hw|].
  destruct m as [|m]; [lia|]. destruct (walk_snoc g m r w Hwalk) as (u & Hu & Huw).
  assert (HuV : u ∈ V) by (apply (Hw m); [done|lia]).
  destruct (HJ u w HuV Huw) as [?|He]; [done|].
  assert (L p <= L u).
  { apply elem_of_cons in He as [[= -> ->]|He]; [done|].
    simpl in Hs. apply StronglySorted_inv in Hs as [_ Hf].
    rewrite Forall_forall in Hf. apply Hf. apply elem_of_list_fmap. by exists (u, w). }
  destruct (HL u HuV) as [_ Hmin]. specialize (Hmin m Hu). lia.
Qed.

Lemma olevels_step g r E t s t' :
  OInv g r E (bf_nodes t) (bf_queue t) ->
  ocovers g (bf_nodes t) (bf_queue t) -> olevels g r E (bf_nodes t) (bf_queue t) ->
  bfs_next g t = Ok (Some s, t') ->
  olevels g r (E ++ [s]) (bf_nodes t') (bf_queue t').
Proof.
  intros HI HJ (L & k0 & HL & Hs & Hk0 & HV0 & Hw0 & Hd & Ht)
    (p & n & rest & HQ & Hcase)%bfs_next_inv.
  rewrite HQ in *.
  destruct (olevels_advance g r E (bf_nodes t) p n rest L k0) as [HV Hw]; try done.
  { apply (Hk0 (p, n)). left. }
  destruct (oi_pend _ _ _ _ _ HI p n) as [Hadj HpV]; [left|].
  simpl in Hs. apply StronglySorted_inv in Hs as [Hs Hf]. rewrite Forall_forall in Hf.
  assert (Hge : forall q, q ∈ rest -> L p <= L q.1).
  { intros q Hq. apply Hf. apply elem_of_list_fmap. by exists q. }
  clear k0 Hk0 HV0 Hw0 Hf.
  destruct Hcase as [(Hn & -> & ->)|(Hn & -> & ->)]; simpl.
  - exists L, (L p). rewrite discovered_snoc. cbn [cut]. rewrite app_nil_r.
    split_and!; try done.
    intros s [Hin| ->%elem_of_list_singleton]%elem_of_app Hc; [by apply Ht|done].
  - set (L' := fun x => if decide (x = n) then S (L p) else L x).
    assert (HL' : forall v, v ∈ bf_nodes t -> L' v = L v).
    { intros v Hv. unfold L'. destruct (decide (v = n)) as [->|]; done. }
    assert (HLn : L' n = S (L p)) by (unfold L'; by rewrite decide_True).
    assert (HQV : forall q, q ∈ rest -> q.1 ∈ bf_nodes t).
    { intros [a b] Hq. eapply (oi_pend _ _ _ _ _ HI). by right. }
    exists L', (L p). split_and!.
    + intros v [->%elem_of_singleton|Hv]%elem_of_union.
      * rewrite HLn. split.
        -- destruct (HL p HpV) as [Hwp _]. unfold walk in *. by eapply nsteps_r.
        -- intros m Hm. destruct (decide (S (L p) <= m)); [done|].
           exfalso. apply Hn, (Hw m); [done|lia].
      * rewrite HL' by done. by apply HL.
    + rewrite map_app.
      assert (Hrest : map (fun q => L' q.1) rest = map (fun q => L q.1) rest).
      { apply map_ext_in. intros q Hq%elem_of_list_In. by apply HL', HQV. }
      rewrite Hrest.
      assert (Hnew : forall l, map (fun q : N * N => L' q.1) ((fun x => (n, x)) <$> l) =
                map (fun _ => S (L p)) l).
      { intros l. induction l as [|x l IH]; [done|]. simpl. by rewrite HLn, <-IH. }
      rewrite Hnew. apply StronglySorted_app_const; [done|].
      intros y (q & -> & Hq)%elem_of_list_fmap. by apply HV, HQV.
    + intros q [Hq|(x & -> & _)%elem_of_list_fmap]%elem_of_app.
      * rewrite HL' by (by apply HQV). by apply Hge.
      * simpl. rewrite HLn. lia.
    + intros v [->%elem_of_singleton|Hv]%elem_of_union; [rewrite HLn; lia|].
      rewrite HL' by done. by apply HV.
    + intros m w Hm Hle. apply elem_of_union_r. by eapply Hw.
    + rewrite discovered_snoc. cbn [cut tid]. rewrite map_app. cbn [map]. rewrite HLn.
      assert (Hdis : map L' (discovered r E) = map L (discovered r E)).
      { apply map_ext_in. intros v Hv%elem_of_list_In.
        apply HL'. by apply (oi_disc _ _ _ _ _ HI). }
      change (StronglySorted le (map L' (discovered r E) ++ [S (L p)])). rewrite Hdis.
      apply StronglySorted_snoc; [done|].
      intros y (v & -> & Hv)%elem_of_list_fmap. apply HV. by apply (oi_disc _ _ _ _ _ HI).
    + intros s [Hin| ->%elem_of_list_singleton]%elem_of_app Hc.
      * destruct (oi_emit _ _ _ _ _ HI s Hin) as (_ & ? & ?).
        rewrite !HL' by done. by apply Ht.
      * simpl. rewrite HLn, HL' by done. done.
Qed.

Lemma bfs_any g r steps : breadth_first g r steps ->
  exists V, OInv g r steps V [] /\ ocovers g V [] /\ olevels g r steps V [] /\
    crossed steps = level_order g [] (discovered r steps).
Proof.
  intros Hb.
  destruct (bfs_ends g r (fun E V Q => ocovers g V Q /\ olevels g r E V Q /\
    crossed E ++ Q = level_order g [] (discovered r E)) steps) as (V & HI & HC & HL & HO); [..|done|].
  - intros l Hl. split; [by apply ocovers_new|]. split; [apply olevels_new|].
    unfold discovered. simpl. rewrite app_nil_r, Hl.
    induction l as [|x l' IH] in |- *; [done|]. rewrite filter_cons, decide_True by set_solver.
    rewrite (fmap_cons _ x (filter _ l')), fmap_cons. f_equal. apply IH.
  - intros E t s t' HI (HC & HL & HO) Hn. split; [by eapply ocovers_step|].
    split; [by eapply olevels_step|].
    apply bfs_next_inv in Hn as (p & n & rest & HQ & [(Hn & -> & ->)|(Hn & -> & ->)]);
      cbn [bf_nodes bf_queue]; rewrite HQ in *; rewrite crossed_app, discovered_snoc; cbn [cut tid].
    + rewrite app_nil_r, <-HO, <-app_assoc. done.
    + rewrite level_order_snoc, <-HO, <-!app_assoc. simpl. do 4 f_equal.
      destruct (oi_pend _ _ _ _ _ HI p n) as [_ HpV]; [left|].
      apply list_filter_iff. intros x. rewrite <-(oi_disc _ _ _ _ _ HI).
      split; [tauto|]. intros Hx. split; [|done]. by intros ->.
  - exists V. split_and!; try done. by rewrite app_nil_r in HO.
Qed.

(** ** Depth first on acyclic graphs *)

Lemma filter_new_nil (seen todo : list N) g :
  filter (fun x => x ∉ seen) todo = [] -> search g seen todo [].
Proof.
  induction todo as [|x todo IH]; intros H; [constructor|].
  rewrite filter_cons in H. case_decide as Hx; [done|].
  apply search_skip; [|by apply IH]. done.
Qed.

Lemma filter_new_cons (seen todo k : list N) n :
  n :: k = filter (fun x => x ∉ seen) todo ->
  exists pre post, todo = pre ++ n :: post /\ Forall (fun x => x ∈ seen) pre /\
    k = filter (fun x => x ∉ seen) post.
Proof.
  induction todo as [|x todo IH]; intros H; [done|].
  rewrite filter_cons in H. case_decide as Hx.
  - injection H as -> ->. by exists [], todo.
  - destruct (IH H) as (pre & post & -> & Hf & ->). exists (x :: pre), post. split_and!; [done| |done].
    constructor; [|done]. done.
Qed.

Lemma search_skips g seen pre todo found : Forall (fun x => x ∈ seen) pre ->
  search g seen todo found -> search g seen (pre ++ todo) found.
Proof. induction 1; [done|]. intros ?. apply search_skip; eauto. Qed.

Lemma filter_more (seen : list N) n (l k : list N) :
  filter (fun x => x ∉ seen) l = filter (fun x => x ∉ seen) k ->
  filter (fun x => x ∉ n :: seen) l = filter (fun x => x ∉ n :: seen) k.
Proof.
  intros H.
  assert (Hf : forall l : list N, filter (fun x => x ∉ n :: seen) l =
    filter (fun x => x ∉ n :: seen) (filter (fun x => x ∉ seen) l)).
  { intros m. rewrite list_filter_filter. apply list_filter_iff. intros x. set_solver. }
  rewrite (Hf l), (Hf k). by rewrite H.
Qed.

(** Only the entries that are new matter. *)
Lemma search_same g seen todo found : search g seen todo found ->
  forall todo', filter (fun x => x ∉ seen) todo = filter (fun x => x ∉ seen) todo' ->
  search g seen todo' found.
Proof.
  induction 1 as [seen|seen n todo found Hn Hs IH|seen n todo l found Hn Hl Hs IH]; intros todo' Heq.
  - by apply filter_new_nil.
  - apply IH. rewrite filter_cons, decide_False in Heq by (intros Hx; by apply Hx). done.
  - rewrite filter_cons, decide_True in Heq by done.
    apply filter_new_cons in Heq as (pre & post & -> & Hf & Heq).
    apply search_skips; [done|]. eapply search_visit; [done|done|]. apply IH.
    rewrite !filter_app. f_equal. by apply filter_more.
Qed.

Lemma filter_dropped (seen : list N) (P : N * N -> Prop) `{!forall e, Decision (P e)} (Q : list (N * N)) :
  (forall e, e ∈ Q -> ~ P e -> e.2 ∈ seen) ->
  filter (fun x => x ∉ seen) (snd <$> filter P Q) = filter (fun x => x ∉ seen) (snd <$> Q).
Proof.
  induction Q as [|e Q IH]; intros Hn; [done|]. rewrite (filter_cons P). case_decide as HP.
  - rewrite !fmap_cons, !filter_cons. case_decide; [f_equal|]; apply IH; intros f Hf Hnf; (apply Hn; [by right|done]).
  - rewrite fmap_cons, filter_cons, decide_False.
    + apply IH. intros f Hf Hnf. apply Hn; [by right|done].
    + intros Hx. apply Hx. by apply Hn; [left|].
Qed.

Lemma dfs_push_new (V : gset N) (seen : list N) p n l (Q : list (N * N)) :
  p ∈ seen -> n ∉ l ->
  (forall x y, x ∈ l -> (x, y) ∉ Q) ->
  (forall a b, (a, b) ∈ foldl (dfs_push V p n) Q (reverse l) -> (a, b) ∈ Q \/ a = n) /\
  filter (fun x => x ∉ n :: seen) (snd <$> foldl (dfs_push V p n) Q (reverse l)) =
  filter (fun x => x ∉ n :: seen) (l ++ (snd <$> Q)).
Proof.
  intros Hp. induction l as [|x l IH]; intros Hn Hx; [by split; [left|]|].
  destruct IH as [IH1 IH2]; [set_solver|intros; apply Hx; by right|].
  rewrite reverse_cons, foldl_app. cbn [foldl]. rewrite <-app_comm_cons, filter_cons, <-IH2.
  set (S := foldl _ _ (reverse l)) in *. clearbody S. unfold dfs_push.
  case_bool_decide as Hxp; [subst x|].
  { split; [done|]. rewrite decide_False by (intros H; apply H; by right). done. }
  case_bool_decide as HxV.
  - split.
    + intros a b [[= -> ->]|[_ ?]%elem_of_list_filter]%elem_of_cons; [by right|by apply IH1].
    + rewrite fmap_cons, filter_cons. cbn [snd]. rewrite filter_dropped; [done|].
      intros [a b] Hin Hd. simpl in *. destruct (decide (b = n)) as [->|Hb]; [left|].
      destruct (decide (a = x)) as [->|]; [|tauto]. exfalso.
      destruct (IH1 x b Hin) as [HQ| ->]; [by apply (Hx x b); [left|]|]. apply Hn. left.
  - split.
    + intros a b [[= -> ->]|?]%elem_of_cons; [by right|by apply IH1].
    + by rewrite fmap_cons, filter_cons.
Qed.

Lemma StronglySorted_sublist {A} (R : A -> A -> Prop) (l k : list A) :
  sublist l k -> StronglySorted R k -> StronglySorted R l.
Proof.
  induction 1 as [|x l k Hs IH|x l k Hs IH]; intros H; [constructor|..];
    apply StronglySorted_inv in H as [H Hf].
  - constructor; [by apply IH|]. rewrite Forall_forall in *. intros y Hy. apply Hf.
    eapply elem_of_submseteq; [done|by apply sublist_submseteq].
  - by apply IH.
Qed.

Lemma dfs_search g r (Ho : one_way g r) fuel t steps seen :
  gcollect (dfs_next g) fuel t = Ok steps ->
  (forall v, v ∈ df_nodes t <-> v ∈ seen) ->
  (forall a b, (a, b) ∈ df_stack t -> adj g a b /\ a ∈ df_nodes t /\ reachable g r a) ->
  StronglySorted (fun e f : N * N => reachable g f.1 e.1) (df_stack t) ->
  search g seen (snd <$> df_stack t) (tid <$> filter (fun s => cut s = false) steps).
Proof.
  revert t steps seen. induction fuel as [|fuel IH]; intros t steps seen H HV HQ HS; [done|].
  simpl in H. unfold dfs_next in H. destruct t as [V [|[p n] rest]]; cbn [df_stack df_nodes] in *.
  { simpl in H. injection H as <-. constructor. }
  destruct (HQ p n) as (Ha & HpV & Hpr); [left|].
  apply StronglySorted_inv in HS as [HS Hf]. rewrite Forall_forall in Hf.
  case_bool_decide as Hn.
  - simpl in H. apply cbind_ok in H as (rest' & Hr & [= <-]). rewrite filter_cons. simpl.
    apply search_skip; [by apply HV|]. apply (IH _ _ seen Hr); simpl; [done| |done].
    intros a b Hab. apply HQ. by right.
  - apply cbind_ok in H as ([so t'] & H & H').
    apply cbind_ok in H as (l & Hl%unwrap_ok & [= <- <-]).
    apply cbind_ok in H' as (rest' & Hr & [= <-]). rewrite filter_cons. simpl.
    eapply search_visit; [by rewrite <-HV|done|].
    assert (Hnl : forall x, x ∈ l -> adj g n x) by (intros x Hx; by exists l).
    assert (Hsrc : forall x y, x ∈ l -> (x, y) ∉ rest).
    { intros x y Hx Hin. apply (Ho p n Hpr Ha). eapply rtc_l; [by apply Hnl|]. by apply (Hf (x, y)). }
    assert (Hself : n ∉ l).
    { intros Hx. assert (Hrn : reachable g r n) by (by eapply rtc_r).
      apply (Ho n n Hrn (Hnl n Hx)). apply rtc_refl. }
    destruct (dfs_push_new V seen p n l rest) as [H1 H2]; [by apply HV|done|done|].
    eapply search_same; [|exact H2].
    apply (IH _ _ (n :: seen) Hr); cbn [df_nodes df_stack].
    + intros v. rewrite elem_of_union, elem_of_singleton, elem_of_cons, HV. done.
    + destruct (dfs_push_visit V p n (reverse l) rest) as (keep & new & -> & Hk & Hnew & _ & _).
      rewrite reverse_involutive in Hnew.
      intros a b [(x & [= -> ->] & Hx)%elem_of_list_fmap|Hin]%elem_of_app.
      * split_and!; [apply Hnl; eapply elem_of_submseteq; [done|by apply sublist_submseteq]|set_solver|].
        by eapply rtc_r.
      * destruct (HQ a b) as (? & ? & ?); [right; eapply elem_of_submseteq; [done|by apply sublist_submseteq]|].
        split_and!; [done|set_solver|done].
    + destruct (dfs_push_visit V p n (reverse l) rest) as (keep & new & -> & Hk & Hnew & _ & _).
      assert (Hkeep : StronglySorted (fun e f : N * N => reachable g f.1 e.1) keep)
        by (by eapply StronglySorted_sublist).
      clear Hnew. induction new as [|x new IHn]; [done|]. rewrite fmap_cons. simpl. constructor; [done|].
      apply Forall_forall. intros e [(y & -> & _)%elem_of_list_fmap|Hin]%elem_of_app; simpl.
      * apply rtc_refl.
      * eapply rtc_r; [|exact Ha]. apply (Hf e). eapply elem_of_submseteq; [done|by apply sublist_submseteq].
Qed.

(** The textbook search meets exactly what can be reached. *)
Lemma search_sound g seen todo found : search g seen todo found ->
  forall v, v ∈ found -> exists x, x ∈ todo /\ reachable g x v.
Proof.
  induction 1 as [seen|seen n todo found Hn Hs IH|seen n todo l found Hn Hl Hs IH]; intros v Hv.
  - by apply elem_of_nil in Hv.
  - destruct (IH v Hv) as (x & ? & ?). exists x. split; [by right|done].
  - apply elem_of_cons in Hv as [->|Hv]; [exists n; split; [left|apply rtc_refl]|].
    destruct (IH v Hv) as (x & [Hx|Hx]%elem_of_app & Hr).
    + exists n. split; [left|]. eapply rtc_l; [by exists l|done].
    + exists x. split; [by right|done].
Qed.

Lemma search_closed g seen todo found : search g seen todo found ->
  (forall v, v ∈ todo -> v ∈ seen \/ v ∈ found) /\
  (forall v w, v ∈ found -> adj g v w -> w ∈ seen \/ w ∈ found).
Proof.
  induction 1 as [seen|seen n todo found Hn Hs IH|seen n todo l found Hn Hl Hs IH].
  - split; [|intros v w Hv; by apply elem_of_nil in Hv]. intros v Hv. by apply elem_of_nil in Hv.
  - destruct IH as [H1 H2]. split; [|done]. intros v [->|Hv]%elem_of_cons; [by left|by apply H1].
  - destruct IH as [H1 H2]. split.
    + intros v [->|Hv]%elem_of_cons; [right; left|].
      destruct (H1 v) as [[->|?]%elem_of_cons|?]; [apply elem_of_app; by right|right; left|by left|right; by right].
    + intros v w [->|Hv]%elem_of_cons Ha.
      * destruct Ha as (l' & Hl' & Hw). rewrite Hl in Hl'. injection Hl' as <-.
        destruct (H1 w) as [[->|?]%elem_of_cons|?]; [apply elem_of_app; by left|right; left|by left|right; by right].
      * destruct (H2 v w Hv Ha) as [[->|?]%elem_of_cons|?]; [right; left|by left|right; by right].
Qed.

Lemma dfs_one_way g r steps : one_way g r -> depth_first g r steps ->
  exists l found, g_neighbors g r = Ok l /\ search g [r] l found /\ discovered r steps = r :: found.
Proof.
  intros Ho (t & n & (l & Hl & ->)%dfs_new_ok & Hn). exists l. eexists. split; [done|]. split; [|done].
  specialize (Hn n ltac:(done)). rewrite dfs_gcollect in Hn.
  eapply (dfs_search g r Ho _ _ _ [r]) in Hn.
  - cbn [df_stack] in Hn. rewrite <-list_fmap_compose in Hn.
    replace ((snd ∘ (fun x => (r, x))) <$> l) with l in Hn; [exact Hn|].
    clear. induction l; simpl; by f_equal.
  - intros v. simpl. set_solver.
  - intros a b (x & [= -> ->] & Hx)%elem_of_list_fmap. simpl.
    split_and!; [by exists l|set_solver|apply rtc_refl].
  - simpl. clear. induction l as [|x l IH]; simpl; constructor; [done|].
    apply Forall_forall. intros e (y & -> & _)%elem_of_list_fmap. apply rtc_refl.
Qed.

Lemma dfs_one_way_all g r steps v : one_way g r -> depth_first g r steps ->
  reachable g r v -> v ∈ discovered r steps.
Proof.
  intros Ho Hd Hv. destruct (dfs_one_way g r steps Ho Hd) as (l & found & Hl & Hs & ->).
  destruct (search_closed g [r] l found Hs) as [H1 H2].
  assert (Hc : forall x y, x ∈ r :: found -> adj g x y -> y ∈ r :: found).
  { intros x y [->|Hx]%elem_of_cons Ha.
    - destruct Ha as (l' & Hl' & Hy). rewrite Hl in Hl'. injection Hl' as <-.
      destruct (H1 y Hy) as [->%elem_of_list_singleton|?]; [left|by right].
    - destruct (H2 x y Hx Ha) as [->%elem_of_list_singleton|?]; [left|by right]. }
  enough (forall x y, rtc (adj g) x y -> x ∈ r :: found -> y ∈ r :: found) as He.
  { apply (He r v Hv). left. }
  clear -Hc. induction 1 as [|x y z Ha _ IH]; [done|]. intros Hx. eapply IH, Hc; done.
Qed.

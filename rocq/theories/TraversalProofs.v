(** Invariants common to both traversals. *)
From Verif Require Import Outcome GraphModel TraversalModel ComponentsModel PairingModel Spec
  GraphProofs EditProofs ConvertProofs EqProofs.

(** ** Lawful graphs *)

(** The neighbor list as a total function. *)
Definition nbrs (g : Graph) (v : N) : list N :=
  match g_neighbors g v with Ok l => l | _ => [] end.

Lemma adj_nbrs g u v : adj g u v <-> v ∈ nbrs g u.
Proof.
  unfold adj, nbrs. split.
  - intros (l & -> & ?). done.
  - destruct (g_neighbors g u) as [l| | |]; [eauto|intros H; by apply elem_of_nil in H..].
Qed.

Section lawful.
  Context (g : Graph) (Hg : Lawful g).

  Lemma lawful_nbrs v : v ∈ g_nodes g -> g_neighbors g v = Ok (nbrs g v).
  Proof. intros Hv. destruct (law_neighbors g Hg v Hv) as (l & E & _). unfold nbrs. by rewrite E. Qed.

  Lemma lawful_nbrs_nodup v : NoDup (filter (fun w => w <> v) (nbrs g v)).
  Proof.
    destruct (decide (v ∈ g_nodes g)) as [Hv|Hv].
    - destruct (law_neighbors g Hg v Hv) as (l & E & H). unfold nbrs. by rewrite E.
    - unfold nbrs. rewrite (law_neighbors_err g Hg v Hv). constructor.
  Qed.

  Lemma lawful_adj_l u v : adj g u v -> u ∈ g_nodes g.
  Proof. intros H. eapply law_adj_node; [done|]. by apply law_adj_sym. Qed.

  Lemma lawful_has_edge u v : u ∈ g_nodes g -> v ∈ g_nodes g ->
    g_has_edge g u v = Ok (bool_decide (v ∈ nbrs g u)).
  Proof.
    intros Hu Hv. destruct (law_has_edge g Hg u v Hu Hv) as (b & -> & Hb). f_equal.
    apply eq_bool_prop_intro. rewrite !Is_true_true, Hb, bool_decide_eq_true. apply adj_nbrs.
  Qed.

  Lemma reachable_node r v : r ∈ g_nodes g -> reachable g r v -> v ∈ g_nodes g.
  Proof. intros Hr H. induction H; [done|]. apply IHrtc. by eapply law_adj_node. Qed.

  Lemma reachable_sym u v : reachable g u v -> reachable g v u.
  Proof.
    intros H. induction H as [|x y z Hxy _ IH]; [constructor|].
    eapply rtc_r; [exact IH|]. by apply law_adj_sym.
  Qed.
End lawful.

(** ** Generic collection *)

Fixpoint gcollect {S} (next : S -> comp (option Step * S)) (fuel : nat) (s : S)
    : comp (list Step) :=
  match fuel with
  | O => NoFuel
  | Datatypes.S fuel' =>
      let! r := next s in
      match r with
      | (None, _) => Ok []
      | (Some step, s') =>
          let! steps := gcollect next fuel' s' in
          Ok (step :: steps)
      end
  end.

Lemma bfs_gcollect fuel g t : bfs_collect fuel g t = gcollect (bfs_next g) fuel t.
Proof.
  revert t. induction fuel as [|fuel IH]; intros t; simpl; [done|].
  destruct (bfs_next g t) as [[[s|] t']| | |]; simpl; [|done..]. by rewrite IH.
Qed.
Lemma dfs_gcollect fuel g t : dfs_collect fuel g t = gcollect (dfs_next g) fuel t.
Proof.
  revert t. induction fuel as [|fuel IH]; intros t; simpl; [done|].
  destruct (dfs_next g t) as [[[s|] t']| | |]; simpl; [|done..]. by rewrite IH.
Qed.

Lemma gcollect_mono {S} (next : S -> comp (option Step * S)) fuel fuel' s steps :
  gcollect next fuel s = Ok steps -> fuel <= fuel' -> gcollect next fuel' s = Ok steps.
Proof.
  revert fuel' s steps. induction fuel as [|fuel IH]; intros fuel' s steps H Hle; [done|].
  destruct fuel' as [|fuel']; [lia|]. simpl in *.
  apply cbind_ok in H as ([[st|] s'] & Hn & H); rewrite Hn; simpl; [|done].
  apply cbind_ok in H as (steps' & Hs & H). rewrite (IH fuel' s' steps' Hs) by lia. done.
Qed.

Section generic.
  Context {S : Type} (next : S -> comp (option Step * S)).
  Context (vis : S -> gset N) (pend : S -> list (N * N)).
  Context (done_ : forall s, pend s = [] -> next s = Ok (None, s)).

  (** Every step satisfying an invariant decreases a measure. *)
  Lemma gcollect_total (I : list Step -> S -> Prop) (m : S -> nat) :
    (forall E s, I E s -> pend s <> [] ->
       exists st s', next s = Ok (Some st, s') /\ I (E ++ [st]) s' /\ m s' < m s) ->
    forall s E, I E s ->
    exists steps s', (forall fuel, m s < fuel -> gcollect next fuel s = Ok steps) /\
      I (E ++ steps) s' /\ pend s' = [].
  Proof.
    intros Hstep s. induction s as [s IH] using (well_founded_induction (Wf_nat.well_founded_ltof _ m)).
    intros E HI. destruct (pend s) as [|q Q] eqn:Hp.
    - exists [], s. split; [|rewrite app_nil_r; done].
      intros [|fuel] Hf; [lia|]. simpl. by rewrite (done_ s Hp).
    - destruct (Hstep E s HI) as (st & s' & Hn & HI' & Hlt); [by rewrite Hp|].
      destruct (IH s' Hlt _ HI') as (steps & sf & Hc & Hf & Hpf).
      exists (st :: steps), sf. rewrite <-app_assoc in Hf. split; [|done].
      intros [|fuel] Hfuel; [lia|]. simpl. rewrite Hn. simpl. rewrite Hc by lia. done.
  Qed.
End generic.

(** ** Counting crossed edges *)

Lemma crossed_app E F : crossed (E ++ F) = crossed E ++ crossed F.
Proof. apply fmap_app. Qed.

Lemma times_crossed_app e l k :
  times_crossed e (l ++ k) = times_crossed e l + times_crossed e k.
Proof. unfold times_crossed. by rewrite filter_app, app_length. Qed.

Lemma times_crossed_perm e l k : l ≡ₚ k -> times_crossed e l = times_crossed e k.
Proof. intros H. unfold times_crossed. by rewrite H. Qed.

Lemma times_crossed_sublist e l k : sublist l k -> times_crossed e l <= times_crossed e k.
Proof.
  intros H. unfold times_crossed.
  induction H as [|x l k H IH|x l k H IH]; [done|..]; rewrite !filter_cons;
    repeat case_decide; simpl; lia.
Qed.

Lemma times_crossed_zero e l :
  times_crossed e l = 0 <-> forall f, f ∈ l -> ~ same_edge e f.
Proof.
  unfold times_crossed. split.
  - intros H f Hf Hs.
    assert (Hin : f ∈ filter (fun f => same_edge e f) l) by (by apply elem_of_list_filter).
    destruct (filter _ _); [by apply elem_of_nil in Hin|done].
  - intros H. destruct (filter _ _) as [|f k] eqn:E; [done|].
    assert (Hf : f ∈ f :: k) by left. rewrite <-E in Hf.
    apply elem_of_list_filter in Hf as [? ?]. exfalso. by eapply H.
Qed.

Lemma times_crossed_pos e l : 0 < times_crossed e l <-> exists f, f ∈ l /\ same_edge e f.
Proof.
  unfold times_crossed. split.
  - intros H. destruct (filter _ _) as [|f k] eqn:E; [simpl in H; lia|].
    assert (Hf : f ∈ f :: k) by left. rewrite <-E in Hf.
    apply elem_of_list_filter in Hf as [? ?]. eauto.
  - intros (f & Hf & Hs).
    assert (Hin : f ∈ filter (fun f => same_edge e f) l) by (by apply elem_of_list_filter).
    destruct (filter _ _); [by apply elem_of_nil in Hin|simpl; lia].
Qed.

(** Edges [(n, x)] for [x] in a list that repeats only [n]. *)
Lemma times_crossed_star n l u v : u <> v ->
  NoDup (filter (fun w => w <> n) l) ->
  times_crossed (u, v) ((fun x => (n, x)) <$> l) <= 1.
Proof.
  intros Hne. unfold times_crossed. induction l as [|x l IH]; intros Hnd; [simpl; lia|].
  rewrite fmap_cons, filter_cons. rewrite filter_cons in Hnd.
  destruct (decide (same_edge (u, v) (n, x))) as [Hs|Hs].
  - assert (x <> n) by (intros ->; destruct Hs as [[= -> ->]|[= -> ->]]; done).
    rewrite decide_True in Hnd by done. apply NoDup_cons in Hnd as [Hx Hnd]. simpl.
    destruct (filter _ (_ <$> _)) as [|f k] eqn:E; [simpl; lia|exfalso].
    assert (Hf : f ∈ f :: k) by left. rewrite <-E in Hf.
    apply elem_of_list_filter in Hf as [Hs' (y & -> & Hy)%elem_of_list_fmap].
    assert (x = y) as <-.
    { destruct Hs as [Hs|Hs], Hs' as [Hs'|Hs']; simplify_eq/=; done. }
    apply Hx. by apply elem_of_list_filter.
  - apply IH. case_decide; [by apply NoDup_cons in Hnd as [_ ?]|done].
Qed.

(** ** One step of a traversal *)

(** What visiting [n] from [p] may do to the pending edges. *)
Definition visit_ok (g : Graph) (V : gset N) (p n : N) (rest Q : list (N * N)) : Prop :=
  exists keep new,
    Q ≡ₚ keep ++ ((fun x => (n, x)) <$> new) /\
    sublist keep rest /\
    sublist new (nbrs g n) /\
    p ∉ new /\
    (forall x, x ∈ new -> x ∈ V -> (x, n) ∉ keep).

Inductive tstep (g : Graph) : gset N -> list (N * N) -> Step -> gset N -> list (N * N) -> Prop :=
| tstep_cut V p n rest : n ∈ V ->
    tstep g V ((p, n) :: rest) (mkStep p n true) V rest
| tstep_visit V p n rest Q : n ∉ V -> visit_ok g V p n rest Q ->
    tstep g V ((p, n) :: rest) (mkStep p n false) ({[n]} ∪ V) Q.

Record TInv (g : Graph) (r : N) (E : list Step) (V : gset N) (Q : list (N * N)) : Prop := {
  ti_disc : forall v, v ∈ V <-> v ∈ discovered r E;
  ti_nodup : NoDup (discovered r E);
  ti_pend : forall p n, (p, n) ∈ Q -> adj g p n /\ p ∈ V;
  ti_emit : forall s, s ∈ E -> adj g (sid s) (tid s) /\ sid s ∈ V /\ tid s ∈ V;
  ti_once : forall u v, u <> v -> times_crossed (u, v) (crossed E ++ Q) <= 1;
  ti_reach : forall v, v ∈ V -> reachable g r v;
  ti_cut : cut_exact r E
}.

Lemma discovered_snoc r E s :
  discovered r (E ++ [s]) =
  discovered r E ++ (if cut s then [] else [tid s]).
Proof.
  unfold discovered. rewrite filter_app, fmap_app, filter_cons, filter_nil. simpl.
  destruct (cut s); done.
Qed.

Lemma cut_exact_snoc r E s :
  cut_exact r E ->
  (cut s = true <-> tid s = r \/ exists s', s' ∈ E /\ tid s' = tid s) ->
  sid s ∈ discovered r E ->
  cut_exact r (E ++ [s]).
Proof.
  intros HE Hc Hs i s' Hi. apply lookup_app_Some in Hi as [Hi|[Hlen Hi]].
  - pose proof (lookup_lt_Some _ _ _ Hi) as Hlt. destruct (HE i s' Hi) as [H1 H2]. split.
    + rewrite H1. split; (intros [?|(j & x & Hj & Hx & Heq)]; [by left|right]); exists j, x.
      * split; [done|]. split; [by apply lookup_app_l_Some|done].
      * split; [done|]. rewrite lookup_app_l in Hx by lia. done.
    + destruct H2 as [?|(j & x & Hj & Hx & Heq)]; [by left|right]. exists j, x.
      split; [done|]. split; [by apply lookup_app_l_Some|done].
  - apply list_lookup_singleton_Some in Hi as [Hlen' <-].
    assert (i = length E) as -> by lia. split.
    + rewrite Hc. split.
      * intros [?|(x & [j Hj]%elem_of_list_lookup & Heq)]; [by left|right].
        exists j, x. split; [by eapply lookup_lt_Some|]. split; [by apply lookup_app_l_Some|done].
      * intros [?|(j & x & Hj & Hx & Heq)]; [by left|right].
        rewrite lookup_app_l in Hx by lia. exists x. split; [by eapply elem_of_list_lookup_2|done].
    + unfold discovered in Hs. apply elem_of_cons in Hs as [?|Hs]; [by left|right].
      apply elem_of_list_fmap in Hs as (x & Heq & [Hcx [j Hj]%elem_of_list_lookup]%elem_of_list_filter).
      exists j, x. split; [by eapply lookup_lt_Some|]. split; [by apply lookup_app_l_Some|done].
Qed.

Section inv.
  Context (g : Graph) (Hg : Lawful g).

  Lemma tinv_new r : TInv g r [] {[r]} ((fun x => (r, x)) <$> nbrs g r).
  Proof.
    split.
    - intros v. unfold discovered. simpl. set_solver.
    - unfold discovered. simpl. apply NoDup_singleton.
    - intros p n (x & [= -> ->] & Hx)%elem_of_list_fmap. split; [by apply adj_nbrs|set_solver].
    - intros s Hs. by apply elem_of_nil in Hs.
    - intros u v Hne. simpl. apply times_crossed_star; [done|]. by apply lawful_nbrs_nodup.
    - intros v ->%elem_of_singleton. constructor.
    - intros i s Hi. by rewrite lookup_nil in Hi.
  Qed.

  Lemma sublist_elem {A} (l k : list A) x : sublist l k -> x ∈ l -> x ∈ k.
  Proof. intros H. induction H; set_solver. Qed.

  Lemma sublist_filter_nodup (l k : list N) (P : N -> Prop) `{!forall x, Decision (P x)} :
    sublist l k -> NoDup (filter P k) -> NoDup (filter P l).
  Proof.
    intros Hsub. induction Hsub as [|x l k Hsub IH|x l k Hsub IH]; intros Hnd; [done|..].
    - rewrite filter_cons in Hnd |- *. case_decide; [|by apply IH].
      apply NoDup_cons in Hnd as [Hx Hnd]. apply NoDup_cons. split; [|by apply IH].
      rewrite elem_of_list_filter in Hx |- *. intros [? ?]. apply Hx. split; [done|].
      by eapply sublist_elem.
    - apply IH. rewrite filter_cons in Hnd. case_decide; [by apply NoDup_cons in Hnd as [_ ?]|done].
  Qed.

  Lemma tinv_step r E V Q s V' Q' :
    TInv g r E V Q -> tstep g V Q s V' Q' -> TInv g r (E ++ [s]) V' Q'.
  Proof.
    intros HI Hst. destruct Hst as [V p n rest Hn|V p n rest Q Hn (keep & new & HQ & Hk & Hnew & Hp & Hx)].
    - destruct (ti_pend _ _ _ _ _ HI p n) as [Hadj HpV]; [left|].
      split.
      + intros v. rewrite discovered_snoc. cbn [cut tid]. rewrite app_nil_r. apply (ti_disc _ _ _ _ _ HI).
      + rewrite discovered_snoc. cbn [cut tid]. rewrite app_nil_r. apply (ti_nodup _ _ _ _ _ HI).
      + intros p' n' Hin. apply (ti_pend _ _ _ _ _ HI). by right.
      + intros s [Hs| ->%elem_of_list_singleton]%elem_of_app; [by apply (ti_emit _ _ _ _ _ HI)|].
        done.
      + intros u v Hne. rewrite crossed_app. simpl.
        pose proof (ti_once _ _ _ _ _ HI u v Hne) as H. by rewrite <-app_assoc.
      + apply (ti_reach _ _ _ _ _ HI).
      + apply cut_exact_snoc; [apply (ti_cut _ _ _ _ _ HI)| |by apply (ti_disc _ _ _ _ _ HI)].
        simpl. split; [intros _|done].
        apply (ti_disc _ _ _ _ _ HI) in Hn. unfold discovered in Hn.
        apply elem_of_cons in Hn as [?|Hn]; [by left|right].
        apply elem_of_list_fmap in Hn as (x & Heq & [_ Hx]%elem_of_list_filter). eauto.
    - destruct (ti_pend _ _ _ _ _ HI p n) as [Hadj HpV]; [left|].
      assert (HnE : forall s, s ∈ E -> tid s <> n).
      { intros s Hs <-. destruct (ti_emit _ _ _ _ _ HI s Hs) as (_ & _ & ?). done. }
      assert (Hsrc : forall a b, (a, b) ∈ crossed E ++ (p, n) :: keep -> a ∈ V).
      { intros a b [(s & [= -> ->] & Hs)%elem_of_list_fmap|[[= -> ->]|Hin]%elem_of_cons]%elem_of_app.
        - by destruct (ti_emit _ _ _ _ _ HI s Hs) as (_ & ? & _).
        - done.
        - eapply (ti_pend _ _ _ _ _ HI a b). right. by eapply sublist_elem. }
      split.
      + intros v. rewrite discovered_snoc. cbn [cut tid]. rewrite elem_of_app, elem_of_list_singleton.
        rewrite <-(ti_disc _ _ _ _ _ HI). set_solver.
      + rewrite discovered_snoc. cbn [cut tid]. apply NoDup_app. split; [apply (ti_nodup _ _ _ _ _ HI)|].
        split; [|apply NoDup_singleton]. intros x Hin ->%elem_of_list_singleton.
        by apply (ti_disc _ _ _ _ _ HI) in Hin.
      + intros p' n'. rewrite HQ. intros [Hin|(x & [= -> ->] & Hin)%elem_of_list_fmap]%elem_of_app.
        * destruct (ti_pend _ _ _ _ _ HI p' n') as [? ?]; [right; by eapply sublist_elem|].
          split; [done|set_solver].
        * split; [|set_solver]. apply adj_nbrs. by eapply sublist_elem.
      + intros s [Hs| ->%elem_of_list_singleton]%elem_of_app.
        * destruct (ti_emit _ _ _ _ _ HI s Hs) as (? & ? & ?). split_and!; [done|set_solver..].
        * simpl. split_and!; [done|set_solver..].
      + intros u v Hne. rewrite crossed_app. simpl.
        rewrite (times_crossed_perm _ _ ((crossed E ++ (p, n) :: keep) ++ ((fun x => (n, x)) <$> new)))
          by (rewrite HQ; by rewrite <-!app_assoc).
        rewrite times_crossed_app.
        destruct (decide (0 < times_crossed (u, v) ((fun x => (n, x)) <$> new))) as [Hpos|Hz].
        * assert (times_crossed (u, v) ((fun x => (n, x)) <$> new) <= 1).
          { apply times_crossed_star; [done|]. eapply sublist_filter_nodup; [done|].
            by apply lawful_nbrs_nodup. }
          assert (times_crossed (u, v) (crossed E ++ (p, n) :: keep) = 0); [|lia].
          apply times_crossed_pos in Hpos as (f & (x & -> & Hxn)%elem_of_list_fmap & Hs).
          assert (x <> n) by (intros ->; destruct Hs as [[= -> ->]|[= -> ->]]; done).
          apply times_crossed_zero. intros [a b] Hin Hs'.
          pose proof (Hsrc a b Hin) as HaV.
          assert (Hab : (a, b) = (n, x) \/ (a, b) = (x, n)).
          { destruct Hs as [[= -> ->]|[= -> ->]], Hs' as [[= -> ->]|[= -> ->]]; auto. }
          destruct Hab as [[= -> ->]|[= -> ->]]; [done|].
          apply elem_of_app in Hin as [Hin|Hin].
          -- apply elem_of_list_fmap in Hin as (s & [= ? ?] & Hin). by eapply HnE.
          -- apply elem_of_cons in Hin as [[= ->]|Hin]; [done|]. by eapply Hx.
        * assert (times_crossed (u, v) (crossed E ++ (p, n) :: keep) <=
                  times_crossed (u, v) (crossed E ++ (p, n) :: rest)).
          { apply times_crossed_sublist. apply sublist_app; [done|]. by constructor. }
          pose proof (ti_once _ _ _ _ _ HI u v Hne). lia.
      + intros v [->%elem_of_singleton|Hv]%elem_of_union; [|by apply (ti_reach _ _ _ _ _ HI)].
        eapply rtc_r; [|exact Hadj]. by apply (ti_reach _ _ _ _ _ HI).
      + apply cut_exact_snoc; [apply (ti_cut _ _ _ _ _ HI)| |by apply (ti_disc _ _ _ _ _ HI)].
        simpl. split; [done|]. intros [->|(s & Hs & Heq)].
        * exfalso. apply Hn. apply (ti_disc _ _ _ _ _ HI). left.
        * exfalso. by eapply HnE.
  Qed.

  (** *** Termination *)

  Definition tmeasure (V : gset N) (Q : list (N * N)) : nat :=
    length Q + sum_list (map (fun v => length (nbrs g v)) (filter (fun v => v ∉ V) (g_nodes g))).

  Lemma sum_list_perm (l k : list nat) : l ≡ₚ k -> sum_list l = sum_list k.
  Proof. induction 1; simpl in *; lia. Qed.

  Lemma tmeasure_step V Q s V' Q' :
    (forall p n, (p, n) ∈ Q -> adj g p n) ->
    tstep g V Q s V' Q' -> tmeasure V' Q' < tmeasure V Q.
  Proof.
    intros Hadj Hst. destruct Hst as [V p n rest Hn|V p n rest Q Hn (keep & new & HQ & Hk & Hnew & Hp & Hx)];
      unfold tmeasure.
    - simpl. lia.
    - assert (Hin : n ∈ g_nodes g) by (eapply law_adj_node, (Hadj p n); [done|left]).
      assert (Hperm : filter (fun v => v ∉ V) (g_nodes g) ≡ₚ
                      n :: filter (fun v => v ∉ ({[n]} ∪ V)) (g_nodes g)).
      { pose proof (law_nodes g Hg) as Hnd. apply NoDup_Permutation.
        - by apply NoDup_filter.
        - apply NoDup_cons. split; [|by apply NoDup_filter].
          rewrite elem_of_list_filter. set_solver.
        - intros x. rewrite elem_of_cons, !elem_of_list_filter. 
          destruct (decide (x = n)) as [->|]; set_solver. }
      assert (Hs : sum_list (map (fun v => length (nbrs g v)) (filter (fun v => v ∉ V) (g_nodes g))) =
        length (nbrs g n) +
        sum_list (map (fun v => length (nbrs g v)) (filter (fun v => v ∉ ({[n]} ∪ V)) (g_nodes g)))).
      { by rewrite (sum_list_perm _ _ (fmap_Permutation _ _ _ Hperm)). }
      rewrite Hs, HQ, app_length, fmap_length. cbn [length].
      apply sublist_length in Hk, Hnew. lia.
  Qed.

  (** *** Steps are distinct edges *)

  Lemma steps_bound r E V Q : LoopFree g -> TInv g r E V Q -> length E <= g_size g.
  Proof.
    intros Hlf HI. rewrite (law_size g Hg).
    assert (Hnd : NoDup (norm <$> crossed E)).
    { apply NoDup_alt. intros i j e Hi Hj.
      destruct (decide (i = j)) as [|Hij]; [done|exfalso].
      rewrite list_lookup_fmap in Hi, Hj.
      apply fmap_Some in Hi as (e1 & Hi & He1). apply fmap_Some in Hj as (e2 & Hj & He2).
      assert (H1 : e1 ∈ crossed E) by (by eapply elem_of_list_lookup_2).
      destruct e1 as [a b].
      apply elem_of_list_fmap in H1 as (s & [= Ha Hb] & Hs).
      destruct (ti_emit _ _ _ _ _ HI s Hs) as (Hadj & _ & _). rewrite <-Ha, <-Hb in Hadj.
      assert (Hne : a <> b) by (intros ->; by apply (Hlf b)).
      pose proof (ti_once _ _ _ _ _ HI a b Hne) as Honce.
      rewrite times_crossed_app in Honce.
      assert (2 <= times_crossed (a, b) (crossed E)); [|lia].
      assert (Hs12 : same_edge (a, b) e2) by (apply norm_same_edge; congruence).
      clear -Hi Hj Hij Hs12. unfold times_crossed.
      revert i j Hi Hj Hij. induction (crossed E) as [|x l IH]; intros i j Hi Hj Hij.
      { by rewrite lookup_nil in Hi. }
      rewrite filter_cons. destruct i as [|i], j as [|j]; simpl in *; [lia|..].
      - injection Hi as ->. rewrite decide_True by (by left). simpl.
        assert (Hin : e2 ∈ filter (fun f => same_edge (a, b) f) l).
        { apply elem_of_list_filter. split; [done|]. by eapply elem_of_list_lookup_2. }
        destruct (filter _ _); [by apply elem_of_nil in Hin|simpl; lia].
      - injection Hj as ->. rewrite decide_True by done. simpl.
        assert (Hin : (a, b) ∈ filter (fun f => same_edge (a, b) f) l).
        { apply elem_of_list_filter. split; [by left|]. by eapply elem_of_list_lookup_2. }
        destruct (filter _ _); [by apply elem_of_nil in Hin|simpl; lia].
      - specialize (IH i j Hi Hj ltac:(lia)). case_decide; simpl; lia. }
    assert (Hsub : (norm <$> crossed E) ⊆+ (norm <$> g_edges g)).
    { apply NoDup_submseteq; [done|].
      intros e ([a b] & -> & (s & [= Ha Hb] & Hs)%elem_of_list_fmap)%elem_of_list_fmap.
      destruct (ti_emit _ _ _ _ _ HI s Hs) as (Hadj & _ & _). rewrite <-Ha, <-Hb in Hadj.
      assert (Hne : a <> b) by (intros ->; by apply (Hlf b)).
      apply elem_of_list_fmap. destruct (law_edges_complete g Hg a b Hne Hadj); [eauto|].
      exists (b, a). split; [|done]. apply norm_same_edge. by right. }
    apply submseteq_length in Hsub. unfold crossed in Hsub. by rewrite !fmap_length in Hsub.
  Qed.
End inv.

(** ** Both traversals are instances *)

Lemma foldl_cons_rev {A B} (f : A -> B) (l : list A) acc :
  foldl (fun st x => f x :: st) acc l = reverse (f <$> l) ++ acc.
Proof.
  revert acc. induction l as [|x l IH]; intros acc; [done|].
  cbn [foldl]. rewrite IH, fmap_cons, reverse_cons, <-app_assoc. done.
Qed.

Lemma foldl_snoc_map {A B} (f : A -> B) (l : list A) acc :
  foldl (fun q x => q ++ [f x]) acc l = acc ++ (f <$> l).
Proof.
  revert acc. induction l as [|x l IH]; intros acc; simpl; [by rewrite app_nil_r|].
  by rewrite IH, <-app_assoc.
Qed.

Lemma dfs_new_spec g r : Lawful g ->
  dfs_new g r = if bool_decide (r ∈ g_nodes g)
    then Ok (mkDF {[r]} ((fun x => (r, x)) <$> nbrs g r)) else Err (MissingNode r).
Proof.
  intros Hg. unfold dfs_new. case_bool_decide as Hr.
  - rewrite (lawful_nbrs g Hg r Hr). simpl. rewrite foldl_cons_rev, app_nil_r.
    by rewrite reverse_involutive.
  - by rewrite (law_neighbors_err g Hg r Hr).
Qed.

Lemma bfs_new_spec g r : Lawful g ->
  bfs_new g r = if bool_decide (r ∈ g_nodes g)
    then Ok (mkBF {[r]} ((fun x => (r, x)) <$> nbrs g r)) else Err (MissingNode r).
Proof.
  intros Hg. unfold bfs_new. case_bool_decide as Hr.
  - rewrite (lawful_nbrs g Hg r Hr). simpl. by rewrite foldl_snoc_map.
  - by rewrite (law_neighbors_err g Hg r Hr).
Qed.

Lemma bfs_push_spec V p n l Q :
  foldl (bfs_push V p n) Q l =
  Q ++ ((fun x => (n, x)) <$> filter (fun x => x <> p /\ x ∉ V) l).
Proof.
  revert Q. induction l as [|x l IH]; intros Q; simpl; [by rewrite app_nil_r|].
  rewrite IH. unfold bfs_push. rewrite filter_cons.
  destruct (bool_decide_reflect (x = p)) as [->|Hp]; simpl.
  { rewrite decide_False by tauto. done. }
  destruct (bool_decide_reflect (x ∈ V)) as [Hv|Hv].
  { rewrite decide_False by tauto. done. }
  rewrite decide_True by done. simpl. by rewrite <-app_assoc.
Qed.

Lemma sublist_filter {A} (P : A -> Prop) `{!forall x, Decision (P x)} (l : list A) :
  sublist (filter P l) l.
Proof. induction l as [|x l IH]; [done|]. rewrite filter_cons. case_decide; by constructor. Qed.

Lemma bfs_visit_ok g V p n rest :
  visit_ok g V p n rest (foldl (bfs_push V p n) rest (nbrs g n)).
Proof.
  rewrite bfs_push_spec. exists rest, (filter (fun x => x <> p /\ x ∉ V) (nbrs g n)).
  split_and!; [done|done|apply sublist_filter|..].
  - rewrite elem_of_list_filter. tauto.
  - intros x [[_ ?] _]%elem_of_list_filter. done.
Qed.

Lemma dfs_push_visit V p n l rest :
  exists keep new,
    foldl (dfs_push V p n) rest l = ((fun x => (n, x)) <$> new) ++ keep /\
    sublist keep rest /\ sublist new (reverse l) /\ p ∉ new /\
    (forall x, x ∈ new -> x ∈ V -> (x, n) ∉ keep).
Proof.
  revert rest. induction l as [|x l IH] using rev_ind; intros rest.
  { exists rest, []. split_and!; [done|done|done|set_solver|]. intros x Hx.
    by apply elem_of_nil in Hx. }
  rewrite foldl_app. simpl. destruct (IH rest) as (keep & new & -> & Hk & Hnew & Hp & Hx).
  rewrite reverse_app. simpl. unfold dfs_push at 1.
  destruct (bool_decide_reflect (x = p)) as [->|Hxp].
  { exists keep, new. split_and!; try done. by constructor. }
  destruct (bool_decide_reflect (x ∈ V)) as [HxV|HxV].
  - exists (filter (fun edge : N * N => edge.1 <> x /\ edge.2 <> n) keep),
      (x :: filter (fun y => n <> x /\ y <> n) new).
    split_and!.
    + rewrite filter_app, fmap_cons, <-app_comm_cons. f_equal. f_equal.
      clear. induction new as [|y new IH]; [done|]. rewrite fmap_cons, !filter_cons. simpl.
      destruct (decide (n <> x /\ y <> n)); [rewrite fmap_cons; by f_equal|done].
    + etrans; [apply sublist_filter|done].
    + constructor. etrans; [apply sublist_filter|done].
    + rewrite elem_of_cons, elem_of_list_filter. naive_solver.
    + intros y [->|[_ Hy]%elem_of_list_filter]%elem_of_cons HyV.
      * rewrite elem_of_list_filter. simpl. tauto.
      * rewrite elem_of_list_filter. intros [_ ?]. by eapply Hx.
  - exists keep, (x :: new). split_and!; [done|done|by constructor|set_solver|].
    intros y [->|Hy]%elem_of_cons HyV; [done|by apply Hx].
Qed.

Lemma dfs_visit_ok g V p n rest :
  visit_ok g V p n rest (foldl (dfs_push V p n) rest (reverse (nbrs g n))).
Proof.
  destruct (dfs_push_visit V p n (reverse (nbrs g n)) rest) as (keep & new & -> & H).
  rewrite reverse_involutive in H. exists keep, new. split; [apply Permutation_app_comm|done].
Qed.

Section instances.
  Context (g : Graph) (Hg : Lawful g).

  Lemma bfs_next_done t : bf_queue t = [] -> bfs_next g t = Ok (None, t).
  Proof. unfold bfs_next. by intros ->. Qed.
  Lemma dfs_next_done t : df_stack t = [] -> dfs_next g t = Ok (None, t).
  Proof. unfold dfs_next. by intros ->. Qed.

  Lemma bfs_next_step t : bf_queue t <> [] ->
    (forall p n, (p, n) ∈ bf_queue t -> adj g p n) ->
    exists s t', bfs_next g t = Ok (Some s, t') /\
      tstep g (bf_nodes t) (bf_queue t) s (bf_nodes t') (bf_queue t').
  Proof.
    intros Hne Hadj. unfold bfs_next. destruct t as [V [|[p n] rest]]; [done|]. simpl in *.
    case_bool_decide as Hn.
    - eexists _, _. split; [done|]. by constructor.
    - rewrite (lawful_nbrs g Hg n) by (eapply law_adj_node, (Hadj p n); [done|left]). simpl.
      eexists _, _. split; [done|]. constructor; [done|]. apply bfs_visit_ok.
  Qed.

  Lemma dfs_next_step t : df_stack t <> [] ->
    (forall p n, (p, n) ∈ df_stack t -> adj g p n) ->
    exists s t', dfs_next g t = Ok (Some s, t') /\
      tstep g (df_nodes t) (df_stack t) s (df_nodes t') (df_stack t').
  Proof.
    intros Hne Hadj. unfold dfs_next. destruct t as [V [|[p n] rest]]; [done|]. simpl in *.
    case_bool_decide as Hn.
    - eexists _, _. split; [done|]. by constructor.
    - rewrite (lawful_nbrs g Hg n) by (eapply law_adj_node, (Hadj p n); [done|left]). simpl.
      eexists _, _. split; [done|]. constructor; [done|]. apply dfs_visit_ok.
  Qed.

  (** Running to the end with an additional invariant [J]. *)
  Lemma bfs_run r (J : list Step -> gset N -> list (N * N) -> Prop) :
    r ∈ g_nodes g ->
    J [] {[r]} ((fun x => (r, x)) <$> nbrs g r) ->
    (forall E t s t', TInv g r E (bf_nodes t) (bf_queue t) -> J E (bf_nodes t) (bf_queue t) ->
       bfs_next g t = Ok (Some s, t') ->
       tstep g (bf_nodes t) (bf_queue t) s (bf_nodes t') (bf_queue t') ->
       J (E ++ [s]) (bf_nodes t') (bf_queue t')) ->
    exists steps V, breadth_first g r steps /\ TInv g r steps V [] /\ J steps V [].
  Proof.
    intros Hr HJ Hstep.
    destruct (gcollect_total (bfs_next g) bf_queue bfs_next_done
      (fun E t => TInv g r E (bf_nodes t) (bf_queue t) /\ J E (bf_nodes t) (bf_queue t))
      (fun t => tmeasure g (bf_nodes t) (bf_queue t))) with
      (s := mkBF {[r]} ((fun x => (r, x)) <$> nbrs g r)) (E := @nil Step)
      as (steps & t & Hc & [HI HJ'] & Hp).
    - intros E t [HI HJt] Hne.
      assert (Hadj : forall p n, (p, n) ∈ bf_queue t -> adj g p n)
        by (intros p n Hin; by apply (ti_pend _ _ _ _ _ HI)).
      destruct (bfs_next_step t Hne Hadj) as (s & t' & Hn & Hst).
      exists s, t'. split; [done|]. split; [split|].
      + by eapply tinv_step.
      + by eapply Hstep.
      + by eapply tmeasure_step.
    - simpl. split; [by apply tinv_new|done].
    - exists steps, (bf_nodes t). simpl in *. rewrite Hp in HI, HJ'. split; [|done].
      eexists _, _. split; [rewrite bfs_new_spec by done; rewrite bool_decide_eq_true_2 by done; done|].
      intros fuel Hf. rewrite bfs_gcollect. apply Hc. apply Hf.
  Qed.

  Lemma dfs_run r (J : list Step -> gset N -> list (N * N) -> Prop) :
    r ∈ g_nodes g ->
    J [] {[r]} ((fun x => (r, x)) <$> nbrs g r) ->
    (forall E t s t', TInv g r E (df_nodes t) (df_stack t) -> J E (df_nodes t) (df_stack t) ->
       dfs_next g t = Ok (Some s, t') ->
       tstep g (df_nodes t) (df_stack t) s (df_nodes t') (df_stack t') ->
       J (E ++ [s]) (df_nodes t') (df_stack t')) ->
    exists steps V, depth_first g r steps /\ TInv g r steps V [] /\ J steps V [].
  Proof.
    intros Hr HJ Hstep.
    destruct (gcollect_total (dfs_next g) df_stack dfs_next_done
      (fun E t => TInv g r E (df_nodes t) (df_stack t) /\ J E (df_nodes t) (df_stack t))
      (fun t => tmeasure g (df_nodes t) (df_stack t))) with
      (s := mkDF {[r]} ((fun x => (r, x)) <$> nbrs g r)) (E := @nil Step)
      as (steps & t & Hc & [HI HJ'] & Hp).
    - intros E t [HI HJt] Hne.
      assert (Hadj : forall p n, (p, n) ∈ df_stack t -> adj g p n)
        by (intros p n Hin; by apply (ti_pend _ _ _ _ _ HI)).
      destruct (dfs_next_step t Hne Hadj) as (s & t' & Hn & Hst).
      exists s, t'. split; [done|]. split; [split|].
      + by eapply tinv_step.
      + by eapply Hstep.
      + by eapply tmeasure_step.
    - simpl. split; [by apply tinv_new|done].
    - exists steps, (df_nodes t). simpl in *. rewrite Hp in HI, HJ'. split; [|done].
      eexists _, _. split; [rewrite dfs_new_spec by done; rewrite bool_decide_eq_true_2 by done; done|].
      intros fuel Hf. rewrite dfs_gcollect. apply Hc. apply Hf.
  Qed.
End instances.

Lemma breadth_first_fun g r E F : breadth_first g r E -> breadth_first g r F -> E = F.
Proof.
  intros (t & n & Ht & Hn) (t' & n' & Ht' & Hn'). rewrite Ht in Ht'. injection Ht' as <-.
  specialize (Hn (n + n') ltac:(lia)). specialize (Hn' (n + n') ltac:(lia)). congruence.
Qed.
Lemma depth_first_fun g r E F : depth_first g r E -> depth_first g r F -> E = F.
Proof.
  intros (t & n & Ht & Hn) (t' & n' & Ht' & Hn'). rewrite Ht in Ht'. injection Ht' as <-.
  specialize (Hn (n + n') ltac:(lia)). specialize (Hn' (n + n') ltac:(lia)). congruence.
Qed.

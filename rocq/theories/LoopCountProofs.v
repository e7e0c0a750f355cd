(** Self-loops and the number of steps of a traversal (property C90). *)
From Verif Require Import Outcome GraphModel TraversalModel ComponentsModel PairingModel GreedyModel
  Spec SpecAdvance GraphProofs EditProofs ConvertProofs EqProofs TraversalProofs BfsProofs DfsProofs PathLemmas
  AcyclicProofs CycleProofs NarrowProofs PairingProofs GreedyProofs ComponentsProofs AdvanceProofs MemoryProofs LoopProofs.

(** ** Counting a list of edges by representatives *)

Lemma sum_fmap_zero {A} (f : A -> nat) (l : list A) : (forall x, x ∈ l -> f x = 0) -> sum_list (f <$> l) = 0.
Proof.
  induction l as [|x l IH]; intros H; [done|]. rewrite fmap_cons. simpl.
  rewrite (H x) by left. apply IH. intros; apply H. by right.
Qed.

Lemma sum_fmap_add {A} (f h : A -> nat) (l : list A) :
  sum_list ((fun x => f x + h x) <$> l) = sum_list (f <$> l) + sum_list (h <$> l).
Proof. induction l as [|x l IH]; [done|]. rewrite !fmap_cons. simpl. rewrite IH. lia. Qed.

Lemma sum_fmap_le {A} (f h : A -> nat) (l : list A) : (forall x, x ∈ l -> f x <= h x) ->
  sum_list (f <$> l) <= sum_list (h <$> l).
Proof.
  induction l as [|x l IH]; intros H; [done|]. rewrite !fmap_cons. simpl.
  pose proof (H x ltac:(left)). specialize (IH (fun y Hy => H y ltac:(by right))). lia.
Qed.

Lemma sum_fmap_eq {A} (f h : A -> nat) (l : list A) : (forall x, x ∈ l -> f x = h x) ->
  sum_list (f <$> l) = sum_list (h <$> l).
Proof.
  induction l as [|x l IH]; intros H; [done|]. rewrite !fmap_cons. simpl.
  rewrite (H x) by left. f_equal. apply IH. intros; apply H. by right.
Qed.

Lemma sum_fmap_one {A} (l : list A) : sum_list ((fun _ => 1) <$> l) = length l.
Proof. induction l as [|x l IH]; [done|]. rewrite fmap_cons. simpl. by rewrite IH. Qed.

Lemma sum_fmap_bool {A} (P : A -> Prop) `{!forall x, Decision (P x)} (l : list A) :
  sum_list ((fun x => if decide (P x) then 1 else 0) <$> l) = length (filter P l).
Proof.
  induction l as [|x l IH]; [done|]. rewrite fmap_cons, filter_cons. simpl. rewrite IH.
  by case_decide.
Qed.

Lemma filter_all {A} (P : A -> Prop) `{!forall x, Decision (P x)} (l : list A) :
  (forall x, x ∈ l -> P x) -> filter P l = l.
Proof.
  induction l as [|x l IH]; intros Hall; [done|]. rewrite filter_cons, decide_True by (apply Hall; left).
  f_equal. apply IH. intros; apply Hall. by right.
Qed.

Lemma one_representative (K : list (N * N)) f : NoDup (norm <$> K) -> (exists e, e ∈ K /\ same_edge e f) ->
  sum_list ((fun e => if decide (same_edge e f) then 1 else 0) <$> K) = 1.
Proof.
  induction K as [|k K IH]; intros Hnd (e & He & Hs); [by apply elem_of_nil in He|].
  rewrite !fmap_cons in *. apply NoDup_cons in Hnd as [Hk Hnd]. simpl. case_decide as Hd.
  - rewrite sum_fmap_zero; [done|]. intros x Hx. rewrite decide_False; [done|]. intros Hxf. apply Hk.
    apply elem_of_list_fmap. exists x. split; [|done].
    apply norm_same_edge in Hd. apply norm_same_edge in Hxf. congruence.
  - simpl. apply IH; [done|]. apply elem_of_cons in He as [->|He]; [done|]. eauto.
Qed.

Lemma count_representatives (K L : list (N * N)) : NoDup (norm <$> K) ->
  (forall f, f ∈ L -> exists e, e ∈ K /\ same_edge e f) ->
  length L = sum_list ((fun e => times_crossed e L) <$> K).
Proof.
  intros HK. induction L as [|f L IH]; intros HL; [by rewrite sum_fmap_zero|].
  rewrite (sum_fmap_eq _ (fun e => (if decide (same_edge e f) then 1 else 0) + times_crossed e L)).
  - rewrite sum_fmap_add, one_representative by (try done; apply HL; left).
    rewrite <-IH by (intros; apply HL; by right). done.
  - intros e _. unfold times_crossed. rewrite filter_cons. by case_decide.
Qed.

(** The edges of [g] with two different ends, the first one in [D], and the
    self-loops at [D]. *)
Definition kinds (g : Graph) (D : list N) : list (N * N) :=
  filter (fun e : N * N => e.1 <> e.2 /\ e.1 ∈ D) (g_edges g) ++ ((fun v => (v, v)) <$> D).

Lemma nodup_norm_edges g (P : N * N -> Prop) `{!forall e, Decision (P e)} : Lawful g ->
  NoDup (norm <$> filter P (g_edges g)).
Proof.
  intros Hg. apply NoDup_fmap_2_strong; [|apply NoDup_filter, (law_edges_nodup g Hg)].
  intros [a b] [c d] [_ H1]%elem_of_list_filter [_ H2]%elem_of_list_filter E.
  apply norm_same_edge in E. destruct E as [E|E]; [done|]. simpl in E. injection E as -> ->.
  by rewrite (law_edges_once g Hg d c H1 H2).
Qed.

Lemma kinds_nodup g D : Lawful g -> NoDup D -> NoDup (norm <$> kinds g D).
Proof.
  intros Hg HD. unfold kinds. rewrite fmap_app. apply NoDup_app. split_and!.
  - by apply nodup_norm_edges.
  - intros e ([a b] & -> & [[Hab _] _]%elem_of_list_filter)%elem_of_list_fmap
      (f & E & (v & -> & _)%elem_of_list_fmap)%elem_of_list_fmap.
    apply norm_same_edge in E. apply Hab. by destruct E as [[= -> ->]|[= -> ->]].
  - rewrite <-list_fmap_compose. apply NoDup_fmap_2_strong; [|done].
    intros a b _ _ E. cbn in E. apply norm_same_edge in E. by destruct E as [[= ->]|[= ->]].
Qed.

Lemma kinds_cover g (D : list N) (L : list (N * N)) : Lawful g ->
  (forall u v, (u, v) ∈ L -> adj g u v /\ u ∈ D /\ v ∈ D) ->
  forall f, f ∈ L -> exists e, e ∈ kinds g D /\ same_edge e f.
Proof.
  intros Hg HL [u v] (Ha & Hu & Hv)%HL. unfold kinds. setoid_rewrite elem_of_app.
  destruct (decide (u = v)) as [->|Hne].
  - exists (v, v). split; [right; apply elem_of_list_fmap; by exists v|by left].
  - destruct (law_edges_complete g Hg u v Hne Ha) as [H|H].
    + exists (u, v). split; [left; by apply elem_of_list_filter|by left].
    + exists (v, u). split; [left; apply elem_of_list_filter; simpl; auto|by right].
Qed.

Lemma kinds_count g (D : list N) (L : list (N * N)) : Lawful g -> NoDup D ->
  (forall u v, (u, v) ∈ L -> adj g u v /\ u ∈ D /\ v ∈ D) ->
  length L = sum_list ((fun e => times_crossed e L) <$> filter (fun e : N * N => e.1 <> e.2 /\ e.1 ∈ D) (g_edges g)) +
    sum_list ((fun v => times_crossed (v, v) L) <$> D).
Proof.
  intros Hg HD HL. rewrite (count_representatives (kinds g D) L); [|by apply kinds_nodup|by apply kinds_cover].
  unfold kinds. rewrite fmap_app.
  rewrite <-list_fmap_compose. unfold compose.
  generalize ((fun e => times_crossed e L) <$> filter (fun e : N * N => e.1 <> e.2 /\ e.1 ∈ D) (g_edges g)).
  intros l. induction l as [|x l IH]; [done|]. simpl. rewrite IH. lia.
Qed.

(** On a graph that the API built, self-loops that [edges()] lists count twice. *)
Lemma api_sum d (D : list N) : Api d -> NoDup D -> (forall v, v ∈ D -> v ∈ g_nodes (as_graph d)) ->
  length (filter (fun e : N * N => e.1 <> e.2 /\ e.1 ∈ D) (g_edges (as_graph d))) +
    sum_list (own_entries (as_graph d) <$> D) =
  length (filter (fun e : N * N => e.1 ∈ D) (g_edges (as_graph d))) +
    length (filter (fun v => v ∈ D) (looped (as_graph d))).
Proof.
  intros Hd HD Hn. pose proof (api_lawful d Hd) as Hg. set (g := as_graph d) in *.
  assert (Hloop : forall v, v ∈ D -> (v, v) ∈ g_edges g -> g_has_edge g v v = Ok true).
  { intros v Hv He. destruct (law_has_edge g Hg v v (Hn v Hv) (Hn v Hv)) as (b & -> & Hb).
    f_equal. apply Hb. by apply (law_edges_adj g Hg). }
  assert (Hown : forall v, v ∈ D -> own_entries g v =
    (if decide ((v, v) ∈ g_edges g) then 1 else 0) + (if decide (g_has_edge g v v = Ok true) then 1 else 0)).
  { intros v Hv. unfold g. rewrite api_own_entries by done. fold g.
    repeat case_decide; repeat case_bool_decide; try done. exfalso. auto. }
  rewrite (sum_fmap_eq _ _ D Hown), sum_fmap_add, !sum_fmap_bool.
  assert (H1 : length (filter (fun v => v ∈ D) (looped g)) = length (filter (fun v => g_has_edge g v v = Ok true) D)).
  { apply Permutation_length, NoDup_Permutation.
    - apply NoDup_filter. unfold looped. apply NoDup_filter, (law_nodes g Hg).
    - by apply NoDup_filter.
    - intros v. unfold looped. rewrite !elem_of_list_filter. split; [tauto|].
      intros [? Hv]. split; [done|]. split; [done|]. by apply Hn. }
  rewrite H1, Nat.add_assoc. f_equal.
  assert (H2 : filter (fun e : N * N => e.1 ∈ D) (g_edges g) ≡ₚ
    filter (fun e : N * N => e.1 <> e.2 /\ e.1 ∈ D) (g_edges g) ++
    ((fun v => (v, v)) <$> filter (fun v => (v, v) ∈ g_edges g) D)).
  { apply NoDup_Permutation.
    - apply NoDup_filter, (law_edges_nodup g Hg).
    - apply NoDup_app. split_and!.
      + apply NoDup_filter, (law_edges_nodup g Hg).
      + intros [a b] [[Hab _] _]%elem_of_list_filter (v & [= -> ->] & _)%elem_of_list_fmap. by apply Hab.
      + apply NoDup_fmap_2_strong; [|by apply NoDup_filter]. by intros a b _ _ [=].
    - intros [a b]. rewrite elem_of_app, !elem_of_list_filter, elem_of_list_fmap. cbn. split.
      + intros [Ha He]. destruct (decide (a = b)) as [<-|Hne]; [|auto].
        right. exists a. split; [done|]. by apply elem_of_list_filter.
      + intros [[[_ ?] ?]|(v & [= -> ->] & [? ?]%elem_of_list_filter)]; auto. }
  rewrite (Permutation_length H2), app_length, fmap_length. done.
Qed.

(** ** Breadth first *)

Definition bfs_counted (g : Graph) (E : list Step) (V : gset N) (Q : list (N * N)) : Prop :=
  forall v, v ∈ V -> times_crossed (v, v) (crossed E ++ Q) = own_entries g v.

Lemma bfs_counted_step g r E t s t' : Lawful g ->
  TInv g r E (bf_nodes t) (bf_queue t) ->
  bfs_counted g E (bf_nodes t) (bf_queue t) -> bfs_next g t = Ok (Some s, t') ->
  bfs_counted g (E ++ [s]) (bf_nodes t') (bf_queue t').
Proof.
  intros Hg HT HJ Hn. destruct t as [V [|[p n] rest]]; [done|]. cbn [bf_nodes bf_queue] in *.
  unfold bfs_next in Hn. cbn [bf_nodes bf_queue] in Hn.
  destruct (ti_pend _ _ _ _ _ HT p n) as [Hpn HpV]; [left|].
  intros v Hv. rewrite crossed_app, <-app_assoc. case_bool_decide as HnV.
  { injection Hn as <- <-. by apply HJ. }
  rewrite (lawful_nbrs g Hg n) in Hn by (by eapply law_adj_node). injection Hn as <- <-. cbn [bf_nodes bf_queue] in *.
  change (crossed [mkStep p n false]) with [(p, n)]. rewrite bfs_push_spec.
  assert (Hsrc : forall b, (n, b) ∉ crossed E ++ (p, n) :: rest).
  { intros b [(s & [= -> ->] & Hs)%elem_of_list_fmap|Hin]%elem_of_app.
    - by destruct (ti_emit _ _ _ _ _ HT s Hs) as (_ & ? & _).
    - apply (ti_pend _ _ _ _ _ HT) in Hin as [_ ?]. done. }
  change ([(p, n)] ++ rest ++ ?k) with (((p, n) :: rest) ++ k). rewrite app_assoc, times_crossed_app.
  rewrite times_loop_star. case_bool_decide as Hvn.
  - subst v. rewrite (times_loop_zero n) by apply Hsrc. rewrite own_nbrs. simpl. f_equal.
    assert (Hp : p <> n) by (by intros ->). clear -HnV Hp. induction (nbrs g n) as [|x l IH]; [done|].
    rewrite (filter_cons (fun x => x <> p /\ x ∉ V)), (filter_cons (fun w => w = n)).
    destruct (decide (x = n)) as [->|Hx].
    + rewrite decide_True by done. rewrite filter_cons, decide_True by done. by rewrite IH.
    + case_decide; [|done]. by rewrite filter_cons, decide_False by done.
  - rewrite Nat.add_0_r. apply HJ. set_solver.
Qed.

Lemma bfs_counted_new g r : bfs_counted g [] {[r]} ((fun x => (r, x)) <$> nbrs g r).
Proof.
  intros v ->%elem_of_singleton. change (crossed []) with (@nil (N * N)). simpl.
  by rewrite times_loop_star, bool_decide_eq_true_2.
Qed.

Lemma bfs_loops g r steps : Lawful g -> breadth_first g r steps ->
  forall v, v ∈ discovered r steps -> times_crossed (v, v) (crossed steps) = own_entries g v.
Proof.
  intros Hg Hb. pose proof (bfs_root g r steps Hg Hb) as Hr.
  destruct (bfs_run g Hg r (bfs_counted g) Hr (bfs_counted_new g r)) as (steps' & V & Hb' & HT & HJ).
  - intros E t s t' HT HJ Hn _. by eapply bfs_counted_step.
  - rewrite (breadth_first_fun g r steps steps' Hb Hb'). intros v Hv%(ti_disc _ _ _ _ _ HT).
    specialize (HJ v Hv). by rewrite app_nil_r in HJ.
Qed.

Lemma bfs_edges_in g r steps : Lawful g -> breadth_first g r steps ->
  forall u v, (u, v) ∈ crossed steps -> adj g u v /\ u ∈ discovered r steps /\ v ∈ discovered r steps.
Proof.
  intros Hg Hb u v (s & [= -> ->] & Hs)%elem_of_list_fmap.
  destruct (bfs_facts g r steps Hg Hb) as (V & HI & _ & _).
  destruct (ti_emit _ _ _ _ _ HI s Hs) as (? & ?%(ti_disc _ _ _ _ _ HI) & ?%(ti_disc _ _ _ _ _ HI)). done.
Qed.

Lemma bfs_steps_count g r steps : Lawful g -> breadth_first g r steps ->
  length steps = length (filter (fun e : N * N => e.1 <> e.2 /\ e.1 ∈ discovered r steps) (g_edges g)) +
    sum_list (own_entries g <$> discovered r steps).
Proof.
  intros Hg Hb. destruct (bfs_component g r steps Hg Hb) as [Hnd Hcomp].
  destruct (bfs_crosses g r steps Hg Hb) as [_ Hc].
  pose proof (kinds_count g (discovered r steps) (crossed steps) Hg Hnd (bfs_edges_in g r steps Hg Hb)) as H.
  unfold crossed in H at 1. rewrite fmap_length in H. rewrite H. f_equal.
  - rewrite <-sum_fmap_one. apply sum_fmap_eq. intros [u v] [[Hne Hu] He]%elem_of_list_filter.
    apply Hc; [done|by apply (law_edges_adj g Hg)|by apply Hcomp].
  - apply sum_fmap_eq. intros v Hv. by apply (bfs_loops g r steps).
Qed.

(** ** Any moment of either traversal *)

Lemma bfs_advance_counted g r k E t outs t' : Lawful g -> TInv g r E (bf_nodes t) (bf_queue t) ->
  bfs_counted g E (bf_nodes t) (bf_queue t) -> bfs_advance k g t = Ok (outs, t') ->
  bfs_counted g (E ++ omap id outs) (bf_nodes t') (bf_queue t').
Proof.
  intros Hg. revert E t outs. induction k as [|k IH]; intros E t outs HT HJ H.
  { injection H as <- <-. by rewrite app_nil_r. }
  cbn [bfs_advance] in H. apply cbind_ok in H as ([o t1] & Hn & H).
  apply cbind_ok in H as ([outs1 t2] & Ha & [= <- <-]). cbn [fst snd] in *.
  destruct (decide (bf_queue t = [])) as [E0|Hne].
  - unfold bfs_next in Hn. rewrite E0 in Hn. injection Hn as <- <-. by apply (IH E t outs1).
  - destruct (bfs_next_step g Hg t Hne) as (s & t3 & Hn3 & Hst).
    { intros p n Hp. by apply (ti_pend _ _ _ _ _ HT). }
    pose proof Hn3 as Hn3'. rewrite Hn in Hn3. injection Hn3 as -> ->.
    pose proof (tinv_step g Hg r E _ _ _ _ _ HT Hst) as HT1.
    pose proof (bfs_counted_step g r E t s t3 Hg HT HJ Hn3') as HJ1.
    specialize (IH _ _ _ HT1 HJ1 Ha). by rewrite <-app_assoc in IH.
Qed.

Lemma dfs_advance_counted g r k E t outs t' : Lawful g -> TInv g r E (df_nodes t) (df_stack t) ->
  loops_counted g E (df_nodes t) (df_stack t) -> dfs_advance k g t = Ok (outs, t') ->
  loops_counted g (E ++ omap id outs) (df_nodes t') (df_stack t').
Proof.
  intros Hg. revert E t outs. induction k as [|k IH]; intros E t outs HT HJ H.
  { injection H as <- <-. by rewrite app_nil_r. }
  cbn [dfs_advance] in H. apply cbind_ok in H as ([o t1] & Hn & H).
  apply cbind_ok in H as ([outs1 t2] & Ha & [= <- <-]). cbn [fst snd] in *.
  destruct (decide (df_stack t = [])) as [E0|Hne].
  - unfold dfs_next in Hn. rewrite E0 in Hn. injection Hn as <- <-. by apply (IH E t outs1).
  - destruct (dfs_next_step g Hg t Hne) as (s & t3 & Hn3 & Hst).
    { intros p n Hp. by apply (ti_pend _ _ _ _ _ HT). }
    pose proof Hn3 as Hn3'. rewrite Hn in Hn3. injection Hn3 as -> ->.
    pose proof (tinv_step g Hg r E _ _ _ _ _ HT Hst) as HT1.
    pose proof (loops_counted_step g r E t s t3 Hg HT HJ Hn3') as HJ1.
    specialize (IH _ _ _ HT1 HJ1 Ha). by rewrite <-app_assoc in IH.
Qed.

Lemma bfs_after_counted g r k outs t : Lawful g -> bfs_after g r k outs t ->
  forall v, v ∈ bf_nodes t ->
    times_crossed (v, v) (crossed (omap id outs) ++ bf_queue t) = own_entries g v.
Proof.
  intros Hg (t0 & Hn & Ha). rewrite bfs_new_spec in Hn by done. case_bool_decide as Hr; [|done].
  injection Hn as <-. apply (bfs_advance_counted g r k [] _ outs t Hg) in Ha; [done|by apply tinv_new|].
  apply bfs_counted_new.
Qed.

Lemma dfs_after_counted g r k outs t : Lawful g -> dfs_after g r k outs t ->
  forall v, v ∈ df_nodes t ->
    times_crossed (v, v) (crossed (omap id outs) ++ df_stack t) <= own_entries g v.
Proof.
  intros Hg (t0 & Hn & Ha). rewrite dfs_new_spec in Hn by done. case_bool_decide as Hr; [|done].
  injection Hn as <-. apply (dfs_advance_counted g r k [] _ outs t Hg) in Ha; [|by apply tinv_new|].
  - intros v Hv. by apply Ha.
  - intros v Hv. cbn [df_nodes df_stack] in *. apply elem_of_singleton in Hv as ->.
    change (crossed []) with (@nil (N * N)). cbn [app].
    rewrite times_loop_star, bool_decide_eq_true_2 by done. split; [done|by left].
Qed.

(** What both keep in memory, counted with the steps made. *)
Lemma held_bound g r E V Q : Lawful g -> r ∈ g_nodes g -> TInv g r E V Q ->
  (forall v, v ∈ V -> times_crossed (v, v) (crossed E ++ Q) <= own_entries g v) ->
  length E + length Q <=
    length (filter (fun e : N * N => e.1 <> e.2) (g_edges g)) + sum_list (own_entries g <$> g_nodes g).
Proof.
  intros Hg Hr HT HJ. replace (length E + length Q) with (length (crossed E ++ Q))
    by (unfold crossed; by rewrite app_length, fmap_length).
  assert (Hsrc : forall u v, (u, v) ∈ crossed E ++ Q -> adj g u v /\ u ∈ V).
  { intros u v [(s & [= -> ->] & Hs)%elem_of_list_fmap|H]%elem_of_app.
    - by destruct (ti_emit _ _ _ _ _ HT s Hs) as (? & ? & _).
    - by apply (ti_pend _ _ _ _ _ HT). }
  assert (Hin : forall u v, adj g u v -> u ∈ g_nodes g /\ v ∈ g_nodes g).
  { intros u v Ha. split; [by eapply law_adj_node, law_adj_sym|by eapply law_adj_node]. }
  rewrite (kinds_count g (g_nodes g) _ Hg (law_nodes g Hg)).
  2:{ intros u v [Ha _]%Hsrc. split; [done|]. by apply Hin. }
  apply Nat.add_le_mono.
  - replace (filter (fun e : N * N => e.1 <> e.2) (g_edges g))
      with (filter (fun e : N * N => e.1 <> e.2 /\ e.1 ∈ g_nodes g) (g_edges g)).
    + rewrite <-sum_fmap_one. apply sum_fmap_le. intros [u v] [[Hne _] _]%elem_of_list_filter.
      by apply (ti_once _ _ _ _ _ HT).
    + assert (Hall : forall u v, (u, v) ∈ g_edges g -> u ∈ g_nodes g).
      { intros u v He. apply (Hin u v). by apply (law_edges_adj g Hg). }
      revert Hall. generalize (g_nodes g). intros l. induction (g_edges g) as [|[a b] es IH]; intros Hall; [done|].
      rewrite !filter_cons. cbn. rewrite IH by (intros; eapply Hall; by right).
      pose proof (Hall a b ltac:(left)). repeat case_decide; tauto || done.
  - apply sum_fmap_le. intros v _. destruct (decide (v ∈ V)) as [Hv|Hv]; [by apply HJ|].
    rewrite times_loop_zero; [lia|]. intros b [_ ?]%Hsrc. done.
Qed.

Lemma api_held d : Api d ->
  length (filter (fun e : N * N => e.1 <> e.2) (g_edges (as_graph d))) +
    sum_list (own_entries (as_graph d) <$> g_nodes (as_graph d)) =
  g_size (as_graph d) + length (looped (as_graph d)).
Proof.
  intros Hd. pose proof (api_lawful d Hd) as Hg.
  assert (Hall : forall u v, (u, v) ∈ g_edges (as_graph d) -> u ∈ g_nodes (as_graph d)).
  { intros u v He. eapply law_adj_node, law_adj_sym; [done..|]. by apply (law_edges_adj _ Hg). }
  pose proof (api_sum d (g_nodes (as_graph d)) Hd (law_nodes _ Hg) (fun v Hv => Hv)) as H.
  rewrite (law_size _ Hg).
  replace (filter (fun e : N * N => e.1 ∈ g_nodes (as_graph d)) (g_edges (as_graph d))) with (g_edges (as_graph d)) in H.
  - replace (filter (fun v => v ∈ g_nodes (as_graph d)) (looped (as_graph d))) with (looped (as_graph d)) in H.
    + rewrite <-H. f_equal. f_equal. clear H Hd.
      induction (g_edges (as_graph d)) as [|[a b] es IH]; [done|].
      rewrite !filter_cons. cbn. rewrite IH by (intros; eapply Hall; by right).
      pose proof (Hall a b ltac:(left)). repeat case_decide; tauto || done.
    + symmetry. apply filter_all. intros v. unfold looped. by intros [_ ?]%elem_of_list_filter.
  - symmetry. apply filter_all. intros [a b] He. by eapply Hall.
Qed.

(** ** Depth first *)

Lemma dfs_edges_in g r steps : Lawful g -> depth_first g r steps ->
  forall u v, (u, v) ∈ crossed steps -> adj g u v /\ u ∈ discovered r steps /\ v ∈ discovered r steps.
Proof.
  intros Hg Hd u v (s & [= -> ->] & Hs)%elem_of_list_fmap.
  destruct (dfs_facts g r steps Hg Hd) as (V & HT).
  destruct (ti_emit _ _ _ _ _ HT s Hs) as (? & ?%(ti_disc _ _ _ _ _ HT) & ?%(ti_disc _ _ _ _ _ HT)). done.
Qed.

Lemma dfs_steps_count g r steps : Lawful g -> depth_first g r steps ->
  length steps <= length (filter (fun e : N * N => e.1 <> e.2 /\ e.1 ∈ discovered r steps) (g_edges g)) +
    sum_list (own_entries g <$> discovered r steps) /\
  ((forall v, v ∈ discovered r steps -> ~ on_cycle g v) ->
   length steps = length (filter (fun e : N * N => e.1 <> e.2 /\ e.1 ∈ discovered r steps) (g_edges g)) +
    sum_list (own_entries g <$> discovered r steps)).
Proof.
  intros Hg Hd. destruct (dfs_sound g r steps Hg Hd) as (_ & Hnd & Honce).
  pose proof (kinds_count g (discovered r steps) (crossed steps) Hg Hnd (dfs_edges_in g r steps Hg Hd)) as H.
  unfold crossed in H at 1. rewrite fmap_length in H. rewrite H. split; [apply Nat.add_le_mono|intros Hc; f_equal].
  - rewrite <-sum_fmap_one. apply sum_fmap_le. intros [u v] [[Hne _] _]%elem_of_list_filter. by apply Honce.
  - apply sum_fmap_le. intros v _. apply (dfs_loops g r steps Hg Hd v).
  - rewrite <-sum_fmap_one. apply sum_fmap_eq. intros [u v] [[Hne Hu] He]%elem_of_list_filter.
    destruct (dfs_off_cycle g r steps Hg Hd u v Hu Hne (law_edges_adj g Hg u v He)) as [?|Hon]; [done|].
    exfalso. by apply (Hc u).
  - apply sum_fmap_eq. intros v Hv. destruct (dfs_loops g r steps Hg Hd v) as [_ H2].
    destruct (H2 Hv) as [?|Hon]; [done|]. by destruct (Hc v Hv).
Qed.

(** Where no node lies on a cycle the whole component is visited. *)
Lemma dfs_reaches_off_cycle g r steps : Lawful g -> depth_first g r steps ->
  (forall v, reachable g r v -> ~ on_cycle g v) ->
  forall v, v ∈ discovered r steps <-> reachable g r v.
Proof.
  intros Hg Hd Hc v. destruct (dfs_sound g r steps Hg Hd) as (Hsound & _ & _).
  destruct (dfs_facts g r steps Hg Hd) as (V & HT). split.
  - intros Hv%(ti_disc _ _ _ _ _ HT). by apply (ti_reach _ _ _ _ _ HT).
  - revert v. apply (rtc_ind_r (fun v => v ∈ discovered r steps) r); [by left|].
    intros u v Hu Ha IH.
    destruct (decide (u = v)) as [<-|Hne]; [done|].
    destruct (dfs_off_cycle g r steps Hg Hd u v IH Hne Ha) as [H|H]; [|exfalso; by apply (Hc u)].
    assert (Hpos : 0 < times_crossed (u, v) (crossed steps)) by lia.
    apply times_crossed_pos in Hpos as ([a b] & Hab & Hs).
    apply (dfs_edges_in g r steps Hg Hd) in Hab as (_ & ? & ?). by destruct Hs as [[= -> ->]|[= -> ->]].
Qed.

(** ** components without cycles *)

Lemma cycle_free_whole g : Lawful g -> (forall v, ~ on_cycle g v) -> whole_firsts g.
Proof.
  intros Hg Hc i r Hi _ d Hy. destruct (yields_subgraph g r d Hg Hy) as (_ & _ & Hsub & _).
  destruct Hy as (steps & Hwf & Hd & Hn & He & Hr & _).
  pose proof (dfs_reaches_off_cycle g r steps Hg Hd (fun v _ => Hc v)) as H1. rewrite Hn. split_and!.
  - apply H1.
  - intros u v Hu. split; [apply Hsub|]. intros Huv. apply adj_row; [by apply wf_idx|]. apply Hr.
    assert (Hpos : 0 < times_crossed (u, v) (crossed steps)).
    { destruct (decide (u = v)) as [<-|Hne].
      - destruct (dfs_loops g r steps Hg Hd u) as [_ H2]. destruct (H2 Hu) as [H|H]; [|by destruct (Hc u)].
        rewrite H, own_nbrs. apply adj_nbrs in Huv.
        assert (Hin : u ∈ filter (fun w => w = u) (nbrs g u)) by (by apply elem_of_list_filter).
        destruct (filter _ _); [by apply elem_of_nil in Hin|simpl; lia].
      - destruct (dfs_off_cycle g r steps Hg Hd u v Hu Hne Huv) as [H|H]; [lia|by destruct (Hc u)]. }
    apply times_crossed_pos in Hpos as ([a b] & Hin & [[= -> ->]|[= -> ->]]); auto.
  - apply (dfs_sound g r steps Hg Hd).
  - done.
Qed.

Lemma components_whole_loops g ds : Lawful g -> whole_firsts g -> components_are g ds ->
  (ds ≫= (fun d => g_nodes (as_graph d))) ≡ₚ g_nodes g /\
  (forall d u v, d ∈ ds -> u ∈ g_nodes (as_graph d) ->
     (v ∈ g_nodes (as_graph d) <-> reachable g u v)) /\
  (forall d u v, d ∈ ds -> u ∈ g_nodes (as_graph d) -> (adj (as_graph d) u v <-> adj g u v)) /\
  (exists roots, (fun d => head (g_nodes (as_graph d))) <$> ds = Some <$> roots /\
     sublist roots (g_nodes g)) /\
  (forall d r i j v, d ∈ ds -> head (g_nodes (as_graph d)) = Some r ->
     g_nodes g !! i = Some r -> g_nodes g !! j = Some v -> v ∈ g_nodes (as_graph d) -> i <= j).
Proof.
  intros Hg Ha Hc.
  destruct (comps_gen g ∅ (g_nodes g) Hg) as [(ds' & n & Hcs & _ & Hf)|(v & n & _ & Hf)]; [done| |].
  2:{ destruct Hc as (m & Hm). specialize (Hm (m + n) ltac:(lia)). unfold components in Hm.
      by rewrite Hf in Hm by lia. }
  assert (ds = ds') as <-.
  { apply (components_are_fun g); [done|]. by exists n. }
  destruct (comps_whole g ∅ [] (g_nodes g) ds) as (H1 & H2 & H3 & H4 & H5 & H6);
    [done|done|done|done|set_solver|set_solver|].
  split_and!; try done.
  apply NoDup_Permutation; [done|apply (law_nodes g Hg)|].
  intros v. rewrite elem_of_list_bind. split.
  - intros (d & Hv & Hd). destruct (comps_subgraph _ _ _ _ _ Hcs Hd) as (r & Hy).
    destruct (yields_subgraph g r d Hg Hy) as (_ & Hn & _). by apply Hn.
  - intros Hv. destruct (comps_cover _ _ _ _ _ Hcs Hv) as [Hv'|(d & Hd & Hvd)]; [set_solver|by exists d].
Qed.

Lemma components_cycle_free_returns g : Lawful g -> (forall v, ~ on_cycle g v) ->
  ((exists ds, components_are g ds) <-> forall v, own_entries g v <= 1) /\
  ((exists v, components_panic g (DuplicateEdge v v) /\ 2 <= own_entries g v) <-> exists v, 2 <= own_entries g v).
Proof.
  intros Hg Hc. destruct (components_confined g Hg) as [(ds & H1 & _ & _ & H2)|(v & H1 & H2)].
  - assert (Hno : forall v, own_entries g v <= 1).
    { intros v. destruct (decide (own_entries g v <= 1)) as [|H]; [done|]. destruct (Hc v). apply H2. lia. }
    split; split; [done|eauto|intros (v & _ & Hv); eauto|intros (v & Hv); specialize (Hno v); lia].
  - split; split; [|intros H; specialize (H v); lia|intros (w & _ & Hw); eauto|eauto].
    intros (ds & m & Hm). destruct H1 as (n & Hn). specialize (Hm (m + n) ltac:(lia)).
    by rewrite Hn in Hm by lia.
Qed.

(** ** greedy without cycles *)

Lemma greedy_fold_loops (L : N -> Prop) r E steps st : NoDup (discovered r (E ++ steps)) ->
  cut_exact r (E ++ steps) ->
  (forall s, s ∈ steps -> cut s = true -> sid s = tid s) ->
  (forall s, s ∈ steps -> sid s = tid s -> L (sid s)) ->
  symmetric_pairing st.2 ->
  (forall x, is_Some (st.2 !! x) -> x ∈ st.1) ->
  (forall x, x ∈ st.1 -> x ∈ discovered r (E ++ steps) ->
     x ∈ discovered r E /\ (is_Some (st.2 !! x) \/ L x)) ->
  let st' := foldl greedy_step st steps in
  symmetric_pairing st'.2 /\
  (forall x, is_Some (st'.2 !! x) -> x ∈ st'.1) /\
  (forall x, is_Some (st.2 !! x) -> is_Some (st'.2 !! x)) /\
  (forall x, x ∈ st'.1 -> x ∈ st.1 \/ x ∈ discovered r (E ++ steps)) /\
  (forall s, s ∈ steps -> is_Some (st'.2 !! sid s) \/ is_Some (st'.2 !! tid s) \/ L (sid s)).
Proof.
  revert E st. induction steps as [|s steps IH];
    intros E [V p] Hnd Hcut Hself HL Hs Hdom Hfresh.
  { simpl in *. split_and!; try done; [by left|]. intros s Hs'. by apply elem_of_nil in Hs'. }
  cbn [foldl]. simpl in Hs, Hdom, Hfresh.
  assert (Happ : E ++ s :: steps = (E ++ [s]) ++ steps) by (by rewrite <-app_assoc).
  assert (HsL : (E ++ s :: steps) !! length E = Some s)
    by (by rewrite lookup_app_r, Nat.sub_diag by lia).
  assert (HdE : forall x, x ∈ discovered r E -> x ∈ discovered r (E ++ [s])).
  { intros x. rewrite discovered_snoc, elem_of_app. by left. }
  assert (HdF : forall x, x ∈ discovered r (E ++ [s]) -> x ∈ discovered r (E ++ s :: steps)).
  { intros x Hx. rewrite Happ. by apply discovered_prefix. }
  assert (HsE : sid s ∈ discovered r E).
  { destruct (Hcut (length E) s HsL) as [_ [->|(j & x & Hj & Hx & Hcx & <-)]].
    - left.
    - rewrite lookup_app_l in Hx by lia. right. apply elem_of_list_fmap. exists x. split; [done|].
      apply elem_of_list_filter. split; [done|]. by eapply elem_of_list_lookup_2. }
  assert (Htree : sid s <> tid s -> tid s ∉ V /\ tid s ∈ discovered r (E ++ [s])).
  { intros Hne. destruct (cut s) eqn:Hcs; [destruct Hne; apply Hself; [left|done]|].
    assert (Hin : tid s ∈ discovered r (E ++ [s])).
    { rewrite discovered_snoc, Hcs. apply elem_of_app. right. left. }
    split; [|done]. intros HV. destruct (Hfresh _ HV (HdF _ Hin)) as [HE _].
    rewrite Happ, discovered_app, discovered_snoc, Hcs in Hnd.
    apply NoDup_app in Hnd as (Hnd & _ & _). apply NoDup_app in Hnd as (_ & Hnd & _).
    by apply (Hnd (tid s)); [|left]. }
  assert (exists V' p', greedy_step (V, p) s = (V', p') /\
    symmetric_pairing p' /\ (forall x, is_Some (p' !! x) -> x ∈ V') /\
    (forall x, is_Some (p !! x) -> is_Some (p' !! x)) /\
    (forall x, x ∈ V' -> x ∈ V \/ x ∈ discovered r (E ++ [s]) /\ (is_Some (p' !! x) \/ L x)) /\
    (is_Some (p' !! sid s) \/ is_Some (p' !! tid s) \/ L (sid s)))
    as (V' & p' & Heq & Hs' & Hdom' & Hmono & Hbd & Hedge).
  { simpl. case_bool_decide as H1.
    - eexists _, _. split; [done|]. split_and!; try done; [by left|].
      destruct (Hfresh _ H1 (HdF _ (HdE _ HsE))) as [_ [?|?]]; auto.
    - case_bool_decide as H2.
      + assert (Heq : sid s = tid s).
        { destruct (decide (sid s = tid s)) as [|Hne]; [done|]. destruct (Htree Hne) as [H3 _].
          apply elem_of_union in H2 as [H2%elem_of_singleton|H2]; congruence. }
        assert (HLs : L (sid s)) by (apply HL; [left|done]).
        eexists _, _. split; [done|]. split_and!; try done.
        * intros x Hx. apply elem_of_union. right. by apply Hdom.
        * intros x [->%elem_of_singleton|?]%elem_of_union; [right; split; [by apply HdE|by right]|by left].
        * auto.
      + rewrite elem_of_union, elem_of_singleton in H2.
        assert (Hst : sid s <> tid s) by (intros ?; apply H2; by left).
        destruct (Htree Hst) as [HtV HtE].
        assert (Hps : p !! sid s = None).
        { destruct (p !! sid s) eqn:Hp; [|done]. destruct H1. apply Hdom. by eexists. }
        assert (Hpt : p !! tid s = None).
        { destruct (p !! tid s) eqn:Hp; [|done]. destruct HtV. apply Hdom. by eexists. }
        assert (Hl1 : p_pair p (sid s) (tid s) !! sid s = Some (tid s)).
        { rewrite pair_lookup by done. by rewrite bool_decide_eq_true_2. }
        assert (Hl2 : p_pair p (sid s) (tid s) !! tid s = Some (sid s)).
        { rewrite pair_lookup by done. rewrite bool_decide_eq_false_2 by done.
          by rewrite bool_decide_eq_true_2. }
        assert (Hlo : forall x, x <> sid s -> x <> tid s -> p_pair p (sid s) (tid s) !! x = p !! x).
        { intros x Hx1 Hx2. rewrite pair_lookup by done.
          rewrite bool_decide_eq_false_2 by done. rewrite bool_decide_eq_false_2 by done.
          case_bool_decide as H3; [|done]. exfalso.
          destruct H3 as [H3|H3]; apply Hs in H3 as [H3 _]; congruence. }
        eexists _, _. split; [done|]. split_and!.
        * by apply pair_symmetric.
        * intros x Hx. rewrite !elem_of_union, !elem_of_singleton.
          destruct (decide (x = sid s)); [by right; left|]. destruct (decide (x = tid s)); [by left|].
          right; right. apply Hdom. by rewrite <-Hlo.
        * intros x Hx. destruct (decide (x = sid s)) as [->|]; [by eexists|].
          destruct (decide (x = tid s)) as [->|]; [by eexists|]. by rewrite Hlo.
        * intros x. rewrite !elem_of_union, !elem_of_singleton.
          intros [->|[->|?]]; [right; split; [done|left; by eexists]|right; split; [by apply HdE|left; by eexists]|by left].
        * left. by eexists. }
  rewrite Heq. rewrite Happ in *.
  destruct (IH (E ++ [s]) (V', p')) as (J1 & J2 & J3 & J4 & J5); try done.
  { intros s' Hs1. apply Hself. by right. }
  { intros s' Hs1. apply HL. by right. }
  { simpl. intros x Hx Hxd. destruct (Hbd x Hx) as [HxV|?]; [|done].
    destruct (Hfresh x HxV Hxd) as [? [?|?]]; auto. }
  simpl in J1, J2, J3, J4. split_and!; try done.
  - intros x Hx. by apply J3, Hmono.
  - intros x Hx. destruct (J4 x Hx) as [Hx'|?]; [|by right].
    destruct (Hbd x Hx') as [?|[? _]]; [by left|right]. by apply HdF.
  - intros s' [->|Hs1]%elem_of_cons; [|by apply J5].
    destruct Hedge as [?|[?|?]]; [left|right; left|by right; right]; by apply J3.
Qed.

Lemma greedy_comps_loops g V pre iter ds st st' : Lawful g -> (forall v, ~ on_cycle g v) ->
  comps g V iter ds -> greedy_on st ds st' -> g_nodes g = pre ++ iter ->
  (forall v, v ∈ pre -> v ∈ V) ->
  (forall u v, u ∈ V -> reachable g u v -> v ∈ V) ->
  symmetric_pairing st.2 -> (forall x, is_Some (st.2 !! x) -> x ∈ st.1) ->
  (forall x, x ∈ st.1 -> x ∈ V) ->
  (forall u v, u ∈ V -> u <> v -> adj g u v ->
     is_Some (st.2 !! u) \/ is_Some (st.2 !! v) \/ adj g u u \/ adj g v v) ->
  forall u v, (u ∈ V \/ u ∈ iter) -> u <> v -> adj g u v ->
    is_Some (st'.2 !! u) \/ is_Some (st'.2 !! v) \/ adj g u u \/ adj g v v.
Proof.
  intros Hg Hcf Hc. revert pre st.
  induction Hc as [V|V r iter ds Hr _ IH|V V' r iter d ds Hr Hy HV' _ IH];
    intros pre st Hgo Hpre HpV Hcl Hs Hdom HsV Hdec.
  - inversion Hgo; subst. intros u v [Hu|Hu] Huv; [|by apply elem_of_nil in Hu].
    by apply Hdec.
  - intros u v Hu Huv. eapply (IH (pre ++ [r]) st); try done.
    + by rewrite <-app_assoc.
    + intros w [Hw| ->%elem_of_list_singleton]%elem_of_app; auto.
    + destruct Hu as [?|[->|?]%elem_of_cons]; auto.
  - inversion Hgo as [|? ? ? r' steps ? Hh Hd Hgo']; subst.
    destruct (first_whole g V pre r iter Hg (cycle_free_whole g Hg Hcf) Hpre HpV Hcl Hr d Hy)
      as (Y1 & Y2 & Y3 & Y4).
    destruct (yields_subgraph g r d Hg Hy) as (_ & _ & Hsub & Hconn).
    assert (Hgd : Lawful (as_graph d)) by (destruct Hy as (? & Hwf & _); by apply wf_lawful).
    assert (Hrd : r ∈ dg_nodes d) by (by eapply yields_root).
    rewrite Y4 in Hh. injection Hh as <-.
    assert (Hcd : forall v, ~ on_cycle (as_graph d) v).
    { intros v Hv. apply (Hcf v). by apply (on_cycle_mono g (as_graph d)). }
    destruct (dfs_sound (as_graph d) r steps Hgd Hd) as (S1 & S2 & S3).
    destruct (dfs_facts (as_graph d) r steps Hgd Hd) as (W & HT).
    assert (Hdn : forall v, v ∈ dg_nodes d <-> v ∈ discovered r steps).
    { intros v. rewrite (dfs_reaches_off_cycle (as_graph d) r steps Hgd Hd (fun w _ => Hcd w)). split.
      - intros Hv. by apply Hconn.
      - intros Hv. by apply (reachable_node (as_graph d) Hgd r). }
    assert (HdV : forall v, v ∈ dg_nodes d -> v ∉ V).
    { intros v Hv HvV. apply Hr. eapply Hcl; [exact HvV|].
      apply reachable_sym; [done|]. by apply Y1. }
    destruct (greedy_fold_loops (fun x => adj g x x) r [] steps st) as (J1 & J2 & J3 & J4 & J5);
      simpl; try done.
    { by eapply dfs_cut_exact. }
    { intros s Hs' Hcs. destruct (decide (sid s = tid s)) as [|Hne]; [done|]. exfalso.
      apply (Hcd (sid s)). by eapply cut_on_cycle. }
    { intros s Hs' Heq. destruct (S1 s Hs') as [Hadj _]. rewrite <-Heq in Hadj. by apply Hsub. }
    { intros x Hx Hxd. destruct (HdV x); [by apply Hdn|]. by apply HsV. }
    simpl in *. intros u v Hu Hne Huv.
    eapply (IH (pre ++ [r]) (foldl greedy_step st steps)); try done.
    + by rewrite <-app_assoc.
    + intros w [Hw| ->%elem_of_list_singleton]%elem_of_app; apply HV'; [by right; auto|by left].
    + intros a b [Hab|Hab]%HV' Hreach; apply HV'.
      * left. apply Y1. apply Y1 in Hab. by eapply reach_trans.
      * right. by eapply Hcl.
    + intros x Hx. apply HV'. destruct (J4 x Hx) as [?|?]; [right; by apply HsV|left; by apply Hdn].
    + intros a b [Had'|HaV]%HV' Hnab Hab.
      * assert (Habd : adj (as_graph d) a b) by (by apply Y2).
        destruct (dfs_off_cycle (as_graph d) r steps Hgd Hd a b (proj1 (Hdn a) Had') Hnab Habd)
          as [H1|Hon]; [|by destruct (Hcd a)].
        assert (Hpos : 0 < times_crossed (a, b) (crossed steps)) by lia.
        apply times_crossed_pos in Hpos as (f & (s & -> & Hs')%elem_of_list_fmap & Hsame).
        destruct (J5 s Hs') as [?|[?|?]], Hsame as [[= -> ->]|[= -> ->]]; auto.
      * destruct (Hdec a b HaV Hnab Hab) as [?|[?|?]]; [left|right; left|by right; right]; by apply J3.
    + destruct Hu as [?|[->|?]%elem_of_cons]; [left; apply HV'; by right|left; apply HV'; by left|by right].
Qed.

Lemma greedy_cycle_free g p : Lawful g -> (forall v, ~ on_cycle g v) -> greedy_is g p ->
  forall u v, u <> v -> adj g u v ->
    is_Some (p !! u) \/ is_Some (p !! v) \/ adj g u u \/ adj g v v.
Proof.
  intros Hg Hcf (m & Hm) u v Hne Huv.
  destruct (greedy_gen g ∅ (g_nodes g) (∅, p_new) Hg)
    as [(ds & st' & n & Hc & Hy & Hgo & Hf)|(w & n & Hw & Hf)]; [done|..].
  - specialize (Hm (m + n) ltac:(lia)). destruct (Hf (m + n) ltac:(lia)) as [Hf' _].
    unfold greedy, components in Hm. rewrite Hf' in Hm. injection Hm as <-.
    eapply (greedy_comps_loops g ∅ [] (g_nodes g) ds (∅, p_new) st'); try done.
    + intros w Hw. by apply elem_of_nil in Hw.
    + intros x [y Hy']. simpl in Hy'. unfold p_new in Hy'. by rewrite lookup_empty in Hy'.
    + right. eapply law_adj_node; [done|]. by apply law_adj_sym.
  - specialize (Hm (m + n) ltac:(lia)). destruct (Hf (m + n) ltac:(lia)) as [Hf' _].
    unfold greedy, components in Hm. by rewrite Hf' in Hm.
Qed.

Lemma greedy_cycle_free_returns g : Lawful g -> (forall v, ~ on_cycle g v) ->
  ((exists p, greedy_is g p) <-> forall v, own_entries g v <= 1) /\
  (forall p, greedy_is g p -> pairing_of g p).
Proof.
  intros Hg Hc. destruct (components_cycle_free_returns g Hg Hc) as [H1 _].
  destruct (greedy_confined g Hg) as [(p & Hp & Hv & Hds)|(v & (n & Hn) & Hp & Hv)].
  - split; [split; [intros _; by apply H1|intros _; eauto]|]. intros q (m & Hq). destruct Hp as (n & Hp).
    specialize (Hq (m + n) ltac:(lia)). specialize (Hp (m + n) ltac:(lia)). rewrite Hp in Hq. by injection Hq as <-.
  - split; [split|].
    + intros (q & m & Hq). specialize (Hq (m + n) ltac:(lia)). by rewrite Hn in Hq by lia.
    + intros H. specialize (H v). lia.
    + intros q (m & Hq). specialize (Hq (m + n) ltac:(lia)). by rewrite Hn in Hq by lia.
Qed.

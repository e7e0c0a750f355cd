(** A depth-first traversal that crosses every edge of its component is
    reproduced, step by step, by the graph made from it. *)
From Verif Require Import Outcome GraphModel TraversalModel ComponentsModel PairingModel Spec
  GraphProofs EditProofs ConvertProofs EqProofs TraversalProofs BfsProofs DfsProofs PathLemmas
  AcyclicProofs CycleProofs NarrowProofs ComponentsProofs.

(** Well-formed graphs with equal lists are equal. *)
Lemma idx_ext d d' : IdxOk d -> IdxOk d' -> dg_nodes d = dg_nodes d' -> dg_edges d = dg_edges d' ->
  (forall u, row d u = row d' u) -> d = d'.
Proof.
  intros Hd Hd' Hn He Hr.
  assert (Hi : dg_indices d = dg_indices d').
  { apply map_eq. intros v. apply option_eq. intros i. by rewrite (ix_iff d Hd), (ix_iff d' Hd'), Hn. }
  assert (Ha : dg_adjacency d = dg_adjacency d').
  { apply list_eq_same_length with (n := length (dg_nodes d)).
    - by rewrite (ix_len d' Hd'), Hn.
    - by rewrite (ix_len d Hd).
    - intros i x y Hlt Hx Hy. destruct (lookup_lt_is_Some_2 (dg_nodes d) i Hlt) as (u & Hu).
      specialize (Hr u). unfold row in Hr.
      rewrite (proj2 (ix_iff d Hd u i) Hu) in Hr. rewrite Hn in Hu.
      rewrite (proj2 (ix_iff d' Hd' u i) Hu) in Hr. simpl in Hr. rewrite Hx, Hy in Hr. done. }
  destruct d, d'. simpl in *. by subst.
Qed.

(** Visiting [n] with no self-loop at [n]: exactly its other edges, and a
    filter of the rest that depends on the neighbors as a set only. *)
Definition kept (drops : list N) (n : N) (e : N * N) : Prop :=
  e.1 ∉ drops /\ (drops <> [] -> e.2 <> n).
Global Instance kept_dec drops n e : Decision (kept drops n e).
Proof. unfold kept. apply _. Defined.

Lemma kept_perm D D' n e : D ≡ₚ D' -> kept D n e <-> kept D' n e.
Proof.
  intros Hp. unfold kept. rewrite (elem_of_Permutation_proper _ _ _ Hp).
  assert (Hnil : D = [] <-> D' = []).
  { split; intros ->; [by apply Permutation_nil in Hp|by apply Permutation_sym, Permutation_nil in Hp]. }
  rewrite Hnil. done.
Qed.

Lemma dfs_push_exact (V : gset N) p n l rest : n ∉ V -> n ∉ l ->
  foldl (dfs_push V p n) rest (reverse l) =
    ((fun x => (n, x)) <$> filter (fun x => x <> p) l) ++
    filter (kept (filter (fun x => x <> p /\ x ∈ V) l) n) rest.
Proof.
  intros HnV. induction l as [|x l IH]; intros Hnl.
  { simpl. symmetry. apply filter_all. intros e _. split; [|done]. rewrite filter_nil. apply not_elem_of_nil. }
  apply not_elem_of_cons in Hnl as [Hnx Hnl].
  rewrite reverse_cons, foldl_app, IH by done. cbn [foldl]. unfold dfs_push at 1.
  rewrite (filter_cons (fun x => x <> p) x), (filter_cons (fun x => x <> p /\ x ∈ V) x).
  destruct (bool_decide_reflect (x = p)) as [->|Hxp].
  { rewrite !decide_False by tauto. done. }
  rewrite (decide_True (P := x <> p)) by done.
  destruct (bool_decide_reflect (x ∈ V)) as [HxV|HxV].
  - rewrite decide_True by done. rewrite filter_app, fmap_cons, <-app_comm_cons. f_equal. f_equal.
    + apply filter_all. intros e (y & -> & [_ Hy]%elem_of_list_filter)%elem_of_list_fmap. simpl.
      split; [done|]. by intros ->.
    + rewrite filter_filter. apply filter_ext_in. intros e _. unfold kept. rewrite not_elem_of_cons.
      split; [|naive_solver]. intros ([H1 H2] & H3 & H4). naive_solver.
  - rewrite (decide_False (P := _ /\ _)) by tauto. done.
Qed.

(** ** Stacks that differ inside the blocks of equal source only *)

Inductive blocks (row_of : N -> list N) : list (N * N) -> list (N * N) -> Prop :=
| blocks_nil : blocks row_of [] []
| blocks_cons v A B S T : A ≡ₚ B -> sublist B (row_of v) -> blocks row_of S T ->
    blocks row_of (((fun x => (v, x)) <$> A) ++ S) (((fun x => (v, x)) <$> B) ++ T).

Lemma filter_fmap_pair (P : N * N -> Prop) `{!forall e, Decision (P e)} v (A : list N) :
  filter P ((fun x => (v, x)) <$> A) = (fun x => (v, x)) <$> filter (fun x => P (v, x)) A.
Proof.
  induction A as [|x A IH]; [done|]. rewrite fmap_cons, !filter_cons.
  destruct (decide (P (v, x))); [rewrite fmap_cons; by f_equal|done].
Qed.

Lemma blocks_filter R (P : N * N -> Prop) `{!forall e, Decision (P e)} S T :
  blocks R S T -> blocks R (filter P S) (filter P T).
Proof.
  induction 1 as [|v A B S T HAB Hsub _ IH]; [constructor|].
  rewrite !filter_app, !filter_fmap_pair. constructor; [by rewrite HAB| |done].
  etrans; [apply sublist_filter|done].
Qed.

Lemma blocks_uncons R p a S T : blocks R ((p, a) :: S) T ->
  exists A B S' T', S = ((fun x => (p, x)) <$> A) ++ S' /\ T = ((fun x => (p, x)) <$> B) ++ T' /\
    a :: A ≡ₚ B /\ sublist B (R p) /\ blocks R S' T'.
Proof.
  intros H. remember ((p, a) :: S) as S0 eqn:E. revert S E.
  induction H as [|v A B S0 T0 HAB Hsub HST IH]; intros S E; [done|].
  destruct A as [|x A].
  - apply Permutation_nil in HAB as ->. apply (IH S E).
  - rewrite fmap_cons in E. simpl in E. injection E as -> -> <-.
    exists A, B, S0, T0. done.
Qed.

Lemma blocks_nil_inv R T : blocks R [] T -> T = [].
Proof.
  intros H. remember (@nil (N * N)) as S0 eqn:E. induction H as [|v A B S T HAB _ _ IH]; [done|].
  apply app_eq_nil in E as [EA ES]. apply fmap_nil_inv in EA as ->.
  apply Permutation_nil in HAB as ->. by rewrite IH.
Qed.

(** ** The order of a row of the record *)

Lemma rows_app E F v : a_neighbors (mkA [] (E ++ F)) v = a_neighbors (mkA [] E) v ++ a_neighbors (mkA [] F) v.
Proof. unfold a_neighbors. cbn [a_edges]. by rewrite bind_app. Qed.

Lemma rows_elem E v x : x ∈ a_neighbors (mkA [] E) v <-> (v, x) ∈ E \/ (x, v) ∈ E.
Proof.
  unfold a_neighbors. cbn [a_edges]. rewrite elem_of_list_bind. split.
  - intros ([a b] & Hx & He). simpl in Hx. apply elem_of_app in Hx as [Hx|Hx]; case_bool_decide; set_solver.
  - intros [H|H]; (eexists; split; [|exact H]); simpl; apply elem_of_app; [left|right];
      rewrite bool_decide_eq_true_2 by done; left.
Qed.

Section replay.
  Context (g h : Graph) (Hg : Lawful g) (Hl : LoopFree g) (r : N) (steps : list Step).
  Context (Hn : forall v, reachable g r v -> g_neighbors h v = Ok (a_neighbors (mkA [] (crossed steps)) v)).
  Context (Hnd : forall v, reachable g r v -> NoDup (a_neighbors (mkA [] (crossed steps)) v)).
  Context (Hfull : forall u v, reachable g r u -> adj g u v ->
    (u, v) ∈ crossed steps \/ (v, u) ∈ crossed steps).
  Context (Hsound : forall s, s ∈ steps -> adj g (sid s) (tid s)).

  Notation R := (a_neighbors (mkA [] (crossed steps))).

  Lemma rows_perm v : reachable g r v -> v ∈ g_nodes g -> nbrs g v ≡ₚ R v.
  Proof using Hg Hl Hn Hnd Hfull Hsound.
    intros Hv Hvg. apply NoDup_Permutation.
    - destruct (law_neighbors g Hg v Hvg) as (l & Hl' & Hnd').
      rewrite (lawful_nbrs g Hg v Hvg) in Hl'. injection Hl' as <-.
      rewrite filter_all in Hnd'; [done|]. intros x Hx ->. apply (Hl v). by apply adj_nbrs.
    - by apply Hnd.
    - intros x. rewrite <-adj_nbrs, rows_elem. split; [by apply Hfull|].
      intros [(s & [= -> ->] & Hs)%elem_of_list_fmap|(s & [= -> ->] & Hs)%elem_of_list_fmap].
      + by apply Hsound.
      + by apply (law_adj_sym g Hg), Hsound.
  Qed.

  Lemma replay_collect fuel E V S T F : TInv g r E V S -> E ++ F = steps -> blocks R S T ->
    dfs_collect fuel g (mkDF V S) = Ok F -> dfs_collect fuel h (mkDF V T) = Ok F.
  Proof using Hg Hl Hn Hnd Hfull Hsound.
    revert E V S T F. induction fuel as [|fuel IH]; intros E V S T F HT HEF HB HC; [done|].
    cbn [dfs_collect] in *. destruct S as [|[p a] S].
    { apply blocks_nil_inv in HB as ->. done. }
    destruct (dfs_next_step g Hg (mkDF V ((p, a) :: S))) as (s & t' & Hnx & Hst); [done| |].
    { intros x y Hxy. by apply (ti_pend _ _ _ _ _ HT). }
    simpl in Hst. pose proof (tinv_step g Hg r E V _ s _ _ HT Hst) as HT'.
    rewrite Hnx in HC. cbn [cbind] in HC. apply cbind_ok in HC as (F' & HC & [= <-]).
    assert (Hs : sid s = p /\ tid s = a) by (by inversion Hst). destruct Hs as [Hsp Hsa].
    destruct (ti_pend _ _ _ _ _ HT p a) as [Hpa HpV]; [left|].
    pose proof (ti_reach _ _ _ _ _ HT p HpV) as Hrp.
    assert (Hra : reachable g r a) by (by eapply rtc_r).
    assert (Hag : a ∈ g_nodes g) by (by eapply law_adj_node).
    (* the first entry of the other stack is the same *)
    destruct (blocks_uncons _ _ _ _ _ HB) as (A & B & S' & T' & -> & -> & HAB & Hsub & HB').
    assert (HRp : R p = a_neighbors (mkA [] (crossed E)) p ++ a :: a_neighbors (mkA [] (crossed F')) p).
    { rewrite <-HEF, crossed_app. change (s :: F') with ([s] ++ F'). rewrite crossed_app, !rows_app.
      f_equal. unfold a_neighbors at 1. simpl. rewrite Hsp, Hsa, bool_decide_eq_true_2 by done.
      rewrite bool_decide_eq_false_2; [done|]. intros ->. by apply (Hl p). }
    assert (HBh : exists B', B = a :: B' /\ A ≡ₚ B').
    { destruct B as [|b B]; [by apply Permutation_sym, Permutation_nil in HAB|].
      destruct (decide (b = a)) as [->|Hba].
      { exists B. split; [done|]. by apply Permutation_cons_inv in HAB. }
      exfalso. rewrite HRp in Hsub.
      assert (Hb : b ∉ a_neighbors (mkA [] (crossed E)) p).
      { intros Hin%rows_elem.
        assert (HbA : b ∈ A).
        { assert (b ∈ a :: A) as [->|?]%elem_of_cons by (rewrite HAB; left); done. }
        assert (Hpb : p <> b).
        { intros <-. destruct (ti_pend _ _ _ _ _ HT p p) as [Hpp _]; [|by apply (Hl p)].
          right. apply elem_of_app. left. by apply elem_of_list_fmap_1. }
        pose proof (ti_once _ _ _ _ _ HT p b Hpb) as Honce. rewrite times_crossed_app in Honce.
        assert (0 < times_crossed (p, b) (crossed E)).
        { apply times_crossed_pos. destruct Hin as [Hin|Hin]; eexists; (split; [exact Hin|]); [by left|by right]. }
        assert (0 < times_crossed (p, b) ((p, a) :: ((fun x => (p, x)) <$> A) ++ S')).
        { apply times_crossed_pos. exists (p, b). split; [|by left].
          right. apply elem_of_app. left. by apply elem_of_list_fmap_1. }
        lia. }
      pose proof (Hnd p Hrp) as HndR. rewrite HRp in HndR.
      assert (HaB : a ∈ B).
      { assert (a ∈ b :: B) as [->|?]%elem_of_cons by (rewrite <-HAB; left); done. }
      apply NoDup_app in HndR as (_ & _ & [Ha _]%NoDup_cons).
      revert Hsub Hb. clear -Ha HaB Hba. generalize (a_neighbors (mkA [] (crossed E)) p) as l. intros l Hsub Hb.
      induction l as [|x l IHl]; simpl in Hsub.
      - inversion Hsub as [|? ? ? Hs|? ? ? Hs]; simplify_eq. apply Ha.
        eapply sublist_submseteq in Hs. eapply elem_of_submseteq; [|exact Hs]. by right.
      - apply not_elem_of_cons in Hb as [Hbx Hb].
        inversion Hsub as [|? ? ? Hs|? ? ? Hs]; simplify_eq. by apply IHl. }
    destruct HBh as (B' & -> & HAB').
    assert (HsubB' : sublist B' (R p)).
    { etrans; [|exact Hsub]. by constructor. }
    assert (HB2 : blocks R (((fun x => (p, x)) <$> A) ++ S') (((fun x => (p, x)) <$> B') ++ T'))
      by (by constructor).
    unfold dfs_next in Hnx |- *. cbn [df_stack df_nodes fmap list_fmap app] in Hnx |- *.
    case_bool_decide as HaV.
    - injection Hnx as <- <-. cbn [cbind]. erewrite IH; [done|exact HT'| |exact HB2|exact HC].
      by rewrite <-app_assoc.
    - rewrite (lawful_nbrs g Hg a Hag) in Hnx. rewrite (Hn a Hra). cbn [unwrap cbind] in Hnx |- *.
      injection Hnx as <- <-. cbn [cbind].
      pose proof (rows_perm a Hra Hag) as Hperm.
      assert (Hnl : a ∉ nbrs g a) by (rewrite <-adj_nbrs; apply Hl).
      assert (HnR : a ∉ R a) by (by rewrite <-Hperm).
      erewrite IH; [done|exact HT'| | |exact HC]; [by rewrite <-app_assoc|].
      cbn [df_stack]. rewrite !dfs_push_exact by done. constructor.
      + by rewrite Hperm.
      + apply sublist_filter.
      + assert (Hext : forall e, kept (filter (fun x => x <> p /\ x ∈ V) (nbrs g a)) a e <->
          kept (filter (fun x => x <> p /\ x ∈ V) (R a)) a e).
        { intros e. apply kept_perm. by rewrite Hperm. }
        rewrite (filter_ext_in _ (kept (filter (fun x => x <> p /\ x ∈ V) (R a)) a) (_ ++ S'))
          by (intros e _; apply Hext).
        by apply blocks_filter.
  Qed.
End replay.

(** Nothing listed twice in a row of the record. *)
Lemma once_rows E v : (forall u w, u <> w -> times_crossed (u, w) E <= 1) ->
  (forall e, e ∈ E -> e.1 <> e.2) -> NoDup (a_neighbors (mkA [] E) v).
Proof.
  induction E as [|[a b] E IH]; intros Honce Hne; [constructor|].
  assert (Hab : a <> b) by (apply (Hne (a, b)); left).
  assert (IH' : NoDup (a_neighbors (mkA [] E) v)).
  { apply IH; [|intros e He; apply Hne; by right]. intros u w Huw.
    specialize (Honce u w Huw). change ((a, b) :: E) with ([(a, b)] ++ E) in Honce.
    rewrite times_crossed_app in Honce. lia. }
  assert (Hno : forall x, x <> v -> ((a, b) = (v, x) \/ (a, b) = (x, v)) -> x ∉ a_neighbors (mkA [] E) v).
  { intros x Hx Heq Hin%rows_elem. specialize (Honce v x (fun H => Hx (eq_sym H))).
    change ((a, b) :: E) with ([(a, b)] ++ E) in Honce. rewrite times_crossed_app in Honce.
    assert (0 < times_crossed (v, x) [(a, b)]).
    { apply times_crossed_pos. exists (a, b). split; [left|]. destruct Heq as [-> | ->]; [by left|by right]. }
    assert (0 < times_crossed (v, x) E); [|lia].
    apply times_crossed_pos. destruct Hin as [Hin|Hin]; eexists; (split; [exact Hin|]); [by left|by right]. }
  change ((a, b) :: E) with ([(a, b)] ++ E). rewrite rows_app. unfold a_neighbors at 1. simpl.
  destruct (bool_decide_reflect (a = v)) as [->|Hav]; simpl.
  - rewrite bool_decide_eq_false_2 by done. simpl. apply NoDup_cons. split; [|done].
    apply Hno; [done|by left].
  - destruct (bool_decide_reflect (b = v)) as [->|Hbv]; simpl; [|done].
    apply NoDup_cons. split; [|done]. apply Hno; [done|by right].
Qed.

Definition all_crossed (g : Graph) (r : N) (steps : list Step) : Prop :=
  forall u v, reachable g r u -> adj g u v -> (u, v) ∈ crossed steps \/ (v, u) ∈ crossed steps.

(** The replay, for any graph with the rows of the record. *)
Lemma replay g h r steps : Lawful g -> LoopFree g -> depth_first g r steps -> all_crossed g r steps ->
  (forall v, reachable g r v -> g_neighbors h v = Ok (a_neighbors (mkA [] (crossed steps)) v)) ->
  depth_first h r steps.
Proof.
  intros Hg Hl Hd Hfull Hn. destruct (dfs_sound g r steps Hg Hd) as (H1 & H2 & H3).
  pose proof (dfs_root g r steps Hg Hd) as Hr.
  assert (Hne : forall e, e ∈ crossed steps -> e.1 <> e.2).
  { intros e (s & -> & Hs)%elem_of_list_fmap Heq. simpl in Heq. destruct (H1 s Hs) as [Ha _].
    rewrite Heq in Ha. by apply (Hl (tid s)). }
  assert (Hnd : forall v, NoDup (a_neighbors (mkA [] (crossed steps)) v)) by (intros v; by apply once_rows).
  pose proof Hd as (t & n & Ht & Hc).
  rewrite dfs_new_spec, bool_decide_eq_true_2 in Ht by done. injection Ht as <-.
  assert (Hs : forall s, s ∈ steps -> adj g (sid s) (tid s)) by (intros s Hs; by apply H1).
  exists (mkDF {[r]} ((fun x => (r, x)) <$> a_neighbors (mkA [] (crossed steps)) r)), n. split.
  - unfold dfs_new. rewrite Hn by constructor. simpl.
    rewrite foldl_cons_rev, app_nil_r, reverse_involutive. done.
  - intros fuel Hf. eapply (replay_collect g h Hg Hl r steps Hn (fun v _ => Hnd v) Hfull Hs fuel []);
      [|done| |by apply Hc].
    + by apply tinv_new.
    + rewrite <-(app_nil_r (_ <$> nbrs g r)), <-(app_nil_r (_ <$> a_neighbors _ r)).
      constructor; [|done|constructor].
      eapply rows_perm; try done. constructor.
Qed.

Lemma all_discovered g r steps : Lawful g -> depth_first g r steps -> all_crossed g r steps ->
  forall v, reachable g r v -> v ∈ discovered r steps.
Proof.
  intros Hg Hd Hall v Hv. destruct (dfs_facts g r steps Hg Hd) as (V & HT).
  assert (Hgen : forall w, reachable g w v -> reachable g r w -> w ∈ discovered r steps -> v ∈ discovered r steps).
  { clear Hv. intros w Hw. induction Hw as [w|w x y Hwx Hxy IH]; [done|]. intros Hrw Hin.
    apply IH; [by eapply rtc_r|].
    apply (ti_disc _ _ _ _ _ HT).
    destruct (Hall w x Hrw Hwx) as [(s & [= -> ->] & Hs)%elem_of_list_fmap|(s & [= -> ->] & Hs)%elem_of_list_fmap];
      by apply (ti_emit _ _ _ _ _ HT). }
  apply (Hgen r); [done|constructor|left].
Qed.

(** [yields] records the whole traversal, so the graph made from it repeats it. *)
Lemma record_replay g r d steps : Lawful g -> LoopFree g -> IdxOk d ->
  dg_nodes d = discovered r steps -> (forall u, row d u = a_neighbors (mkA [] (crossed steps)) u) ->
  depth_first g r steps -> all_crossed g r steps -> depth_first (as_graph d) r steps.
Proof.
  intros Hg Hl Hi Hn Hrows Hd Hall. apply (replay g); try done. intros v Hv.
  rewrite <-Hrows. apply neighbors_in; [done|]. rewrite Hn. by eapply all_discovered.
Qed.

Lemma yields_replay g r d : Lawful g -> LoopFree g -> yields g r d ->
  (forall steps, depth_first g r steps -> all_crossed g r steps) -> yields (as_graph d) r d.
Proof.
  intros Hg Hl (steps & Hwf & Hd & Hn & He & Hr & Hrows) Hall.
  exists steps. split_and!; try done. eapply (record_replay g); try done; [by apply wf_idx|by apply Hall].
Qed.

Lemma dfs_graph_replay g r d steps : Lawful g -> LoopFree g -> depth_first g r steps -> steps <> [] ->
  dfs_graph g r d -> all_crossed g r steps ->
  depth_first (as_graph d) r steps /\ dfs_graph (as_graph d) r d.
Proof.
  intros Hg Hl Hd Hne Hdg Hall. destruct (dfs_graph_spec g r steps Hg Hl Hd) as (d' & Hdg' & HB).
  rewrite (dfs_graph_fun g r d d' Hdg Hdg') in *. clear d Hdg. rename d' into d.
  pose proof (wf_idx d (db_wf _ _ _ HB)) as Hi.
  assert (Hn : dg_nodes d = discovered r steps) by (rewrite (db_nodes _ _ _ HB); by destruct steps).
  assert (Hrep : depth_first (as_graph d) r steps).
  { eapply (record_replay g); try done. apply (db_rows _ _ _ HB). }
  split; [done|].
  assert (Hld : Lawful (as_graph d)) by apply wf_lawful, (db_wf _ _ _ HB).
  assert (Hfd : LoopFree (as_graph d)).
  { intros v Hv. eapply (Hl v), dbuilt_subgraph; done. }
  destruct (dfs_graph_spec (as_graph d) r steps Hld Hfd Hrep) as (d' & Hdg & HB').
  assert (d' = d) as ->; [|done].
  apply idx_ext; [apply wf_idx, (db_wf _ _ _ HB')|done| | |].
  - by rewrite (db_nodes _ _ _ HB), (db_nodes _ _ _ HB').
  - by rewrite (db_edges _ _ _ HB), (db_edges _ _ _ HB').
  - intros u. by rewrite (db_rows _ _ _ HB), (db_rows _ _ _ HB').
Qed.

Lemma yields_fun g r d d' : yields g r d -> yields g r d' -> d = d'.
Proof.
  intros (steps & Hwf & Hd & Hn & He & _ & Hrows) (steps' & Hwf' & Hd' & Hn' & He' & _ & Hrows').
  pose proof (depth_first_fun _ _ _ _ Hd Hd') as <-.
  apply idx_ext; [by apply wf_idx|by apply wf_idx|congruence|congruence|]. intros u. by rewrite Hrows, Hrows'.
Qed.

Lemma comps_done g V iter ds : (forall v, v ∈ iter -> v ∈ V) -> comps g V iter ds -> ds = [].
Proof.
  intros Hin H. induction H as [V|V r iter ds Hr _ IH|V V' r iter d ds Hr _ _ _ _]; [done| |].
  - apply IH. intros v Hv. apply Hin. by right.
  - destruct Hr. apply Hin. left.
Qed.

(** A graph that is its own component. *)
Lemma components_self d r iter : Lawful (as_graph d) -> LoopFree (as_graph d) ->
  dg_nodes d = r :: iter -> yields (as_graph d) r d -> components_are (as_graph d) [d].
Proof.
  intros Hd Hl Hn Hy. destruct (components_run (as_graph d) Hd Hl) as (ds & Hc & Hcs).
  assert (ds = [d]) as ->; [|done]. cbn [as_graph g_nodes] in Hcs. rewrite Hn in Hcs.
  inversion Hcs as [|V r' i ds' Hr _|V V' r' i d' ds' Hr Hy' HV' Hcs']; simplify_eq; [set_solver|].
  rewrite (yields_fun _ _ _ _ Hy' Hy) in *. f_equal. eapply comps_done; [|exact Hcs'].
  intros v Hv. apply HV'. left. rewrite Hn. by right.
Qed.

Lemma comps_yields_narrow g V pre iter ds d : Lawful g -> narrow_components g ->
  comps g V iter ds -> g_nodes g = pre ++ iter ->
  (forall v, v ∈ pre -> v ∈ V) -> (forall u v, u ∈ V -> reachable g u v -> v ∈ V) ->
  d ∈ ds -> exists r, yields g r d /\ narrow_rings g r.
Proof.
  intros Hg Ha Hc. revert pre.
  induction Hc as [V|V r iter ds Hr _ IH|V V' r iter d' ds Hr Hy HV' _ IH]; intros pre Hpre HpV Hcl Hd.
  - by apply elem_of_nil in Hd.
  - apply (IH (pre ++ [r])); [by rewrite <-app_assoc| |done|done].
    intros v [Hv| ->%elem_of_list_singleton]%elem_of_app; auto.
  - pose proof (first_narrow g V pre r iter Hg Ha Hpre HpV Hcl Hr) as Hnar.
    apply elem_of_cons in Hd as [->|Hd]; [by exists r|].
    destruct (yields_narrow g r d' Hg Hnar Hy) as (Y1 & _).
    apply (IH (pre ++ [r])); [by rewrite <-app_assoc| | |done].
    + intros v [Hv| ->%elem_of_list_singleton]%elem_of_app; apply HV'; [by right; auto|].
      left. by eapply yields_root.
    + intros u v [Hu|Hu]%HV' Huv; apply HV'.
      * left. apply Y1. apply Y1 in Hu. by apply (reach_trans g r u).
      * right. by eapply Hcl.
Qed.

Lemma narrow_all_crossed g r steps : Lawful g -> narrow_rings g r -> depth_first g r steps -> all_crossed g r steps.
Proof.
  intros Hg Hnar Hd u v Hu Huv. destruct (narrow_dfs g Hg r Hnar steps Hd) as (_ & H2 & _).
  specialize (H2 u v Hu Huv).
  assert (Hpos : 0 < times_crossed (u, v) (crossed steps)) by lia.
  apply times_crossed_pos in Hpos as ([a b] & Hin & [[= -> ->]|[= -> ->]]); auto.
Qed.

Lemma components_again g ds d : Lawful g -> narrow_components g -> components_are g ds -> d ∈ ds ->
  components_are (as_graph d) [d].
Proof.
  intros Hg Ha Hc Hd. pose proof (proj1 Ha) as Hl.
  destruct (components_run g Hg Hl) as (ds' & Hc' & Hcs).
  rewrite <-(components_are_fun g ds ds' Hc Hc') in Hcs.
  destruct (comps_yields_narrow g ∅ [] (g_nodes g) ds d) as (r & Hy & Hnar); try done; [set_solver..|].
  assert (Hy' : yields (as_graph d) r d).
  { eapply yields_replay; try done. intros steps. by apply narrow_all_crossed. }
  pose proof Hy as (steps & Hwf & _ & Hn & _).
  destruct (yields_subgraph g r d Hg Hy) as (_ & _ & Hsub & _).
  eapply components_self; [by apply wf_lawful| |exact Hn|done].
  intros v Hv. eapply (Hl v), Hsub, Hv.
Qed.

Lemma component_again g ds d r steps : Lawful g -> LoopFree g -> components_are g ds -> d ∈ ds ->
  head (g_nodes (as_graph d)) = Some r -> depth_first g r steps -> all_crossed g r steps ->
  depth_first (as_graph d) r steps /\ components_are (as_graph d) [d].
Proof.
  intros Hg Hl Hc Hd Hh Hs Hall.
  destruct (components_run g Hg Hl) as (ds' & Hc' & Hcs).
  rewrite <-(components_are_fun g ds ds' Hc Hc') in Hcs.
  destruct (comps_subgraph _ _ _ _ _ Hcs Hd) as (r' & Hy).
  pose proof Hy as (steps' & Hwf & Hs' & Hn & He & _ & Hrows).
  assert (r' = r) as ->.
  { cbn [as_graph g_nodes] in Hh. rewrite Hn in Hh. by injection Hh. }
  pose proof (depth_first_fun _ _ _ _ Hs Hs') as <-. split.
  - eapply (record_replay g); try done. by apply wf_idx.
  - assert (Hy' : yields (as_graph d) r d).
    { eapply yields_replay; try done. intros steps' Hd'. by rewrite (depth_first_fun _ _ _ _ Hd' Hs). }
    destruct (yields_subgraph g r d Hg Hy) as (_ & _ & Hsub & _).
    eapply components_self; [by apply wf_lawful| |exact Hn|done].
    intros v Hv. eapply (Hl v), Hsub, Hv.
Qed.

Lemma components_narrow_roots g ds d r : Lawful g -> narrow_components g -> components_are g ds -> d ∈ ds ->
  head (g_nodes (as_graph d)) = Some r -> narrow_rings g r.
Proof.
  intros Hg Ha Hc Hd Hh. pose proof (proj1 Ha) as Hl.
  destruct (components_run g Hg Hl) as (ds' & Hc' & Hcs).
  rewrite <-(components_are_fun g ds ds' Hc Hc') in Hcs.
  destruct (comps_yields_narrow g ∅ [] (g_nodes g) ds d) as (r' & Hy & Hnar); try done; [set_solver..|].
  pose proof Hy as (steps' & Hwf & Hs' & Hn & He & _ & Hrows).
  cbn [as_graph g_nodes] in Hh. rewrite Hn in Hh. by injection Hh as <-.
Qed.

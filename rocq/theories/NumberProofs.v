(** Writing a graph as an adjacency list and reading it back. *)
From Verif Require Import Outcome GraphModel TraversalModel ComponentsModel PairingModel
  Spec SpecNumber GraphProofs EditProofs ConvertProofs EqProofs TraversalProofs LoopProofs.

Lemma place_lookup l v : v ∈ l -> l !! N.to_nat (place l v) = Some v.
Proof.
  induction l as [|x l IH]; intros Hv; [by apply elem_of_nil in Hv|]. cbn [place].
  case_bool_decide as E; [by subst|]. rewrite N2Nat.inj_succ. simpl. apply IH.
  by apply elem_of_cons in Hv as [?|?]; [subst|].
Qed.

Lemma place_inj l u v : u ∈ l -> v ∈ l -> place l u = place l v -> u = v.
Proof.
  intros Hu%place_lookup Hv%place_lookup E. rewrite E in Hu. congruence.
Qed.

Lemma place_at l i v : NoDup l -> l !! i = Some v -> place l v = N.of_nat i.
Proof.
  intros Hnd Hi. assert (Hv : v ∈ l) by (by eapply elem_of_list_lookup_2).
  apply place_lookup in Hv. pose proof (NoDup_lookup _ _ _ _ Hnd Hv Hi) as <-. by rewrite N2Nat.id.
Qed.

Lemma place_fmap l : NoDup l -> place l <$> l = N.of_nat <$> seq 0 (length l).
Proof.
  intros Hnd. apply list_eq. intros i. rewrite !list_lookup_fmap.
  destruct (l !! i) as [v|] eqn:E; simpl.
  - rewrite (place_at l i v Hnd E). pose proof (lookup_lt_Some _ _ _ E).
    by rewrite lookup_seq_lt by done.
  - apply lookup_ge_None in E. by rewrite lookup_seq_ge by done.
Qed.

Lemma nodup_own g v : Lawful g -> v ∈ g_nodes g -> NoDup (nbrs g v) <-> own_entries g v <= 1.
Proof.
  intros Hg Hv. pose proof (lawful_nbrs_nodup g Hg v) as Hf. rewrite own_nbrs.
  revert Hf. generalize (nbrs g v). intros l. induction l as [|x l IH]; intros Hf.
  { split; [simpl; lia|constructor]. }
  rewrite filter_cons in Hf |- *. rewrite NoDup_cons. destruct (decide (x = v)) as [->|Hx].
  - rewrite decide_False in Hf by naive_solver. rewrite IH by done. simpl.
    destruct (filter (fun w => w = v) l) as [|y k] eqn:E; simpl.
    + split; [lia|]. intros _. split; [|lia]. intros Hin.
      assert (H : v ∈ filter (fun w => w = v) l) by (by apply elem_of_list_filter).
      rewrite E in H. by apply elem_of_nil in H.
    + split; [|lia]. intros [Hn _]. destruct Hn.
      assert (H : y ∈ filter (fun w => w = v) l) by (rewrite E; left).
      apply elem_of_list_filter in H as [-> H]. done.
  - rewrite decide_True in Hf by done. apply NoDup_cons in Hf as [Hn Hf].
    rewrite IH by done. split; [tauto|]. intros H. split; [|done].
    intros Hin. apply Hn. by apply elem_of_list_filter.
Qed.

Section number.
  Context (g : Graph) (Hg : Lawful g).
  Notation P := (place (g_nodes g)).

  Lemma rows_lookup i : adjacency_list g !! i = (fun v => P <$> nbrs g v) <$> g_nodes g !! i.
  Proof. unfold adjacency_list. by rewrite list_lookup_fmap. Qed.

  Lemma rows_length : length (adjacency_list g) = length (g_nodes g).
  Proof. unfold adjacency_list. by rewrite fmap_length. Qed.

  Lemma rows_place v : v ∈ g_nodes g -> adjacency_list g !! N.to_nat (P v) = Some (P <$> nbrs g v).
  Proof. intros Hv. by rewrite rows_lookup, place_lookup. Qed.

  Lemma nbrs_node v w : w ∈ nbrs g v -> w ∈ g_nodes g.
  Proof using Hg. intros H%adj_nbrs. by eapply law_adj_node. Qed.

  Lemma row_nodup v : v ∈ g_nodes g -> NoDup (P <$> nbrs g v) <-> own_entries g v <= 1.
  Proof using Hg.
    intros Hv. rewrite <-nodup_own by done. split; [apply NoDup_fmap_1|].
    intros H. assert (Hsub : forall w, w ∈ nbrs g v -> w ∈ g_nodes g) by apply nbrs_node.
    revert H Hsub. generalize (nbrs g v). induction l as [|x l IH]; intros Hnd Hsub; [constructor|].
    apply NoDup_cons in Hnd as [Hx Hnd]. rewrite fmap_cons. apply NoDup_cons. split.
    - intros (y & E & Hy)%elem_of_list_fmap. apply place_inj in E as ->; [done|apply Hsub; left|apply Hsub; by right].
    - apply IH; [done|]. intros; apply Hsub; by right.
  Qed.

  Lemma rows_defect i j e : entry_defect (adjacency_list g) i j = Some e ->
    exists v, g_nodes g !! i = Some v /\ 2 <= own_entries g v /\ e = DuplicateEdge (N.of_nat i) (N.of_nat i).
  Proof using Hg.
    unfold entry_defect. rewrite rows_lookup. destruct (g_nodes g !! i) as [v|] eqn:Ei; [|done]. simpl.
    assert (Hv : v ∈ g_nodes g) by (by eapply elem_of_list_lookup_2).
    pose proof (place_at _ _ _ (law_nodes g Hg) Ei) as HPv.
    destruct ((P <$> nbrs g v) !! j) as [t|] eqn:Ej; [|done].
    pose proof Ej as Ej'. rewrite list_lookup_fmap in Ej'.
    destruct (nbrs g v !! j) as [w|] eqn:Ew; [|done]. injection Ej' as <-.
    assert (Hw : w ∈ nbrs g v) by (by eapply elem_of_list_lookup_2).
    assert (Hwg : w ∈ g_nodes g) by (by eapply nbrs_node).
    rewrite rows_place by done.
    assert (Hback : N.of_nat i ∈ P <$> nbrs g w).
    { rewrite <-HPv. apply elem_of_list_fmap_1, adj_nbrs, law_adj_sym; [done|]. by apply adj_nbrs. }
    rewrite (bool_decide_eq_true_2 _ Hback). case_bool_decide as Hd; [|done]. intros [= <-].
    exists v. split; [done|].
    assert (Hnn : ~ NoDup (P <$> nbrs g v)).
    { intros Hnd. apply elem_of_list_lookup in Hd as (k & Hk). rewrite lookup_drop in Hk.
      pose proof (NoDup_lookup _ _ _ _ Hnd Ej Hk). lia. }
    rewrite row_nodup in Hnn by done. split; [lia|].
    rewrite <-HPv. f_equal. f_equal.
    (* the repeated neighbor is the node itself *)
    destruct (decide (w = v)) as [->|Hne]; [done|]. exfalso.
    apply elem_of_list_lookup in Hd as (k & Hk). rewrite lookup_drop, list_lookup_fmap in Hk.
    destruct (nbrs g v !! (S j + k)) as [w'|] eqn:Ew'; [|done]. injection Hk as Hk.
    apply place_inj in Hk as ->; [|by eapply nbrs_node, elem_of_list_lookup_2|done].
    pose proof (lawful_nbrs_nodup g Hg v) as Hf.
    apply elem_of_list_split_length in Ew as (l1 & l2 & El & Hj).
    assert (H2 : w ∈ l2).
    { rewrite El in Ew'. rewrite lookup_app_r in Ew' by lia.
      replace (S j + k - length l1) with (S k) in Ew' by lia. simpl in Ew'. by eapply elem_of_list_lookup_2. }
    rewrite El, filter_app, filter_cons_True in Hf by done.
    apply NoDup_app in Hf as (_ & _ & [Hf _]%NoDup_cons). apply Hf. by apply elem_of_list_filter.
  Qed.

  Lemma rows_valid : valid_rows (adjacency_list g) <-> forall v, own_entries g v <= 1.
  Proof using Hg.
    split.
    - intros H v. destruct (decide (v ∈ g_nodes g)) as [Hv|Hv].
      + destruct (H _ _ (rows_place v Hv)) as [Hnd _]. by apply row_nodup.
      + rewrite own_nbrs. unfold nbrs. rewrite (law_neighbors_err g Hg v Hv). simpl. lia.
    - intros H i r Hi. rewrite rows_lookup in Hi. destruct (g_nodes g !! i) as [v|] eqn:Ei; [|done].
      injection Hi as <-. assert (Hv : v ∈ g_nodes g) by (by eapply elem_of_list_lookup_2).
      split; [by apply row_nodup|].
      intros t (w & -> & Hw)%elem_of_list_fmap. exists (P <$> nbrs g w).
      split; [apply rows_place; by eapply nbrs_node|].
      rewrite <-(place_at _ _ _ (law_nodes g Hg) Ei).
      apply elem_of_list_fmap_1, adj_nbrs, law_adj_sym; [done|]. by apply adj_nbrs.
  Qed.

  Lemma rows_result d : dg_try_from_adjacency (adjacency_list g) = Ok d -> renamed P g (as_graph d).
  Proof using Hg.
    intros Hd. destruct (proj2 (try_from_adjacency_spec _) d Hd) as [Hn Hnb]. split_and!.
    - intros u v. apply place_inj.
    - rewrite Hn, rows_length. symmetry. apply place_fmap. by apply law_nodes.
    - intros v l Hl. assert (Hv : v ∈ g_nodes g).
      { destruct (decide (v ∈ g_nodes g)); [done|]. by rewrite (law_neighbors_err g Hg v) in Hl. }
      rewrite Hnb, rows_place by done. unfold nbrs. by rewrite Hl.
  Qed.

  Lemma rows_error e : dg_try_from_adjacency (adjacency_list g) = Err e ->
    exists i v, g_nodes g !! i = Some v /\ 2 <= own_entries g v /\
      e = DuplicateEdge (N.of_nat i) (N.of_nat i) /\
      forall j u, j < i -> g_nodes g !! j = Some u -> own_entries g u <= 1.
  Proof using Hg.
    intros (i & j & Hd & Hmin)%try_from_adjacency_err.
    destruct (rows_defect i j e Hd) as (v & Hi & Hown & ->). exists i, v. split_and!; [done..|].
    intros k u Hk Hu. assert (Hug : u ∈ g_nodes g) by (by eapply elem_of_list_lookup_2).
    apply row_nodup; [done|]. apply NoDup_alt. intros a b t Ha Hb.
    assert (Hrow : adjacency_list g !! k = Some (P <$> nbrs g u)) by (by rewrite rows_lookup, Hu).
    assert (Hlt : forall a b, a < b -> (P <$> nbrs g u) !! a = Some t -> (P <$> nbrs g u) !! b = Some t -> False).
    { clear a b Ha Hb. intros a b Hab Ha Hb.
      assert (Hnone : entry_defect (adjacency_list g) k a = None) by (apply Hmin; by left).
      unfold entry_defect in Hnone. rewrite Hrow, Ha in Hnone.
      destruct (adjacency_list g !! N.to_nat t); [|done].
      rewrite bool_decide_eq_true_2 in Hnone; [done|].
      apply elem_of_list_lookup. exists (b - S a). rewrite lookup_drop. rewrite <-Hb. f_equal. lia. }
    destruct (Nat.lt_trichotomy a b) as [?|[?|?]]; [|done|]; exfalso; eauto.
  Qed.
End number.

(** A graph made from an adjacency list gives that list back. *)
Lemma rows_again rows d : dg_try_from_adjacency rows = Ok d -> adjacency_list (as_graph d) = rows.
Proof.
  intros Hd. destruct (proj2 (try_from_adjacency_spec rows) d Hd) as [Hn Hnb].
  assert (Hv : valid_rows rows) by (apply (proj1 (try_from_adjacency_spec rows)); by exists d).
  assert (HP : forall t, N.to_nat t < length rows -> place (g_nodes (as_graph d)) t = t).
  { intros t Ht. rewrite (place_at _ (N.to_nat t) t); [apply N2Nat.id| |].
    - rewrite Hn. apply NoDup_fmap_2; [intros ? ? ?; lia|apply NoDup_seq].
    - rewrite Hn, list_lookup_fmap, lookup_seq_lt by done. simpl. by rewrite N2Nat.id. }
  apply list_eq. intros i. rewrite rows_lookup. rewrite Hn at 1. rewrite list_lookup_fmap.
  destruct (rows !! i) as [r|] eqn:E.
  - pose proof (lookup_lt_Some _ _ _ E) as Hlt. rewrite lookup_seq_lt by done. cbn [fmap option_fmap option_map].
    f_equal. unfold nbrs. rewrite Hnb, Nat2N.id, Nat.add_0_l, E.
    destruct (Hv i r E) as [_ Hr]. clear -HP Hr.
    rewrite <-(list_fmap_id r) at 2. apply list_fmap_ext. intros k t Ht. apply HP.
    destruct (Hr t) as (r' & Hr' & _); [by eapply elem_of_list_lookup_2|]. by eapply lookup_lt_Some.
  - apply lookup_ge_None in E. by rewrite lookup_seq_ge by done.
Qed.

(** [maximum_matching] with a starting pairing whose pairs need not be edges of
    the graph: the run is the one on the graph with those pairs added, as long
    as the search does not step on an id that is not a node. *)
From Verif Require Import Outcome GraphModel TraversalModel PairingModel Spec
  GraphProofs EditProofs TraversalProofs PathLemmas PairingProofs MatchTheory MaximumModel
  ForestProofs BlossomProofs ContractProofs CycleProofs LiftProofs TameProofs MaximumProofs ShareProofs
  PropertiesMatching.

(** *** The graph with the pairs added *)

Section widen.
  Context (g : Graph) (p : Pairing) (Hg : Lawful g) (Hs : symmetric_pairing p).

  Definition row0 (v : N) : list N := match g_neighbors g v with Ok l => l | _ => [] end.
  Definition mate_row (v : N) : list N :=
    match p !! v with
    | Some y => if bool_decide (y ∈ row0 v) then [] else [y]
    | None => []
    end.
  Definition strangers : list N := filter (fun x => x ∉ g_nodes g) ((map_to_list p).*1).
  Definition wide_nodes : list N := g_nodes g ++ strangers.
  Definition wide_edges : list (N * N) :=
    g_edges g ++ filter (fun e : N * N => e.2 ∉ row0 e.1) (p_edges_of (map_to_list p)).
  Definition wide_row (v : N) : list N := row0 v ++ mate_row v.

  Definition widen : Graph :=
    mkGraph (match wide_nodes with [] => true | _ => false end) (length wide_nodes)
      (length wide_edges) wide_nodes
      (fun v => if bool_decide (v ∈ wide_nodes) then Ok (wide_row v) else Err (MissingNode v))
      (fun v => bool_decide (v ∈ wide_nodes))
      (fun v => if bool_decide (v ∈ wide_nodes) then Ok (length (wide_row v)) else Err (MissingNode v))
      wide_edges
      (fun u v => if bool_decide (u ∈ wide_nodes)
                  then if bool_decide (v ∈ wide_nodes) then Ok (bool_decide (v ∈ wide_row u))
                       else Err (MissingNode v)
                  else Err (MissingNode u)).
  Notation h := widen.

  Lemma row0_adj u v : v ∈ row0 u <-> adj g u v.
  Proof.
    unfold row0, adj. destruct (g_neighbors g u) as [l| | |];
      try (split; [intros H; by apply elem_of_nil in H|by intros (? & ? & _)]).
    split; [by exists l|]. by intros (l' & [= <-] & ?).
  Qed.

  Lemma strangers_elem x : x ∈ strangers <-> x ∉ g_nodes g /\ is_Some (p !! x).
  Proof.
    unfold strangers. rewrite elem_of_list_filter, elem_of_list_fmap. split.
    - intros [? ([a b] & -> & ?%elem_of_map_to_list)]. by split; [|eexists].
    - intros [? [y Hy]]. split; [done|]. exists (x, y). split; [done|]. by apply elem_of_map_to_list.
  Qed.

  Lemma wide_nodes_elem x : x ∈ wide_nodes <-> x ∈ g_nodes g \/ is_Some (p !! x).
  Proof.
    unfold wide_nodes. rewrite elem_of_app, strangers_elem. destruct (decide (x ∈ g_nodes g)); tauto.
  Qed.

  Lemma adj_left u v : adj g u v -> u ∈ g_nodes g.
  Proof. intros H. by apply (law_adj_node g Hg v), law_adj_sym. Qed.

  Lemma wide_row_elem u v : v ∈ wide_row u <-> adj g u v \/ p !! u = Some v.
  Proof.
    unfold wide_row, mate_row. rewrite elem_of_app, row0_adj.
    destruct (p !! u) as [y|] eqn:E.
    - case_bool_decide as Hy.
      + apply row0_adj in Hy. rewrite elem_of_nil. split; [tauto|]. intros [?|[= <-]]; tauto.
      + rewrite elem_of_list_singleton. split; (intros [?|?]; [by left|right]); congruence.
    - rewrite elem_of_nil. split; [tauto|]. by intros [?|?]; [left|].
  Qed.

  Lemma wide_adj u v : adj h u v <-> adj g u v \/ p !! u = Some v.
  Proof.
    rewrite <-wide_row_elem. unfold adj at 1. cbn [g_neighbors widen]. split.
    - intros (l & Hl & Hv). by case_bool_decide; [injection Hl as <-|].
    - intros H. exists (wide_row u). split; [|done]. rewrite bool_decide_eq_true_2; [done|].
      apply wide_nodes_elem. apply wide_row_elem in H as [H|H]; [left; by eapply adj_left|right; by eexists].
  Qed.

  Lemma wide_lawful : Lawful h.
  Proof.
    assert (Hnode : forall u v, adj h u v -> v ∈ wide_nodes).
    { intros u v [H|H]%wide_adj; apply wide_nodes_elem; [left; by eapply law_adj_node|right].
      apply Hs in H as [H _]. by eexists. }
    constructor; cbn [g_nodes g_is_empty g_order g_size g_has_node g_neighbors g_degree g_edges g_has_edge widen].
    - unfold wide_nodes. apply NoDup_app. split_and!; [by apply law_nodes| |].
      + intros x Hx [? _]%strangers_elem. done.
      + apply NoDup_filter, NoDup_fst_map_to_list.
    - by destruct wide_nodes.
    - done.
    - done.
    - intros v. apply bool_decide_eq_true.
    - intros v Hv. rewrite bool_decide_eq_true_2 by done. eexists. split; [done|].
      unfold wide_row. rewrite filter_app. apply NoDup_app.
      assert (H0 : NoDup (filter (fun w => w <> v) (row0 v))).
      { unfold row0. destruct (decide (v ∈ g_nodes g)) as [Hn|Hn].
        - destruct (law_neighbors g Hg v Hn) as (l & -> & ?). done.
        - rewrite law_neighbors_err by done. constructor. }
      split_and!; [done| |].
      + intros x [_ Hx]%elem_of_list_filter [_ Hx']%elem_of_list_filter. unfold mate_row in Hx'.
        destruct (p !! v); [|by apply elem_of_nil in Hx']. case_bool_decide; [by apply elem_of_nil in Hx'|].
        by apply elem_of_list_singleton in Hx' as ->.
      + unfold mate_row. destruct (p !! v); [|apply NoDup_filter; constructor].
        case_bool_decide; apply NoDup_filter; [constructor|apply NoDup_singleton].
    - intros v Hv. by rewrite bool_decide_eq_false_2.
    - done.
    - intros u v [H|H]%wide_adj; apply wide_adj; [left; by apply law_adj_sym|right; by apply Hs in H as [? _]].
    - intros v l. case_bool_decide; [|done]. by intros [= <-].
    - intros v Hv. by rewrite bool_decide_eq_false_2.
    - intros u v Hu Hv. rewrite !bool_decide_eq_true_2 by done. eexists. split; [done|].
      by rewrite bool_decide_eq_true, wide_row_elem, wide_adj.
    - intros u v Hu. by rewrite bool_decide_eq_false_2.
    - intros u v Hu Hv. by rewrite bool_decide_eq_true_2, bool_decide_eq_false_2.
    - unfold wide_edges. apply NoDup_app. split_and!; [by apply law_edges_nodup| |].
      + intros [a b] Hab [Hr _]%elem_of_list_filter. apply Hr, row0_adj. by apply law_edges_adj.
      + apply NoDup_filter. unfold p_edges_of. apply NoDup_filter, NoDup_map_to_list.
    - intros u v [H|[_ H]%elem_of_list_filter]%elem_of_app; apply wide_adj;
        [left; by apply law_edges_adj|right]. by apply (p_edges_elem p _ (reflexivity _)) in H as [? _].
    - intros u v Hne [H|H]%wide_adj; unfold wide_edges; rewrite !elem_of_app.
      { destruct (law_edges_complete g Hg u v Hne H); tauto. }
      destruct (decide (v ∈ row0 u)) as [Hr|Hr].
      { apply row0_adj in Hr. destruct (law_edges_complete g Hg u v Hne Hr); tauto. }
      destruct (Hs _ _ H) as [H' _]. rewrite !elem_of_list_filter, !(p_edges_elem p _ (reflexivity _)). cbn [fst snd].
      assert (Hr' : u ∉ row0 v) by (intros Hx; apply Hr, row0_adj, law_adj_sym, row0_adj, Hx; done).
      destruct (N.lt_total u v) as [?|[?|?]]; tauto.
    - intros u v [H|[Hr H]%elem_of_list_filter]%elem_of_app [H'|[Hr' H']%elem_of_list_filter]%elem_of_app.
      + by eapply law_edges_once.
      + destruct Hr'. apply row0_adj. cbn. apply law_adj_sym; [done|]. by apply law_edges_adj.
      + destruct Hr. apply row0_adj. cbn. apply law_adj_sym; [done|]. by apply law_edges_adj.
      + apply (p_edges_elem p _ (reflexivity _)) in H as [_ ?], H' as [_ ?]. lia.
  Qed.

  Lemma wide_pairing : pairing_of h p.
  Proof. split; [done|]. intros u v H. apply wide_adj. by right. Qed.

  (** *** One search *)

  Definition mates_marked (m : Marker) : Prop := forall u v, p !! u = Some v -> hedge m u v.

  Lemma mark_keeps m s t m' a b : mk_mark_edge m s t = Ok m' -> hedge m a b -> hedge m' a b.
  Proof.
    intros Hm Hab. destruct (mk_has_edge m s t) eqn:E.
    - exfalso. unfold mk_mark_edge in Hm. unfold mk_has_edge in E.
      destruct (mk_edges m !! s) as [l|]; [|done]. apply bool_decide_eq_true in E.
      by rewrite bool_decide_eq_true_2 in Hm.
    - destruct (mark_edge_ok m s t) as (m2 & Hm2 & _ & He); [unfold hedge; congruence|].
      assert (m2 = m') as <- by congruence. apply He. by left.
  Qed.

  Lemma marked_mark m s t m' : mk_mark_edge m s t = Ok m' -> mates_marked m -> mates_marked m'.
  Proof. intros Hm H u v Huv. eapply mark_keeps; [done|]. by apply H. Qed.

  Lemma some_w_wide v m : v ∈ g_nodes g -> mates_marked m -> some_w v g m = some_w v h m.
  Proof.
    intros Hv Hm. unfold some_w. cbn [g_neighbors widen].
    rewrite bool_decide_eq_true_2 by (apply wide_nodes_elem; by left).
    destruct (law_neighbors g Hg v Hv) as (l & Hl & _). unfold wide_row, row0. rewrite Hl.
    cbn [unwrap cbind]. rewrite filter_app. enough (filter (fun id => mk_has_edge m v id = false) (mate_row v) = []) as ->.
    { by rewrite app_nil_r. }
    unfold mate_row. destruct (p !! v) as [y|] eqn:E; [|done]. case_bool_decide; [done|].
    rewrite filter_cons, decide_False; [done|]. rewrite (Hm _ _ E). done.
  Qed.

  Lemma search_w_wide fuel : forall v f m, v ∈ g_nodes g -> mates_marked m ->
    search_w fuel v g p f m = search_w fuel v h p f m.
  Proof.
    induction fuel as [|fuel IH]; intros v f m Hv Hm; [done|]. cbn [search_w].
    rewrite <-(some_w_wide v m Hv Hm). destruct (some_w v g m) as [[w|]| | |]; try done. cbn [cbind].
    destruct (f_path f w) as [[pw|]| | |]; try done; cbn [cbind].
    - destruct (Nat.odd (length pw)); [done|].
      destruct (mk_mark_edge m v w) as [m'| | |] eqn:Em; try done. cbn [cbind].
      apply IH; [done|]. by eapply marked_mark.
    - destruct (f_add_edge f v w) as [f1| | |]; try done. cbn [cbind].
      destruct (p_mate p w) as [y| | |]; try done. cbn [cbind].
      destruct (f_add_edge f1 w y) as [f2| | |]; try done. cbn [cbind].
      destruct (mk_mark_edge m v w) as [m'| | |] eqn:Em; try done. cbn [cbind].
      apply IH; [done|]. by eapply marked_mark.
  Qed.

  (** Forest entries are nodes, or mates of nodes. *)
  Definition near (f : Forest) : Prop := forall x, is_Some (f_parents f !! x) ->
    x ∈ g_nodes g \/ exists w, w ∈ g_nodes g /\ p !! w = Some x.

  Lemma near_add f a b f' : near f -> f_add_edge f a b = Ok f' ->
    b ∈ g_nodes g \/ (exists w, w ∈ g_nodes g /\ p !! w = Some b) -> near f'.
  Proof.
    intros Hn Hf Hb. unfold f_add_edge in Hf. destruct (f_parents f !! a); [|done].
    destruct (f_parents f !! b) eqn:Eb; [done|]. injection Hf as <-. intros x. cbn [f_parents].
    destruct (decide (x = b)) as [->|Hne]; [done|]. rewrite lookup_insert_ne by done. apply Hn.
  Qed.

  Lemma search_w_keeps fuel : forall v f m f' m', v ∈ g_nodes g -> mates_marked m -> near f ->
    search_w fuel v g p f m = Ok (Exhausted f' m') -> mates_marked m' /\ near f'.
  Proof.
    induction fuel as [|fuel IH]; intros v f m f' m' Hv Hm Hn; [done|]. cbn [search_w].
    destruct (some_w v g m) as [[w|]| | |] eqn:Ew; try done; cbn [cbind].
    2:{ by intros [= <- <-]. }
    assert (Hw : w ∈ g_nodes g) by (by apply (some_w_elem g Hg) in Ew as (_ & ? & _)).
    destruct (f_path f w) as [[pw|]| | |]; try done; cbn [cbind].
    - destruct (Nat.odd (length pw)); [done|].
      destruct (mk_mark_edge m v w) as [m1| | |] eqn:Em; try done. cbn [cbind].
      apply IH; [done| |done]. by eapply marked_mark.
    - destruct (f_add_edge f v w) as [f1| | |] eqn:E1; try done. cbn [cbind].
      unfold p_mate. destruct (p !! w) as [y|] eqn:Ey; try done. cbn [cbind].
      destruct (f_add_edge f1 w y) as [f2| | |] eqn:E2; try done. cbn [cbind].
      destruct (mk_mark_edge m v w) as [m1| | |] eqn:Em; try done. cbn [cbind].
      apply IH; [done|by eapply marked_mark|].
      eapply near_add; [eapply near_add; [done|done|by left]|done|right; by exists w].
  Qed.

  Lemma find_v_elem P m ids v : find_v P m ids = Ok (Some v) -> is_Some (P !! v).
  Proof.
    induction ids as [|i ids IH]; [done|]. cbn [find_v].
    destruct (P !! i) as [[par []]|] eqn:E; try done. case_match; [done|].
    intros [= <-]. by eexists.
  Qed.

  Definition outside_panic (r : comp search) : Prop := exists w x, w ∈ g_nodes g /\ x ∉ g_nodes g /\
    p !! w = Some x /\ r = Panic (PUnwrap (MissingNode x)).

  Lemma search_v_wide fuel : forall f m, mates_marked m -> near f ->
    search_v fuel g p f m = search_v fuel h p f m \/ outside_panic (search_v fuel g p f m).
  Proof.
    induction fuel as [|fuel IH]; intros f m Hm Hn; [by left|]. cbn [search_v].
    unfold some_v. destruct (find_v _ m _) as [[v|]| | |] eqn:Ev; try by left. cbn [cbind].
    apply find_v_elem in Ev. destruct (decide (v ∈ g_nodes g)) as [Hv|Hv].
    - rewrite <-(search_w_wide (S fuel) v f m Hv Hm).
      destruct (search_w (S fuel) v g p f m) as [[f1 m1|v1 l1 f1]| | |] eqn:Esw; try by left.
      cbn [cbind]. apply search_w_keeps in Esw as [Hm1 Hn1]; [|done..].
      unfold mk_mark_node. destruct (bool_decide _); [by left|]. cbn [cbind]. apply IH; [|done].
      intros a b Hab. by apply Hm1.
    - right. destruct (Hn v Ev) as [?|(w & Hw & Hwv)]; [done|]. exists w, v. split_and!; try done.
      cbn [search_w]. unfold some_w. by rewrite law_neighbors_err.
  Qed.

  (** More fuel does not change a result. *)
  Lemma search_w_mono fuel : forall fuel' v f m r, fuel <= fuel' -> search_w fuel v g p f m = r -> r <> NoFuel ->
    search_w fuel' v g p f m = r.
  Proof.
    induction fuel as [|fuel IH]; intros [|fuel'] v f m r Hle <- Hr; try done; [lia|]. revert Hr. cbn [search_w].
    destruct (some_w v g m) as [[w|]| | |]; try done. cbn [cbind].
    destruct (f_path f w) as [[pw|]| | |]; try done; cbn [cbind].
    - destruct (Nat.odd (length pw)); [done|].
      destruct (mk_mark_edge m v w); try done. cbn [cbind]. intros Hr. apply IH; [lia|done|done].
    - destruct (f_add_edge f v w) as [f1| | |]; try done. cbn [cbind].
      destruct (p_mate p w) as [y| | |]; try done. cbn [cbind].
      destruct (f_add_edge f1 w y) as [f2| | |]; try done. cbn [cbind].
      destruct (mk_mark_edge m v w); try done. cbn [cbind]. intros Hr. apply IH; [lia|done|done].
  Qed.

  Lemma search_v_mono fuel : forall fuel' f m r, fuel <= fuel' -> search_v fuel g p f m = r -> r <> NoFuel ->
    search_v fuel' g p f m = r.
  Proof.
    induction fuel as [|fuel IH]; intros [|fuel'] f m r Hle <- Hr; try done; [lia|]. revert Hr. cbn [search_v].
    destruct (some_v f m) as [[v|]| | |]; try done. cbn [cbind]. intros Hr.
    destruct (search_w (S fuel) v g p f m) as [x| | |] eqn:E; [| | |done];
      (rewrite (search_w_mono (S fuel) (S fuel') v f m _ Hle E) by done); cbn [cbind] in *; try done.
    destruct x as [f1 m1|v1 l1 f1]; [|done].
    destruct (mk_mark_node m1 v); try done. cbn [cbind] in *. apply IH; [lia|done|done].
  Qed.

  Lemma add_roots_strangers f : add_roots f p wide_nodes = add_roots f p (g_nodes g).
  Proof.
    assert (Hskip : forall l, (forall x, x ∈ l -> is_Some (p !! x)) -> forall f, add_roots f p l = Ok f).
    { intros l. induction l as [|x l IH]; intros Hl f'; [done|]. cbn [add_roots]. unfold p_has_node.
      rewrite bool_decide_eq_true_2 by (apply Hl; left). cbn [cbind]. apply IH. intros y Hy. apply Hl. by right. }
    unfold wide_nodes. revert f. induction (g_nodes g) as [|x l IH]; intros f; cbn [app add_roots].
    - apply Hskip. intros x [_ ?]%strangers_elem. done.
    - destruct (p_has_node p x); cbn [cbind]; [apply IH|].
      destruct (f_add_root f x); try done. cbn [cbind]. apply IH.
  Qed.

  Lemma roots_near f : add_roots f_new p (g_nodes g) = Ok f -> near f.
  Proof.
    assert (H : forall l f0, (forall x, x ∈ l -> x ∈ g_nodes g) -> near f0 -> add_roots f0 p l = Ok f -> near f).
    { intros l. induction l as [|x l IH]; intros f0 Hl Hn; cbn [add_roots].
      - by intros [= <-].
      - assert (Hl' : forall y, y ∈ l -> y ∈ g_nodes g) by (intros y Hy; apply Hl; by right).
        destruct (p_has_node p x); cbn [cbind]; [by apply IH|].
        destruct (f_add_root f0 x) as [f1| | |] eqn:E; try done. cbn [cbind]. apply IH; [done|].
        unfold f_add_root in E. destruct (f_parents f0 !! x); [done|]. injection E as <-.
        intros y. cbn [f_parents]. destruct (decide (y = x)) as [->|?]; [left; apply Hl; left|].
        rewrite lookup_insert_ne by done. apply Hn. }
    apply H; [done|]. intros x [e He]. cbn [f_parents f_new] in He. by rewrite lookup_empty in He.
  Qed.

  Context (Hodd : forall c, ~ odd_cycle h c).

  (** The search on [g] finds what it finds on the widened graph, or panics. *)
  Lemma stale_search iter : hash_order_ok iter ->
    (exists o, search_is iter g p o /\ search_is iter h p o) \/
    (exists w x, w ∈ g_nodes g /\ x ∉ g_nodes g /\ p !! w = Some x /\
       search_panics iter g p (PUnwrap (MissingNode x))).
  Proof.
    intros Hit. pose proof wide_lawful as Hh. pose proof wide_pairing as Hph.
    destruct (search_start h p Hh Hph) as (f & n & r & Hf & [Hs1 _] & Hr).
    cbn [g_nodes widen] in Hf. rewrite add_roots_strangers in Hf.
    assert (Hmm : mates_marked (marker0 p)) by (intros a b; apply (mi_mates _ _ _ _ (marker0_inv h p (f_parents f)))).
    destruct (search_v_wide n f (marker0 p) Hmm (roots_near f Hf)) as [E|(w & x & Hw & Hx & Hwx & E)].
    - rewrite Hs1 in E by lia. left.
      assert (Hg1 : forall fuel tag, n <= fuel -> augmenting_path iter tag (S fuel) g p = continue g p iter tag fuel r).
      { intros fuel tag Hfu. rewrite (ap_unfold_any g iter tag fuel p f) by done.
        by rewrite (search_v_mono n (S fuel) f (marker0 p) (Ok r)) by (done || lia). }
      assert (Hh1 : forall fuel tag, n <= fuel -> augmenting_path iter tag (S fuel) h p = continue h p iter tag fuel r).
      { intros fuel tag Hfu. rewrite (ap_unfold_any h iter tag fuel p f);
          [|done|done|cbn [g_nodes widen]; by rewrite add_roots_strangers].
        by rewrite Hs1 by lia. }
      destruct r as [f' m'|v pw f'].
      { exists None. split; exists (S n); intros [|fuel] tag Hfu; try lia; [rewrite Hg1 by lia|rewrite Hh1 by lia]; done. }
      destruct Hr as (HF & Hv & w & Hw & Hvw & Hpw).
      destruct (even_in_path h p f' Hh HF v Hv) as (pv & Hpv & _ & _).
      pose proof (f_path_some h p f' HF v pv Hpv) as Hfp.
      assert (Hl : last pv <> last pw).
      { intros Hl. destruct (found_blossom h p Hh Hph f' v w pv pw HF Hv Hw Hvw Hpv Hpw Hl) as (B & c & l2 & _ & HB).
        apply (Hodd B), HB. }
      exists (Some (reverse pv ++ pw)).
      split; exists (S n); intros [|fuel] tag Hfu; try lia; [rewrite Hg1 by lia|rewrite Hh1 by lia];
        cbn [continue]; rewrite Hfp; cbn [cbind expect_some]; by rewrite bool_decide_eq_false_2.
    - right. exists w, x. split_and!; try done. exists (S n). intros [|fuel] tag Hfu; [lia|].
      rewrite (ap_unfold_any g iter tag fuel p f) by done.
      by rewrite (search_v_mono n (S fuel) f (marker0 p) (Panic (PUnwrap (MissingNode x)))) by (done || lia).
  Qed.
End widen.

Lemma wide_no_odd g p color : Lawful g ->
  (forall u v, adj g u v \/ p !! u = Some v -> color u <> color v :> bool) ->
  forall c, ~ odd_cycle (widen g p) c.
Proof.
  intros Hg Hcol c. apply bipartite_no_odd. exists color. intros u v [H|H]%wide_adj; [..|done]; apply Hcol; auto.
Qed.

(** *** The whole run *)

Section stale_run.
  Context (g : Graph) (Hg : Lawful g) (iter : hash_order) (Hit : hash_order_ok iter) (color : N -> bool).

  Definition joined (p : Pairing) (u v : N) : Prop := adj g u v \/ p !! u = Some v.

  Definition stale_end (p q : Pairing) (paths : list (list N)) : Prop :=
    augmentations iter g p paths q /\ symmetric_pairing q /\
    (forall u v, q !! u = Some v -> joined p u v) /\
    (forall x, is_Some (p !! x) -> is_Some (q !! x)) /\
    p_order q = p_order p + 2 * length paths /\
    forall M', (forall u v, (u, v) ∈ M' -> joined q u v) -> NoDup (endpoints M') ->
      2 * length M' <= p_order q.

  Definition free_nodes (p : Pairing) : list N := filter (fun x => p !! x = None) (g_nodes g).

  Lemma panics_run p e : search_panics iter g p e ->
    exists n, forall fuel tag, n <= fuel -> maximum_matching iter tag fuel g p = Panic e.
  Proof.
    intros [n Hn]. exists (S n). intros [|fuel] tag Hf; [lia|]. cbn [maximum_matching]. by rewrite Hn by lia.
  Qed.

  Theorem stale_run p : symmetric_pairing p -> (forall u v, joined p u v -> color u <> color v) ->
    (exists q paths, stale_end p q paths) \/
    (exists w x, w ∈ g_nodes g /\ x ∉ g_nodes g /\ p !! w = Some x /\
       exists n, forall fuel tag, n <= fuel -> maximum_matching iter tag fuel g p = Panic (PUnwrap (MissingNode x))).
  Proof.
    remember (length (free_nodes p)) as k eqn:Hk. revert p Hk.
    induction k as [k IH] using lt_wf_ind. intros p Hk Hs Hcol.
    pose proof (wide_no_odd g p color Hg Hcol) as Hodd.
    pose proof (wide_lawful g p Hg Hs) as Hh. pose proof (wide_pairing g p Hg Hs) as Hp.
    destruct (stale_search g p Hg Hs Hodd iter Hit) as [(o & Ho & Hoh)|(w & x & Hw & Hx & Hwx & Hpan)].
    2:{ right. exists w, x. split_and!; try done. by apply panics_run. }
    destruct o as [path|].
    - destruct (tame_augment (widen g p) Hh iter Hit p path Hp) as (p1 & Hp1 & Hpq & Hord & Hdom);
        [by apply no_odd_quiet|done|].
      assert (Hs1 : symmetric_pairing p1) by apply Hpq.
      assert (Hsub : forall u v, p1 !! u = Some v -> joined p u v).
      { intros u v H. by apply Hpq, wide_adj in H. }
      assert (Hj1 : forall u v, joined p1 u v -> joined p u v).
      { intros u v [H|H]; [by left|by apply Hsub]. }
      assert (Hlt : length (free_nodes p1) < k).
      { subst k. assert (Hle : forall l : list N, length (filter (fun x => p1 !! x = None) l) <= length (filter (fun x => p !! x = None) l)).
        { intros l. induction l as [|y l IHl]; [done|]. rewrite !filter_cons.
          destruct (decide (p1 !! y = None)) as [E1|E1]; destruct (decide (p !! y = None)) as [E|E]; simpl; try lia.
          exfalso. apply not_eq_None_Some, Hdom in E as [z Hz]. congruence. }
        assert (Hnew : exists y, y ∈ g_nodes g /\ p !! y = None /\ is_Some (p1 !! y)).
        { destruct (decide (Exists (fun e : N * N => p !! e.1 = None) (map_to_list p1))) as [([y z] & Hyz & Hy)%Exists_exists|Hno].
          - apply elem_of_map_to_list in Hyz. cbn in Hy. exists y. split_and!; [|done|by eexists].
            apply Hsub in Hyz as [H|H]; [by eapply adj_left|congruence].
          - exfalso. assert (Hincl : dom p1 ⊆ dom p).
            { intros y Hy. apply elem_of_dom in Hy as [z Hz]. apply elem_of_dom.
              destruct (p !! y) eqn:E; [done|]. destruct Hno. apply Exists_exists. exists (y, z). split; [by apply elem_of_map_to_list|done]. }
            apply subseteq_size in Hincl. rewrite !size_dom in Hincl. unfold p_order in Hord. lia. }
        destruct Hnew as (y & Hy & Hpy & [z Hz]). unfold free_nodes.
        apply elem_of_list_split in Hy as (l1 & l2 & ->). rewrite !filter_app, !filter_cons, !app_length.
        rewrite (decide_True (P := p !! y = None)) by done.
        rewrite (decide_False (P := p1 !! y = None)) by congruence.
        pose proof (Hle l1). pose proof (Hle l2). simpl. lia. }
      destruct (IH _ Hlt p1 eq_refl Hs1) as [(q & paths & Haug & Hsq & Hq & Hdq & Hoq & Hmax)|(w & x & Hw & Hx & Hwx & n & Hn)].
      { intros u v H. apply Hcol. by apply Hj1. }
      + left. exists q, (path :: paths). split_and!; try done; [by eapply aug_step|intros u v Huv; by apply Hj1, Hq| |].
        * intros y Hy. by apply Hdq, Hdom.
        * cbn [length]. lia.
      + right. exists w, x. split_and!; try done.
        { apply Hsub in Hwx as [H|H]; [|done]. destruct Hx. by eapply law_adj_node. }
        destruct Ho as [n0 Hn0]. exists (S (n0 + n)). intros [|fuel] tag Hf; [lia|]. cbn [maximum_matching].
        rewrite Hn0 by lia. cbn [cbind]. rewrite Hp1. cbn [cbind]. by rewrite Hn by lia.
    - left. exists p, []. 
      split; [by apply aug_done|]. split; [done|]. split; [by right|]. split; [done|].
      split; [cbn [length]; lia|].
      intros M' HM' Hnd.
      assert (Hrun : matching_run iter (widen g p) p (Ok p)).
      { split; [done|]. destruct Hoh as [n Hn]. exists (S n). intros [|fuel] Hf; [lia|]. cbn [maximum_matching].
        by rewrite Hn by lia. }
      destruct (run_maximum (widen g p) iter p p _ Hh Hit Hp Hrun (listed_here p)) as [[_ Hmax] Hord].
      rewrite Hord. specialize (Hmax M'). enough (length M' <= length (p_edges_of (map_to_list p))) by lia.
      apply Hmax. split; [|done]. intros u v Huv. apply wide_adj; [done..|]. by apply HM'.
  Qed.
End stale_run.

(** *** More fuel does not change a result, for any pairing *)

Lemma rotate_mono test fuel : forall fuel' l r, fuel <= fuel' -> rotate_until fuel test l = r -> r <> NoFuel ->
  rotate_until fuel' test l = r.
Proof.
  induction fuel as [|fuel IH]; intros [|fuel'] l r Hle <- Hr; try done; [lia|]. revert Hr. cbn [rotate_until].
  destruct (test l) as [[]| | |]; try done. cbn [cbind]. intros Hr. apply IH; [lia|done|done].
Qed.

Lemma lift_mono fuel fuel' b path g r : fuel <= fuel' -> b_lift fuel b path g = r -> r <> NoFuel ->
  b_lift fuel' b path g = r.
Proof.
  intros Hle <- Hr. revert Hr. unfold b_lift. destruct (before (b_id b) path) as [[|x lft]|]; [| |done].
  - destruct (drop _ path) as [|y rgt]; [done|]. unfold b_lift_right.
    destruct (index _ 0) as [t| | |]; try done. cbn [cbind].
    destruct (rotate_until fuel _ (b_path b)) as [c| | |] eqn:E; try done;
      by rewrite (rotate_mono _ fuel fuel' _ _ Hle E).
  - destruct (drop _ path) as [|y rgt].
    + unfold b_lift_left. destruct (expect_some _) as [s| | |]; try done. cbn [cbind].
      destruct (rotate_until fuel _ (b_path b)) as [c| | |] eqn:E; try done;
        by rewrite (rotate_mono _ fuel fuel' _ _ Hle E).
    + unfold b_lift_both. destruct (expect_some _) as [s| | |]; try done. cbn [cbind].
      destruct (rotate_until fuel _ (b_path b)) as [c| | |] eqn:E; try done;
        rewrite (rotate_mono _ fuel fuel' _ _ Hle E) by done; try done. cbn [cbind].
      destruct (index _ 0) as [t| | |]; try done. cbn [cbind].
      destruct (take_to_edge _ _ _) as [sg| | |]; try done. cbn [cbind].
      destruct (Nat.even _); [done|].
      destruct (rotate_until fuel _ (reverse (b_path b))) as [c'| | |] eqn:E'; try done;
        by rewrite (rotate_mono _ fuel fuel' _ _ Hle E').
Qed.

Lemma ap_mono iter fuel : forall fuel' tag g p r, fuel <= fuel' -> augmenting_path iter tag fuel g p = r ->
  r <> NoFuel -> augmenting_path iter tag fuel' g p = r.
Proof.
  induction fuel as [|fuel IH]; intros [|fuel'] tag g p r Hle <- Hr; try done; [lia|]. revert Hr. cbn [augmenting_path].
  destruct (mark_edges _ _) as [m| | |]; try done. cbn [cbind].
  destruct (add_roots _ _ _) as [f| | |]; try done. cbn [cbind]. intros Hr.
  destruct (search_v (S fuel) g p f m) as [x| | |] eqn:E; [| | |done];
    (rewrite (search_v_mono g p (S fuel) (S fuel') f m _ Hle E) by done); cbn [cbind] in *; try done.
  destruct x as [|v pw f']; [done|].
  destruct (f_path f' v) as [opv| | |]; try done. cbn [cbind] in *.
  destruct (expect_some opv) as [pv| | |]; try done. cbn [cbind] in *.
  destruct (bool_decide (last pv = last pw)); [|done].
  destruct (expect_some (nodes_max _)) as [mx| | |]; try done. cbn [cbind] in *.
  destruct (checked_succ mx) as [id| | |]; try done. cbn [cbind] in *.
  destruct (b_new id pv pw) as [bl| | |]; try done. cbn [cbind] in *.
  destruct (unwrap _) as [d| | |]; try done. cbn [cbind] in *.
  destruct (augmenting_path iter (2 :: tag) fuel (as_graph d) _) as [[path|]| | |] eqn:Ea; [| | | |done];
    (rewrite (IH fuel' _ _ _ _ ltac:(lia) Ea) by done); cbn [cbind] in *; try done.
  destruct (b_lift (S fuel) bl path g) as [l| | |] eqn:El; [| | |done];
    by rewrite (lift_mono (S fuel) (S fuel') _ _ _ _ Hle El).
Qed.

Lemma mm_mono iter g fuel : forall fuel' tag p r, fuel <= fuel' -> maximum_matching iter tag fuel g p = r ->
  r <> NoFuel -> maximum_matching iter tag fuel' g p = r.
Proof.
  induction fuel as [|fuel IH]; intros [|fuel'] tag p r Hle <- Hr; try done; [lia|]. revert Hr. cbn [maximum_matching].
  intros Hr. destruct (augmenting_path iter (0 :: tag) (S fuel) g p) as [x| | |] eqn:Ea; [| | |done];
    (rewrite (ap_mono iter (S fuel) (S fuel') _ _ _ _ Hle Ea) by done); cbn [cbind] in *; try done.
  destruct x as [path|]; [|done]. destruct (p_augment p path) as [p1| | |]; try done. cbn [cbind] in *.
  destruct (maximum_matching iter (1 :: tag) fuel g p1) as [p2| | |] eqn:E1; [| | |done];
    (rewrite (IH fuel' _ _ _ ltac:(lia) E1) by done); cbn [cbind] in *; try done.
  apply IH; [lia|done|done].
Qed.

(** A run seen to end ends like that. *)
Lemma run_seen iter g p fuel r : maximum_matching iter [] fuel g p = r -> r <> NoFuel -> matching_run iter g p r.
Proof. intros H Hr. split; [done|]. exists fuel. intros fuel' Hle. by eapply mm_mono. Qed.

Lemma rotate_never test fuel : forall l, (forall l', l' ≡ₚ l -> test l' = Ok false) ->
  rotate_until fuel test l = NoFuel.
Proof.
  induction fuel as [|fuel IH]; intros l Hl; [done|]. cbn [rotate_until]. rewrite Hl by done. cbn [cbind].
  apply IH. intros l' Hl'. apply Hl. rewrite Hl'. unfold rotate_right.
  destruct l as [|x l _] using rev_ind; [done|]. rewrite last_snoc, removelast_last. by rewrite (Permutation_app_comm l).
Qed.

(** *** Searches that never come back from a blossom *)

(** The blossom a search runs into, and the path found behind it. *)
Definition behind (n : nat) (g : Graph) (p : Pairing) : option (Blossom * list N) :=
  match add_roots f_new p (g_nodes g) with
  | Ok f =>
    match search_v n g p f (marker0 p) with
    | Ok (EvenPath v pw f') =>
      match f_path f' v, nodes_max (g_nodes g) with
      | Ok (Some pv), Some mx =>
        match checked_succ mx with
        | Ok id =>
          match b_new id pv pw with
          | Ok bl =>
            match b_contract_graph bl g with
            | Ok d =>
              if bool_decide (last pv = last pw) then
                match augmenting_path canon [] n (as_graph d)
                        (b_contract_pairing bl (p_edges_of (map_to_list p))) with
                | Ok (Some path) => Some (bl, path)
                | _ => None
                end
              else None
            | _ => None
            end
          | _ => None
          end
        | _ => None
        end
      | _, _ => None
      end
    | _ => None
    end
  | _ => None
  end.

Lemma canon_tag fuel : forall tag tag' g p, augmenting_path canon tag fuel g p = augmenting_path canon tag' fuel g p.
Proof.
  induction fuel as [|fuel IH]; intros tag tag' g p; [done|]. cbn [augmenting_path].
  unfold p_edges, canon. destruct (mark_edges _ _) as [m| | |]; try done. cbn [cbind].
  destruct (add_roots _ _ _) as [f| | |]; try done. cbn [cbind].
  destruct (search_v (S fuel) g p f m) as [[|v pw f']| | |]; try done. cbn [cbind].
  destruct (f_path f' v) as [opv| | |]; try done. cbn [cbind].
  destruct (expect_some opv) as [pv| | |]; try done. cbn [cbind].
  destruct (bool_decide (last pv = last pw)); [|done].
  destruct (expect_some (nodes_max _)) as [mx| | |]; try done. cbn [cbind].
  destruct (checked_succ mx) as [id| | |]; try done. cbn [cbind].
  destruct (b_new id pv pw) as [bl| | |]; try done. cbn [cbind].
  destruct (unwrap _) as [d| | |]; try done. cbn [cbind].
  fold canon. by rewrite (IH (2 :: tag) (2 :: tag')).
Qed.

Lemma behind_diverges n g p bl path : symmetric_pairing p -> behind n g p = Some (bl, path) ->
  (forall fuel, b_lift fuel bl path g = NoFuel) -> matching_diverges canon g p.
Proof.
  intros Hs Hb Hlift. unfold behind in Hb.
  destruct (add_roots f_new p (g_nodes g)) as [f| | |] eqn:Ef; try done.
  destruct (search_v n g p f (marker0 p)) as [[|v pw f']| | |] eqn:Es; try done.
  destruct (f_path f' v) as [[pv|]| | |] eqn:Epv; try done.
  destruct (nodes_max (g_nodes g)) as [mx|] eqn:Em; try done.
  destruct (checked_succ mx) as [id| | |] eqn:Ei; try done.
  destruct (b_new id pv pw) as [bl'| | |] eqn:Eb; try done.
  destruct (b_contract_graph bl' g) as [d| | |] eqn:Ed; try done.
  destruct (bool_decide (last pv = last pw)) eqn:El; try done.
  destruct (augmenting_path canon [] n (as_graph d) _) as [[path'|]| | |] eqn:Ea; try done.
  injection Hb as -> ->.
  assert (Hbig : forall fuel tag, n <= fuel -> augmenting_path canon tag (S fuel) g p = NoFuel).
  { intros fuel tag Hf. rewrite (ap_unfold_any g canon tag fuel p f canon_ok Hs Ef).
    rewrite (search_v_mono g p n (S fuel) f (marker0 p) _ ltac:(lia) Es) by done. cbn [cbind continue].
    rewrite Epv. cbn [cbind expect_some]. rewrite El, Em. cbn [cbind expect_some]. rewrite Ei. cbn [cbind].
    rewrite Eb. cbn [cbind]. rewrite Ed. cbn [unwrap cbind]. unfold p_edges, canon at 2.
    rewrite (canon_tag _ _ []), (ap_mono canon n fuel _ _ _ _ ltac:(lia) Ea) by done. cbn [cbind].
    by rewrite Hlift. }
  assert (Hall : forall fuel tag, augmenting_path canon tag fuel g p = NoFuel).
  { intros fuel tag. destruct (augmenting_path canon tag fuel g p) as [x| | |] eqn:E; try done; exfalso;
      apply (ap_mono canon fuel (S (fuel + n))) in E; try lia; try done; rewrite Hbig in E by lia; done. }
  intros [|fuel]; [done|]. cbn [maximum_matching]. by rewrite Hall.
Qed.

Lemma lift_never g b path x lft y rgt s : before (b_id b) path = Some (x :: lft) ->
  drop (S (length (x :: lft))) path = y :: rgt -> last (x :: lft) = Some s -> b_path b <> [] ->
  (forall z, z ∈ b_path b -> g_has_edge g s z = Ok false) -> forall fuel, b_lift fuel b path g = NoFuel.
Proof.
  intros Hb Hd Hl Hne Hno fuel. unfold b_lift. rewrite Hb, Hd. unfold b_lift_both. rewrite Hl. cbn [expect_some cbind].
  rewrite rotate_never; [done|]. intros l' Hperm. destruct l' as [|z l']; [by apply Permutation_nil_l in Hperm|].
  unfold index. cbn [lookup list_lookup cbind]. rewrite Hno; [done|]. rewrite <-Hperm. left.
Qed.

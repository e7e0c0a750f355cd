(** Traversals, components and greedy commute with renaming nodes. *)
From Verif Require Import Outcome GraphModel TraversalModel ComponentsModel PairingModel GreedyModel
  Spec GraphProofs EditProofs ConvertProofs EqProofs TraversalProofs BfsProofs DfsProofs
  ComponentsProofs GreedyProofs GreedyRule DescentProofs.

(** Built graphs whose nodes and edges correspond. *)
Section built.
  Context (f : N -> N) (S : list N) (Hinj : forall u v, u ∈ S -> v ∈ S -> f u = f v -> u = v).
  Local Notation fe := (prod_map f f).

  Lemma a_neighbors_same ns ns' E v : v ∈ S -> (forall e, e ∈ E -> e.1 ∈ S /\ e.2 ∈ S) ->
    a_neighbors (mkA ns' (fe <$> E)) (f v) = f <$> a_neighbors (mkA ns E) v.
  Proof.
    intros Hv. unfold a_neighbors. cbn [a_edges]. induction E as [|[a b] E IH]; intros HE; [done|].
    destruct (HE (a, b)) as [Ha Hb]; [left|]. simpl in Ha, Hb.
    cbn [fmap list_fmap mbind list_bind]. simpl. rewrite !fmap_app. f_equal.
    - rewrite (bool_decide_ext (f a = f v) (a = v)), (bool_decide_ext (f b = f v) (b = v))
        by (split; [by apply Hinj|by intros ->]).
      f_equal; by case_bool_decide.
    - apply IH. intros e He. apply HE. by right.
  Qed.

  Lemma observes_same d e ns E : (forall v, v ∈ ns -> v ∈ S) -> (forall e, e ∈ E -> e.1 ∈ S /\ e.2 ∈ S) ->
    observes d (mkA ns E) -> observes e (mkA (f <$> ns) (fe <$> E)) ->
    renamed f (as_graph d) (as_graph e) /\ g_edges (as_graph e) = fe <$> g_edges (as_graph d).
  Proof.
    intros Hns HE (H1 & H2 & _ & _ & _ & _ & H3 & _) (G1 & G2 & _ & _ & _ & _ & G3 & _).
    cbn [a_nodes a_edges] in *.
    split; [|by rewrite G2, H2]. split_and!.
    - intros u v Hu Hv. rewrite H1 in Hu, Hv. apply Hinj; auto.
    - by rewrite G1, H1.
    - intros v l Hl. rewrite H3 in Hl. rewrite G3. case_bool_decide as Hv; [|done].
      injection Hl as <-. rewrite bool_decide_eq_true_2.
      + f_equal. apply a_neighbors_same; auto.
      + apply elem_of_list_fmap. eauto.
  Qed.

  Lemma first_mentions_same l : (forall v, v ∈ l -> v ∈ S) ->
    first_mentions (f <$> l) = f <$> first_mentions l.
  Proof.
    unfold first_mentions. intros Hl.
    assert (H : forall acc, (forall v, v ∈ acc -> v ∈ S) ->
      foldl (fun acc x => if bool_decide (x ∈ acc) then acc else acc ++ [x]) (f <$> acc) (f <$> l) =
      f <$> foldl (fun acc x => if bool_decide (x ∈ acc) then acc else acc ++ [x]) acc l);
      [|apply (H []); intros v Hv; by apply elem_of_nil in Hv].
    induction l as [|x l IH]; intros acc Hacc; [done|]. cbn [foldl fmap list_fmap].
    assert (Hx : x ∈ S) by (apply Hl; left).
    rewrite (bool_decide_ext (f x ∈ f <$> acc) (x ∈ acc)).
    - case_bool_decide; [apply IH; [intros; apply Hl; by right|done]|].
      replace ((f <$> acc) ++ [f x]) with (f <$> (acc ++ [x])) by (by rewrite fmap_app).
      apply IH; [intros; apply Hl; by right|].
      intros v [Hv| ->%elem_of_list_singleton]%elem_of_app; auto.
    - rewrite elem_of_list_fmap. split; [|eauto]. intros (y & Hy & Hin). apply Hinj in Hy; [by subst|done|auto].
  Qed.

  Lemma endpoints_same es : endpoints (fe <$> es) = f <$> endpoints es.
  Proof. unfold endpoints. induction es as [|[a b] es IH]; [done|]. cbn. by rewrite IH. Qed.

  Lemma edge_list_same es d : (forall v, v ∈ endpoints es -> v ∈ S) -> dg_try_from_edges es = Ok d ->
    exists e, dg_try_from_edges (fe <$> es) = Ok e /\
      renamed f (as_graph d) (as_graph e) /\ g_edges (as_graph e) = fe <$> g_edges (as_graph d).
  Proof.
    intros HS Hd.
    assert (HE : forall e, e ∈ es -> e.1 ∈ S /\ e.2 ∈ S).
    { intros [a b] Hab. split; apply HS, elem_of_list_bind; exists (a, b); set_solver. }
    assert (Hdist : distinct_edges (fe <$> es)).
    { pose proof (proj1 (try_from_edges_ok es) (ex_intro _ d Hd)) as Hes.
      intros i j e1 e2. rewrite !list_lookup_fmap.
      intros ([a b] & Hi & ->)%fmap_Some ([a' b'] & Hj & ->)%fmap_Some Hsame.
      apply (Hes i j (a, b) (a', b')); [done|done|].
      destruct (HE (a, b)) as [Ha Hb]; [by eapply elem_of_list_lookup_2|].
      destruct (HE (a', b')) as [Ha' Hb']; [by eapply elem_of_list_lookup_2|]. simpl in Ha, Hb, Ha', Hb'.
      unfold same_edge in *. simpl in *.
      destruct Hsame as [Heq|Heq]; [left|right]; injection Heq as H1 H2; apply Hinj in H1, H2; (done || by rewrite H1, H2). }
    destruct (proj2 (try_from_edges_ok _) Hdist) as (e & He). exists e. split; [done|].
    destruct (try_from_edges_result es d Hd) as (_ & _ & _ & Hobs).
    destruct (try_from_edges_result _ e He) as (_ & _ & _ & Hobs').
    rewrite endpoints_same, first_mentions_same in Hobs' by done.
    apply (observes_same d e (first_mentions (endpoints es)) es); [|done|done|done].
    intros v Hv. apply HS. by apply first_mentions_elem.
  Qed.
End built.

Section renaming.
  Context (f : N -> N) (g h : Graph) (Hg : Lawful g) (Hr : renamed f g h).

  Local Notation fe := (prod_map f f).

  Lemma rn_inj u v : u ∈ g_nodes g -> v ∈ g_nodes g -> f u = f v <-> u = v.
  Proof. intros Hu Hv. split; [by apply Hr|by intros ->]. Qed.

  Lemma rn_neighbors v : v ∈ g_nodes g ->
    exists l, g_neighbors g v = Ok l /\ g_neighbors h (f v) = Ok (f <$> l) /\
      forall w, w ∈ l -> w ∈ g_nodes g.
  Proof.
    intros Hv. destruct (law_neighbors g Hg v Hv) as (l & Hl & _). exists l. split; [done|].
    split; [by apply Hr|]. intros w Hw. apply (law_adj_node g Hg v). by exists l.
  Qed.

  (** Sets of nodes and pending edges that correspond. *)
  Definition same_set (V V' : gset N) : Prop := forall v, v ∈ g_nodes g -> f v ∈ V' <-> v ∈ V.
  Definition nodes_of (q : list (N * N)) : Prop := forall e, e ∈ q -> e.1 ∈ g_nodes g /\ e.2 ∈ g_nodes g.

  Lemma same_set_insert V V' x : x ∈ g_nodes g -> same_set V V' -> same_set ({[x]} ∪ V) ({[f x]} ∪ V').
  Proof.
    intros Hx HV v Hv. rewrite !elem_of_union, !elem_of_singleton, (HV v Hv), rn_inj by done. done.
  Qed.
  Lemma same_set_mem V V' x : x ∈ g_nodes g -> same_set V V' ->
    bool_decide (f x ∈ V') = bool_decide (x ∈ V).
  Proof. intros Hx HV. apply bool_decide_ext. by apply HV. Qed.

  (** ** Breadth first *)

  Definition bsame (t t' : BreadthFirst) : Prop :=
    same_set (bf_nodes t) (bf_nodes t') /\ bf_queue t' = fe <$> bf_queue t /\ nodes_of (bf_queue t).

  Lemma bfs_push_same V V' p n q l : same_set V V' -> p ∈ g_nodes g -> n ∈ g_nodes g ->
    (forall w, w ∈ l -> w ∈ g_nodes g) -> nodes_of q ->
    foldl (bfs_push V' (f p) (f n)) (fe <$> q) (f <$> l) = fe <$> foldl (bfs_push V p n) q l /\
    nodes_of (foldl (bfs_push V p n) q l).
  Proof.
    intros HV Hp Hn. revert q. induction l as [|w l IH]; intros q Hl Hq; [done|].
    assert (Hw : w ∈ g_nodes g) by (apply Hl; left).
    cbn [foldl fmap list_fmap].
    assert (Hstep : bfs_push V' (f p) (f n) (fe <$> q) (f w) = fe <$> bfs_push V p n q w).
    { unfold bfs_push. rewrite (same_set_mem V V' w Hw HV).
      rewrite (bool_decide_ext (f w = f p) (w = p)) by (by apply rn_inj).
      destruct (_ || _); [done|]. by rewrite fmap_app. }
    rewrite Hstep. apply IH; [intros; apply Hl; by right|].
    unfold bfs_push. destruct (_ || _); [done|].
    intros e [He| ->%elem_of_list_singleton]%elem_of_app; [by apply Hq|done].
  Qed.

  Lemma bfs_next_same t t' o u : bsame t t' -> bfs_next g t = Ok (o, u) ->
    exists u', bfs_next h t' = Ok (rename_step f <$> o, u') /\ bsame u u'.
  Proof.
    intros (HV & Hq & Hn) Hnext. unfold bfs_next in *. rewrite Hq.
    destruct (bf_queue t) as [|[p n] rest] eqn:Eq.
    { injection Hnext as <- <-. exists t'. split; [done|]. split; [done|]. by rewrite Eq. }
    simpl. destruct (Hn (p, n)) as [Hp Hnn]; [left|]. simpl in Hp, Hnn.
    assert (Hrest : nodes_of rest) by (intros e He; apply Hn; by right).
    rewrite (same_set_mem _ _ n Hnn HV). case_bool_decide.
    - injection Hnext as <- <-. eexists. split; [done|]. by split_and!.
    - destruct (rn_neighbors n Hnn) as (l & Hl & Hl' & Hln). rewrite Hl in Hnext. rewrite Hl'.
      simpl in Hnext |- *. injection Hnext as <- <-. eexists. split; [done|].
      destruct (bfs_push_same _ _ p n rest l HV Hp Hnn Hln Hrest) as [H1 H2].
      split_and!; simpl; [by apply same_set_insert|done|done].
  Qed.

  Lemma bfs_collect_same fuel t t' steps : bsame t t' -> bfs_collect fuel g t = Ok steps ->
    bfs_collect fuel h t' = Ok (rename_step f <$> steps).
  Proof.
    revert t t' steps. induction fuel as [|fuel IH]; intros t t' steps Ht H; [done|].
    cbn [bfs_collect] in *. destruct (bfs_next g t) as [[o u]| | |] eqn:En; [|done..].
    destruct (bfs_next_same t t' o u Ht En) as (u' & -> & Hu). cbn [cbind] in *.
    destruct o as [s|]; simpl; [|by injection H as <-].
    apply cbind_ok in H as (ss & Hs & [= <-]). by rewrite (IH u u' ss Hu Hs).
  Qed.

  Lemma breadth_first_same r steps : r ∈ g_nodes g -> breadth_first g r steps ->
    breadth_first h (f r) (rename_step f <$> steps).
  Proof.
    intros Hroot (t & n & Ht & Hn). unfold bfs_new in Ht.
    destruct (rn_neighbors r Hroot) as (l & Hl & Hl' & Hln). rewrite Hl in Ht. simpl in Ht.
    injection Ht as <-. eexists _, n. unfold bfs_new. rewrite Hl'. simpl. split; [done|].
    intros fuel Hf. eapply bfs_collect_same; [|by apply Hn].
    assert (Hnil : forall q, nodes_of q ->
      foldl (fun q w => q ++ [(f r, w)]) (fe <$> q) (f <$> l) =
      fe <$> foldl (fun q w => q ++ [(r, w)]) q l /\
      nodes_of (foldl (fun q w => q ++ [(r, w)]) q l)).
    { clear Hl Hl' Hn. induction l as [|w l IH]; intros q Hq; [done|]. cbn [foldl fmap list_fmap].
      replace ((fe <$> q) ++ [(f r, f w)]) with (fe <$> (q ++ [(r, w)])) by (by rewrite fmap_app).
      apply IH; [intros; apply Hln; by right|].
      intros e [He| ->%elem_of_list_singleton]%elem_of_app; [by apply Hq|].
      split; [done|]. apply Hln. left. }
    destruct (Hnil []) as [H1 H2]; [intros e He; by apply elem_of_nil in He|].
    split_and!; simpl; [|done|done].
    intros v Hv. rewrite !elem_of_singleton. by apply rn_inj.
  Qed.

  (** ** Depth first *)

  Definition dsame (t t' : DepthFirst) : Prop :=
    same_set (df_nodes t) (df_nodes t') /\ df_stack t' = fe <$> df_stack t /\ nodes_of (df_stack t).

  Lemma filter_same x y q : x ∈ g_nodes g -> y ∈ g_nodes g -> nodes_of q ->
    filter (fun e : N * N => e.1 <> f x /\ e.2 <> f y) (fe <$> q) =
    fe <$> filter (fun e : N * N => e.1 <> x /\ e.2 <> y) q.
  Proof.
    intros Hx Hy. induction q as [|[a b] q IH]; intros Hq; [done|].
    destruct (Hq (a, b)) as [Ha Hb]; [left|]. simpl in Ha, Hb.
    assert (Hq' : nodes_of q) by (intros e He; apply Hq; by right).
    cbn [fmap list_fmap]. rewrite !filter_cons. simpl.
    rewrite (IH Hq'). destruct (decide (a <> x /\ b <> y)) as [Hd|Hd];
      destruct (decide (f a <> f x /\ f b <> f y)) as [Hd'|Hd']; try done.
    - exfalso. apply Hd'. by rewrite !rn_inj.
    - exfalso. apply Hd. by rewrite !rn_inj in Hd'.
  Qed.

  Lemma dfs_push_same V V' p n q l : same_set V V' -> p ∈ g_nodes g -> n ∈ g_nodes g ->
    (forall w, w ∈ l -> w ∈ g_nodes g) -> nodes_of q ->
    foldl (dfs_push V' (f p) (f n)) (fe <$> q) (f <$> l) = fe <$> foldl (dfs_push V p n) q l /\
    nodes_of (foldl (dfs_push V p n) q l).
  Proof.
    intros HV Hp Hn. revert q. induction l as [|w l IH]; intros q Hl Hq; [done|].
    assert (Hw : w ∈ g_nodes g) by (apply Hl; left).
    cbn [foldl fmap list_fmap].
    assert (Hstep : dfs_push V' (f p) (f n) (fe <$> q) (f w) = fe <$> dfs_push V p n q w).
    { unfold dfs_push. rewrite (same_set_mem V V' w Hw HV).
      rewrite (bool_decide_ext (f w = f p) (w = p)) by (by apply rn_inj).
      case_bool_decide; [done|]. case_bool_decide; [|done]. by rewrite filter_same. }
    rewrite Hstep. apply IH; [intros; apply Hl; by right|].
    unfold dfs_push. case_bool_decide; [done|].
    intros e [->|He]%elem_of_cons; [done|]. case_bool_decide; [|by apply Hq].
    apply elem_of_list_filter in He as [_ He]. by apply Hq.
  Qed.

  Lemma dfs_next_same t t' o u : dsame t t' -> dfs_next g t = Ok (o, u) ->
    exists u', dfs_next h t' = Ok (rename_step f <$> o, u') /\ dsame u u'.
  Proof.
    intros (HV & Hq & Hn) Hnext. unfold dfs_next in *. rewrite Hq.
    destruct (df_stack t) as [|[p n] rest] eqn:Eq.
    { injection Hnext as <- <-. exists t'. split; [done|]. split; [done|]. by rewrite Eq. }
    simpl. destruct (Hn (p, n)) as [Hp Hnn]; [left|]. simpl in Hp, Hnn.
    assert (Hrest : nodes_of rest) by (intros e He; apply Hn; by right).
    rewrite (same_set_mem _ _ n Hnn HV). case_bool_decide.
    - injection Hnext as <- <-. eexists. split; [done|]. by split_and!.
    - destruct (rn_neighbors n Hnn) as (l & Hl & Hl' & Hln). rewrite Hl in Hnext. rewrite Hl'.
      simpl in Hnext |- *. injection Hnext as <- <-. rewrite <-fmap_reverse.
      eexists. split; [done|].
      destruct (dfs_push_same _ _ p n rest (reverse l) HV Hp Hnn) as [H1 H2]; [|done|].
      { intros w Hw. rewrite elem_of_reverse in Hw. by apply Hln. }
      split_and!; simpl; [by apply same_set_insert|done|done].
  Qed.

  Lemma dfs_collect_same fuel t t' steps : dsame t t' -> dfs_collect fuel g t = Ok steps ->
    dfs_collect fuel h t' = Ok (rename_step f <$> steps).
  Proof.
    revert t t' steps. induction fuel as [|fuel IH]; intros t t' steps Ht H; [done|].
    cbn [dfs_collect] in *. destruct (dfs_next g t) as [[o u]| | |] eqn:En; [|done..].
    destruct (dfs_next_same t t' o u Ht En) as (u' & -> & Hu). cbn [cbind] in *.
    destruct o as [s|]; simpl; [|by injection H as <-].
    apply cbind_ok in H as (ss & Hs & [= <-]). by rewrite (IH u u' ss Hu Hs).
  Qed.

  Lemma depth_first_same r steps : r ∈ g_nodes g -> depth_first g r steps ->
    depth_first h (f r) (rename_step f <$> steps).
  Proof.
    intros Hroot (t & n & Ht & Hn). unfold dfs_new in Ht.
    destruct (rn_neighbors r Hroot) as (l & Hl & Hl' & Hln). rewrite Hl in Ht. simpl in Ht.
    injection Ht as <-. eexists _, n. unfold dfs_new. rewrite Hl'. simpl. split; [done|].
    intros fuel Hf. eapply dfs_collect_same; [|by apply Hn].
    assert (Hnil : forall q, nodes_of q ->
      foldl (fun st w => (f r, w) :: st) (fe <$> q) (f <$> l) =
      fe <$> foldl (fun st w => (r, w) :: st) q l /\
      nodes_of (foldl (fun st w => (r, w) :: st) q l)).
    { clear Hl Hl' Hn. induction l as [|w l IH]; intros q Hq; [done|]. cbn [foldl fmap list_fmap].
      change ((f r, f w) :: (fe <$> q)) with (fe <$> ((r, w) :: q)).
      apply IH; [intros; apply Hln; by right|].
      intros e [->|He]%elem_of_cons; [|by apply Hq].
      split; [done|]. apply Hln. left. }
    destruct (Hnil []) as [H1 H2]; [intros e He; by apply elem_of_nil in He|].
    split_and!; simpl; [| |].
    - intros v Hv. rewrite !elem_of_singleton. by apply rn_inj.
    - rewrite fmap_reverse. f_equal. exact H1.
    - intros e He. rewrite elem_of_reverse in He. by apply H2.
  Qed.

  (** ** Built graphs *)

  Lemma crossed_same steps : crossed (rename_step f <$> steps) = fe <$> crossed steps.
  Proof. unfold crossed. rewrite <-!list_fmap_compose. done. Qed.

  Lemma discovered_same r steps :
    discovered (f r) (rename_step f <$> steps) = f <$> discovered r steps.
  Proof.
    unfold discovered. cbn [fmap list_fmap]. f_equal.
    induction steps as [|s steps IH]; [done|]. cbn [fmap list_fmap]. rewrite !filter_cons.
    simpl. case_decide; [|done]. cbn [fmap list_fmap]. by f_equal.
  Qed.

  (** ** components *)

  Context (Hh : Lawful h) (Hl : LoopFree g).

  Lemma loop_free_same : LoopFree h.
  Proof.
    intros x (l & Hx & Hin). assert (Hn : x ∈ g_nodes h).
    { destruct (decide (x ∈ g_nodes h)) as [|Hn]; [done|]. by rewrite (law_neighbors_err h Hh x Hn) in Hx. }
    destruct Hr as (_ & Hnodes & _). rewrite Hnodes in Hn. apply elem_of_list_fmap in Hn as (v & -> & Hv).
    destruct (rn_neighbors v Hv) as (k & Hk & Hk' & Hkn). rewrite Hk' in Hx. injection Hx as <-.
    apply elem_of_list_fmap in Hin as (w & Hfw & Hw). apply (rn_inj v w) in Hfw; [|done|by apply Hkn]. subst w.
    apply (Hl v). by exists k.
  Qed.

  Definition same_graph (d e : DefaultGraph) : Prop :=
    renamed f (as_graph d) (as_graph e) /\ g_edges (as_graph e) = fe <$> g_edges (as_graph d).

  Lemma yields_same r d e : r ∈ g_nodes g -> yields g r d -> yields h (f r) e -> same_graph d e.
  Proof.
    intros Hroot (steps & Hwf & Hd & Hn & He & _ & Hrow) (steps' & Hwf' & Hd' & Hn' & He' & _ & Hrow').
    pose proof (depth_first_fun _ _ _ _ Hd' (depth_first_same r steps Hroot Hd)). subst steps'.
    rewrite crossed_same in *. rewrite discovered_same in Hn'.
    destruct (dfs_sound g r steps Hg Hd) as (HS & _ & _).
    assert (HE : nodes_of (crossed steps)).
    { intros x (s & -> & Hs)%elem_of_list_fmap. destruct (HS s Hs) as [Ha _].
      split; [by eapply lawful_adj_l|by eapply (law_adj_node g Hg)]. }
    apply (observes_same f (g_nodes g) (proj1 Hr) d e (discovered r steps) (crossed steps)); [|done|..].
    - intros v Hv. unfold discovered in Hv. apply elem_of_cons in Hv as [->|Hv]; [done|].
      apply elem_of_list_fmap in Hv as (s & -> & [_ Hs]%elem_of_list_filter).
      destruct (HS s Hs) as [Ha _]. by eapply (law_adj_node g Hg).
    - by apply rep_observes.
    - by apply rep_observes.
  Qed.

  Lemma comps_same V V' iter ds es : (forall v, v ∈ iter -> v ∈ g_nodes g) ->
    same_set V V' -> comps g V iter ds -> comps h V' (f <$> iter) es -> Forall2 same_graph ds es.
  Proof.
    intros Hin HV Hc. revert V' es HV Hin.
    induction Hc as [V|V r iter ds Hrv _ IH|V V1 r iter d ds Hrv Hy HV1 _ IH];
      intros V' es HV Hin Hc'; cbn [fmap list_fmap] in Hc'.
    - inversion Hc'. constructor.
    - assert (Hrg : r ∈ g_nodes g) by (apply Hin; left).
      inversion Hc' as [|? ? ? ? H1 H2|? ? ? ? ? ? H1]; subst; [|by destruct H1; apply HV].
      eapply IH; [done| |done]. intros; apply Hin; by right.
    - assert (Hrg : r ∈ g_nodes g) by (apply Hin; left).
      inversion Hc' as [|? ? ? ? H1 H2|? V1' ? ? e es' H1 Hy' HV1' Hc'']; subst; [by destruct Hrv; apply HV|].
      pose proof (yields_same r d e Hrg Hy Hy') as Hsame.
      constructor; [done|]. eapply (IH V1'); [| |done].
      + intros v Hv. rewrite HV1, HV1', (HV v Hv). destruct Hsame as ((_ & Hn & _) & _). simpl in Hn.
        rewrite Hn, elem_of_list_fmap. split; [|by intros [?|?]; [left; eauto|right]].
        intros [(w & Hw & Hwd)|?]; [|by right]. left.
        destruct (yields_subgraph g r d Hg Hy) as (_ & Hsub & _).
        apply (rn_inj v w) in Hw; [by subst|done|by apply Hsub].
      + intros; apply Hin; by right.
  Qed.

  Lemma components_same ds : components_are g ds ->
    exists es, components_are h es /\ Forall2 same_graph ds es.
  Proof.
    intros Hc. destruct (components_run g Hg Hl) as (ds' & Hc1 & Hcs).
    rewrite <-(components_are_fun g ds ds' Hc Hc1) in Hcs.
    destruct (components_run h Hh loop_free_same) as (es & He & Hes).
    exists es. split; [done|]. destruct Hr as (_ & Hn & _). rewrite Hn in Hes.
    eapply comps_same; [| |done|done]; [done|]. intros v Hv. set_solver.
  Qed.

End renaming.

(** ** greedy *)

Lemma taken_sym T p u v : taken T p u v -> taken T p v u.
Proof.
  intros (E & x & F & HE & Hx & Hfree). exists E, x, F. split_and!; [done| |].
  - destruct Hx as [[= -> ->]|[= -> ->]]; [by right|by left].
  - intros s Hs. destruct (Hfree s Hs) as (H1 & H2 & H3). split_and!; [done|done|]. intros [?|?]; auto.
Qed.

Lemma taken_same f (S : list N) (p q : Pairing) T :
  (forall u v, u ∈ S -> v ∈ S -> f u = f v -> u = v) ->
  (forall s, s ∈ T -> sid s ∈ S /\ tid s ∈ S) ->
  (forall u v, p !! u = Some v <-> taken T p u v) ->
  (forall u v, q !! u = Some v <-> taken (rename_step f <$> T) q u v) ->
  forall u v, u ∈ S -> v ∈ S -> p !! u = Some v <-> q !! f u = Some (f v).
Proof.
  intros Hinj HT Hp Hq.
  assert (Hpre : forall i s, T !! i = Some s -> p !! sid s = Some (tid s) <-> q !! f (sid s) = Some (f (tid s))).
  { intros i. induction i as [i IH] using lt_wf_ind. intros s Hi.
    destruct (HT s) as [Hs1 Hs2]; [by eapply elem_of_list_lookup_2|].
    rewrite Hp, Hq. split.
    - intros (E & x & F & HE & Hx & Hfree).
      exists (rename_step f <$> E), (rename_step f x), (rename_step f <$> F). split_and!.
      + by rewrite HE, fmap_app.
      + simpl. destruct Hx as [Hx|Hx]; injection Hx as -> ->; [by left|by right].
      + assert (Hlen : length E <= i).
        { destruct (decide (length E <= i)); [done|]. exfalso.
          destruct (Hfree s) as [Hne _]; [|done]. rewrite HE, lookup_app_l in Hi by lia.
          by eapply elem_of_list_lookup_2. }
        intros y' (y & -> & Hy)%elem_of_list_fmap. simpl.
        apply elem_of_list_lookup in Hy as (j & Hj). pose proof (lookup_lt_Some _ _ _ Hj) as Hjl.
        assert (HjT : T !! j = Some y) by (by rewrite HE, lookup_app_l by lia).
        destruct (HT y) as [Hy1 Hy2]; [by eapply elem_of_list_lookup_2|].
        destruct (Hfree y) as (F1 & F2 & F3); [by eapply elem_of_list_lookup_2|].
        split_and!; [intros Heq%Hinj; done..|].
        intros Heq Hqy. apply F3; [destruct Heq as [Heq|Heq]; apply Hinj in Heq; auto|].
        apply (IH j); [lia|done|done].
    - intros (E' & x' & F' & HE & Hx & Hfree).
      apply fmap_app_inv in HE as (E & xF & -> & HxF & HE).
      destruct xF as [|x F]; [done|]. cbn [fmap list_fmap] in HxF. injection HxF as -> ->.
      assert (HxT : x ∈ T) by (rewrite HE; set_solver). destruct (HT x HxT) as [Hx1 Hx2].
      exists E, x, F. split_and!; [done| |].
      + simpl in Hx. destruct Hx as [Hx|Hx]; injection Hx as Ha Hb; apply Hinj in Ha, Hb;
          try done; rewrite Ha, Hb; [by left|by right].
      + assert (Hlen : length E <= i).
        { destruct (decide (length E <= i)); [done|]. exfalso.
          destruct (Hfree (rename_step f s)) as [Hne _]; [|done].
          apply elem_of_list_fmap. exists s. split; [done|]. rewrite HE, lookup_app_l in Hi by lia.
          by eapply elem_of_list_lookup_2. }
        intros y Hy. destruct (Hfree (rename_step f y)) as (F1 & F2 & F3).
        { apply elem_of_list_fmap. eauto. }
        simpl in F1, F2, F3.
        apply elem_of_list_lookup in Hy as (j & Hj). pose proof (lookup_lt_Some _ _ _ Hj) as Hjl.
        assert (HjT : T !! j = Some y) by (by rewrite HE, lookup_app_l by lia).
        split_and!; [congruence..|]. intros Heq Hpy. apply F3; [destruct Heq as [-> | ->]; auto|].
        apply (IH j); [lia|done|done]. }
  intros u v Hu Hv. split.
  - intros Huv. pose proof Huv as (E & x & F & HE & Hx & _)%Hp.
    assert (Hi : T !! length E = Some x) by (by rewrite HE, list_lookup_middle).
    destruct Hx as [[= -> ->]|[= -> ->]]; [by apply (Hpre _ _ Hi)|].
    apply Hq, taken_sym, Hq. apply (Hpre _ _ Hi). by apply Hp, taken_sym, Hp.
  - intros Huv. pose proof Huv as (E' & x' & F' & HE & Hx & _)%Hq.
    assert (Hi : (rename_step f <$> T) !! length E' = Some x') by (by rewrite HE, list_lookup_middle).
    rewrite list_lookup_fmap in Hi; apply fmap_Some in Hi as (x & Hi & ->).
    destruct (HT x) as [Hx1 Hx2]; [by eapply elem_of_list_lookup_2|].
    simpl in Hx. destruct Hx as [Hx|Hx]; injection Hx as Ha Hb; apply Hinj in Ha, Hb; try done; subst.
    + by apply (Hpre _ _ Hi).
    + apply Hp, taken_sym, Hp. apply (Hpre _ _ Hi). by apply Hq, taken_sym, Hq.
Qed.

Lemma runs_same f ds es runs runs' :
  Forall2 (same_graph f) ds es -> (forall d, d ∈ ds -> Lawful (as_graph d)) ->
  Forall2 (fun d steps => exists r, head (g_nodes (as_graph d)) = Some r /\
    depth_first (as_graph d) r steps) ds runs ->
  Forall2 (fun d steps => exists r, head (g_nodes (as_graph d)) = Some r /\
    depth_first (as_graph d) r steps) es runs' ->
  concat runs' = rename_step f <$> concat runs.
Proof.
  intros H. revert runs runs'. induction H as [|d e ds es Hde _ IH]; intros runs runs' Hlaw H1 H2.
  - inversion H1; inversion H2; done.
  - apply Forall2_cons_inv_l in H1 as (s1 & runs1 & (r & Hr & Hd) & H1 & ->).
    apply Forall2_cons_inv_l in H2 as (s2 & runs2 & (r' & Hr' & Hd') & H2 & ->).
    cbn [concat]. rewrite fmap_app. f_equal; [|apply IH; [intros; apply Hlaw; by right|done|done]].
    destruct Hde as [Hren _]. pose proof Hren as (_ & Hn & _). rewrite Hn in Hr'.
    rewrite head_Some in Hr. destruct Hr as (rest & Hr). rewrite Hr in Hr'. injection Hr' as <-.
    eapply depth_first_fun; [exact Hd'|]. apply (depth_first_same f (as_graph d)); [|done| |done].
    + apply Hlaw. left.
    + rewrite Hr. left.
Qed.

Lemma greedy_same f g h p q : Lawful g -> Lawful h -> LoopFree g -> renamed f g h ->
  greedy_is g p -> greedy_is h q ->
  forall u v, u ∈ g_nodes g -> v ∈ g_nodes g -> p !! u = Some v <-> q !! f u = Some (f v).
Proof.
  intros Hg Hh Hl Hr Hp Hq. pose proof (loop_free_same f g h Hg Hr Hh Hl) as Hl'.
  destruct (components_run g Hg Hl) as (ds & Hds & Hcs).
  destruct (components_same f g h Hg Hr Hh Hl ds Hds) as (es & Hes & Hsame).
  destruct (greedy_rule g p ds Hg Hl Hp Hds) as (runs & H1 & H2).
  destruct (greedy_rule h q es Hh Hl' Hq Hes) as (runs' & H1' & H2').
  assert (Hlaw : forall d, d ∈ ds -> Lawful (as_graph d) /\ forall v, v ∈ g_nodes (as_graph d) -> v ∈ g_nodes g).
  { intros d Hd. destruct (comps_subgraph _ _ _ _ _ Hcs Hd) as (r2 & Hy). split.
    - by apply (yields_loop_free g r2 d Hg Hl Hy).
    - by destruct (yields_subgraph g r2 d Hg Hy) as (_ & Hsub & _). }
  rewrite (runs_same f ds es runs runs' Hsame) in H2'; [| |done|done].
  2: { intros d Hd. by apply Hlaw. }
  apply (taken_same f (g_nodes g) p q (concat runs)); [apply Hr| |done|done].
  intros s Hs. apply elem_of_list_In, in_concat in Hs as (run & Hrun & Hs).
  apply elem_of_list_In in Hrun, Hs. apply elem_of_list_lookup in Hrun as (i & Hi).
  destruct (Forall2_lookup_r _ _ _ _ _ H1 Hi) as (d & Hd & r & Hhd & Hdf).
  destruct (Hlaw d) as [Hgd Hsub]; [by eapply elem_of_list_lookup_2|].
  destruct (dfs_sound _ _ _ Hgd Hdf) as (HS & _ & _). destruct (HS s Hs) as [Ha _].
  split; apply Hsub; [by eapply lawful_adj_l|by eapply (law_adj_node _ Hgd)].
Qed.

Lemma greedy_is_fun g p q : greedy_is g p -> greedy_is g q -> p = q.
Proof.
  intros (n & Hn) (m & Hm). specialize (Hn (n + m) ltac:(lia)). specialize (Hm (n + m) ltac:(lia)).
  congruence.
Qed.

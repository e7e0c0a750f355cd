(** Properties C71 (== on depth-first traversals) and C72 (the order of pair calls). *)
From Verif Require Import Outcome GraphModel TraversalModel ComponentsModel PairingModel EqualityModel
  Spec SpecAdvance GraphProofs Checks EditProofs ConvertProofs EqProofs TraversalProofs BfsProofs DfsProofs
  PairingProofs PropertiesTraversal AdvanceProofs.

(** ** Traversals *)

Lemma dfs_eq_true a t b u : dfs_eq a t b u = Ok true -> t = u /\ dg_eq a b = Ok true.
Proof.
  unfold dfs_eq. case_bool_decide; [|done]. case_bool_decide; [|done].
  intros ?. split; [|done]. destruct t, u. simpl in *. congruence.
Qed.

Lemma dfs_next_rows g h : (forall v, g_neighbors g v = g_neighbors h v) ->
  forall t, dfs_next g t = dfs_next h t.
Proof.
  intros H [V [|[p n] rest]]; unfold dfs_next; simpl; [done|]. case_bool_decide; [done|]. by rewrite H.
Qed.
Lemma dfs_collect_rows g h : (forall v, g_neighbors g v = g_neighbors h v) ->
  forall fuel t, dfs_collect fuel g t = dfs_collect fuel h t.
Proof.
  intros H. induction fuel as [|fuel IH]; intros t; [done|]. cbn [dfs_collect].
  rewrite (dfs_next_rows g h H). destruct (dfs_next h t) as [[[s|] t']| | |]; cbn [cbind]; [|done..].
  by rewrite IH.
Qed.
Lemma dfs_next_step g h t x y t1 t2 : dfs_next g t = Ok (x, t1) -> dfs_next h t = Ok (y, t2) -> x = y.
Proof.
  destruct t as [V [|[p n] rest]]; unfold dfs_next; simpl; [congruence|].
  case_bool_decide; [congruence|].
  intros (? & _ & [= <- _])%cbind_ok (? & _ & [= <- _])%cbind_ok. done.
Qed.
Lemma after_collect g r k outs t : Lawful g -> dfs_after g r k outs t ->
  exists rest n, forall calls, n <= calls -> dfs_collect calls g t = Ok rest.
Proof.
  intros Hg Ha. pose proof Ha as (t0 & Ht0 & _).
  assert (Hr : r ∈ g_nodes g).
  { rewrite dfs_new_spec in Ht0 by done. by case_bool_decide. }
  destruct (dfs_total g r Hg Hr) as (steps & Hd).
  destruct (dfs_resume g r k steps Hd) as (o' & t' & Ha' & _ & _ & n & Hn).
  destruct (dfs_after_fun _ _ _ _ _ _ _ Ha Ha') as [_ <-]. by exists (drop k steps), n.
Qed.
Lemma collect_next g t n rest : dfs_collect n g t = Ok rest -> exists t', dfs_next g t = Ok (head rest, t').
Proof.
  destruct n; [done|]. cbn [dfs_collect]. destruct (dfs_next g t) as [[[s|] t']| | |]; cbn [cbind]; [..|done|done|done].
  - intros (? & _ & [= <-])%cbind_ok. by exists t'.
  - intros [= <-]. by exists t'.
Qed.

(** C71: comparing two traversals never panics; if they are equal they have
    visited the same nodes, hold the same pending edges and traverse equal
    graphs; their next call returns the same step (or None), and if the two
    graphs list neighbors in the same order, so do all the others. *)
Theorem C71_equal_traversals_partial a b (Ha : Api a) (Hb : Api b) r k outs t r' k' outs' u :
  dfs_after (as_graph a) r k outs t -> dfs_after (as_graph b) r' k' outs' u ->
  (exists x, dfs_eq a t b u = Ok x) /\
  (dfs_eq a t b u = Ok true ->
   exists rest rest' n,
     (forall calls, n <= calls -> dfs_collect calls (as_graph a) t = Ok rest /\
                                  dfs_collect calls (as_graph b) u = Ok rest') /\
     head rest = head rest' /\
     ((forall v, g_neighbors (as_graph a) v = g_neighbors (as_graph b) v) -> rest = rest')).
Proof.
  intros Hat Hbu. split.
  { unfold dfs_eq. case_bool_decide; [|by eexists]. case_bool_decide; [|by eexists].
    apply eq_total. by apply api_wf. }
  intros [<- _]%dfs_eq_true.
  destruct (after_collect _ _ _ _ _ (api_lawful a Ha) Hat) as (rest & n & Hn).
  destruct (after_collect _ _ _ _ _ (api_lawful b Hb) Hbu) as (rest' & n' & Hn').
  exists rest, rest', (n + n'). split_and!.
  - intros calls Hc. split; [apply Hn; lia|apply Hn'; lia].
  - destruct (collect_next _ _ _ _ (Hn n ltac:(lia))) as (t1 & H1).
    destruct (collect_next _ _ _ _ (Hn' n' ltac:(lia))) as (t2 & H2).
    by eapply dfs_next_step.
  - intros Hrows. specialize (Hn (n + n') ltac:(lia)). specialize (Hn' (n + n') ltac:(lia)).
    rewrite (dfs_collect_rows _ _ Hrows) in Hn. congruence.
Qed.
Print Assumptions C71_equal_traversals_partial.

(** Equal traversals need not yield the same steps: == on the graphs ignores
    the neighbor order.  A star with center 1 listed in two orders. *)
Definition star_a : DefaultGraph := get (dg_try_from_adjacency [[1]; [0; 2; 3]; [1]; [1]]%N).
Definition star_b : DefaultGraph := get (dg_try_from_adjacency [[1]; [0; 3; 2]; [1]; [1]]%N).
Theorem C71_equal_traversals_refuted :
  exists a b t u rest rest', Api a /\ Api b /\
    dfs_new (as_graph a) 0 = Ok t /\ dfs_new (as_graph b) 0 = Ok u /\ dfs_eq a t b u = Ok true /\
    depth_first (as_graph a) 0 rest /\ depth_first (as_graph b) 0 rest' /\ rest <> rest'.
Proof.
  assert (Hu : exists t, dfs_new (as_graph star_a) 0 = Ok t /\ dfs_new (as_graph star_b) 0 = Ok t).
  { eexists. split; vm_compute; reflexivity. }
  destruct Hu as (t & H1 & H2).
  exists star_a, star_b, t, t,
    [mkStep 0 1 false; mkStep 1 2 false; mkStep 1 3 false]%N,
    [mkStep 0 1 false; mkStep 1 3 false; mkStep 1 2 false]%N.
  split; [apply get_rows_api; is_ok|]. split; [apply get_rows_api; is_ok|].
  split; [done|]. split; [done|]. split.
  { unfold dfs_eq. rewrite !bool_decide_eq_true_2 by done. vm_compute. reflexivity. }
  split; [run_dfs|]. split; [run_dfs|done].
Qed.
Print Assumptions C71_equal_traversals_refuted.
Example C71_case : exists outs t u,
  dfs_after (as_graph star_a) 0 1 outs t /\ dfs_after (as_graph star_a) 2 0 [] u /\
  dfs_eq star_a t star_a u = Ok false /\ dfs_eq star_a t star_a t = Ok true.
Proof.
  eexists _, _, _. split; [eexists; split; vm_compute; reflexivity|].
  split; [eexists; split; vm_compute; reflexivity|].
  split; vm_compute; reflexivity.
Qed.

(** ** Pairings *)

(** C72: the order of disjoint pair calls, and of their arguments, does not
    matter: the pairings are ==, whatever the order in which the hash map is
    iterated. *)
Theorem C72_pair_order_irrelevant pairs pairs' L :
  L ≡ₚ map_to_list (pair_all pairs) ->
  NoDup (endpoints pairs) -> NoDup (endpoints pairs') ->
  (forall u v, (u, v) ∈ pairs \/ (v, u) ∈ pairs <-> (u, v) ∈ pairs' \/ (v, u) ∈ pairs') ->
  p_eq L (pair_all pairs) (pair_all pairs') = true.
Proof.
  assert (Hl : forall ps, NoDup (endpoints ps) -> forall u v,
    pair_all ps !! u = Some v <-> (u, v) ∈ ps \/ (v, u) ∈ ps).
  { induction ps as [|[a b] ps IH] using rev_ind; intros Hnd u v.
    { unfold pair_all, p_new. cbn. rewrite lookup_empty, elem_of_nil. set_solver. }
    unfold endpoints in Hnd. rewrite bind_app in Hnd. apply NoDup_app in Hnd as (Hnd & Hdis & Hab).
    fold (endpoints ps) in Hnd, Hdis. cbn in Hab.
    assert (Hne : a <> b) by (apply NoDup_cons in Hab as [Hab _]; set_solver).
    assert (Hin : forall x y, (x, y) ∈ ps -> x ∈ endpoints ps /\ y ∈ endpoints ps).
    { intros x y Hxy. split; apply elem_of_endpoints; exists (x, y); simpl; auto. }
    assert (Hfresh : forall x, x ∈ endpoints ps -> x <> a /\ x <> b).
    { intros x Hx. specialize (Hdis x Hx). cbn in Hdis. set_solver. }
    assert (Hsym : symmetric_pairing (pair_all ps)).
    { intros x y Hxy. apply (IH Hnd) in Hxy. split; [apply (IH Hnd); tauto|].
      clear -Hxy Hnd. intros ->. assert (Hyy : (y, y) ∈ ps) by tauto.
      apply elem_of_list_split in Hyy as (l1 & l2 & ->). unfold endpoints in Hnd.
      rewrite bind_app in Hnd. apply NoDup_app in Hnd as (_ & _ & Hnd). cbn in Hnd.
      apply NoDup_cons in Hnd as [Hnd _]. set_solver. }
    unfold pair_all. rewrite foldl_app. cbn [foldl fst snd]. fold (pair_all ps).
    rewrite pair_lookup by done. rewrite !elem_of_app, !elem_of_list_singleton.
    case_bool_decide as H1; [|case_bool_decide as H2; [|case_bool_decide as H3]].
    - subst u. split; [intros [= <-]; tauto|].
      intros [[Hx|[= ->]]|[Hx|[= -> ->]]]; try done.
      + apply Hin in Hx as [Hx _]. apply Hfresh in Hx. tauto.
      + apply Hin in Hx as [_ Hx]. apply Hfresh in Hx. tauto.
    - subst u. split; [intros [= <-]; tauto|].
      intros [[Hx|[= -> ->]]|[Hx|[= ->]]]; try done.
      + apply Hin in Hx as [Hx _]. apply Hfresh in Hx. tauto.
      + apply Hin in Hx as [_ Hx]. apply Hfresh in Hx. tauto.
    - exfalso. assert (Hw : exists w, (w = a \/ w = b) /\ w ∈ endpoints ps).
      { destruct H3 as [H3|H3]; apply (IH Hnd) in H3 as [H3|H3]; apply Hin in H3 as [H4 H5]; eauto. }
      destruct Hw as (w & Hw & Hwe). apply Hfresh in Hwe. naive_solver.
    - rewrite (IH Hnd). split; [tauto|].
      intros [[Hx|[= -> ->]]|[Hx|[= -> ->]]]; tauto. }
  intros HL H1 H2 Hsame. apply (p_eq_iff _ _ L HL), map_eq. intros x. apply option_eq.
  intros y. rewrite (Hl _ H1), (Hl _ H2). apply Hsame.
Qed.
Print Assumptions C72_pair_order_irrelevant.
Example C72_case :
  let p := pair_all [(1, 2); (3, 4)]%N in
  NoDup (endpoints [(1, 2); (3, 4)]%N) /\ NoDup (endpoints [(4, 3); (1, 2)]%N) /\
  p_eq (map_to_list p) p (pair_all [(4, 3); (1, 2)]%N) = true /\
  p_eq (map_to_list p) p (pair_all [(1, 2); (3, 4); (1, 5)]%N) = false.
Proof.
  split; [apply (bool_decide_unpack _); vm_compute; exact I|].
  split; [apply (bool_decide_unpack _); vm_compute; exact I|].
  split_and!; vm_compute; reflexivity.
Qed.

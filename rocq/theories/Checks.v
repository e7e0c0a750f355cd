(** Boolean checkers, used only to show that concrete graphs meet the
    hypotheses of the theorems. *)
From Verif Require Import Outcome GraphModel TraversalModel ComponentsModel PairingModel Spec GraphProofs.

(** The graph in a successful result (only applied to successful results). *)
Definition get (m : comp DefaultGraph) : DefaultGraph :=
  match m with Ok d => d | _ => dg_new end.

Lemma get_edges_api es : (exists d, dg_try_from_edges es = Ok d) -> Api (get (dg_try_from_edges es)).
Proof. intros [d E]. rewrite E. by eapply api_edges. Qed.

Lemma get_rows_api rows : (exists d, dg_try_from_adjacency rows = Ok d) ->
  Api (get (dg_try_from_adjacency rows)).
Proof. intros [d E]. rewrite E. by eapply api_adjacency. Qed.

Ltac is_ok := eexists; vm_compute; reflexivity.

Definition loop_free_b (d : DefaultGraph) : bool :=
  forallb (fun v => negb (bool_decide (v ∈ row d v))) (dg_nodes d).
Definition loops_listed_b (d : DefaultGraph) : bool :=
  forallb (fun v => negb (bool_decide (v ∈ row d v)) || bool_decide ((v, v) ∈ dg_edges d))
    (dg_nodes d).

Lemma loop_free_check d : Api d -> loop_free_b d = true -> LoopFree (as_graph d).
Proof.
  intros Ha H v. pose proof (wf_idx d (api_wf d Ha)) as Hi. rewrite adj_row by done. intros Hv.
  unfold loop_free_b in H. rewrite forallb_forall in H.
  specialize (H v). rewrite <-elem_of_list_In in H.
  rewrite bool_decide_eq_true_2 in H by done. simpl in H.
  discriminate H. by eapply row_in.
Qed.

Lemma loops_listed_check d : Api d -> loops_listed_b d = true -> LoopsListed (as_graph d).
Proof.
  intros Ha H v. pose proof (wf_idx d (api_wf d Ha)) as Hi. rewrite adj_row by done. intros Hv.
  unfold loops_listed_b in H. rewrite forallb_forall in H.
  specialize (H v). rewrite <-elem_of_list_In in H.
  rewrite bool_decide_eq_true_2 in H by done. simpl in H.
  apply bool_decide_eq_true in H; [done|]. by eapply row_in.
Qed.

(** A graph is a forest if, in some ranking of the nodes, no node has two
    neighbors of lower or equal rank. *)
Definition forest_b (d : DefaultGraph) : bool :=
  forallb (fun v => length (filter (fun w => (w <= v)%N) (row d v)) <=? 1) (dg_nodes d).

Lemma two_elem_length (l : list N) a b : a ∈ l -> b ∈ l -> a <> b -> 2 <= length l.
Proof.
  intros Ha Hb Hab. destruct l as [|x [|y l]]; simpl; [by apply elem_of_nil in Ha| |lia].
  apply elem_of_list_singleton in Ha, Hb. congruence.
Qed.

Lemma forest_check d : Api d -> loop_free_b d = true -> forest_b d = true -> Acyclic (as_graph d).
Proof.
  intros Ha Hlf Hf. split; [by apply loop_free_check|].
  pose proof (wf_idx d (api_wf d Ha)) as Hi. pose proof (api_lawful d Ha) as Hg.
  intros c (Hlen & Hnd & Hp & a & b & Hh & Hl & Hab).
  (* an element of largest rank *)
  assert (exists i m, c !! i = Some m /\ forall x, x ∈ c -> (x <= m)%N) as (i & m & Hm & Hmax).
  { clear -Hlen. assert (c <> []) by (destruct c; simpl in *; [lia|done]). clear Hlen.
    induction c as [|x c IH]; [done|]. destruct (decide (c = [])) as [->|Hne].
    - exists 0, x. split; [done|]. intros y ->%elem_of_list_singleton. lia.
    - destruct (IH Hne) as (i & m & Hi & Hm). destruct (decide (x <= m)%N).
      + exists (S i), m. split; [done|]. intros y [->|Hy]%elem_of_cons; auto.
      + exists 0, x. split; [done|]. intros y [->|Hy]%elem_of_cons; [lia|].
        specialize (Hm y Hy). lia. }
  pose proof (lookup_lt_Some _ _ _ Hm) as Hilt.
  assert (Hlook : forall j x k y, c !! j = Some x -> c !! k = Some y -> j <> k -> x <> y).
  { intros j x k y Hx Hy Hjk ->. apply Hjk. by eapply NoDup_lookup. }
  assert (Hlast : c !! (length c - 1) = Some b).
  { rewrite last_lookup in Hl. by replace (pred (length c)) with (length c - 1) in Hl by lia. }
  assert (Hfirst : c !! 0 = Some a) by (by destruct c).
  assert (exists u w, u ∈ c /\ w ∈ c /\ u <> w /\ adj (as_graph d) m u /\ adj (as_graph d) m w)
    as (u & w & Hu & Hw & Huw & Hmu & Hmw).
  { destruct (decide (i = 0)) as [->|Hi0].
    - destruct (lookup_lt_is_Some_2 c 1) as [x Hx]; [lia|].
      assert (m = a) as -> by congruence.
      exists b, x. split_and!; [by eapply elem_of_list_lookup_2..| | |].
      + eapply Hlook; [done|done|lia].
      + by apply law_adj_sym.
      + by apply (Hp 0 a x).
    - destruct (lookup_lt_is_Some_2 c (i - 1)) as [x Hx]; [lia|].
      assert (Hxm : adj (as_graph d) x m).
      { apply (Hp (i - 1) x m); [done|]. by replace (S (i - 1)) with i by lia. }
      destruct (decide (i = length c - 1)) as [->|Hil].
      + assert (m = b) as -> by congruence.
        exists x, a. split_and!; [by eapply elem_of_list_lookup_2..| | |].
        * eapply Hlook; [done|done|lia].
        * by apply law_adj_sym.
        * done.
      + destruct (lookup_lt_is_Some_2 c (S i)) as [y Hy]; [lia|].
        exists x, y. split_and!; [by eapply elem_of_list_lookup_2..| | |].
        * eapply Hlook; [done|done|lia].
        * by apply law_adj_sym.
        * by apply (Hp i m y). }
  apply adj_row in Hmu; [|done]. apply adj_row in Hmw; [|done].
  unfold forest_b in Hf. rewrite forallb_forall in Hf.
  assert (Hmn : m ∈ dg_nodes d) by (by eapply row_in).
  specialize (Hf m). rewrite <-elem_of_list_In, Nat.leb_le in Hf. specialize (Hf Hmn).
  assert (2 <= length (filter (fun w => (w <= m)%N) (row d m))); [|lia].
  apply (two_elem_length _ u w); [apply elem_of_list_filter; auto..|done].
Qed.

(** A graph is bipartite if coloring by [color] works on every edge. *)
Definition bipartite_b (color : N -> bool) (d : DefaultGraph) : bool :=
  forallb (fun v => forallb (fun w => negb (Bool.eqb (color v) (color w))) (row d v)) (dg_nodes d).

Lemma bipartite_check color d : Api d -> bipartite_b color d = true -> Bipartite (as_graph d).
Proof.
  intros Ha H. pose proof (wf_idx d (api_wf d Ha)) as Hi. exists color. intros u v.
  rewrite adj_row by done. intros Hv Heq. unfold bipartite_b in H. rewrite forallb_forall in H.
  specialize (H u). rewrite <-elem_of_list_In, forallb_forall in H.
  specialize (H ltac:(by eapply row_in) v). rewrite <-elem_of_list_In in H. specialize (H Hv).
  by rewrite Heq, Bool.eqb_reflx in H.
Qed.

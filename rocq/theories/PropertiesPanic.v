(** Property C85: what a panic leaves behind. *)
From Verif Require Import Outcome GraphModel TraversalModel ComponentsModel PairingModel
  Spec SpecAdvance SpecPanic GraphProofs Checks EditProofs ConvertProofs EqProofs TraversalProofs BfsProofs DfsProofs
  LoopProofs AdvanceProofs PairingProofs MatchTheory MaximumModel PanicModel MaximumProofs ClassChecks PanicProofs
  PropertiesGraph PropertiesTraversal PropertiesMatching PropertiesAdvance.

(** The model that keeps the caller's value and the one that does not agree, call
    by call, on every graph and pairing. *)
Theorem C85_same_outcome iter tag fuel g p c :
  maximum_matching iter tag fuel g p =
    match maximum_matching_left iter tag fuel g p with
    | (q, Ok _) => Ok q | (_, Err e) => Err e | (_, Panic e) => Panic e | (_, NoFuel) => NoFuel
    end /\
  c_next fuel g c =
    match c_next_left fuel g c with
    | (c', Ok o) => Ok (o, c') | (_, Err e) => Err e | (_, Panic e) => Panic e | (_, NoFuel) => NoFuel
    end.
Proof.
  split; [apply mm_left_same|]. rewrite c_next_left_same. by destruct (c_next_left fuel g c) as [c' []].
Qed.
Print Assumptions C85_same_outcome.

(** [augment] on a path with an odd number of nodes panics and changes nothing. *)
Theorem C85_augment_unchanged p path :
  Nat.odd (length path) = true -> p_augment_left p path = (p, Panic PEvenPath).
Proof. intros H. unfold p_augment_left. by rewrite H. Qed.
Print Assumptions C85_augment_unchanged.

(** C85.  If maximum_matching panics, the pairing it was given is left in a
    valid state: all its pairs are edges of the graph and no node has two mates;
    it is the result of the augmentations made so far.  Calling again with it,
    with whatever hash iteration order, panics again in the same way and changes
    nothing. *)
Theorem C85_panic_leaves_matching g (Hg : Lawful g) iter (Hit : hash_order_ok iter)
    p (Hp : pairing_of g p) e :
  matching_run iter g p (Panic e) ->
  exists q, leaves iter g p q (Panic e) /\ pairing_of g q /\
    (exists paths, rounds iter g p paths q) /\
    (forall M, listed_edges q M -> matching g M) /\
    forall iter', hash_order_ok iter' -> leaves iter' g q q (Panic e).
Proof.
  intros Hrun. apply (run_panic g Hg iter Hit p e Hp) in Hrun as (paths & q & Hr & Hwhy).
  assert (Hq : pairing_of g q) by (by eapply rounds_pairing).
  exists q. split_and!.
  - destruct (left_panic g Hg iter Hit p paths q e Hp Hr Hwhy) as [n Hn].
    split; [done|]. exists n. intros fuel Hf. by apply Hn.
  - done.
  - by exists paths.
  - intros M (L & HL & ->). exact (pairing_matching g q L Hq HL).
  - intros iter' Hit'.
    assert (HA : forall fuel tag, augmenting_path iter tag fuel g q = augmenting_path iter' tag fuel g q).
    { intros fuel tag. by apply ap_indep. }
    destruct (left_panic g Hg iter' Hit' q [] q e Hq (rounds_none _ _ _)) as [n Hn].
    { destruct Hwhy as [[n Hn]|(path & [n Hn] & Ha)]; [left|right; exists path; split; [|done]];
        exists n; intros fuel tag Hf; rewrite <-HA; auto. }
    split; [done|]. exists n. intros fuel Hf. by apply Hn.
Qed.
Print Assumptions C85_panic_leaves_matching.

(** The iterator of [components] can be used after a panic: what it goes on to
    yield is given by [resumes], and then [None] for ever.  There are no more
    results than nodes; every node is in a graph yielded, or the traversal from
    that node itself crosses a self-loop twice; so the components in which no
    node lists itself twice are not affected. *)
Theorem C85_components_resume g (Hg : Lawful g) :
  exists outs, resumes g [] (g_nodes g) outs /\
    (forall k, exists n, forall fuel, n <= fuel ->
       c_advance_left fuel k g (components g) =
       take k (call_result <$> outs) ++ replicate (k - length outs) (Ok None)) /\
    length outs <= g_order g /\
    (forall v, v ∈ g_nodes g ->
       (exists d, inl d ∈ outs /\ v ∈ g_nodes (as_graph d)) \/
       (exists steps x, depth_first g v steps /\ crossed_again steps x)) /\
    (forall v, v ∈ g_nodes g -> (forall x, reachable g v x -> own_entries g x <= 1) ->
       exists d, inl d ∈ outs /\ v ∈ g_nodes (as_graph d)).
Proof.
  destruct (components_resume g Hg (g_nodes g) [] ∅) as (outs & n & Hs & Ha); [done|set_solver|].
  assert (Hcov : forall v, v ∈ g_nodes g ->
       (exists d, inl d ∈ outs /\ v ∈ g_nodes (as_graph d)) \/
       (exists steps x, depth_first g v steps /\ crossed_again steps x)).
  { intros v Hv. destruct (resumes_covers g [] _ outs Hs v Hv) as [?%elem_of_nil|?]; done. }
  exists outs. split_and!.
  - done.
  - intros k. exists n. intros fuel Hf. by apply Ha.
  - rewrite (law_order g Hg). by eapply resumes_length.
  - done.
  - intros v Hv Hone. destruct (Hcov v Hv) as [?|(steps & x & Hd & Hx)]; [done|]. exfalso.
    pose proof (crossed_again_twice steps x Hx) as H2.
    destruct (C23_depth_first_sound g Hg v steps Hd) as [Hsound _].
    destruct Hx as (pre & s & post & -> & Hs1 & Hs2 & _).
    destruct (Hsound s) as (_ & Hreach & _); [set_solver|]. rewrite Hs1 in Hreach.
    specialize (Hone x Hreach). destruct (dfs_loops g v _ Hg Hd x) as [Hle _]. lia.
Qed.
Print Assumptions C85_components_resume.

(** The 6-node graph of C40: two pairs are left. *)
Example C85_case iter (Hit : hash_order_ok iter) : let g := as_graph panics in
  Lawful g /\ pairing_of g p_new /\ matching_run iter g p_new (Panic PEvenPath) /\
  map_to_list (maximum_matching_left canon [] 30 g p_new).1 = [(1, 3); (3, 1); (2, 4); (4, 2)]%N.
Proof.
  intros g. assert (Hg : Lawful g) by apply api_lawful, panics_api.
  split; [done|]. split; [apply empty_pairing|]. split; [a_run|]. vm_compute. reflexivity.
Qed.

(** Edges 0-1 with a self-loop at 1, 2-3, and 4 with a self-loop: the calls
    panic, panic, yield {2,3}, panic, and end. *)
Definition bumpy : DefaultGraph := get (dg_try_from_edges [(0, 1); (1, 1); (2, 3); (4, 4)]%N).
Lemma bumpy_api : Api bumpy. Proof. apply get_edges_api; is_ok. Qed.
Example C85_case_components : Lawful (as_graph bumpy) /\
  map (fun r : comp (option DefaultGraph) =>
         match r with Ok o => Ok (option_map dg_nodes o) | Err e => Err e | Panic e => Panic e | NoFuel => NoFuel end)
    (c_advance_left 50 6 (as_graph bumpy) (components (as_graph bumpy))) =
  [Panic (PUnwrap (DuplicateEdge 1 1)); Panic (PUnwrap (DuplicateEdge 1 1)); Ok (Some [2; 3]);
   Panic (PUnwrap (DuplicateEdge 4 4)); Ok None; Ok None]%N.
Proof. split; [apply api_lawful, bumpy_api|]. vm_compute. reflexivity. Qed.

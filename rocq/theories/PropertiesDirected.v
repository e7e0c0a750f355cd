(** Property C84: implementations of [Graph] that obey no law, one-way edges in
    particular. *)
From Verif Require Import Outcome GraphModel TraversalModel ComponentsModel PairingModel
  Spec SpecDirected GraphProofs Checks EditProofs ConvertProofs EqProofs TraversalProofs BfsProofs BfsOrder
  DfsProofs DirectedProofs PropertiesTraversal.

(** C84.  [Graph] is a public trait and nothing makes an implementation list
    neighbors both ways.  Whatever the implementation does, a breadth-first
    traversal that comes to its end has discovered exactly the nodes that can be
    reached along edges as listed by [neighbors], each once, in order of
    distance, the non-cut steps forming a shortest-path tree; the order is the
    one of C56, the cut flags are exact, and [neighbors] has succeeded on all of
    them. *)
Theorem C84_breadth_first_any g r steps :
  breadth_first g r steps ->
  answers g r /\
  NoDup (discovered r steps) /\
  (forall v, v ∈ discovered r steps <-> reachable g r v) /\
  (forall s, s ∈ steps -> adj g (sid s) (tid s)) /\
  cut_exact r steps /\
  crossed steps = level_order g [] (discovered r steps) /\
  (forall i j u v du dv, i <= j ->
     discovered r steps !! i = Some u -> discovered r steps !! j = Some v ->
     distance g r u du -> distance g r v dv -> du <= dv) /\
  (forall s d, s ∈ steps -> cut s = false -> distance g r (sid s) d ->
     distance g r (tid s) (S d)).
Proof.
  intros Hb. destruct (bfs_any g r steps Hb) as (V & HI & HC & (L & k & HL & _ & _ & _ & _ & Hd & Ht) & HO).
  assert (Hr : r ∈ V) by (apply (oi_disc _ _ _ _ _ HI); left).
  pose proof (ocovers_closed g V r Hr HC) as Hall.
  assert (HLd : forall v, v ∈ discovered r steps -> distance g r v (L v)).
  { intros v Hv. apply HL. by apply (oi_disc _ _ _ _ _ HI). }
  split_and!.
  - intros v Hv. by apply (oi_ok _ _ _ _ _ HI), Hall.
  - apply (oi_nodup _ _ _ _ _ HI).
  - intros v. rewrite <-(oi_disc _ _ _ _ _ HI). split; [apply (oi_reach _ _ _ _ _ HI)|apply Hall].
  - intros s Hs. by apply (oi_emit _ _ _ _ _ HI).
  - apply (oi_cut _ _ _ _ _ HI).
  - done.
  - intros i j u v du dv Hij Hi Hj Hu Hv.
    rewrite (distance_fun g r u du (L u) Hu) by (apply HLd; by eapply elem_of_list_lookup_2).
    rewrite (distance_fun g r v dv (L v) Hv) by (apply HLd; by eapply elem_of_list_lookup_2).
    eapply (StronglySorted_lookup _ i j); [exact Hd|..|done].
    + by rewrite list_lookup_fmap, Hi.
    + by rewrite list_lookup_fmap, Hj.
  - intros s d Hs Hc Hds. destruct (oi_emit _ _ _ _ _ HI s Hs) as (_ & ? & ?).
    rewrite (distance_fun g r (sid s) d (L (sid s)) Hds) by (by apply HL).
    rewrite <-(Ht s Hs Hc). by apply HL.
Qed.
Print Assumptions C84_breadth_first_any.

(** It does come to its end exactly when [neighbors] succeeds on every node that
    can be reached (finitely many); otherwise it panics with the error of one
    that can be reached, or creating it fails with the error of the root. *)
Theorem C84_breadth_first_outcome g r (Hf : finite_reach g r) (Hp : polite g r) :
  ((exists steps, breadth_first g r steps) <-> answers g r) /\
  (~ answers g r -> (exists e, bfs_new g r = Err e /\ g_neighbors g r = Err e) \/
     exists v e, reachable g r v /\ g_neighbors g v = Err e /\ breadth_first_panics g r e).
Proof.
  assert (Hreturns : answers g r -> exists steps, breadth_first g r steps).
  { intros Ha. destruct (Ha r (rtc_refl _ _)) as [l Hl].
    destruct (bfs_outcome g r l Hf Hp Hl) as [?|(v & e & Hv & He & _)]; [done|].
    destruct (Ha v Hv) as [l' Hl']. congruence. }
  split; [split; [|done]|].
  - intros [steps Hb]. apply (C84_breadth_first_any g r steps Hb).
  - intros Hna. pose proof (Hp r (rtc_refl _ _)) as Ht.
    destruct (g_neighbors g r) as [l|e|p|] eqn:Hl; [|left|done..].
    + right. destruct (bfs_outcome g r l Hf Hp Hl) as [[steps Hb]|?]; [|done].
      destruct Hna. apply (C84_breadth_first_any g r steps Hb).
    + exists e. split; [|done]. unfold bfs_new. by rewrite Hl.
Qed.
Print Assumptions C84_breadth_first_outcome.

(** A depth-first traversal comes to its end as well when [neighbors] succeeds
    everywhere; it discovers only nodes that can be reached, each once; its steps
    are edges and its cut flags are exact. *)
Theorem C84_depth_first_any g r :
  (finite_reach g r -> answers g r -> exists steps, depth_first g r steps) /\
  (finite_reach g r -> polite g r -> (exists steps, depth_first g r steps) \/
     (exists e, dfs_new g r = Err e /\ g_neighbors g r = Err e) \/
     exists v e, reachable g r v /\ g_neighbors g v = Err e /\ depth_first_panics g r e) /\
  forall steps, depth_first g r steps ->
    NoDup (discovered r steps) /\
    (forall v, v ∈ discovered r steps -> reachable g r v) /\
    (forall s, s ∈ steps -> adj g (sid s) (tid s)) /\
    cut_exact r steps.
Proof.
  split_and!.
  - intros Hf Ha. destruct (Ha r (rtc_refl _ _)) as [l Hl].
    assert (Hp : polite g r) by (intros v Hv; by destruct (Ha v Hv) as [? ->]).
    destruct (dfs_outcome g r l Hf Hp Hl) as [?|(v & e & Hv & He & _)]; [done|].
    destruct (Ha v Hv) as [l' Hl']. congruence.
  - intros Hf Hp. pose proof (Hp r (rtc_refl _ _)) as Ht.
    destruct (g_neighbors g r) as [l|e|p|] eqn:Hl; [|right; left|done..].
    + destruct (dfs_outcome g r l Hf Hp Hl); eauto.
    + exists e. split; [|done]. unfold dfs_new. by rewrite Hl.
  - intros steps Hd. destruct (dfs_ends g r (fun _ _ _ => True) steps) as (V & HI & _); [done..|].
    split_and!.
    + apply (oi_nodup _ _ _ _ _ HI).
    + intros v Hv. apply (oi_reach _ _ _ _ _ HI). by apply (oi_disc _ _ _ _ _ HI).
    + intros s Hs. by apply (oi_emit _ _ _ _ _ HI).
    + apply (oi_cut _ _ _ _ _ HI).
Qed.
Print Assumptions C84_depth_first_any.

(** And if no cycle of one-way edges can be reached, it discovers all of them,
    in the order of textbook depth-first search: the defect behind C24 needs a
    cycle. *)
Theorem C84_depth_first_one_way g r steps (Ho : one_way g r) :
  depth_first g r steps ->
  (forall v, v ∈ discovered r steps <-> reachable g r v) /\
  exists l found, g_neighbors g r = Ok l /\ search g [r] l found /\ discovered r steps = r :: found.
Proof.
  intros Hd. split; [|by apply dfs_one_way].
  intros v. split; [|by apply dfs_one_way_all].
  intros Hv. destruct (C84_depth_first_any g r) as (_ & _ & H). by apply (H steps Hd).
Qed.
Print Assumptions C84_depth_first_one_way.

(** 0 to 1, 2 and 3; 1 to 3; 2 to 1 and 3; 3 to 4: an implementation of [Graph]
    given by its neighbor function. *)
Definition arrows (rows : list (list N)) : Graph := {|
  g_is_empty := match rows with [] => true | _ => false end;
  g_order := length rows;
  g_size := length (mjoin rows);
  g_nodes := N.of_nat <$> seq 0 (length rows);
  g_neighbors v := match rows !! N.to_nat v with Some l => Ok l | None => Err (MissingNode v) end;
  g_has_node v := bool_decide (N.to_nat v < length rows);
  g_degree v := match rows !! N.to_nat v with Some l => Ok (length l) | None => Err (MissingNode v) end;
  g_edges := [];
  g_has_edge u v := match rows !! N.to_nat u with
    Some l => Ok (bool_decide (v ∈ l)) | None => Err (MissingNode u) end
|}.
Definition dag5 : Graph := arrows [[1; 2; 3]; [3]; [1; 3]; [4]; []]%N.

Lemma arrows_adj rows u v : adj (arrows rows) u v ->
  exists l, rows !! N.to_nat u = Some l /\ v ∈ l.
Proof. intros (l & Hl & Hv). simpl in Hl. destruct (rows !! N.to_nat u); [|done]. simplify_eq. eauto. Qed.

Lemma arrows_closed (rows : list (list N)) u v : Forall (Forall (fun x => N.to_nat x < length rows)) rows ->
  N.to_nat u < length rows -> reachable (arrows rows) u v -> N.to_nat v < length rows.
Proof.
  intros HF Hu Hr. induction Hr as [|x y z (l & Hl & Hy)%arrows_adj _ IH]; [done|]. apply IH.
  rewrite Forall_lookup in HF. specialize (HF _ _ Hl). rewrite Forall_forall in HF. by apply HF.
Qed.

(** Along the rank 0, 2, 1, 3, 4 every arrow goes up. *)
Lemma dag5_up u v : reachable dag5 u v ->
  let rank x := (match x with 1 => 2 | 2 => 1 | x => x end)%N in (rank u <= rank v)%N.
Proof.
  intros Hr. cbv zeta. induction Hr as [|x y z (l & Hl & Hy)%arrows_adj _ IH]; [done|].
  etrans; [|exact IH]. clear IH.
  destruct (N.to_nat x) as [|[|[|[|[|?]]]]] eqn:Hx; simpl in Hl; simplify_eq;
    (assert (x = N.of_nat (N.to_nat x)) as -> by (by rewrite N2Nat.id)); rewrite Hx; simpl in *;
    repeat (apply elem_of_cons in Hy as [->|Hy]; [simpl; lia|]); by apply elem_of_nil in Hy.
Qed.

Example C84_case :
  finite_reach dag5 0 /\ answers dag5 0 /\ one_way dag5 0 /\ ~ Lawful dag5 /\
  breadth_first dag5 0 [mkStep 0 1 false; mkStep 0 2 false; mkStep 0 3 false; mkStep 1 3 true; mkStep 2 3 true; mkStep 3 4 false]%N /\
  depth_first dag5 0 [mkStep 0 1 false; mkStep 1 3 false; mkStep 3 4 false; mkStep 0 2 false; mkStep 2 1 true; mkStep 2 3 true; mkStep 0 3 true]%N.
Proof.
  assert (Hcl : forall v, reachable dag5 0 v -> N.to_nat v < 5).
  { intros v Hv. apply (arrows_closed [[1; 2; 3]; [3]; [1; 3]; [4]; []]%N 0 v); [|simpl; lia|done].
    repeat constructor. }
  split_and!.
  - exists [0; 1; 2; 3; 4]%N. intros v Hv%Hcl.
    assert (v = N.of_nat (N.to_nat v)) as -> by (by rewrite N2Nat.id).
    destruct (N.to_nat v) as [|[|[|[|[|?]]]]]; [set_solver..|lia].
  - intros v Hv%Hcl. simpl. destruct (N.to_nat v) as [|[|[|[|[|?]]]]]; simpl; [eauto..|lia].
  - intros u v _ Ha Hr%dag5_up. cbv zeta in Hr. destruct (arrows_adj _ _ _ Ha) as (l & Hl & Hv).
    destruct (N.to_nat u) as [|[|[|[|[|?]]]]] eqn:Hx; simpl in Hl; simplify_eq;
      (assert (u = N.of_nat (N.to_nat u)) as Hu by (by rewrite N2Nat.id)); rewrite Hx in Hu; simpl in *; subst u;
      repeat (apply elem_of_cons in Hv as [->|Hv]; [simpl in Hr; lia|]); by apply elem_of_nil in Hv.
  - intros Hg. assert (Ha : adj dag5 0 1) by (exists [1; 2; 3]%N; split; [done|left]).
    apply (law_adj_sym _ Hg) in Ha as (l & Hl & Hv). simpl in Hl. simplify_eq. set_solver.
  - run_bfs.
  - run_dfs.
Qed.

(** A neighbor function that names a node it then rejects; the arrows
    0 to 1 and 3; 1 to 2; 2 to 0, with a cycle: depth first never reaches 3. *)
Example C84_case_panic : polite (arrows [[1]; [7]]%N) 0 /\ (~ answers (arrows [[1]; [7]]%N) 0) /\
  breadth_first_panics (arrows [[1]; [7]]%N) 0 (MissingNode 7).
Proof.
  split_and!.
  - intros v _. simpl. by destruct (_ !! _).
  - intros Ha. destruct (Ha 7%N) as [l Hl]; [|done].
    eapply rtc_l; [exists [1]%N; split; [done|left]|].
    eapply rtc_l; [exists [7]%N; split; [done|left]|apply rtc_refl].
  - eexists _, 4. split; [done|]. intros [|[|[|[|fuel]]]] Hf; [lia..|]. vm_compute. reflexivity.
Qed.
Theorem C84_depth_first_cycle_sharp :
  exists g r steps, finite_reach g r /\ answers g r /\ depth_first g r steps /\
    exists v, reachable g r v /\ v ∉ discovered r steps.
Proof.
  exists (arrows [[1; 3]; [2]; [0]; []]%N), 0%N, [mkStep 0 1 false; mkStep 1 2 false; mkStep 2 0 true]%N.
  assert (Hcl : forall v, reachable (arrows [[1; 3]; [2]; [0]; []]%N) 0 v -> N.to_nat v < 4).
  { intros v Hv. apply (arrows_closed [[1; 3]; [2]; [0]; []]%N 0 v); [|simpl; lia|done].
    repeat constructor. }
  split_and!.
  - exists [0; 1; 2; 3]%N. intros v Hv%Hcl.
    assert (v = N.of_nat (N.to_nat v)) as -> by (by rewrite N2Nat.id).
    destruct (N.to_nat v) as [|[|[|[|?]]]]; [set_solver..|lia].
  - intros v Hv%Hcl. simpl. destruct (N.to_nat v) as [|[|[|[|?]]]]; simpl; [eauto..|lia].
  - run_dfs.
  - exists 3%N. split; [|vm_compute; set_solver].
    apply rtc_once. exists [1; 3]%N. split; [done|set_solver].
Qed.
Print Assumptions C84_depth_first_cycle_sharp.

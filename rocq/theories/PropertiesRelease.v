(** Property C59: builds without overflow checks. *)
From Verif Require Import Outcome GraphModel TraversalModel ComponentsModel PairingModel GreedyModel
  Spec GraphProofs Checks EditProofs TraversalProofs BfsProofs DfsProofs PathLemmas AcyclicProofs
  ComponentsProofs PairingProofs GreedyProofs MatchTheory MaximumModel ReleaseModel ForestProofs
  BlossomProofs ContractProofs LiftProofs TameProofs MaximumProofs ReleaseProofs ClassChecks
  PropertiesMatching.

(** A triangle 1-2-MAX with node 0 hanging from it. *)
Definition wraps : DefaultGraph :=
  get (dg_try_from_edges [(1, 2); (1, usize_max); (2, 0); (2, usize_max)]%N).
Lemma wraps_api : Api wraps. Proof. apply get_edges_api; is_ok. Qed.

Lemma release_canon g p m iter : Lawful g -> pairing_of g p -> hash_order_ok iter ->
  maximum_matching_release canon [] 100 g p = m -> m <> NoFuel -> release_run iter g p m.
Proof.
  intros Hg Hp Hit E Hne. split; [done|].
  destruct (mm_settles_release g 100 canon [] p Hg canon_ok Hp) as [n Hn]; [by rewrite E|].
  exists n. intros fuel Hf. rewrite <-E. by apply Hn.
Qed.

(** Whatever is returned is a maximum matching. *)
Theorem C59_release_maximum g (Hg : Lawful g) iter (Hit : hash_order_ok iter) p (Hp : pairing_of g p) q :
  release_run iter g p (Ok q) ->
  pairing_of g q /\ forall M, listed_edges q M -> maximum g M /\ p_order q = 2 * length M.
Proof.
  intros (_ & n & Hn). pose proof (mm_post_release g n iter [] p Hg Hit Hp) as H.
  rewrite (Hn n) in H by lia. destruct H as (Hq & O & Cs & Hc). split; [done|].
  intros M (L & HL & ->). split; [by eapply cert_maximum|]. by apply p_edges_length; [apply Hq|].
Qed.
Print Assumptions C59_release_maximum.
(** The id of the contracted triangle wraps to 0, a node of the triangle, and
    the answer is right. *)
Example C59_case iter (Hit : hash_order_ok iter) : let g := as_graph giant in
  Lawful g /\ pairing_of g p_new /\ matching_run iter g p_new (Panic POverflow) /\
  release_run iter g p_new (Ok (pair_all [(0, 1)]%N)).
Proof.
  intros g. assert (Hg : Lawful g) by apply api_lawful, giant_api.
  split; [done|]. split; [apply empty_pairing|]. split; [a_run|].
  apply release_canon; [done|apply empty_pairing|done|apply ends_ok; vm_compute; reflexivity|discriminate].
Qed.

(** It fails only as the checked build does, except that an overflow may turn
    into a complaint about a second node 0. *)
Theorem C59_release_failures g (Hg : Lawful g) iter (Hit : hash_order_ok iter) p (Hp : pairing_of g p) m :
  release_run iter g p m ->
  (exists q, m = Ok q) \/ m = Panic PEvenPath \/
  (m = Panic (PUnwrap (DuplicateNode 0%N)) /\ ~ id_room g /\ exists c, odd_cycle g c).
Proof.
  intros (Hne & n & Hn). pose proof (mm_post_release g n iter [] p Hg Hit Hp) as H.
  rewrite (Hn n) in H by lia. destruct m as [q| |e|]; [by left; exists q|done| |done].
  destruct H as [->|(-> & ? & ?)]; [auto|]. by right; right.
Qed.
Print Assumptions C59_release_failures.
Example C59_failures_case iter (Hit : hash_order_ok iter) : let g := as_graph wraps in
  Lawful g /\ LoopFree g /\ pairing_of g p_new /\
  release_run iter g p_new (Panic (PUnwrap (DuplicateNode 0%N))).
Proof.
  intros g. pose proof wraps_api as Hd. assert (Hg : Lawful g) by apply api_lawful, wraps_api.
  split; [done|]. split; [no_loops|]. split; [apply empty_pairing|].
  apply release_canon; [done|apply empty_pairing|done|vm_compute; reflexivity|discriminate].
Qed.

(** Without an overflow the two builds cannot be told apart. *)
Theorem C59_release_same g (Hg : Lawful g) iter (Hit : hash_order_ok iter) p (Hp : pairing_of g p) :
  id_room g \/ (forall c, ~ odd_cycle g c) \/ ~ matching_run iter g p (Panic POverflow) ->
  (forall m, release_run iter g p m <-> matching_run iter g p m) /\
  (release_diverges iter g p <-> matching_diverges iter g p).
Proof.
  intros Hcase.
  assert (Hno : ~ matching_run iter g p (Panic POverflow)).
  { destruct Hcase as [H|[H|H]]; [| |done]; apply C46_no_overflow_partial; auto. }
  assert (HE : forall fuel, maximum_matching_release iter [] fuel g p = maximum_matching iter [] fuel g p).
  { intros fuel. apply mm_same. intros E. apply Hno. by eapply run_at. }
  split.
  - intros m. split; intros (Hne & n & Hn); (split; [done|]); exists n; intros fuel Hf.
    + rewrite <-HE. auto.
    + rewrite HE. auto.
  - split; intros H fuel; [rewrite <-HE|rewrite HE]; apply H.
Qed.
Print Assumptions C59_release_same.
Example C59_same_case : let g := as_graph wheel in
  Lawful g /\ pairing_of g (pair_all [(0, 1); (9, 8)]%N) /\ id_room g.
Proof.
  intros g. split; [apply api_lawful, wheel_api|]. split; [a_pairing|].
  apply id_room_check; vm_compute; reflexivity.
Qed.

(** Nor does the iteration order matter. *)
Theorem C59_release_order g (Hg : Lawful g) iter iter' (Hit : hash_order_ok iter)
    (Hit' : hash_order_ok iter') p (Hp : pairing_of g p) :
  (forall m, release_run iter g p m <-> release_run iter' g p m) /\
  (release_diverges iter g p <-> release_diverges iter' g p).
Proof.
  assert (Hone : forall i j, hash_order_ok i -> hash_order_ok j ->
    forall m, release_run i g p m -> release_run j g p m).
  { intros i j Hi Hj m (Hne & n & Hn). split; [done|].
    destruct (mm_settles_release g n i [] p Hg Hi Hp) as [n' Hn']; [by rewrite Hn by lia|].
    exists n'. intros fuel Hf. rewrite Hn', Hn by done. done. }
  assert (Htwo : forall i j, hash_order_ok i -> hash_order_ok j ->
    release_diverges i g p -> release_diverges j g p).
  { intros i j Hi Hj Hd fuel. destruct (maximum_matching_release j [] fuel g p) eqn:E; [..|done];
      exfalso;
      (destruct (mm_settles_release g fuel j [] p Hg Hj Hp) as [n' Hn']; [by rewrite E|]);
      specialize (Hn' n' i [] (le_n _) Hi); rewrite Hd, E in Hn'; done. }
  split; [intros m; split|split]; eauto.
Qed.
Print Assumptions C59_release_order.
Example C59_order_case iter (Hit : hash_order_ok iter) : let g := as_graph giant in
  Lawful g /\ release_run iter g p_new (Ok (pair_all [(0, 1)]%N)).
Proof. intros g. split; [apply api_lawful, giant_api|]. by apply C59_case. Qed.

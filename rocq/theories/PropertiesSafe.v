(** Property C93: which panics [maximum_matching] can raise. *)
From Verif Require Import Outcome GraphModel TraversalModel ComponentsModel PairingModel GreedyModel Spec
  GraphProofs Checks EditProofs ConvertProofs EqProofs TraversalProofs PairingProofs MatchTheory
  MaximumModel ReleaseModel ForestProofs MaximumProofs ClassChecks SelfPairProofs SafeProofs
  PropertiesMatching PropertiesStale PropertiesRelease PropertiesSelfPair.

(** Whatever pairing it is given (any mate relation at all), a run on a
    law-abiding graph that ends has returned or has raised one of four panics:
    "duplicate node" of the forest, an id that is no node of the graph asked for,
    "even path augmentation", overflow.  The other panics in the code (missing
    parent, missing mate, node or edge marked twice, blossom root not found,
    index out of bounds, unwrap of None) cannot be reached. *)
Theorem C93_panics_confined g (Hg : Lawful g) iter (Hit : hash_order_ok iter) p m :
  matching_run iter g p m ->
  (exists q, m = Ok q) \/ (exists x, m = Panic (PForestDuplicate x)) \/
  (exists x, m = Panic (PUnwrap (MissingNode x))) \/ m = Panic PEvenPath \/ m = Panic POverflow.
Proof.
  intros (Hne & n & Hn). specialize (Hn n ltac:(lia)). pose proof (mm_safe iter n g Hit Hg [] p) as H.
  rewrite Hn in H. destruct m as [q| |e|]; [left; by exists q|done| |done].
  right. destruct H as [[[x ->]|[x ->]]|[->| ->]]; [left; by exists x|right; left; by exists x|..]; auto.
Qed.
Print Assumptions C93_panics_confined.

(** The same at every moment: no amount of steps leads to another end. *)
Theorem C93_never_otherwise g (Hg : Lawful g) iter (Hit : hash_order_ok iter) p fuel :
  (exists q, maximum_matching iter [] fuel g p = Ok q) \/
  maximum_matching iter [] fuel g p = NoFuel \/
  exists e, maximum_matching iter [] fuel g p = Panic e /\
    ((exists x, e = PForestDuplicate x) \/ (exists x, e = PUnwrap (MissingNode x)) \/ e = PEvenPath \/ e = POverflow).
Proof.
  pose proof (mm_safe iter fuel g Hit Hg [] p) as H. destruct (maximum_matching _ _ _ _ _) as [q| |e|]; [|done| |].
  - left. by exists q.
  - right. right. exists e. split; [done|]. destruct H as [[H|H]|[->| ->]]; auto.
  - right. by left.
Qed.
Print Assumptions C93_never_otherwise.

(** Built without overflow checks, a run on such a graph that ends has returned or
    has raised one of the first three, or has failed to contract because the
    wrapped id 0 is already a node. *)
Theorem C93_release g (Hg : Lawful g) iter (Hit : hash_order_ok iter) p m :
  release_run iter g p m ->
  (exists q, m = Ok q) \/ (exists x, m = Panic (PForestDuplicate x)) \/
  (exists x, m = Panic (PUnwrap (MissingNode x))) \/ m = Panic PEvenPath \/
  m = Panic (PUnwrap (DuplicateNode 0)).
Proof.
  intros (Hne & n & Hn). specialize (Hn n ltac:(lia)). pose proof (mm_safe_release iter n g Hit Hg [] p) as H.
  rewrite Hn in H. destruct m as [q| |e|]; [left; by exists q|done| |done].
  right. destruct H as [[[x ->]|[x ->]]|[->| ->]]; [left; by exists x|right; left; by exists x|..]; auto.
Qed.
Print Assumptions C93_release.
Example C93_release_case :
  Lawful (as_graph wraps) /\ release_run canon (as_graph wraps) p_new (Panic (PUnwrap (DuplicateNode 0))).
Proof. destruct (C59_failures_case canon canon_ok) as (? & _ & _ & ?). done. Qed.

(** All four do occur, on graphs that the API builds and pairings made by pair calls (the last two
    already with none). *)
Theorem C93_all_four_occur :
  let occurs pairs e := exists d, Api d /\ matching_run canon (as_graph d) (pair_all pairs) (Panic e) in
  (exists pairs x, occurs pairs (PForestDuplicate x)) /\
  (exists pairs x, occurs pairs (PUnwrap (MissingNode x))) /\
  occurs [] PEvenPath /\ occurs [] POverflow.
Proof.
  intros occurs. split_and!.
  - exists [(1, 1); (1, 2)]%N, 1%N, one_edge. split; [apply one_edge_api|].
    by apply (C91_one_sided_case canon canon_ok).
  - exists [(1, 8)]%N, 8%N, stubs. split; [apply stubs_api|]. apply C77_case.
  - destruct C40_matching_panics_refuted as (d & ? & _ & _ & _ & H). exists d. split; [done|]. apply H, canon_ok.
  - destruct C46_overflow_refuted as (d & ? & _ & _ & _ & H). exists d. split; [done|]. apply H, canon_ok.
Qed.
Print Assumptions C93_all_four_occur.

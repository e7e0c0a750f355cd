(** Properties C78 and C79: complete specifications of the two traversals, as
    rules that pick the next edge from the steps made so far; and C80: exactly
    when the depth-first traversal is the textbook one. *)
From Verif Require Import Outcome GraphModel TraversalModel ComponentsModel PairingModel
  Spec SpecSearch GraphProofs Checks EditProofs ConvertProofs EqProofs TraversalProofs BfsProofs DfsProofs
  PathLemmas AcyclicProofs CycleProofs NarrowProofs ComponentsProofs DescentProofs SearchProofs TextbookProofs
  PropertiesTraversal.

(** C78.  The steps of the depth-first traversal of a loop-free graph are those
    of the rule: the next step starts at the youngest discovered node that has
    an uncrossed edge and has not been bypassed, follows its first such edge in
    neighbor order, and is a cut if its target is already discovered; the
    traversal ends when there is no such node. *)
Theorem C78_depth_first_rule g (Hg : Lawful g) r steps :
  LoopFree g -> r ∈ g_nodes g -> depth_first g r steps <-> depth_rule g r steps.
Proof. intros Hl Hr. by apply dfs_rule_iff. Qed.
Print Assumptions C78_depth_first_rule.

(** With self-loops: every step between different nodes obeys the rule. *)
Theorem C78_depth_first_rule_loops g (Hg : Lawful g) r steps : depth_first g r steps ->
  (forall pre s post, steps = pre ++ s :: post ->
     (sid s <> tid s -> youngest g (discovered r pre) (depth_free g r pre) (sid s) (tid s)) /\
     (cut s = true <-> tid s ∈ discovered r pre)) /\
  (forall x y, ~ depth_free g r steps x y).
Proof. exact (dfs_follows_rule g Hg r steps). Qed.
Print Assumptions C78_depth_first_rule_loops.

(** So an edge of a discovered node is left out only if the node was bypassed,
    and both its nodes were if both are discovered. *)
Theorem C78_left_out g (Hg : Lawful g) r steps x y :
  depth_first g r steps -> x ∈ discovered r steps -> adj g x y -> x <> y ->
  (x, y) ∉ crossed steps -> (y, x) ∉ crossed steps ->
  bypassed g r steps x /\ (y ∈ discovered r steps -> bypassed g r steps y).
Proof.
  intros Hd Hx Ha Hne H1 H2. destruct (dfs_follows_rule g Hg r steps Hd) as [_ H]. split.
  - destruct (bypassed_dec g r steps x) as [|Hb]; [done|]. destruct (H x y). by split.
  - intros Hy. destruct (bypassed_dec g r steps y) as [|Hb]; [done|]. destruct (H y x).
    split; [|done]. by apply uncrossed_rev.
Qed.
Print Assumptions C78_left_out.

(** Once a node is bypassed no step to another node starts there. *)
Theorem C78_bypassed g (Hg : Lawful g) r steps pre s post a :
  depth_first g r steps -> steps = pre ++ s :: post -> bypassed g r pre a -> sid s <> tid s ->
  sid s <> a.
Proof.
  intros Hd Heq Hb Hne <-. destruct (dfs_follows_rule g Hg r steps Hd) as [H _].
  destruct (proj1 (H pre s post Heq) Hne) as [[_ Hn] _]. done.
Qed.
Print Assumptions C78_bypassed.

(** The triangle 0-1-2 with pendant node 3 at 0: the step from 1 to 2 bypasses
    0, so the edge 0-3 is left out. *)
Example C78_case : Lawful (as_graph pan) /\ LoopFree (as_graph pan) /\ 0%N ∈ g_nodes (as_graph pan) /\
  exists steps, steps = [mkStep 0 1 false; mkStep 1 2 false] ++ mkStep 2 0 true :: [] /\
    depth_first (as_graph pan) 0 steps /\
    bypassed (as_graph pan) 0 [mkStep 0 1 false; mkStep 1 2 false]%N 0 /\
    0%N ∈ discovered 0%N steps /\ adj (as_graph pan) 0 3 /\
    (0, 3)%N ∉ crossed steps /\ (3, 0)%N ∉ crossed steps.
Proof.
  split; [apply api_lawful, pan_api|]. split; [apply pan_loop_free|]. split; [tb_in|].
  eexists. split; [reflexivity|]. split; [run_dfs|]. split.
  { exists [mkStep 0 1 false], (mkStep 1 2 false), []. split; [done|]. split; [done|].
    split; [left|]. split; [|done]. eexists; (split; [vm_compute; reflexivity|set_solver]). }
  split; [left|]. split; [eexists; (split; [vm_compute; reflexivity|set_solver])|].
  split; cbn; set_solver.
Qed.

(** C79.  The steps of the breadth-first traversal of a loop-free graph are
    those of the rule: the next step starts at the oldest discovered node that
    has an uncrossed edge, follows its first one in neighbor order, and is a cut
    if its target is already discovered; the traversal ends when no discovered
    node has an uncrossed edge. *)
Theorem C79_breadth_first_rule g (Hg : Lawful g) r steps :
  LoopFree g -> r ∈ g_nodes g -> breadth_first g r steps <-> breadth_rule g r steps.
Proof. intros Hl Hr. by apply bfs_rule_iff. Qed.
Print Assumptions C79_breadth_first_rule.

(** With self-loops: every step between different nodes obeys the rule. *)
Theorem C79_breadth_first_rule_loops g (Hg : Lawful g) r steps : breadth_first g r steps ->
  (forall pre s post, steps = pre ++ s :: post ->
     (sid s <> tid s -> oldest g (discovered r pre) (uncrossed_edge g r pre) (sid s) (tid s)) /\
     (cut s = true <-> tid s ∈ discovered r pre)) /\
  (forall x y, ~ uncrossed_edge g r steps x y).
Proof. exact (bfs_follows_rule g Hg r steps). Qed.
Print Assumptions C79_breadth_first_rule_loops.

Example C79_case : Lawful (as_graph pan) /\ LoopFree (as_graph pan) /\ 1%N ∈ g_nodes (as_graph pan) /\
  breadth_first (as_graph pan) 1
    [mkStep 1 0 false; mkStep 1 2 false; mkStep 0 2 true; mkStep 0 3 false]%N.
Proof.
  split; [apply api_lawful, pan_api|]. split; [apply pan_loop_free|]. split; [tb_in|]. run_bfs.
Qed.

(** C80.  Textbook depth-first search has exactly one run from each node... *)
Theorem C80_textbook_total g (Hg : Lawful g) r : r ∈ g_nodes g ->
  exists T, textbook_run g r T /\ forall T', textbook_run g r T' -> T' = T.
Proof.
  intros Hr. destruct (textbook_total g Hg r Hr) as [T HT]. exists T. split; [done|].
  intros T' (l' & Hl' & HT'). destruct HT as (l & Hl & HT). rewrite Hl in Hl'. injection Hl' as <-.
  by eapply textbook_fun.
Qed.
Print Assumptions C80_textbook_total.

(** ... and is the rule of C78 with no node bypassed. *)
Theorem C80_textbook_rule g (Hg : Lawful g) (Hl : LoopFree g) r T : r ∈ g_nodes g ->
  textbook_run g r T <-> textbook_rule g r T.
Proof. intros Hr. by apply textbook_rule_iff. Qed.
Print Assumptions C80_textbook_rule.

(** The code's traversal is the textbook one exactly if the latter never makes
    a step from a node already bypassed. *)
Theorem C80_depth_first_textbook g (Hg : Lawful g) (Hl : LoopFree g) r T steps :
  textbook_run g r T -> depth_first g r steps ->
  steps = T <-> (forall pre s post, T = pre ++ s :: post -> ~ bypassed g r pre (sid s)).
Proof.
  intros HT Hd. pose proof (dfs_root g r steps Hg Hd) as Hr.
  rewrite <-(dfs_is_textbook g Hg r Hr Hl T HT). split; [by intros <-|].
  intros Hd'. by eapply depth_first_fun.
Qed.
Print Assumptions C80_depth_first_textbook.

(** Otherwise the two agree up to the first such step, and not beyond. *)
Theorem C80_first_difference g (Hg : Lawful g) (Hl : LoopFree g) r T steps pre s post :
  textbook_run g r T -> depth_first g r steps -> T = pre ++ s :: post ->
  (forall pre' s' post', pre = pre' ++ s' :: post' -> ~ bypassed g r pre' (sid s')) ->
  bypassed g r pre (sid s) ->
  exists rest, steps = pre ++ rest /\ head rest <> Some s.
Proof.
  intros HT Hd Heq Hnb Hb. pose proof (dfs_root g r steps Hg Hd) as Hr.
  destruct (dfs_agrees_until g Hg r Hr Hl T steps pre (s :: post) HT Hd Heq Hnb) as [rest Hrest].
  exists rest. split; [done|]. destruct rest as [|s' rest]; [done|]. simpl. intros [= ->].
  apply (proj1 (dfs_rule_iff g Hg r steps Hl Hr)) in Hd as [Hrule _].
  destruct (Hrule pre s rest Hrest) as [[[_ Hn] _] _]. done.
Qed.
Print Assumptions C80_first_difference.

(** On [pan] from 0 they differ at the last textbook step. *)
Example C80_case : Lawful (as_graph pan) /\ LoopFree (as_graph pan) /\
  textbook_run (as_graph pan) 0
    ([mkStep 0 1 false; mkStep 1 2 false; mkStep 2 0 true] ++ mkStep 0 3 false :: [])%N /\
  depth_first (as_graph pan) 0 [mkStep 0 1 false; mkStep 1 2 false; mkStep 2 0 true]%N /\
  bypassed (as_graph pan) 0 [mkStep 0 1 false; mkStep 1 2 false; mkStep 2 0 true]%N 0 /\
  (forall pre s post, [mkStep 0 1 false; mkStep 1 2 false; mkStep 2 0 true]%N = pre ++ s :: post ->
     ~ bypassed (as_graph pan) 0 pre (sid s)).
Proof.
  split; [apply api_lawful, pan_api|]. split; [apply pan_loop_free|]. split.
  { exists [1; 2; 3]%N. split; [vm_compute; reflexivity|]. cbn [fmap list_fmap app]. repeat tb_step. }
  assert (Hd : depth_first (as_graph pan) 0 [mkStep 0 1 false; mkStep 1 2 false; mkStep 2 0 true]%N) by run_dfs.
  split; [done|]. split.
  - exists [mkStep 0 1 false], (mkStep 1 2 false), [mkStep 2 0 true]. split; [done|]. split; [done|].
    split; [left|]. split; [|done]. eexists; (split; [vm_compute; reflexivity|set_solver]).
  - intros pre s post Heq Hb.
    apply (C78_bypassed _ (api_lawful _ pan_api) 0 _ pre s post (sid s) Hd Heq Hb); [|done].
    assert (Hs : s ∈ pre ++ s :: post) by set_solver. rewrite <-Heq in Hs.
    repeat (apply elem_of_cons in Hs as [->|Hs]; [done|]). by apply elem_of_nil in Hs.
Qed.

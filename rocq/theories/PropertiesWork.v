(** Property C86: how many searches and [neighbors] calls maximum_matching makes. *)
From Verif Require Import Outcome GraphModel TraversalModel ComponentsModel PairingModel Spec SpecWork
  GraphProofs Checks EditProofs ConvertProofs EqProofs TraversalProofs PairingProofs MatchTheory
  MaximumModel WorkModel ForestProofs TameProofs MaximumProofs CalmProofs ClassChecks WorkProofs
  PropertiesGraph PropertiesTraversal PropertiesMatching.

(** The model with counters computes what the model without does. *)
Theorem C86_same_outcome iter tag fuel g p :
  (maximum_matching_work iter tag fuel g p).2 = maximum_matching iter tag fuel g p.
Proof. apply mm_erase. Qed.
Print Assumptions C86_same_outcome.

(** C86.  A call that ends makes the same searches for every hash iteration
    order: 2k+1 of them if it returns after k augmentations, k+1 if it panics
    after k augmentations.  In a search at most 1 + order() + (number of
    self-loops) graphs are searched (the given one and its contractions), only
    the given one if there is no odd cycle; on each of them [neighbors] is called
    at most order() + size() times. *)
Theorem C86_searches g (Hg : Lawful g) iter (Hit : hash_order_ok iter) p (Hp : pairing_of g p) m :
  matching_run iter g p m ->
  exists W, (forall iter', hash_order_ok iter' -> works iter' g p W m) /\
    (forall s, s ∈ W -> 1 <= length s <= 1 + g_order g + length (looped g) /\
       (forall c, c ∈ s -> c <= g_order g + g_size g) /\
       ((forall c, ~ odd_cycle g c) -> length s = 1)) /\
    ((exists paths q, m = Ok q /\ augmentations iter g p paths q /\ length W = 2 * length paths + 1) \/
     (exists paths q e, m = Panic e /\ rounds iter g p paths q /\ length W = length paths + 1)).
Proof.
  intros Hrun.
  assert (Hfair : forall s, fair g s -> 1 <= length s <= 1 + g_order g + length (looped g) /\
       (forall c, c ∈ s -> c <= g_order g + g_size g) /\
       ((forall c, ~ odd_cycle g c) -> length s = 1)).
  { intros s (H1 & H2). split; [|done]. unfold measure in H1. rewrite (law_order g Hg). lia. }
  destruct m as [q|e|e|].
  - pose proof Hrun as Hrun0. apply (run_iff g Hg iter Hit p q Hp) in Hrun as [paths Haug].
    pose proof Haug as Haug0. apply rounds_augmentations in Haug as [Hr Hs].
    destruct (work_return g Hg iter Hit p paths q Hp Hr Hs) as (W & HW & Hf & n & Hn).
    exists W. split_and!; [|auto|left; by exists paths, q].
    intros iter' Hit'. split; [done|]. exists n. intros fuel Hfu. by apply Hn.
  - exfalso. destruct Hrun as (_ & n & Hn). pose proof (mm_post g n iter [] p Hg Hit Hp) as Hpost.
    by rewrite Hn in Hpost.
  - apply (run_panic g Hg iter Hit p e Hp) in Hrun as (paths & q & Hr & Hwhy).
    destruct (work_panic g Hg iter Hit p paths q e Hp Hr Hwhy) as (W & HW & Hf & n & Hn).
    exists W. split_and!; [|auto|right; by exists paths, q, e].
    intros iter' Hit'. split; [done|]. exists n. intros fuel Hfu. by apply Hn.
  - by destruct Hrun.
Qed.
Print Assumptions C86_searches.

(** Hence a bound on all [neighbors] calls where maximum_matching is known to
    return (C49): with M a maximum matching there are 2|M| + 1 searches less one
    for every node paired at the start. *)
Theorem C86_polynomial g (Hg : Lawful g) iter (Hit : hash_order_ok iter) p (Hp : pairing_of g p) M :
  calm_odd_cycles g -> id_room g -> maximum g M ->
  exists q W, works iter g p W (Ok q) /\ length W + p_order p = 2 * length M + 1 /\
    calls_on_graph W <= (2 * length M + 1 - p_order p) * (g_order g + g_size g) /\
    all_calls W <= (2 * length M + 1 - p_order p) * ((1 + g_order g + length (looped g)) * (g_order g + g_size g)).
Proof.
  intros Hc Hroom [HM HMmax]. destruct (calm_total g iter p Hg Hit Hp Hc Hroom) as (paths & q & Haug & Hord & _).
  assert (Hrun : matching_run iter g p (Ok q)) by (apply run_iff; eauto).
  assert (Hq : pairing_of g q) by (by eapply aug_pairing).
  destruct (run_maximum g iter p q _ Hg Hit Hp Hrun (listed_here q)) as [[HL HLmax] Hlen].
  pose proof (HMmax _ HL). pose proof (HLmax _ HM).
  apply rounds_augmentations in Haug as [Hr Hs].
  destruct (work_return g Hg iter Hit p paths q Hp Hr Hs) as (W & HW & Hf & n & Hn).
  exists q, W. assert (HW' : length W + p_order p = 2 * length M + 1) by lia.
  destruct (fair_calls g W Hf) as [H1 H2]. unfold measure in H1. rewrite <-(law_order g Hg) in H1.
  replace (length W) with (2 * length M + 1 - p_order p) in H1, H2 by lia.
  split_and!; [|done|done|by rewrite Nat.add_assoc in H1].
  split; [done|]. exists n. intros fuel Hfu. by apply Hn.
Qed.
Print Assumptions C86_polynomial.

(** On bipartite graphs and forests nothing is contracted. *)
Theorem C86_bipartite g (Hg : Lawful g) iter (Hit : hash_order_ok iter) p (Hp : pairing_of g p) M :
  Bipartite g \/ Acyclic g -> maximum g M ->
  exists q W, works iter g p W (Ok q) /\ length W + p_order p = 2 * length M + 1 /\
    all_calls W = calls_on_graph W /\
    calls_on_graph W <= (2 * length M + 1 - p_order p) * (g_order g + g_size g).
Proof.
  intros Hb [HM HMmax].
  assert (Hno : forall c, ~ odd_cycle g c).
  { intros c. destruct Hb; [by apply bipartite_no_odd|by apply acyclic_no_odd]. }
  destruct (tame_total g Hg iter Hit p Hp (no_odd_quiet g Hno) (or_intror Hno)) as (paths & q & Haug & Hord & _).
  assert (Hrun : matching_run iter g p (Ok q)) by (apply run_iff; eauto).
  assert (Hq : pairing_of g q) by (by eapply aug_pairing).
  destruct (run_maximum g iter p q _ Hg Hit Hp Hrun (listed_here q)) as [[HL HLmax] Hlen].
  pose proof (HMmax _ HL). pose proof (HLmax _ HM).
  apply rounds_augmentations in Haug as [Hr Hs].
  destruct (work_return g Hg iter Hit p paths q Hp Hr Hs) as (W & HW & Hf & n & Hn).
  exists q, W. assert (HW' : length W + p_order p = 2 * length M + 1) by lia.
  destruct (fair_calls g W Hf) as [H1 H2].
  replace (length W) with (2 * length M + 1 - p_order p) in H2 by lia.
  split_and!; [|done| |done].
  - split; [done|]. exists n. intros fuel Hfu. by apply Hn.
  - unfold all_calls, calls_on_graph. f_equal. clear -Hf Hno. induction W as [|s W IH]; [done|]. rewrite !fmap_cons.
    rewrite IH by (intros; apply Hf; by right). f_equal.
    destruct (Hf s) as (_ & _ & H1); [left|]. specialize (H1 Hno).
    destruct s as [|c [|]]; try done. cbn. unfold id. lia.
Qed.
Print Assumptions C86_bipartite.

(** The graphs of C40_case and C41_case: seven augmentations, 15 searches, up
    to five contractions in a search; and two augmentations, 5 searches. *)
Example C86_case : let g := as_graph mixture in let p := pair_all [(3, 2); (0, 1); (10, 11); (22, 23)]%N in
  Lawful g /\ calm_odd_cycles g /\ id_room g /\ pairing_of g p /\
  (maximum_matching_work canon [] 60 g p).1 =
    [[2]; [2; 6; 1]; [2; 5]; [2; 6; 2; 6]; [2; 6; 2; 7; 1]; [2; 6; 2; 8; 2; 1]; [2; 6; 2; 6];
     [2; 2; 1]; [2; 2; 1]; [2; 2; 1]; [2; 2; 1]; [2; 2; 1]; [2; 2; 1]; [2; 2; 1]; [2; 2; 1]].
Proof.
  intros g p. destruct C40_case as (H1 & H2 & H3 & H4 & _). split_and!; [done..|].
  vm_compute. reflexivity.
Qed.
Example C86_case_bipartite : let g := as_graph ladder in let p := pair_all [(usize_max, 1); (3, 4)]%N in
  Lawful g /\ Bipartite g /\ pairing_of g p /\
  (maximum_matching_work canon [] 60 g p).1 = [[3]; [2]; [0]; [0]; [0]].
Proof.
  intros g p. destruct (C41_case canon canon_ok) as (H1 & H2 & H3 & _). split_and!; [done..|].
  vm_compute. reflexivity.
Qed.

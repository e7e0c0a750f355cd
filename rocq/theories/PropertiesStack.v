(** Property C74: how deep maximum_matching nests its calls. *)
From Verif Require Import Outcome GraphModel TraversalModel ComponentsModel PairingModel GreedyModel
  Spec SpecStack GraphProofs Checks EditProofs ConvertProofs TraversalProofs PairingProofs
  MatchTheory MaximumModel StackModel BlossomProofs ContractProofs TameProofs CalmProofs MaximumProofs
  StackProofs ClassChecks PropertiesGraph PropertiesMatching.

Section stack.
  Context (g : Graph) (Hg : Lawful g) (iter : hash_order) (Hit : hash_order_ok iter).

  Lemma stack_result W stack p : 1 <= W /\ (1 + measure g <= W \/ forall c, ~ odd_cycle g c) ->
    pairing_of g p ->
    exists m, stack_run iter stack g p m /\ mms_post g iter W stack p m.
  Proof.
    intros HW Hp. destruct (mms_spec g Hg iter Hit W HW stack p Hp) as (n & m & Hm & Hset).
    exists m. split; [|done]. split; [by destruct m as [[]| | |]|]. exists n. intros fuel Hf. by apply Hset.
  Qed.

  Lemma too_deep p paths q stack : pairing_of g p -> rounds iter g p paths q -> stack <= length paths + 1 ->
    stack_run iter stack g p (Ok Overflow).
  Proof.
    intros Hp Hr Hle. destruct (stack_result (1 + measure g) stack p) as (m & Hrun & Hm); [lia|done|].
    destruct m as [[q'|]| |e|]; try done; exfalso.
    - destruct Hm as ((paths' & Haug & Hlen) & _). pose proof (rounds_end g iter _ _ _ _ _ Haug Hr). lia.
    - destruct Hm as (paths' & q' & Hr' & Hlen & Hwhy).
      pose proof (panic_end g iter _ _ _ _ _ _ Hr' Hwhy Hr). lia.
  Qed.

  Lemma enough_return W p paths q stack : 1 <= W /\ (1 + measure g <= W \/ forall c, ~ odd_cycle g c) ->
    pairing_of g p -> augmentations iter g p paths q -> length paths + 1 + W <= stack ->
    stack_run iter stack g p (Ok (Fits q)).
  Proof.
    intros HW Hp Haug Hle. destruct (stack_result W stack p HW Hp) as (m & Hrun & Hm).
    assert (Hq : matching_run iter g p (Ok q)) by (apply run_iff; eauto).
    destruct m as [[q'|]| |e|]; try done.
    - destruct Hm as ((paths' & Haug' & Hlen) & _).
      assert (Hq' : matching_run iter g p (Ok q')) by (apply run_iff; eauto).
      pose proof (run_det g iter p _ _ Hq Hq') as [= <-]. done.
    - exfalso. destruct Hm as (paths' & q' & Hr & Hlt).
      pose proof (rounds_end g iter _ _ _ _ _ Haug Hr). lia.
    - exfalso. assert (Hq' : matching_run iter g p (Panic e)).
      { apply run_panic; try done. destruct Hm as (paths' & q' & Hr & _ & Hwhy). by exists paths', q'. }
      by pose proof (run_det g iter p _ _ Hq Hq').
  Qed.
End stack.

(** With a finite stack every run ends: it does what it would do with unlimited
    stack, or exhausts the stack. *)
Theorem C74_finite_stack_ends g (Hg : Lawful g) iter (Hit : hash_order_ok iter) p (Hp : pairing_of g p) stack :
  stack_run iter stack g p (Ok Overflow) \/
  (exists q, stack_run iter stack g p (Ok (Fits q)) /\ matching_run iter g p (Ok q)) \/
  (exists e, stack_run iter stack g p (Panic e) /\ matching_run iter g p (Panic e)).
Proof.
  destruct (stack_result g Hg iter Hit (1 + measure g) stack p) as (m & Hrun & Hm); [lia|done|].
  destruct m as [[q|]| |e|]; try done.
  - right. left. exists q. split; [done|]. apply run_iff; try done. destruct Hm as ((paths & ? & _) & _). eauto.
  - by left.
  - right. right. exists e. split; [done|]. apply run_panic; try done.
    destruct Hm as (paths & q & ? & _ & ?). eauto.
Qed.
Print Assumptions C74_finite_stack_ends.

(** A call that never returns (C40) exhausts every stack, however large; only
    such a call does. *)
Theorem C74_endless_exhausts g (Hg : Lawful g) iter (Hit : hash_order_ok iter) p (Hp : pairing_of g p) :
  matching_diverges iter g p <-> forall stack, stack_run iter stack g p (Ok Overflow).
Proof.
  split.
  - intros Hd stack. pose proof (proj1 (run_forever g Hg iter Hit p Hp) Hd stack) as (paths & q & Hlen & Hr).
    eapply (too_deep g Hg iter Hit); try done. lia.
  - intros Hall. apply run_or_diverges; try done. intros m Hm. pose proof Hm as (Hne & n & Hn).
    pose proof (mm_post g n iter [] p Hg Hit Hp) as Hpost. rewrite Hn in Hpost by lia.
    destruct m as [q| |e|]; try done.
    + apply run_iff in Hm as (paths & Haug); try done.
      pose proof (enough_return g Hg iter Hit (1 + measure g) p paths q _ ltac:(lia) Hp Haug (Nat.le_refl _)) as H.
      by pose proof (stack_run_det g iter _ p _ _ H (Hall _)).
    + apply run_panic in Hm as (paths & q & Hr & Hwhy); try done.
      destruct (stack_result g Hg iter Hit (1 + measure g) (length paths + 2 + measure g) p ltac:(lia) Hp)
        as (m & Hrun & Hm).
      pose proof (stack_run_det g iter _ p _ _ Hrun (Hall _)) as ->.
      destruct Hm as (paths' & q' & Hr' & Hlt).
      pose proof (panic_end g iter _ _ _ _ _ _ Hr Hwhy Hr'). lia.
Qed.
Print Assumptions C74_endless_exhausts.

(** Each augmentation costs a frame that is held until the end: a run that
    augments k times overflows a stack of k+1 frames; k+2 frames plus one per
    node and self-loop are enough, and k+2 are enough without odd cycles. *)
Theorem C74_frames_per_augmentation g (Hg : Lawful g) iter (Hit : hash_order_ok iter) p (Hp : pairing_of g p) :
  (forall paths q, rounds iter g p paths q ->
     forall stack, stack <= length paths + 1 -> stack_run iter stack g p (Ok Overflow)) /\
  (forall paths q, augmentations iter g p paths q ->
     forall stack, length paths + 2 + length (g_nodes g) + length (looped g) <= stack \/
       (length paths + 2 <= stack /\ forall c, ~ odd_cycle g c) ->
       stack_run iter stack g p (Ok (Fits q))).
Proof.
  split.
  - intros paths q Hr stack Hle. by eapply too_deep.
  - intros paths q Haug stack [Hle|[Hle Hno]].
    + apply (enough_return g Hg iter Hit (1 + measure g) p paths q); try done; unfold measure; lia.
    + apply (enough_return g Hg iter Hit 1 p paths q); try done; [|lia]. split; [lia|by right].
Qed.
Print Assumptions C74_frames_per_augmentation.

(** So on a bipartite graph or forest, started from Pairing::new(), the stack
    needed is exactly the size of a maximum matching plus two: it grows
    linearly with the graph.  Starting from a pairing saves a frame per pair. *)
Theorem C74_linear_stack g (Hg : Lawful g) iter (Hit : hash_order_ok iter) p (Hp : pairing_of g p) M :
  Bipartite g \/ Acyclic g -> maximum g M ->
  exists q, matching_run iter g p (Ok q) /\ forall stack,
    (stack + p_order p / 2 < length M + 2 -> stack_run iter stack g p (Ok Overflow)) /\
    (length M + 2 <= stack + p_order p / 2 -> stack_run iter stack g p (Ok (Fits q))).
Proof.
  intros Hb [HM HMmax].
  assert (Hno : forall c, ~ odd_cycle g c).
  { intros c. destruct Hb; [by apply bipartite_no_odd|by apply acyclic_no_odd]. }
  destruct (tame_total g Hg iter Hit p Hp (no_odd_quiet g Hno) (or_intror Hno)) as (paths & q & Haug & Hord & _).
  assert (Hrun : matching_run iter g p (Ok q)) by (apply run_iff; eauto).
  assert (Hq : pairing_of g q) by (by eapply aug_pairing).
  destruct (run_maximum g iter p q _ Hg Hit Hp Hrun (listed_here q)) as [[HL HLmax] Hlen].
  pose proof (HMmax _ HL). pose proof (HLmax _ HM).
  pose proof (p_edges_length p (proj1 Hp) _ (reflexivity (map_to_list p))) as Hpl.
  assert (Hhalf : p_order p / 2 + length paths = length M).
  { rewrite Hpl, Nat.mul_comm, Nat.div_mul by done. lia. }
  exists q. split; [done|]. intros stack. split; intros Hst.
  - apply rounds_augmentations in Haug as [Hr _].
    eapply (too_deep g Hg iter Hit); try done. lia.
  - apply (enough_return g Hg iter Hit 1 p paths q); try done; [|lia]. split; [lia|by right].
Qed.
Print Assumptions C74_linear_stack.

(** A ladder of eight nodes needs six frames; the cactus of C50 any number. *)
Example C74_case iter (Hit : hash_order_ok iter) : let g := as_graph ladder in
  Lawful g /\ Bipartite g /\ pairing_of g p_new /\ (exists M, maximum g M /\ length M = 4) /\
  (exists q, matching_run iter g p_new (Ok q) /\ stack_run iter 6 g p_new (Ok (Fits q))) /\
  stack_run iter 5 g p_new (Ok Overflow).
Proof.
  intros g. assert (Hg : Lawful g) by apply api_lawful, ladder_api.
  split; [done|]. split; [apply ladder_bipartite|]. split; [apply empty_pairing|].
  assert (Hrun : exists q, matching_run iter g p_new (Ok q) /\ p_order q = 8).
  { exists (pair_all [(0, 1); (3, 4); (5, 6); (2, usize_max)]%N). split; [a_result|vm_compute; reflexivity]. }
  destruct Hrun as (q & Hrun & Hq).
  destruct (run_maximum g iter p_new q _ Hg Hit (empty_pairing g) Hrun (listed_here q)) as [HM Hlen].
  assert (HlM : length (p_edges_of (map_to_list q)) = 4) by lia.
  destruct (C74_linear_stack g Hg iter Hit p_new (empty_pairing g) _ (or_introl ladder_bipartite) HM)
    as (q' & Hq' & Hst).
  split; [by eexists|]. rewrite HlM in Hst. split.
  - exists q'. split; [done|]. apply Hst. change (p_order p_new / 2) with 0. lia.
  - apply Hst. change (p_order p_new / 2) with 0. lia.
Qed.

Example C74_case_endless :
  exists d, Api d /\ pairing_of (as_graph d) p_new /\
    forall iter, hash_order_ok iter -> forall stack, stack_run iter stack (as_graph d) p_new (Ok Overflow).
Proof.
  destruct C50_separated_diverges as (d & Hd & _ & _ & _ & Hp & Hdiv).
  exists d. split; [done|]. split; [done|]. intros iter Hit.
  apply C74_endless_exhausts; try done; [by apply api_lawful|]. by apply Hdiv.
Qed.

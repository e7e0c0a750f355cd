(** Properties C38-C55 (maximum_matching).

    [iter] ranges over all ways the hash maps may be iterated, at every place
    where the program iterates one; [g] over all law-abiding implementations
    of the [Graph] trait (self-loops allowed unless stated); [p] over all
    pairings whose pairs are edges of [g]. *)
From Verif Require Import Outcome GraphModel TraversalModel ComponentsModel PairingModel GreedyModel
  Spec GraphProofs Checks EditProofs TraversalProofs BfsProofs DfsProofs PathLemmas AcyclicProofs
  ComponentsProofs PairingProofs GreedyProofs MatchTheory MaximumModel ForestProofs BlossomProofs
  ContractProofs LiftProofs TameProofs MaximumProofs CalmProofs ClassChecks NarrowProofs.

(** ** Concrete graphs *)

(** An 11-ring and a node joined to three of its nodes. *)
Definition wheel : DefaultGraph := get (dg_try_from_edges
  [(0, 1); (1, 2); (2, 3); (3, 4); (4, 5); (5, 6); (6, 7); (7, 8); (8, 9); (9, 10);
   (10, 0); (11, 5); (11, 1); (11, 9)]%N).
Lemma wheel_api : Api wheel. Proof. apply get_edges_api; is_ok. Qed.

(** Two triangles 0-1-2 and 4-5-6 joined through 3, and a node 7 at 0. *)
Definition rings : DefaultGraph := get (dg_try_from_edges
  [(0, 1); (1, 2); (2, 0); (2, 3); (3, 4); (4, 5); (5, 6); (6, 4); (0, 7)]%N).
Lemma rings_api : Api rings. Proof. apply get_edges_api; is_ok. Qed.
Lemma rings_disjoint : disjoint_odd_cycles (as_graph rings).
Proof. apply disjoint_check; [apply api_lawful, rings_api|vm_compute; reflexivity]. Qed.

(** The complete graph on four nodes. *)
Definition k4 : DefaultGraph := get (dg_try_from_edges
  [(0, 1); (0, 2); (0, 3); (1, 2); (1, 3); (2, 3)]%N).
Lemma k4_api : Api k4. Proof. apply get_edges_api; is_ok. Qed.
Lemma k4_pendant : pendant_odd_cycles (as_graph k4).
Proof. apply pendant_check; [apply api_lawful, k4_api|vm_compute; reflexivity]. Qed.

(** Two triangles that share node 0, a pendant node at each of 1 and 3. *)
Definition bowtie : DefaultGraph := get (dg_try_from_edges
  [(0, 1); (1, 2); (2, 0); (0, 3); (3, 4); (4, 0); (1, 5); (3, 6)]%N).
Lemma bowtie_api : Api bowtie. Proof. apply get_edges_api; is_ok. Qed.
Lemma bowtie_separated : separated_odd_cycles (as_graph bowtie).
Proof. apply separated_check; [apply api_lawful, bowtie_api|vm_compute; reflexivity]. Qed.

(** Four kinds of harmless odd cycles and a self-loop: the graph [rings] with
    a self-loop at 3, and complete graphs on 10..13, 20..24 and 30..35. *)
Definition mixture : DefaultGraph := get (dg_try_from_edges
  [(0, 1); (1, 2); (2, 0); (2, 3); (3, 4); (4, 5); (5, 6); (6, 4); (0, 7); (3, 3);
   (10, 11); (10, 12); (10, 13); (11, 12); (11, 13); (12, 13);
   (20, 21); (20, 22); (20, 23); (20, 24); (21, 22); (21, 23); (21, 24); (22, 23); (22, 24); (23, 24);
   (30, 31); (30, 32); (30, 33); (30, 34); (30, 35); (31, 32); (31, 33); (31, 34); (31, 35); (32, 33);
   (32, 34); (32, 35); (33, 34); (33, 35); (34, 35)]%N).
Lemma mixture_api : Api mixture. Proof. apply get_edges_api; is_ok. Qed.
Lemma mixture_calm : calm_odd_cycles (as_graph mixture).
Proof. apply calm_check; [apply api_lawful, mixture_api|vm_compute; reflexivity]. Qed.

(** A 5-ring, a path, and a node with a self-loop. *)
Definition strips : DefaultGraph := get (dg_try_from_edges
  [(0, 1); (1, 2); (2, 3); (3, 4); (4, 0); (5, 6); (6, 7); (8, 8)]%N).
Lemma strips_api : Api strips. Proof. apply get_edges_api; is_ok. Qed.

(** A path of four nodes, one of them numbered usize::MAX, and a square. *)
Definition ladder : DefaultGraph := get (dg_try_from_edges
  [(0, 1); (1, usize_max); (usize_max, 2); (3, 4); (4, 5); (5, 6); (6, 3)]%N).
Lemma ladder_api : Api ladder. Proof. apply get_edges_api; is_ok. Qed.
Lemma ladder_bipartite : Bipartite (as_graph ladder).
Proof.
  apply (bipartite_check (fun v => bool_decide (v ∈ [0; usize_max; 3; 5]%N)));
    [apply ladder_api|vm_compute; reflexivity].
Qed.

(** A triangle with a node numbered usize::MAX. *)
Definition giant : DefaultGraph := get (dg_try_from_edges [(0, 1); (1, usize_max); (usize_max, 0)]%N).
Lemma giant_api : Api giant. Proof. apply get_edges_api; is_ok. Qed.

(** Graphs on which the program fails. *)
Definition panics : DefaultGraph := get (dg_try_from_edges
  [(4, 2); (4, 1); (5, 4); (3, 5); (4, 0); (1, 3); (2, 3); (5, 1)]%N).
Lemma panics_api : Api panics. Proof. apply get_edges_api; is_ok. Qed.
Definition spins : DefaultGraph := get (dg_try_from_edges
  [(0, 6); (3, 2); (2, 1); (2, 6); (3, 0); (6, 5); (7, 3); (1, 5); (4, 0); (3, 4); (2, 7)]%N).
Lemma spins_api : Api spins. Proof. apply get_edges_api; is_ok. Qed.
Definition shrinks : DefaultGraph := get (dg_try_from_edges
  [(0, 9); (0, 1); (8, 3); (0, 8); (6, 7); (9, 8); (5, 1); (2, 7); (1, 4); (6, 3); (2, 5); (7, 0)]%N).
Lemma shrinks_api : Api shrinks. Proof. apply get_edges_api; is_ok. Qed.

Ltac no_loops := apply loop_free_check; [assumption|vm_compute; reflexivity].
Ltac a_pairing := apply pairing_of_check; vm_compute; reflexivity.
Ltac a_run := apply run_canon; [assumption|a_pairing|assumption|vm_compute; reflexivity|discriminate].

Ltac a_result := apply run_canon; [assumption|a_pairing|assumption|apply ends_ok; vm_compute; reflexivity|discriminate].

Lemma empty_pairing g : pairing_of g p_new.
Proof. split; intros u v H; unfold p_new in H; by rewrite lookup_empty in H. Qed.

(** ** Lemmas *)

Lemma run_ok g iter p q : Lawful g -> hash_order_ok iter -> pairing_of g p ->
  matching_run iter g p (Ok q) -> pairing_of g q /\ exists O Cs, cert g q O Cs.
Proof.
  intros Hg Hit Hp (_ & n & Hn). pose proof (mm_post g n iter [] p Hg Hit Hp) as H.
  by rewrite (Hn n) in H by lia.
Qed.

Lemma run_maximum g iter p q M : Lawful g -> hash_order_ok iter -> pairing_of g p ->
  matching_run iter g p (Ok q) -> listed_edges q M -> maximum g M /\ p_order q = 2 * length M.
Proof.
  intros Hg Hit Hp Hrun (L & HL & ->).
  destruct (run_ok g iter p q Hg Hit Hp Hrun) as (Hq & O & Cs & Hc).
  split; [by eapply cert_maximum|]. by apply p_edges_length; [apply Hq|].
Qed.

Lemma listed_here p : listed_edges p (p_edges_of (map_to_list p)).
Proof. by exists (map_to_list p). Qed.

Lemma not_maximum g p M : pairing_of g p -> matching g M -> p_order p < 2 * length M ->
  ~ (forall M', listed_edges p M' -> maximum g M').
Proof.
  intros Hp HM Hlt Hmax. destruct (Hmax _ (listed_here p)) as [_ H].
  specialize (H M HM).
  pose proof (p_edges_length p (proj1 Hp) _ (reflexivity (map_to_list p))). lia.
Qed.

Lemma acyclic_no_odd g c : Acyclic g -> ~ odd_cycle g c.
Proof.
  intros [Hl Ha] (Hnd & Hodd & Hp & Hc). destruct c as [|x c]; [done|].
  destruct (last (x :: c)) as [z|] eqn:Hz; [|by apply last_None in Hz].
  pose proof (Hc x z eq_refl eq_refl) as Hzx.
  destruct c as [|y c]; [injection Hz as ->; by apply (Hl z)|].
  destruct c as [|w c]; [done|].
  apply (Ha (x :: y :: w :: c)). split_and!; [simpl; lia|done|done|]. by exists x, z.
Qed.

(** ** What a returned pairing is worth *)

(** C38 *)
Theorem C38_matching_valid g (Hg : Lawful g) iter (Hit : hash_order_ok iter) p (Hp : pairing_of g p) q :
  matching_run iter g p (Ok q) ->
  pairing_of g q /\ forall M, listed_edges q M -> matching g M.
Proof.
  intros Hrun. destruct (run_ok g iter p q Hg Hit Hp Hrun) as (Hq & _). split; [done|].
  intros M (L & HL & ->). by eapply pairing_matching.
Qed.
Print Assumptions C38_matching_valid.
Example C38_case iter (Hit : hash_order_ok iter) : let g := as_graph wheel in
  Lawful g /\ pairing_of g (pair_all [(0, 1); (9, 8)]%N) /\
  matching_run iter g (pair_all [(0, 1); (9, 8)]%N)
    (Ok (pair_all [(0, 10); (1, 11); (2, 3); (4, 5); (6, 7); (8, 9)]%N)).
Proof.
  intros g. assert (Hg : Lawful g) by apply api_lawful, wheel_api.
  split; [done|]. split; [a_pairing|]. a_result.
Qed.

(** C39 *)
Theorem C39_matching_maximum g (Hg : Lawful g) iter (Hit : hash_order_ok iter) p (Hp : pairing_of g p) q :
  matching_run iter g p (Ok q) ->
  forall M, listed_edges q M -> maximum g M /\ p_order q = 2 * length M.
Proof. intros Hrun M HM. by eapply run_maximum. Qed.
Print Assumptions C39_matching_maximum.
(** Blossoms are contracted on the way, and the answer is not perfect. *)
Example C39_case iter (Hit : hash_order_ok iter) : let g := as_graph bowtie in
  Lawful g /\ pairing_of g (pair_all [(0, 1)]%N) /\
  matching_run iter g (pair_all [(0, 1)]%N) (Ok (pair_all [(0, 2); (1, 5); (3, 4)]%N)) /\
  g_order g = 7.
Proof.
  intros g. assert (Hg : Lawful g) by apply api_lawful, bowtie_api.
  split; [done|]. split; [a_pairing|]. split; [a_result|done].
Qed.

(** C40: false of the code.  What does hold: if every odd cycle of three or
    more nodes is joined to the rest of the graph through at most one outside
    node, or contains every odd cycle that it meets, or leaves at most two
    nodes of its component outside, or lies in a component that is a clique,
    then maximum_matching returns. *)
Theorem C40_matching_returns_partial g (Hg : Lawful g) iter (Hit : hash_order_ok iter)
    p (Hp : pairing_of g p) :
  calm_odd_cycles g -> id_room g ->
  exists q, matching_run iter g p (Ok q).
Proof.
  intros Ht Hroom. destruct (calm_total g iter p Hg Hit Hp Ht Hroom) as (paths & q & Haug & _).
  exists q. apply (run_iff g Hg iter Hit p q Hp). by exists paths.
Qed.
Print Assumptions C40_matching_returns_partial.
Example C40_case : let g := as_graph mixture in
  Lawful g /\ calm_odd_cycles g /\ id_room g /\
  pairing_of g (pair_all [(3, 2); (0, 1); (10, 11); (22, 23)]%N) /\ quiet_b g = false.
Proof.
  intros g. split; [apply api_lawful, mixture_api|]. split; [apply mixture_calm|].
  split; [apply id_room_check; vm_compute; reflexivity|]. split; [a_pairing|].
  vm_compute; reflexivity.
Qed.

(** A loop-free graph with 6 nodes and 8 edges on which maximum_matching,
    started from Pairing::new(), panics in augment. *)
Theorem C40_matching_panics_refuted :
  exists d, Api d /\ LoopFree (as_graph d) /\ id_room (as_graph d) /\ pairing_of (as_graph d) p_new /\
    forall iter, hash_order_ok iter -> matching_run iter (as_graph d) p_new (Panic PEvenPath).
Proof.
  exists panics. pose proof panics_api as Hd. pose proof (api_lawful _ Hd) as Hg.
  split; [done|]. split; [no_loops|]. split; [apply id_room_check; vm_compute; reflexivity|].
  split; [apply empty_pairing|]. intros iter Hit. a_run.
Qed.
Print Assumptions C40_matching_panics_refuted.

(** A loop-free graph with 8 nodes and 11 edges on which it never ends. *)
Theorem C40_matching_diverges_refuted :
  exists d, Api d /\ LoopFree (as_graph d) /\ id_room (as_graph d) /\ pairing_of (as_graph d) p_new /\
    forall iter, hash_order_ok iter -> matching_diverges iter (as_graph d) p_new.
Proof.
  exists spins. pose proof spins_api as Hd. pose proof (api_lawful _ Hd) as Hg.
  split; [done|]. split; [no_loops|]. split; [apply id_room_check; vm_compute; reflexivity|].
  split; [apply empty_pairing|]. intros iter Hit.
  apply (loops _ _ (pair_all <$> [[]; [(0, 6)]; [(0, 6); (2, 3)]; [(0, 6); (1, 5); (2, 3)];
    [(1, 5); (3, 4); (2, 6)]; [(0, 6); (1, 5); (3, 7)]]%N)); try done.
  - left.
  - intros q Hq. repeat (apply elem_of_cons in Hq as [-> | Hq]; [a_pairing|]). by apply elem_of_nil in Hq.
Qed.
Print Assumptions C40_matching_diverges_refuted.

(** C41: bipartite graphs and forests; more generally graphs without odd
    cycles.  No condition on ids. *)
Lemma no_odd_total g (Hg : Lawful g) iter (Hit : hash_order_ok iter) p (Hp : pairing_of g p) :
  (forall c, ~ odd_cycle g c) ->
  exists paths q, matching_run iter g p (Ok q) /\ augmentations iter g p paths q /\
    2 * length paths <= g_order g /\
    (forall M, listed_edges q M -> maximum g M) /\
    (forall v, is_Some (p !! v) -> is_Some (q !! v)).
Proof.
  intros Hno.
  destruct (tame_total g Hg iter Hit p Hp (no_odd_quiet g Hno) (or_intror Hno)) as (paths & q & Haug & Hord & Hkeep).
  assert (Hrun : matching_run iter g p (Ok q)) by (apply run_iff; eauto).
  exists paths, q. split_and!; try done.
  - rewrite (law_order g Hg).
    pose proof (pairing_order g Hg q (aug_pairing g Hg iter Hit p paths q Hp Haug)). lia.
  - intros M HM. by eapply run_maximum.
Qed.

Theorem C41_bipartite_total g (Hg : Lawful g) iter (Hit : hash_order_ok iter) p (Hp : pairing_of g p) :
  Bipartite g \/ Acyclic g ->
  exists paths q, matching_run iter g p (Ok q) /\ augmentations iter g p paths q /\
    2 * length paths <= g_order g /\
    (forall M, listed_edges q M -> maximum g M) /\
    (forall v, is_Some (p !! v) -> is_Some (q !! v)).
Proof.
  intros H. apply no_odd_total; try done.
  intros c. destruct H; [by apply bipartite_no_odd|by apply acyclic_no_odd].
Qed.
Print Assumptions C41_bipartite_total.
Example C41_case iter (Hit : hash_order_ok iter) : let g := as_graph ladder in
  Lawful g /\ Bipartite g /\ pairing_of g (pair_all [(usize_max, 1); (3, 4)]%N) /\
  matching_run iter g (pair_all [(usize_max, 1); (3, 4)]%N)
    (Ok (pair_all [(0, 1); (3, 4); (5, 6); (2, usize_max)]%N)).
Proof.
  intros g. assert (Hg : Lawful g) by apply api_lawful, ladder_api.
  split; [done|]. split; [apply ladder_bipartite|]. split; [a_pairing|a_result].
Qed.

(** C42 *)
Theorem C42_exact_test g (Hg : Lawful g) iter (Hit : hash_order_ok iter) p (Hp : pairing_of g p) :
  (* whatever is returned differs from p iff p was not maximum *)
  (forall q, matching_run iter g p (Ok q) -> (q = p <-> forall M, listed_edges p M -> maximum g M)) /\
  (* a maximum p is returned at once *)
  (id_room g \/ (forall c, ~ odd_cycle g c) -> (forall M, listed_edges p M -> maximum g M) ->
     search_is iter g p None /\ matching_run iter g p (Ok p)) /\
  (* running twice is running once *)
  (forall q, matching_run iter g p (Ok q) -> matching_run iter g q (Ok q)).
Proof.
  assert (Hsome : forall path, search_is iter g p (Some path) -> ~ (forall M, listed_edges p M -> maximum g M)).
  { intros path Hs. destruct (search_spec g Hg iter Hit p Hp) as (res & Hpost & Hres & _).
    apply Hres in Hs as ->. destruct Hpost as (_ & _ & (M & HM & Hlt) & _). by eapply not_maximum. }
  split_and!.
  - intros q Hrun. split.
    + intros ->. intros M HM. by eapply run_maximum.
    + intros Hmax. apply (run_iff g Hg iter Hit) in Hrun as (paths & Haug); [|done].
      inversion Haug as [|? path ? ? ? Hs]; subst; [done|]. by destruct (Hsome path Hs).
  - intros Hroom Hmax. destruct (search_spec g Hg iter Hit p Hp) as (res & Hpost & Hres & _).
    assert (Hs : search_is iter g p None).
    { destruct res as [[path|]| |e|]; try done.
      - by destruct (Hsome path (proj1 (Hres _) eq_refl)).
      - by apply Hres.
      - destruct e; try done. destruct Hpost as [H1 [c Hc]]. destruct Hroom as [H|H]; [done|].
        by destruct (H c). }
    split; [done|]. apply run_iff; try done. exists []. by constructor.
  - intros q Hrun. pose proof (proj1 (run_ok g iter p q Hg Hit Hp Hrun)) as Hq.
    apply (run_iff g Hg iter Hit) in Hrun as (paths & Haug); [|done].
    apply run_iff; try done. exists []. constructor. by eapply aug_final.
Qed.
Print Assumptions C42_exact_test.
Example C42_case iter (Hit : hash_order_ok iter) : let g := as_graph bowtie in
  let q := pair_all [(0, 2); (1, 5); (3, 4)]%N in
  Lawful g /\ id_room g /\ pairing_of g q /\ matching_run iter g q (Ok q) /\
  (forall M, listed_edges q M -> maximum g M).
Proof.
  intros g q. assert (Hg : Lawful g) by apply api_lawful, bowtie_api.
  split; [done|]. split; [apply id_room_check; vm_compute; reflexivity|].
  assert (Hq : pairing_of g q) by a_pairing.
  assert (Hrun : matching_run iter g q (Ok q)) by a_result.
  split; [done|]. split; [done|]. by apply (proj1 (C42_exact_test g Hg iter Hit q Hq) q Hrun).
Qed.

(** C43: the search for one path always ends, with a path of distinct adjacent
    nodes or with nothing; the only panics of the whole program are the one
    in augment and, for ids too close to usize::MAX, the overflow. *)
Theorem C43_failures_confined g (Hg : Lawful g) iter (Hit : hash_order_ok iter) p (Hp : pairing_of g p) :
  ((exists o, search_is iter g p o /\
      match o with
      | Some path => NoDup path /\ is_path g path /\ path <> [] /\ (forall v, v ∈ path -> v ∈ g_nodes g)
      | None => forall M, listed_edges p M -> maximum g M
      end) \/
   (~ id_room g /\ (exists c, odd_cycle g c) /\
      exists n, forall fuel tag, n <= fuel -> augmenting_path iter tag fuel g p = Panic POverflow)) /\
  (forall m, matching_run iter g p m ->
     (exists q, m = Ok q) \/ m = Panic PEvenPath \/
     (m = Panic POverflow /\ ~ id_room g /\ exists c, odd_cycle g c)).
Proof.
  split.
  - destruct (search_spec g Hg iter Hit p Hp) as (res & Hpost & Hres & n & Hset).
    destruct res as [o| |e|]; try done.
    + left. exists o. split; [by apply Hres|]. destruct o as [path|].
      * destruct Hpost as ((H1 & H2 & H3) & H4 & _). done.
      * destruct Hpost as (O & Cs & Hc). intros M (L & HL & ->). by eapply cert_maximum.
    + right. destruct e; try done. destruct Hpost as [H1 H2]. split; [done|]. split; [done|].
      exists n. intros fuel tag Hf. by apply (Hset tag).
  - intros m (Hne & n & Hn). pose proof (mm_post g n iter [] p Hg Hit Hp) as H. rewrite Hn in H by lia.
    destruct m as [q| |e|]; try done.
    + left. by exists q.
    + right. destruct H as [-> | (-> & H1 & H2)]; [by left|by right].
Qed.
Print Assumptions C43_failures_confined.
Example C43_case iter (Hit : hash_order_ok iter) : let g := as_graph panics in
  Lawful g /\ pairing_of g p_new /\ id_room g /\ matching_run iter g p_new (Panic PEvenPath).
Proof.
  intros g. assert (Hg : Lawful g) by apply api_lawful, panics_api.
  split; [done|]. split; [apply empty_pairing|]. split; [apply id_room_check; vm_compute; reflexivity|a_run].
Qed.

(** C44 *)
Theorem C44_order_independent g (Hg : Lawful g) iter iter' (Hit : hash_order_ok iter)
    (Hit' : hash_order_ok iter') p (Hp : pairing_of g p) :
  (forall m, matching_run iter g p m <-> matching_run iter' g p m) /\
  (matching_diverges iter g p <-> matching_diverges iter' g p) /\
  (forall o, search_is iter g p o <-> search_is iter' g p o).
Proof.
  assert (HE : forall fuel, maximum_matching iter [] fuel g p = maximum_matching iter' [] fuel g p).
  { intros fuel. by apply mm_indep. }
  assert (HA : forall fuel tag, augmenting_path iter tag fuel g p = augmenting_path iter' tag fuel g p).
  { intros fuel tag. by apply ap_indep. }
  split_and!.
  - intros m. split; intros (Hne & n & Hn); (split; [done|]); exists n; intros fuel Hf.
    + rewrite <-HE. auto.
    + rewrite HE. auto.
  - split; intros H fuel; [rewrite <-HE|rewrite HE]; apply H.
  - intros o. split; intros [n Hn]; exists n; intros fuel tag Hf; [rewrite <-HA|rewrite HA]; auto.
Qed.
Print Assumptions C44_order_independent.
(** Two orders that differ. *)
Example C44_case : hash_order_ok canon /\ hash_order_ok (fun tag p => reverse (map_to_list p)) /\
  (exists p, pairing_of (as_graph k4) p /\ canon [] p <> reverse (map_to_list p)) /\
  Lawful (as_graph k4).
Proof.
  split; [apply canon_ok|]. split.
  { intros tag p. by rewrite reverse_Permutation. }
  split; [|apply api_lawful, k4_api]. exists (pair_all [(1, 2)]%N). split; [a_pairing|].
  vm_compute. discriminate.
Qed.

(** C45: false of the code; true where C40 is. *)
Theorem C45_augmentation_gains_partial g (Hg : Lawful g) iter (Hit : hash_order_ok iter)
    p (Hp : pairing_of g p) path :
  calm_odd_cycles g -> search_is iter g p (Some path) ->
  exists q, p_augment p path = Ok q /\ p_order q = p_order p + 2 /\
    (forall v, is_Some (p !! v) -> is_Some (q !! v)).
Proof.
  intros Ht Hs. destruct (calm_augment g iter p path Hg Hit Ht Hp Hs) as (q & Hq & _ & Ho & Hk).
  by exists q.
Qed.
Print Assumptions C45_augmentation_gains_partial.
(** What an augmentation does on any graph: it panics iff the path found has an
    odd number of nodes; otherwise the number of paired nodes changes by the
    number of unpaired nodes of the path less the number of nodes of the path
    with a mate outside, whose mates become unpaired. *)
Theorem C45_augmentation_exact g (Hg : Lawful g) iter (Hit : hash_order_ok iter)
    p (Hp : pairing_of g p) path (Hs : search_is iter g p (Some path)) :
  (Nat.odd (length path) = true /\ p_augment p path = Panic PEvenPath) \/
  exists q, p_augment p path = Ok q /\ pairing_of g q /\
    (forall x, is_Some (q !! x) <->
       x ∈ path \/ exists y, p !! x = Some y /\ y ∉ path) /\
    forall U S, NoDup U -> (forall x, x ∈ U <-> x ∈ path /\ p !! x = None) ->
      NoDup S -> (forall x, x ∈ S <-> x ∈ path /\ exists y, p !! x = Some y /\ y ∉ path) ->
      p_order q + length S = p_order p + length U.
Proof.
  destruct (search_spec g Hg iter Hit p Hp) as (res & Hpost & Hres & _). pose proof Hs as Hs0.
  apply Hres in Hs0 as ->. destruct Hpost as ((Hnd & _) & _).
  destruct (Nat.odd (length path)) eqn:Eo; [left; split; [done|by apply augment_panic]|right].
  assert (Hev : Nat.even (length path) = true) by (by rewrite <-Nat.negb_odd, Eo).
  destruct (augment_any p path (proj1 Hp) Hnd Hev) as (q & Hq & _ & Hpairs & Hout & Hcount).
  exists q. split; [done|]. split; [by eapply search_step|]. split; [|done].
  intros x. destruct (decide (x ∈ path)) as [Hx|Hx].
  - split; [by left|]. intros _. destruct (even_length_pairs path x Hev Hx) as (y & [H|H]);
      apply path_pairs_elem in H as (i & H1 & H2); destruct (Hpairs i _ _ H1 H2); by eexists.
  - destruct (Hout x Hx) as [H1 H2]. split.
    + intros Hqx. right. destruct (p !! x) as [y|] eqn:E.
      * exists y. split; [done|]. intros Hy. rewrite (H1 y) in Hqx by done. by destruct Hqx.
      * rewrite H2 in Hqx by done. by destruct Hqx.
    + intros [?|(y & Hxy & Hy)]; [done|]. rewrite H2; [by eexists|]. intros z Hz. congruence.
Qed.
Print Assumptions C45_augmentation_exact.
Example C45_case iter (Hit : hash_order_ok iter) : let g := as_graph rings in
  Lawful g /\ calm_odd_cycles g /\ pairing_of g (pair_all [(3, 2); (0, 1); (5, 6)]%N) /\
  search_is iter g (pair_all [(3, 2); (0, 1); (5, 6)]%N) (Some [5; 6; 4; 3; 2; 1; 0; 7]%N).
Proof.
  intros g. assert (Hg : Lawful g) by apply api_lawful, rings_api.
  split; [done|]. split; [apply quiet_calm, disjoint_quiet, rings_disjoint|]. split; [a_pairing|].
  eapply search_or; [done|done|a_pairing|]. erewrite (ap_indep 100 g _ iter canon [] []); try done.
  - a_pairing.
  - apply canon_ok.
Qed.

(** An augmentation that loses a pair. *)
Theorem C45_augmentation_gains_refuted :
  exists d p, Api d /\ LoopFree (as_graph d) /\ pairing_of (as_graph d) p /\
    forall iter, hash_order_ok iter ->
      exists path q, search_is iter (as_graph d) p (Some path) /\ p_augment p path = Ok q /\
        p_order q + 2 = p_order p.
Proof.
  exists shrinks, (pair_all [(5, 1); (0, 8); (6, 3); (2, 7)]%N).
  pose proof shrinks_api as Hd. pose proof (api_lawful _ Hd) as Hg.
  split; [done|]. split; [no_loops|]. split; [a_pairing|]. intros iter Hit.
  destruct (next_search (as_graph shrinks) (pair_all [(5, 1); (0, 8); (6, 3); (2, 7)]%N)
    (pair_all [(0, 7); (1, 4); (3, 6)]%N) iter) as (path & Hs & Hq); try done.
  - a_pairing.
  - apply ends_ok. vm_compute. reflexivity.
  - exists path, (pair_all [(0, 7); (1, 4); (3, 6)]%N). split; [done|]. split; [done|].
    vm_compute. reflexivity.
Qed.
Print Assumptions C45_augmentation_gains_refuted.

(** C46: ids close to usize::MAX overflow when a blossom is contracted. *)
Theorem C46_no_overflow_partial g (Hg : Lawful g) iter (Hit : hash_order_ok iter)
    p (Hp : pairing_of g p) :
  id_room g \/ (forall c, ~ odd_cycle g c) -> ~ matching_run iter g p (Panic POverflow).
Proof.
  intros Hroom Hrun. destruct (proj2 (C43_failures_confined g Hg iter Hit p Hp) _ Hrun)
    as [[q Hq]|[Hq|(_ & H1 & c & Hc)]]; try done. destruct Hroom as [H|H]; [done|]. by apply (H c).
Qed.
Print Assumptions C46_no_overflow_partial.
Example C46_case : let g := as_graph ladder in
  Lawful g /\ usize_max ∈ g_nodes g /\ forall c, ~ odd_cycle g c.
Proof.
  intros g. split; [apply api_lawful, ladder_api|]. split.
  - apply (law_has_node g); [apply api_lawful, ladder_api|vm_compute; reflexivity].
  - intros c. apply bipartite_no_odd, ladder_bipartite.
Qed.

Theorem C46_overflow_refuted :
  exists d, Api d /\ LoopFree (as_graph d) /\ g_order (as_graph d) = 3 /\
    (forall v, v ∈ g_nodes (as_graph d) -> (v <= usize_max)%N) /\
    forall iter, hash_order_ok iter -> matching_run iter (as_graph d) p_new (Panic POverflow).
Proof.
  exists giant. pose proof giant_api as Hd. pose proof (api_lawful _ Hd) as Hg.
  split; [done|]. split; [no_loops|]. split; [vm_compute; reflexivity|]. split.
  - intros v Hv. vm_compute in Hv.
    repeat (apply elem_of_cons in Hv as [-> | Hv]; [vm_compute; discriminate|]).
    by apply elem_of_nil in Hv.
  - intros iter Hit. a_run.
Qed.
Print Assumptions C46_overflow_refuted.

(** C47 *)
Theorem C47_perfect_found g (Hg : Lawful g) iter (Hit : hash_order_ok iter) p (Hp : pairing_of g p) q M :
  perfect g M -> matching_run iter g p (Ok q) ->
  p_order q = g_order g /\ forall v, v ∈ g_nodes g -> is_Some (q !! v).
Proof.
  intros [HM Hall] Hrun.
  destruct (run_maximum g iter p q _ Hg Hit Hp Hrun (listed_here q)) as [[_ Hmax] Hlen].
  specialize (Hmax M HM).
  pose proof (proj1 (run_ok g iter p q Hg Hit Hp Hrun)) as Hq.
  pose proof (pairing_order g Hg q Hq) as Hle. rewrite (law_order g Hg).
  assert (Hge : length (g_nodes g) <= 2 * length M).
  { rewrite <-endpoints_length. apply submseteq_length, NoDup_submseteq; [apply Hg|done]. }
  split; [lia|]. intros v Hv.
  destruct (q !! v) as [w|] eqn:E; [by exists w|]. exfalso.
  (* q would fit into the nodes other than v *)
  assert (Hd : dom q ⊆@{gset N} list_to_set (filter (fun x => x <> v) (g_nodes g))).
  { intros x [y Hy]%elem_of_dom. apply elem_of_list_to_set, elem_of_list_filter. split; [congruence|].
    by eapply (adj_nodes g Hg x y), Hq. }
  apply subseteq_size in Hd. rewrite size_dom, size_list_to_set in Hd by apply NoDup_filter, Hg.
  assert (length (filter (fun x => x <> v) (g_nodes g)) < length (g_nodes g)); [|unfold p_order in *; lia].
  rewrite (length_filter_split (fun x => x <> v) (g_nodes g)).
  assert (v ∈ filter (fun x => ~ x <> v) (g_nodes g)) as Hin by (apply elem_of_list_filter; split; [by intros ?|done]).
  destruct (filter (fun x => ~ x <> v) (g_nodes g)); [by apply elem_of_nil in Hin|simpl; lia].
Qed.
Print Assumptions C47_perfect_found.
Example C47_case iter (Hit : hash_order_ok iter) : let g := as_graph wheel in
  Lawful g /\ pairing_of g p_new /\ perfect g [(0, 10); (1, 11); (2, 3); (4, 5); (6, 7); (8, 9)]%N /\
  exists q, matching_run iter g p_new (Ok q).
Proof.
  intros g. assert (Hg : Lawful g) by apply api_lawful, wheel_api. split; [done|].
  split; [apply empty_pairing|]. split.
  - split.
    + assert (Hp : pairing_of g (pair_all [(0, 10); (1, 11); (2, 3); (4, 5); (6, 7); (8, 9)]%N)) by a_pairing.
      split; [|apply (bool_decide_eq_true_1 _); vm_compute; reflexivity].
      intros u v Huv. apply (proj2 Hp).
      repeat (apply elem_of_cons in Huv as [[= -> ->] | Huv]; [vm_compute; reflexivity|]).
      by apply elem_of_nil in Huv.
    + intros v Hv.
      assert (Hall : forallb (fun v => bool_decide (v ∈ endpoints
        [(0, 10); (1, 11); (2, 3); (4, 5); (6, 7); (8, 9)]%N)) (g_nodes g) = true) by (vm_compute; reflexivity).
      rewrite forallb_forall in Hall. specialize (Hall v). rewrite <-elem_of_list_In in Hall.
      specialize (Hall Hv). by apply bool_decide_eq_true in Hall.
  - exists (pair_all [(0, 10); (1, 11); (2, 3); (4, 5); (6, 7); (8, 9)]%N).
    apply run_canon; [done|apply empty_pairing|done|apply ends_ok; vm_compute; reflexivity|done].
Qed.

(** C48 *)
Lemma greedy_unique g p p' : greedy_is g p -> greedy_is g p' -> p = p'.
Proof.
  intros [n Hn] [n' Hn']. specialize (Hn (n + n') ltac:(lia)). specialize (Hn' (n + n') ltac:(lia)).
  congruence.
Qed.
Lemma greedy_eval d p : Api d -> LoopFree (as_graph d) ->
  g_size (as_graph d) + length (g_nodes (as_graph d)) < 100 ->
  greedy 100 (as_graph d) = Ok p -> greedy_is (as_graph d) p.
Proof.
  intros Hd Hl Hlt E.
  destruct (greedy_run (as_graph d) (api_lawful d Hd) Hl ∅ (g_nodes (as_graph d)) (∅, p_new)
    ltac:(done)) as (ds & st & _ & _ & Hf).
  exists 100. intros fuel Hfuel. rewrite <-E. unfold greedy, components. rewrite !Hf by lia. done.
Qed.
Theorem C48_greedy_start g (Hg : Lawful g) (Hl : LoopFree g) iter (Hit : hash_order_ok iter) :
  exists p, greedy_is g p /\ pairing_of g p /\
    forall q, matching_run iter g p (Ok q) ->
      p_order p <= p_order q /\ forall M, listed_edges q M -> maximum g M.
Proof.
  destruct (greedy_valid g Hg Hl) as (p & n & Hp & Hf). exists p. split; [by exists n|].
  split; [done|]. intros q Hrun.
  destruct (run_maximum g iter p q _ Hg Hit Hp Hrun (listed_here q)) as [[_ Hmax] Hlen].
  split; [|intros M HM; by eapply run_maximum].
  specialize (Hmax _ (pairing_matching g p _ Hp (reflexivity (map_to_list p)))).
  pose proof (p_edges_length p (proj1 Hp) _ (reflexivity (map_to_list p))). lia.
Qed.
Print Assumptions C48_greedy_start.
Example C48_case iter (Hit : hash_order_ok iter) : let g := as_graph rings in
  Lawful g /\ LoopFree g /\ greedy_is g (pair_all [(0, 1); (3, 4); (5, 6)]%N) /\
  matching_run iter g (pair_all [(0, 1); (3, 4); (5, 6)]%N)
    (Ok (pair_all [(0, 7); (1, 2); (3, 4); (5, 6)]%N)).
Proof.
  intros g. pose proof rings_api as Hd. assert (Hg : Lawful g) by (by apply api_lawful).
  assert (Hl : LoopFree g) by no_loops. split; [done|]. split; [done|]. split; [|a_result].
  apply greedy_eval; [done|done|vm_compute; lia|]. apply ends_ok. vm_compute. reflexivity.
Qed.

(** C49: total correctness where C40 holds. *)
Theorem C49_tame_total g (Hg : Lawful g) iter (Hit : hash_order_ok iter) p (Hp : pairing_of g p) :
  calm_odd_cycles g -> id_room g ->
  exists paths q, matching_run iter g p (Ok q) /\ augmentations iter g p paths q /\
    (forall M, listed_edges q M -> maximum g M) /\
    p_order q = p_order p + 2 * length paths /\
    (forall v, is_Some (p !! v) -> is_Some (q !! v)).
Proof.
  intros Ht Hroom.
  destruct (calm_total g iter p Hg Hit Hp Ht Hroom) as (paths & q & Haug & Hord & Hkeep).
  assert (Hrun : matching_run iter g p (Ok q)) by (apply run_iff; eauto).
  exists paths, q. split_and!; try done. intros M HM. by eapply run_maximum.
Qed.
Print Assumptions C49_tame_total.
(** The two classes named first in C49, and the class of C61. *)
Theorem C49_pendant_or_disjoint g (Hg : Lawful g) :
  pendant_odd_cycles g \/ disjoint_odd_cycles g \/ adjacency_transitive g -> calm_odd_cycles g.
Proof.
  intros [H|[H|H]]; [by apply quiet_calm, pendant_quiet|by apply quiet_calm, disjoint_quiet|].
  by apply transitive_calm.
Qed.
Print Assumptions C49_pendant_or_disjoint.
Example C49_case iter (Hit : hash_order_ok iter) : let g := as_graph mixture in
  let p := pair_all [(1, 2); (10, 11); (22, 23)]%N in
  Lawful g /\ calm_odd_cycles g /\ id_room g /\ pairing_of g p /\
  matching_run iter g p (Ok (pair_all [(0, 7); (1, 2); (3, 4); (5, 6); (10, 12); (11, 13); (20, 21); (22, 23);
    (30, 34); (31, 32); (33, 35)]%N)).
Proof.
  intros g p. assert (Hg : Lawful g) by apply api_lawful, mixture_api.
  split; [done|]. split; [apply mixture_calm|].
  split; [apply id_room_check; vm_compute; reflexivity|]. split; [a_pairing|a_result].
Qed.

(** C50: if every odd cycle is a block of its own, maximum_matching never panics. *)
Theorem C50_separated_no_panic g (Hg : Lawful g) iter (Hit : hash_order_ok iter)
    p (Hp : pairing_of g p) :
  separated_odd_cycles g -> id_room g -> forall e, ~ matching_run iter g p (Panic e).
Proof.
  intros Hs Hroom e (_ & n & Hn). specialize (Hn n ltac:(lia)).
  by apply (separated_no_panic g Hg iter Hit n [] p e Hp Hs Hroom).
Qed.
Print Assumptions C50_separated_no_panic.
Example C50_case : let g := as_graph bowtie in
  Lawful g /\ separated_odd_cycles g /\ id_room g /\ pairing_of g (pair_all [(0, 1)]%N) /\
  pendant_b g = false /\ disjoint_b g = false.
Proof.
  intros g. split; [apply api_lawful, bowtie_api|]. split; [apply bowtie_separated|].
  split; [apply id_room_check; vm_compute; reflexivity|]. split; [a_pairing|].
  split; vm_compute; reflexivity.
Qed.

(** On such graphs it need not end: a cactus of five triangles and one bridge,
    12 nodes and 16 edges, on which maximum_matching started from
    Pairing::new() augments forever. *)
Theorem C50_separated_diverges :
  exists d, Api d /\ LoopFree (as_graph d) /\ separated_odd_cycles (as_graph d) /\
    id_room (as_graph d) /\ pairing_of (as_graph d) p_new /\
    forall iter, hash_order_ok iter -> matching_diverges iter (as_graph d) p_new.
Proof.
  set (d := get (dg_try_from_edges [(2, 3); (8, 3); (1, 11); (5, 8); (1, 9); (9, 11); (0, 8); (6, 2);
    (4, 1); (8, 1); (7, 1); (5, 0); (2, 8); (2, 10); (4, 7); (6, 10)]%N)).
  assert (Hd : Api d) by (apply get_edges_api; is_ok). pose proof (api_lawful _ Hd) as Hg.
  exists d. split; [done|]. split; [no_loops|].
  split; [apply separated_check; [done|vm_compute; reflexivity]|].
  split; [apply id_room_check; vm_compute; reflexivity|].
  split; [apply empty_pairing|]. intros iter Hit.
  apply (loops _ _ (pair_all <$> [[]; [(2, 3)]; [(2, 3); (5, 8)]; [(1, 11); (2, 3); (5, 8)];
    [(1, 4); (2, 3); (5, 8); (9, 11)]; [(0, 5); (1, 4); (2, 6); (3, 8); (9, 11)];
    [(0, 5); (1, 8); (2, 6); (9, 11)]]%N)); try done.
  - left.
  - intros q Hq. repeat (apply elem_of_cons in Hq as [-> | Hq]; [a_pairing|]). by apply elem_of_nil in Hq.
Qed.
Print Assumptions C50_separated_diverges.

(** C51: maximum_matching, which calls itself twice after each augmentation,
    ends in every case exactly like the plain loop "search, augment, repeat":
    same result, same panic, or no end. *)
Theorem C51_plain_loop g (Hg : Lawful g) iter (Hit : hash_order_ok iter) p (Hp : pairing_of g p) :
  (forall q, matching_run iter g p (Ok q) <->
     exists paths, rounds iter g p paths q /\ search_is iter g q None) /\
  (forall e, matching_run iter g p (Panic e) <->
     exists paths q, rounds iter g p paths q /\
       (search_panics iter g q e \/
        exists path, search_is iter g q (Some path) /\ p_augment q path = Panic e)) /\
  (matching_diverges iter g p <->
     forall k, exists paths q, length paths = k /\ rounds iter g p paths q).
Proof.
  split_and!.
  - intros q. rewrite (run_iff g Hg iter Hit p q Hp). split; intros [paths H]; exists paths;
      by apply rounds_augmentations.
  - intros e. by apply run_panic.
  - by apply run_forever.
Qed.
Print Assumptions C51_plain_loop.
Example C51_case iter (Hit : hash_order_ok iter) : let g := as_graph wheel in
  Lawful g /\ pairing_of g p_new /\
  exists paths q, length paths = 6 /\ rounds iter g p_new paths q /\ search_is iter g q None.
Proof.
  intros g. assert (Hg : Lawful g) by apply api_lawful, wheel_api. split; [done|].
  split; [apply empty_pairing|].
  set (q := pair_all [(0, 10); (1, 11); (2, 3); (4, 5); (6, 7); (8, 9)]%N).
  destruct (round_trace g p_new (pair_all <$> [[(0, 1)]; [(0, 1); (2, 3)]; [(0, 1); (2, 3); (4, 5)];
    [(0, 1); (2, 3); (4, 5); (6, 7)]; [(0, 1); (2, 3); (4, 5); (8, 9); (6, 7)];
    [(0, 10); (1, 11); (2, 3); (4, 5); (6, 7); (8, 9)]]%N) iter Hg Hit) as (paths & Hlen & Hr).
  - intros x Hx. apply elem_of_cons in Hx as [->|Hx]; [apply empty_pairing|].
    repeat (apply elem_of_cons in Hx as [-> | Hx]; [a_pairing|]). by apply elem_of_nil in Hx.
  - vm_compute. reflexivity.
  - exists paths, q. split; [rewrite Hlen; reflexivity|]. split.
    { replace q with (List.last (pair_all <$> [[(0, 1)]; [(0, 1); (2, 3)]; [(0, 1); (2, 3); (4, 5)];
        [(0, 1); (2, 3); (4, 5); (6, 7)]; [(0, 1); (2, 3); (4, 5); (8, 9); (6, 7)];
        [(0, 10); (1, 11); (2, 3); (4, 5); (6, 7); (8, 9)]]%N) p_new); [exact Hr|reflexivity]. }
    assert (Hq : pairing_of g q) by a_pairing.
    assert (Hrun : matching_run iter g q (Ok q)) by a_result.
    apply (run_iff g Hg iter Hit q q Hq) in Hrun as (paths' & Haug).
    exact (aug_final g iter _ _ _ Haug).
Qed.

(** C52: rings and paths: maximum degree two. *)
Lemma low_degree_pendant g : Lawful g ->
  (forall c v n, odd_cycle g c -> v ∈ c -> g_degree g v = Ok n -> n <= 2) -> pendant_odd_cycles g.
Proof.
  intros Hg Hdeg C x y u v Hc Hx Hy Hu Hv Hxu Hyv.
  (* three different neighbors are too many *)
  assert (Hthree : forall a b c d, a ∈ C -> adj g a b -> adj g a c -> adj g a d -> NoDup [b; c; d] -> False).
  { intros a b c d Ha (l & Hl & Hb) (l1 & Hl1 & Hc1) (l2 & Hl2 & Hd) Hnd.
    rewrite Hl in Hl1, Hl2. injection Hl1 as <-. injection Hl2 as <-.
    pose proof (Hdeg C a _ Hc Ha (law_degree g Hg a l Hl)) as Hle.
    assert (length [b; c; d] <= length l); [|simpl in *; lia].
    apply submseteq_length, NoDup_submseteq; [done|]. intros z Hz.
    repeat (apply elem_of_cons in Hz as [->|Hz]; [done|]). by apply elem_of_nil in Hz. }
  (* a node of a longer cycle has no neighbor outside *)
  assert (Hlong : forall z w, z ∈ C -> w ∉ C -> adj g z w -> C = [z]).
  { intros z w Hz Hw Hzw. destruct Hc as (Hnd & Hodd & Hp & Hcl). pose proof Hz as HzC.
    apply elem_of_list_split in Hz as (a & c & ->).
    destruct (rotate_path g a z c Hp Hcl) as [Hr Hcl'].
    assert (Hperm : a ++ z :: c ≡ₚ z :: c ++ a) by (by rewrite Permutation_app_comm).
    assert (Hlen : length (a ++ z :: c) = S (length (c ++ a))) by (by rewrite Hperm).
    rewrite Hlen in Hodd. rewrite Hperm in Hnd.
    assert (Hw' : w ∉ z :: c ++ a) by (by rewrite <-Hperm).
    destruct (c ++ a) as [|s r] eqn:Eca.
    { apply app_eq_nil in Eca as [-> ->]. done. }
    exfalso. destruct (last r) as [t|] eqn:Ht.
    2:{ apply last_None in Ht as ->. done. }
    assert (Htr : t ∈ r).
    { apply last_Some in Ht as [r' ->]. apply elem_of_app. right. left. }
    assert (Hzs : adj g z s) by (by apply is_path_cons2 in Hr as [? _]).
    assert (Htz : adj g t z).
    { apply Hcl'; [done|]. change (last (z :: s :: r)) with (last (s :: r)).
      destruct r; [done|]. exact Ht. }
    apply NoDup_cons in Hnd as [Hz1 Hnd]. apply NoDup_cons in Hnd as [Hs1 Hnd].
    apply (Hthree z s t w HzC Hzs (law_adj_sym g Hg _ _ Htz) Hzw).
    assert (s <> t) by (intros ->; done).
    assert (w <> s) by (intros ->; apply Hw'; right; left).
    assert (w <> t) by (intros ->; apply Hw'; right; right; done).
    repeat constructor; rewrite ?elem_of_cons, ?elem_of_nil; naive_solver. }
  pose proof (Hlong x u Hx Hu Hxu) as ->. apply elem_of_list_singleton in Hy as ->.
  destruct (decide (u = v)) as [|Huv]; [done|]. exfalso.
  destruct Hc as (_ & _ & _ & Hcl). specialize (Hcl x x eq_refl eq_refl).
  apply (Hthree x x u v Hx Hcl Hxu Hyv).
  apply not_elem_of_cons in Hu as [? _]. apply not_elem_of_cons in Hv as [? _].
  repeat constructor; rewrite ?elem_of_cons, ?elem_of_nil; naive_solver.
Qed.

Theorem C52_rings_and_paths g (Hg : Lawful g) iter (Hit : hash_order_ok iter) p (Hp : pairing_of g p) :
  (forall v n, g_degree g v = Ok n -> n <= 2) -> id_room g ->
  exists q, matching_run iter g p (Ok q) /\ (forall M, listed_edges q M -> maximum g M) /\
    (forall v, is_Some (p !! v) -> is_Some (q !! v)).
Proof.
  intros Hdeg Hroom.
  destruct (C49_tame_total g Hg iter Hit p Hp (quiet_calm g (pendant_quiet g (low_degree_pendant g Hg (fun _ v n _ _ => Hdeg v n)))) Hroom)
    as (paths & q & H1 & _ & H2 & _ & H3). by exists q.
Qed.
Print Assumptions C52_rings_and_paths.
Example C52_case iter (Hit : hash_order_ok iter) : let g := as_graph strips in
  Lawful g /\ (forall v n, g_degree g v = Ok n -> n <= 2) /\ id_room g /\
  pairing_of g (pair_all [(0, 1); (5, 6)]%N) /\
  matching_run iter g (pair_all [(0, 1); (5, 6)]%N) (Ok (pair_all [(0, 1); (5, 6); (2, 3)]%N)).
Proof.
  intros g. assert (Hg : Lawful g) by apply api_lawful, strips_api. split; [done|].
  split.
  { assert (Hall : forallb (fun v => match g_degree g v with Ok n => n <=? 2 | _ => true end) (g_nodes g) = true)
      by (vm_compute; reflexivity).
    intros v n Hn. destruct (decide (v ∈ g_nodes g)) as [Hv|Hv].
    - rewrite forallb_forall in Hall. specialize (Hall v). rewrite <-elem_of_list_In, Hn in Hall.
      by apply Nat.leb_le, Hall.
    - by rewrite (law_degree_err g Hg v Hv) in Hn. }
  split; [apply id_room_check; vm_compute; reflexivity|]. split; [a_pairing|a_result].
Qed.

(** C53: the size of the answer depends on the graph alone. *)
Theorem C53_size_determined g h (Hg : Lawful g) (Hh : Lawful h) iter iter'
    (Hit : hash_order_ok iter) (Hit' : hash_order_ok iter')
    p p' (Hp : pairing_of g p) (Hp' : pairing_of h p') q q' :
  same_graph g h -> matching_run iter g p (Ok q) -> matching_run iter' h p' (Ok q') ->
  p_order q = p_order q'.
Proof.
  intros [_ Hadj] H H'.
  destruct (run_maximum g iter p q _ Hg Hit Hp H (listed_here q)) as [[HM1 Hmax] Hlen].
  destruct (run_maximum h iter' p' q' _ Hh Hit' Hp' H' (listed_here q')) as [[HM2 Hmax'] Hlen'].
  assert (Hgh : forall M, matching g M <-> matching h M).
  { intros M. unfold matching. split; intros [Ha Hnd]; (split; [|done]); intros u v Huv; apply Hadj; auto. }
  specialize (Hmax _ (proj2 (Hgh _) HM2)). specialize (Hmax' _ (proj1 (Hgh _) HM1)). lia.
Qed.
Print Assumptions C53_size_determined.
Example C53_case iter (Hit : hash_order_ok iter) : let g := as_graph k4 in
  Lawful g /\ same_graph g g /\ pairing_of g p_new /\ pairing_of g (pair_all [(1, 2)]%N) /\
  matching_run iter g p_new (Ok (pair_all [(0, 2); (1, 3)]%N)) /\
  matching_run iter g (pair_all [(1, 2)]%N) (Ok (pair_all [(0, 1); (2, 3)]%N)).
Proof.
  intros g. assert (Hg : Lawful g) by apply api_lawful, k4_api. split; [done|].
  split; [by split|]. split; [apply empty_pairing|]. split; [a_pairing|]. split; a_result.
Qed.

(** C54: every answer comes with a proof of optimality (Tutte-Berge): the nodes
    can be divided into a set O and groups Cs such that every edge touches O or
    lies inside one group, and the number of pairs equals |O| plus the number
    of disjoint pairs that fit into the groups. *)
Theorem C54_optimality_witness g (Hg : Lawful g) iter (Hit : hash_order_ok iter)
    p (Hp : pairing_of g p) q :
  matching_run iter g p (Ok q) ->
  exists O Cs, O ++ concat Cs ≡ₚ g_nodes g /\
    (forall u v, u <> v -> adj g u v ->
       u ∈ O \/ v ∈ O \/ exists C, C ∈ Cs /\ u ∈ C /\ v ∈ C) /\
    forall M, listed_edges q M -> length M = length O + sum_list ((fun C => length C / 2) <$> Cs).
Proof.
  intros Hrun. destruct (run_ok g iter p q Hg Hit Hp Hrun) as (Hq & O & Cs & [H1 H2 H3]).
  exists O, Cs. split; [done|]. split; [done|]. intros M (L & HL & ->).
  pose proof (p_edges_length q (proj1 Hq) L HL). unfold halves in H3. lia.
Qed.
Print Assumptions C54_optimality_witness.
Example C54_case iter (Hit : hash_order_ok iter) : let g := as_graph bowtie in
  Lawful g /\ pairing_of g p_new /\ matching_run iter g p_new (Ok (pair_all [(0, 2); (1, 5); (3, 4)]%N)).
Proof.
  intros g. assert (Hg : Lawful g) by apply api_lawful, bowtie_api. split; [done|].
  split; [apply empty_pairing|]. a_result.
Qed.

(** C55: the documented use, greedy first and then maximum_matching, returns
    where C40 holds; in general it may panic or run forever. *)
Theorem C55_pipeline_total_partial g (Hg : Lawful g) (Hl : LoopFree g) iter (Hit : hash_order_ok iter) :
  calm_odd_cycles g -> id_room g ->
  exists p q, greedy_is g p /\ matching_run iter g p (Ok q) /\ (forall M, listed_edges q M -> maximum g M).
Proof.
  intros Ht Hroom. destruct (greedy_valid g Hg Hl) as (p & n & Hp & Hf).
  destruct (C49_tame_total g Hg iter Hit p Hp Ht Hroom) as (paths & q & H1 & _ & H2 & _).
  exists p, q. split; [by exists n|done].
Qed.
Print Assumptions C55_pipeline_total_partial.
Example C55_case : let g := as_graph rings in
  Lawful g /\ LoopFree g /\ calm_odd_cycles g /\ id_room g.
Proof.
  intros g. pose proof rings_api as Hd. split; [by apply api_lawful|]. split; [no_loops|].
  split; [apply quiet_calm, disjoint_quiet, rings_disjoint|apply id_room_check; vm_compute; reflexivity].
Qed.

Theorem C55_pipeline_panics_refuted :
  exists d p, Api d /\ LoopFree (as_graph d) /\ id_room (as_graph d) /\ greedy_is (as_graph d) p /\
    forall iter, hash_order_ok iter -> matching_run iter (as_graph d) p (Panic PEvenPath).
Proof.
  set (d := get (dg_try_from_edges [(1, 2); (4, 2); (4, 0); (4, 3); (0, 1); (3, 1); (5, 4); (3, 2)]%N)).
  assert (Hd : Api d) by (apply get_edges_api; is_ok). pose proof (api_lawful _ Hd) as Hg.
  assert (Hl : LoopFree (as_graph d)) by no_loops.
  exists d, (pair_all [(1, 2); (4, 0)]%N). split; [done|]. split; [done|].
  split; [apply id_room_check; vm_compute; reflexivity|]. split.
  - apply greedy_eval; [done|done|vm_compute; lia|]. apply ends_ok. vm_compute. reflexivity.
  - intros iter Hit. a_run.
Qed.
Print Assumptions C55_pipeline_panics_refuted.

Theorem C55_pipeline_diverges_refuted :
  exists d p, Api d /\ LoopFree (as_graph d) /\ id_room (as_graph d) /\ greedy_is (as_graph d) p /\
    forall iter, hash_order_ok iter -> matching_diverges iter (as_graph d) p.
Proof.
  set (d := get (dg_try_from_edges [(6, 3); (4, 5); (6, 0); (3, 0); (4, 2); (4, 6); (6, 2); (4, 0);
    (0, 7); (3, 7); (3, 5); (1, 3); (5, 1); (1, 7); (0, 5)]%N)).
  assert (Hd : Api d) by (apply get_edges_api; is_ok). pose proof (api_lawful _ Hd) as Hg.
  assert (Hl : LoopFree (as_graph d)) by no_loops.
  exists d, (pair_all [(6, 3); (4, 5)]%N). split; [done|]. split; [done|].
  split; [apply id_room_check; vm_compute; reflexivity|]. split.
  - apply greedy_eval; [done|done|vm_compute; lia|]. apply ends_ok. vm_compute. reflexivity.
  - intros iter Hit.
    apply (loops _ _ (pair_all <$> [[(6, 3); (4, 5)]; [(0, 3); (2, 6); (4, 5)]; [(0, 4); (1, 3); (2, 6)];
      [(3, 7); (2, 6); (4, 5)]]%N)); try done.
    + a_pairing.
    + left.
    + intros q Hq. repeat (apply elem_of_cons in Hq as [-> | Hq]; [a_pairing|]). by apply elem_of_nil in Hq.
Qed.
Print Assumptions C55_pipeline_diverges_refuted.

(** C60: graphs with at most five nodes, self-loops allowed. *)
Lemma small_quiet g : Lawful g -> length (g_nodes g) <= 5 -> quiet_odd_cycles g.
Proof.
  intros Hg Hn c Hc H3. right. right.
  assert (Hin : forall y, y ∈ c -> y ∈ g_nodes g) by (by apply (odd_cycle_nodes g c)).
  assert (Hlen : length (filter (fun x => x ∉ c) (g_nodes g)) <= 2).
  { assert (length c + length (filter (fun x => x ∉ c) (g_nodes g)) <= length (g_nodes g)); [|lia].
    rewrite <-app_length. apply submseteq_length, NoDup_submseteq.
    - apply NoDup_app. split; [apply Hc|]. split; [|apply NoDup_filter, (law_nodes g Hg)].
      intros y Hy [? _]%elem_of_list_filter. done.
    - intros y [Hy|[_ Hy]%elem_of_list_filter]%elem_of_app; auto. }
  assert (Hpick : exists u v, forall y, y ∈ filter (fun x => x ∉ c) (g_nodes g) -> y = u \/ y = v).
  { destruct (filter (fun x => x ∉ c) (g_nodes g)) as [|u [|v [|w l]]].
    - exists 0%N, 0%N. intros y Hy. by apply elem_of_nil in Hy.
    - exists u, u. intros y Hy. left. by apply elem_of_list_singleton.
    - exists u, v. intros y Hy. set_solver.
    - simpl in Hlen. lia. }
  destruct Hpick as (u & v & Hpick). exists u, v. intros x y Hx Hxy.
  destruct (decide (y ∈ c)) as [|Hy]; [by left|]. right. apply Hpick.
  apply elem_of_list_filter. split; [done|].
  destruct (rtc_inv_r _ _ Hxy) as [<-|(z & _ & Hzy)]; [auto|]. by eapply (adj_nodes g Hg z y).
Qed.

Theorem C60_five_nodes g (Hg : Lawful g) iter (Hit : hash_order_ok iter) p (Hp : pairing_of g p) :
  g_order g <= 5 -> id_room g ->
  exists paths q, matching_run iter g p (Ok q) /\ augmentations iter g p paths q /\
    (forall M, listed_edges q M -> maximum g M) /\
    p_order q = p_order p + 2 * length paths /\
    (forall v, is_Some (p !! v) -> is_Some (q !! v)).
Proof.
  intros Hn Hroom. rewrite (law_order g Hg) in Hn.
  by apply C49_tame_total; [..|apply quiet_calm, small_quiet|].
Qed.
Print Assumptions C60_five_nodes.
Example C60_case iter (Hit : hash_order_ok iter) :
  let g := as_graph (get (dg_try_from_edges [(0, 1); (1, 2); (2, 0); (2, 3); (3, 4); (4, 2); (0, 3); (1, 1)]%N)) in
  Lawful g /\ g_order g <= 5 /\ id_room g /\ pairing_of g (pair_all [(0, 2)]%N) /\
  pendant_b g = false /\ disjoint_b g = false /\ separated_b g = false /\
  matching_run iter g (pair_all [(0, 2)]%N) (Ok (pair_all [(0, 1); (2, 3)]%N)).
Proof.
  intros g. assert (Hg : Lawful g) by (apply api_lawful, get_edges_api; is_ok).
  split; [done|]. split; [vm_compute; lia|].
  split; [apply id_room_check; vm_compute; reflexivity|]. split; [a_pairing|].
  do 3 (split; [vm_compute; reflexivity|]). a_result.
Qed.

(** With six nodes it fails. *)
Theorem C60_six_nodes :
  exists d, Api d /\ g_order (as_graph d) = 6 /\ LoopFree (as_graph d) /\ id_room (as_graph d) /\
    forall iter, hash_order_ok iter -> matching_run iter (as_graph d) p_new (Panic PEvenPath).
Proof.
  exists panics. pose proof panics_api as Hd. pose proof (api_lawful _ Hd) as Hg.
  split; [done|]. split; [done|]. split; [no_loops|]. split; [apply id_room_check; vm_compute; reflexivity|].
  intros iter Hit. a_run.
Qed.
Print Assumptions C60_six_nodes.

(** C66: where greedy is maximal it finds at least half of the pairs of a
    maximum matching, and maximum_matching then needs at most as many
    augmentations as greedy found pairs. *)
Lemma maximal_half g M M' : maximal g M -> matching g M' -> length M' <= 2 * length M.
Proof.
  intros [_ Hmax] [Hadj Hnd]. rewrite <-(endpoints_length M).
  set (f := fun e : N * N => if decide (e.1 ∈ endpoints M) then e.1 else e.2).
  rewrite <-(fmap_length f M'). apply submseteq_length, NoDup_submseteq.
  - clear Hadj. induction M' as [|[a b] M' IH]; [constructor|]. cbn [endpoints mbind list_bind app] in Hnd.
    change (NoDup (a :: b :: endpoints M')) in Hnd.
    apply NoDup_cons in Hnd as [Ha Hnd]. apply NoDup_cons in Hnd as [Hb Hnd].
    rewrite fmap_cons. constructor; [|by apply IH].
    intros (e & He & Hin)%elem_of_list_fmap.
    assert (Hf : f e ∈ endpoints M') .
    { apply elem_of_endpoints. exists e. split; [done|]. unfold f. destruct (decide _); tauto. }
    rewrite <-He in Hf. unfold f in Hf. cbn [fst snd] in Hf. destruct (decide _); [|done].
    apply Ha. by right.
  - intros x (e & -> & He)%elem_of_list_fmap. destruct e as [u v].
    assert (Huv : u <> v).
    { intros ->. apply elem_of_list_split in He as (l1 & l2 & ->).
      rewrite endpoints_app in Hnd. apply NoDup_app in Hnd as (_ & _ & Hnd).
      change (NoDup (v :: v :: endpoints l2)) in Hnd. apply NoDup_cons in Hnd as [Hv _]. apply Hv. left. }
    unfold f. cbn [fst snd]. destruct (decide _) as [|Hn]; [done|].
    destruct (Hmax u v Huv (Hadj u v He)); done.
Qed.

Lemma lone_rings_pendant g : Lawful g -> lone_rings g -> pendant_odd_cycles g.
Proof.
  intros Hg [Hl Hd]. apply low_degree_pendant; [done|]. intros c v n Hc Hv. apply Hd. exists c. split; [|done].
  destruct Hc as (Hnd & Hodd & Hp & Hcl). 
  destruct c as [|a c]; [done|]. destruct (last (a :: c)) as [b|] eqn:Eb; [|by apply last_None in Eb].
  assert (Hba : adj g b a) by (by apply Hcl). split_and!; [|done|done|by exists a, b].
  destruct c as [|a' [|a'' c]]; simpl; [|done|lia]. injection Eb as <-. by apply Hl in Hba.
Qed.

Theorem C66_greedy_half g (Hg : Lawful g) (Hr : lone_rings g) p M M' :
  greedy_is g p -> listed_edges p M -> matching g M' -> length M' <= 2 * length M.
Proof.
  intros [n Hn] (L & HL & ->) HM'. apply (maximal_half g); [|done].
  destruct (greedy_maximal g Hg (proj1 Hr) Hr) as (p' & n' & Hp & Hm & Hf).
  assert (p = p') as ->.
  { assert (E : Ok p = Ok p'); [|by injection E]. rewrite <-(Hn (n + n')), <-(Hf (n + n')) by lia. done. }
  split; [by eapply pairing_matching|].
  intros u v _ Huv. rewrite !(p_edges_endpoints p' (proj1 Hp) L HL). by apply Hm.
Qed.
Print Assumptions C66_greedy_half.

Theorem C66_pipeline_rounds g (Hg : Lawful g) (Hr : lone_rings g) iter (Hit : hash_order_ok iter) :
  id_room g ->
  exists p paths q, greedy_is g p /\ matching_run iter g p (Ok q) /\ augmentations iter g p paths q /\
    (forall M, listed_edges q M -> maximum g M) /\
    p_order q = p_order p + 2 * length paths /\ forall M, listed_edges p M -> length paths <= length M.
Proof.
  intros Hroom. destruct (greedy_valid g Hg (proj1 Hr)) as (p & n & Hp & Hf).
  assert (Hgr : greedy_is g p) by (by exists n).
  destruct (C49_tame_total g Hg iter Hit p Hp) as (paths & q & Hrun & Haug & Hmax & Hord & _); [|done|].
  { by apply quiet_calm, pendant_quiet, lone_rings_pendant. }
  exists p, paths, q. split_and!; try done. intros M HM.
  assert (Hq : pairing_of g q) by (by eapply aug_pairing).
  destruct (Hmax _ (listed_here q)) as [HMq _].
  pose proof (C66_greedy_half g Hg Hr p M _ Hgr HM HMq) as Hhalf.
  destruct HM as (L & HL & ->).
  rewrite (p_edges_length p (proj1 Hp) L HL), (p_edges_length q (proj1 Hq) _ (reflexivity _)) in Hord. lia.
Qed.
Print Assumptions C66_pipeline_rounds.

(** A ring of five, and a path on which greedy finds one pair of two. *)
Definition halves : DefaultGraph := get (dg_try_from_edges
  [(0, 1); (1, 2); (2, 3); (3, 4); (4, 0); (11, 12); (10, 11); (12, 13)]%N).
Lemma halves_api : Api halves. Proof. apply get_edges_api; is_ok. Qed.
Example C66_case iter (Hit : hash_order_ok iter) : let g := as_graph halves in
  Lawful g /\ lone_rings g /\ id_room g /\
  greedy_is g (pair_all [(0, 1); (2, 3); (11, 12)]%N) /\
  matching_run iter g (pair_all [(0, 1); (2, 3); (11, 12)]%N)
    (Ok (pair_all [(0, 1); (2, 3); (10, 11); (12, 13)]%N)).
Proof.
  intros g. pose proof halves_api as Hd. assert (Hg : Lawful g) by (by apply api_lawful).
  assert (Hr : lone_rings g) by (apply lone_check; [apply halves_api|vm_compute; reflexivity..]).
  assert (Hl : LoopFree g) by apply Hr.
  split; [done|]. split; [done|]. split; [apply id_room_check; vm_compute; reflexivity|]. split; [|a_result].
  apply greedy_eval; [done|done|vm_compute; lia|]. apply ends_ok. vm_compute. reflexivity.
Qed.

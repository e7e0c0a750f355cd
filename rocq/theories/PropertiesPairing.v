(** Properties C32-C35 and C67: Pairing. *)
From Verif Require Import Outcome GraphModel TraversalModel ComponentsModel PairingModel Spec
  GraphProofs PairingProofs.

(** C32: any history of pair calls on two different nodes. *)
Theorem C32_pairing_symmetric pairs (H : forall e, e ∈ pairs -> e.1 <> e.2) :
  let p := pair_all pairs in
  (forall x y, p_mate p x = Ok y -> p_mate p y = Ok x /\ x <> y) /\
  (forall x, p_has_node p x = true <-> exists y, p_mate p x = Ok y) /\
  (forall M, listed_edges p M ->
     NoDup (endpoints M) /\ p_order p = 2 * length M /\
     forall u v, (u, v) ∈ M <-> p_mate p u = Ok v /\ (u < v)%N).
Proof.
  pose proof (pair_all_symmetric pairs H) as Hs. cbn. set (p := pair_all pairs) in *.
  assert (Hm : forall x y, p_mate p x = Ok y <-> p !! x = Some y).
  { intros x y. unfold p_mate. destruct (p !! x); split; intros; simplify_eq; done. }
  split_and!.
  - intros x y Hx%Hm. rewrite Hm. by apply Hs.
  - intros x. unfold p_has_node. rewrite bool_decide_eq_true. split.
    + intros [y Hy]. exists y. by apply Hm.
    + intros [y Hy%Hm]. by eexists.
  - intros M (L & HL & ->). split_and!.
    + by eapply p_edges_nodup.
    + by eapply p_edges_length.
    + intros u v. rewrite Hm. by apply p_edges_elem.
Qed.
Print Assumptions C32_pairing_symmetric.
Example C32_case :
  let pairs := [(1, 2); (3, 4); (2, 3); (5, 1); (2, 3)]%N in
  (forall e, e ∈ pairs -> e.1 <> e.2) /\ p_mate (pair_all pairs) 2 = Ok 3%N /\
  p_has_node (pair_all pairs) 4 = false /\ p_order (pair_all pairs) = 4.
Proof.
  cbn. split.
  - intros e He. rewrite !elem_of_cons, elem_of_nil in He. naive_solver.
  - vm_compute. done.
Qed.

(** C33: the exact effect of one pair call. *)
Theorem C33_pair_effect p a b x (Hs : symmetric_pairing p) (Hab : a <> b) :
  p_pair p a b !! x =
    if bool_decide (x = a) then Some b
    else if bool_decide (x = b) then Some a
    else if bool_decide (p !! x = Some a \/ p !! x = Some b) then None
    else p !! x.
Proof. exact (pair_lookup p a b x Hs Hab). Qed.
Print Assumptions C33_pair_effect.
Example C33_case : symmetric_pairing (pair_all [(1, 2); (3, 4)]%N).
Proof.
  apply pair_all_symmetric. intros e He. rewrite !elem_of_cons, elem_of_nil in He. naive_solver.
Qed.

(** C34: self-pairs break symmetry.  Exactly which call breaks it: ... *)
Theorem C34_when_pair_breaks p a b (Hm : mutual p) :
  mutual (p_pair p a b) <-> a = b \/ (p !! a = Some a <-> p !! b = Some b).
Proof. exact (pair_mutual_iff p a b Hm). Qed.
Print Assumptions C34_when_pair_breaks.
(** ... and what it does: of two different nodes, the ones that were paired
    with themselves end up unpaired, and the other is left pointing at it. *)
Theorem C34_pair_effect p a b x (Hm : mutual p) :
  p_pair p a b !! x =
    if bool_decide (a = b) then
      if bool_decide (x = a) then Some a
      else if bool_decide (p !! x = Some a) then None else p !! x
    else if bool_decide (x = a) then (if bool_decide (p !! a = Some a) then None else Some b)
    else if bool_decide (x = b) then (if bool_decide (p !! b = Some b) then None else Some a)
    else if bool_decide (p !! x = Some a \/ p !! x = Some b) then None else p !! x.
Proof.
  case_bool_decide as Hab; [subst; by apply insert_self|by apply pair_lookup_mutual].
Qed.
Print Assumptions C34_pair_effect.

(** Histories in which a node that is currently its own mate is only paired
    with itself (or with another such node, which unpairs both). *)
Theorem C34_self_pairs_partial pairs
    (H : forall pre a b post, pairs = pre ++ (a, b) :: post ->
       a = b \/ (pair_all pre !! a = Some a <-> pair_all pre !! b = Some b)) :
  let p := pair_all pairs in
  (forall x y, p_mate p x = Ok y -> p_mate p y = Ok x) /\
  (forall M S, listed_edges p M -> NoDup S -> (forall x, x ∈ S <-> p_mate p x = Ok x) ->
     NoDup (endpoints M) /\ p_order p = 2 * length M + length S /\
     forall u v, (u, v) ∈ M <-> p_mate p u = Ok v /\ (u < v)%N).
Proof.
  pose proof (pair_all_mutual pairs H) as Hs. cbn. set (p := pair_all pairs) in *.
  assert (Hm : forall x y, p_mate p x = Ok y <-> p !! x = Some y).
  { intros x y. unfold p_mate. destruct (p !! x); split; intros; simplify_eq; done. }
  split.
  - intros x y Hx%Hm. rewrite Hm. by apply Hs.
  - intros M S (L & HL & ->) HS Hself. split_and!.
    + by apply (mutual_nodup p Hs L HL).
    + apply (mutual_order p Hs L HL); [done|]. intros x. by rewrite Hself, Hm.
    + intros u v. rewrite Hm. by apply p_edges_elem.
Qed.
Print Assumptions C34_self_pairs_partial.
(** Self-pairs made, kept, remade and undone by a pair of two such nodes. *)
Example C34_case :
  let pairs := [(1, 1); (2, 3); (4, 4); (1, 1); (1, 4); (5, 5)]%N in
  (forall pre a b post, pairs = pre ++ (a, b) :: post ->
     a = b \/ (pair_all pre !! a = Some a <-> pair_all pre !! b = Some b)) /\
  p_mate (pair_all pairs) 5 = Ok 5%N /\ p_has_node (pair_all pairs) 1 = false /\
  p_order (pair_all pairs) = 3.
Proof.
  cbn zeta. split; [|vm_compute; done]. intros pre a b post Heq.
  do 6 (destruct pre as [|? pre];
    [injection Heq as <- <- _; first [by left | right; vm_compute; split; congruence]
    |injection Heq as <- Heq]).
  by destruct pre.
Qed.

Theorem C34_self_pair_refuted :
  exists pairs x y, p_mate (pair_all pairs) x = Ok y /\ p_has_node (pair_all pairs) y = false.
Proof. exists [(1, 1); (1, 2)]%N, 2%N, 1%N. split; vm_compute; reflexivity. Qed.
Print Assumptions C34_self_pair_refuted.

(** C35: augment. *)
Theorem C35_augment_panics p path :
  (exists e, p_augment p path = Panic e) <-> Nat.odd (length path) = true.
Proof. exact (augment_panics p path). Qed.
Print Assumptions C35_augment_panics.
Theorem C35_augment_effect p path (Hs : symmetric_pairing p) (Hp : augments p path) (Hne : path <> []) :
  exists q, p_augment p path = Ok q /\ symmetric_pairing q /\
    (forall i a b, path !! (2 * i) = Some a -> path !! S (2 * i) = Some b ->
       q !! a = Some b /\ q !! b = Some a) /\
    (forall x, x ∉ path -> q !! x = p !! x) /\
    (forall x, is_Some (q !! x) <-> is_Some (p !! x) \/ head path = Some x \/ last path = Some x) /\
    p_order q = p_order p + 2.
Proof. exact (augment_spec p path Hs Hp Hne). Qed.
Print Assumptions C35_augment_effect.
Example C35_case :
  let p := pair_all [(1, 2); (3, 4); (7, 8)]%N in
  symmetric_pairing p /\ augments p [0; 1; 2; 3; 4; 5]%N.
Proof.
  intros p. split.
  - apply pair_all_symmetric. intros e He. rewrite !elem_of_cons, elem_of_nil in He. naive_solver.
  - split_and!.
    + apply (bool_decide_eq_true_1 (NoDup [0; 1; 2; 3; 4; 5]%N)). vm_compute. reflexivity.
    + reflexivity.
    + intros x [[= <-]|[= <-]]; vm_compute; reflexivity.
    + intros x Hx H1 H2. rewrite !elem_of_cons, elem_of_nil in Hx.
      destruct Hx as [->|[->|[->|[->|[->|[->|[]]]]]]]; try done.
      * exists 2%N. split; [set_solver|vm_compute; reflexivity].
      * exists 1%N. split; [set_solver|vm_compute; reflexivity].
      * exists 4%N. split; [set_solver|vm_compute; reflexivity].
      * exists 3%N. split; [set_solver|vm_compute; reflexivity].
Qed.

(** augment along any list of an even number of distinct nodes: the first node
    is paired with the second, and so on; mates outside the list become
    unpaired, and all others keep their mates.  The number of paired nodes
    changes by the number [U] of nodes of the list that were unpaired, less the
    number [S] of those that had a mate outside the list. *)
Theorem C35_augment_any p path (Hs : symmetric_pairing p) (Hnd : NoDup path)
    (Hev : Nat.even (length path) = true) :
  exists q, p_augment p path = Ok q /\ symmetric_pairing q /\
    (forall i a b, path !! (2 * i) = Some a -> path !! S (2 * i) = Some b ->
       q !! a = Some b /\ q !! b = Some a) /\
    (forall x, x ∉ path ->
       (forall y, p !! x = Some y -> y ∈ path -> q !! x = None) /\
       ((forall y, p !! x = Some y -> y ∉ path) -> q !! x = p !! x)) /\
    forall U S, NoDup U -> (forall x, x ∈ U <-> x ∈ path /\ p !! x = None) ->
      NoDup S -> (forall x, x ∈ S <-> x ∈ path /\ exists y, p !! x = Some y /\ y ∉ path) ->
      p_order q + length S = p_order p + length U.
Proof. exact (augment_any p path Hs Hnd Hev). Qed.
Print Assumptions C35_augment_any.
(** Nodes 0 and 5 are unpaired, the mate of 2 is outside. *)
Example C35_any_case :
  let p := pair_all [(1, 3); (2, 9); (7, 8)]%N in
  symmetric_pairing p /\ p_order p = 6 /\
  p_augment p [0; 1; 2; 5]%N = Ok (pair_all [(0, 1); (2, 5); (7, 8)]%N).
Proof.
  intros p. split; [|split; [vm_compute; reflexivity|]].
  - apply pair_all_symmetric. intros e He. rewrite !elem_of_cons, elem_of_nil in He. naive_solver.
  - apply ends_ok. vm_compute. reflexivity.
Qed.

(** C67: == on pairings, whatever the order in which the hash map is iterated:
    the same nodes are paired with the same mates; for matchings, the same
    edges are listed. *)
Theorem C67_equality p q L (HL : L ≡ₚ map_to_list p) :
  p_eq L p q = true <-> forall x, p_has_node p x = p_has_node q x /\ p_mate p x = p_mate q x.
Proof.
  rewrite (p_eq_iff p q L HL). split; [by intros <-|]. intros H. apply map_eq. intros x.
  destruct (H x) as [_ Hm]. unfold p_mate in Hm. destruct (p !! x), (q !! x); congruence.
Qed.
Print Assumptions C67_equality.
Theorem C67_equality_edges p q L (HL : L ≡ₚ map_to_list p) (Hp : symmetric_pairing p) (Hq : symmetric_pairing q)
    M M' (HM : listed_edges p M) (HM' : listed_edges q M') :
  p_eq L p q = true <-> M ≡ₚ M'.
Proof.
  destruct HM as (E & HE & ->), HM' as (E' & HE' & ->). rewrite (p_eq_iff p q L HL). split.
  - intros <-. unfold p_edges_of. by rewrite HE, HE'.
  - intros HMM.
    assert (H : forall u v, (u < v)%N -> p !! u = Some v <-> q !! u = Some v).
    { intros u v Huv. pose proof (p_edges_elem p E HE u v). pose proof (p_edges_elem q E' HE' u v).
      rewrite HMM in *. tauto. }
    assert (H' : forall u v, u <> v -> p !! u = Some v <-> q !! u = Some v).
    { intros u v Huv. destruct (N.lt_ge_cases u v) as [Hlt|Hge]; [by apply H|].
      split; intros Huv'.
      - apply Hq, H; [lia|]. by apply Hp.
      - apply Hp, H; [lia|]. by apply Hq. }
    apply map_eq. intros u. destruct (p !! u) as [v|] eqn:E1.
    + symmetry. apply H'; [|done]. by apply Hp in E1 as [_ ?].
    + destruct (q !! u) as [v|] eqn:E2; [|done]. apply H' in E2; [congruence|]. by apply Hq in E2 as [_ ?].
Qed.
Print Assumptions C67_equality_edges.
(** Two histories of one matching. *)
Example C67_case :
  let p := pair_all [(1, 2); (3, 4); (2, 5)]%N in let q := pair_all [(5, 2); (4, 3)]%N in
  symmetric_pairing p /\ symmetric_pairing q /\
  p_eq (map_to_list p) p q = true /\ p_eq (map_to_list p) p (pair_all [(5, 2); (4, 1)]%N) = false.
Proof.
  intros p q. split; [|split; [|split]]; try (vm_compute; reflexivity).
  - apply pair_all_symmetric. intros e He. rewrite !elem_of_cons, elem_of_nil in He. naive_solver.
  - apply pair_all_symmetric. intros e He. rewrite !elem_of_cons, elem_of_nil in He. naive_solver.
Qed.

(** Pairing: pair, edges, augment; matchings as pairings. *)
From Verif Require Import Outcome GraphModel TraversalModel ComponentsModel PairingModel Spec
  GraphProofs TraversalProofs.

(** ** pair *)

Lemma insert_lookup p a b x : symmetric_pairing p ->
  p_insert p a b !! x =
    if bool_decide (x = a) then Some b
    else if bool_decide (p !! x = Some a /\ x <> b) then None else p !! x.
Proof.
  intros Hs. unfold p_insert. destruct (p !! a) as [cur|] eqn:Ea.
  - destruct (Hs a cur Ea) as [Hc Hne]. case_bool_decide as Hcur.
    + subst cur. case_bool_decide; [by subst|]. rewrite bool_decide_eq_false_2; [done|].
      intros [Hx Hxb]. apply Hs in Hx as [Hx _]. congruence.
    + destruct (decide (x = cur)) as [->|Hxc].
      * rewrite lookup_delete, bool_decide_eq_false_2 by done.
        by rewrite bool_decide_eq_true_2.
      * rewrite lookup_delete_ne by done. destruct (decide (x = a)) as [->|Hxa].
        -- rewrite lookup_insert. by rewrite bool_decide_eq_true_2.
        -- rewrite lookup_insert_ne by done. rewrite bool_decide_eq_false_2 by done.
           rewrite bool_decide_eq_false_2; [done|]. intros [Hx _]. apply Hs in Hx as [Hx _].
           congruence.
  - destruct (decide (x = a)) as [->|Hxa].
    + rewrite lookup_insert. by rewrite bool_decide_eq_true_2.
    + rewrite lookup_insert_ne by done. rewrite bool_decide_eq_false_2 by done.
      rewrite bool_decide_eq_false_2; [done|]. intros [Hx _]. apply Hs in Hx as [Hx _]. congruence.
Qed.

Lemma pair_lookup p a b x : symmetric_pairing p -> a <> b ->
  p_pair p a b !! x =
    if bool_decide (x = a) then Some b else if bool_decide (x = b) then Some a
    else if bool_decide (p !! x = Some a \/ p !! x = Some b) then None else p !! x.
Proof.
  intros Hs Hab. unfold p_pair. set (q := p_insert p a b).
  assert (Hq : forall y, q !! y = if bool_decide (y = a) then Some b
    else if bool_decide (p !! y = Some a /\ y <> b) then None else p !! y).
  { intros y. by apply insert_lookup. }
  pose proof (Hq b) as Hqb. rewrite bool_decide_eq_false_2 in Hqb by done.
  rewrite bool_decide_eq_false_2 in Hqb by tauto.
  unfold p_insert. fold q. rewrite Hqb. destruct (p !! b) as [cur|] eqn:Eb.
  - destruct (Hs b cur Eb) as [Hc Hne]. case_bool_decide as Hcur.
    + subst cur. rewrite Hq.
      assert (p !! x = Some b -> x = a) by (intros Hx; apply Hs in Hx as [Hx _]; congruence).
      assert (p !! x = Some a -> x = b) by (intros Hx; apply Hs in Hx as [Hx _]; congruence).
      repeat case_bool_decide; try done; intuition congruence.
    + destruct (decide (x = cur)) as [->|Hxc].
      * rewrite lookup_delete. rewrite !bool_decide_eq_false_2 by done.
        rewrite bool_decide_eq_true_2; [done|]. by right.
      * rewrite lookup_delete_ne by done. destruct (decide (x = b)) as [->|Hxb].
        -- rewrite lookup_insert. rewrite bool_decide_eq_false_2 by done.
           by rewrite bool_decide_eq_true_2.
        -- rewrite lookup_insert_ne, Hq by done.
           assert (p !! x <> Some b) by (intros Hx; apply Hs in Hx as [Hx _]; congruence).
           repeat case_bool_decide; try done; intuition congruence.
  - destruct (decide (x = b)) as [->|Hxb].
    + rewrite lookup_insert. rewrite bool_decide_eq_false_2 by done. by rewrite bool_decide_eq_true_2.
    + rewrite lookup_insert_ne, Hq by done.
      assert (p !! x <> Some b) by (intros Hx; apply Hs in Hx as [Hx _]; congruence).
      repeat case_bool_decide; try done; intuition congruence.
Qed.

Lemma pair_symmetric p a b : symmetric_pairing p -> a <> b -> symmetric_pairing (p_pair p a b).
Proof.
  intros Hs Hab u v. rewrite !pair_lookup by done. intros Hu.
  repeat case_bool_decide; subst; try done;
    try (destruct (Hs u v Hu) as [? ?]); intuition congruence.
Qed.

Lemma new_symmetric : symmetric_pairing p_new.
Proof. intros u v Hu. unfold p_new in Hu. by rewrite lookup_empty in Hu. Qed.

(** ** edges *)

Lemma endpoints_app M M' : endpoints (M ++ M') = endpoints M ++ endpoints M'.
Proof. apply bind_app. Qed.

Lemma elem_of_endpoints M x : x ∈ endpoints M <-> exists e, e ∈ M /\ (x = e.1 \/ x = e.2).
Proof.
  unfold endpoints. rewrite elem_of_list_bind. split; intros (e & H1 & H2); exists e.
  - split; [done|]. set_solver.
  - split; [set_solver|done].
Qed.

Lemma endpoints_length M : length (endpoints M) = 2 * length M.
Proof. induction M as [|e M IH]; [done|]. simpl in *. lia. Qed.

Lemma endpoints_nodup M : NoDup M ->
  (forall e, e ∈ M -> e.1 <> e.2) ->
  (forall e f x, e ∈ M -> f ∈ M -> (x = e.1 \/ x = e.2) -> (x = f.1 \/ x = f.2) -> e = f) ->
  NoDup (endpoints M).
Proof.
  induction M as [|[a b] M IH]; intros Hnd Hne Hd; [constructor|].
  apply NoDup_cons in Hnd as [Hnin Hnd].
  assert (Hout : forall x, x = a \/ x = b -> x ∉ endpoints M).
  { intros x Hx (f & Hf & Hxf)%elem_of_endpoints. apply Hnin.
    rewrite (Hd (a, b) f x); [done|left|by right|done|done]. }
  change (endpoints ((a, b) :: M)) with (a :: b :: endpoints M).
  apply NoDup_cons. split.
  - rewrite elem_of_cons. intros [Heq|Hin].
    + apply (Hne (a, b)); [left|done].
    + apply (Hout a); auto.
  - apply NoDup_cons. split; [apply Hout; auto|]. apply IH; [done| |].
    + intros e He. apply Hne. by right.
    + intros e f x He Hf. apply Hd; by right.
Qed.

Section edges.
  Context (p : Pairing) (Hs : symmetric_pairing p) (L : list (N * N)) (HL : L ≡ₚ map_to_list p).

  Lemma entries_elem u v : (u, v) ∈ L <-> p !! u = Some v.
  Proof. rewrite HL. apply elem_of_map_to_list. Qed.

  Lemma p_edges_elem u v : (u, v) ∈ p_edges_of L <-> p !! u = Some v /\ (u < v)%N.
  Proof. unfold p_edges_of. rewrite elem_of_list_filter, entries_elem. simpl. tauto. Qed.

  Lemma p_edges_endpoints x : x ∈ endpoints (p_edges_of L) <-> is_Some (p !! x).
  Proof.
    rewrite elem_of_endpoints. split.
    - intros ([a b] & [He _]%p_edges_elem & [-> | ->]); simpl; [by eexists|].
      apply Hs in He as [He _]. by eexists.
    - intros [y Hy]. destruct (Hs x y Hy) as [Hy' Hne].
      destruct (decide (x < y)%N).
      + exists (x, y). split; [by apply p_edges_elem|by left].
      + exists (y, x). split; [apply p_edges_elem; split; [done|lia]|by right].
  Qed.

  Lemma p_edges_nodup : NoDup (endpoints (p_edges_of L)).
  Proof.
    apply endpoints_nodup.
    - apply NoDup_filter. rewrite HL. apply NoDup_map_to_list.
    - intros [a b] [_ ?]%p_edges_elem. simpl. lia.
    - intros [a b] [c d] x [H1 ?]%p_edges_elem [H2 ?]%p_edges_elem Hx1 Hx2. simpl in *.
      pose proof (proj1 (Hs _ _ H1)). pose proof (proj1 (Hs _ _ H2)).
      destruct Hx1 as [-> | ->], Hx2 as [Hx | Hx]; subst; simplify_eq; try done; lia.
  Qed.

  Lemma p_edges_length : p_order p = 2 * length (p_edges_of L).
  Proof.
    rewrite <-endpoints_length. unfold p_order, size, map_size.
    rewrite <-(fmap_length fst (map_to_list p)).
    apply Permutation_length, NoDup_Permutation.
    - apply NoDup_fst_map_to_list.
    - apply p_edges_nodup.
    - intros x. rewrite p_edges_endpoints, elem_of_list_fmap. split.
      + intros ([a b] & -> & Hin%elem_of_map_to_list). by eexists.
      + intros [y Hy]. exists (x, y). split; [done|]. by apply elem_of_map_to_list.
  Qed.
End edges.

Lemma pairing_matching g p L : pairing_of g p -> L ≡ₚ map_to_list p -> matching g (p_edges_of L).
Proof.
  intros [Hs Ha] HL. split; [|by eapply p_edges_nodup].
  intros u v [Hu _]%(p_edges_elem p L HL). by apply Ha.
Qed.

(** ** augment *)

Fixpoint path_pairs (l : list N) : list (N * N) :=
  match l with a :: b :: l' => (a, b) :: path_pairs l' | _ => [] end.

Lemma list_pair_ind {A} (P : list A -> Prop) :
  P [] -> (forall a, P [a]) -> (forall a b l, P l -> P (a :: b :: l)) -> forall l, P l.
Proof.
  intros H0 H1 H2. fix IH 1. intros [|a [|b l]]; [done|apply H1|]. apply H2, IH.
Qed.

Lemma path_pairs_elem l a b : (a, b) ∈ path_pairs l <->
  exists i, l !! (2 * i) = Some a /\ l !! S (2 * i) = Some b.
Proof.
  induction l as [|x|x y l IH] using list_pair_ind.
  - simpl. split; [intros H; by apply elem_of_nil in H|]. by intros (i & H & _).
  - simpl. split; [intros H; by apply elem_of_nil in H|]. by intros (i & _ & H).
  - simpl. rewrite elem_of_cons, IH. split.
    + intros [[= -> ->]|(i & H1 & H2)]; [by exists 0|]. exists (S i).
      replace (S i + (S i + 0)) with (S (S (2 * i))) by lia. done.
    + intros ([|i] & H1 & H2); [left|right].
      * simpl in *. congruence.
      * exists i. replace (S i + (S i + 0)) with (S (S (2 * i))) in * by lia. done.
Qed.

Lemma path_pairs_in l a b : (a, b) ∈ path_pairs l -> a ∈ l /\ b ∈ l.
Proof.
  rewrite path_pairs_elem. intros (i & H1 & H2). split; by eapply elem_of_list_lookup_2.
Qed.

Lemma even_length_pairs l x : Nat.even (length l) = true -> x ∈ l ->
  exists y, (x, y) ∈ path_pairs l \/ (y, x) ∈ path_pairs l.
Proof.
  induction l as [|a|a b l IH] using list_pair_ind; simpl; intros He Hx.
  - by apply elem_of_nil in Hx.
  - done.
  - apply elem_of_cons in Hx as [->|[->|Hx]%elem_of_cons].
    + exists b. left. left.
    + exists a. right. left.
    + destruct (IH He Hx) as (y & [Hy|Hy]); exists y; [left|right]; by right.
Qed.

Lemma pair_up_spec p l : symmetric_pairing p -> NoDup l -> Nat.even (length l) = true ->
  let q := p_pair_up p l in
  symmetric_pairing q /\
  (forall a b, (a, b) ∈ path_pairs l -> q !! a = Some b /\ q !! b = Some a) /\
  (forall x, x ∉ l ->
     q !! x = match p !! x with
              | Some y => if bool_decide (y ∈ l) then None else Some y
              | None => None end).
Proof.
  revert p. induction l as [|a|a b l IH] using list_pair_ind; intros p Hs Hnd Hev; simpl.
  - split_and!; [done| |].
    + intros a b H. by apply elem_of_nil in H.
    + intros x _. by destruct (p !! x).
  - done.
  - apply NoDup_cons in Hnd as [Ha Hnd]. apply NoDup_cons in Hnd as [Hb Hnd].
    rewrite elem_of_cons in Ha. assert (Hab : a <> b) by tauto. simpl in Hev.
    assert (Hs' : symmetric_pairing (p_pair p a b)) by (by apply pair_symmetric).
    destruct (IH (p_pair p a b) Hs' Hnd Hev) as (H1 & H2 & H3). split_and!; [done| |].
    + intros u v [[= -> ->]|Hin]%elem_of_cons; [|by apply H2].
      rewrite (H3 a), (H3 b) by tauto. rewrite !pair_lookup by done.
      rewrite bool_decide_eq_true_2 by done. rewrite (bool_decide_eq_false_2 (b = a)) by done.
      rewrite (bool_decide_eq_true_2 (b = b)) by done. rewrite !bool_decide_eq_false_2 by tauto. done.
    + intros x Hx. rewrite !elem_of_cons in Hx. rewrite (H3 x) by tauto.
      rewrite pair_lookup by done. rewrite !(bool_decide_eq_false_2 (x = _)) by tauto.
      destruct (p !! x) as [y|] eqn:Ex.
      * repeat case_bool_decide; simplify_eq; try done; rewrite !elem_of_cons in *; intuition congruence.
      * rewrite bool_decide_eq_false_2 by intuition congruence. done.
Qed.

Lemma augment_even p l : Nat.even (length l) = true -> p_augment p l = Ok (p_pair_up p l).
Proof. intros H. unfold p_augment. by rewrite <-Nat.negb_even, H. Qed.

Lemma augment_panics p l : (exists q, p_augment p l = Panic q) <-> Nat.odd (length l) = true.
Proof.
  unfold p_augment. destruct (Nat.odd (length l)); split; try done; [by eexists|]. by intros [q ?].
Qed.

Lemma augment_panic p l : Nat.odd (length l) = true -> p_augment p l = Panic PEvenPath.
Proof. intros H. unfold p_augment. by rewrite H. Qed.

(** Augmenting with any simple path whose alternate pairs are edges keeps a
    pairing of [g]. *)
Lemma pair_up_pairing_of g p l : Lawful g -> pairing_of g p -> NoDup l ->
  Nat.even (length l) = true -> (forall a b, (a, b) ∈ path_pairs l -> adj g a b) ->
  pairing_of g (p_pair_up p l).
Proof.
  intros Hg [Hs Ha] Hnd Hev Hadj. destruct (pair_up_spec p l Hs Hnd Hev) as (H1 & H2 & H3).
  split; [done|]. intros u v Hu. destruct (decide (u ∈ l)) as [Hin|Hin].
  - destruct (even_length_pairs l u Hev Hin) as (y & [Hy|Hy]); destruct (H2 _ _ Hy) as [E1 E2].
    + assert (v = y) as -> by congruence. by apply Hadj.
    + assert (v = y) as -> by congruence. apply law_adj_sym; [done|]. by apply Hadj.
  - rewrite H3 in Hu by done. destruct (p !! u) as [y|] eqn:Ey; [|done].
    case_bool_decide; [done|]. injection Hu as <-. by apply Ha.
Qed.

Lemma augment_spec p l : symmetric_pairing p -> augments p l -> l <> [] ->
  exists q, p_augment p l = Ok q /\ symmetric_pairing q /\
    (forall i a b, l !! (2 * i) = Some a -> l !! S (2 * i) = Some b -> q !! a = Some b /\ q !! b = Some a) /\
    (forall x, x ∉ l -> q !! x = p !! x) /\
    (forall x, is_Some (q !! x) <-> is_Some (p !! x) \/ head l = Some x \/ last l = Some x) /\
    p_order q = p_order p + 2.
Proof.
  intros Hs (Hnd & Hev & Hends & Hint) Hne.
  destruct (pair_up_spec p l Hs Hnd Hev) as (H1 & H2 & H3).
  exists (p_pair_up p l). set (q := p_pair_up p l) in *. split; [by apply augment_even|].
  assert (Hoff : forall x, x ∉ l -> q !! x = p !! x).
  { intros x Hx. rewrite H3 by done. destruct (p !! x) as [y|] eqn:Ex; [|done].
    case_bool_decide as Hy; [|done]. exfalso. apply Hs in Ex as [Ey _].
    destruct (decide (head l = Some y)) as [Hh|Hh]; [rewrite Hends in Ey; auto; done|].
    destruct (decide (last l = Some y)) as [Hh'|Hh']; [rewrite Hends in Ey; auto; done|].
    destruct (Hint y Hy Hh Hh') as (z & Hz & Ez). rewrite Ey in Ez. injection Ez as <-. done. }
  assert (Hon : forall x, x ∈ l -> is_Some (q !! x)).
  { intros x Hx. destruct (even_length_pairs l x Hev Hx) as (y & [Hy|Hy]);
      destruct (H2 _ _ Hy) as [E1 E2]; by eexists. }
  assert (Hdom : forall x, is_Some (q !! x) <-> is_Some (p !! x) \/ head l = Some x \/ last l = Some x).
  { intros x. destruct (decide (x ∈ l)) as [Hx|Hx].
    - split; [|intros _; by apply Hon]. intros _.
      destruct (decide (head l = Some x)); [by right; left|].
      destruct (decide (last l = Some x)); [by right; right|].
      left. destruct (Hint x Hx) as (y & _ & Hy); [done..|]. by eexists.
    - rewrite Hoff by done. split; [by left|]. intros [?|[Hh|Hh]]; [done|..]; destruct Hx.
      + destruct l; [done|]. injection Hh as <-. left.
      + apply last_Some in Hh as [l' ->]. set_solver. }
  split_and!; try done.
  - intros i a b Ha Hb. apply H2. apply path_pairs_elem. by exists i.
  - destruct l as [|a l]; [done|]. destruct (last (a :: l)) as [z|] eqn:Hz.
    2:{ by apply last_None in Hz. }
    assert (Haz : a <> z).
    { intros ->. destruct l as [|b l]; [done|]. change (last (z :: b :: l)) with (last (b :: l)) in Hz.
      apply last_Some in Hz as [l' Hl']. apply NoDup_cons in Hnd as [Hnin _]. apply Hnin.
      rewrite Hl'. set_solver. }
    unfold p_order. rewrite <-!size_dom.
    assert (dom q = dom p ∪ {[a; z]}) as ->.
    { apply set_eq. intros x. rewrite elem_of_union, !elem_of_dom, Hdom.
      rewrite elem_of_union, !elem_of_singleton. simpl. intuition congruence. }
    rewrite size_union.
    + f_equal. rewrite size_union by set_solver. by rewrite !size_singleton.
    + intros x Hx. rewrite elem_of_union, !elem_of_singleton. rewrite elem_of_dom in Hx.
      destruct Hx as [y Hy]. intros [-> | ->].
      * rewrite (Hends a) in Hy; [done|by left].
      * rewrite (Hends z) in Hy; [done|by right].
Qed.

Lemma pair_all_symmetric pairs : (forall e, e ∈ pairs -> e.1 <> e.2) ->
  symmetric_pairing (pair_all pairs).
Proof.
  unfold pair_all. intros H. generalize new_symmetric. revert H. generalize p_new.
  induction pairs as [|e pairs IH]; intros p H Hs; [done|]. cbn [foldl]. apply IH.
  - intros f Hf. apply H. by right.
  - apply pair_symmetric; [done|]. apply H. left.
Qed.

(** ** Self-pairs *)

Ltac mp := repeat match goal with
  | H : context [<[?i := _]> _ !! ?j] |- _ => destruct (decide (i = j)); [subst; rewrite lookup_insert in H|rewrite lookup_insert_ne in H by done]
  | H : context [delete ?i _ !! ?j] |- _ => destruct (decide (i = j)); [subst; rewrite lookup_delete in H|rewrite lookup_delete_ne in H by done]
  | |- context [<[?i := _]> _ !! ?j] => destruct (decide (i = j)); [subst; rewrite lookup_insert|rewrite lookup_insert_ne by done]
  | |- context [delete ?i _ !! ?j] => destruct (decide (i = j)); [subst; rewrite lookup_delete|rewrite lookup_delete_ne by done]
  end.
Lemma insert_self p a x : mutual p ->
  p_pair p a a !! x = if bool_decide (x = a) then Some a
    else if bool_decide (p !! x = Some a) then None else p !! x.
Proof.
  intros Hm.
  assert (H1 : forall x, p_insert p a a !! x = if bool_decide (x = a) then Some a
    else if bool_decide (p !! x = Some a) then None else p !! x).
  { intros y. unfold p_insert. destruct (p !! a) as [cur|] eqn:Ea.
    - pose proof (Hm _ _ Ea) as Hc. case_bool_decide as Hcur.
      + subst. repeat case_bool_decide; subst; try done. apply Hm in H0. congruence.
      + mp; repeat case_bool_decide; subst; try done; try congruence.
        exfalso. apply Hm in H0. congruence.
    - mp; repeat case_bool_decide; subst; try done.
      exfalso. apply Hm in H0. congruence. }
  unfold p_pair, p_insert at 1. rewrite H1, bool_decide_eq_true_2 by done.
  rewrite bool_decide_eq_true_2 by done. apply H1.
Qed.
Lemma insert_mutual p a b x : mutual p -> p !! a <> Some a -> 
  p_insert p a b !! x =
    if bool_decide (x = a) then Some b
    else if bool_decide (p !! x = Some a /\ x <> b) then None else p !! x.
Proof.
  intros Hm Ha. unfold p_insert. destruct (p !! a) as [cur|] eqn:Ea.
  - pose proof (Hm _ _ Ea) as Hc. case_bool_decide as Hcur.
    + subst. repeat case_bool_decide; subst; try done. destruct H0 as [H0 ?]. apply Hm in H0. congruence.
    + mp; repeat case_bool_decide; subst; try done; try tauto; try congruence.
      * exfalso. destruct H0 as [H0 _]. apply Hm in H0. congruence.
  - mp; repeat case_bool_decide; subst; try done.
    exfalso. destruct H0 as [H0 ?]. apply Hm in H0. congruence.
Qed.

Lemma pair_lookup_mutual p a b x : mutual p -> a <> b ->
  p_pair p a b !! x =
    if bool_decide (x = a) then (if bool_decide (p !! a = Some a) then None else Some b)
    else if bool_decide (x = b) then (if bool_decide (p !! b = Some b) then None else Some a)
    else if bool_decide (p !! x = Some a \/ p !! x = Some b) then None else p !! x.
Proof.
  intros Hm Hab.
  assert (Hu : forall y z w, p !! y = Some w -> p !! z = Some w -> y = z).
  { intros y z w Hy%Hm Hz%Hm. congruence. }
  set (q := p_insert p a b).
  assert (Hq : forall y, q !! y = if bool_decide (y = a) then (if bool_decide (p !! a = Some a) then None else Some b)
    else if bool_decide (p !! y = Some a /\ y <> b) then None else p !! y).
  { intros y. destruct (decide (p !! a = Some a)) as [Ha|Ha].
    - rewrite (bool_decide_eq_true_2 _ Ha). unfold q, p_insert. rewrite Ha.
      rewrite bool_decide_eq_false_2 by done. mp; repeat case_bool_decide; try done.
      destruct H0 as [H0 _]. by destruct (Hu a y a Ha H0).
    - rewrite (bool_decide_eq_false_2 _ Ha). by apply insert_mutual. }
  unfold p_pair. fold q. unfold p_insert.
  pose proof (Hq b) as Hqb. rewrite bool_decide_eq_false_2 in Hqb by done.
  rewrite bool_decide_eq_false_2 in Hqb by tauto. rewrite Hqb.
  pose proof (Hm x a) as F1. pose proof (Hm x b) as F2.
  destruct (p !! b) as [cur|] eqn:Eb.
  - pose proof (Hm _ _ Eb) as Hcb.
    destruct (decide (cur = a)) as [Hcur|Hcur];
      [rewrite (bool_decide_eq_true_2 _ Hcur)|rewrite (bool_decide_eq_false_2 _ Hcur)].
    + subst cur. rewrite Hq. repeat case_bool_decide; subst; try done; intuition congruence.
    + destruct (decide (x = cur)) as [->|Hxc].
      { rewrite lookup_delete. repeat case_bool_decide; subst; try done; intuition congruence. }
      rewrite lookup_delete_ne by done. destruct (decide (x = b)) as [->|Hxb].
      { rewrite lookup_insert. repeat case_bool_decide; subst; try done; intuition congruence. }
      rewrite lookup_insert_ne by done. rewrite Hq.
      repeat case_bool_decide; subst; try done; intuition congruence.
  - destruct (decide (x = b)) as [->|Hxb].
    { rewrite lookup_insert. repeat case_bool_decide; subst; try done; intuition congruence. }
    rewrite lookup_insert_ne by done. rewrite Hq.
    repeat case_bool_decide; subst; try done; intuition congruence.
Qed.

Lemma pair_mutual_iff p a b : mutual p ->
  (mutual (p_pair p a b) <-> a = b \/ (p !! a = Some a <-> p !! b = Some b)).
Proof.
  intros Hm. destruct (decide (a = b)) as [<-|Hab].
  { split; [by left|]. intros _ x y. rewrite !insert_self by done. intros H.
    pose proof (Hm x y). pose proof (Hm y x). pose proof (Hm x a).
    repeat case_bool_decide; subst; try done; intuition congruence. }
  split.
  - intros H. right. pose proof (H a b) as H1. pose proof (H b a) as H2.
    rewrite !pair_lookup_mutual in H1, H2 by done.
    rewrite (bool_decide_eq_true_2 (a = a)), (bool_decide_eq_true_2 (b = b)),
      (bool_decide_eq_false_2 (b = a)) in H1, H2 by done.
    repeat case_bool_decide; try tauto; naive_solver.
  - intros [?|Hiff]; [done|]. intros x y. rewrite !pair_lookup_mutual by done. intros H.
    pose proof (Hm x y). pose proof (Hm y x). pose proof (Hm x a). pose proof (Hm x b).
    pose proof (Hm y a). pose proof (Hm y b).
    repeat case_bool_decide; subst; try done; intuition congruence.
Qed.

Lemma pair_all_mutual pairs :
  (forall pre a b post, pairs = pre ++ (a, b) :: post ->
     a = b \/ (pair_all pre !! a = Some a <-> pair_all pre !! b = Some b)) ->
  mutual (pair_all pairs).
Proof.
  induction pairs as [|[a b] pairs IH] using rev_ind; intros H.
  { intros x y Hx. unfold pair_all in Hx. cbn in Hx. unfold p_new in Hx. by rewrite lookup_empty in Hx. }
  unfold pair_all. rewrite foldl_app. cbn [foldl fst snd]. apply pair_mutual_iff.
  - apply IH. intros pre c d post ->. apply (H pre c d (post ++ [(a, b)])). by rewrite <-app_assoc.
  - apply (H pairs a b []). done.
Qed.

Section mutual_edges.
  Context (p : Pairing) (Hm : mutual p) (L : list (N * N)) (HL : L ≡ₚ map_to_list p).

  Lemma mutual_endpoints x : x ∈ endpoints (p_edges_of L) <-> exists y, p !! x = Some y /\ x <> y.
  Proof.
    rewrite elem_of_endpoints. split.
    - intros ([a b] & [He Hlt]%(p_edges_elem p L HL) & [-> | ->]); simpl in *; [exists b; split; [done|lia]|].
      apply Hm in He. exists a. split; [done|lia].
    - intros (y & Hy & Hne). pose proof (Hm x y Hy) as Hy'.
      destruct (decide (x < y)%N).
      + exists (x, y). split; [by apply (p_edges_elem p L HL)|by left].
      + exists (y, x). split; [apply (p_edges_elem p L HL); split; [done|lia]|by right].
  Qed.

  Lemma mutual_nodup : NoDup (endpoints (p_edges_of L)).
  Proof.
    apply endpoints_nodup.
    - apply NoDup_filter. rewrite HL. apply NoDup_map_to_list.
    - intros [a b] [_ ?]%(p_edges_elem p L HL). simpl. lia.
    - intros [a b] [c d] x [H1 ?]%(p_edges_elem p L HL) [H2 ?]%(p_edges_elem p L HL) Hx1 Hx2. simpl in *.
      pose proof (Hm _ _ H1). pose proof (Hm _ _ H2).
      destruct Hx1 as [-> | ->], Hx2 as [Hx | Hx]; subst; simplify_eq; try done; lia.
  Qed.

  Lemma mutual_order S : NoDup S -> (forall x, x ∈ S <-> p !! x = Some x) ->
    p_order p = 2 * length (p_edges_of L) + length S.
  Proof.
    intros HS Hself. rewrite <-endpoints_length, <-app_length. unfold p_order, size, map_size.
    rewrite <-(fmap_length fst (map_to_list p)).
    apply Permutation_length, NoDup_Permutation.
    - apply NoDup_fst_map_to_list.
    - apply NoDup_app. split_and!; [apply mutual_nodup| |done].
      intros x (y & Hy & Hne)%mutual_endpoints Hx%Hself. congruence.
    - intros x. rewrite elem_of_app, mutual_endpoints, Hself, elem_of_list_fmap. split.
      + intros ([a b] & -> & Hin%elem_of_map_to_list). destruct (decide (a = b)) as [->|]; [by right|].
        left. by exists b.
      + intros [(y & Hy & _)|Hy]; eexists (x, _); (split; [done|]); by apply elem_of_map_to_list.
  Qed.
End mutual_edges.

(** ** Augmenting along any list *)

Lemma augment_any p l : symmetric_pairing p -> NoDup l -> Nat.even (length l) = true ->
  exists q, p_augment p l = Ok q /\ symmetric_pairing q /\
    (forall i a b, l !! (2 * i) = Some a -> l !! S (2 * i) = Some b -> q !! a = Some b /\ q !! b = Some a) /\
    (forall x, x ∉ l ->
       (forall y, p !! x = Some y -> y ∈ l -> q !! x = None) /\
       ((forall y, p !! x = Some y -> y ∉ l) -> q !! x = p !! x)) /\
    forall U S, NoDup U -> (forall x, x ∈ U <-> x ∈ l /\ p !! x = None) ->
      NoDup S -> (forall x, x ∈ S <-> x ∈ l /\ exists y, p !! x = Some y /\ y ∉ l) ->
      p_order q + length S = p_order p + length U.
Proof.
  intros Hs Hnd Hev. destruct (pair_up_spec p l Hs Hnd Hev) as (Hq & Hpairs & Hout).
  set (q := p_pair_up p l) in *. exists q. split; [by apply augment_even|]. split; [done|]. split; [|split].
  - intros i a b Ha Hb. apply Hpairs, path_pairs_elem. by exists i.
  - intros x Hx. rewrite (Hout x Hx). split.
    + intros y -> Hy. by rewrite bool_decide_eq_true_2.
    + intros H. destruct (p !! x) as [y|]; [|done]. rewrite bool_decide_eq_false_2; [done|]. by apply H.
  - intros U S HU HUe HS HSe.
    set (R := filter (fun x => x ∉ l /\ x ∈ dom q) (elements (dom p))).
    assert (HR : forall x, x ∈ R <-> x ∉ l /\ is_Some (q !! x)).
    { intros x. unfold R. rewrite elem_of_list_filter, elem_of_elements, !elem_of_dom. split; [tauto|].
      intros [Hx Hqx]. split_and!; [done|done|]. rewrite (Hout x Hx) in Hqx. destruct (p !! x); [done|].
      by destruct Hqx. }
    assert (HRnd : NoDup R) by apply NoDup_filter, NoDup_elements.
    assert (Hql : forall x, x ∈ l -> is_Some (q !! x)).
    { intros x Hx. destruct (even_length_pairs l x Hev Hx) as (y & [H|H]); apply Hpairs in H as [? ?]; by eexists. }
    assert (Hoq : p_order q = length l + length R).
    { unfold p_order. rewrite <-size_dom. rewrite <-(app_length l R).
      rewrite <-(size_list_to_set (C := gset N)).
      - f_equal. apply set_eq. intros x. rewrite elem_of_dom, elem_of_list_to_set, elem_of_app, HR. split.
        + intros Hx. destruct (decide (x ∈ l)); tauto.
        + intros [Hx|[_ Hx]]; auto.
      - apply NoDup_app. split_and!; [done| |done]. intros x Hx [? _]%HR. done. }
    set (T := omap (fun x => p !! x) S).
    assert (HT : forall x, x ∈ T <-> x ∉ l /\ exists y, p !! x = Some y /\ y ∈ l).
    { intros x. unfold T. rewrite elem_of_list_omap. split.
      - intros (y & Hy & Hyx). apply HSe in Hy as (Hy & z & Hyz & Hz). assert (z = x) as -> by congruence.
        split; [done|]. exists y. split; [|done]. by apply Hs.
      - intros (Hx & y & Hxy & Hy). exists y. split; [|by apply Hs]. apply HSe. split; [done|].
        exists x. split; [by apply Hs|done]. }
    assert (HTnd : NoDup T /\ length T = length S).
    { unfold T. assert (Hsome : forall x, x ∈ S -> is_Some (p !! x)).
      { intros x Hx. apply HSe in Hx as (_ & y & ? & _). by eexists. }
      clear HT T HSe. induction HS as [|x S Hx HS IH]; [split; [constructor|done]|].
      destruct IH as [IH1 IH2]; [intros; apply Hsome; by right|].
      cbn [omap list_omap]. destruct (Hsome x) as [y Hy]; [left|]. rewrite Hy. split; [|simpl; by rewrite <-IH2].
      constructor; [|done]. intros (z & Hz & Hzy)%elem_of_list_omap.
      apply Hs in Hy as [Hy _]. apply Hs in Hzy as [Hzy _]. congruence. }
    set (V := filter (fun x => x ∈ dom p) l).
    assert (HV : forall x, x ∈ V <-> x ∈ l /\ is_Some (p !! x)).
    { intros x. unfold V. rewrite elem_of_list_filter, elem_of_dom. tauto. }
    assert (HVl : length V + length U = length l).
    { rewrite <-app_length. apply Permutation_length. apply NoDup_Permutation; [|done|].
      - apply NoDup_app. split_and!; [by apply NoDup_filter| |done].
        intros x [_ Hx]%HV [_ Hx']%HUe. rewrite Hx' in Hx. by destruct Hx.
      - intros x. rewrite elem_of_app, HV, HUe. split; [tauto|]. intros Hx.
        destruct (p !! x) eqn:E; [left|right]; split; try done; by eexists. }
    assert (Hop : p_order p = length V + (length R + length T)).
    { unfold p_order. rewrite <-size_dom, <-!app_length. rewrite <-(size_list_to_set (C := gset N)).
      - f_equal. apply set_eq. intros x.
        rewrite elem_of_dom, elem_of_list_to_set, !elem_of_app, HV, HR, HT. split.
        + intros Hx. destruct (decide (x ∈ l)); [tauto|right]. destruct Hx as [y Hy].
          destruct (decide (y ∈ l)); [right; eauto|left]. split; [done|]. rewrite Hout by done. rewrite Hy.
          rewrite bool_decide_eq_false_2 by done. by eexists.
        + intros [[_ ?]|[[Hx Hqx]|(_ & y & ? & _)]]; [done| |by eexists].
          rewrite (Hout x Hx) in Hqx. destruct (p !! x); [by eexists|by destruct Hqx].
      - apply NoDup_app. split_and!; [by apply NoDup_filter| |apply NoDup_app; split_and!; [done| |apply HTnd]].
        + intros x [Hx _]%HV [[? _]%HR|[? _]%HT]%elem_of_app; done.
        + intros x [Hx Hqx]%HR (_ & y & Hxy & Hy)%HT. rewrite (Hout x Hx), Hxy, bool_decide_eq_true_2 in Hqx by done.
          by destruct Hqx. }
    destruct HTnd as [_ HTl]. lia.
Qed.

(** ** Equality *)

Lemma p_eq_iff p q L : L ≡ₚ map_to_list p -> p_eq L p q = true <-> p = q.
Proof.
  intros HL. unfold p_eq. rewrite andb_true_iff, Nat.eqb_eq, forallb_forall. split.
  - intros [Hlen Hall].
    assert (Hsub : p ⊆ q).
    { apply map_subseteq_spec. intros x y Hxy. specialize (Hall (x, y)). rewrite <-elem_of_list_In, HL in Hall.
      apply elem_of_map_to_list in Hxy. specialize (Hall Hxy). by apply bool_decide_eq_true in Hall. }
    apply map_eq. intros x. destruct (p !! x) as [y|] eqn:E; [symmetry; by eapply lookup_weaken|].
    destruct (q !! x) as [y|] eqn:Eq; [exfalso|done].
    assert (Hd : dom p ⊂ dom q).
    { split; [by apply subseteq_dom|]. intros H. specialize (H x). rewrite !elem_of_dom, E, Eq in H.
      destruct H as [? ?]; [by eexists|done]. }
    apply subset_size in Hd. rewrite !size_dom in Hd. unfold p_order in Hlen. lia.
  - intros <-. split; [done|]. intros [x y] Hxy. rewrite <-elem_of_list_In, HL, elem_of_map_to_list in Hxy.
    by apply bool_decide_eq_true.
Qed.

Definition ends_b (m : comp Pairing) (q : Pairing) : bool :=
  match m with Ok q' => bool_decide (q' = q) | _ => false end.
Lemma ends_ok m q : ends_b m q = true -> m = Ok q.
Proof. destruct m; try done. by intros ->%bool_decide_eq_true. Qed.

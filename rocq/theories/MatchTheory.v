(** Matching theory: an optimality certificate (an instance of the Tutte-Berge
    bound), alternating stems, odd cycles. *)
From Verif Require Import Outcome GraphModel TraversalModel ComponentsModel PairingModel Spec
  GraphProofs TraversalProofs PathLemmas PairingProofs.

(** ** Bound *)

Definition halves (Cs : list (list N)) : nat := sum_list ((fun C => length C / 2) <$> Cs).

Lemma halves_app A B : halves (A ++ B) = halves A + halves B.
Proof. unfold halves. rewrite fmap_app. by rewrite sum_list_with_app || (induction A; simpl; lia). Qed.

Lemma endpoints_filter_nodup (P : N * N -> Prop) `{!forall x, Decision (P x)} M :
  NoDup (endpoints M) -> NoDup (endpoints (filter P M)).
Proof.
  induction M as [|e M IH]; [done|]. intros Hnd. rewrite filter_cons.
  change (endpoints (e :: M)) with (e.1 :: e.2 :: endpoints M) in Hnd.
  apply NoDup_cons in Hnd as [H1 Hnd]. apply NoDup_cons in Hnd as [H2 Hnd].
  assert (Hsub : forall x, x ∈ endpoints (filter P M) -> x ∈ endpoints M).
  { intros x (f & [_ Hf]%elem_of_list_filter & Hx)%elem_of_endpoints.
    apply elem_of_endpoints. by exists f. }
  case_decide; [|by apply IH].
  change (endpoints (e :: filter P M)) with (e.1 :: e.2 :: endpoints (filter P M)).
  apply NoDup_cons. split.
  - rewrite elem_of_cons. intros [Heq|Hin]; apply H1; [rewrite Heq; left|right; auto].
  - apply NoDup_cons. split; [|by apply IH]. intros Hin. apply H2. auto.
Qed.

Lemma length_filter_split {A} (P : A -> Prop) `{!forall x, Decision (P x)} (l : list A) :
  length l = length (filter P l) + length (filter (fun x => ~ P x) l).
Proof.
  induction l as [|x l IH]; [done|]. rewrite !filter_cons.
  destruct (decide (P x)); destruct (decide (~ P x)); try tauto; simpl; lia.
Qed.

(** Edges that all have both ends in [C] are at most half as many. *)
Lemma inside_bound M C : NoDup (endpoints M) ->
  (forall u v, (u, v) ∈ M -> u ∈ C /\ v ∈ C) -> length M <= length C / 2.
Proof.
  intros Hnd Hin. apply Nat.div_le_lower_bound; [lia|]. rewrite <-endpoints_length.
  apply submseteq_length. apply NoDup_submseteq; [done|].
  intros x ([u v] & He & Hx)%elem_of_endpoints. destruct (Hin u v He). simpl in Hx. naive_solver.
Qed.

(** Edges that all touch [O] are at most [length O]. *)
Lemma touch_bound M O : NoDup (endpoints M) ->
  (forall u v, (u, v) ∈ M -> u ∈ O \/ v ∈ O) -> length M <= length O.
Proof.
  intros Hnd Hin.
  set (pick := fun e : N * N => if bool_decide (e.1 ∈ O) then e.1 else e.2).
  rewrite <-(fmap_length pick M). apply submseteq_length. apply NoDup_submseteq.
  - clear Hin. induction M as [|e M IH]; [constructor|].
    change (endpoints (e :: M)) with (e.1 :: e.2 :: endpoints M) in Hnd.
    apply NoDup_cons in Hnd as [H1 Hnd]. apply NoDup_cons in Hnd as [H2 Hnd].
    rewrite elem_of_cons in H1. rewrite fmap_cons. apply NoDup_cons. split; [|by apply IH].
    intros (f & Heq & Hf)%elem_of_list_fmap.
    assert (Hp : pick f ∈ endpoints M).
    { apply elem_of_endpoints. exists f. split; [done|]. unfold pick. case_bool_decide; auto. }
    rewrite <-Heq in Hp. unfold pick in Hp. case_bool_decide; tauto.
  - intros x (e & -> & He)%elem_of_list_fmap. destruct e as [u v]. unfold pick. simpl.
    case_bool_decide; [done|]. destruct (Hin u v He); done.
Qed.

Lemma cover_bound M O Cs : NoDup (endpoints M) ->
  (forall u v, (u, v) ∈ M -> u ∈ O \/ v ∈ O \/ exists C, C ∈ Cs /\ u ∈ C /\ v ∈ C) ->
  length M <= length O + halves Cs.
Proof.
  revert M. induction Cs as [|C Cs IH]; intros M Hnd Hcov.
  { unfold halves. simpl. rewrite Nat.add_0_r. apply touch_bound; [done|].
    intros u v Huv. destruct (Hcov u v Huv) as [?|[?|(C & HC & _)]]; auto.
    by apply elem_of_nil in HC. }
  rewrite (length_filter_split (fun e : N * N => e.1 ∈ C /\ e.2 ∈ C) M).
  change (halves (C :: Cs)) with (length C / 2 + halves Cs).
  assert (length (filter (fun e : N * N => e.1 ∈ C /\ e.2 ∈ C) M) <= length C / 2).
  { apply inside_bound; [by apply endpoints_filter_nodup|].
    intros u v [? _]%elem_of_list_filter. done. }
  assert (length (filter (fun e : N * N => ~ (e.1 ∈ C /\ e.2 ∈ C)) M) <= length O + halves Cs); [|lia].
  apply IH; [by apply endpoints_filter_nodup|].
  intros u v [Hn Huv]%elem_of_list_filter. simpl in Hn.
  destruct (Hcov u v Huv) as [?|[?|(C' & HC & Hu & Hv)]]; auto. right. right.
  apply elem_of_cons in HC as [->|HC]; [tauto|]. by exists C'.
Qed.

(** ** Certificates *)

Record cert (g : Graph) (p : Pairing) (O : list N) (Cs : list (list N)) : Prop := {
  ce_nodes : O ++ concat Cs ≡ₚ g_nodes g;
  ce_edges : forall u v, u <> v -> adj g u v ->
    u ∈ O \/ v ∈ O \/ exists C, C ∈ Cs /\ u ∈ C /\ v ∈ C;
  ce_tight : p_order p = 2 * (length O + halves Cs)
}.

Lemma matching_ne g M u v : matching g M -> (u, v) ∈ M -> u <> v.
Proof.
  intros [_ Hnd] Hin ->. induction M as [|e M IH]; [by apply elem_of_nil in Hin|].
  change (endpoints (e :: M)) with (e.1 :: e.2 :: endpoints M) in Hnd.
  apply NoDup_cons in Hnd as [H1 Hnd]. apply NoDup_cons in Hnd as [H2 Hnd].
  apply elem_of_cons in Hin as [<-|Hin]; [|by apply IH]. apply H1. left.
Qed.

Lemma cert_maximum g p O Cs L : pairing_of g p -> L ≡ₚ map_to_list p ->
  cert g p O Cs -> maximum g (p_edges_of L).
Proof.
  intros Hp HL [H1 H2 H3]. split; [by eapply pairing_matching|].
  intros M' HM'. pose proof (p_edges_length p (proj1 Hp) L HL).
  assert (length M' <= length O + halves Cs); [|lia].
  apply cover_bound; [apply HM'|]. intros u v Huv. apply H2; [by eapply matching_ne|].
  by apply (proj1 HM').
Qed.

(** No node of [O] can be left out by a pairing of the same size. *)
Lemma cert_covers g p O Cs q b : cert g p O Cs ->
  pairing_of g q -> p_order q = p_order p -> q !! b = None -> NoDup (g_nodes g) -> b ∉ O.
Proof.
  intros [H1 H2 H3] Hq Hord Hb Hnd Hin.
  apply elem_of_list_split in Hin as (O1 & O2 & ->).
  set (M := p_edges_of (map_to_list q)).
  pose proof (p_edges_length q (proj1 Hq) _ (reflexivity (map_to_list q))) as Hlen.
  fold M in Hlen.
  assert (HM : matching g M) by (by eapply pairing_matching).
  assert (length M <= length (O1 ++ O2) + halves Cs).
  { apply cover_bound; [apply HM|]. intros u v Huv.
    assert (Hub : u <> b /\ v <> b).
    { apply (p_edges_elem q _ (reflexivity _)) in Huv as [Hu _].
      pose proof (proj1 (proj1 Hq _ _ Hu)). split; intros ->; congruence. }
    destruct (H2 u v) as [?|[?|?]]; [by eapply matching_ne|by apply HM|set_solver..]. }
  rewrite !app_length in *. simpl in *. lia.
Qed.

(** ** Stems: alternating paths from an even node to an unpaired root *)

Inductive stem (g : Graph) (p : Pairing) : list N -> Prop :=
| stem_root r : p !! r = None -> r ∈ g_nodes g -> stem g p [r]
| stem_cons x y z l : p !! x = Some y -> adj g y z -> stem g p (z :: l) ->
    stem g p (x :: y :: z :: l).

Lemma stem_odd g p l : stem g p l -> Nat.odd (length l) = true.
Proof. intros H. induction H as [|x y z l _ _ _ IH]; [done|]. exact IH. Qed.

Lemma stem_is_path g p l : pairing_of g p -> stem g p l -> is_path g l.
Proof.
  intros Hp H. induction H as [|x y z l Hx Hyz _ IH]; [apply is_path_singleton|].
  apply is_path_cons2. split; [by apply Hp|]. by apply is_path_cons2.
Qed.

Lemma stem_last g p l r : stem g p l -> last l = Some r -> p !! r = None /\ r ∈ g_nodes g.
Proof.
  intros H. induction H as [r' Hr Hn|x y z l _ _ _ IH]; intros Hl.
  - injection Hl as <-. done.
  - by apply IH.
Qed.

(** All nodes of a stem but its first and last are paired among themselves. *)
Lemma stem_mates g p x l : symmetric_pairing p -> stem g p (x :: l) ->
  (forall r, last (x :: l) = Some r -> p !! r = None) /\
  forall u, u ∈ l -> last (x :: l) <> Some u -> exists v, v ∈ x :: l /\ p !! u = Some v.
Proof.
  intros Hs H. remember (x :: l) as k eqn:Hk. revert x l Hk.
  induction H as [r Hr Hn|a b z k Hab Hbz Hst IH]; intros x l Hk; injection Hk as <- <-.
  - split; [by intros ? [= <-]|]. intros u Hu. by apply elem_of_nil in Hu.
  - destruct (IH z k eq_refl) as [IH1 IH2]. split; [exact IH1|]. intros u Hu Hlast.
    change (last (a :: b :: z :: k)) with (last (z :: k)) in Hlast.
    apply elem_of_cons in Hu as [->|[->|Hu]%elem_of_cons].
    + exists a. split; [left|]. by apply Hs in Hab as [Hba _].
    + inversion Hst as [r' Hr Hn|? y' ? ? Hz ? ?]; subst; [done|].
      exists y'. split; [|done]. right. right. right. left.
    + destruct (IH2 u Hu Hlast) as (v & Hv & Huv). exists v. split; [|done]. by right; right.
Qed.

(** A stem starting at [b] lets a pairing of the same size leave [b] out. *)
Lemma stem_switch g p b l : Lawful g -> pairing_of g p -> stem g p (b :: l) -> NoDup (b :: l) ->
  exists q, pairing_of g q /\ p_order q = p_order p /\ q !! b = None.
Proof.
  intros Hg Hp Hst Hnd. destruct l as [|y l].
  { exists p. split_and!; try done. by inversion Hst. }
  pose proof (stem_odd _ _ _ Hst) as Hodd. pose proof (stem_is_path g p _ Hp Hst) as Hpath.
  assert (Hby : p !! b = Some y) by (by inversion Hst).
  assert (Hev : Nat.even (length (y :: l)) = true).
  { change (length (b :: y :: l)) with (S (length (y :: l))) in Hodd.
    by rewrite Nat.odd_succ in Hodd. }
  apply NoDup_cons in Hnd as [Hb Hnd].
  destruct (pair_up_spec p (y :: l) (proj1 Hp) Hnd Hev) as (H1 & H2 & H3).
  exists (p_pair_up p (y :: l)). set (q := p_pair_up p (y :: l)) in *.
  assert (Hqb : q !! b = None).
  { rewrite H3 by done. rewrite Hby. rewrite bool_decide_eq_true_2; [done|left]. }
  split_and!; [| |done].
  - apply pair_up_pairing_of; try done. intros u v Huv.
    apply path_pairs_elem in Huv as (i & Hu & Hv).
    apply (Hpath (S (2 * i)) u v); done.
  - destruct (stem_mates g p b (y :: l) (proj1 Hp) Hst) as [Hlast Hmates].
    destruct (last (b :: y :: l)) as [r|] eqn:Hr; [|by apply last_None in Hr].
    specialize (Hlast r eq_refl).
    assert (Hrl : r ∈ y :: l).
    { change (last (b :: y :: l)) with (last (y :: l)) in Hr. apply last_Some in Hr as [l' ->].
      set_solver. }
    assert (Hrb : r <> b) by (intros ->; done).
    assert (Hdom : forall x, is_Some (q !! x) <-> x <> b /\ (x = r \/ is_Some (p !! x))).
    { intros x. destruct (decide (x = b)) as [->|Hxb].
      { rewrite Hqb. split; [by intros [? ?]|tauto]. }
      destruct (decide (x ∈ y :: l)) as [Hx|Hx].
      - split.
        + intros _. split; [done|]. destruct (decide (x = r)) as [->|Hxr]; [by left|right].
          destruct (Hmates x Hx) as (v & _ & Hv); [congruence|]. by eexists.
        + intros _. destruct (even_length_pairs _ x Hev Hx) as (z & [Hz|Hz]);
            destruct (H2 _ _ Hz); by eexists.
      - rewrite H3 by done. destruct (p !! x) as [z|] eqn:Ez.
        + rewrite bool_decide_eq_false_2; [split; [by eauto|by eexists]|].
          intros Hz. apply (proj1 Hp) in Ez as [Ez _]. destruct (decide (z = r)) as [->|Hzr]; [congruence|].
          destruct (Hmates z Hz) as (v & Hv & Ev); [congruence|]. rewrite Ez in Ev.
          injection Ev as <-. apply elem_of_cons in Hv as [?|?]; done.
        + split; [by intros [? ?]|]. intros [_ [->|[? ?]]]; done. }
    unfold p_order. rewrite <-!size_dom.
    assert (dom q = (dom p ∖ {[b]}) ∪ {[r]}) as ->.
    { apply set_eq. intros x. rewrite elem_of_union, elem_of_difference, !elem_of_singleton.
      rewrite !elem_of_dom, Hdom. destruct (decide (x = b)); destruct (decide (x = r)); subst; tauto. }
    rewrite size_union.
    + rewrite size_difference.
      * rewrite !size_singleton. assert (1 <= size (dom p)); [|lia].
        assert (size (dom p) <> 0); [|lia]. rewrite size_empty_iff. intros Hem.
        assert (b ∈ dom p) by (apply elem_of_dom; by eexists). set_solver.
      * intros x ->%elem_of_singleton. apply elem_of_dom. by eexists.
    + intros x [Hx _]%elem_of_difference ->%elem_of_singleton.
      apply elem_of_dom in Hx as [? ?]. congruence.
Qed.

(** ** Odd cycles *)

Lemma rotate_path g a x c : 
  is_path g (a ++ x :: c) ->
  (forall y z, head (a ++ x :: c) = Some y -> last (a ++ x :: c) = Some z -> adj g z y) ->
  is_path g (x :: c ++ a) /\
  (forall y z, head (x :: c ++ a) = Some y -> last (x :: c ++ a) = Some z -> adj g z y).
Proof.
  intros Hp Hc. apply is_path_app in Hp as (Ha & Hxc & Hj). rewrite last_app_cons in Hc.
  change (x :: c ++ a) with ((x :: c) ++ a). split.
  - apply is_path_app. split_and!; [done|done|]. intros y z Hy Hz. apply Hc; [|done].
    by destruct a.
  - intros y z [= <-] Hz. destruct a as [|a0 a] using rev_ind.
    + rewrite app_nil_r in Hz. by apply Hc.
    + rewrite app_assoc, last_snoc in Hz. injection Hz as <-. apply Hj; [|done]. apply last_snoc.
Qed.

(** All nodes of an odd cycle but one can be matched inside it. *)
Lemma odd_cycle_match g B x : odd_cycle g B -> x ∈ B ->
  exists M, matching g M /\ 2 * length M + 1 = length B /\
    (forall u, u ∈ endpoints M -> u ∈ B /\ u <> x).
Proof.
  intros (Hnd & Hodd & Hp & Hc) Hx. apply elem_of_list_split in Hx as (a & c & ->).
  destruct (rotate_path g a x c Hp Hc) as [Hr _].
  assert (Hperm : a ++ x :: c ≡ₚ x :: (c ++ a)).
  { rewrite Permutation_app_comm. done. }
  rewrite Hperm in Hnd. apply NoDup_cons in Hnd as [Hx Hnd].
  assert (Hlen : length (a ++ x :: c) = S (length (c ++ a))).
  { by rewrite Hperm. }
  rewrite Hlen in Hodd. rewrite Nat.odd_succ in Hodd.
  apply is_path_cons in Hr as [Hr _].
  assert (Hend : endpoints (path_pairs (c ++ a)) = c ++ a).
  { revert Hodd. generalize (c ++ a). intros l. induction l as [|y|y z l IH] using list_pair_ind.
    - done.
    - done.
    - intros Hev. cbn [path_pairs]. change (endpoints ((y, z) :: path_pairs l))
        with (y :: z :: endpoints (path_pairs l)). by rewrite IH. }
  exists (path_pairs (c ++ a)). split_and!.
  - split; [|by rewrite Hend]. intros u v (i & Hu & Hv)%path_pairs_elem. by eapply Hr.
  - rewrite Hlen, <-endpoints_length, Hend. lia.
  - rewrite Hend. intros u Hu. split; [|intros ->; done].
    rewrite Hperm. by right.
Qed.

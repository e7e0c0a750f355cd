(** Which edges [greedy] leaves uncovered. *)
From Verif Require Import Outcome GraphModel TraversalModel ComponentsModel PairingModel GreedyModel
  Spec SpecSearch SpecTangle SpecClosing GraphProofs TraversalProofs BfsProofs DfsProofs
  PathLemmas AcyclicProofs CycleProofs NarrowProofs ComponentsProofs GreedyProofs SearchProofs TextbookProofs
  TangleProofs.

Lemma first_source (steps : list Step) s : s ∈ steps -> exists pre s1 post,
  steps = pre ++ s1 :: post /\ sid s1 = sid s /\ forall s', s' ∈ pre -> sid s' <> sid s.
Proof.
  induction steps as [|t steps IH]; intros Hs; [by apply elem_of_nil in Hs|].
  destruct (decide (sid t = sid s)) as [He|Hne].
  { exists [], t, steps. split_and!; [done|done|]. intros s' H. by apply elem_of_nil in H. }
  apply elem_of_cons in Hs as [->|Hs]; [done|].
  destruct (IH Hs) as (pre & s1 & post & -> & H1 & H2). exists (t :: pre), s1, post.
  split_and!; [done|done|]. intros s' [->|H]%elem_of_cons; [done|]. by apply H2.
Qed.

(** ** Where the first step of a node is a cut, the path to it closes a ring *)
Section closing.
  Context (g : Graph) (Hg : Lawful g) (Hl : LoopFree g) (r : N) (Hr : r ∈ g_nodes g)
    (Hu : untangled g r) (He : rings_end g r) (steps : list Step) (Hd : depth_first g r steps).

  Lemma closing_upto : upto g r steps.
  Proof using All.
    clear He. pose proof (untangled_run g Hg Hl r Hr Hu steps Hd) as HT.
    apply textbook_rule_iff in HT; [|done..]. exact (proj1 HT).
  Qed.

  (** All neighbors of a node left by a cut are its ancestors. *)
  Lemma cut_all_ancestors x y : leaves_by_cut steps x -> adj g x y -> ancestor steps y x.
  Proof using All.
    intros (pre & s & post & Heq & Hs & Hc & Hpre) Hxy. pose proof closing_upto as HU.
    destruct (HU pre s post Heq) as [((Hsd & Hadj & Hne & Hn1 & Hn2) & _) Hcut].
    assert (Hin : s ∈ steps) by (rewrite Heq; set_solver).
    destruct (untangled_dfs g Hg Hl r Hr Hu steps Hd) as (_ & _ & Hanc).
    specialize (Hanc s Hin Hc). rewrite Hs in *.
    assert (Hxd : x ∈ discovered r steps) by (rewrite Heq; by apply disc_mono).
    destruct (tree_path g r steps x HU Hxd) as (P & HP1 & HP2 & HP3 & HP4 & HP5 & HP6).
    apply HP5. apply (He P x (tid s) y); try done; [by apply HP5|].
    intros [P' HP']. assert (Ht : mkStep (tid s) x false ∈ steps) by (eapply (HP6 P'); exact HP').
    rewrite Heq in Ht. apply elem_of_app in Ht as [Ht|[Ht|Ht]%elem_of_cons].
    - apply Hn2. apply elem_of_list_fmap. by exists (mkStep (tid s) x false).
    - rewrite <-Ht in Hc. done.
    - (* the tree step to [x] comes before the steps from [x] *)
      apply elem_of_list_split in Ht as (l1 & l2 & ->).
      destruct (HU (pre ++ s :: l1) (mkStep (tid s) x false) l2) as [_ Hc'].
      { by rewrite Heq, <-app_assoc. }
      cbn [cut tid] in Hc'. assert (false = true) as ?; [|done]. apply Hc'. by apply disc_mono.
  Qed.

  Lemma not_both x y : adj g x y -> ancestor steps y x -> leaves_by_cut steps y -> False.
  Proof using All.
    intros Hxy Hanc Hy. pose proof closing_upto as HU. unfold ancestor in Hanc.
    apply rtc_inv in Hanc as [->|(z & Hz & _)]; [by apply (Hl x)|].
    assert (Hyz : adj g y z).
    { apply (crossed_disc g r steps y z HU). apply elem_of_list_fmap. by exists (mkStep y z false). }
    pose proof (cut_all_ancestors y z Hy Hyz) as Hzy.
    pose proof (tree_before g r steps y z HU Hz) as Hb.
    destruct (anc_before g r steps z y HU Hzy) as [->|Hb']; [by apply (Hl y)|].
    eapply before_asym; [by apply (upto_nodup g r)|done..].
  Qed.

  Lemma child_source x y : adj g x y -> ancestor steps y x -> exists s, s ∈ steps /\ sid s = y.
  Proof using All.
    intros Hxy Hanc. apply rtc_inv in Hanc as [->|(z & Hz & _)]; [by apply Hl in Hxy|].
    by exists (mkStep y z false).
  Qed.
End closing.

(** ** Trees and rings *)
Lemma path_reach g P r v : is_path g P -> head P = Some r -> last P = Some v -> reachable g r v.
Proof.
  intros Hp Hhd Hlast. revert r Hhd. induction P as [|p P IH]; intros r Hhd; [done|]. injection Hhd as ->.
  destruct P as [|q P]; [injection Hlast as ->; constructor|].
  apply is_path_cons2 in Hp as [Hpq Hp]. eapply rtc_l; [exact Hpq|]. by apply IH.
Qed.

Lemma lone_narrow g r : lone_rings g -> narrow_rings g r.
Proof.
  intros [Hl Ha] v n _ Hdeg. split; [apply Hl|]. intros Hc. specialize (Ha v n Hc Hdeg). lia.
Qed.

Lemma lone_rings_end g r : Lawful g -> lone_rings g -> rings_end g r.
Proof.
  intros Hg [Hl Ha] P v x y Hp Hnd Hhd Hlast Hvx HxP Hnot Hvy.
  apply last_Some in Hlast as [P' ->].
  destruct (decide (y ∈ P' ++ [v])) as [?|Hy]; [done|]. exfalso.
  assert (Hxv : x <> v) by (intros ->; by apply (Hl v)).
  apply elem_of_app in HxP as [HxP|?%elem_of_list_singleton]; [|done].
  apply elem_of_list_split in HxP as (A & B & ->).
  destruct B as [|b B _] using rev_ind.
  { apply Hnot. exists A. by rewrite <-app_assoc. }
  assert (Heq : (A ++ x :: B ++ [b]) ++ [v] = A ++ (x :: B ++ [b; v])) by (simpl; by rewrite <-!app_assoc; simpl; rewrite <-app_assoc).
  rewrite Heq in *. apply is_path_app in Hp as (_ & Hp & _).
  assert (Hnd' : NoDup (x :: B ++ [b; v])) by (by apply NoDup_app in Hnd as (_ & _ & ?)).
  assert (Hbv : adj g b v).
  { replace (x :: B ++ [b; v]) with ((x :: B) ++ [b; v]) in Hp by done.
    apply is_path_app in Hp as (_ & Hp & _). by apply is_path_cons2 in Hp as [? _]. }
  assert (Hcyc : on_cycle g v).
  { exists (x :: B ++ [b; v]). split; [|rewrite elem_of_cons, elem_of_app, !elem_of_cons; tauto]. split_and!.
    - rewrite cons_length, app_length. simpl. lia.
    - done.
    - done.
    - exists x, v. split_and!; [done| |done].
      replace (x :: B ++ [b; v]) with ((x :: B ++ [b]) ++ [v]) by (simpl; by rewrite <-app_assoc).
      by rewrite last_snoc. }
  pose proof (lawful_adj_l g Hg _ _ Hvx) as Hv.
  pose proof (lawful_nbrs g Hg v Hv) as Hnb.
  specialize (Ha v _ Hcyc (law_degree g Hg v _ Hnb)).
  assert (Hle : length [x; b; y] <= length (nbrs g v)); [|simpl in *; lia].
  apply submseteq_length, NoDup_submseteq.
  - apply NoDup_cons in Hnd' as [Hx _].
    repeat apply NoDup_cons_2; try apply NoDup_nil_2; set_solver.
  - apply law_adj_sym in Hbv; [|done]. apply adj_nbrs in Hvx, Hbv, Hvy.
    intros z. rewrite !elem_of_cons, elem_of_nil. intros [->|[->|[->|[]]]]; done.
Qed.

(** ** Deciding [rings_end] for a given graph *)
Fixpoint ends_b (g : Graph) (n : nat) (Q : list N) (v : N) : bool :=
  (negb (existsb (fun x => bool_decide (x ∈ drop 1 Q)) (nbrs g v)) ||
   forallb (fun y => bool_decide (y ∈ v :: Q)) (nbrs g v)) &&
  match n with
  | 0 => false
  | S n => forallb (fun w => bool_decide (w ∈ v :: Q) || ends_b g n (v :: Q) w) (nbrs g v)
  end.

Lemma ends_sound g n Q v : ends_b g n Q v = true -> forall W z x y,
  is_path g (v :: W) -> NoDup (reverse Q ++ v :: W) -> last (v :: W) = Some z ->
  adj g z x -> x ∈ reverse Q ++ v :: W -> x <> z ->
  ~ (exists P', reverse Q ++ v :: W = P' ++ [x; z]) -> adj g z y -> y ∈ reverse Q ++ v :: W.
Proof.
  revert Q v. induction n as [|n IH]; intros Q v Hb W z x y Hp Hnd Hlast Hx HxP Hxz Hnot Hy;
    cbn [ends_b] in Hb; apply andb_true_iff in Hb as [Hb1 Hb2]; [done|].
  destruct W as [|w W].
  - injection Hlast as ->. apply orb_true_iff in Hb1 as [Hb1|Hb1].
    + exfalso. apply negb_true_iff in Hb1. apply not_true_iff_false in Hb1. apply Hb1.
      apply existsb_exists. exists x. split; [by apply elem_of_list_In, adj_nbrs|].
      apply bool_decide_eq_true_2. rewrite elem_of_app, elem_of_list_singleton, elem_of_reverse in HxP.
      destruct HxP as [HxQ|?]; [|done]. destruct Q as [|q Q]; [by apply elem_of_nil in HxQ|].
      rewrite skipn_cons, drop_0. apply elem_of_cons in HxQ as [->|?]; [|done].
      exfalso. apply Hnot. exists (reverse Q). by rewrite reverse_cons, <-app_assoc.
    + rewrite forallb_forall in Hb1. apply adj_nbrs, elem_of_list_In, Hb1, bool_decide_eq_true_1 in Hy.
      rewrite elem_of_app, elem_of_reverse, elem_of_list_singleton. apply elem_of_cons in Hy. tauto.
  - apply is_path_cons2 in Hp as [Hvw Hp].
    rewrite forallb_forall in Hb2.
    pose proof (Hb2 w ltac:(by apply elem_of_list_In, adj_nbrs)) as Hw.
    assert (Heq : reverse Q ++ v :: w :: W = reverse (v :: Q) ++ w :: W) by (by rewrite reverse_cons, <-app_assoc).
    rewrite Heq in *. apply orb_true_iff in Hw as [Hw|Hw].
    + exfalso. apply bool_decide_eq_true_1 in Hw. apply NoDup_app in Hnd as (_ & Hnd & _).
      apply (Hnd w); [by apply elem_of_reverse|left].
    + by apply (IH (v :: Q) w Hw W z x y).
Qed.

Lemma rings_end_check g n r : LoopFree g -> ends_b g n [] r = true -> rings_end g r.
Proof.
  intros Hl Hb P v x y Hp Hnd Hhd Hlast Hx HxP Hnot Hy. destruct P as [|p W]; [done|]. injection Hhd as ->.
  apply (ends_sound g n [] r Hb W v x y); try done. intros ->. by apply (Hl v).
Qed.

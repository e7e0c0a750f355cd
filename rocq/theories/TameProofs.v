(** Graphs whose odd cycles are out of each other's way: lifting keeps paths
    even, and (for the smaller classes) every augmentation gains. *)
From Verif Require Import Outcome GraphModel TraversalModel ComponentsModel PairingModel Spec
  GraphProofs EditProofs TraversalProofs PathLemmas PairingProofs MatchTheory MaximumModel
  ForestProofs BlossomProofs ContractProofs LiftProofs.

(** ** Arcs of an odd cycle *)

Lemma cycle_from g C x : Lawful g -> odd_cycle g C -> x ∈ C ->
  exists D, rotation C (x :: D) /\ odd_cycle g (x :: D) /\ x :: D ≡ₚ C.
Proof.
  intros Hg HC (L & R & ->)%elem_of_list_split. exists (R ++ L).
  assert (Hrot : rotation (L ++ x :: R) (x :: R ++ L)) by (by exists L, (x :: R)).
  split_and!; [done|by eapply rotation_cycle|by apply rotation_perm].
Qed.

(** Between two different nodes of an odd cycle there are arcs of both
    parities. *)
Lemma arcs g C x y (k : bool) : Lawful g -> odd_cycle g C -> x ∈ C -> y ∈ C ->
  (x = y -> k = true) ->
  exists seg, NoDup seg /\ is_path g seg /\ head seg = Some x /\ last seg = Some y /\
    (forall z, z ∈ seg -> z ∈ C) /\ Nat.odd (length seg) = k.
Proof.
  intros Hg HC Hx Hy Hk. destruct (decide (x = y)) as [->|Hne].
  { exists [y]. split_and!; [apply NoDup_singleton|apply is_path_singleton|done|done| |].
    - by intros z ->%elem_of_list_singleton.
    - by rewrite Hk. }
  destruct (cycle_from g C x Hg HC Hx) as (D & _ & (Hnd & Hodd & Hp & Hc) & Hperm).
  rewrite <-Hperm in Hy. apply elem_of_cons in Hy as [?|Hy]; [done|].
  apply elem_of_list_split in Hy as (D1 & D2 & ->).
  set (s1 := x :: D1 ++ [y]). set (s2 := x :: reverse D2 ++ [y]).
  assert (Hs1 : NoDup s1 /\ is_path g s1 /\ (forall z, z ∈ s1 -> z ∈ C)).
  { split_and!.
    - assert (Hn : NoDup (s1 ++ D2)).
      { unfold s1. rewrite app_comm_cons, <-app_assoc. exact Hnd. }
      by apply NoDup_app in Hn as (? & _ & _).
    - change (x :: D1 ++ y :: D2) with ((x :: D1) ++ y :: D2) in Hp.
      replace ((x :: D1) ++ y :: D2) with (s1 ++ D2) in Hp.
      + by apply is_path_app in Hp as (? & _ & _).
      + unfold s1. rewrite app_comm_cons, <-app_assoc. done.
    - intros z Hz. rewrite <-Hperm. unfold s1 in Hz. set_solver. }
  assert (Hs2 : NoDup s2 /\ is_path g s2 /\ (forall z, z ∈ s2 -> z ∈ C)).
  { assert (Hp2 : s2 ≡ₚ x :: y :: D2).
    { unfold s2. rewrite (reverse_Permutation D2), (Permutation_app_comm D2 [y]). done. }
    split_and!.
    - rewrite Hp2. apply NoDup_cons in Hnd as [Hx' Hnd]. apply NoDup_app in Hnd as (_ & _ & Hnd).
      apply NoDup_cons. split; [|done]. intros H. apply Hx'. apply elem_of_app. by right.
    - assert (is_path g (y :: D2)).
      { rewrite app_comm_cons in Hp. by apply is_path_app in Hp as (_ & ? & _). }
      assert (Hr : is_path g (reverse (y :: D2))) by (by apply is_path_reverse).
      rewrite reverse_cons in Hr. unfold s2. apply is_path_cons. split; [done|].
      intros z Hz. apply law_adj_sym; [done|]. apply Hc; [done|].
      rewrite app_comm_cons, last_app_cons. rewrite <-reverse_cons, head_reverse in Hz. done.
    - intros z Hz. rewrite Hp2 in Hz. rewrite <-Hperm. set_solver. }
  assert (Hpar : Nat.odd (length s2) = negb (Nat.odd (length s1))).
  { unfold s1, s2. cbn [length] in *. rewrite !app_length, reverse_length in *. cbn [length] in *.
    replace (S (length D1 + S (length D2))) with (2 + (length D1 + length D2)) in Hodd by lia.
    replace (S (length D2 + 1)) with (2 + length D2) by lia.
    replace (S (length D1 + 1)) with (2 + length D1) by lia.
    change (Nat.odd (length D1 + length D2) = true) in Hodd.
    change (Nat.odd (length D2) = negb (Nat.odd (length D1))).
    rewrite Nat.odd_add in Hodd. by destruct (Nat.odd (length D1)), (Nat.odd (length D2)). }
  destruct Hs1 as (H1 & H2 & H3), Hs2 as (K1 & K2 & K3).
  destruct (decide (Nat.odd (length s1) = k)) as [E|E].
  - exists s1. split_and!; try done. unfold s1. by rewrite app_comm_cons, last_snoc.
  - exists s2. split_and!; try done.
    + unfold s2. by rewrite app_comm_cons, last_snoc.
    + rewrite Hpar. destruct (Nat.odd (length s1)), k; done.
Qed.

(** A simple path outside an odd cycle and attached to it closes to odd cycles. *)
Lemma close_outside g C x y l : Lawful g -> odd_cycle g C -> x ∈ C -> y ∈ C ->
  NoDup l -> is_path g l -> (forall z, z ∈ l -> z ∉ C) ->
  (forall z, head l = Some z -> adj g x z) -> (forall z, last l = Some z -> adj g z y) -> l <> [] ->
  (x = y -> Nat.even (length l) = true) ->
  exists d, odd_cycle g d /\ x ∈ d /\ (forall z, z ∈ l -> z ∈ d).
Proof.
  intros Hg HC Hx Hy Hnd Hp Hout Hh Hl Hne Hk.
  destruct (arcs g C y x (Nat.even (length l)) Hg HC Hy Hx) as (seg & H1 & H2 & H3 & H4 & H5 & H6);
    [by intros ->; auto|].
  exists (l ++ seg). split_and!.
  - split_and!.
    + apply NoDup_app. split_and!; [done| |done]. intros z Hz Hz'. apply (Hout z Hz). auto.
    + rewrite app_length, Nat.odd_add, H6, <-Nat.negb_even. by destruct (Nat.even (length l)).
    + apply is_path_app. split_and!; try done. intros a b Ha Hb.
      assert (b = y) as -> by congruence. auto.
    + intros a b Ha Hb. assert (b = x) as ->.
      { destruct seg; [done|]. rewrite last_app_cons in Hb. congruence. }
      apply Hh. by destruct l.
  - apply elem_of_app. right. apply last_Some in H4 as [? ->]. apply elem_of_app. right. left.
  - intros z Hz. apply elem_of_app. by left.
Qed.

(** ** Links outside a cycle *)

Lemma linked_out g c u v : linked_outside g c u v -> v ∉ c.
Proof.
  intros [Hu H]. induction H as [|a b d [_ Hb] _ IH]; [done|]. by apply IH.
Qed.

Lemma linked_trans g c u v w : linked_outside g c u v -> linked_outside g c v w -> linked_outside g c u w.
Proof. intros [Hu H] [_ H']. split; [done|]. by eapply rtc_transitive. Qed.

Lemma linked_sym g c u v : Lawful g -> linked_outside g c u v -> linked_outside g c v u.
Proof.
  intros Hg [Hu H]. induction H as [|a b d [Hab Hb] Hbd IH]; [by split|].
  destruct (IH Hb) as [Hd Hdb]. split; [done|]. eapply rtc_r; [exact Hdb|].
  split; [by apply law_adj_sym|done].
Qed.

Lemma linked_path g c l u v : is_path g l -> (forall z, z ∈ l -> z ∉ c) ->
  head l = Some u -> v ∈ l -> linked_outside g c u v.
Proof.
  revert u. induction l as [|x l IH]; intros u Hp Hout Hh Hv; [done|].
  injection Hh as ->. assert (Hu : u ∉ c) by (apply Hout; left).
  apply elem_of_cons in Hv as [->|Hv]; [by split|].
  apply is_path_cons in Hp as [Hp Hj]. destruct l as [|y l]; [by apply elem_of_nil in Hv|].
  destruct (IH y) as [Hy Hyv]; try done.
  { intros z Hz. apply Hout. by right. }
  split; [done|]. econstructor; [|exact Hyv]. split; [by apply Hj|done].
Qed.

(** A link can be taken simple. *)
Lemma linked_simple g c u v : Lawful g -> linked_outside g c u v ->
  exists l, NoDup l /\ is_path g l /\ head l = Some u /\ last l = Some v /\ (forall z, z ∈ l -> z ∉ c).
Proof.
  intros Hg [Hu H]. induction H as [a|a b d [Hab Hb] _ IH].
  { exists [a]. split_and!; [apply NoDup_singleton|apply is_path_singleton|done|done|].
    by intros z ->%elem_of_list_singleton. }
  destruct (IH Hb) as (l & Hnd & Hp & Hh & Hl & Hout).
  destruct (decide (a ∈ l)) as [Hin|Hin].
  - apply elem_of_list_split in Hin as (l1 & l2 & ->). exists (a :: l2).
    apply NoDup_app in Hnd as (_ & _ & Hnd). apply is_path_app in Hp as (_ & Hp & _).
    rewrite last_app_cons in Hl. split_and!; try done. intros z Hz. apply Hout.
    apply elem_of_app. by right.
  - exists (a :: l). split_and!; try done.
    + by apply NoDup_cons.
    + apply is_path_cons. split; [done|]. intros y Hy. congruence.
    + destruct l; [done|]. done.
    + intros z [->|Hz]%elem_of_cons; [done|auto].
Qed.

Lemma lone_separated g c x y u v : Lawful g -> odd_cycle g c -> lone_cycle g c ->
  x ∈ c -> y ∈ c -> adj g x u -> adj g y v -> linked_outside g c u v -> x = y.
Proof.
  intros Hg Hc Hd Hx Hy Hxu Hyv Huv.
  destruct (decide (x = y)) as [|Hne]; [done|exfalso].
  destruct (linked_simple g c u v Hg Huv) as (l & Hnd & Hp & Hh & Hl & Hout).
  destruct (close_outside g c x y l Hg Hc Hx Hy Hnd Hp Hout) as (d & Hd' & Hxd & Hld).
  - intros z Hz. congruence.
  - intros z Hz. assert (z = v) as -> by congruence. by apply law_adj_sym.
  - intros ->. done.
  - done.
  - assert (Hu : u ∈ l) by (destruct l; [done|]; injection Hh as ->; left).
    apply (Hout u Hu). apply (Hd d x); auto.
Qed.

Definition separated_at (g : Graph) (c : list N) : Prop :=
  forall x y u v, x ∈ c -> y ∈ c -> adj g x u -> adj g y v -> linked_outside g c u v -> x = y.

(** Bipartite graphs have no odd cycle. *)
Lemma alternate_color g (color : N -> bool) l a z : (forall u v, adj g u v -> color u <> color v) ->
  is_path g l -> head l = Some a -> last l = Some z -> Nat.odd (length l) = true -> color a = color z.
Proof.
  intros Hcol. revert a. induction l as [|x|x y l IH] using list_pair_ind; intros a Hp Hh Hl Ho; try done.
  - simpl in *. congruence.
  - injection Hh as ->. apply is_path_cons2 in Hp as [Hay Hp]. apply Hcol in Hay.
    destruct l as [|w l]; [done|]. apply is_path_cons2 in Hp as [Hyw Hp]. apply Hcol in Hyw.
    rewrite <-(IH w); try done. destruct (color a), (color y), (color w); congruence.
Qed.

Lemma bipartite_no_odd g c : Bipartite g -> ~ odd_cycle g c.
Proof.
  intros [color Hcol] (Hnd & Ho & Hp & Hc).
  destruct (head c) as [a|] eqn:Ha; [|by destruct c].
  destruct (last c) as [z|] eqn:Hz; [|apply last_None in Hz; by subst].
  apply (Hcol z a); [auto|]. symmetry. by eapply alternate_color.
Qed.

Notation tame := quiet_odd_cycles.

Lemma no_odd_quiet g : (forall c, ~ odd_cycle g c) -> tame g.
Proof. intros H c Hc. by destruct (H c). Qed.

Lemma pendant_quiet g : pendant_odd_cycles g -> tame g.
Proof. intros H c Hc _. left. intros x y u v. by apply H. Qed.

Lemma disjoint_quiet g : disjoint_odd_cycles g -> tame g.
Proof. intros H c Hc _. right. left. intros d x Hd Hxc Hxd y Hy. by apply (H d c x). Qed.

(** ** The classes survive contraction *)

Section closed.
  Context (g : Graph) (Hg : Lawful g) (B : list N) (HB : odd_cycle g B).
  Context (b : N) (Hb : b ∈ g_nodes g -> b ∈ B).
  Context (g' : Graph) (Hg' : Lawful g').
  Context (Ha : forall x y, adj g' x y <-> made B b (g_edges g) x y).

  (** Cycles that avoid the contracted node. *)
  Lemma cycle_down c' : odd_cycle g' c' -> b ∉ c' -> odd_cycle g c' /\ forall x, x ∈ c' -> x ∉ B.
  Proof.
    intros (Hnd & Ho & Hp & Hc) Hbc.
    assert (Hedge : forall x y, x ∈ c' -> y ∈ c' -> adj g' x y -> adj g x y /\ x ∉ B).
    { intros x y Hx Hy Hxy. destruct (adj_out_down g Hg B b g' Ha x y Hxy) as (? & ? & ?);
        [intros ->; done..|done]. }
    split; [split_and!; try done|].
    - intros i x y Hx Hy. apply Hedge; [by eapply elem_of_list_lookup_2..|by eapply Hp].
    - intros x y Hx Hy. apply Hedge; [| |auto].
      + apply last_Some in Hy as [? ->]. apply elem_of_app. right. left.
      + destruct c'; [done|]. injection Hx as ->. left.
    - intros x [i Hi]%elem_of_list_lookup. destruct (c' !! S i) as [y|] eqn:Ey.
      + apply (Hedge x y); [by eapply elem_of_list_lookup_2..|by eapply Hp].
      + assert (Hl : last c' = Some x).
        { rewrite last_lookup. apply lookup_ge_None in Ey. apply lookup_lt_Some in Hi as Hlt.
          replace (pred (length c')) with i by lia. done. }
        destruct c' as [|a c0] eqn:E; [done|]. rewrite <-E in *.
        apply (Hedge x a); [by eapply elem_of_list_lookup_2|rewrite E; left|].
        apply Hc; [by rewrite E|done].
  Qed.

  (** Cycles through the contracted node open at the blossom. *)
  Lemma cycle_through c' : odd_cycle g' c' -> b ∈ c' ->
    exists rest z1 z2, b :: rest ≡ₚ c' /\ rest <> [] /\ NoDup rest /\ is_path g rest /\
      Nat.even (length rest) = true /\ (forall x, x ∈ rest -> x ∉ B /\ x <> b) /\
      z1 ∈ B /\ z2 ∈ B /\ (forall u, head rest = Some u -> adj g z1 u) /\
      (forall u, last rest = Some u -> adj g u z2).
  Proof.
    intros Hc Hbc. destruct (cycle_from g' c' b Hg' Hc Hbc) as (rest & _ & (Hnd & Ho & Hp & Hcl) & Hperm).
    apply NoDup_cons in Hnd as [Hbr Hnd]. apply is_path_cons in Hp as [Hp Hj].
    assert (Hne : rest <> []).
    { intros ->. destruct (adj_b_down g Hg B b Hb g' Ha b) as [? _]; [by apply Hcl|done]. }
    assert (Hrb : forall x, x ∈ rest -> x <> b) by (intros x Hx ->; done).
    assert (Hbl : forall u, last rest = Some u -> adj g' b u).
    { intros u Hu. apply law_adj_sym; [done|]. apply Hcl; [done|]. by destruct rest. }
    assert (HrB : forall x, x ∈ rest -> x ∉ B).
    { intros x Hx. pose proof Hx as [i Hi]%elem_of_list_lookup. destruct (rest !! S i) as [y|] eqn:Ey.
      - destruct (adj_out_down g Hg B b g' Ha x y) as (? & ? & ?); [by eapply Hp|by auto| |done].
        apply Hrb. by eapply elem_of_list_lookup_2.
      - destruct (adj_b_down g Hg B b Hb g' Ha x) as (_ & ? & _); [|done]. apply Hbl.
        rewrite last_lookup. apply lookup_ge_None in Ey. apply lookup_lt_Some in Hi as Hlt.
        by replace (pred (length rest)) with i by lia. }
    destruct (head rest) as [u|] eqn:Eu; [|by destruct rest].
    destruct (last rest) as [w|] eqn:Ew; [|by apply last_None in Ew].
    destruct (adj_b_down g Hg B b Hb g' Ha u) as (_ & _ & z1 & Hz1 & Hz1u); [by apply Hj|].
    destruct (adj_b_down g Hg B b Hb g' Ha w) as (_ & _ & z2 & Hz2 & Hz2w); [by apply Hbl|].
    exists rest, z1, z2. split_and!; try done.
    - intros i x y Hx Hy. destruct (adj_out_down g Hg B b g' Ha x y) as [? _]; [by eapply Hp| | |done];
        apply Hrb; by eapply elem_of_list_lookup_2.
    - cbn [length] in Ho. by rewrite Nat.odd_succ in Ho.
    - intros x Hx. auto.
    - intros x Hx. congruence.
    - intros x Hx. assert (x = w) as -> by congruence. by apply law_adj_sym.
  Qed.

  (** Its other nodes lie on an odd cycle of the graph that meets the blossom. *)
  Lemma cycle_lift c' x : odd_cycle g' c' -> b ∈ c' -> x ∈ c' -> x <> b ->
    exists d z, odd_cycle g d /\ x ∈ d /\ z ∈ d /\ z ∈ B /\ x ∉ B.
  Proof.
    intros Hc Hbc Hx Hxb.
    destruct (cycle_through c' Hc Hbc) as (rest & z1 & z2 & Hperm & Hne & Hnd & Hp & Hev & Hout & Hz1 & Hz2 & Hj1 & Hj2).
    destruct (close_outside g B z1 z2 rest Hg HB Hz1 Hz2 Hnd Hp) as (d & Hcd & Hxd & Hld); try done.
    { intros z Hz. by apply Hout. }
    rewrite <-Hperm in Hx. apply elem_of_cons in Hx as [?|Hx]; [done|].
    exists d, z1. split_and!; auto. by apply Hout.
  Qed.

  Lemma through_other c' : odd_cycle g' c' -> b ∈ c' -> exists x, x ∈ c' /\ x <> b.
  Proof.
    intros Hc Hbc.
    destruct (cycle_through c' Hc Hbc) as (rest & z1 & z2 & Hperm & Hne & Hnd & Hp & Hev & Hout & _).
    destruct rest as [|r rest]; [done|]. exists r. rewrite <-Hperm. split; [right; left|].
    apply Hout. left.
  Qed.

  Lemma lone_no_through c' : lone_cycle g B -> odd_cycle g' c' -> b ∉ c'.
  Proof.
    intros Hd Hc Hbc. destruct (through_other c' Hc Hbc) as (x & Hx & Hxb).
    destruct (cycle_lift c' x Hc Hbc Hx Hxb) as (d & z & Hcd & Hxd & Hzd & HzB & HxB).
    apply HxB. by apply (Hd d z).
  Qed.

  Lemma pendant_no_through c' : pendant_cycle g B -> odd_cycle g' c' -> b ∉ c'.
  Proof.
    intros Hd Hc Hbc.
    destruct (cycle_through c' Hc Hbc) as (rest & z1 & z2 & _ & Hne & Hnd & Hp & Hev & Hout & Hz1 & Hz2 & Hj1 & Hj2).
    destruct rest as [|u rest]; [done|]. destruct rest as [|w rest _] using rev_ind; [done|].
    assert (u = w).
    { apply (Hd z1 z2 u w); try done.
      - apply Hout. left.
      - apply Hout. right. apply elem_of_app. right. left.
      - by apply Hj1.
      - apply law_adj_sym; [done|]. apply Hj2. by rewrite app_comm_cons, last_snoc. }
    subst. apply NoDup_cons in Hnd as [Hnd _]. apply Hnd. apply elem_of_app. right. left.
  Qed.

  Lemma pendant_contract c : odd_cycle g' c -> b ∉ c -> pendant_cycle g c -> pendant_cycle g' c.
  Proof.
    intros Hc Hbc Hd x y u v Hx Hy Hu Hv Hxu Hyv.
    destruct (cycle_down c Hc Hbc) as [Hcg HcB].
    assert (Hside : forall x u, x ∈ c -> adj g' x u ->
      exists u0, adj g x u0 /\ ((u = b /\ u0 ∈ B) \/ (u <> b /\ u0 = u /\ u ∉ B))).
    { intros x0 u0 Hx0 Hxu0. destruct (decide (u0 = b)) as [->|Hub].
      - apply law_adj_sym in Hxu0; [|done].
        destruct (adj_b_down g Hg B b Hb g' Ha x0 Hxu0) as (_ & _ & z & Hz & Hzx).
        exists z. split; [by apply law_adj_sym|]. by left.
      - destruct (adj_out_down g Hg B b g' Ha x0 u0 Hxu0) as (? & ? & ?); [by intros ->|done|].
        exists u0. split; [done|]. by right. }
    destruct (Hside x u Hx Hxu) as (u0 & Hxu0 & Hu0). destruct (Hside y v Hy Hyv) as (v0 & Hyv0 & Hv0).
    assert (u0 = v0).
    { apply (Hd x y); try done.
      - destruct Hu0 as [[_ Hu0]|(_ & -> & _)]; [|done]. intros H. by apply (HcB u0).
      - destruct Hv0 as [[_ Hv0]|(_ & -> & _)]; [|done]. intros H. by apply (HcB v0). }
    subst v0. destruct Hu0 as [[-> Hu0]|(? & -> & ?)], Hv0 as [[-> Hv0]|(? & ? & ?)]; subst; done.
  Qed.

  Lemma lone_contract c : odd_cycle g' c -> b ∉ c -> lone_cycle g c -> lone_cycle g' c.
  Proof.
    intros Hc Hbc Hd d x Hcd Hxc Hxd. destruct (cycle_down c Hc Hbc) as [Hcg HcB].
    destruct (decide (b ∈ d)) as [Hbd|Hbd].
    - destruct (cycle_lift d x Hcd Hbd Hxd) as (d0 & z & Hd0 & Hx0 & Hz0 & HzB & HxB); [by intros ->|].
      destruct (HcB z); [|done]. by apply (Hd d0 x).
    - apply cycle_down in Hcd as [Hcd _]; [|done]. by apply (Hd d x).
  Qed.

  (** Reachability below the contraction. *)
  Lemma B_reach x y : x ∈ B -> y ∈ B -> reachable g x y.
  Proof.
    intros Hx Hy. destruct (cycle_from g B x Hg HB Hx) as (D & _ & (_ & _ & Hp & _) & Hperm).
    assert (Hl : linked_outside g [] x y).
    { apply (linked_path g [] (x :: D)); try done; [set_solver|by rewrite Hperm]. }
    destruct Hl as [_ Hl]. eapply rtc_subrel; [|exact Hl]. by intros a z [? _].
  Qed.

  Lemma reach_down u v : reachable g' u v -> forall u0, (u = b /\ u0 ∈ B \/ u <> b /\ u0 = u) ->
    exists v0, reachable g u0 v0 /\ (v = b /\ v0 ∈ B \/ v <> b /\ v0 = v).
  Proof.
    intros H. induction H as [u|u w v Huw Hwv IH]; intros u0 Hu0; [exists u0; split; [constructor|done]|].
    assert (Hw : exists w0, reachable g u0 w0 /\ (w = b /\ w0 ∈ B \/ w <> b /\ w0 = w)).
    { destruct Hu0 as [[-> Hu0]|[Hub ->]].
      - destruct (adj_b_down g Hg B b Hb g' Ha w Huw) as (Hwb & _ & z & Hz & Hzw).
        exists w. split; [|by right]. eapply rtc_transitive; [by apply (B_reach u0 z)|by apply rtc_once].
      - destruct (decide (w = b)) as [->|Hwb].
        + apply law_adj_sym in Huw; [|done].
          destruct (adj_b_down g Hg B b Hb g' Ha u Huw) as (_ & _ & z & Hz & Hzu).
          exists z. split; [apply rtc_once; by apply law_adj_sym|by left].
        + exists w. split; [|by right]. apply rtc_once. by apply (adj_out_down g Hg B b g' Ha). }
    destruct Hw as (w0 & Huw0 & Hw0). destruct (IH w0 Hw0) as (v0 & Hv0 & Hv).
    exists v0. split; [|done]. by eapply rtc_transitive.
  Qed.

  (** From the contracted node at most two other nodes can be reached. *)
  Lemma dominant_reach : dominant_cycle g B ->
    exists u v, forall y, reachable g' b y -> y = b \/ y = u \/ y = v.
  Proof.
    intros (u & v & Hd). exists u, v. intros y Hy.
    assert (HBne : exists z, z ∈ B).
    { destruct HB as (_ & Ho & _). destruct B as [|z B']; [done|]. exists z. left. }
    destruct HBne as [z Hz].
    destruct (reach_down b y Hy z) as (y0 & Hzy & [[? _]|[Hyb ->]]); [by left|by left|].
    destruct (Hd z y Hz Hzy) as [HyB|?]; [|by right].
    (* a node of the blossom other than b is not reached *)
    exfalso. clear - Hg Hg' Hb Ha Hy Hyb HyB.
    destruct (rtc_inv_r _ _ Hy) as [?|(w & _ & Hwy)]; [done|].
    destruct (decide (w = b)) as [->|Hwb].
    - by destruct (adj_b_down g Hg B b Hb g' Ha y Hwy) as (_ & ? & _).
    - by destruct (adj_out_down g Hg B b g' Ha w y Hwy) as (_ & _ & ?).
  Qed.

  Lemma dominant_contract c : odd_cycle g' c -> b ∉ c -> dominant_cycle g c -> dominant_cycle g' c.
  Proof.
    intros Hc Hbc (u & v & Hd). destruct (cycle_down c Hc Hbc) as [Hcg HcB].
    assert (Hgen : forall x y, x ∈ c -> reachable g' x y ->
      exists y0, (y0 ∈ c \/ y0 = u \/ y0 = v) /\ (y = b /\ y0 ∈ B \/ y <> b /\ y0 = y)).
    { intros x y Hx Hy. destruct (reach_down x y Hy x) as (y0 & Hy0 & Hyy); [right; split; [by intros ->|done]|].
      exists y0. split; [by apply (Hd x)|done]. }
    destruct (decide (u ∈ B)) as [HuB|HuB]; [|destruct (decide (v ∈ B)) as [HvB|HvB]].
    - exists b, v. intros x y Hx Hy. destruct (Hgen x y Hx Hy) as (y0 & H1 & [[-> _]|[Hyb ->]]); [by right; left|].
      destruct H1 as [?|[->|?]]; [by left| |by right; right].
      exfalso. destruct (rtc_inv_r _ _ Hy) as [->|(w & _ & Hwy)]; [by apply (HcB u)|].
      destruct (decide (w = b)) as [->|Hwb].
      + by destruct (adj_b_down g Hg B b Hb g' Ha u Hwy) as (_ & ? & _).
      + by destruct (adj_out_down g Hg B b g' Ha w u Hwy) as (_ & _ & ?).
    - exists u, b. intros x y Hx Hy. destruct (Hgen x y Hx Hy) as (y0 & H1 & [[-> _]|[Hyb ->]]); [by right; right|].
      destruct H1 as [?|[? | ->]]; [by left|by right; left|].
      exfalso. destruct (rtc_inv_r _ _ Hy) as [->|(w & _ & Hwy)]; [by apply (HcB v)|].
      destruct (decide (w = b)) as [->|Hwb].
      + by destruct (adj_b_down g Hg B b Hb g' Ha v Hwy) as (_ & ? & _).
      + by destruct (adj_out_down g Hg B b g' Ha w v Hwy) as (_ & _ & ?).
    - exists u, v. intros x y Hx Hy. destruct (Hgen x y Hx Hy) as (y0 & H1 & [[-> Hy0]|[Hyb ->]]); [|done].
      exfalso. destruct H1 as [?|[-> | ->]]; [by apply (HcB y0)|done|done].
  Qed.

  (** A contracted self-loop is a renaming. *)
  Lemma loop_contract v c : B = [v] -> odd_cycle g' c ->
    exists c0, odd_cycle g c0 /\ length c0 = length c /\
      (forall x, x ∈ c -> exists x0, x0 ∈ c0 /\ (x = b /\ x0 ∈ B \/ x <> b /\ x0 = x)) /\
      (pendant_cycle g c0 -> pendant_cycle g' c) /\ (lone_cycle g c0 -> lone_cycle g' c) /\
      (dominant_cycle g c0 -> dominant_cycle g' c).
  Proof.
    intros EB Hc. set (f := fun x => if decide (x = b) then v else x).
    assert (Hfb : f b = v) by (unfold f; by rewrite decide_True).
    assert (Hfo : forall x, x <> b -> f x = x) by (intros x Hx; unfold f; by rewrite decide_False).
    assert (Hadj : forall x y, adj g' x y -> adj g (f x) (f y) /\ (x <> b -> x <> v) /\ (y <> b -> y <> v)).
    { intros x y Hxy. destruct (decide (x = b)) as [->|Hx].
      - destruct (adj_b_down g Hg B b Hb g' Ha y Hxy) as (Hyb & HyB & z & Hz & Hzy).
        rewrite EB in Hz, HyB. apply elem_of_list_singleton in Hz as ->.
        rewrite elem_of_list_singleton in HyB. rewrite Hfb, Hfo by done. done.
      - destruct (decide (y = b)) as [->|Hy].
        + apply law_adj_sym in Hxy; [|done].
          destruct (adj_b_down g Hg B b Hb g' Ha x Hxy) as (_ & HxB & z & Hz & Hzx).
          rewrite EB in Hz, HxB. apply elem_of_list_singleton in Hz as ->.
          rewrite elem_of_list_singleton in HxB. rewrite Hfb, Hfo by done.
          split; [by apply law_adj_sym|done].
        + destruct (adj_out_down g Hg B b g' Ha x y Hxy Hx Hy) as (? & HxB & HyB).
          rewrite EB, elem_of_list_singleton in HxB, HyB. by rewrite !Hfo. }
    assert (Hinj : forall x y, (x <> b -> x <> v) -> (y <> b -> y <> v) -> f x = f y -> x = y).
    { intros x y Hx Hy. unfold f.
      destruct (decide (x = b)) as [E1|E1], (decide (y = b)) as [E2|E2]; intros E; try congruence; exfalso.
      - by apply (Hy E2).
      - by apply (Hx E1). }
    assert (Hcyc : forall d, odd_cycle g' d -> odd_cycle g (f <$> d) /\ forall x, x ∈ d -> x <> b -> x <> v).
    { intros d (Hnd & Ho & Hp & Hcl).
      assert (Hm : forall x, x ∈ d -> x <> b -> x <> v).
      { intros x [i Hi]%elem_of_list_lookup. destruct (d !! S i) as [y|] eqn:Ey.
        - by apply (Hadj x y), (Hp i).
        - assert (Hl : last d = Some x).
          { rewrite last_lookup. apply lookup_ge_None in Ey. apply lookup_lt_Some in Hi as Hlt.
            replace (pred (length d)) with i by lia. done. }
          destruct d as [|a d0] eqn:E; [done|]. rewrite <-E in *.
          apply (Hadj x a). apply Hcl; [by rewrite E|done]. }
      split; [|done]. split_and!.
      - clear Ho Hp Hcl. induction d as [|x d IH]; [constructor|].
        apply NoDup_cons in Hnd as [Hx Hnd]. cbn [fmap list_fmap]. apply NoDup_cons. split.
        + intros (y & Hxy & Hy)%elem_of_list_fmap. apply Hx.
          rewrite (Hinj x y); [done| | |done]; apply Hm; [left|by right].
        + apply IH; [done|]. intros z Hz. apply Hm. by right.
      - by rewrite fmap_length.
      - intros i x y Hx Hy. rewrite list_lookup_fmap in Hx, Hy.
        apply fmap_Some in Hx as (x0 & Hx & ->). apply fmap_Some in Hy as (y0 & Hy & ->).
        apply Hadj. by apply (Hp i).
      - intros x y Hx Hy. destruct d as [|a d0]; [done|]. injection Hx as <-.
        rewrite fmap_last in Hy. apply fmap_Some in Hy as (y0 & Hy & ->).
        apply Hadj. by apply Hcl. }
    destruct (Hcyc c Hc) as [Hfc Hcm].
    assert (Hin : forall x, (x <> b -> x <> v) -> f x ∈ f <$> c -> x ∈ c).
    { intros x Hx (y & Hxy & Hy)%elem_of_list_fmap. rewrite (Hinj x y); auto. }
    exists (f <$> c). split; [done|]. split; [by rewrite fmap_length|]. split_and!.
    - intros x Hx. exists (f x). split; [by apply elem_of_list_fmap_1|].
      destruct (decide (x = b)) as [->|Hxb]; [left|right; by rewrite Hfo].
      rewrite Hfb, EB. split; [done|left].
    - intros HP x y u w Hx Hy Hu Hw Hxu Hyw.
      destruct (Hadj x u Hxu) as (Hxu' & _ & Hum). destruct (Hadj y w Hyw) as (Hyw' & _ & Hwm).
      apply Hinj; [done|done|].
      apply (HP (f x) (f y)); try done; try (by apply elem_of_list_fmap_1); intros ?; [apply Hu|apply Hw]; auto.
    - intros HL d x Hd Hxc Hxd y Hy. destruct (Hcyc d Hd) as [Hfd Hdm].
      apply Hin; [auto|]. apply (HL (f <$> d) (f x)); try done; by apply elem_of_list_fmap_1.
    - intros (u & w & HD).
      exists (if decide (u = v) then b else u), (if decide (w = v) then b else w).
      intros x y Hx Hy.
      assert (Hym : y <> b -> y <> v).
      { destruct (rtc_inv_r _ _ Hy) as [<-|(z & _ & Hzy)]; [by apply Hcm|]. by apply (Hadj z y). }
      destruct (reach_down x y Hy (f x)) as (y0 & Hy0 & Hyy).
      { destruct (decide (x = b)) as [->|Hxb]; [left|right; by rewrite Hfo].
        rewrite Hfb, EB. split; [done|left]. }
      assert (y0 = f y) as ->.
      { destruct Hyy as [[-> Hz]|[Hyb ->]]; [|by rewrite Hfo].
        rewrite EB in Hz. apply elem_of_list_singleton in Hz as ->. done. }
      destruct (HD (f x) (f y)) as [?|[E|E]]; [by apply elem_of_list_fmap_1|done|left; auto| |].
      + right. left. destruct (decide (y = b)) as [->|Hyb].
        * rewrite Hfb in E. by rewrite decide_True.
        * rewrite Hfo in E by done. subst u. rewrite decide_False; [done|]. auto.
      + right. right. destruct (decide (y = b)) as [->|Hyb].
        * rewrite Hfb in E. by rewrite decide_True.
        * rewrite Hfo in E by done. subst w. rewrite decide_False; [done|]. auto.
  Qed.

  Lemma odd_length (l : list N) : Nat.odd (length l) = true -> (exists v, l = [v]) \/ 3 <= length l.
  Proof.
    destruct l as [|x [|y [|z l]]]; try done; [left; by exists x|right; simpl; lia].
  Qed.

  Lemma tame_contract : tame g -> tame g'.
  Proof.
    intros Ht c Hc Hc3. destruct (odd_length B) as [[v Hv]|H3]; [apply HB| |].
    { destruct (loop_contract v c Hv Hc) as (c0 & Hc0 & Hl0 & _ & H1 & H2 & H3).
      destruct (Ht c0 Hc0) as [?|[?|?]]; [by rewrite Hl0|left|right; left|right; right]; auto. }
    destruct (decide (b ∈ c)) as [Hbc|Hbc].
    - destruct (Ht B HB H3) as [HP|[HL|HD]].
      + by destruct (pendant_no_through c HP Hc).
      + by destruct (lone_no_through c HL Hc).
      + right. right. destruct (dominant_reach HD) as (u & v & Huv). exists u, v.
        intros x y Hx Hy. destruct (Huv y) as [-> | ?]; [|by left|by right].
        destruct (cycle_from g' c b Hg' Hc Hbc) as (D & _ & (_ & _ & Hp & _) & Hperm).
        eapply rtc_transitive; [|exact Hy]. rewrite <-Hperm in Hx.
        destruct (linked_path g' [] (b :: D) b x) as [_ Hl]; try done; [set_solver|].
        eapply rtc_subrel; [|exact Hl]. by intros a z [? _].
    - destruct (cycle_down c Hc Hbc) as [Hcg _]. destruct (Ht c Hcg Hc3) as [HP|[HL|HD]].
      + left. by apply pendant_contract.
      + right. left. by apply lone_contract.
      + right. right. by apply dominant_contract.
  Qed.

  (** Separated odd cycles. *)
  Lemma linked_down c u v : b ∉ c -> (forall x, x ∈ c -> x ∉ B) -> linked_outside g' c u v ->
    forall u0 v0, (u = b /\ u0 ∈ B \/ u <> b /\ u0 = u) -> (v = b /\ v0 ∈ B \/ v <> b /\ v0 = v) ->
      linked_outside g c u0 v0.
  Proof.
    intros Hbc HcB [Hu H].
    assert (HBl : forall x y, x ∈ B -> y ∈ B -> linked_outside g c x y).
    { intros x y Hx Hy. destruct (cycle_from g B x Hg HB Hx) as (D & _ & (_ & _ & Hp & _) & Hperm).
      apply (linked_path g c (x :: D)); try done; [|by rewrite Hperm].
      intros z Hz Hzc. rewrite Hperm in Hz. by apply (HcB z). }
    induction H as [u|u w v [Huw Hw] Hwv IH]; intros u0 v0 Hu0 Hv0.
    - destruct Hu0 as [[-> Hu0]|[? ->]], Hv0 as [[? Hv0]|[? ->]]; try done; by apply HBl.
    - destruct (decide (w = b)) as [->|Hwb].
      + (* entering the contracted node *)
        assert (Hub : u <> b).
        { intros ->. by destruct (adj_b_down g Hg B b Hb g' Ha b Huw). }
        destruct Hu0 as [[? _]|[_ ->]]; [done|]. apply law_adj_sym in Huw; [|done].
        destruct (adj_b_down g Hg B b Hb g' Ha u Huw) as (_ & _ & z & Hz & Hzu).
        destruct (IH Hw z v0) as [Hz' Hzv]; [by left|done|]. split; [done|].
        econstructor; [|exact Hzv]. split; [by apply law_adj_sym|done].
      + destruct (IH Hw w v0) as [Hw' Hwv0]; [by right|done|].
        destruct Hu0 as [[-> Hu0]|[Hub ->]].
        * destruct (adj_b_down g Hg B b Hb g' Ha w Huw) as (_ & _ & z & Hz & Hzw).
          destruct (HBl u0 z Hu0 Hz) as [Hu0' Hu0z]. split; [done|].
          eapply rtc_transitive; [exact Hu0z|]. econstructor; [|exact Hwv0]. done.
        * split; [done|]. econstructor; [|exact Hwv0]. split; [|done].
          by apply (adj_out_down g Hg B b g' Ha).
  Qed.

  Lemma separated_contract : separated_odd_cycles g -> separated_odd_cycles g'.
  Proof.
    intros Hd c x y u v Hc Hx Hy Hxu Hyv Huv.
    pose proof (proj1 Huv) as Hu. pose proof (linked_out _ _ _ _ Huv) as Hv.
    destruct (decide (b ∈ c)) as [Hbc|Hbc].
    - destruct (cycle_through c Hc Hbc)
        as (rest & z1 & z2 & Hperm & Hne & Hnd & Hp & Hev & Hout & Hz1 & Hz2 & Hj1 & Hj2).
      destruct (head rest) as [h|] eqn:Eh; [|by destruct rest].
      destruct (last rest) as [t|] eqn:Et; [|by apply last_None in Et].
      assert (Hht : linked_outside g B h t).
      { apply (linked_path g B rest); try done; [intros z Hz; by apply Hout|].
        apply last_Some in Et as [? ->]. apply elem_of_app. right. left. }
      assert (z2 = z1) as ->.
      { symmetry. apply (Hd B z1 z2 h t); auto. apply law_adj_sym; auto. }
      rewrite <-Hperm in Hx, Hy, Hu, Hv.
      assert (Hdc : odd_cycle g (z1 :: rest)).
      { split_and!.
        - apply NoDup_cons. split; [|done]. intros Hz. by destruct (Hout z1 Hz).
        - cbn [length]. by rewrite Nat.odd_succ.
        - apply is_path_cons. split; [done|]. intros w Hw. apply Hj1. congruence.
        - intros a z [= <-] Hz. destruct rest as [|r0 rest0]; [done|].
          change (last (z1 :: r0 :: rest0)) with (last (r0 :: rest0)) in Hz. apply Hj2. congruence. }
      (* links avoid the blossom *)
      assert (Huv' : linked_outside g B u v /\ linked_outside g (z1 :: rest) u v /\ u ∉ B /\ u <> b /\ v ∉ B /\ v <> b).
      { assert (Hn0 : forall w w', adj g' w w' -> w' <> b -> w' ∉ B).
        { intros w w' Hww Hwb. destruct (decide (w = b)) as [->|Hwb'].
          - by destruct (adj_b_down g Hg B b Hb g' Ha w' Hww) as (_ & ? & _).
          - by destruct (adj_out_down g Hg B b g' Ha w w' Hww) as (_ & _ & ?). }
        assert (Hub : u <> b /\ v <> b) by (split; intros ->; [apply Hu|apply Hv]; left).
        assert (HuB : u ∉ B) by (apply (Hn0 x); [done|tauto]).
        assert (HvB : v ∉ B) by (apply (Hn0 y); [done|tauto]).
        assert (Hr : rtc (fun a b0 => adj g a b0 /\ b0 ∉ B /\ b0 ∉ rest) u v).
        { destruct Huv as [_ Hr]. clear Hxu HuB. destruct Hub as [Hub _]. revert Hub.
          induction Hr as [|a d e [Had Hd'] _ IH]; intros Hab; [constructor|].
          rewrite <-Hperm in Hd'. apply not_elem_of_cons in Hd' as [Hdb Hdr].
          econstructor; [|apply IH; try done; by apply not_elem_of_cons].
          destruct (adj_out_down g Hg B b g' Ha a d Had Hab Hdb) as (? & _ & ?). done. }
        split_and!; try tauto.
        - split; [done|]. eapply rtc_subrel; [|exact Hr]. intros a d (? & ? & ?). done.
        - split.
          + apply not_elem_of_cons. split; [intros ->; done|]. intros H. apply Hu. by right.
          + eapply rtc_subrel; [|exact Hr]. intros a d (? & HdB & ?). split; [done|].
            apply not_elem_of_cons. split; [intros ->; done|done]. }
      destruct Huv' as (HlB & Hld & HuB & Hub & HvB & Hvb).
      (* attached to b on one side and to rest on the other *)
      assert (Hmix : forall y u v, y ∈ rest -> adj g' b u -> adj g' y v -> v <> b ->
        linked_outside g B u v -> linked_outside g (z1 :: rest) u v -> False).
      { clear - Hg Hb Ha Hd HB Hout Hz1 Hj1 Hdc Hp Eh. intros y u v Hy Hbu Hyv Hvb HlB Hld.
        destruct (adj_b_down g Hg B b Hb g' Ha u Hbu) as (_ & HuB & x0 & Hx0 & Hx0u).
        destruct (Hout y Hy) as [HyB Hyb].
        destruct (adj_out_down g Hg B b g' Ha y v Hyv Hyb Hvb) as (Hyv0 & _ & _).
        assert (Hhy : linked_outside g B h y).
        { apply (linked_path g B rest); try done. intros z Hz. by apply Hout. }
        assert (x0 = z1) as ->.
        { apply (Hd B x0 z1 u h); auto. eapply linked_trans; [exact HlB|].
          apply linked_sym; [done|]. eapply linked_trans; [exact Hhy|].
          split; [done|]. apply rtc_once. split; [done|]. by eapply linked_out. }
        assert (z1 = y) as <-; [|done].
        apply (Hd (z1 :: rest) z1 y u v); try done; [left|by right]. }
      apply elem_of_cons in Hx as [Hx|Hx]; apply elem_of_cons in Hy as [Hy|Hy];
        [congruence|exfalso|exfalso|].
      + subst x. by eapply (Hmix y u v).
      + subst y. eapply (Hmix x v u); try done; by apply linked_sym.
      + destruct (Hout x Hx) as [_ Hxb], (Hout y Hy) as [_ Hyb].
        destruct (adj_out_down g Hg B b g' Ha x u Hxu) as (? & _ & _); [done..|].
        destruct (adj_out_down g Hg B b g' Ha y v Hyv) as (? & _ & _); [done..|].
        apply (Hd (z1 :: rest) x y u v); try done; by right.
    - destruct (cycle_down c Hc Hbc) as [Hcg HcB].
      assert (Hside : forall x u, x ∈ c -> adj g' x u ->
        exists u0, adj g x u0 /\ ((u = b /\ u0 ∈ B) \/ (u <> b /\ u0 = u))).
      { intros x0 u0 Hx0 Hxu0. destruct (decide (u0 = b)) as [->|Hub].
        - apply law_adj_sym in Hxu0; [|done].
          destruct (adj_b_down g Hg B b Hb g' Ha x0 Hxu0) as (_ & _ & z & Hz & Hzx).
          exists z. split; [by apply law_adj_sym|]. by left.
        - destruct (adj_out_down g Hg B b g' Ha x0 u0 Hxu0) as (? & ? & ?); [by intros ->|done|].
          exists u0. split; [done|]. by right. }
      destruct (Hside x u Hx Hxu) as (u0 & Hxu0 & Hu0). destruct (Hside y v Hy Hyv) as (v0 & Hyv0 & Hv0).
      apply (Hd c x y u0 v0); try done. by apply (linked_down c u v).
  Qed.
End closed.

(** ** Paths whose augmentation gains two nodes *)

Record covers (g : Graph) (p : Pairing) (path : list N) : Prop := {
  co_nodup : NoDup path;
  co_even : Nat.even (length path) = true;
  co_closed : forall x y, x ∈ path -> p !! x = Some y -> y ∈ path;
  co_two : length (filter (fun x => p !! x = None) path) = 2;
  co_ends : forall x, x ∈ path -> p !! x = None ->
    head path = Some x \/ last path = Some x \/ exists C, odd_cycle g C /\ x ∈ C
}.

Lemma augments_covers g p path : augments p path -> 2 <= length path -> covers g p path.
Proof.
  intros (Hnd & Hev & Hends & Hint) Hlen. constructor; try done.
  - intros x y Hx Hxy.
    destruct (decide (head path = Some x)) as [E|E]; [rewrite Hends in Hxy; auto; done|].
    destruct (decide (last path = Some x)) as [E'|E']; [rewrite Hends in Hxy; auto; done|].
    destruct (Hint x Hx E E') as (z & Hz & Hxz). congruence.
  - destruct path as [|a l]; [simpl in Hlen; lia|]. destruct l as [|z l _] using rev_ind; [simpl in Hlen; lia|].
    assert (Ha : p !! a = None) by (apply Hends; by left).
    assert (Hz : p !! z = None) by (apply Hends; right; by rewrite app_comm_cons, last_snoc).
    apply NoDup_cons in Hnd as [Han Hnd]. apply NoDup_app in Hnd as (_ & Hzn & _).
    rewrite filter_cons, decide_True by done. rewrite filter_app, filter_cons, decide_True by done.
    rewrite filter_nil. assert (filter (fun x => p !! x = None) l = []) as ->; [|done].
    apply elem_of_nil_inv. intros x [Hx Hxl]%elem_of_list_filter.
    destruct (Hint x) as (y & _ & Hxy).
    + right. apply elem_of_app. by left.
    + intros [= ->]. apply Han. apply elem_of_app. by left.
    + rewrite app_comm_cons, last_snoc. intros [= ->]. apply (Hzn x Hxl). left.
    + congruence.
  - intros x Hx Hxn. destruct (decide (head path = Some x)) as [E|E]; [by left|].
    destruct (decide (last path = Some x)) as [E'|E']; [by right; left|].
    destruct (Hint x Hx E E') as (z & Hz & Hxz). congruence.
Qed.

Lemma covers_augment g p path : symmetric_pairing p -> covers g p path ->
  exists q, p_augment p path = Ok q /\
    (forall x, is_Some (q !! x) <-> is_Some (p !! x) \/ x ∈ path) /\
    (forall x, x ∉ path -> q !! x = p !! x) /\
    p_order q = p_order p + 2.
Proof.
  intros Hs [Hnd Hev Hcl Htwo _].
  destruct (pair_up_spec p path Hs Hnd Hev) as (H1 & H2 & H3).
  exists (p_pair_up p path). set (q := p_pair_up p path) in *. split; [by apply augment_even|].
  assert (Hoff : forall x, x ∉ path -> q !! x = p !! x).
  { intros x Hx. rewrite H3 by done. destruct (p !! x) as [y|] eqn:Ex; [|done].
    case_bool_decide as Hy; [|done]. exfalso. apply Hs in Ex as [Ey _]. apply Hx. by eapply Hcl. }
  assert (Hdom : forall x, is_Some (q !! x) <-> is_Some (p !! x) \/ x ∈ path).
  { intros x. destruct (decide (x ∈ path)) as [Hx|Hx].
    - split; [by right|]. intros _. destruct (even_length_pairs path x Hev Hx) as (y & [Hy|Hy]);
        destruct (H2 _ _ Hy) as [E1 E2]; by eexists.
    - rewrite Hoff by done. tauto. }
  split_and!; [done|done|]. unfold p_order. rewrite <-!size_dom.
  assert (dom q = dom p ∪ list_to_set (filter (fun x => p !! x = None) path)) as ->.
  { apply set_eq. intros x. rewrite elem_of_union, !elem_of_dom, Hdom, elem_of_list_to_set, elem_of_list_filter.
    destruct (p !! x) eqn:E; [|naive_solver]. split; [|intros _; left; by eexists]. intros _. left. by eexists. }
  rewrite size_union.
  - f_equal. rewrite size_list_to_set; [done|]. by apply NoDup_filter.
  - intros x Hx Hx'. apply elem_of_dom in Hx as [y Hy].
    apply elem_of_list_to_set, elem_of_list_filter in Hx' as [? _]. congruence.
Qed.

(** ** Lists of mates *)

Lemma path_pairs_app l1 l2 : Nat.even (length l1) = true ->
  path_pairs (l1 ++ l2) = path_pairs l1 ++ path_pairs l2.
Proof.
  induction l1 as [|x|x y l1 IH] using list_pair_ind; intros Hev; [done|done|].
  cbn [app path_pairs]. by rewrite IH.
Qed.

Lemma paired_app p l1 l2 : paired p l1 -> paired p l2 -> paired p (l1 ++ l2).
Proof.
  intros [H1 H2] [H3 H4]. split.
  - by rewrite app_length, Nat.even_add, H1, H3.
  - intros a b. rewrite path_pairs_app by done. intros [?|?]%elem_of_app; auto.
Qed.

Lemma paired_prefix p l1 l2 : Nat.even (length l1) = true -> paired p (l1 ++ l2) -> paired p l1.
Proof.
  intros Hev [_ H]. split; [done|]. intros a b Hab. apply H. rewrite path_pairs_app by done.
  apply elem_of_app. by left.
Qed.

Lemma paired_reverse p l : symmetric_pairing p -> paired p l -> paired p (reverse l).
Proof.
  intros Hs. induction l as [|x|x y l IH] using list_pair_ind; intros [Hev Hl]; try done.
  rewrite !reverse_cons, <-app_assoc. apply paired_app.
  - apply IH. split; [done|]. intros a b Hab. apply Hl. by right.
  - split; [done|]. intros a b [[= -> ->]|Hab]%elem_of_cons; [|by apply elem_of_nil in Hab].
    apply Hs. apply Hl. left.
Qed.

Lemma paired_mates p l x : symmetric_pairing p -> paired p l -> x ∈ l ->
  exists y, y ∈ l /\ p !! x = Some y.
Proof.
  intros Hs [Hev Hl] Hx. destruct (even_length_pairs l x Hev Hx) as (y & [Hy|Hy]).
  - exists y. split; [by apply path_pairs_in in Hy as [_ ?]|auto].
  - exists y. split; [by apply path_pairs_in in Hy as [? _]|]. by apply Hs, Hl.
Qed.

(** Round the blossom from its base, everything is paired up. *)
Lemma round_from_base g p B c l2 A D : symmetric_pairing p -> Bloss g p B c l2 ->
  A = B \/ A = reverse B -> rotation A (c :: D) -> paired p D.
Proof.
  intros Hs HB HA (L & R & E & ->)%rotation_split.
  destruct (bl_order _ _ _ _ _ HB) as (l & r & HBe & Hl & Hr).
  destruct (bl_cycle _ _ _ _ _ HB) as (Hnd & _).
  assert (HndA : NoDup A).
  { destruct HA as [-> | ->]; [done|]. by rewrite (reverse_Permutation B). }
  destruct HA as [-> | ->].
  - rewrite HBe in E, HndA. apply split_uniq in E as [-> ->]; [|done].
    apply paired_app; [by apply paired_reverse|done].
  - rewrite HBe in E, HndA. rewrite reverse_app, reverse_cons, reverse_involutive, <-app_assoc in E, HndA.
    apply split_uniq in E as [-> ->]; [|done].
    apply paired_app; [by apply paired_reverse|done].
Qed.

(** ** Lifting *)

Section lifting.
  Context (g : Graph) (p : Pairing) (Hg : Lawful g) (Hp : pairing_of g p).
  Context (B : list N) (c : N) (l2 : list N) (HB : Bloss g p B c l2).
  Context (b : N) (Hb : b ∈ g_nodes g -> b ∈ B) (g' : Graph) (Hg' : Lawful g').
  Context (Hn : g_nodes g' = b :: filter (fun x => x ∉ B) (g_nodes g)).
  Context (Ha : forall x y, adj g' x y <-> made B b (g_edges g) x y).
  Context (L : list (N * N)) (HL : L ≡ₚ map_to_list p).
  Notation p' := (b_contract_pairing (mkBlossom b B) (p_edges_of L)).

  Context (path path' lft rgt : list N).
  Context (Hnd : NoDup path) (Hpath : is_path g' path) (Hnodes : forall x, x ∈ path -> x ∈ g_nodes g').

  Lemma HBc : odd_cycle g B.  Proof. apply HB. Qed.
  Lemma HBn : forall x, x ∈ B -> x ∈ g_nodes g.  Proof. apply HB. Qed.

  Lemma out_node x : x ∈ path -> x <> b -> x ∈ g_nodes g /\ x ∉ B.
  Proof.
    intros Hx Hxb. apply Hnodes in Hx. rewrite Hn in Hx. apply elem_of_cons in Hx as [?|Hx]; [done|].
    by apply elem_of_list_filter in Hx as [? ?].
  Qed.

  (** Nodes outside the blossom are paired alike. *)
  Lemma out_mate x y : x ∈ g_nodes g -> x ∉ B -> p !! x = Some y ->
    (y ∉ B /\ y <> b /\ p' !! x = Some y) \/ (y = c /\ p' !! x = Some b /\ p' !! b = Some x).
  Proof.
    intros Hx HxB Hxy. pose proof (proj1 (proj1 Hp _ _ Hxy)) as Hyx.
    assert (Hy : y ∈ g_nodes g) by (by eapply (adj_nodes g Hg x y), Hp).
    destruct (decide (y ∈ B)) as [HyB|HyB].
    - right. destruct (mate_in g p B c l2 HB y x HyB Hyx) as [-> | ?]; [|done].
      split; [done|].
      assert (Hbx : p' !! b = Some x) by (by rewrite (p'_b g p Hg Hp B c l2 HB b Hb L HL)).
      split; [|done].
      by apply (proj1 (p'_pairing g p Hg Hp B c l2 HB b Hb g' Ha L HL)) in Hbx as [? _].
    - left. split_and!; [done|intros ->; auto|].
      by apply (p'_out g p Hg Hp B c l2 HB b Hb L HL).
  Qed.

  Lemma out_none x : x ∈ g_nodes g -> x ∉ B -> p !! x = None <-> p' !! x = None.
  Proof.
    intros Hx HxB. split; [by apply (p'_none g p Hg Hp B c l2 HB b Hb L HL)|].
    intros H. destruct (p !! x) as [y|] eqn:E; [|done].
    destruct (out_mate x y Hx HxB E) as [(_ & _ & ?)|(_ & ? & _)]; congruence.
  Qed.

  Lemma count_out l : (forall x, x ∈ l -> x ∈ path /\ x <> b) ->
    length (filter (fun x => p !! x = None) l) = length (filter (fun x => p' !! x = None) l).
  Proof.
    intros Hl. f_equal. induction l as [|x l IH]; [done|].
    destruct (Hl x) as [Hx Hxb]; [left|]. destruct (out_node x Hx Hxb) as [Hxn HxB].
    pose proof (out_none x Hxn HxB) as Hiff. rewrite !filter_cons.
    rewrite IH by (intros z Hz; apply Hl; by right).
    destruct (decide (p !! x = None)), (decide (p' !! x = None)); tauto.
  Qed.

  Lemma count_B : length (filter (fun x => p !! x = None) B) =
    length (filter (fun x => p' !! x = None) [b]).
  Proof.
    rewrite filter_cons, filter_nil. rewrite (p'_b g p Hg Hp B c l2 HB b Hb L HL).
    destruct HBc as (HndB & _). pose proof (bl_in _ _ _ _ _ HB) as Hc.
    assert (Hoth : forall x, x ∈ B -> x <> c -> p !! x <> None).
    { intros x Hx Hxc. destruct (bl_mates _ _ _ _ _ HB x Hx Hxc) as (y & _ & ->). done. }
    case_decide as Hcn.
    - assert (filter (fun x => p !! x = None) B ≡ₚ [c]) as ->; [|done].
      apply NoDup_Permutation; [by apply NoDup_filter|apply NoDup_singleton|].
      intros x. rewrite elem_of_list_filter, elem_of_list_singleton. split.
      + intros [Hx HxB]. destruct (decide (x = c)); [done|]. by destruct (Hoth x).
      + intros ->. done.
    - assert (filter (fun x => p !! x = None) B = []) as ->; [|done].
      apply elem_of_nil_inv. intros x [Hx HxB]%elem_of_list_filter.
      destruct (decide (x = c)) as [->|]; [done|]. by destruct (Hoth x).
  Qed.

  (** Nodes of odd cycles keep that property. *)
  Lemma down_cycle D x : odd_cycle g' D -> x ∈ D -> x <> b -> exists C, odd_cycle g C /\ x ∈ C.
  Proof.
    intros HD Hx Hxb. destruct (decide (b ∈ D)) as [HbD|HbD].
    - destruct (cycle_lift g Hg B HBc b Hb g' Hg' Ha D x HD HbD Hx Hxb) as (d & _ & Hd & Hxd & _). by exists d.
    - exists D. split; [|done]. by apply (cycle_down g Hg B b g' Ha D HD).
  Qed.

  (** The path avoids the contracted node. *)
  Lemma covers_avoid : b ∉ path -> covers g' p' path -> covers g p path.
  Proof.
    intros Hbp [H1 H2 H3 H4 H5].
    assert (Hxb : forall x, x ∈ path -> x <> b) by (intros x Hx ->; done).
    constructor; try done.
    - intros x y Hx Hxy. destruct (out_node x Hx (Hxb x Hx)) as [Hxn HxB].
      destruct (out_mate x y Hxn HxB Hxy) as [(_ & _ & H)|(_ & H & _)]; [by eapply H3|].
      exfalso. apply Hbp. by eapply H3.
    - rewrite count_out; [done|]. auto.
    - intros x Hx Hxn. destruct (out_node x Hx (Hxb x Hx)) as [Hxn' HxB].
      apply (out_none x Hxn' HxB) in Hxn. destruct (H5 x Hx Hxn) as [?|[?|(C & HC & HxC)]]; auto.
      right. right. apply (down_cycle C x); auto.
  Qed.

  Context (Hsplit : path = lft ++ b :: rgt).

  Lemma b_once : b ∉ lft /\ b ∉ rgt.
  Proof.
    rewrite Hsplit in Hnd. apply NoDup_app in Hnd as (_ & Hd & Hn'). apply NoDup_cons in Hn' as [Hbr _].
    split; [|done]. intros Hbl. apply (Hd b Hbl). left.
  Qed.

  Lemma side x : x ∈ lft \/ x ∈ rgt -> x ∈ path /\ x <> b.
  Proof.
    destruct b_once as [H1 H2]. intros H. split; [|intros ->; tauto].
    rewrite Hsplit, elem_of_app, elem_of_cons. tauto.
  Qed.

  Lemma side_of x : x ∈ path -> x <> b -> x ∈ lft \/ x ∈ rgt.
  Proof. rewrite Hsplit, elem_of_app, elem_of_cons. tauto. Qed.

  (** The path ends at the contracted node: the whole blossom is inserted. *)
  Lemma covers_end C : covers g' p' path -> C ≡ₚ B -> path' = lft ++ C ++ rgt ->
    NoDup path' -> covers g p path'.
  Proof.
    intros [H1 H2 H3 H4 H5] HC Hpath' Hnd'. constructor; [done|..].
    - rewrite Hsplit in H2. rewrite Hpath'. rewrite !app_length in *. cbn [length] in *.
      rewrite HC. destruct HBc as (_ & Ho & _). rewrite !Nat.even_add in *.
      rewrite <-Nat.negb_even in Ho. destruct (Nat.even (length B)); [done|].
      rewrite Nat.even_succ, <-Nat.negb_even in H2.
      by destruct (Nat.even (length lft)), (Nat.even (length rgt)).
    - intros x y Hx Hxy. rewrite Hpath' in *.
      assert (Hgoal : y ∈ B \/ y ∈ lft \/ y ∈ rgt -> y ∈ lft ++ C ++ rgt).
      { rewrite !elem_of_app, HC. tauto. }
      apply Hgoal. rewrite !elem_of_app, HC in Hx.
      destruct (decide (x ∈ B)) as [HxB|HxB].
      + destruct (decide (x = c)) as [->|Hxc].
        * rewrite <-(p'_b g p Hg Hp B c l2 HB b Hb L HL) in Hxy.
          right. apply side_of; [|intros ->].
          -- eapply H3; [|exact Hxy]. rewrite Hsplit. apply elem_of_app. right. left.
          -- by apply (proj1 (p'_pairing g p Hg Hp B c l2 HB b Hb g' Ha L HL)) in Hxy as [_ ?].
        * left. destruct (bl_mates _ _ _ _ _ HB x HxB Hxc) as (z & Hz & Hxz). congruence.
      + destruct (side x) as [Hxp Hxb]; [tauto|]. destruct (out_node x Hxp Hxb) as [Hxn _].
        destruct (out_mate x y Hxn HxB Hxy) as [(_ & Hyb & H)|(-> & _ & _)].
        * right. apply side_of; [by eapply H3|done].
        * left. apply HB.
    - rewrite Hsplit in H4. rewrite Hpath'.
      change (b :: rgt) with ([b] ++ rgt) in H4. rewrite !filter_app, !app_length in *.
      rewrite (count_out lft), (count_out rgt) by (intros x Hx; apply side; tauto).
      assert (length (filter (fun x => p !! x = None) C) = length (filter (fun x => p !! x = None) B)) as ->.
      { by rewrite HC. }
      rewrite count_B. done.
    - intros x Hx Hxn. destruct (decide (x ∈ B)) as [HxB|HxB].
      { right. right. exists B. split; [apply HBc|done]. }
      assert (Hs : x ∈ lft \/ x ∈ rgt).
      { rewrite Hpath', !elem_of_app, HC in Hx. tauto. }
      destruct (side x Hs) as [Hxp Hxb]. destruct (out_node x Hxp Hxb) as [Hxn' _].
      apply (out_none x Hxn' HxB) in Hxn. destruct (H5 x Hxp Hxn) as [E|[E|(D & HD & HxD)]].
      + left. rewrite Hsplit in E. rewrite Hpath'. destruct lft as [|a lft0]; [|done].
        injection E as E. done.
      + right. left. rewrite Hsplit, last_app_cons in E. rewrite Hpath'.
        destruct rgt as [|a rgt0]; [injection E as E; done|].
        rewrite app_assoc, last_app_cons. done.
      + right. right. by apply (down_cycle D x).
  Qed.

  Context (Hl0 : lft <> []) (Hr0 : rgt <> []).

  Lemma sides_path : is_path g lft /\ is_path g rgt /\
    (forall u, last lft = Some u -> adj g' b u) /\ (forall u, head rgt = Some u -> adj g' b u).
  Proof.
    pose proof Hpath as Hp2. rewrite Hsplit in Hp2.
    apply is_path_app in Hp2 as (Hp1 & Hp2 & Hj). apply is_path_cons in Hp2 as [Hp2 Hj2].
    destruct b_once as [B1 B2]. split_and!.
    - intros i x y Hx Hy. apply (adj_out_down g Hg B b g' Ha); [by eapply Hp1|..];
        intros ->; [apply B1|apply B1]; by eapply elem_of_list_lookup_2.
    - intros i x y Hx Hy. apply (adj_out_down g Hg B b g' Ha); [by eapply Hp2|..];
        intros ->; [apply B2|apply B2]; by eapply elem_of_list_lookup_2.
    - intros u Hu. apply law_adj_sym; [done|]. by apply Hj.
    - done.
  Qed.

  Lemma side_out x : x ∈ lft \/ x ∈ rgt -> x ∉ B.
  Proof. intros [? ?]%side. by apply out_node. Qed.

  (** With separated odd cycles, attachments are unique ... *)
  Lemma unique_attach u x y : separated_at g B -> u ∉ B -> x ∈ B -> y ∈ B ->
    adj g x u -> adj g y u -> x = y.
  Proof. intros Hs Hu Hx Hy Hxu Hyu. apply (Hs x y u u); done. Qed.

  (** ... also those of other nodes on the same side. *)
  Lemma left_attach x y u w : separated_at g B -> x ∈ B -> y ∈ B ->
    last lft = Some u -> w ∈ lft -> adj g x u -> adj g y w -> x = y.
  Proof.
    intros Hs Hx Hy Hu Hw Hxu Hyw. apply (Hs x y u w); try done.
    apply (linked_path g B (reverse lft)).
    - apply is_path_reverse; [done|]. apply sides_path.
    - intros z Hz%rev_elem. apply side_out. by left.
    - by rewrite head_reverse.
    - by apply elem_of_reverse.
  Qed.
  Lemma right_attach x y u w : separated_at g B -> x ∈ B -> y ∈ B ->
    head rgt = Some u -> w ∈ rgt -> adj g x u -> adj g y w -> x = y.
  Proof.
    intros Hs Hx Hy Hu Hw Hxu Hyw. apply (Hs x y u w); try done.
    apply (linked_path g B rgt); try done; [apply sides_path|].
    intros z Hz. apply side_out. by right.
  Qed.

  (** A pendant blossom is never passed through. *)
  Lemma pendant_end : ~ pendant_cycle g B.
  Proof.
    intros Hpd. destruct sides_path as (_ & _ & Hjl & Hjr).
    destruct (last lft) as [u|] eqn:Eu; [|by apply last_None in Eu].
    destruct (head rgt) as [w|] eqn:Ew; [|by destruct rgt].
    destruct (adj_b_down g Hg B b Hb g' Ha u) as (_ & Hu & x & Hx & Hxu); [by apply Hjl|].
    destruct (adj_b_down g Hg B b Hb g' Ha w) as (_ & Hw & y & Hy & Hyw); [by apply Hjr|].
    assert (u = w) as -> by (by apply (Hpd x y u w)).
    apply last_Some in Eu as [l Eu]. rewrite Hsplit in Hnd. apply NoDup_app in Hnd as (_ & Hd & _).
    apply (Hd w); [rewrite Eu; apply elem_of_app; right; left|].
    destruct rgt as [|w' rgt0]; [done|]. injection Ew as ->. right. left.
  Qed.

  (** Neither is one that is nearly its whole component. *)
  Lemma dominant_end : dominant_cycle g B -> Nat.even (length path) = true -> False.
  Proof.
    intros Hd Hev. destruct (dominant_reach g Hg B HBc b Hb g' Hg' Ha Hd) as (u & v & Huv).
    assert (Hin : forall y, y ∈ path -> y ∈ [b; u; v]).
    { intros y Hy. assert (Hr : reachable g' b y).
      { assert (Hall : forall z, z ∈ path -> exists h, head path = Some h /\ reachable g' h z).
        { intros z Hz. destruct path as [|h l]; [by apply elem_of_nil in Hz|]. exists h. split; [done|].
          destruct (linked_path g' [] (h :: l) h z) as [_ Hl]; try done; [set_solver|].
          eapply rtc_subrel; [|exact Hl]. by intros a w [? _]. }
        assert (Hbp : b ∈ path) by (rewrite Hsplit; apply elem_of_app; right; left).
        destruct (Hall b Hbp) as (h & Hh & Hhb). destruct (Hall y Hy) as (h' & Hh' & Hhy).
        assert (h' = h) as -> by congruence.
        eapply rtc_transitive; [|exact Hhy]. by apply reachable_sym. }
      destruct (Huv y Hr) as [-> | [-> | ->]]; set_solver. }
    assert (length path <= 3).
    { apply (submseteq_length path [b; u; v]), NoDup_submseteq; done. }
    rewrite Hsplit in *. rewrite app_length in *. cbn [length] in *.
    assert (0 < length lft) by (destruct lft; [done|simpl; lia]).
    assert (0 < length rgt) by (destruct rgt; [done|simpl; lia]).
    replace (length lft + S (length rgt)) with 3 in Hev by lia. done.
  Qed.

  Context (A seg rest : list N) (Hpath' : path' = lft ++ seg ++ rgt).
  Context (Hodd : Nat.odd (length seg) = true).
  Context (Hjl : forall x u, head seg = Some x -> last lft = Some u -> adj g u x).
  Context (Hjr : forall x u, last seg = Some x -> head rgt = Some u -> adj g x u).
  Context (HA : A = B \/ A = reverse B) (Hrot : rotation A (seg ++ rest)).

  Lemma seg_B x : x ∈ seg -> x ∈ B.
  Proof.
    intros Hx. assert (HxA : x ∈ A).
    { rewrite <-(rotation_perm _ _ Hrot). apply elem_of_app. by left. }
    destruct HA as [-> | ->]; [done|]. by apply elem_of_reverse.
  Qed.

  Lemma lifted_even : Nat.even (length path) = true -> Nat.even (length path') = true.
  Proof.
    rewrite Hsplit, Hpath', !app_length. cbn [length]. rewrite !Nat.even_add, Nat.even_succ.
    rewrite <-(Nat.negb_even (length rgt)). rewrite <-Nat.negb_even in Hodd.
    by destruct (Nat.even (length lft)), (Nat.even (length seg)), (Nat.even (length rgt)).
  Qed.

  Lemma seg_closed x : head seg = Some c \/ last seg = Some c -> x ∈ seg -> x <> c ->
    exists y, y ∈ seg /\ p !! x = Some y.
  Proof.
    intros Hc Hx Hxc.
    assert (Hgen : forall s t A', A' = B \/ A' = reverse B -> rotation A' (c :: s ++ t) ->
      Nat.even (length s) = true -> forall z, z ∈ s -> exists y, y ∈ s /\ p !! z = Some y).
    { intros s t A' HA' Hr Hev z Hz. apply paired_mates; [apply Hp| |done].
      eapply paired_prefix; [done|]. eapply round_from_base; [apply Hp|done..]. }
    destruct Hc as [Hc|Hc].
    - destruct seg as [|c' s]; [done|]. injection Hc as ->.
      apply elem_of_cons in Hx as [?|Hx]; [done|].
      cbn [length] in Hodd. rewrite Nat.odd_succ in Hodd.
      destruct (Hgen s rest A HA Hrot Hodd x Hx) as (y & Hy & Hxy). exists y. split; [by right|done].
    - destruct seg as [|c' s _] using rev_ind; [done|]. rewrite last_snoc in Hc. injection Hc as ->.
      apply elem_of_app in Hx as [Hx|Hx]; [|apply elem_of_list_singleton in Hx; done].
      rewrite app_length, Nat.add_1_r, Nat.odd_succ in Hodd.
      destruct (Hgen (reverse s) (reverse rest) (reverse A)) with (z := x) as (y & Hy & Hxy).
      + destruct HA as [-> | ->]; [by right|left; apply reverse_involutive].
      + apply rotation_reverse in Hrot. rewrite <-app_assoc in Hrot. cbn [app] in Hrot.
        rewrite reverse_app, reverse_cons, <-app_assoc in Hrot. apply rotation_swap in Hrot.
        * by rewrite <-app_assoc in Hrot.
        * rewrite (reverse_Permutation A). destruct HBc as (HndB & _).
          destruct HA as [-> | ->]; [done|]. by rewrite (reverse_Permutation B).
      + by rewrite reverse_length.
      + by apply elem_of_reverse.
      + exists y. apply rev_elem in Hy. split; [|done]. apply elem_of_app. by left.
  Qed.

  Lemma covers_through : lone_cycle g B -> separated_at g B -> covers g' p' path -> NoDup path' ->
    covers g p path'.
  Proof.
    intros Ht Hsep [H1 H2 H3 H4 H5] Hnd'.
    assert (Hbp : b ∈ path) by (rewrite Hsplit; apply elem_of_app; right; left).
    pose proof (p'_b g p Hg Hp B c l2 HB b Hb L HL) as Hpb.
    (* the contracted node is paired *)
    destruct (p' !! b) as [u|] eqn:Ebu.
    2:{ exfalso. destruct (H5 b Hbp Ebu) as [E|[E|(D & HD & HbD)]].
        - destruct b_once as [? _]. rewrite Hsplit in E. destruct lft; [done|]. injection E as ->. set_solver.
        - destruct b_once as [_ Hbr]. rewrite Hsplit, last_app_cons in E.
          destruct rgt as [|a r] eqn:Er; [done|].
          change (last (b :: a :: r)) with (last (a :: r)) in E. apply Hbr.
          apply last_Some in E as [? ->]. apply elem_of_app. right. left.
        - by apply (lone_no_through g Hg B HBc b Hb g' Hg' Ha D Ht HD). }
    symmetry in Hpb.
    assert (Hub : u <> b).
    { by apply (proj1 (p'_pairing g p Hg Hp B c l2 HB b Hb g' Ha L HL)) in Ebu as [_ ?]. }
    assert (Hu : u ∈ lft \/ u ∈ rgt) by (apply side_of; [by eapply H3|done]).
    assert (Hcu : adj g c u) by (by apply Hp).
    assert (HcB : c ∈ B) by apply HB.
    destruct (head seg) as [sh|] eqn:Esh; [|by destruct seg].
    destruct (last seg) as [st|] eqn:Est; [|apply last_None in Est; by subst].
    assert (HshB : sh ∈ B).
    { apply seg_B. destruct seg; [done|]. injection Esh as ->. left. }
    assert (HstB : st ∈ B).
    { apply seg_B. apply last_Some in Est as [? ->]. apply elem_of_app. right. left. }
    assert (Hc : head seg = Some c \/ last seg = Some c).
    { destruct Hu as [Hu|Hu].
      - left. rewrite Esh. f_equal. destruct (last lft) as [t|] eqn:Et; [|by apply last_None in Et].
        apply (left_attach sh c t u); try done. apply law_adj_sym; [done|]. by apply Hjl.
      - right. rewrite Est. f_equal. destruct (head rgt) as [t|] eqn:Et; [|by destruct rgt].
        apply (right_attach st c t u); try done. by apply Hjr. }
    assert (Hcs : c ∈ seg).
    { destruct Hc as [Hc|Hc].
      - destruct seg; [done|]. injection Hc as ->. left.
      - apply last_Some in Hc as [? ->]. apply elem_of_app. right. left. }
    rewrite <-Esh, <-Est in *. constructor; [done|by apply lifted_even|..].
    - intros x y Hx Hxy. rewrite Hpath' in *. rewrite !elem_of_app in *.
      destruct (decide (x ∈ seg)) as [Hxs|Hxs].
      + destruct (decide (x = c)) as [->|Hxc].
        * assert (y = u) as -> by congruence. tauto.
        * destruct (seg_closed x Hc Hxs Hxc) as (z & Hz & Hxz).
          assert (y = z) as -> by congruence. tauto.
      + destruct (side x) as [Hxp Hxb]; [tauto|]. destruct (out_node x Hxp Hxb) as [Hxn HxB].
        destruct (out_mate x y Hxn HxB Hxy) as [(_ & Hyb & H)|(-> & _ & _)]; [|tauto].
        destruct (side_of y); [by eapply H3|done|tauto|tauto].
    - rewrite Hsplit in H4. rewrite Hpath'.
      change (b :: rgt) with ([b] ++ rgt) in H4. rewrite !filter_app, !app_length in *.
      rewrite (count_out lft), (count_out rgt) by (intros x Hx; apply side; tauto).
      rewrite filter_cons, decide_False, filter_nil in H4 by congruence.
      assert (filter (fun x => p !! x = None) seg = []) as ->; [|done].
      apply elem_of_nil_inv. intros x [Hx Hxs]%elem_of_list_filter.
      destruct (decide (x = c)) as [->|Hxc]; [congruence|].
      destruct (seg_closed x Hc Hxs Hxc) as (z & Hz & Hxz). congruence.
    - intros x Hx Hxn. destruct (decide (x ∈ B)) as [HxB|HxB].
      { right. right. exists B. split; [apply HBc|done]. }
      assert (Hs : x ∈ lft \/ x ∈ rgt).
      { rewrite Hpath', !elem_of_app in Hx. pose proof (seg_B x). tauto. }
      destruct (side x Hs) as [Hxp Hxb]. destruct (out_node x Hxp Hxb) as [Hxn' _].
      apply (out_none x Hxn' HxB) in Hxn. destruct (H5 x Hxp Hxn) as [E|[E|(D & HD & HxD)]].
      + left. rewrite Hsplit in E. rewrite Hpath'. by destruct lft as [|a lft0].
      + right. left. rewrite Hsplit, last_app_cons in E. rewrite Hpath'.
        destruct rgt as [|a rgt0]; [done|]. rewrite app_assoc, last_app_cons. done.
      + right. right. by apply (down_cycle D x).
  Qed.
End lifting.

Lemma lift_good g p B c l2 b g' L path path' : Lawful g -> pairing_of g p -> Bloss g p B c l2 ->
  (b ∈ g_nodes g -> b ∈ B) -> Lawful g' ->
  g_nodes g' = b :: filter (fun x => x ∉ B) (g_nodes g) ->
  (forall x y, adj g' x y <-> made B b (g_edges g) x y) -> L ≡ₚ map_to_list p ->
  NoDup path -> is_path g' path -> (forall x, x ∈ path -> x ∈ g_nodes g') ->
  NoDup path' -> (b ∉ path -> path' = path) ->
  (forall lft rgt, path = lft ++ b :: rgt -> lft = [] \/ rgt = [] ->
     exists C, C ≡ₚ B /\ path' = lft ++ C ++ rgt) ->
  (forall lft rgt, path = lft ++ b :: rgt -> lft <> [] -> rgt <> [] ->
     (forall u x y, last lft = Some u -> x ∈ B -> y ∈ B -> adj g u x -> adj g u y -> x = y) ->
     (forall u x y, head rgt = Some u -> x ∈ B -> y ∈ B -> adj g x u -> adj g y u -> x = y) ->
     Nat.even (length path) = true ->
     exists A seg rest, path' = lft ++ seg ++ rgt /\ Nat.odd (length seg) = true /\
       (forall x u, head seg = Some x -> last lft = Some u -> adj g u x) /\
       (forall x u, last seg = Some x -> head rgt = Some u -> adj g x u) /\
       (A = B \/ A = reverse B) /\ rotation A (seg ++ rest)) ->
  ((3 <= length B -> pendant_cycle g B \/ lone_cycle g B \/ dominant_cycle g B) ->
   covers g' (b_contract_pairing (mkBlossom b B) (p_edges_of L)) path -> covers g p path') /\
  (separated_odd_cycles g -> Nat.even (length path) = true -> Nat.even (length path') = true).
Proof.
  intros Hg Hp HB Hb Hg' Hn Ha HL Hnd Hpath Hnodes Hnd' Havoid Hend Hthrough.
  destruct (decide (b ∈ path)) as [Hbp|Hbp].
  2:{ rewrite (Havoid Hbp). split; [|done]. intros Ht Hc.
      by eapply (covers_avoid g p Hg Hp B c l2 HB b Hb g' Hg' Hn Ha L HL). }
  apply elem_of_list_split in Hbp as (lft & rgt & Hsplit).
  destruct (decide (lft = [] \/ rgt = [])) as [He|He].
  { destruct (Hend lft rgt Hsplit He) as (C & HC & Hpath'). split.
    - intros Ht Hc.
      by eapply (covers_end g p Hg Hp B c l2 HB b Hb g' Hg' Hn Ha L HL path path' lft rgt).
    - rewrite Hsplit, Hpath', !app_length. cbn [length]. rewrite HC.
      destruct (bl_cycle _ _ _ _ _ HB) as (_ & Ho & _). rewrite !Nat.even_add in *.
      rewrite <-Nat.negb_even in Ho. destruct (Nat.even (length B)); [done|].
      rewrite Nat.even_succ, <-Nat.negb_even.
      by destruct (Nat.even (length lft)), (Nat.even (length rgt)). }
  assert (Hl0 : lft <> []) by tauto. assert (Hr0 : rgt <> []) by tauto.
  assert (Hmain : separated_at g B -> Nat.even (length path) = true ->
    exists A seg rest, path' = lft ++ seg ++ rgt /\ Nat.odd (length seg) = true /\
       (forall x u, head seg = Some x -> last lft = Some u -> adj g u x) /\
       (forall x u, last seg = Some x -> head rgt = Some u -> adj g x u) /\
       (A = B \/ A = reverse B) /\ rotation A (seg ++ rest)).
  { intros Hsep Hev. apply Hthrough; try done.
    - intros u x y Hu Hx Hy Hxu Hyu.
      eapply (unique_attach g B u x y Hsep); try done; [|by apply law_adj_sym..].
      apply (side_out g B b g' Hn path lft rgt Hnd Hnodes Hsplit).
      left. apply last_Some in Hu as [? ->]. apply elem_of_app. right. left.
    - intros u x y Hu Hx Hy Hxu Hyu.
      eapply (unique_attach g B u x y Hsep); try done.
      apply (side_out g B b g' Hn path lft rgt Hnd Hnodes Hsplit).
      right. destruct rgt; [done|]. injection Hu as ->. left. }
  split.
  - intros Ht Hc. destruct (odd_length B) as [[v Hv]|Hlong]; [apply HB| |].
    { (* a self-loop *)
      destruct Hmain as (A & seg & rest & H1 & H2 & H3 & H4 & H5 & H6); [|apply Hc|].
      { intros x y u w Hx Hy _ _ _. rewrite Hv in Hx, Hy.
        apply elem_of_list_singleton in Hx as ->. by apply elem_of_list_singleton in Hy as ->. }
      eapply (covers_end g p Hg Hp B c l2 HB b Hb g' Hg' Hn Ha L HL path path' lft rgt) with (C := seg); try done.
      assert (HA : A = [v]) by (destruct H5 as [-> | ->]; rewrite Hv; done).
      apply rotation_perm in H6. rewrite HA in H6. rewrite Hv.
      apply Permutation_singleton_r in H6.
      destruct seg as [|s seg]; [done|]. injection H6 as -> E. by apply app_eq_nil in E as [-> _]. }
    destruct (Ht Hlong) as [HP|[HL'|HD]]; [exfalso| |exfalso].
    + by eapply (pendant_end g Hg B b Hb g' Hg' Ha path lft rgt).
    + assert (Hs : separated_at g B).
      { intros x y u v. apply lone_separated; [done|apply HB|done]. }
      destruct (Hmain Hs) as (A & seg & rest & H1 & H2 & H3 & H4 & H5 & H6); [apply Hc|].
      by eapply (covers_through g p Hg Hp B c l2 HB b Hb g' Hg' Hn Ha L HL path path' lft rgt).
    + eapply (dominant_end g p Hg Hp B c l2 HB b Hb g' Hg' Hn Ha L HL path lft rgt); try done. apply Hc.
  - intros Hsep Hev.
    assert (Hs : separated_at g B) by (intros x y u v; apply Hsep, HB).
    destruct (Hmain Hs Hev) as (A & seg & rest & H1 & H2 & H3 & H4 & H5 & H6).
    by eapply lifted_even.
Qed.

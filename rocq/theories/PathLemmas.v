(** Paths as lists: splitting, reversing, shortening. *)
From Verif Require Import Outcome GraphModel TraversalModel ComponentsModel PairingModel Spec
  GraphProofs TraversalProofs.

Lemma is_path_nil g : is_path g [].
Proof. intros i a b Ha. by rewrite lookup_nil in Ha. Qed.

Lemma is_path_singleton g x : is_path g [x].
Proof. intros i a b _ Hb. done. Qed.

Lemma is_path_cons g x l :
  is_path g (x :: l) <-> is_path g l /\ (forall y, head l = Some y -> adj g x y).
Proof.
  split.
  - intros H. split.
    + intros i a b Ha Hb. apply (H (S i) a b); done.
    + intros y Hy. apply (H 0 x y); [done|]. by destruct l.
  - intros [H1 H2] [|i] a b Ha Hb.
    + simpl in Ha. injection Ha as <-. apply H2. by destruct l.
    + by apply (H1 i a b).
Qed.

Lemma is_path_cons2 g x y l :
  is_path g (x :: y :: l) <-> adj g x y /\ is_path g (y :: l).
Proof.
  rewrite is_path_cons. split; intros [? ?]; split; auto.
  intros z [= <-]. done.
Qed.

Lemma is_path_app g l1 l2 :
  is_path g (l1 ++ l2) <->
  is_path g l1 /\ is_path g l2 /\
  (forall a b, last l1 = Some a -> head l2 = Some b -> adj g a b).
Proof.
  induction l1 as [|x l1 IH].
  { simpl. split; [|tauto]. intros H. split_and!; [apply is_path_nil|done|done]. }
  destruct l1 as [|y l1].
  - simpl. rewrite is_path_cons. split.
    + intros [H1 H2]. split_and!; [apply is_path_singleton|done|]. intros a b [= <-]. apply H2.
    + intros (_ & H1 & H2). split; [done|]. intros y. by apply H2.
  - change ((x :: y :: l1) ++ l2) with (x :: y :: (l1 ++ l2)).
    rewrite !is_path_cons2. change (y :: l1 ++ l2) with ((y :: l1) ++ l2). rewrite IH.
    change (last (x :: y :: l1)) with (last (y :: l1)). tauto.
Qed.

Lemma is_path_snoc g l a b : last l = Some a ->
  is_path g (l ++ [b]) <-> is_path g l /\ adj g a b.
Proof.
  intros Ha. rewrite is_path_app. split.
  - intros (? & _ & H). split; [done|]. by apply H.
  - intros [? ?]. split_and!; [done|apply is_path_singleton|]. intros ? ? ? [= <-]. congruence.
Qed.

Lemma is_path_reverse g l : Lawful g -> is_path g l -> is_path g (reverse l).
Proof.
  intros Hg. induction l as [|x l IH]; [done|]. rewrite is_path_cons, reverse_cons, is_path_app.
  intros [H1 H2]. split_and!; [by apply IH|apply is_path_singleton|].
  intros a b Ha [= <-]. apply law_adj_sym; [done|]. apply H2.
  by rewrite last_reverse in Ha.
Qed.

Lemma elem_of_is_path g l x : Lawful g -> is_path g l -> 2 <= length l -> x ∈ l -> x ∈ g_nodes g.
Proof.
  intros Hg Hp Hl [i Hi]%elem_of_list_lookup. pose proof (lookup_lt_Some _ _ _ Hi).
  destruct i as [|i].
  - destruct (lookup_lt_is_Some_2 l 1) as [y Hy]; [lia|].
    eapply lawful_adj_l; [done|]. by apply (Hp 0 x y).
  - destruct (lookup_lt_is_Some_2 l i) as [y Hy]; [lia|].
    eapply law_adj_node; [done|]. by apply (Hp i y x).
Qed.

(** A connected set contains simple paths between its nodes. *)
Definition within (g : Graph) (V : gset N) (a b : N) : Prop := adj g a b /\ a ∈ V /\ b ∈ V.

Lemma within_path g (V : gset N) u v : u ∈ V -> rtc (within g V) u v ->
  exists l, NoDup l /\ is_path g l /\ head l = Some u /\ last l = Some v /\ forall x, x ∈ l -> x ∈ V.
Proof.
  intros Hu H. induction H as [x|x y z (Hxy & Hx & Hy) _ IH].
  { exists [x]. split_and!; [apply NoDup_singleton|apply is_path_singleton|done|done|].
    intros w ->%elem_of_list_singleton. done. }
  destruct (IH Hy) as (l & Hnd & Hp & Hh & Hl & Hin).
  destruct (decide (x ∈ l)) as [Hxl|Hxl].
  - apply elem_of_list_split in Hxl as (l1 & l2 & ->).
    exists (x :: l2). rewrite is_path_app in Hp. rewrite NoDup_app in Hnd.
    split_and!; try tauto.
    + by rewrite last_app_cons in Hl.
    + intros w Hw. apply Hin. rewrite elem_of_app. by right.
  - exists (x :: l). split_and!.
    + by constructor.
    + apply is_path_cons. split; [done|]. intros w Hw. congruence.
    + done.
    + by destruct l.
    + intros w [->|Hw]%elem_of_cons; auto.
Qed.

Lemma within_sym g V u v : Lawful g -> rtc (within g V) u v -> rtc (within g V) v u.
Proof.
  intros Hg H. induction H as [|x y z (? & ? & ?) _ IH]; [constructor|].
  eapply rtc_r; [exact IH|]. split_and!; [|done..]. by apply law_adj_sym.
Qed.

Lemma within_mono g (V V' : gset N) u v : V ⊆ V' -> rtc (within g V) u v -> rtc (within g V') u v.
Proof. intros HV. apply rtc_subrel. intros a b (? & ? & ?). split_and!; [done|set_solver..]. Qed.

(** Blossoms: what two even nodes joined by an edge give, contraction of graph
    and pairing, lifting of paths, certificates and matchings. *)
From Verif Require Import Outcome GraphModel TraversalModel ComponentsModel PairingModel Spec
  GraphProofs EditProofs TraversalProofs PathLemmas PairingProofs MatchTheory MaximumModel
  ForestProofs.

(** ** Two even nodes joined by an edge *)

Lemma rev_elem (x : N) l : x ∈ reverse l -> x ∈ l.
Proof. by rewrite elem_of_reverse. Qed.

Lemma before_spec x l :
  match before x l with
  | Some pre => exists post, l = pre ++ x :: post /\ x ∉ pre
  | None => x ∉ l
  end.
Proof.
  induction l as [|y l IH]; cbn [before]; [apply not_elem_of_nil|].
  case_bool_decide as Hxy.
  - subst. exists l. split; [done|apply not_elem_of_nil].
  - destruct (before x l) as [pre|].
    + destruct IH as (post & -> & Hx). exists post. split; [done|]. by apply not_elem_of_cons.
    + by apply not_elem_of_cons.
Qed.

Lemma blossom_path_spec l r : (exists x, x ∈ l /\ x ∈ r) ->
  exists l1 c l2 r1 r2, l = l1 ++ c :: l2 /\ r = r1 ++ c :: r2 /\ c ∉ r1 /\
    (forall x, x ∈ l1 -> x ∉ r) /\ blossom_path l r = Some (l1 ++ c :: reverse r1).
Proof.
  induction l as [|y l IH]; intros (x & Hl & Hr); [by apply elem_of_nil in Hl|].
  cbn [blossom_path]. pose proof (before_spec y r) as Hb. destruct (before y r) as [pre|].
  - destruct Hb as (post & -> & Hy). exists [], y, l, pre, post. split_and!; try done.
    intros z Hz. by apply elem_of_nil in Hz.
  - apply elem_of_cons in Hl as [->|Hl]; [done|].
    destruct IH as (l1 & c & l2 & r1 & r2 & -> & -> & Hc & Hd & ->); [by exists x|].
    exists (y :: l1), c, l2, r1, r2. split_and!; try done.
    intros z [->|Hz]%elem_of_cons; auto.
Qed.

Lemma stem_mates_all g p l u : symmetric_pairing p -> stem g p l -> u ∈ l -> last l <> Some u ->
  exists v, v ∈ l /\ p !! u = Some v.
Proof.
  intros Hs Hst Hu Hl. destruct l as [|x l]; [by apply elem_of_nil in Hu|].
  destruct (stem_mates g p x l Hs Hst) as [_ H]. apply elem_of_cons in Hu as [->|Hu]; [|by apply H].
  inversion Hst as [|? y z l' Hx]; subst; [by destruct Hl|].
  exists y. split; [|done]. right. left.
Qed.

(** A list of pairs of mates. *)
Definition paired (p : Pairing) (l : list N) : Prop :=
  Nat.even (length l) = true /\ forall a b, (a, b) ∈ path_pairs l -> p !! a = Some b.

Lemma stem_paired g p l1 c l2 : stem g p (l1 ++ c :: l2) ->
  Nat.even (length l1) = true -> paired p l1.
Proof.
  induction l1 as [|x|x y l1 IH] using list_pair_ind; simpl; intros Hst Hev.
  - split; [done|]. intros a b H. by apply elem_of_nil in H.
  - done.
  - inversion Hst as [? ? ? Hnil|? ? z l' Hx Hyz Hst']; subst; try by destruct l1.
    match goal with H : _ :: _ = l1 ++ c :: l2 |- _ => rewrite H in Hst' end.
    destruct (IH Hst' Hev) as [_ IH2]. split; [done|].
    intros a b [[= -> ->]|Hab]%elem_of_cons; auto.
Qed.

(** An even prefix of a stem is closed under mates; what follows is a stem. *)
Lemma stem_split g p l1 c l2 : symmetric_pairing p -> stem g p (l1 ++ c :: l2) ->
  Nat.even (length l1) = true ->
  (forall x, x ∈ l1 -> exists y, y ∈ l1 /\ p !! x = Some y) /\ stem g p (c :: l2).
Proof.
  intros Hs. induction l1 as [|x|x y l1 IH] using list_pair_ind; simpl; intros Hst Hev.
  - split; [|done]. intros x Hx. by apply elem_of_nil in Hx.
  - done.
  - inversion Hst as [? ? ? Hnil|? ? z l' Hx Hyz Hst']; subst; try by destruct l1.
    match goal with H : _ :: _ = l1 ++ c :: l2 |- _ => rewrite H in Hst' end.
    destruct (IH Hst' Hev) as [IH1 IH2]. split; [|done].
    intros u [->|[->|Hu]%elem_of_cons]%elem_of_cons.
    + exists y. split; [right; left|done].
    + exists x. split; [left|]. by apply Hs in Hx as [Hx _].
    + destruct (IH1 u Hu) as (k & Hk & Huk). exists k. split; [|done]. by right; right.
Qed.

Record Bloss (g : Graph) (p : Pairing) (B : list N) (c : N) (l2 : list N) : Prop := {
  bl_cycle : odd_cycle g B;
  bl_in : c ∈ B;
  bl_mates : forall x, x ∈ B -> x <> c -> exists y, y ∈ B /\ p !! x = Some y;
  bl_stem : stem g p (c :: l2);
  bl_nodup : NoDup (c :: l2);
  bl_disj : forall x, x ∈ l2 -> x ∉ B;
  bl_nodes : forall x, x ∈ B -> x ∈ g_nodes g;
  bl_order : exists l r, B = l ++ c :: reverse r /\ paired p l /\ paired p r
}.

Section found.
  Context (g : Graph) (p : Pairing) (Hg : Lawful g) (Hp : pairing_of g p).
  Context (f : Forest) (v w : N) (pv pw : list N).
  Context (HF : FInv g p f) (Hv : even_in (f_parents f) v) (Hw : even_in (f_parents f) w).
  Context (Hvw : adj g v w) (Hpv : fpath (f_parents f) v pv) (Hpw : fpath (f_parents f) w pw).

  Lemma pv_stem : stem g p pv.
  Proof. by apply (fpath_stem g p f Hg HF v pv Hpv). Qed.
  Lemma pw_stem : stem g p pw.
  Proof. by apply (fpath_stem g p f Hg HF w pw Hpw). Qed.

  Lemma common_tail l1 c l2 r1 r2 : pv = l1 ++ c :: l2 -> pw = r1 ++ c :: r2 -> l2 = r2.
  Proof.
    intros H1 H2. pose proof (fpath_suffix _ _ _ _ _ _ Hpv H1) as Ha.
    pose proof (fpath_suffix _ _ _ _ _ _ Hpw H2) as Hb.
    pose proof (fpath_det _ _ _ _ Ha Hb) as Hab. by injection Hab.
  Qed.

  (** Different roots: an augmenting path. *)
  Lemma found_augments : last pv <> last pw ->
    augments p (reverse pv ++ pw) /\ is_path g (reverse pv ++ pw) /\
    (forall x, x ∈ reverse pv ++ pw -> x ∈ g_nodes g) /\ 2 <= length (reverse pv ++ pw).
  Proof.
    intros Hl.
    assert (Hdis : forall x, x ∈ pv -> x ∉ pw).
    { intros x H1 H2. apply elem_of_list_split in H1 as (a1 & a2 & H1).
      apply elem_of_list_split in H2 as (b1 & b2 & H2).
      pose proof (common_tail _ _ _ _ _ H1 H2) as ->. apply Hl.
      rewrite H1, H2, !last_app_cons. done. }
    pose proof pv_stem as Hsv. pose proof pw_stem as Hsw.
    assert (Hhv : head pv = Some v) by (by eapply fpath_head).
    assert (Hhw : head pw = Some w) by (by eapply fpath_head).
    assert (Hlr : forall x, last (reverse pv ++ pw) = Some x -> last pw = Some x).
    { destruct pw; [done|]. intros x. by rewrite last_app_cons. }
    assert (Hhr : forall x, head (reverse pv ++ pw) = Some x -> last pv = Some x).
    { intros x. rewrite <-head_reverse. by destruct (reverse pv) eqn:E;
        [apply (f_equal length) in E; rewrite reverse_length in E; destruct pv|]. }
    split_and!.
    - split_and!.
      + apply NoDup_app. split_and!.
        * rewrite (reverse_Permutation pv). by eapply fpath_nodup.
        * intros x Hx%rev_elem. by apply Hdis.
        * by eapply fpath_nodup.
      + rewrite app_length, reverse_length, Nat.even_add.
        apply stem_odd in Hsv, Hsw. rewrite <-!Nat.negb_odd, Hsv, Hsw. done.
      + intros x [Hx%Hhr|Hx%Hlr]; [by apply (stem_last g p pv)|by apply (stem_last g p pw)].
      + intros x [Hx%rev_elem|Hx]%elem_of_app Hnh Hnl.
        * destruct (stem_mates_all g p pv x (proj1 Hp) Hsv Hx) as (y & Hy & Hxy).
          { intros E. apply Hnh. rewrite <-head_reverse in E. by destruct (reverse pv). }
          exists y. split; [|done]. apply elem_of_app. left. by apply elem_of_reverse.
        * destruct (stem_mates_all g p pw x (proj1 Hp) Hsw Hx) as (y & Hy & Hxy).
          { intros E. apply Hnl. destruct pw; [done|]. by rewrite last_app_cons. }
          exists y. split; [|done]. apply elem_of_app. by right.
    - apply is_path_app. split_and!.
      + apply is_path_reverse; [done|]. by eapply stem_is_path.
      + by eapply stem_is_path.
      + intros a b Ha Hb. rewrite last_reverse in Ha. congruence.
    - intros x [Hx%rev_elem|Hx]%elem_of_app; eapply (finv_nodes g p f Hg Hp HF).
      + exact (fpath_elem _ _ _ _ Hpv Hx).
      + exact (fpath_elem _ _ _ _ Hpw Hx).
    - rewrite app_length, reverse_length. destruct pv, pw; simpl in *; try done. lia.
  Qed.

  (** A child of an odd node is its mate. *)
  Lemma odd_child x y par : f_parents f !! x = Some (mkEntry (Some y) par) ->
    odd_in (f_parents f) y -> p !! y = Some x.
  Proof.
    intros Hx Hy. destruct par.
    - apply (fi_even _ _ _ HF) in Hx as [Hx _]. by apply (proj1 Hp) in Hx as [Hx _].
    - apply (fi_odd _ _ _ HF) in Hx as (_ & He & _). exfalso. by eapply even_odd_excl.
  Qed.

  (** Same root: a blossom. *)
  Lemma found_blossom : last pv = last pw -> exists B c l2,
    blossom_path pv pw = Some B /\ Bloss g p B c l2.
  Proof.
    intros Hl. destruct (last pv) as [r|] eqn:Er.
    2:{ apply last_None in Er. subst. inversion Hpv. }
    destruct (blossom_path_spec pv pw) as (l1 & c & l2 & r1 & r2 & H1 & H2 & Hc & Hd & Hb).
    { exists r. apply last_Some in Er as [? ->]. symmetry in Hl. apply last_Some in Hl as [? ->].
      split; apply elem_of_app; right; left. }
    pose proof (common_tail _ _ _ _ _ H1 H2) as <-.
    exists (l1 ++ c :: reverse r1), c, l2. split; [done|].
    assert (Hce : even_in (f_parents f) c).
    { destruct (even_or_odd (f_parents f) c) as [?|Ho]; [|done|].
      { eapply fpath_elem; [exact Hpv|]. rewrite H1. apply elem_of_app. right. left. }
      exfalso. destruct l1 as [|x l1 _] using rev_ind.
      { apply fpath_head in Hpv. rewrite H1 in Hpv. injection Hpv as ->. exact (even_odd_excl _ _ Hv Ho). }
      destruct r1 as [|y r1 _] using rev_ind.
      { apply fpath_head in Hpw. rewrite H2 in Hpw. injection Hpw as ->. exact (even_odd_excl _ _ Hw Ho). }
      rewrite <-app_assoc in H1, H2. simpl in H1, H2.
      destruct (fpath_step _ _ _ _ _ _ _ Hpv H1) as [par1 Hx].
      destruct (fpath_step _ _ _ _ _ _ _ Hpw H2) as [par2 Hy].
      apply odd_child in Hx; [|done]. apply odd_child in Hy; [|done].
      assert (x = y) as -> by congruence. apply (Hd y).
      - apply elem_of_app. right. left.
      - rewrite H2. apply elem_of_app. right. left. }
    assert (Hcl : Nat.odd (length (c :: l2)) = true).
    { apply (fpath_even_odd g p f Hg HF c (c :: l2)); [|done]. by eapply fpath_suffix. }
    pose proof pv_stem as Hsv. pose proof pw_stem as Hsw.
    assert (He1 : Nat.even (length l1) = true).
    { apply stem_odd in Hsv. rewrite H1, app_length, Nat.odd_add, Hcl in Hsv.
      rewrite <-Nat.negb_odd. by destruct (Nat.odd (length l1)). }
    assert (He2 : Nat.even (length r1) = true).
    { apply stem_odd in Hsw. rewrite H2, app_length, Nat.odd_add, Hcl in Hsw.
      rewrite <-Nat.negb_odd. by destruct (Nat.odd (length r1)). }
    pose proof (fpath_nodup _ _ _ Hpv) as Hnv. pose proof (fpath_nodup _ _ _ Hpw) as Hnw.
    assert (Hs1 : stem g p (l1 ++ c :: l2)) by congruence.
    assert (Hs2 : stem g p (r1 ++ c :: l2)) by congruence.
    assert (Hpp1 : is_path g (l1 ++ c :: l2)) by (by eapply stem_is_path).
    assert (Hpp2 : is_path g (r1 ++ c :: l2)) by (by eapply stem_is_path).
    destruct (stem_split g p l1 c l2 (proj1 Hp) Hs1 He1) as [Hm1 Hsc].
    destruct (stem_split g p r1 c l2 (proj1 Hp) Hs2 He2) as [Hm2 _].
    rewrite H1 in Hnv. rewrite H2 in Hnw.
    apply NoDup_app in Hnv as (Hn1 & Hd1 & Hn2). apply NoDup_app in Hnw as (Hn3 & Hd3 & _).
    assert (Hd4 : forall x, x ∈ l1 -> x ∉ r1).
    { intros x Hx Hx'. apply (Hd x Hx). rewrite H2. apply elem_of_app. by left. }
    constructor.
    - split_and!.
      + apply NoDup_app. split_and!; [done| |].
        * intros x Hx [->|Hx'%rev_elem]%elem_of_cons; [|by apply (Hd4 x)].
          apply (Hd1 c Hx). left.
        * apply NoDup_cons. split; [by rewrite elem_of_reverse|].
          by rewrite (reverse_Permutation r1).
      + rewrite app_length. cbn [length]. rewrite reverse_length, Nat.add_succ_r, Nat.odd_succ.
        rewrite Nat.even_add, He1, He2. done.
      + apply is_path_app in Hpp1 as (Ha & _ & Hj). apply is_path_app in Hpp2 as (Hb' & _ & Hj').
        apply is_path_app. split_and!; [done| |].
        * apply is_path_cons. split; [by apply is_path_reverse|].
          intros y Hy. rewrite head_reverse in Hy. apply law_adj_sym; [done|]. by apply Hj'.
        * intros a b Ha' [= <-]. by apply Hj.
      + intros a z Ha Hz.
        assert (a = v) as ->.
        { apply fpath_head in Hpv. rewrite H1 in Hpv. destruct l1; simpl in *; congruence. }
        assert (z = w) as ->.
        { apply fpath_head in Hpw. rewrite H2 in Hpw. rewrite last_app_cons in Hz.
          destruct r1 as [|y r1]; [simpl in *; congruence|]. rewrite reverse_cons in Hz.
          rewrite app_comm_cons, last_snoc in Hz. simpl in *. congruence. }
        by apply law_adj_sym.
    - apply elem_of_app. right. left.
    - intros x [Hx|[->|Hx%rev_elem]%elem_of_cons]%elem_of_app Hxc; [|done|].
      + destruct (Hm1 x Hx) as (y & Hy & Hxy). exists y. split; [|done]. apply elem_of_app. by left.
      + destruct (Hm2 x Hx) as (y & Hy & Hxy). exists y. split; [|done].
        apply elem_of_app. right. right. by apply elem_of_reverse.
    - done.
    - done.
    - intros x Hx [Hx'|[->|Hx'%rev_elem]%elem_of_cons]%elem_of_app.
      + apply (Hd1 x Hx'). by right.
      + apply NoDup_cons in Hn2 as [? _]. done.
      + apply (Hd3 x Hx'). by right.
    - intros x Hx. eapply (finv_nodes g p f Hg Hp HF).
      apply elem_of_app in Hx as [Hx|[->|Hx%rev_elem]%elem_of_cons].
      + eapply fpath_elem; [exact Hpv|]. rewrite H1. apply elem_of_app. by left.
      + by destruct Hce; eexists.
      + eapply fpath_elem; [exact Hpw|]. rewrite H2. apply elem_of_app. by left.
    - exists l1, r1. split; [done|]. split; by eapply stem_paired.
  Qed.

  (** In a bipartite graph the roots differ. *)
  Lemma stem_color color l x r : (forall a b, adj g a b -> color a <> color b :> bool) ->
    stem g p l -> head l = Some x -> last l = Some r -> color x = color r.
  Proof.
    intros Hcol Hst. revert x. induction Hst as [r' Hr Hn|a b z l Hab Hbz Hst IH]; intros x Hh Hl.
    - simpl in *. congruence.
    - injection Hh as <-. rewrite <-(IH z eq_refl Hl).
      apply (proj2 Hp), Hcol in Hab. apply Hcol in Hbz.
      destruct (color a), (color b), (color z); congruence.
  Qed.

  Lemma found_bipartite : Bipartite g -> last pv <> last pw.
  Proof.
    intros [color Hcol] Hl. destruct (last pv) as [r|] eqn:Er.
    2:{ apply last_None in Er. subst. inversion Hpv. }
    apply (Hcol v w Hvw). transitivity (color r).
    - eapply stem_color; [done|exact pv_stem|by eapply fpath_head|done].
    - symmetry. eapply stem_color; [done|exact pw_stem|by eapply fpath_head|done].
  Qed.
End found.

(** ** Contraction *)

Section contract.
  Context (g : Graph) (p : Pairing) (Hg : Lawful g) (Hp : pairing_of g p).
  Context (B : list N) (c : N) (l2 : list N) (HB : Bloss g p B c l2).
  Context (b : N) (Hb : b ∈ g_nodes g -> b ∈ B).

  Definition squash (x : N) : N := if bool_decide (x ∈ B) then b else x.
  Notation σ := squash.
  Notation blossom := (mkBlossom b B).

  Lemma squash_in x : x ∈ B -> σ x = b.
  Proof. intros H. unfold squash. by rewrite bool_decide_eq_true_2. Qed.
  Lemma squash_out x : x ∉ B -> σ x = x.
  Proof. intros H. unfold squash. by rewrite bool_decide_eq_false_2. Qed.
  Lemma squash_b x : x ∈ g_nodes g -> σ x = b <-> x ∈ B.
  Proof.
    intros Hx. split; [|apply squash_in]. intros H. destruct (decide (x ∈ B)); [done|].
    rewrite squash_out in H by done. subst. by apply Hb.
  Qed.
  Lemma squash_other x y : x ∈ g_nodes g -> y <> b -> σ x = y -> x = y /\ x ∉ B.
  Proof.
    intros Hx Hy H. destruct (decide (x ∈ B)) as [Hin|Hin].
    - rewrite squash_in in H by done. congruence.
    - rewrite squash_out in H by done. done.
  Qed.
  Lemma squash_eq x y : x ∈ g_nodes g -> y ∈ g_nodes g -> σ x = σ y -> x = y \/ (x ∈ B /\ y ∈ B).
  Proof.
    intros Hx Hy H. destruct (decide (y ∈ B)) as [Hin|Hin].
    - rewrite (squash_in y) in H by done. right. split; [|done]. by apply squash_b.
    - rewrite (squash_out y Hin) in H. left. apply (squash_other x y Hx); [|done].
      intros ->. by apply Hin, Hb.
  Qed.

  Lemma adj_nodes u v : adj g u v -> u ∈ g_nodes g /\ v ∈ g_nodes g.
  Proof.
    intros H. split; [|by eapply law_adj_node]. apply law_adj_sym in H; [|done].
    by eapply law_adj_node.
  Qed.

  (** *** The graph *)

  Definition outside (e : N * N) : Prop := ~ (e.1 ∈ B /\ e.2 ∈ B).

  Lemma local_ok d o a : Rep d a -> a_result a o = Ok tt ->
    exists d', local (run_op d o) = Ok d' /\ Rep d' (a_step a o).
  Proof.
    intros HR Ha. destruct (rep_step d a o HR) as [Hr HR']. rewrite Ha in Hr.
    exists (run_op d o).1. split; [|done]. destruct (run_op d o) as [d' r]. simpl in *. by subst.
  Qed.

  Lemma contract_nodes_spec ids d a : Rep d a -> NoDup ids ->
    (forall x, x ∈ ids -> x ∉ B -> x ∉ a_nodes a) ->
    exists d', b_contract_nodes blossom ids d = Ok d' /\
      Rep d' (mkA (a_nodes a ++ filter (fun x => x ∉ B) ids) (a_edges a)).
  Proof.
    revert d a. induction ids as [|x ids IH]; intros d a HR Hnd Hout.
    { exists d. split; [done|]. rewrite app_nil_r. by destruct a. }
    apply NoDup_cons in Hnd as [Hx Hnd]. cbn [b_contract_nodes b_path]. rewrite filter_cons.
    destruct (decide (x ∈ B)) as [Hin|Hin].
    - rewrite bool_decide_eq_true_2 by done. cbn [cbind].
      rewrite decide_False by tauto. apply IH; [done|done|]. intros y Hy. apply Hout. by right.
    - rewrite bool_decide_eq_false_2 by done. rewrite decide_True by done.
      assert (Hres : a_result a (AddNode x) = Ok tt).
      { simpl. rewrite bool_decide_eq_false_2; [done|]. apply Hout; [left|done]. }
      destruct (local_ok d (AddNode x) a HR Hres) as (d' & Hd & HR').
      cbn [run_op] in Hd. rewrite Hd. cbn [cbind].
      unfold a_step in HR'. rewrite Hres in HR'.
      destruct (IH d' _ HR' Hnd) as (d'' & -> & HR'').
      { cbn [a_nodes]. intros y Hy HyB [Hya| ->%elem_of_list_singleton]%elem_of_app; [|done].
        revert Hya. apply Hout; [by right|done]. }
      exists d''. split; [done|]. cbn [a_nodes a_edges] in HR''. by rewrite <-app_assoc in HR''.
  Qed.

  (** The edges made from a list of edges. *)
  Definition made (es : list (N * N)) (x y : N) : Prop :=
    exists s t, (s, t) ∈ es /\ outside (s, t) /\ ((x = σ s /\ y = σ t) \/ (x = σ t /\ y = σ s)).

  Lemma made_sym es x y : made es x y -> made es y x.
  Proof. intros (s & t & ? & ? & ?). exists s, t. tauto. Qed.
  Lemma made_app es fs x y : made (es ++ fs) x y <-> made es x y \/ made fs x y.
  Proof.
    unfold made. split.
    - intros (s & t & [H|H]%elem_of_app & ?); [left|right]; eauto.
    - intros [(s & t & H & ?)|(s & t & H & ?)]; exists s, t; (split; [|done]); apply elem_of_app; auto.
  Qed.
  Lemma made_one s t x y : made [(s, t)] x y <->
    outside (s, t) /\ ((x = σ s /\ y = σ t) \/ (x = σ t /\ y = σ s)).
  Proof.
    unfold made. split.
    - intros (s' & t' & H%elem_of_list_singleton & ?). injection H as -> ->. done.
    - intros ?. exists s, t. split; [left|done].
  Qed.

  Definition sym_edges (a : agraph) (x y : N) : Prop := (x, y) ∈ a_edges a \/ (y, x) ∈ a_edges a.

  Lemma contract_edges_spec todo done d a : Rep d a -> g_edges g = done ++ todo ->
    a_nodes a = b :: filter (fun x => x ∉ B) (g_nodes g) ->
    (forall x y, sym_edges a x y <-> made done x y) ->
    exists d' a', b_contract_edges blossom todo d = Ok d' /\ Rep d' a' /\
      a_nodes a' = a_nodes a /\ forall x y, sym_edges a' x y <-> made (g_edges g) x y.
  Proof.
    revert done d a. induction todo as [|[s t] todo IH]; intros done d a HR Heq Hn He.
    { exists d, a. split_and!; try done. rewrite Heq, app_nil_r. done. }
    assert (Hst : (s, t) ∈ g_edges g) by (rewrite Heq; apply elem_of_app; right; left).
    destruct (adj_nodes _ _ (law_edges_adj g Hg _ _ Hst)) as [Hs Ht].
    assert (Hin : forall x, x ∈ g_nodes g -> σ x ∈ a_nodes a).
    { intros x Hx. rewrite Hn. destruct (decide (x ∈ B)).
      - rewrite squash_in by done. left.
      - rewrite squash_out by done. right. by apply elem_of_list_filter. }
    assert (Heq' : g_edges g = (done ++ [(s, t)]) ++ todo) by (by rewrite <-app_assoc).
    (* one step *)
    assert (Hstep : exists d1 a1, b_contract_edge blossom s t d = Ok d1 /\ Rep d1 a1 /\
      a_nodes a1 = a_nodes a /\ forall x y, sym_edges a1 x y <-> made (done ++ [(s, t)]) x y).
    { (* adding the edge, if it is not there *)
      assert (Hadd : ~ sym_edges a (σ s) (σ t) -> outside (s, t) ->
        exists d1 a1, local (dg_add_edge d (σ s) (σ t)) = Ok d1 /\ Rep d1 a1 /\
          a_nodes a1 = a_nodes a /\ forall x y, sym_edges a1 x y <-> made (done ++ [(s, t)]) x y).
      { intros Hnew Hout.
        assert (Hres : a_result a (AddEdge (σ s) (σ t)) = Ok tt).
        { simpl. rewrite bool_decide_eq_false_2 by (intros []; auto).
          rewrite bool_decide_eq_false_2 by (intros []; auto).
          by rewrite bool_decide_eq_false_2. }
        destruct (local_ok d (AddEdge (σ s) (σ t)) a HR Hres) as (d1 & Hd1 & HR1).
        unfold a_step in HR1. rewrite Hres in HR1. exists d1, (mkA (a_nodes a) (a_edges a ++ [(σ s, σ t)])).
        split_and!; [exact Hd1|exact HR1|done|].
        intros x y. unfold sym_edges. cbn [a_edges]. rewrite made_app, made_one, <-He.
        unfold sym_edges. rewrite !elem_of_app, !elem_of_list_singleton.
        intuition (simplify_eq; auto 10). }
      assert (Hhas : forall x y, x ∈ a_nodes a -> y ∈ a_nodes a ->
        dg_has_edge d x y = Ok (bool_decide ((x, y) ∈ a_edges a \/ (y, x) ∈ a_edges a))).
      { intros x y Hx Hy. destruct (rep_observes d a HR) as (_ & _ & _ & _ & _ & _ & _ & _ & Ho).
        cbn [as_graph g_has_edge] in Ho. rewrite Ho.
        rewrite bool_decide_eq_false_2 by (intros []; auto).
        rewrite bool_decide_eq_false_2 by (intros []; auto). done. }
      (* when it is there *)
      assert (Hold : sym_edges a (σ s) (σ t) ->
        exists d1 a1, Ok d = Ok d1 /\ Rep d1 a1 /\
          a_nodes a1 = a_nodes a /\ forall x y, sym_edges a1 x y <-> made (done ++ [(s, t)]) x y).
      { intros Ho. exists d, a. split_and!; try done. intros x y. rewrite made_app, made_one, <-He.
        split; [auto|]. intros [?|[_ [[-> ->]|[-> ->]]]]; [done|done|].
        unfold sym_edges in *. tauto. }
      unfold b_contract_edge. cbn [b_path b_id].
      destruct (decide (s ∈ B)) as [HsB|HsB]; destruct (decide (t ∈ B)) as [HtB|HtB].
      - rewrite !bool_decide_eq_true_2 by done. exists d, a. split_and!; try done.
        intros x y. rewrite made_app, made_one, <-He. split; [auto|].
        intros [?|[[] _]]; done.
      - rewrite (bool_decide_eq_true_2 (s ∈ B)), (bool_decide_eq_false_2 (t ∈ B)) by done.
        specialize (Hin s Hs) as Hins. specialize (Hin t Ht) as Hint.
        rewrite squash_in in Hadd, Hold, Hins by done. rewrite squash_out in Hadd, Hold, Hint by done.
        rewrite Hhas by done. cbn [cbind]. case_bool_decide as Hold'.
        + by apply Hold.
        + apply Hadd; [done|]. unfold outside. simpl. tauto.
      - rewrite (bool_decide_eq_false_2 (s ∈ B)), (bool_decide_eq_true_2 (t ∈ B)) by done.
        specialize (Hin s Hs) as Hins. specialize (Hin t Ht) as Hint.
        rewrite (squash_in t) in Hadd, Hold, Hint by done. rewrite squash_out in Hadd, Hold, Hins by done.
        rewrite Hhas by done. cbn [cbind]. case_bool_decide as Hold'.
        + by apply Hold.
        + apply Hadd; [done|]. unfold outside. simpl. tauto.
      - rewrite !bool_decide_eq_false_2 by done.
        rewrite (squash_out s), (squash_out t) in Hadd by done. apply Hadd.
        + rewrite He. intros (s' & t' & Hin' & Hout' & Hcase).
          assert (Hst' : (s', t') ∈ g_edges g) by (rewrite Heq; apply elem_of_app; by left).
          destruct (adj_nodes _ _ (law_edges_adj g Hg _ _ Hst')) as [Hs' Ht'].
          assert (Hsb : s <> b) by (intros ->; auto). assert (Htb : t <> b) by (intros ->; auto).
          pose proof (law_edges_nodup g Hg) as Hnd. rewrite Heq in Hnd.
          apply NoDup_app in Hnd as (_ & Hdd & Hnd2).
          assert ((s', t') <> (s, t)).
          { intros E. apply (Hdd _ Hin'). rewrite E. left. }
          destruct Hcase as [[Hx Hy]|[Hx Hy]]; symmetry in Hx, Hy;
            apply squash_other in Hx as [-> _]; try done; apply squash_other in Hy as [-> _]; try done.
          pose proof (law_edges_once g Hg _ _ Hst Hst'). subst. done.
        + unfold outside. simpl. tauto. }
    destruct Hstep as (d1 & a1 & Hd1 & HR1 & Hn1 & He1).
    cbn [b_contract_edges]. rewrite Hd1. cbn [cbind].
    destruct (IH (done ++ [(s, t)]) d1 a1 HR1 Heq') as (d' & a' & -> & HR' & Hn' & He');
      [congruence|done|].
    exists d', a'. split_and!; try done. congruence.
  Qed.

  Lemma contract_graph_spec : exists d, b_contract_graph blossom g = Ok d /\ WF d /\
    g_nodes (as_graph d) = b :: filter (fun x => x ∉ B) (g_nodes g) /\
    (forall x y, adj (as_graph d) x y <-> made (g_edges g) x y).
  Proof.
    unfold b_contract_graph. cbn [b_id].
    destruct (local_ok dg_new (AddNode b) (mkA [] []) rep_new) as (d0 & Hd0 & HR0); [done|].
    cbn [run_op] in Hd0. rewrite Hd0. cbn [cbind].
    destruct (contract_nodes_spec (g_nodes g) d0 _ HR0) as (d1 & -> & HR1).
    { apply Hg. }
    { cbn. intros x Hx HxB ->%elem_of_list_singleton. auto. }
    cbn [cbind].
    destruct (contract_edges_spec (g_edges g) [] d1 _ HR1) as (d & a & -> & HR & Hn & He).
    { done. }
    { done. }
    { intros x y. split.
      - intros [H|H]; by apply elem_of_nil in H.
      - intros (? & ? & H & _). by apply elem_of_nil in H. }
    exists d. split; [done|]. destruct (rep_observes d a HR) as (Hn' & _ & _ & _ & _ & _ & Hnb & _).
    split_and!; [by destruct HR|by rewrite Hn', Hn|].
    intros x y. rewrite <-He. unfold adj. rewrite Hnb. unfold sym_edges.
    rewrite <-elem_of_a_neighbors. case_bool_decide as Hx.
    - split; [by intros (l & [= <-] & ?)|eauto].
    - split; [by intros (? & ? & _)|]. rewrite elem_of_a_neighbors. intros H. exfalso. apply Hx.
      assert (Hm : made (g_edges g) x y) by (by apply He).
      rewrite Hn. destruct Hm as (s & t & Hst & _ & Hcase).
      apply (law_edges_adj g Hg), adj_nodes in Hst as [Hs Ht].
      assert (Hin : forall z, z ∈ g_nodes g -> σ z ∈ b :: filter (fun x => x ∉ B) (g_nodes g)).
      { intros z Hz. destruct (decide (z ∈ B)).
        - rewrite squash_in by done. left.
        - rewrite squash_out by done. right. by apply elem_of_list_filter. }
      cbn. destruct Hcase as [[-> _]|[-> _]]; by apply Hin.
  Qed.
End contract.

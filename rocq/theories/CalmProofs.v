(** Graphs each of whose odd cycles is pendant, alone, nearly its whole
    component, or in a clique component.  In a clique component the search
    always starts from an unpaired node, so the contracted node is an end of
    the path found below it. *)
From Verif Require Import Outcome GraphModel TraversalModel ComponentsModel PairingModel Spec
  GraphProofs EditProofs TraversalProofs PathLemmas PairingProofs MatchTheory MaximumModel
  ForestProofs BlossomProofs ContractProofs LiftProofs TameProofs MaximumProofs.

(** The component of [x] is a clique. *)
Definition clique_at (g : Graph) (x : N) : Prop :=
  forall u v, reachable g x u -> reachable g x v -> u <> v -> adj g u v.

Lemma clique_at_reach g x y : Lawful g -> reachable g x y -> clique_at g x -> clique_at g y.
Proof. intros Hg Hxy Hx u v Hu Hv. apply Hx; by eapply rtc_transitive. Qed.

Section roots.
  Context (g : Graph) (p : Pairing) (Hg : Lawful g) (Hp : pairing_of g p).
  Notation roots := (filter (fun x => p !! x = None) (g_nodes g)).

  (** find_v returns the first unmarked even node. *)
  Lemma find_v_first f m ids v :
    find_v (f_parents f) m ids = Ok (Some v) ->
    exists l1 l2, ids = l1 ++ v :: l2 /\ forall x, x ∈ l1 -> even_in (f_parents f) x -> x ∈ mk_nodes m.
  Proof.
    induction ids as [|x ids IH]; intros Hf; [done|]. cbn [find_v] in Hf.
    destruct (f_parents f !! x) as [[o [|]]|] eqn:Ex; [| |done].
    - unfold mk_has_node in Hf. case_bool_decide as Hm.
      + destruct IH as (l1 & l2 & -> & Hl); [done|].
        exists (x :: l1), l2. split; [done|]. intros y [->|Hy]%elem_of_cons; auto.
      + injection Hf as ->. exists [], ids. split; [done|]. intros y Hy. by apply elem_of_nil in Hy.
    - destruct IH as (l1 & l2 & -> & Hl); [done|].
      exists (x :: l1), l2. split; [done|]. intros y [->|Hy]%elem_of_cons; [|by apply Hl].
      intros He. exfalso. eapply even_odd_excl; [exact He|]. by eexists.
  Qed.

  (** An unpaired node of a clique component all of whose edges are marked has
      no neighbor but itself. *)
  Lemma marked_lonely v f m w : FInv g p f -> MInv g p (f_parents f) m -> even_in (f_parents f) v ->
    (forall w, adj g v w -> hedge m v w) -> p !! v = None -> clique_at g v -> adj g v w -> False.
  Proof.
    intros HF HM He Hall Hv Hcl.
    assert (Hodd : forall w, adj g v w -> odd_in (f_parents f) w).
    { intros w' Hw. apply Hall in Hw. destruct (mi_edge _ _ _ _ HM v w' Hw) as [?|[[_ ?]|[Ho _]]];
        [congruence|done|]. exfalso. by eapply even_odd_excl. }
    intros Hw. destruct (Hodd w Hw) as [[y|] Ho].
    2:{ by apply (fi_root _ _ _ HF) in Ho as [? _]. }
    apply (fi_odd _ _ _ HF) in Ho as (_ & _ & k & Hk & Hke).
    assert (Hvk : v <> k).
    { intros ->. apply (proj1 Hp) in Hk as [Hk _]. congruence. }
    assert (Hvk' : adj g v k).
    { apply Hcl; [constructor| |done]. eapply rtc_l; [exact Hw|]. apply rtc_once. by apply Hp. }
    apply Hodd in Hvk'. eapply even_odd_excl; [|exact Hvk']. by eexists.
  Qed.

  (** The inner loop appends to the list of forest nodes. *)
  Lemma search_w_nodes n : forall v f m f' m', search_w n v g p f m = Ok (Exhausted f' m') ->
    exists k, f_nodes f' = f_nodes f ++ k.
  Proof.
    induction n as [|n IH]; intros v f m f' m' H; [done|]. cbn [search_w] in H.
    apply cbind_ok in H as (ow & _ & H). destruct ow as [w|].
    2:{ injection H as <- <-. exists []. by rewrite app_nil_r. }
    apply cbind_ok in H as (opath & _ & H). destruct opath as [pw|].
    - destruct (Nat.odd _); [done|]. apply cbind_ok in H as (m1 & _ & H). by eapply IH.
    - apply cbind_ok in H as (f1 & Hf1 & H). apply cbind_ok in H as (k & _ & H).
      apply cbind_ok in H as (f2 & Hf2 & H). apply cbind_ok in H as (m1 & _ & H).
      apply IH in H as (l & Hl). unfold f_add_edge in Hf1, Hf2.
      destruct (f_parents f !! v); [|done]. destruct (f_parents f !! w); [done|]. injection Hf1 as <-.
      cbn [f_parents f_nodes] in Hf2. destruct (_ !! w); [|done]. destruct (_ !! k); [done|].
      injection Hf2 as <-. cbn [f_nodes] in Hl. exists ([w; k] ++ l). rewrite Hl, !app_assoc. by rewrite <-(app_assoc _ [w]).
  Qed.

  Lemma root_even f x : FInv g p f -> x ∈ roots -> even_in (f_parents f) x.
  Proof.
    intros HF [Hx Hxn]%elem_of_list_filter. destruct (even_or_odd _ _ (fi_free _ _ _ HF x Hxn Hx)) as [?|[o Ho]]; [done|].
    exfalso. destruct o as [y|].
    - apply (fi_odd _ _ _ HF) in Ho as (_ & _ & k & Hk & _). congruence.
    - by apply (fi_root _ _ _ HF) in Ho as [? _].
  Qed.

  (** From every node of the forest a root can be reached. *)
  Lemma fpath_reach f x l : FInv g p f -> fpath (f_parents f) x l ->
    exists r, r ∈ roots /\ reachable g r x.
  Proof.
    intros HF. induction 1 as [x par Hx|x y par l Hx _ (r & Hr & Hry)].
    - apply (fi_root _ _ _ HF) in Hx as (_ & Hx & Hn). exists x. split; [|constructor].
      by apply elem_of_list_filter.
    - exists r. split; [done|]. eapply rtc_r; [exact Hry|]. destruct par.
      + apply (fi_even _ _ _ HF) in Hx as [Hx _]. apply law_adj_sym; [done|]. by apply Hp.
      + by apply (fi_odd _ _ _ HF) in Hx as [? _].
  Qed.

  (** In a clique component only an unpaired node can find anything. *)
  Lemma search_root n : forall f m v pw f' k, FInv g p f -> MInv g p (f_parents f) m ->
    f_nodes f = roots ++ k -> search_v n g p f m = Ok (EvenPath v pw f') ->
    found g p v pw f' /\ (clique_at g v -> p !! v = None).
  Proof.
    induction n as [|n IH]; intros f m v pw f' k HF HM Hn Hs; [done|].
    cbn [search_v] in Hs. unfold some_v in Hs.
    destruct (find_v_spec g p f m (f_nodes f) HF) as [(u & Hfind & Hun & Hue & Hum)|[Hfind _]].
    { intros x Hx. by apply (fi_dom _ _ _ HF). }
    2:{ rewrite Hfind in Hs. done. }
    rewrite Hfind in Hs. cbn [cbind] in Hs.
    destruct (search_w_spec g p Hg Hp (S (length (pending g u m))) u f m) as (r & [_ Hw] & Hr); try done; [lia|].
    destruct (Hw (S n)) as [E|E]; rewrite E in Hs; [done|]. cbn [cbind] in Hs.
    destruct r as [f1 m1|u1 pw1 f1].
    - destruct (search_w_nodes _ _ _ _ _ _ E) as (k1 & Hk1).
      destruct Hr as [(HF1 & HM1 & He1 & Hmn & Hall) _].
      unfold mk_mark_node in Hs. rewrite bool_decide_eq_false_2 in Hs by (by rewrite Hmn). cbn [cbind] in Hs.
      eapply (IH f1 _ v pw f' (k ++ k1)) in Hs; try done.
      + constructor.
        * apply HM1.
        * apply HM1.
        * cbn [mk_nodes]. intros x [->%elem_of_singleton|Hx]%elem_of_union; [|by apply HM1]. done.
      + by rewrite Hk1, Hn, app_assoc.
    - destruct Hr as [-> Hfound]. injection Hs as -> -> ->. split; [done|]. intros Hcl.
      destruct (p !! v) as [y|] eqn:Ev; [exfalso|done].
      (* [v] is no root, so all roots are marked, also that of its tree *)
      destruct (fi_path _ _ _ HF v) as (l & Hl); [destruct Hue; by eexists|].
      destruct (fpath_reach f v l HF Hl) as (r & Hr & Hrv).
      destruct (find_v_first f m (f_nodes f) v Hfind) as (l1 & l2 & Hsplit & Hl1).
      assert (Hrm : r ∈ mk_nodes m).
      { apply Hl1; [|by apply root_even].
        rewrite Hn in Hsplit. clear -Hsplit Hr Ev.
        assert (Hvr : v ∉ roots) by (intros [Hv _]%elem_of_list_filter; congruence).
        revert l1 Hsplit Hr Hvr. generalize roots as R.
        induction R as [|a R IHR]; intros l1 Hsplit Hr Hvr; [by apply elem_of_nil in Hr|].
        destruct l1 as [|b l1]; simpl in Hsplit; injection Hsplit as -> Hsplit; [by destruct Hvr; left|].
        apply elem_of_cons in Hr as [->|Hr]; [left|right]. apply IHR; [done|done|]. intros ?. apply Hvr. by right. }
      destruct (mi_node _ _ _ _ HM r Hrm) as [Hre Hrall].
      pose proof Hr as [Hr0 Hrn]%elem_of_list_filter.
      destruct Hrv as [r|r z v Hrz Hzv]; [congruence|].
      eapply (marked_lonely r f m z); try done.
      apply (clique_at_reach g v); [done| |done]. apply reachable_sym; [done|]. by eapply rtc_l.
  Qed.

  (** The first unpaired node is examined first. *)
  Lemma search_first n f v pw f' r : FInv g p f -> f_nodes f = roots -> head roots = Some r ->
    search_v n g p f (marker0 p) = Ok (EvenPath v pw f') -> clique_at g r -> (exists w, adj g r w) -> v = r.
  Proof.
    intros HF Hn Hr Hs Hcl (w & Hw). destruct n as [|n]; [done|]. cbn [search_v] in Hs. unfold some_v in Hs.
    assert (Hrr : r ∈ roots) by (destruct roots; [done|]; injection Hr as ->; left).
    pose proof Hrr as [Hr0 _]%elem_of_list_filter.
    pose proof (marker0_inv g p (f_parents f)) as HM.
    assert (Hfind : find_v (f_parents f) (marker0 p) (f_nodes f) = Ok (Some r)).
    { rewrite Hn. destruct roots as [|x R] eqn:ER; [done|]. injection Hr as ->. cbn [find_v].
      destruct (root_even f r HF) as [o Ho]; [rewrite ER; left|]. rewrite Ho.
      unfold mk_has_node. rewrite bool_decide_eq_false_2; [done|]. apply not_elem_of_empty. }
    rewrite Hfind in Hs. cbn [cbind] in Hs.
    destruct (search_w_spec g p Hg Hp (S (length (pending g r (marker0 p)))) r f (marker0 p)) as (res & [_ Hsw] & Hres);
      try done; [lia|by apply root_even|].
    destruct (Hsw (S n)) as [E|E]; rewrite E in Hs; [done|]. cbn [cbind] in Hs.
    destruct res as [f1 m1|u1 pw1 f1].
    - destruct Hres as [(HF1 & HM1 & He1 & Hmn & Hall) _]. exfalso.
      by eapply (marked_lonely r f1 m1 w).
    - destruct Hres as [-> _]. by injection Hs as <- _ _.
  Qed.

  (** The path of an unpaired node is the node itself. *)
  Lemma root_path f v pv : FInv g p f -> even_in (f_parents f) v -> p !! v = None ->
    fpath (f_parents f) v pv -> pv = [v].
  Proof.
    intros HF [[y|] He] Hv Hf.
    { apply (fi_even _ _ _ HF) in He as [? _]. congruence. }
    inversion Hf; subst; [done|]. congruence.
  Qed.
End roots.

(** ** The class survives contraction *)

Section closed.
  Context (g : Graph) (Hg : Lawful g) (B : list N) (HB : odd_cycle g B).
  Context (b : N) (Hb : b ∈ g_nodes g -> b ∈ B).
  Context (g' : Graph) (Hg' : Lawful g').
  Context (Ha : forall x y, adj g' x y <-> made B b (g_edges g) x y).

  Lemma clique_contract x x0 : (x = b /\ x0 ∈ B \/ x <> b /\ x0 = x /\ x ∉ B) -> clique_at g x0 -> clique_at g' x.
  Proof.
    intros Hx Hcl.
    assert (Hout : forall y, reachable g' x y -> y <> b -> y ∉ B).
    { intros y Hy Hyb. destruct (rtc_inv_r _ _ Hy) as [<-|(w & _ & Hwy)]; [by destruct Hx as [[? _]|(_ & _ & ?)]|].
      destruct (decide (w = b)) as [->|Hwb].
      - by destruct (adj_b_down g Hg B b Hb g' Ha y Hwy) as (_ & ? & _).
      - by destruct (adj_out_down g Hg B b g' Ha w y Hwy) as (_ & _ & ?). }
    assert (Hdown : forall y, reachable g' x y -> exists y0, reachable g x0 y0 /\ (y = b /\ y0 ∈ B \/ y <> b /\ y0 = y)).
    { intros y Hy. apply (reach_down g Hg B HB b Hb g' Hg' Ha x y Hy x0). tauto. }
    intros u v Hu Hv Huv.
    destruct (Hdown u Hu) as (u0 & Hu0 & [[-> HuB]|[Hub ->]]), (Hdown v Hv) as (v0 & Hv0 & [[-> HvB]|[Hvb ->]]); [done|..].
    - apply (adj_b_up g Hg B b g' Ha u0 v); [done|by apply Hout|]. apply Hcl; [done|done|].
      intros ->. by apply (Hout v).
    - apply law_adj_sym; [done|]. apply (adj_b_up g Hg B b g' Ha v0 u); [done|by apply Hout|].
      apply Hcl; [done|done|]. intros ->. by apply (Hout u).
    - apply (adj_out_up g Hg B b g' Ha); [by apply Hcl|done|by apply Hout..].
  Qed.

  Lemma cycle_clique (c : list N) : clique_cycle g c <-> forall x, x ∈ c -> clique_at g x.
  Proof. split; [intros H x Hx u v; by apply H|intros H x u v Hx; by apply H]. Qed.

  Lemma calm_contract : calm_odd_cycles g -> calm_odd_cycles g'.
  Proof.
    intros Ht c Hc Hc3.
    assert (Hcout : forall x, x ∈ c -> x <> b -> x ∉ B).
    { intros x Hx Hxb.
      assert (Hin : exists y, adj g' y x).
      { destruct (cycle_from g' c x Hg' Hc Hx) as (D & _ & (_ & _ & _ & Hcl) & Hperm).
        destruct (last (x :: D)) as [y|] eqn:Ey; [|by apply last_None in Ey]. exists y. by apply Hcl. }
      destruct Hin as (w & Hwy). destruct (decide (w = b)) as [->|Hwb].
      - by destruct (adj_b_down g Hg B b Hb g' Ha x Hwy) as (_ & ? & _).
      - by destruct (adj_out_down g Hg B b g' Ha w x Hwy) as (_ & _ & ?). }
    destruct (odd_length B) as [[v Hv]|H3]; [apply HB| |].
    { destruct (loop_contract g Hg B HB b Hb g' Hg' Ha v c Hv Hc) as (c0 & Hc0 & Hl0 & Hmap & H1 & H2 & H3).
      destruct (Ht c0 Hc0) as [?|[?|[?|Hq]]];
        [by rewrite Hl0|left; auto|right; left; auto|right; right; left; auto|right; right; right].
      intros x u w Hx. destruct (Hmap x Hx) as (x0 & Hx0 & Hxx). apply (clique_contract x x0).
      - destruct Hxx as [?|[Hxb ->]]; [by left|right]. split_and!; auto.
      - intros u' w'. by apply Hq. }
    destruct (decide (b ∈ c)) as [Hbc|Hbc].
    - assert (Hcb : forall x, x ∈ c -> reachable g' b x).
      { intros x Hx. destruct (cycle_from g' c b Hg' Hc Hbc) as (D & _ & (_ & _ & Hp & _) & Hperm).
        rewrite <-Hperm in Hx. destruct (linked_path g' [] (b :: D) b x) as [_ Hl]; try done; [set_solver|].
        eapply rtc_subrel; [|exact Hl]. by intros a z [? _]. }
      destruct (Ht B HB H3) as [HP|[HL|[HD|HQ]]].
      + by destruct (pendant_no_through g Hg B b Hb g' Hg' Ha c HP Hc).
      + by destruct (lone_no_through g Hg B HB b Hb g' Hg' Ha c HL Hc).
      + right. right. left. destruct (dominant_reach g Hg B HB b Hb g' Hg' Ha HD) as (u & v & Huv). exists u, v.
        intros x y Hx Hy. destruct (Huv y) as [-> | ?]; [|by left|by right].
        eapply rtc_transitive; [|exact Hy]. by apply Hcb.
      + right. right. right. intros x u v Hx. apply (clique_at_reach g' b); [done|by apply Hcb|].
        assert (HBz : exists z, z ∈ B).
        { destruct B as [|z B']; [simpl in H3; lia|]. exists z. left. }
        destruct HBz as [z Hz]. apply (clique_contract b z); [by left|]. intros u' v'. by apply HQ.
    - destruct (cycle_down g Hg B b g' Ha c Hc Hbc) as [Hcg HcB].
      destruct (Ht c Hcg Hc3) as [HP|[HL|[HD|HQ]]].
      + left. by apply (pendant_contract g Hg B b Hb g' Hg' Ha).
      + right. left. by apply (lone_contract g Hg B HB b Hb g' Hg' Ha).
      + right. right. left. by apply (dominant_contract g Hg B HB b Hb g' Hg' Ha).
      + right. right. right. intros x u v Hx. apply (clique_contract x x).
        * right. split_and!; [by intros ->|done|by apply HcB].
        * intros u' v'. by apply HQ.
  Qed.
End closed.

Lemma covers_two g p path : covers g p path -> 2 <= length path.
Proof.
  intros [_ _ _ H _]. rewrite <-H. apply filter_length.
Qed.

Lemma path_lonely g path x : Lawful g -> is_path g path -> 2 <= length path -> x ∈ path -> exists y, adj g x y.
Proof.
  intros Hg Hpath Hlen (l & r & ->)%elem_of_list_split. rewrite app_length in Hlen. simpl in Hlen.
  apply is_path_app in Hpath as (_ & Hr & Hj). apply is_path_cons in Hr as [_ Hr].
  destruct r as [|y r].
  - destruct (last l) as [y|] eqn:E.
    + exists y. apply law_adj_sym; [done|]. by apply Hj.
    + apply last_None in E. subst. simpl in Hlen. lia.
  - exists y. by apply Hr.
Qed.

(** In a clique, the blossom is inserted as it is. *)
Lemma lift_front g B b rgt fuel path : Lawful g -> (forall x, x ∈ B -> x ∈ g_nodes g) ->
  (forall t z, head rgt = Some t -> z ∈ B -> adj g z t) -> rgt <> [] -> B <> [] ->
  b_lift fuel (mkBlossom b B) (b :: rgt) g = Ok path -> path = B ++ rgt.
Proof.
  intros Hg HBn Hadj Hr0 HB0 Hrun.
  unfold b_lift in Hrun. cbn [b_id b_path before] in Hrun.
  rewrite bool_decide_eq_true_2 in Hrun by done.
  cbn [length drop] in Hrun. rewrite ?drop_0 in Hrun. destruct rgt as [|t rgt]; [done|].
  unfold b_lift_right in Hrun. rewrite ?drop_0 in Hrun. change (index (t :: rgt) 0) with (Ok t) in Hrun.
  cbn [cbind b_path] in Hrun.
  destruct (last B) as [z|] eqn:Ez; [|by apply last_None in Ez].
  assert (HzB : z ∈ B) by (apply last_Some in Ez as [? ->]; apply elem_of_app; right; left).
  assert (Hzt : adj g z t) by (by apply Hadj).
  destruct fuel as [|fuel]; [done|].
  cbn [rotate_until] in Hrun. rewrite Ez in Hrun. cbn [expect_some cbind] in Hrun.
  destruct (edge_spec g Hg z t) as [Hz1 Hz2].
  { by apply HBn. }
  { by apply law_adj_node in Hzt. }
  rewrite Hz1 in Hrun. cbn [cbind] in Hrun. rewrite (proj2 Hz2 Hzt) in Hrun.
  cbn [cbind] in Hrun. by injection Hrun as <-.
Qed.

Theorem ap_calm fuel : forall g p iter tag path, Lawful g -> pairing_of g p -> calm_odd_cycles g ->
  hash_order_ok iter -> augmenting_path iter tag fuel g p = Ok (Some path) ->
  simple g path /\ covers g p path /\
  forall r, head (filter (fun x => p !! x = None) (g_nodes g)) = Some r -> clique_at g r ->
    head path = Some r \/ r ∉ path.
Proof.
  induction fuel as [|fuel IH]; intros g p iter tag path Hg Hp Hcalm Hit Hrun; [done|].
  destruct (forest_start g p Hg) as (f & Hf & HF).
  rewrite (ap_unfold g p Hp iter tag fuel f Hit Hf) in Hrun.
  destruct (search_v (S fuel) g p f (marker0 p)) as [r| | |] eqn:Es; try done. cbn [cbind] in Hrun.
  destruct r as [|v pw f']; [done|].
  assert (Hnodes0 : f_nodes f = filter (fun x => p !! x = None) (g_nodes g)).
  { destruct (add_roots_spec p (g_nodes g) f_new) as (f1 & Hf1 & Hn1 & _); [apply Hg|done|].
    rewrite Hf in Hf1. injection Hf1 as <-. exact Hn1. }
  destruct (search_root g p Hg Hp (S fuel) f (marker0 p) v pw f' []) as (Hfound & Hroot);
    [done|apply marker0_inv|by rewrite app_nil_r|done|].
  (* it is enough to settle the first root if it is [v] *)
  assert (Hfirst : simple g path -> covers g p path -> (p !! v = None -> clique_at g v -> head path = Some v \/ v ∉ path) ->
    simple g path /\ covers g p path /\ forall r,
      head (filter (fun x => p !! x = None) (g_nodes g)) = Some r -> clique_at g r ->
      head path = Some r \/ r ∉ path).
  { intros Hs Hc Hh. split; [done|]. split; [done|]. intros r Hr Hcl.
    destruct (decide (r ∈ path)) as [Hin|]; [|by right].
    assert (v = r) as ->; [|by apply Hh; [apply Hroot|]].
    apply (search_first g p Hg Hp (S fuel) f v pw f' r); try done.
    apply (path_lonely g path r Hg); [apply Hs|by apply (covers_two g p)|done]. }
  assert (HF' : FInv g p f') by apply Hfound.
  assert (Hve : even_in (f_parents f') v) by apply Hfound.
  destruct (found_outcome g p Hg Hp v pw f' Hfound)
    as [pv Hcont Hau Hpath Hnodes Hlen Hpv|m Hcont _ _ _|B c l2 b d HB Hb Hlt _ Hwf Hn Ha Hcont _ (pv & Hpv & Hbp)].
  - rewrite Hcont in Hrun. injection Hrun as <-.
    apply Hfirst; [|by apply augments_covers|].
    + split_and!; [apply Hau|done|done].
    + intros Hv _. pose proof (root_path g p f' v pv HF' Hve Hv Hpv) as ->. by left.
  - by rewrite Hcont in Hrun.
  - rewrite Hcont in Hrun by done. set (g' := as_graph d) in *.
    set (p' := b_contract_pairing (mkBlossom b B) (p_edges_of (map_to_list p))) in *.
    assert (Hg' : Lawful g') by (by apply wf_lawful).
    assert (Hp' : pairing_of g' p') by (by apply (p'_pairing g p Hg Hp B c l2 HB b Hb g' Ha)).
    pose proof (bl_cycle _ _ _ _ _ HB) as HBc.
    destruct (augmenting_path iter (2 :: tag) fuel g' p') as [[path0|]| | |] eqn:E0; try done.
    cbn [cbind] in Hrun.
    destruct (IH g' p' iter (2 :: tag) path0) as ((Hnd0 & Hp0 & Hin0) & Hcov0 & Hfst0); try done.
    { by apply (calm_contract g Hg B HBc b Hb g' Hg' Ha). }
    destruct (lift_spec g Hg B HBc (bl_nodes _ _ _ _ _ HB) b Hb
                g' Hn) with (path := path0) as (nl & path' & [_ Hlift] & Hsimple & Havoid & Hne' & Hend & Hthr); try done.
    { intros x y Hxy Hxb Hyb. by apply (adj_out_down g Hg B b g' Ha). }
    { intros y Hy. destruct (adj_b_down g Hg B b Hb g' Ha y) as (_ & _ & x & Hx & Hxy); [|by eauto].
      destruct Hy as [Hy|Hy]; [done|]. by apply law_adj_sym. }
    assert (path' = path) as ->.
    { destruct (Hlift (S fuel)) as [E|E]; rewrite E in Hrun; [done|]. by injection Hrun as <-. }
    assert (Hrun' : b_lift (S fuel) (mkBlossom b B) path0 g = Ok path).
    { destruct (Hlift (S fuel)) as [E|E]; rewrite E in Hrun; [done|]. done. }
    (* what happens in a clique component *)
    assert (HvB : head B = Some v \/ exists l, pv = v :: l /\ l <> []).
    { pose proof (fpath_head _ _ _ Hpv) as Hh. destruct pv as [|v' l]; [done|]. injection Hh as ->.
      destruct l as [|y l]; [left|right; by exists (y :: l)].
      cbn [blossom_path] in Hbp. destruct (before v pw); [|done]. by injection Hbp as <-. }
    assert (Hclique : p !! v = None -> clique_at g v ->
      (b ∉ path0 /\ v ∉ path0) \/ exists rgt, path0 = b :: rgt /\ path = B ++ rgt /\ head path = Some v).
    { intros Hv Hcl. pose proof (root_path g p f' v pv HF' Hve Hv Hpv) as ->.
      destruct HvB as [HBv|(l & [= <-] & ?)]; [|done].
      assert (HvB : v ∈ B) by (destruct B; [done|]; injection HBv as ->; left).
      assert (c = v) as ->.
      { destruct (decide (v = c)) as [->|Hvc]; [done|].
        destruct (bl_mates _ _ _ _ _ HB v HvB Hvc) as (y & _ & Hy). congruence. }
      assert (Hb0 : p' !! b = None).
      { unfold p'. by rewrite (p'_b g p Hg Hp B v l2 HB b Hb (map_to_list p)). }
      assert (Hvp : v ∉ path0).
      { intros Hvp. apply Hin0 in Hvp. rewrite Hn in Hvp.
        apply elem_of_cons in Hvp as [->|[? _]%elem_of_list_filter]; [|done].
        specialize (Hlt b (bl_nodes _ _ _ _ _ HB _ HvB)). lia. }
      destruct (Hfst0 b) as [Hhead|Hout]; [| | |by left].
      { rewrite Hn, filter_cons, decide_True by done. done. }
      { apply (clique_contract g Hg B HBc b Hb g' Hg' Ha b v); [by left|done]. }
      right. destruct path0 as [|b0 rgt]; [done|]. injection Hhead as ->. exists rgt. split; [done|].
      pose proof (covers_two _ _ _ Hcov0) as Hlen0.
      assert (path = B ++ rgt) as Hpath'.
      { apply (lift_front g B b rgt (S fuel)); [done|apply HB| | | |done].
        - intros t z Ht HzB. apply is_path_cons in Hp0 as [_ Hbt]. apply Hbt in Ht.
          destruct (adj_b_down g Hg B b Hb g' Ha t Ht) as (_ & HtB & x & Hx & Hxt).
          apply Hcl.
          + by apply (B_reach g Hg B HBc b Hb g' Hg' Ha).
          + eapply rtc_r; [by apply (B_reach g Hg B HBc b Hb g' Hg' Ha v x)|done].
          + by intros ->.
        - intros ->. simpl in Hlen0. lia.
        - by intros ->. }
      split; [done|]. rewrite Hpath'. by destruct B. }
    apply Hfirst; [done| |].
    2:{ intros Hv Hcl. destruct (Hclique Hv Hcl) as [[Hbp' Hvp]|(rgt & _ & _ & Hh)]; [|by left].
        right. by rewrite (Havoid Hbp'). }
    destruct (lift_good g p B c l2 b g' (map_to_list p) path0 path Hg Hp HB Hb Hg' Hn Ha)
      as [Hgood _]; try done; [apply Hsimple|].
    destruct (odd_length B) as [[z Hz]|H3]; [apply HBc| |].
    { apply Hgood; [|done]. intros H3. rewrite Hz in H3. simpl in H3. lia. }
    destruct (Hcalm B HBc H3) as [?|[?|[?|HQ]]]; [apply Hgood; tauto..|].
    (* a clique component *)
    assert (HvB' : v ∈ B).
    { destruct pv as [|v' l]; [by inversion Hpv|]. pose proof (fpath_head _ _ _ Hpv) as [= ->].
      cbn [blossom_path] in Hbp. destruct (before v pw); [injection Hbp as <-; left|].
      destruct (blossom_path l pw); [|done]. injection Hbp as <-. left. }
    assert (Hcl : clique_at g v) by (intros u w; by apply HQ).
    pose proof (Hroot Hcl) as Hv.
    destruct (Hclique Hv Hcl) as [[Hbp' _]|(rgt & Hp0' & Hpath' & _)].
    + rewrite (Havoid Hbp').
      by eapply (covers_avoid g p Hg Hp B c l2 HB b Hb g' Hg' Hn Ha (map_to_list p) (reflexivity _)).
    + eapply (covers_end g p Hg Hp B c l2 HB b Hb g' Hg' Hn Ha (map_to_list p) (reflexivity _)
                 path0 path [] rgt) with (C := B); try done. apply Hsimple.
Qed.

Lemma calm_augment g iter p path : Lawful g -> hash_order_ok iter -> calm_odd_cycles g ->
  pairing_of g p -> search_is iter g p (Some path) ->
  exists q, p_augment p path = Ok q /\ pairing_of g q /\ p_order q = p_order p + 2 /\
    forall x, is_Some (p !! x) -> is_Some (q !! x).
Proof.
  intros Hg Hit Hcl Hp [n Hs]. specialize (Hs n [] (le_n _)).
  destruct (ap_calm n g p iter [] path Hg Hp Hcl Hit Hs) as (Hsimple & Hcov & _).
  destruct (covers_augment g p path (proj1 Hp) Hcov) as (q & Hq & Hdom & _ & Hord).
  exists q. split_and!; [done|by eapply simple_augment|done|]. intros x Hx. apply Hdom. by left.
Qed.

Lemma quiet_calm g : quiet_odd_cycles g -> calm_odd_cycles g.
Proof. intros H c Hc H3. destruct (H c Hc H3) as [?|[?|?]]; [left|right; left|right; right; left]; done. Qed.

Lemma transitive_calm g : Lawful g -> adjacency_transitive g -> calm_odd_cycles g.
Proof.
  intros Hg H c _ _. right. right. right.
  assert (Hr : forall x y, reachable g x y -> x <> y -> adj g x y).
  { intros x y Hxy. induction Hxy as [|x y z Hxy Hyz IH]; [done|]. intros Hne.
    destruct (decide (y = z)) as [->|Hyz']; [done|]. apply (H x y z); auto. }
  intros x u v _ Hu Hv Huv. apply Hr; [|done].
  eapply rtc_transitive; [|exact Hv]. by apply reachable_sym.
Qed.

Lemma calm_total g iter p : Lawful g -> hash_order_ok iter -> pairing_of g p -> calm_odd_cycles g -> id_room g ->
  exists paths q, augmentations iter g p paths q /\ p_order q = p_order p + 2 * length paths /\
    forall x, is_Some (p !! x) -> is_Some (q !! x).
Proof.
  intros Hg Hit Hp Ht Hroom. apply (gains_total g Hg iter Hit p); [|done|by left].
  intros p0 path Hp0 Hs. by apply (calm_augment g iter).
Qed.

(** What the searches of [maximum_matching] that find nothing cost. *)
From Verif Require Import Outcome GraphModel TraversalModel ComponentsModel PairingModel Spec SpecWork SpecLast
  GraphProofs EditProofs ConvertProofs EqProofs TraversalProofs PathLemmas PairingProofs MatchTheory MaximumModel WorkModel
  ForestProofs BlossomProofs ContractProofs LiftProofs TameProofs MaximumProofs WorkProofs.

(** ** Counting the calls of one search *)

Lemma filter_keep {A} (P : A -> Prop) `{!forall x, Decision (P x)} (l : list A) :
  (forall x, x ∈ l -> P x) -> filter P l = l.
Proof.
  intros Hl. induction l as [|x l IH]; [done|]. rewrite filter_cons, decide_True by (apply Hl; left).
  f_equal. apply IH. intros y Hy. apply Hl. by right.
Qed.

Definition total {A} (c : A -> nat) (D : list A) : nat := sum_list (c <$> D).

Lemma total_cons {A} (c : A -> nat) x D : total c (x :: D) = c x + total c D.
Proof. done. Qed.
Lemma total_app {A} (c : A -> nat) D D' : total c (D ++ D') = total c D + total c D'.
Proof. induction D as [|x D IH]; [done|]. rewrite <-app_comm_cons, !total_cons, IH. lia. Qed.
Lemma total_ext {A} (c c' : A -> nat) D : (forall x, x ∈ D -> c x = c' x) -> total c D = total c' D.
Proof.
  intros H. induction D as [|x D IH]; [done|]. rewrite !total_cons, IH, H; [done|left|].
  intros y Hy. apply H. by right.
Qed.
Lemma total_perm {A} (c : A -> nat) D D' : D ≡ₚ D' -> total c D = total c D'.
Proof.
  induction 1 as [|x D D' _ IH|x y D|D1 D2 D3 _ IH1 _ IH2]; [done|by rewrite !total_cons, IH| |congruence].
  rewrite !total_cons. lia.
Qed.
Lemma total_zero {A} (c : A -> nat) D : (forall x, x ∈ D -> c x = 0) -> total c D = 0.
Proof.
  intros H. induction D as [|x D IH]; [done|]. rewrite total_cons, IH, H; [done|left|].
  intros y Hy. apply H. by right.
Qed.
Lemma total_split {A} (c c' : A -> nat) D : total (fun x => c x + c' x) D = total c D + total c' D.
Proof. induction D as [|x D IH]; [done|]. rewrite !total_cons, IH. lia. Qed.

(** One element counts one less, the others the same. *)
Lemma total_drop (c c' : N -> nat) v D : NoDup D -> v ∈ D -> c v = S (c' v) ->
  (forall x, x ∈ D -> x <> v -> c x = c' x) -> total c D = S (total c' D).
Proof.
  intros Hnd (D1 & D2 & ->)%elem_of_list_split Hv Hx.
  apply NoDup_app in Hnd as (_ & H1 & Hnd). apply NoDup_cons in Hnd as [H2 _].
  rewrite !total_app, !total_cons, Hv.
  rewrite (total_ext c c' D1), (total_ext c c' D2); [lia| |].
  - intros x Hin. apply Hx; [set_solver|]. intros ->. done.
  - intros x Hin. apply Hx; [set_solver|]. intros ->. apply (H1 v Hin). left.
Qed.

Section count.
  Context (g : Graph) (p : Pairing) (Hg : Lawful g) (D : list N) (HD : NoDup D)
    (Hin : forall v, v ∈ D -> v ∈ g_nodes g) (Hind : forall u v, u ∈ D -> v ∈ D -> ~ adj g u v).

  (** Neighbors still to be returned by [some_w], and nodes by [some_v]. *)
  Definition to_ask (m : Marker) : nat := total (fun v => length (pending g v m)) D.
  Definition to_mark (m : Marker) : nat := total (fun v => if bool_decide (v ∈ mk_nodes m) then 0 else 1) D.

  Lemma pending_same v m m' : (forall w, hedge m' v w <-> hedge m v w) -> pending g v m' = pending g v m.
  Proof using.
    intros H. unfold pending. destruct (g_neighbors g v) as [l| | |]; [|done..].
    induction l as [|w l IH]; [done|]. rewrite !filter_cons, IH. specialize (H w). unfold hedge in H.
    replace (mk_has_edge m' v w) with (mk_has_edge m v w); [done|].
    destruct (mk_has_edge m' v w), (mk_has_edge m v w); try done; [by apply H|symmetry; by apply H].
  Qed.

  Lemma pending_drop v w m m' : v ∈ g_nodes g -> v ∈ D -> w ∈ pending g v m ->
    (forall x, hedge m' v x <-> hedge m v x \/ x = w) ->
    length (pending g v m) = S (length (pending g v m')).
  Proof using Hg Hind.
    intros Hv HvD Hw Hm'. unfold pending in *. destruct (law_neighbors g Hg v Hv) as (l & El & Hnd).
    rewrite El in *. apply elem_of_list_filter in Hw as [Hw Hwl].
    assert (Hnv : v ∉ l). { intros Hvl. apply (Hind v v HvD HvD). by exists l. }
    rewrite filter_keep in Hnd by (intros x Hx ->; done).
    apply elem_of_list_split in Hwl as (l1 & l2 & ->).
    apply NoDup_app in Hnd as (_ & H1 & Hnd). apply NoDup_cons in Hnd as [H2 _].
    assert (Hsame : forall l : list N, w ∉ l -> filter (fun x => mk_has_edge m' v x = false) l =
                          filter (fun x => mk_has_edge m v x = false) l).
    { clear -Hm'. induction l as [|x l IH]; intros Hx; [done|]. apply not_elem_of_cons in Hx as [Hx Hl].
      rewrite !filter_cons, (IH Hl). specialize (Hm' x). unfold hedge in Hm'.
      destruct (mk_has_edge m' v x), (mk_has_edge m v x); try done; exfalso; naive_solver. }
    rewrite !filter_app, !filter_cons, !app_length.
    rewrite (decide_True (P := mk_has_edge m v w = false)) by done.
    rewrite (decide_False (P := mk_has_edge m' v w = false)).
    2:{ assert (hedge m' v w) by (apply Hm'; by right). unfold hedge in *. congruence. }
    rewrite !Hsame; [cbn [length]; lia|done|]. intros Hx. apply (H1 w Hx). left.
  Qed.

  Lemma to_ask_mark v w m m' : v ∈ D -> w ∈ pending g v m -> mk_mark_edge m v w = Ok m' ->
    to_ask m = S (to_ask m') /\ mk_nodes m' = mk_nodes m.
  Proof using Hg HD Hin Hind.
    intros Hv Hw Hm'. pose proof Hw as Hw0. apply elem_of_pending in Hw0 as [Hvw Hn].
    destruct (mark_edge_ok m v w Hn) as (m1 & Hm1 & Hnodes & He). rewrite Hm' in Hm1. injection Hm1 as <-.
    split; [|done].
    assert (HwD : w ∉ D) by (intros H; by apply (Hind v w)).
    apply (total_drop _ _ v); [done|done| |].
    - eapply pending_drop; [by apply Hin|done|done|]. intros x. rewrite He. split; [|tauto].
      intros [?|[[_ ?]|[-> ->]]]; [tauto|tauto|done].
    - intros x HxD Hxv. f_equal. symmetry. apply pending_same. intros y. rewrite He. split; [|tauto].
      intros [?|[[-> _]|[-> _]]]; [done|done|done].
  Qed.

  Lemma search_w_count fuel : forall v f m c f' m', v ∈ D ->
    search_w_work fuel v g p f m = (c, Ok (Exhausted f' m')) ->
    c + to_ask m' = 1 + to_ask m /\ mk_nodes m' = mk_nodes m.
  Proof using Hg HD Hin Hind.
    induction fuel as [|fuel IH]; intros v f m c f' m' Hv; [done|]. cbn [search_w_work].
    rewrite (some_w_spec g Hg) by auto. cbn [charge].
    destruct (pending g v m) as [|w rest] eqn:Ep; cbn [head].
    { cbn [fst snd]. intros [= <- _ <-]. done. }
    assert (Hwp : w ∈ pending g v m) by (rewrite Ep; left).
    assert (Hgo : forall F mk, mk = mk_mark_edge m v w ->
      charge 0 mk (fun m1 => search_w_work fuel v g p F m1) = (c - 1, Ok (Exhausted f' m')) -> 1 <= c ->
      c + to_ask m' = 1 + to_ask m /\ mk_nodes m' = mk_nodes m).
    { intros F mk -> H Hc. destruct (mk_mark_edge m v w) as [m1|e|e|] eqn:Em; cbn [charge] in H; try done.
      destruct (to_ask_mark v w m m1 Hv Hwp Em) as [Ha Hn].
      rewrite (surjective_pairing (search_w_work fuel v g p F m1)) in H. cbn [fst snd Nat.add] in H.
      injection H as H1 H2.
      destruct (IH v F m1 (c - 1) f' m' Hv) as [H3 H4].
      { rewrite (surjective_pairing (search_w_work fuel v g p F m1)). congruence. }
      split; [lia|congruence]. }
    destruct (f_path f w) as [[path|]|e|e|]; cbn [charge fst snd]; try done.
    - destruct (Nat.odd (length path)); cbn [fst snd]; [done|]. intros H.
      apply (Hgo f _ eq_refl); [|injection H; lia].
      rewrite (surjective_pairing (charge _ _ _)). injection H as <- ->. f_equal. lia.
    - destruct (f_add_edge f v w) as [f1|e|e|]; cbn [charge fst snd]; try done.
      destruct (p_mate p w) as [k|e|e|]; cbn [charge fst snd]; try done.
      destruct (f_add_edge f1 w k) as [f2|e|e|]; cbn [charge fst snd]; try done. intros H.
      apply (Hgo f2 _ eq_refl); [|injection H; lia].
      rewrite (surjective_pairing (charge _ _ _)). injection H as <- ->. f_equal. lia.
  Qed.
  Lemma search_v_count fuel : forall f m c f' m', (forall v, v ∈ mk_nodes m' -> v ∈ D) ->
    search_v_work fuel g p f m = (c, Ok (Exhausted f' m')) ->
    c + to_ask m' + to_mark m' = to_ask m + to_mark m /\ forall v, v ∈ mk_nodes m -> v ∈ mk_nodes m'.
  Proof using Hg HD Hin Hind.
    induction fuel as [|fuel IH]; intros f m c f' m' HmD; [done|]. rewrite search_v_unfold.
    destruct (some_v f m) as [[v|]|e|e|]; cbn [charge]; [|by intros [= <- _ <-]|done..]. cbv zeta.
    rewrite (surjective_pairing (search_w_work (S fuel) v g p f m)). cbn [fst snd].
    destruct (search_w_work (S fuel) v g p f m) as [cw [[f1 m1|v' pw f1]|e|e|]] eqn:Ew; cbn [charge fst snd]; try done.
    unfold mk_mark_node. case_bool_decide as Hv1; cbn [charge fst snd]; [done|].
    set (m2 := mkMarker ({[v]} ∪ mk_nodes m1) (mk_edges m1)).
    destruct (search_v_work fuel g p f1 m2) as [cr r] eqn:Er. cbn [fst snd Nat.add]. intros [= <- ->].
    destruct (IH f1 m2 cr f' m' HmD Er) as [H1 H2].
    assert (Hv2 : forall x, x ∈ mk_nodes m2 <-> x = v \/ x ∈ mk_nodes m1).
    { intros x. unfold m2. cbn [mk_nodes]. by rewrite elem_of_union, elem_of_singleton. }
    assert (HvD : v ∈ D) by (apply HmD, H2, Hv2; by left).
    destruct (search_w_count (S fuel) v f m cw f1 m1 HvD Ew) as [H3 H4].
    assert (Ha : to_ask m2 = to_ask m1) by done.
    assert (Hm : to_mark m = S (to_mark m2)).
    { apply (total_drop _ _ v); [done|done| |].
      - rewrite bool_decide_eq_false_2 by congruence. rewrite bool_decide_eq_true_2; [done|]. apply Hv2. by left.
      - intros x _ Hx. apply (f_equal (fun b : bool => if b then _ else _)). apply bool_decide_ext.
        rewrite Hv2, H4. tauto. }
    split; [lia|]. intros x Hx. apply H2, Hv2. right. congruence.
  Qed.
End count.

(** ** Nodes some maximum matching leaves out *)

Lemma endpoints_perm M M' : M ≡ₚ M' -> endpoints M ≡ₚ endpoints M'.
Proof. intros H. unfold endpoints. by rewrite H. Qed.

Section spare.
  Context (g : Graph) (p : Pairing) (Hg : Lawful g) (Hp : pairing_of g p).
  Context (f : Forest) (HF : FInv g p f).
  Notation P := (f_parents f).

  (** A matching as large as [p] that leaves the even node [v] out and differs
      from [p] on the path of [v] only. *)
  Lemma even_switch v l : fpath P v l -> even_in P v ->
    exists M, matching g M /\ 2 * length M = p_order p /\ v ∉ endpoints M /\
      forall a b, p !! a = Some b -> a ∉ l -> b ∉ l -> (a, b) ∈ M \/ (b, a) ∈ M.
  Proof using Hg Hp HF.
    remember (length l) as n eqn:Hn. revert v l Hn. induction n as [n IH] using lt_wf_ind. intros v l Hn Hl Hv.
    assert (Hbase : p !! v = None ->
      exists M, matching g M /\ 2 * length M = p_order p /\ v ∉ endpoints M /\
      forall a b, p !! a = Some b -> a ∉ l -> b ∉ l -> (a, b) ∈ M \/ (b, a) ∈ M).
    { intros Hpv. exists (p_edges_of (map_to_list p)). split_and!.
      - by eapply pairing_matching.
      - symmetry. by apply p_edges_length; [apply Hp|].
      - rewrite (p_edges_endpoints p (proj1 Hp) _ (reflexivity _)), Hpv. by intros [? ?].
      - intros a b Hab _ _. destruct (proj1 Hp _ _ Hab) as [Hba Hne].
        rewrite !(p_edges_elem p _ (reflexivity _)). destruct (decide (a < b)%N); [by left|right]. split; [done|lia]. }
    destruct Hv as [[y|] Hv].
    2:{ apply Hbase. by apply (fi_root _ _ _ HF) in Hv as (_ & ? & _). }
    pose proof (fpath_nodup _ _ _ Hl) as Hnd.
    inversion Hl as [? ? Hl'|? y' ? l1 Hl' Hy]; subst; [congruence|]. assert (y' = y) as -> by congruence.
    apply (fi_even _ _ _ HF) in Hv as (Hvy & z & Hz).
    inversion Hy as [? ? Hy'|? z' ? l2 Hy' Hl2]; subst; [congruence|]. assert (z' = z) as -> by congruence.
    apply (fi_odd _ _ _ HF) in Hz as (Hzy & Hze & _).
    apply NoDup_cons in Hnd as [Hvl Hnd]. apply NoDup_cons in Hnd as [Hyl _].
    destruct (IH (length l2)) with (v := z) (l := l2) as (M & [HMa HMn] & Hlen & HzM & Hrest); [simpl; lia|done|done|done|].
    assert (Hvl2 : v ∉ l2) by (intros ?; apply Hvl; by right).
    assert (Hzl2 : z ∈ l2) by (pose proof (fpath_head _ _ _ Hl2); destruct l2; simplify_eq/=; left).
    assert (exists e M', M ≡ₚ e :: M' /\ endpoints [e] ≡ₚ [v; y]) as (e & M' & HM & He).
    { destruct (Hrest v y Hvy Hvl2 Hyl) as [H|H]; apply elem_of_Permutation in H as [M' HM].
      - by exists (v, y), M'.
      - exists (y, v), M'. split; [done|]. apply perm_swap. }
    assert (Hend : endpoints M ≡ₚ v :: y :: endpoints M').
    { rewrite (endpoints_perm _ _ HM). change (e :: M') with ([e] ++ M'). by rewrite endpoints_app, He. }
    assert (Hsub : forall x, x ∈ M' -> x ∈ M) by (intros x Hx; rewrite HM; by right).
    rewrite Hend in HMn, HzM. apply NoDup_cons in HMn as [H1 HMn]. apply NoDup_cons in HMn as [H2 HMn].
    exists ((z, y) :: M'). split_and!.
    - split.
      + intros a b [[= -> ->]|Hab]%elem_of_cons; [done|]. apply HMa. auto.
      + change (endpoints ((z, y) :: M')) with (z :: y :: endpoints M'). apply NoDup_cons.
        split; [set_solver|]. apply NoDup_cons. split; [done|done].
    - rewrite <-Hlen. apply Permutation_length in HM. simpl in *. lia.
    - change (endpoints ((z, y) :: M')) with (z :: y :: endpoints M').
      rewrite !not_elem_of_cons. split_and!; [congruence|apply (proj1 Hp) in Hvy as [_ ?]; congruence|set_solver].
    - intros a b Hab Ha Hb.
      assert (Hvb : forall a b, p !! a = Some b -> a ∉ v :: y :: l2 -> b ∉ v :: y :: l2 -> (a, b) ∈ M -> (a, b) ∈ M').
      { intros a0 b0 _ Ha0 Hb0 H. rewrite HM in H. apply elem_of_cons in H as [<-|?]; [|done]. exfalso.
        assert (a0 ∈ [v; y]) by (rewrite <-He; left). set_solver. }
      destruct (proj1 Hp _ _ Hab) as [Hba _].
      destruct (Hrest a b Hab) as [H|H]; [set_solver|set_solver| |]; [left|right]; right; eapply Hvb; eauto.
  Qed.
End spare.

Section exhausted.
  Context (g : Graph) (p : Pairing) (Hg : Lawful g) (Hp : pairing_of g p).
  Context (f : Forest) (m : Marker) (HF : FInv g p f) (HM : MInv g p (f_parents f) m)
    (Hall : forall v, even_in (f_parents f) v -> v ∈ mk_nodes m).

  Lemma even_spared v : even_in (f_parents f) v -> spared g v.
  Proof using Hg Hp HF HM Hall.
    intros Hv. split; [apply (finv_nodes g p f Hg Hp HF); destruct Hv; by eexists|].
    destruct (fi_path _ _ _ HF v) as [l Hl]; [destruct Hv; by eexists|].
    destruct (even_switch g p Hg Hp f HF v l Hl Hv) as (M & HMg & Hlen & HvM & _).
    exists M. split; [|done]. split; [done|]. intros M' HM'.
    destruct (exhausted_cert g p Hg Hp f m HF HM Hall) as (O & Cs & Hc).
    destruct (cert_maximum g p O Cs _ Hp (reflexivity _) Hc) as [_ H]. specialize (H M' HM').
    pose proof (p_edges_length p (proj1 Hp) _ (reflexivity (map_to_list p))). lia.
  Qed.

  Lemma spared_even v : spared g v -> even_in (f_parents f) v.
  Proof using Hg Hp HF HM Hall.
    intros (Hv & M & [HMg HMmax] & HvM).
    destruct (exhausted_shape g p Hg Hp f m HF HM Hall) as (O & U & E & [H1 H2 H3] & HO & HE & HU & _).
    pose proof (HMmax _ (pairing_matching g p _ Hp (reflexivity _))) as Hle.
    pose proof (p_edges_length p (proj1 Hp) _ (reflexivity (map_to_list p))) as Hlen.
    assert (Hne : forall a b, (a, b) ∈ M -> a <> b /\ a <> v /\ b <> v /\ adj g a b).
    { intros a b Hab. split_and!; [by eapply matching_ne| | |by apply HMg].
      - intros ->. apply HvM, elem_of_endpoints. exists (v, b). split; [done|by left].
      - intros ->. apply HvM, elem_of_endpoints. exists (a, v). split; [done|by right]. }
    rewrite <-H1 in Hv. cbn [concat] in Hv.
    apply elem_of_app in Hv as [Hv|[Hv|Hv]%elem_of_app].
    - exfalso. apply elem_of_list_split in Hv as (O1 & O2 & ->).
      assert (length M <= length (O1 ++ O2) + halves (U :: ((fun x : N => [x]) <$> E))).
      { apply cover_bound; [apply HMg|]. intros a b Hab. destruct (Hne a b Hab) as (? & ? & ? & Hadj).
        destruct (H2 a b) as [Ha|[Hb|?]]; [done|done|left|right; left|by right; right].
        - rewrite !elem_of_app, elem_of_cons in *. tauto.
        - rewrite !elem_of_app, elem_of_cons in *. tauto. }
      rewrite !app_length in *. cbn [length] in *. lia.
    - exfalso. apply elem_of_list_split in Hv as (U1 & U2 & ->).
      assert (length M <= length O + halves ((U1 ++ U2) :: ((fun x : N => [x]) <$> E))).
      { apply cover_bound; [apply HMg|]. intros a b Hab. destruct (Hne a b Hab) as (? & ? & ? & Hadj).
        destruct (H2 a b) as [Ha|[Hb|(C & HC & Ha & Hb)]]; [done|done|by left|by right; left|right; right].
        apply elem_of_cons in HC as [->|HC].
        - exists (U1 ++ U2). split; [left|]. rewrite !elem_of_app, !elem_of_cons in *. tauto.
        - exists C. split; [by right|done]. }
      change (halves (?x :: ?l)) with (length x / 2 + halves l) in *. rewrite !app_length in *. cbn [length] in *.
      apply Nat.even_spec in HU as [k Hk].
      assert (E1 : (length U1 + S (length U2)) / 2 = k) by (rewrite Hk, Nat.mul_comm; by apply Nat.div_mul).
      assert (E2 : (length U1 + length U2) / 2 < k) by (apply Nat.div_lt_upper_bound; lia). lia.
    - assert (Hc : concat ((fun x : N => [x]) <$> E) = E).
      { clear. induction E as [|x l IH]; [done|]. rewrite fmap_cons. cbn [concat]. by rewrite IH. }
      rewrite Hc in Hv. by apply HE.
  Qed.

  (** What an exhausted search costs, from the start. *)
  Lemma exhausted_count fuel f0 c D : NoDup D -> (forall v, v ∈ D <-> spared g v) ->
    search_v_work fuel g p f0 (marker0 p) = (c, Ok (Exhausted f m)) ->
    c + p_order p = g_order g + degrees g D.
  Proof using Hg Hp HF HM Hall.
    intros HD HDs Hs.
    assert (HDe : forall v, v ∈ D <-> even_in (f_parents f) v).
    { intros v. rewrite HDs. split; [apply spared_even|apply even_spared]. }
    destruct (exhausted_shape g p Hg Hp f m HF HM Hall) as (_ & _ & _ & _ & _ & _ & _ & Hee).
    assert (Hin : forall v, v ∈ D -> v ∈ g_nodes g) by (intros v Hv; by apply HDs in Hv as [? _]).
    assert (Hind : forall u v, u ∈ D -> v ∈ D -> ~ adj g u v).
    { intros u v Hu Hv Huv. apply HDe in Hu, Hv. apply (even_odd_excl _ v Hv). by apply (Hee u v). }
    assert (HmD : forall v, v ∈ mk_nodes m -> v ∈ D).
    { intros v Hv. apply HDe. by apply (mi_node _ _ _ _ HM) in Hv as [? _]. }
    destruct (search_v_count g p Hg D HD Hin Hind fuel f0 (marker0 p) c f m HmD Hs) as [Hc _].
    assert (Z1 : to_ask g D m = 0).
    { apply total_zero. intros v Hv%HDe%Hall. apply (mi_node _ _ _ _ HM) in Hv as [_ Hv].
      destruct (pending g v m) as [|w l] eqn:E; [done|].
      assert (Hw : w ∈ pending g v m) by (rewrite E; left). apply elem_of_pending in Hw as [Hw Hn].
      exfalso. by apply Hn, Hv. }
    assert (Z2 : to_mark D m = 0).
    { apply total_zero. intros v Hv%HDe%Hall. by rewrite bool_decide_eq_true_2. }
    rewrite Z1, Z2 in Hc.
    set (deg := fun v => match g_degree g v with Ok n => n | _ => 0 end).
    set (free := fun v => if bool_decide (p !! v = None) then 1 else 0).
    assert (Hone : to_ask g D (marker0 p) + to_mark D (marker0 p) = total deg D + total free D).
    { unfold to_ask, to_mark. rewrite <-!total_split. apply total_ext. intros v Hv.
      rewrite (bool_decide_eq_false_2 (v ∈ mk_nodes (marker0 p))) by (apply not_elem_of_empty).
      destruct (law_neighbors g Hg v (Hin v Hv)) as (l & El & Hnd).
      assert (Hnv : v ∉ l). { intros Hvl. apply (Hind v v Hv Hv). by exists l. }
      rewrite filter_keep in Hnd by (intros x Hx ->; done).
      assert (Hdeg : deg v = length l) by (unfold deg; by rewrite (law_degree g Hg v l El)).
      rewrite Hdeg. unfold free. destruct (p !! v) as [y|] eqn:Ey.
      - rewrite bool_decide_eq_false_2 by done. rewrite Nat.add_0_r.
        assert (Hyl : y ∈ l).
        { apply Hp in Ey as (l' & Hl' & Hy). congruence. }
        unfold pending. rewrite El. apply elem_of_list_split in Hyl as (l1 & l2 & ->).
        apply NoDup_app in Hnd as (_ & G1 & Hnd). apply NoDup_cons in Hnd as [G2 _].
        assert (Hx : forall x, mk_has_edge (marker0 p) v x = false <-> x <> y).
        { intros x. rewrite <-not_true_iff_false. unfold not. fold (hedge (marker0 p) v x).
          rewrite hedge_alt. cbn [mk_edges marker0]. split.
          - intros H ->. apply H. exists [y]. rewrite lookup_fmap, Ey. split; [done|left].
          - intros H (l & Hl & Hx). rewrite lookup_fmap, Ey in Hl. cbn in Hl. simplify_eq.
            apply elem_of_list_singleton in Hx. done. }
        rewrite filter_app, filter_cons, !app_length. rewrite decide_False by (rewrite Hx; tauto).
        rewrite !filter_keep.
        + cbn [length]. lia.
        + intros x Hxl. apply Hx. intros ->. done.
        + intros x Hxl. apply Hx. intros ->. apply (G1 y Hxl). left.
      - rewrite bool_decide_eq_true_2 by done. f_equal. unfold pending. rewrite El.
        rewrite filter_keep; [done|]. intros x _. apply not_true_iff_false. fold (hedge (marker0 p) v x).
        rewrite hedge_alt. cbn [mk_edges marker0]. intros (l' & Hl' & _). by rewrite lookup_fmap, Ey in Hl'. }
    assert (Hdeg : degrees g D = total deg D) by done.
    assert (Hfree : total free D + p_order p = g_order g).
    { assert (E1 : forall l, total free l = length (filter (fun v => p !! v = None) l)).
      { induction l as [|v l IH]; [done|]. rewrite total_cons, filter_cons, IH. unfold free.
        case_bool_decide; [by rewrite decide_True|by rewrite decide_False]. }
      assert (E2 : filter (fun v => p !! v = None) D ≡ₚ filter (fun v => p !! v = None) (g_nodes g)).
      { apply NoDup_Permutation; [by apply NoDup_filter|by apply NoDup_filter, Hg|]. intros x.
        rewrite !elem_of_list_filter. split; [by intros [? ?%Hin]|]. intros [Hx Hxg]. split; [done|].
        apply HDe. destruct (fi_free _ _ _ HF x Hxg Hx) as [[o par] He].
        destruct o as [y|]; [|apply (fi_root _ _ _ HF) in He as Hr; destruct Hr as (-> & _); by eexists].
        exfalso. destruct par.
        - apply (fi_even _ _ _ HF) in He as [? _]. congruence.
        - apply (fi_odd _ _ _ HF) in He as (_ & _ & k & ? & _). congruence. }
      rewrite E1, (Permutation_length E2), (law_order g Hg).
      rewrite (length_filter_split (fun v => p !! v = None) (g_nodes g)). f_equal.
      unfold p_order, size, map_size. rewrite <-(fmap_length fst (map_to_list p)).
      apply Permutation_length, NoDup_Permutation; [apply NoDup_fst_map_to_list|by apply NoDup_filter, Hg|].
      intros x. rewrite elem_of_list_filter. split.
      - intros ([a b] & -> & Hab%elem_of_map_to_list)%elem_of_list_fmap. cbn [fst]. split; [congruence|].
        apply Hp in Hab. apply law_adj_sym in Hab; [|done]. by eapply law_adj_node.
      - intros [Hx _]. destruct (p !! x) as [b|] eqn:Ex; [|done]. apply elem_of_list_fmap. exists (x, b).
        by rewrite elem_of_map_to_list. }
    lia.
  Qed.
End exhausted.

(** ** The searches of a run *)

Lemma work_nonempty iter tag fuel g p : (augmenting_path_work iter tag (S fuel) g p).1 <> [].
Proof.
  cbn [augmenting_path_work].
  match goal with |- (match ?x with _ => _ end).1 <> [] => destruct x as [[fo ma]|e|e|] end; [|done..].
  cbv zeta.
  match goal with |- (match ?x with _ => _ end).1 <> [] => destruct x as [[o|[b d]]|e|e|] end; done.
Qed.

Lemma search_w_some fuel v g p f m c r : search_w_work fuel v g p f m = (c, Ok r) -> 1 <= c.
Proof.
  destruct fuel as [|fuel]; [done|]. cbn [search_w_work]. destruct (some_w v g m); cbn [charge]; [|done..].
  intros [= <- _]. lia.
Qed.

Lemma search_v_some fuel : forall g p f m c v pw f', search_v_work fuel g p f m = (c, Ok (EvenPath v pw f')) -> 1 <= c.
Proof.
  destruct fuel as [|fuel]; intros g p f m c v pw f'; [done|]. rewrite search_v_unfold.
  destruct (some_v f m) as [[x|]|e|e|]; cbn [charge]; [|done..]. cbv zeta.
  destruct (search_w_work (S fuel) x g p f m) as [cw [r|e|e|]] eqn:E; cbn [fst snd charge]; [|done..].
  apply search_w_some in E. intros [= <- _]. lia.
Qed.

Section runs.
  Context (g : Graph) (Hg : Lawful g) (iter : hash_order) (Hit : hash_order_ok iter).

  (** The search of [p] unfolded. *)
  Lemma work_unfold p : pairing_of g p -> exists f n r c,
    search_v_work n g p f (marker0 p) = (c, Ok r) /\
    match r with
    | Exhausted f' m' => FInv g p f' /\ MInv g p (f_parents f') m' /\
        forall v, even_in (f_parents f') v -> v ∈ mk_nodes m'
    | EvenPath _ _ _ => 1 <= c
    end /\
    forall tag fuel, n <= S fuel -> exists rest,
      (augmenting_path_work iter tag (S fuel) g p).1 = c :: rest /\
      match r with
      | Exhausted _ _ => rest = [] /\ (augmenting_path_work iter tag (S fuel) g p).2 = Ok None
      | EvenPath _ _ _ => (augmenting_path_work iter tag (S fuel) g p).2 = Ok None -> 1 <= fuel -> rest <> []
      end.
  Proof using Hg Hit.
    intros Hp. destruct (forest_start g p Hg) as (f & Hf & HF).
    destruct (degree_bound_exists g Hg) as (B & H0 & HB).
    destruct (search_v_spec g p Hg Hp B (S (unmarked g (marker0 p))) f (marker0 p)) as (r & [Hs _] & Hr);
      [done|done|lia|done|apply marker0_inv|].
    set (n := B + S (unmarked g (marker0 p))) in *.
    set (c := (search_v_work n g p f (marker0 p)).1).
    assert (Hsv : forall fuel, n <= fuel -> search_v_work fuel g p f (marker0 p) = (c, Ok r)).
    { intros fuel Hfu. assert (E : (search_v_work n g p f (marker0 p)).2 = Ok r).
      { rewrite search_v_erase. by apply Hs. }
      rewrite (search_v_mono n fuel) by (done || by rewrite E).
      unfold c. rewrite <-E. by destruct (search_v_work n g p f (marker0 p)). }
    exists f, n, r, c. split_and!; [by apply Hsv| |].
    { destruct r as [f' m'|v pw f']; [done|]. eapply search_v_some. by apply Hsv. }
    intros tag fuel Hfu. destruct (augmenting_path_work iter tag (S fuel) g p) as [C res] eqn:Ew. cbn [fst snd].
    revert Ew. cbn [augmenting_path_work]. unfold p_edges at 1.
    rewrite (marker_start g p Hp) by apply Hit. cbn [cbind]. rewrite Hf. cbn [cbind].
    rewrite Hsv by lia. cbv zeta. cbn [fst snd].
    destruct r as [f' m'|v pw f']; cbn [cbind]; [intros [= <- <-]; by exists []|].
    match goal with |- match ?x with _ => _ end = _ -> _ => destruct x as [[o|[b d]]|e|e|] eqn:E end.
    3-5: intros [= <- <-]; by exists [].
    - intros [= <- <-]. exists []. split; [done|]. intros [= ->] _. exfalso. revert E.
      destruct (f_path f' v) as [op|e|e|]; cbn [cbind]; [|done..].
      destruct (expect_some op) as [pv|e|e|]; cbn [cbind]; [|done..].
      case_bool_decide; [|done].
      destruct (expect_some (nodes_max (g_nodes g))) as [mx|e|e|]; cbn [cbind]; [|done..].
      destruct (checked_succ mx) as [id|e|e|]; cbn [cbind]; [|done..].
      destruct (b_new id pv pw) as [b|e|e|]; cbn [cbind]; [|done..].
      by destruct (unwrap (b_contract_graph b g)) as [d|e|e|]; cbn [cbind].
    - intros [= <- <-]. eexists. split; [done|]. intros _ H1. destruct fuel as [|fuel]; [lia|]. apply work_nonempty.
  Qed.

  (** A search that finds nothing and looks at [g] alone. *)
  Lemma silent_search p c n D : pairing_of g p -> NoDup D -> (forall v, v ∈ D <-> spared g v) ->
    (forall tag fuel, n <= fuel -> augmenting_path_work iter tag fuel g p = ([c], Ok None)) ->
    c + p_order p = g_order g + degrees g D.
  Proof using Hg Hit.
    intros Hp HD HDs Hn. destruct (work_unfold p Hp) as (f & k & r & c' & Hs & Hr & Hu).
    destruct (Hu [] (S (n + k))) as (rest & H1 & H2); [lia|]. rewrite Hn in H1, H2 by lia. cbn [fst snd] in *.
    injection H1 as <- <-. destruct r as [f' m'|v pw f'].
    - destruct Hr as (HF & HM & Hall). by eapply exhausted_count.
    - exfalso. by apply H2; [|lia|].
  Qed.

  (** A search that finds something. *)
  Lemma useful_search p path C n : pairing_of g p ->
    (forall tag fuel, n <= fuel -> augmenting_path_work iter tag fuel g p = (C, Ok (Some path))) ->
    exists c rest, C = c :: rest /\ 1 <= c.
  Proof using Hg Hit.
    intros Hp Hn. destruct (work_unfold p Hp) as (f & k & r & c & Hs & Hr & Hu).
    destruct (Hu [] (S (n + k))) as (rest & H1 & H2); [lia|]. rewrite Hn in H1, H2 by lia. cbn [fst snd] in *.
    exists c, rest. split; [done|]. destruct r; [|done]. by destruct H2.
  Qed.

  (** All searches after the last augmentation are the same. *)
  Lemma work_return_last p paths q : pairing_of g p -> rounds iter g p paths q -> search_is iter g q None ->
    exists W s, length W = length paths /\ (forall s', s' ∈ s :: W -> fair g s') /\
      (forall s', s' ∈ W -> exists c rest, s' = c :: rest /\ 1 <= c) /\
      (forall c D, s = [c] -> NoDup D -> (forall v, v ∈ D <-> spared g v) ->
         c + p_order q = g_order g + degrees g D) /\
      exists n, forall iter' fuel tag, hash_order_ok iter' -> n <= fuel ->
        maximum_matching_work iter' tag fuel g p = (W ++ replicate (S (length paths)) s, Ok q).
  Proof using Hg Hit.
    intros Hp Hr Hq. assert (Hqg : pairing_of g q) by (by eapply rounds_pairing).
    destruct (ap_both g Hg iter Hit q (Ok None) Hqg Hq) as (s & Hs & ns & Hns).
    assert (Hlast : forall c D, s = [c] -> NoDup D -> (forall v, v ∈ D <-> spared g v) ->
         c + p_order q = g_order g + degrees g D).
    { intros c D -> HD HDs. eapply (silent_search q c ns D); [done..|]. intros tag fuel Hfu. by apply Hns. }
    assert (Hmain : exists W, length W = length paths /\ (forall s', s' ∈ W -> fair g s') /\
      (forall s', s' ∈ W -> exists c rest, s' = c :: rest /\ 1 <= c) /\
      exists n, forall iter' fuel tag, hash_order_ok iter' -> n <= fuel ->
        maximum_matching_work iter' tag fuel g p = (W ++ replicate (S (length paths)) s, Ok q)).
    { induction Hr as [q|p path p1 paths q Hsp Ha Hr IH].
      { exists []. split_and!; [done|by intros ? ?%elem_of_nil|by intros ? ?%elem_of_nil|]. exists (S ns).
        intros iter' [|fuel] tag Hit' Hfu; [lia|]. cbn [maximum_matching_work]. cbv zeta.
        by rewrite Hns by (done || lia). }
      assert (Hp1 : pairing_of g p1) by (by apply (search_step g Hg iter Hit p path)).
      destruct (IH Hp1 Hq Hqg Hns Hlast) as (W & HW & Hfair & Hpos & n & Hn).
      destruct (ap_both g Hg iter Hit p (Ok (Some path)) Hp Hsp) as (C & HC & n0 & Hn0).
      destruct (useful_search p path C n0 Hp) as (c & rest & HCc); [intros; by apply Hn0|].
      exists (C :: W). split_and!.
      - cbn [length]. lia.
      - intros s' [->|?]%elem_of_cons; auto.
      - intros s' [->|?]%elem_of_cons; eauto.
      - exists (S (S (n0 + n + ns))). intros iter' [|fuel] tag Hit' Hfu; [lia|]. cbn [maximum_matching_work]. cbv zeta.
        rewrite Hn0 by (done || lia). cbn [snd fst]. rewrite Ha. rewrite Hn by (done || lia). cbn [snd fst].
        destruct fuel as [|fuel]; [lia|]. cbn [maximum_matching_work]. cbv zeta.
        rewrite Hns by (done || lia). cbn [snd fst length].
        rewrite (replicate_S_end (S (length paths))). by rewrite <-app_comm_cons, <-app_assoc. }
    destruct Hmain as (W & H1 & H2 & H3 & H4). exists W, s. split_and!; try done.
    intros s' [->|?]%elem_of_cons; auto.
  Qed.
End runs.

(** [maximum_matching] with a pairing that also pairs nodes outside the graph:
    when the search does not notice them. *)
From Verif Require Import Outcome GraphModel TraversalModel PairingModel Spec
  GraphProofs EditProofs TraversalProofs PathLemmas PairingProofs MatchTheory MaximumModel
  ForestProofs BlossomProofs ContractProofs CycleProofs LiftProofs TameProofs MaximumProofs.

(** *** Contraction of an arbitrary pairing *)

Section contract_any.
  Context (q : Pairing) (Hq : symmetric_pairing q) (B : list N) (c b : N).
  Context (Hbase : forall x y, x ∈ B -> q !! x = Some y -> x = c \/ y ∈ B).
  Context (Hfresh : forall y, q !! b = Some y -> b ∈ B).
  Context (L : list (N * N)) (HL : L ≡ₚ map_to_list q).
  Notation σ := (squash B b).
  Notation es := (p_edges_of L).
  Notation kept := (filter (fun e => outside B e) es).
  Notation squashed := ((fun e : N * N => (σ e.1, σ e.2)) <$> kept).

  Lemma any_kept s t : (s, t) ∈ kept -> q !! s = Some t /\ outside B (s, t).
  Proof.
    intros [Ho Hst]%elem_of_list_filter. apply (p_edges_elem q L HL) in Hst as [Hst _]. done.
  Qed.

  Lemma any_endpoint x : x ∈ endpoints kept -> (exists y, q !! x = Some y) /\ (x ∈ B -> x = c).
  Proof.
    intros ([s t] & [Hst Ho]%any_kept & Hx)%elem_of_endpoints.
    unfold outside in Ho. cbn [fst snd] in *. destruct (Hq _ _ Hst) as [Hts _].
    destruct Hx as [-> | ->]; (split; [by eexists|]); intros HxB.
    - destruct (Hbase s t HxB Hst); tauto.
    - destruct (Hbase t s HxB Hts); tauto.
  Qed.

  Lemma any_squashed : NoDup (endpoints squashed).
  Proof.
    assert (endpoints squashed = σ <$> endpoints kept) as ->.
    { induction kept as [|e l IH]; [done|]. rewrite fmap_cons.
      change (endpoints (?e :: ?l)) with (e.1 :: e.2 :: endpoints l).
      rewrite IH. done. }
    apply NoDup_fmap_2_strong.
    - intros x y [[x' Hx] Hxc]%any_endpoint [[y' Hy] Hyc]%any_endpoint. unfold squash.
      case_bool_decide as HxB; case_bool_decide as HyB; intros Heq; subst.
      + by rewrite (Hxc HxB), (Hyc HyB).
      + exfalso. by apply HyB, (Hfresh y').
      + exfalso. by apply HxB, (Hfresh x').
      + done.
    - apply endpoints_filter_nodup. by apply (p_edges_nodup q Hq).
  Qed.

  Lemma any_lookup x y : b_contract_pairing (mkBlossom b B) es !! x = Some y <->
    exists s t, q !! s = Some t /\ outside B (s, t) /\ x = σ s /\ y = σ t.
  Proof.
    rewrite contract_pairing_all.
    change (ContractProofs.squashed B b L) with squashed.
    rewrite (proj2 (pair_all_disjoint _ any_squashed)).
    assert (Hin : forall x y, (x, y) ∈ squashed <->
      exists s t, (s, t) ∈ kept /\ x = σ s /\ y = σ t).
    { intros u v. rewrite elem_of_list_fmap. split.
      - intros ([s t] & [= -> ->] & H). eauto.
      - intros (s & t & H & -> & ->). by exists (s, t). }
    rewrite !Hin. split.
    - intros [(s & t & [Hst Ho]%any_kept & -> & ->)|(s & t & [Hst Ho]%any_kept & -> & ->)].
      + by exists s, t.
      + exists t, s. apply Hq in Hst as [Hts _]. split_and!; try done.
        unfold outside in *. simpl in *. tauto.
    - intros (s & t & Hst & Ho & -> & ->). destruct (Hq _ _ Hst) as [Hts Hne].
      destruct (decide (s < t)%N).
      + left. exists s, t. split; [|done]. apply elem_of_list_filter. split; [done|].
        by apply (p_edges_elem q L HL).
      + right. exists t, s. split; [|done]. apply elem_of_list_filter. split.
        * unfold outside in *. simpl in *. tauto.
        * apply (p_edges_elem q L HL). split; [done|lia].
  Qed.
End contract_any.

(** *** The frame *)

Notation off := apart (only parsing).

Lemma off_union g p o x : off g o -> x ∈ g_nodes g -> (p ∪ o) !! x = p !! x.
Proof.
  intros Ho Hx. rewrite lookup_union. destruct (o !! x) as [y|] eqn:E; [by apply Ho in E|].
  by destruct (p !! x).
Qed.

Lemma off_disjoint g p o : Lawful g -> pairing_of g p -> off g o -> p ##ₘ o.
Proof.
  intros Hg Hp Ho. apply map_disjoint_spec. intros x y z Hx Hy. apply (Ho _ _ Hy).
  apply (adj_nodes g Hg x y). by apply Hp.
Qed.

Lemma union_symmetric g p o : Lawful g -> pairing_of g p -> symmetric_pairing o -> off g o ->
  symmetric_pairing (p ∪ o).
Proof.
  intros Hg Hp Hs Ho x y. pose proof (off_disjoint g p o Hg Hp Ho) as Hd.
  intros [H|H]%lookup_union_Some; [| |done].
  - apply (proj1 Hp) in H as [H ?]. split; [|done]. by apply lookup_union_Some_l.
  - apply Hs in H as [H ?]. split; [|done]. by apply lookup_union_Some_r.
Qed.

(** Two markers that agree on the nodes [o] does not pair. *)
Definition agree (o : Pairing) (m m2 : Marker) : Prop :=
  mk_nodes m = mk_nodes m2 /\ forall s t, o !! s = None -> mk_has_edge m s t = mk_has_edge m2 s t.

Lemma agree_mark o m m2 s t : agree o m m2 -> o !! s = None -> mk_has_edge m s t = false ->
  exists m' m2', mk_mark_edge m s t = Ok m' /\ mk_mark_edge m2 s t = Ok m2' /\ agree o m' m2'.
Proof.
  intros [Hn He] Hs Hst.
  destruct (mark_edge_ok m s t) as (m' & Hm & Hmn & Hme); [unfold hedge; congruence|].
  destruct (mark_edge_ok m2 s t) as (m2' & Hm2 & Hmn2 & Hme2).
  { unfold hedge. rewrite <-He by done. congruence. }
  exists m', m2'. split; [done|]. split; [done|]. split; [congruence|].
  intros u v Hu. apply eq_true_iff_eq. fold (hedge m' u v) (hedge m2' u v).
  rewrite Hme, Hme2. unfold hedge. by rewrite He.
Qed.

Definition same_result (o : Pairing) (r r2 : comp search) : Prop :=
  match r, r2 with
  | Ok (Exhausted f m), Ok (Exhausted f2 m2) => f = f2 /\ agree o m m2
  | Ok (EvenPath v l f), Ok (EvenPath v2 l2 f2) => v = v2 /\ l = l2 /\ f = f2
  | Ok _, _ => False
  | r, r2 => r = r2
  end.

Section frame.
  Context (g : Graph) (p o : Pairing) (Hg : Lawful g) (Hp : pairing_of g p).
  Context (Hso : symmetric_pairing o) (Ho : off g o).
  Notation po := (p ∪ o).

  Lemma off_none x : x ∈ g_nodes g -> o !! x = None.
  Proof. intros Hx. destruct (o !! x) eqn:E; [by apply Ho in E|done]. Qed.

  Lemma some_w_frame v m m2 : agree o m m2 -> some_w v g m = some_w v g m2.
  Proof.
    intros [_ He]. unfold some_w. destruct (decide (v ∈ g_nodes g)) as [Hv|Hv].
    - destruct (law_neighbors g Hg v Hv) as (l & -> & _). cbn [unwrap cbind]. do 2 f_equal.
      apply list_filter_iff. intros x. by rewrite He by (by apply off_none).
    - by rewrite law_neighbors_err.
  Qed.

  Lemma some_w_elem v m w : some_w v g m = Ok (Some w) ->
    v ∈ g_nodes g /\ w ∈ g_nodes g /\ mk_has_edge m v w = false.
  Proof.
    unfold some_w. destruct (decide (v ∈ g_nodes g)) as [Hv|Hv].
    - destruct (law_neighbors g Hg v Hv) as (l & Hl & _). rewrite Hl. cbn [unwrap cbind].
      intros [= Hw]. split; [done|]. apply head_Some_elem_of, elem_of_list_filter in Hw as [Hw Hin].
      split; [|done]. apply (law_adj_node g Hg v). by exists l.
    - by rewrite law_neighbors_err.
  Qed.

  Lemma search_w_frame fuel : forall v f m m2, agree o m m2 ->
    same_result o (search_w fuel v g p f m) (search_w fuel v g po f m2).
  Proof.
    induction fuel as [|fuel IH]; intros v f m m2 Ha; [done|]. cbn [search_w].
    rewrite <-(some_w_frame v m m2 Ha). destruct (some_w v g m) as [[w|]| | |] eqn:Ew; try done.
    cbn [cbind]. apply some_w_elem in Ew as (Hv & Hw & Hvw).
    destruct (f_path f w) as [[pw|]| | |]; try done; cbn [cbind].
    - destruct (Nat.odd (length pw)); [done|].
      destruct (agree_mark o m m2 v w Ha) as (m' & m2' & -> & -> & Ha'); [by apply off_none|done|].
      cbn [cbind]. by apply IH.
    - destruct (f_add_edge f v w) as [f1| | |]; try done. cbn [cbind].
      unfold p_mate. rewrite (off_union g p o w Ho Hw).
      destruct (p !! w) as [y|]; [|done]. cbn [cbind].
      destruct (f_add_edge f1 w y) as [f2| | |]; try done. cbn [cbind].
      destruct (agree_mark o m m2 v w Ha) as (m' & m2' & -> & -> & Ha'); [by apply off_none|done|].
      cbn [cbind]. by apply IH.
  Qed.

  Lemma find_v_frame m m2 P ids : agree o m m2 -> find_v P m ids = find_v P m2 ids.
  Proof.
    intros [Hn _]. induction ids as [|i ids IH]; [done|]. cbn [find_v].
    destruct (P !! i) as [[par []]|]; try done. unfold mk_has_node. rewrite Hn.
    by destruct (bool_decide _).
  Qed.

  Lemma search_v_frame fuel : forall f m m2, agree o m m2 ->
    same_result o (search_v fuel g p f m) (search_v fuel g po f m2).
  Proof.
    induction fuel as [|fuel IH]; intros f m m2 Ha; [done|]. cbn [search_v].
    unfold some_v. rewrite <-(find_v_frame m m2 _ _ Ha).
    destruct (find_v _ m _) as [[v|]| | |]; try done. cbn [cbind].
    pose proof (search_w_frame (S fuel) v f m m2 Ha) as Hw.
    destruct (search_w (S fuel) v g p f m) as [[f1 m1|v1 l1 f1]| | |];
      destruct (search_w (S fuel) v g po f m2) as [[f1' m1'|v1' l1' f1']| | |]; try done.
    destruct Hw as [<- Hw]. cbn [cbind]. unfold mk_mark_node. destruct Hw as [Hn He]. rewrite <-Hn.
    destruct (bool_decide (v ∈ mk_nodes m1)); [done|]. cbn [cbind]. by apply IH.
  Qed.

  Lemma add_roots_frame f ids : (forall x, x ∈ ids -> x ∈ g_nodes g) ->
    add_roots f po ids = add_roots f p ids.
  Proof.
    revert f. induction ids as [|x ids IH]; intros f Hin; [done|]. cbn [add_roots].
    unfold p_has_node. rewrite (off_union g p o x Ho) by (apply Hin; left).
    destruct (bool_decide _); cbn [cbind].
    - apply IH. intros y Hy. apply Hin. by right.
    - destruct (f_add_root f x); try done. cbn [cbind]. apply IH. intros y Hy. apply Hin. by right.
  Qed.

  Lemma ap_unfold_any iter tag fuel (q : Pairing) f : hash_order_ok iter -> symmetric_pairing q ->
    add_roots f_new q (g_nodes g) = Ok f ->
    augmenting_path iter tag (S fuel) g q =
      let! r := search_v (S fuel) g q f (marker0 q) in continue g q iter tag fuel r.
  Proof.
    intros Hit Hq Hf. cbn [augmenting_path]. unfold p_edges at 1.
    set (h := mkGraph true 0 0 [] (fun v => Ok (match q !! v with Some y => [y] | None => [] end))
                (fun _ => true) (fun _ => Ok 0) [] (fun _ _ => Ok true)).
    rewrite (marker_start h q); [|split; [done|]|apply Hit].
    - cbn [cbind]. rewrite Hf. done.
    - intros u v Huv. exists [v]. split; [|left]. cbn [g_neighbors h]. by rewrite Huv.
  Qed.

  Lemma marker0_agree : agree o (marker0 p) (marker0 po).
  Proof.
    split; [done|]. intros s t Hs. unfold mk_has_edge, marker0. cbn [mk_edges].
    rewrite !lookup_fmap, lookup_union, Hs. by destruct (p !! s).
  Qed.

  (** What follows the search looks at the pairing only to contract it. *)
  Lemma found_frame v pw f : found g p v pw f ->
    (exists res, forall q iter tag fuel, continue g q iter tag fuel (EvenPath v pw f) = res) \/
    (exists B c l2 m d, let b := (m + 1)%N in
      Bloss g p B c l2 /\ m ∈ g_nodes g /\ (forall x, x ∈ g_nodes g -> (x <= m)%N) /\
      WF d /\ g_nodes (as_graph d) = b :: filter (fun x => x ∉ B) (g_nodes g) /\
      (forall x y, adj (as_graph d) x y <-> made B b (g_edges g) x y) /\
      forall q iter tag fuel, continue g q iter tag fuel (EvenPath v pw f) =
        let! opath := augmenting_path iter (2 :: tag) fuel (as_graph d)
          (b_contract_pairing (mkBlossom b B) (p_edges iter (1 :: tag) q)) in
        match opath with
        | Some path => let! lifted := b_lift (S fuel) (mkBlossom b B) path g in Ok (Some lifted)
        | None => Ok None
        end).
  Proof.
    intros (HF & Hv & w & Hw & Hvw & Hpw).
    destruct (even_in_path g p f Hg HF v Hv) as (pv & Hpv & _ & _).
    pose proof (f_path_some g p f HF v pv Hpv) as Hfp.
    destruct (decide (last pv = last pw)) as [Hl|Hl].
    - destruct (found_blossom g p Hg Hp f v w pv pw HF Hv Hw Hvw Hpv Hpw Hl) as (B & c & l2 & Hbp & HB).
      pose proof (nodes_max_spec (g_nodes g)) as Hmax.
      destruct (nodes_max (g_nodes g)) as [m|] eqn:Em.
      2:{ exfalso. pose proof (bl_nodes _ _ _ _ _ HB c (bl_in _ _ _ _ _ HB)) as Hc.
          rewrite Hmax in Hc. by apply elem_of_nil in Hc. }
      destruct Hmax as [Hm Hle].
      destruct (N.ltb m usize_max) eqn:Elt.
      + apply N.ltb_lt in Elt. right. set (b := (m + 1)%N).
        assert (Hb : b ∈ g_nodes g -> b ∈ B) by (intros Hb; specialize (Hle b Hb); unfold b in Hle; lia).
        destruct (contract_graph_spec g Hg B b Hb) as (d & Hd & Hwf & Hn & Ha).
        exists B, c, l2, m, d. cbn zeta. fold b. split_and!; try done.
        intros q iter tag fuel. unfold continue. rewrite Hfp. cbn [cbind expect_some].
        rewrite bool_decide_eq_true_2 by done. rewrite Em. cbn [cbind expect_some].
        unfold checked_succ. rewrite (proj2 (N.ltb_lt _ _) Elt). cbn [cbind].
        unfold b_new. rewrite Hbp. cbn [cbind]. fold b. rewrite Hd. done.
      + apply N.ltb_ge in Elt. left. exists (Panic POverflow).
        intros q iter tag fuel. unfold continue. rewrite Hfp. cbn [cbind expect_some].
        rewrite bool_decide_eq_true_2 by done. rewrite Em. cbn [cbind expect_some].
        unfold checked_succ. rewrite (proj2 (N.ltb_ge _ _) Elt). done.
    - left. exists (Ok (Some (reverse pv ++ pw))).
      intros q iter tag fuel. unfold continue. rewrite Hfp. cbn [cbind expect_some].
      by rewrite bool_decide_eq_false_2.
  Qed.
End frame.

(** Blossom ids do not meet the nodes [o] pairs. *)
Notation clear g o := (ids_clear g (fun x => exists y, o !! x = Some y)).

Lemma contract_union g p o B c l2 b L L' : Lawful g -> pairing_of g p -> symmetric_pairing o ->
  off g o -> Bloss g p B c l2 -> (b ∈ g_nodes g -> b ∈ B) -> o !! b = None ->
  L ≡ₚ map_to_list p -> L' ≡ₚ map_to_list (p ∪ o) ->
  b_contract_pairing (mkBlossom b B) (p_edges_of L') =
  b_contract_pairing (mkBlossom b B) (p_edges_of L) ∪ o.
Proof.
  intros Hg Hp Hso Ho HB Hb Hbo HL HL'.
  pose proof (off_disjoint g p o Hg Hp Ho) as Hd.
  assert (Hin : forall x y, p !! x = Some y -> x ∈ g_nodes g).
  { intros x y H. apply (adj_nodes g Hg x y). by apply Hp. }
  assert (HoB : forall x y, o !! x = Some y -> x ∉ B /\ y ∉ B).
  { intros x y H. pose proof (proj1 (Hso _ _ H)) as H'. split; intros HxB;
      apply (bl_nodes _ _ _ _ _ HB) in HxB; [by apply (Ho _ _ H)|by apply (Ho _ _ H')]. }
  assert (Hbp : forall y, p !! b = Some y -> b ∈ B) by (intros y H; by eapply Hb, Hin).
  apply map_eq. intros x. apply option_eq. intros y.
  rewrite (any_lookup (p ∪ o)) with (c := c);
    [|by eapply union_symmetric|..|done].
  2:{ intros u v Hu Huv. rewrite (off_union g p o u Ho) in Huv by (by apply (bl_nodes _ _ _ _ _ HB)).
      by apply (mate_in g p B c l2 HB). }
  2:{ intros z Hz. apply lookup_union_Some in Hz as [Hz|Hz]; [by eapply Hbp|congruence|done]. }
  assert (Hlk : forall x y, b_contract_pairing (mkBlossom b B) (p_edges_of L) !! x = Some y <->
    exists s t, p !! s = Some t /\ outside B (s, t) /\ x = squash B b s /\ y = squash B b t).
  { intros u v. apply (any_lookup p (proj1 Hp) B c b); try done.
    intros a a' Ha. by apply (mate_in g p B c l2 HB). }
  assert (Hd' : b_contract_pairing (mkBlossom b B) (p_edges_of L) ##ₘ o).
  { apply map_disjoint_spec. intros u v w Hu Hw. apply Hlk in Hu as (s & t & Hst & _ & -> & _).
    unfold squash in Hw. case_bool_decide; [congruence|]. by apply (Ho _ _ Hw), (Hin _ _ Hst). }
  rewrite lookup_union_Some by done. rewrite Hlk. split.
  - intros (s & t & Hst & Hout & -> & ->). apply lookup_union_Some in Hst as [Hst|Hst]; [| |done].
    + left. by exists s, t.
    + right. destruct (HoB _ _ Hst). by rewrite !squash_out.
  - intros [(s & t & Hst & Hout & -> & ->)|Hst].
    + exists s, t. split_and!; try done. by apply lookup_union_Some_l.
    + destruct (HoB _ _ Hst). exists x, y. rewrite !squash_out by done. split_and!; try done.
      * by apply lookup_union_Some_r.
      * unfold outside. simpl. tauto.
Qed.

Theorem ap_frame fuel : forall g p o iter iter' tag tag', Lawful g -> pairing_of g p ->
  symmetric_pairing o -> off g o -> clear g o -> hash_order_ok iter -> hash_order_ok iter' ->
  augmenting_path iter tag fuel g (p ∪ o) = augmenting_path iter' tag' fuel g p.
Proof.
  induction fuel as [|fuel IH]; intros g p o iter iter' tag tag' Hg Hp Hso Ho Hc Hi Hi'; [done|].
  destruct (search_start g p Hg Hp) as (f & n & r & Hf & [_ Hs2] & Hr).
  rewrite (ap_unfold g p Hp iter' tag' fuel f) by done.
  rewrite (ap_unfold_any g iter tag fuel (p ∪ o) f); [|done|by eapply union_symmetric|].
  2:{ by rewrite (add_roots_frame g p o Ho). }
  pose proof (search_v_frame g p o Hg Ho (S fuel) f _ _ (marker0_agree p o)) as Hsim.
  destruct (search_v (S fuel) g (p ∪ o) f (marker0 (p ∪ o))) as [[f2 m2|v2 l2 f2]| | |];
    destruct (Hs2 (S fuel)) as [E|E]; rewrite E in Hsim |- *;
    destruct r as [f' m'|v pw f']; try done; cbn [cbind]; cbn [same_result] in Hsim.
  destruct Hsim as (<- & <- & <-).
  destruct (found_frame g p Hg Hp v pw f' Hr)
    as [[res Hres]|(B & c & l2 & m & d & HB & Hm & Hmax & Hwf & Hn & Ha & Hcont)].
  { by rewrite !Hres. }
  cbn zeta in *. set (b := (m + 1)%N) in *. rewrite !Hcont.
  destruct Hc as [Hc|Hc]; [by destruct (Hc B); apply HB|].
  assert (Hb : b ∈ g_nodes g -> b ∈ B) by (intros Hb; specialize (Hmax b Hb); unfold b in *; lia).
  set (g' := as_graph d) in *. assert (Hg' : Lawful g') by (by apply wf_lawful).
  pose proof (measure_shrinks g p B c l2 b g' Hg Hg' HB Hb Hn Ha) as Hmeas. unfold measure in Hmeas.
  assert (Hob : o !! b = None).
  { destruct (o !! b) as [y|] eqn:E'; [|done]. assert (Hx : exists y, o !! b = Some y) by (by exists y).
    apply Hc in Hx as [(v' & Hv' & Hle)|Hfar].
    - specialize (Hmax _ Hv'). unfold b in Hle. lia.
    - specialize (Hfar m Hm). unfold b in Hfar. lia. }
  unfold p_edges.
  rewrite (contract_union g p o B c l2 b (iter' (1 :: tag') p)) by done.
  rewrite (IH g' _ o iter iter' (2 :: tag) (2 :: tag')); try done.
  - by apply (p'_pairing g p Hg Hp B c l2 HB b Hb g' Ha).
  - intros x y Hxy Hx. rewrite Hn in Hx. apply elem_of_cons in Hx as [->|Hx]; [congruence|].
    apply elem_of_list_filter in Hx as [_ Hx]. by apply (Ho _ _ Hxy).
  - right. intros x Hx. destruct (Hc _ Hx) as [(v' & Hv' & Hle)|Hfar].
    + left. exists b. split; [rewrite Hn; left|]. specialize (Hmax _ Hv'). unfold b. lia.
    + right. intros v' Hv'. specialize (Hfar m Hm).
      assert (v' <= b)%N; [|unfold b in *; lia].
      rewrite Hn in Hv'. apply elem_of_cons in Hv' as [->|Hv']; [done|].
      apply elem_of_list_filter in Hv' as [_ Hv']. specialize (Hmax _ Hv'). unfold b. lia.
Qed.

(** *** Augmenting *)

Section frame_augment.
  Context (g : Graph) (o : Pairing) (Ho : off g o).
  Definition within (p : Pairing) : Prop := forall x y, p !! x = Some y -> y ∈ g_nodes g.

  Lemma insert_within p s t : within p -> t ∈ g_nodes g -> within (p_insert p s t).
  Proof.
    intros Hw Ht x y. unfold p_insert. destruct (p !! s) as [cur|] eqn:E.
    - case_bool_decide; [apply Hw|]. intros [_ Hx]%lookup_delete_Some.
      apply lookup_insert_Some in Hx as [[_ <-]|[_ Hx]]; [done|by eapply Hw].
    - intros Hx. apply lookup_insert_Some in Hx as [[_ <-]|[_ Hx]]; [done|by eapply Hw].
  Qed.

  Lemma insert_frame p s t : within p -> s ∈ g_nodes g ->
    p_insert (p ∪ o) s t = p_insert p s t ∪ o.
  Proof.
    intros Hw Hs. unfold p_insert. rewrite (off_union g p o s Ho Hs).
    destruct (p !! s) as [cur|] eqn:E; [|by rewrite insert_union_l].
    case_bool_decide; [done|]. rewrite insert_union_l.
    apply Hw in E. rewrite delete_union. f_equal. by apply delete_notin, (off_none g o Ho).
  Qed.

  Lemma pair_up_frame path : forall p, within p -> (forall x, x ∈ path -> x ∈ g_nodes g) ->
    p_pair_up (p ∪ o) path = p_pair_up p path ∪ o.
  Proof.
    induction path as [path IH] using (induction_ltof1 _ (@length N)). unfold ltof in IH.
    intros p Hw Hin. destruct path as [|a [|b path]]; try done. cbn [p_pair_up].
    assert (a ∈ g_nodes g /\ b ∈ g_nodes g) as [Ha Hb]
      by (split; apply Hin; [left|right; left]).
    unfold p_pair. rewrite !insert_frame by (try done; by apply insert_within).
    apply IH.
    - simpl. lia.
    - by repeat apply insert_within.
    - intros x Hx. apply Hin. by right; right.
  Qed.
End frame_augment.

Definition carry (o : Pairing) (m : comp Pairing) : comp Pairing :=
  match m with Ok q => Ok (q ∪ o) | m => m end.

Theorem mm_frame g o fuel : Lawful g -> symmetric_pairing o -> off g o -> clear g o ->
  forall p iter iter' tag tag', pairing_of g p -> hash_order_ok iter -> hash_order_ok iter' ->
  maximum_matching iter tag fuel g (p ∪ o) = carry o (maximum_matching iter' tag' fuel g p).
Proof.
  intros Hg Hso Ho Hc. induction fuel as [|fuel IH]; intros p iter iter' tag tag' Hp Hi Hi'; [done|].
  cbn [maximum_matching]. rewrite (ap_frame (S fuel) g p o iter iter' (0 :: tag) (0 :: tag')) by done.
  destruct (ap_spec g p Hg Hp) as (n & res & Hpost & Hset).
  destruct (Hset iter' (0 :: tag') Hi') as [_ H2].
  destruct (H2 (S fuel)) as [-> | ->]; [done|].
  destruct res as [[path|]| |e|]; try done; cbn [cbind].
  destruct Hpost as (Hsimple & _ & _ & _ & _).
  assert (Hau : p_augment (p ∪ o) path = carry o (p_augment p path)).
  { unfold p_augment. destruct (Nat.odd (length path)); [done|]. cbn [carry]. f_equal.
    apply (pair_up_frame g); [done| |apply Hsimple]. intros x y Hxy.
    apply (adj_nodes g Hg x y). by apply Hp. }
  rewrite Hau. destruct (p_augment p path) as [q| |e|] eqn:Eq; cbn [cbind carry]; try done.
  assert (Hq : pairing_of g q) by (by eapply simple_augment).
  rewrite (IH q iter iter' (1 :: tag) (1 :: tag')) by done.
  pose proof (mm_post g fuel iter' (1 :: tag') q Hg Hi' Hq) as Hq1.
  destruct (maximum_matching iter' (1 :: tag') fuel g q) as [q1| |e|]; cbn [cbind carry]; try done.
  apply IH; try done. apply Hq1.
Qed.

(** *** One run *)

Section shared.
  Context (g : Graph) (o : Pairing) (Hg : Lawful g) (Hso : symmetric_pairing o).
  Context (Ho : apart g o) (Hc : clear g o).

  Lemma union_cancel p q : pairing_of g p -> pairing_of g q -> p ∪ o = q ∪ o -> p = q.
  Proof.
    intros Hp Hq E. by apply (map_union_cancel_r _ _ o); try eapply off_disjoint.
  Qed.

  Lemma shared_ok iter p q : hash_order_ok iter -> pairing_of g p ->
    matching_run iter g (p ∪ o) (Ok q) <-> exists q0, matching_run iter g p (Ok q0) /\ q = q0 ∪ o.
  Proof.
    intros Hit Hp. split.
    - intros (_ & n & Hn). specialize (Hn n ltac:(lia)).
      rewrite (mm_frame g o n Hg Hso Ho Hc p iter iter [] [] Hp Hit Hit) in Hn.
      destruct (maximum_matching iter [] n g p) as [q0| | |] eqn:E; try done. injection Hn as <-.
      exists q0. split; [|done]. by apply (run_at g Hg iter Hit p (Ok q0) n []).
    - intros (q0 & (_ & n & Hn) & ->). split; [done|]. exists n. intros fuel Hf.
      by rewrite (mm_frame g o fuel Hg Hso Ho Hc p iter iter [] [] Hp Hit Hit), Hn.
  Qed.

  Lemma shared_panic iter p e : hash_order_ok iter -> pairing_of g p ->
    matching_run iter g (p ∪ o) (Panic e) <-> matching_run iter g p (Panic e).
  Proof.
    intros Hit Hp. split; intros (_ & n & Hn); (split; [done|]); exists n; intros fuel Hf;
      specialize (Hn fuel Hf);
      rewrite (mm_frame g o fuel Hg Hso Ho Hc p iter iter [] [] Hp Hit Hit) in *.
    - by destruct (maximum_matching iter [] fuel g p).
    - by rewrite Hn.
  Qed.

  Lemma shared_diverges iter p : hash_order_ok iter -> pairing_of g p ->
    matching_diverges iter g (p ∪ o) <-> matching_diverges iter g p.
  Proof.
    intros Hit Hp. split; intros Hd fuel; specialize (Hd fuel);
      rewrite (mm_frame g o fuel Hg Hso Ho Hc p iter iter [] [] Hp Hit Hit) in *.
    - by destruct (maximum_matching iter [] fuel g p).
    - by rewrite Hd.
  Qed.
End shared.

(** *** One run after another *)

Definition in_parts (gs : list Graph) (u v : N) : Prop := exists h, h ∈ gs /\ adj h u v.

Lemma in_nodes h gs x : h ∈ gs -> x ∈ g_nodes h -> x ∈ gs ≫= g_nodes.
Proof. intros Hh Hx. apply elem_of_list_bind. by exists h. Qed.

Lemma clear_union g (p o : Pairing) : ids_clear g (fun x => exists y, p !! x = Some y) -> clear g o ->
  clear g (p ∪ o).
Proof.
  intros [?|H1] [?|H2]; [by left..|]. right. intros x (y & Hxy).
  apply lookup_union_Some_raw in Hxy as [Hxy|[_ Hxy]]; [apply H1|apply H2]; by exists y.
Qed.

Lemma clear_sub g (P Q : N -> Prop) : (forall x, P x -> Q x) -> ids_clear g Q -> ids_clear g P.
Proof. intros HPQ [?|H]; [by left|right]. intros x Hx. by apply H, HPQ. Qed.

Lemma each_max gs : forall o q, (forall h, h ∈ gs -> Lawful h) -> NoDup (gs ≫= g_nodes) ->
  symmetric_pairing o -> (forall h, h ∈ gs -> apart h o) -> (forall h, h ∈ gs -> clear h o) ->
  ids_spaced gs -> matching_each gs o q ->
  exists r, q = r ∪ o /\ r ##ₘ o /\ symmetric_pairing r /\
    (forall x y, r !! x = Some y -> in_parts gs x y) /\
    forall M, (forall u v, (u, v) ∈ M -> in_parts gs u v) -> NoDup (endpoints M) ->
      2 * length M <= p_order r.
Proof.
  induction gs as [|h gs IH]; intros o q Hg Hnd Hso Ho Hc Hsp Hrun.
  { inversion Hrun; subst. exists ∅. split_and!.
    - by rewrite (left_id_L ∅ (∪)).
    - apply map_disjoint_empty_l.
    - done.
    - done.
    - intros [|[u v] M] HM _; [simpl; lia|]. destruct (HM u v) as (h & Hh & _); [left|].
      by apply elem_of_nil in Hh. }
  inversion Hrun as [|iter ? ? ? p1 ? Hit Hh1 Hrest]; subst. clear Hrun.
  assert (Hgh : Lawful h) by (apply Hg; left).
  assert (Hin : forall h', h' ∈ gs -> h' ∈ h :: gs) by (intros; by right).
  cbn in Hnd. apply NoDup_app in Hnd as (Hndh & Hdis & Hnd).
  rewrite <-(left_id_L ∅ (∪) o) in Hh1.
  apply (shared_ok h o Hgh Hso (Ho h (elem_of_list_here _ _)) (Hc h (elem_of_list_here _ _))) in Hh1
    as (r1 & Hh1 & ->); [|done|split; done].
  assert (Hr1 : pairing_of h r1 /\ exists O Cs, cert h r1 O Cs).
  { destruct Hh1 as (_ & n & Hn). pose proof (mm_post h n iter [] ∅ Hgh Hit ltac:(split; done)) as Hpost.
    rewrite (Hn n) in Hpost by lia. apply Hpost. }
  destruct Hr1 as (Hr1 & O & Cs & Hcert).
  assert (Hr1n : forall x y, r1 !! x = Some y -> x ∈ g_nodes h).
  { intros x y Hxy. apply (adj_nodes h Hgh x y). by apply Hr1. }
  assert (Hd1 : r1 ##ₘ o) by (apply (off_disjoint h); [done|done|apply Ho; left]).
  destruct (IH (r1 ∪ o) q) as (r & -> & Hd & Hsr & Hrin & Hrmax).
  - intros h' Hh'. apply Hg. by right.
  - done.
  - apply (union_symmetric h); try done. apply Ho. left.
  - intros h' Hh' x y [Hxy|Hxy]%lookup_union_Some; [..|done].
    + intros Hx. apply (Hdis x); [by eapply Hr1n|by eapply in_nodes].
    + apply (Ho h' (Hin _ Hh') _ _ Hxy).
  - intros h' Hh'. apply clear_union; [|by apply Hc, Hin].
    apply (clear_sub h' _ (fun x => x ∈ g_nodes h)); [intros x (y & Hxy); by eapply Hr1n|].
    apply elem_of_list_lookup in Hh' as (j & Hj). apply (Hsp 0 (S j)); [lia|done|done].
  - intros i j a b Hij Ha Hb. apply (Hsp (S i) (S j)); [lia|done|done].
  - done.
  - assert (Hdr : r ##ₘ r1) by (by apply map_disjoint_union_r in Hd as [? ?]).
    assert (Hdo : r ##ₘ o) by (by apply map_disjoint_union_r in Hd as [? ?]).
    exists (r ∪ r1). split_and!.
    + by rewrite <-(assoc_L (∪)).
    + by apply map_disjoint_union_l.
    + intros x y [Hxy|Hxy]%lookup_union_Some; [..|done].
      * apply Hsr in Hxy as [? ?]. split; [by apply lookup_union_Some_l|done].
      * apply (proj1 Hr1) in Hxy as [? ?]. split; [by apply lookup_union_Some_r|done].
    + intros x y [Hxy|Hxy]%lookup_union_Some; [..|done].
      * destruct (Hrin x y Hxy) as (h' & Hh' & Ha). exists h'. split; [by right|done].
      * exists h. split; [left|]. by apply Hr1.
    + intros M HM HndM.
      set (M1 := filter (fun e : N * N => e.1 ∈ g_nodes h) M).
      set (M2 := filter (fun e : N * N => e.1 ∉ g_nodes h) M).
      assert (Hlen : length M = length M1 + length M2).
      { unfold M1, M2. clear. induction M as [|e M IH]; [done|].
        rewrite !filter_cons. destruct (decide (e.1 ∈ g_nodes h)).
        - rewrite decide_False by tauto. simpl. lia.
        - rewrite decide_True by done. simpl. lia. }
      assert (H1 : 2 * length M1 <= p_order r1).
      { destruct (cert_maximum h r1 O Cs (map_to_list r1) Hr1 (reflexivity _) Hcert) as [_ Hm].
        rewrite (p_edges_length r1 (proj1 Hr1) _ (reflexivity _)).
        assert (length M1 <= length (p_edges_of (map_to_list r1))); [|lia]. apply Hm. split.
        - intros u v [Hu Huv]%elem_of_list_filter. cbn [fst] in Hu.
          destruct (HM u v Huv) as (h' & Hh' & Ha).
          apply elem_of_cons in Hh' as [->|Hh']; [done|]. exfalso. apply (Hdis u Hu).
          apply (in_nodes h'); [done|]. apply (adj_nodes h' (Hg _ (Hin _ Hh')) u v Ha).
        - by apply endpoints_filter_nodup. }
      assert (H2 : 2 * length M2 <= p_order r).
      { apply Hrmax.
        - intros u v [Hu Huv]%elem_of_list_filter. cbn [fst] in Hu.
          destruct (HM u v Huv) as (h' & Hh' & Ha).
          apply elem_of_cons in Hh' as [->|Hh']; [|by exists h'].
          destruct Hu. by apply (adj_nodes h Hgh u v).
        - by apply endpoints_filter_nodup. }
      unfold p_order in *. rewrite map_size_disj_union by done. lia.
Qed.

Lemma parts_maximum g gs q : Lawful g -> parts_of g gs -> (forall h, h ∈ gs -> Lawful h) -> ids_spaced gs ->
  matching_each gs p_new q -> pairing_of g q /\ forall M, listed_edges q M -> maximum g M.
Proof.
  intros Hg [Hn Ha] Hgs Hsp Hrun.
  destruct (each_max gs p_new q) as (r & -> & _ & Hs & Hin & Hmax); try done.
  { rewrite Hn. apply law_nodes, Hg. }
  { intros h Hh. right. by intros x [y Hy]. }
  unfold p_new in *. rewrite (right_id_L ∅ (∪)) in *.
  assert (Hp : pairing_of g r) by (split; [done|intros u v Huv; by apply Ha, Hin]).
  split; [done|]. intros M (L & HL & ->). split.
  - by apply (pairing_matching g r L Hp HL).
  - intros M' [HM' Hnd]. pose proof (p_edges_length r Hs L HL) as El.
    assert (2 * length M' <= p_order r); [|lia].
    apply Hmax; [|done]. intros u v Huv. by apply Ha, HM'.
Qed.

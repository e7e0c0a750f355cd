(** Queries made by [maximum_matching]. *)
From Verif Require Import Outcome GraphModel TraversalModel ComponentsModel PairingModel Spec SpecWork
  GraphProofs EditProofs ConvertProofs EqProofs TraversalProofs PathLemmas PairingProofs MatchTheory MaximumModel WorkModel
  ForestProofs BlossomProofs ContractProofs LiftProofs TameProofs MaximumProofs.

(** ** The counts change nothing *)

Lemma charge_2 {A B} n (m : comp A) (k : A -> nat * comp B) :
  (charge n m k).2 = let! a := m in (k a).2.
Proof. by destruct m. Qed.

Lemma cbind_ext {A B} (m : comp A) (k k' : A -> comp B) : (forall a, k a = k' a) -> cbind m k = cbind m k'.
Proof. intros H. destruct m; cbn; auto. Qed.

Lemma search_w_erase fuel : forall v g p f m, (search_w_work fuel v g p f m).2 = search_w fuel v g p f m.
Proof.
  induction fuel as [|fuel IH]; intros v g p f m; [done|]. cbn [search_w_work search_w].
  rewrite charge_2. apply cbind_ext. intros [w|]; [|done].
  rewrite charge_2. apply cbind_ext. intros [path|].
  - destruct (Nat.odd (length path)); [done|]. rewrite charge_2. apply cbind_ext. auto.
  - rewrite charge_2. apply cbind_ext. intros f1. rewrite charge_2. apply cbind_ext. intros k.
    rewrite charge_2. apply cbind_ext. intros f2. rewrite charge_2. apply cbind_ext. auto.
Qed.

Lemma search_v_erase fuel : forall g p f m, (search_v_work fuel g p f m).2 = search_v fuel g p f m.
Proof.
  induction fuel as [|fuel IH]; intros g p f m; [done|].
  change (search_v_work (S fuel) g p f m) with
    (charge 0 (some_v f m) (fun ov =>
      match ov with
      | None => (0, Ok (Exhausted f m))
      | Some v =>
          let w := search_w_work (S fuel) v g p f m in
          charge w.1 w.2 (fun r =>
          match r with
          | EvenPath v' path_w f => (0, Ok (EvenPath v' path_w f))
          | Exhausted f m => charge 0 (mk_mark_node m v) (fun m' => search_v_work fuel g p f m')
          end)
      end)).
  cbn [search_v].
  rewrite charge_2. apply cbind_ext. intros [v|]; [|done]. cbv zeta.
  rewrite charge_2, search_w_erase. apply cbind_ext. intros [f' m'|v' pw f']; [|done].
  rewrite charge_2. apply cbind_ext. auto.
Qed.

Lemma ap_erase iter fuel : forall tag g p,
  (augmenting_path_work iter tag fuel g p).2 = augmenting_path iter tag fuel g p.
Proof.
  induction fuel as [|fuel IH]; intros tag g p; [done|].
  cbn [augmenting_path_work augmenting_path].
  destruct (mark_edges mk_new (p_edges iter (0 :: tag) p)) as [marker|e|e|]; cbn [cbind]; [|done..].
  destruct (add_roots f_new p (g_nodes g)) as [f|e|e|]; cbn [cbind]; [|done..]. cbv zeta.
  rewrite search_v_erase.
  destruct (search_v (S fuel) g p f marker) as [[f' m'|v pw f']|e|e|]; cbn [cbind]; [done| |done..].
  destruct (f_path f' v) as [opath|e|e|]; cbn [cbind]; [|done..].
  destruct (expect_some opath) as [pv|e|e|]; cbn [cbind]; [|done..].
  destruct (bool_decide (last pv = last pw)); [|done].
  destruct (expect_some (nodes_max (g_nodes g))) as [mx|e|e|]; cbn [cbind]; [|done..].
  destruct (checked_succ mx) as [id|e|e|]; cbn [cbind]; [|done..].
  destruct (b_new id pv pw) as [b|e|e|]; cbn [cbind]; [|done..].
  destruct (unwrap (b_contract_graph b g)) as [d|e|e|]; cbn [cbind]; [|done..].
  cbn [snd]. by rewrite IH.
Qed.

Lemma mm_erase iter fuel : forall tag g p,
  (maximum_matching_work iter tag fuel g p).2 = maximum_matching iter tag fuel g p.
Proof.
  induction fuel as [|fuel IH]; intros tag g p; [done|].
  cbn [maximum_matching_work maximum_matching]. cbv zeta. rewrite ap_erase.
  destruct (augmenting_path iter (0 :: tag) (S fuel) g p) as [[path|]|e|e|]; cbn [cbind]; [|done..].
  destruct (p_augment p path) as [p1|e|e|]; cbn [cbind]; [|done..].
  rewrite <-(IH (1 :: tag) g p1).
  destruct (maximum_matching_work iter (1 :: tag) fuel g p1) as [W1 [p2|e|e|]]; cbn [cbind snd fst]; [|done..].
  apply IH.
Qed.

(** ** More fuel changes nothing *)

Lemma charge_mono {A B} n (m : comp A) (k k' : A -> nat * comp B) :
  (forall a, (k a).2 <> NoFuel -> k' a = k a) -> (charge n m k).2 <> NoFuel -> charge n m k' = charge n m k.
Proof. intros H. destruct m; cbn; [|done..]. intros Hn. by rewrite H. Qed.

Lemma search_w_mono fuel : forall fuel' v g p f m, fuel <= fuel' ->
  (search_w_work fuel v g p f m).2 <> NoFuel -> search_w_work fuel' v g p f m = search_w_work fuel v g p f m.
Proof.
  induction fuel as [|fuel IH]; intros [|fuel'] v g p f m Hle; [done..|lia|]. cbn [search_w_work].
  apply charge_mono. intros [w|]; [|done]. apply charge_mono. intros [path|].
  - destruct (Nat.odd (length path)); [done|]. apply charge_mono. intros m'. apply IH. lia.
  - apply charge_mono. intros f1. apply charge_mono. intros k. apply charge_mono. intros f2.
    apply charge_mono. intros m'. apply IH. lia.
Qed.

Lemma search_v_unfold fuel g p f m : search_v_work (S fuel) g p f m =
  charge 0 (some_v f m) (fun ov =>
      match ov with
      | None => (0, Ok (Exhausted f m))
      | Some v =>
          let w := search_w_work (S fuel) v g p f m in
          charge w.1 w.2 (fun r =>
          match r with
          | EvenPath v' path_w f => (0, Ok (EvenPath v' path_w f))
          | Exhausted f m => charge 0 (mk_mark_node m v) (fun m' => search_v_work fuel g p f m')
          end)
      end).
Proof. done. Qed.

Lemma search_v_mono fuel : forall fuel' g p f m, fuel <= fuel' ->
  (search_v_work fuel g p f m).2 <> NoFuel -> search_v_work fuel' g p f m = search_v_work fuel g p f m.
Proof.
  induction fuel as [|fuel IH]; intros [|fuel'] g p f m Hle; [done..|lia|]. rewrite !search_v_unfold.
  apply charge_mono. intros [v|]; [|done]. cbv zeta. intros Hn.
  assert (Hw : (search_w_work (S fuel) v g p f m).2 <> NoFuel).
  { intros E. apply Hn. by rewrite charge_2, E. }
  rewrite (search_w_mono (S fuel) (S fuel')) by (done || lia).
  revert Hn. apply charge_mono. intros [f' m'|v' pw f']; [|done]. apply charge_mono. intros m''. apply IH. lia.
Qed.

(** ** One search of one graph *)

Section one.
  Context (g : Graph) (p : Pairing) (Hg : Lawful g) (Hp : pairing_of g p).

  (** Edges of the graph that are not marked. *)
  Definition unmarked_edges (m : Marker) : nat :=
    length (filter (fun e => mk_has_edge m e.1 e.2 = false) (g_edges g)).
  Definition both_ways (m : Marker) : Prop := forall u v, hedge m u v -> hedge m v u.

  Lemma unmarked_edges_mark m m' v w : v <> w -> adj g v w -> both_ways m -> ~ hedge m v w ->
    (forall a b, hedge m' a b <-> hedge m a b \/ (a = v /\ b = w) \/ (a = w /\ b = v)) ->
    S (unmarked_edges m') <= unmarked_edges m.
  Proof using Hg.
    intros Hne Ha Hmut Hn Hm'. unfold unmarked_edges.
    assert (Hle : forall l, length (filter (fun e : N * N => mk_has_edge m' e.1 e.2 = false) l) <=
                       length (filter (fun e : N * N => mk_has_edge m e.1 e.2 = false) l)).
    { induction l as [|[a b] l IH]; [done|]. rewrite !filter_cons. cbn [fst snd].
      destruct (decide (mk_has_edge m' a b = false)) as [E|E];
        destruct (decide (mk_has_edge m a b = false)) as [E'|E']; simpl; try lia.
      apply not_false_iff_true in E'. assert (H : hedge m' a b) by (apply Hm'; by left).
      unfold hedge in H. congruence. }
    assert (Hin : exists a b, (a, b) ∈ g_edges g /\ ~ hedge m a b /\ hedge m' a b).
    { destruct (law_edges_complete g Hg v w Hne Ha) as [H|H].
      - exists v, w. split_and!; [done|done|]. apply Hm'. tauto.
      - exists w, v. split_and!; [done|by intros ?%Hmut|]. apply Hm'. tauto. }
    destruct Hin as (a & b & (l1 & l2 & ->)%elem_of_list_split & Hab & Hab').
    rewrite !filter_app, !filter_cons, !app_length. cbn [fst snd].
    rewrite (decide_True (P := mk_has_edge m a b = false)) by (by apply not_true_iff_false).
    rewrite (decide_False (P := mk_has_edge m' a b = false)) by (unfold hedge in Hab'; congruence).
    cbn [length]. pose proof (Hle l1). pose proof (Hle l2). lia.
  Qed.

  Lemma search_w_cost fuel : forall v f m, FInv g p f -> MInv g p (f_parents f) m -> both_ways m ->
    even_in (f_parents f) v ->
    let r := search_w_work fuel v g p f m in
    r.1 <= S (unmarked_edges m) /\
    forall f' m', r.2 = Ok (Exhausted f' m') -> r.1 + unmarked_edges m' <= S (unmarked_edges m) /\ both_ways m'.
  Proof using Hg Hp.
    induction fuel as [|fuel IH]; intros v f m HF HM Hmut Hv; [cbn; split; [lia|done]|].
    cbv zeta.
    assert (Hvn : v ∈ g_nodes g) by (apply (finv_nodes g p f Hg Hp HF); destruct Hv; by eexists).
    cbn [search_w_work]. rewrite (some_w_spec g Hg) by done. cbn [charge].
    destruct (pending g v m) as [|w rest] eqn:Ep; cbn [head].
    { cbn [fst snd]. split; [lia|]. intros f' m' [= <- <-]. split; [lia|done]. }
    assert (Hwp : w ∈ pending g v m) by (rewrite Ep; left).
    apply elem_of_pending in Hwp as [Hvw Hnm].
    destruct (mark_edge_ok m v w Hnm) as (m' & Hmark & Hnodes & Hedges).
    assert (Hmut' : both_ways m').
    { intros a b [H|[[-> ->]|[-> ->]]]%Hedges; apply Hedges; [left; by apply Hmut|tauto|tauto]. }
    assert (Hgo : forall f', FInv g p f' -> MInv g p (f_parents f') m' -> even_in (f_parents f') v ->
      v <> w ->
      let r := search_w_work fuel v g p f' m' in
      S r.1 <= S (unmarked_edges m) /\
      forall f'' m'', r.2 = Ok (Exhausted f'' m'') -> S r.1 + unmarked_edges m'' <= S (unmarked_edges m) /\ both_ways m'').
    { intros f' HF' HM' Hv' Hne. pose proof (unmarked_edges_mark m m' v w Hne Hvw Hmut Hnm Hedges).
      destruct (IH v f' m' HF' HM' Hmut' Hv') as [H1 H2]. cbv zeta. split; [lia|].
      intros f'' m'' E. destruct (H2 f'' m'' E). split; [lia|done]. }
    destruct (f_parents f !! w) as [e|] eqn:Ew.
    - destruct (fi_path _ _ _ HF w) as [pw Hpw]; [by eexists|].
      pose proof (f_path_some g p f HF w pw Hpw) as Hfp. rewrite Hfp. cbn [charge].
      destruct (Nat.odd (length pw)) eqn:Eo.
      { cbn [fst snd]. split; [lia|done]. }
      assert (Hwo : odd_in (f_parents f) w).
      { destruct (even_or_odd (f_parents f) w) as [He|?]; [by eexists| |done].
        apply (fpath_even_odd g p f Hg HF w pw Hpw) in He. congruence. }
      rewrite Hmark. cbn [charge fst snd]. apply Hgo; [done| |done|].
      + by eapply (minv_mark g p _ _ m m' v w).
      + intros ->. by eapply even_odd_excl.
    - assert (Hm : exists k, p !! w = Some k).
      { destruct (p !! w) as [k|] eqn:Ek; [by eexists|]. exfalso.
        destruct (fi_free _ _ _ HF w) as [? ?]; [by eapply law_adj_node|done|congruence]. }
      destruct Hm as [k Hk].
      destruct (f_grow g p Hg Hp f v w k HF Hv Hvw Ew Hk) as (f' & Hgrow & HF' & Hsub & Hwo).
      rewrite (f_path_none f w Ew). cbn [charge].
      destruct (f_add_edge f v w) as [f1| | |] eqn:Ef1; cbn [cbind] in Hgrow; try done.
      cbn [charge]. unfold p_mate. rewrite Hk. cbn [charge]. rewrite Hgrow. cbn [charge].
      rewrite Hmark. cbn [charge fst snd]. apply Hgo; [done| | |].
      + by eapply (minv_mark g p _ _ m m' v w).
      + by eapply even_mono.
      + intros ->. destruct Hv as [o Ho]. congruence.
  Qed.

  Lemma search_v_cost fuel : forall f m, FInv g p f -> MInv g p (f_parents f) m -> both_ways m ->
    (search_v_work fuel g p f m).1 <= unmarked_edges m + unmarked g m.
  Proof using Hg Hp.
    induction fuel as [|fuel IH]; intros f m HF HM Hmut; [cbn; lia|]. rewrite search_v_unfold.
    unfold some_v.
    destruct (find_v_spec g p f m (f_nodes f) HF) as [(v & Hfind & Hvn & Hve & Hvm)|[Hfind Hall]].
    { intros x Hx. by apply (fi_dom _ _ _ HF). }
    2:{ rewrite Hfind. cbn. lia. }
    rewrite Hfind. cbn [charge fst snd].
    assert (Hvg : v ∈ g_nodes g) by (apply (finv_nodes g p f Hg Hp HF); destruct Hve; by eexists).
    assert (Hpos : 1 <= unmarked g m).
    { unfold unmarked. assert (Hv' : v ∈ filter (fun x => x ∉ mk_nodes m) (g_nodes g)) by (by apply elem_of_list_filter).
      destruct (filter (fun x => x ∉ mk_nodes m) (g_nodes g)); [by apply elem_of_nil in Hv'|simpl; lia]. }
    destruct (search_w_cost (S fuel) v f m HF HM Hmut Hve) as [Hc1 Hc2].
    set (r := search_w_work (S fuel) v g p f m) in *. cbv zeta in *.
    destruct r as [c res] eqn:Er. cbn [fst snd] in *.
    destruct res as [[f' m'|v' pw f']|e|e|]; cbn [charge fst snd]; [|lia..].
    destruct (Hc2 f' m' eq_refl) as [Hc3 Hmut'].
    destruct (degree_bound_exists g Hg) as (D & H0 & HD).
    destruct (search_w_spec g p Hg Hp D v f m (pending_bound g D v m HD H0) HF HM Hve) as (r' & [_ Hw2] & Hr').
    assert (E : search_w (S fuel) v g p f m = Ok (Exhausted f' m')).
    { rewrite <-search_w_erase. subst r. by rewrite Er. }
    destruct (Hw2 (S fuel)) as [E'|E']; rewrite E in E'; [done|]. injection E' as <-.
    destruct Hr' as ((HF' & HM' & Hve' & Hmn & Hsc) & Hsub).
    assert (Hvm' : v ∉ mk_nodes m') by (by rewrite Hmn).
    unfold mk_mark_node. rewrite bool_decide_eq_false_2 by done. cbn [charge fst snd].
    set (m'' := mkMarker ({[v]} ∪ mk_nodes m') (mk_edges m')).
    assert (HM'' : MInv g p (f_parents f') m'').
    { constructor; [apply HM'|apply HM'|].
      intros x [->%elem_of_singleton|Hx]%elem_of_union; [done|]. by apply HM'. }
    specialize (IH f' m'' HF' HM'' Hmut').
    assert (Hue : unmarked_edges m'' = unmarked_edges m') by done.
    assert (Hun : S (unmarked g m'') <= unmarked g m).
    { unfold unmarked. apply elem_of_list_split in Hvg as (l1 & l2 & Heq).
      assert (Hin'' : forall x, x ∈ mk_nodes m'' <-> x = v \/ x ∈ mk_nodes m).
      { intros x. unfold m''. cbn [mk_nodes]. by rewrite elem_of_union, elem_of_singleton, Hmn. }
      assert (Hle : forall l, length (filter (fun x => x ∉ mk_nodes m'') l) <=
                         length (filter (fun x => x ∉ mk_nodes m) l)).
      { clear -Hin''. induction l as [|x l IHl]; [done|]. rewrite !filter_cons.
        repeat case_decide; cbn [length]; try lia. exfalso. specialize (Hin'' x).
        destruct (decide (x ∈ mk_nodes m)); tauto. }
      rewrite Heq, !filter_app, !filter_cons, !app_length.
      rewrite (decide_True (P := v ∉ mk_nodes m)) by done.
      rewrite (decide_False (P := v ∉ mk_nodes m'')).
      2:{ rewrite Hin''. tauto. }
      cbn [length]. pose proof (Hle l1). pose proof (Hle l2). lia. }
    lia.
  Qed.
End one.

(** ** One search with its contractions *)

Lemma contracted_smaller g p B c l2 b d : Lawful g -> WF d -> Bloss g p B c l2 ->
  g_nodes (as_graph d) = b :: filter (fun x => x ∉ B) (g_nodes g) ->
  (forall x y, adj (as_graph d) x y <-> made B b (g_edges g) x y) ->
  g_size (as_graph d) <= g_size g /\ g_order (as_graph d) <= g_order g.
Proof.
  intros Hg Hwf HB Hn Ha. pose proof (wf_lawful d Hwf) as Hg'. split.
  - rewrite (law_size g Hg), (law_size _ Hg'). change (g_edges (as_graph d)) with (dg_edges d).
    rewrite <-(fmap_length norm (dg_edges d)).
    set (σ := fun x => if bool_decide (x ∈ B) then b else x).
    rewrite <-(fmap_length (fun e : N * N => norm (σ e.1, σ e.2)) (g_edges g)).
    apply submseteq_length, NoDup_submseteq; [by apply wf_norm_nodup|].
    intros e ([x y] & -> & Hin)%elem_of_list_fmap.
    assert (Hxy : adj (as_graph d) x y) by (by apply (law_edges_adj _ Hg')).
    apply Ha in Hxy as (s & t & Hst & _ & Hor). apply elem_of_list_fmap. exists (s, t). split; [|done].
    cbn [fst snd]. apply norm_same_edge. destruct Hor as [[-> ->]|[-> ->]]; [by left|by right].
  - rewrite (law_order g Hg), (law_order _ Hg'), Hn. cbn [length].
    rewrite (length_filter_split (fun x => x ∉ B) (g_nodes g)).
    assert (c ∈ filter (fun x : N => ~ (x ∉ B)) (g_nodes g)) as Hc.
    { apply elem_of_list_filter. split; [|by apply HB, HB]. intros H. apply H, HB. }
    destruct (filter (fun x : N => ~ (x ∉ B)) (g_nodes g)); [by apply elem_of_nil in Hc|]. cbn [length]. lia.
Qed.

(** What a search costs, for any iteration order. *)
Definition search_costs (g : Graph) (p : Pairing) (C : list nat) : Prop :=
  exists n, forall iter tag fuel, hash_order_ok iter -> n <= fuel ->
    (augmenting_path_work iter tag fuel g p).1 = C.

Lemma mutual_start p : symmetric_pairing p -> both_ways (marker0 p).
Proof.
  intros Hs u v. rewrite !hedge_alt. unfold marker0. cbn [mk_edges].
  intros (l & Hl & Hv). rewrite lookup_fmap in Hl. destruct (p !! u) as [w|] eqn:Hu; [|done].
  cbn in Hl. simplify_eq. apply elem_of_list_singleton in Hv as ->.
  exists [u]. rewrite lookup_fmap. split; [|left]. apply Hs in Hu as [Hu _]. by rewrite Hu.
Qed.

Lemma ap_work_spec g p : Lawful g -> pairing_of g p ->
  exists C, search_costs g p C /\ 1 <= length C <= 1 + measure g /\
    (forall c, c ∈ C -> c <= g_order g + g_size g) /\
    ((forall c, ~ odd_cycle g c) -> length C = 1).
Proof.
  remember (measure g) as k eqn:Hk. revert g p Hk.
  induction k as [k IHk] using lt_wf_ind; intros g p Hk Hg Hp.
  destruct (search_start g p Hg Hp) as (f & n & r & Hf & [Hs1 Hs2] & Hr).
  set (c0 := (search_v_work n g p f (marker0 p)).1).
  assert (Hsv : forall fuel, n <= fuel -> search_v_work fuel g p f (marker0 p) = (c0, Ok r)).
  { intros fuel Hfu. assert (E : (search_v_work n g p f (marker0 p)).2 = Ok r).
    { rewrite search_v_erase. by apply Hs1. }
    rewrite (search_v_mono n fuel) by (done || by rewrite E).
    unfold c0. rewrite <-E. by destruct (search_v_work n g p f (marker0 p)). }
  assert (Hc0 : c0 <= g_order g + g_size g).
  { destruct (forest_start g p Hg) as (f' & Hf' & HF). rewrite Hf in Hf'. simplify_eq.
    pose proof (search_v_cost g p Hg Hp n f' (marker0 p) HF (marker0_inv g p _) (mutual_start p (proj1 Hp))) as H.
    fold c0 in H. rewrite (law_order g Hg), (law_size g Hg).
    assert (unmarked_edges g (marker0 p) <= length (g_edges g)) by apply filter_length.
    assert (unmarked g (marker0 p) <= length (g_nodes g)) by apply filter_length. lia. }
  assert (Hunf : forall iter tag fuel, hash_order_ok iter -> n <= S fuel ->
    augmenting_path_work iter tag (S fuel) g p =
    match (match r with
           | Exhausted _ _ => Ok (inl None)
           | EvenPath v path_w forest =>
               let! opath := f_path forest v in
               let! path_v := expect_some opath in
               if bool_decide (last path_v = last path_w) then
                 let! max_id := expect_some (nodes_max (g_nodes g)) in
                 let! id := checked_succ max_id in
                 let! blossom := b_new id path_v path_w in
                 let! contracted_graph := unwrap (b_contract_graph blossom g) in
                 Ok (inr (blossom, contracted_graph))
               else Ok (inl (Some (reverse path_v ++ path_w)))
           end) with
    | Ok (inl found) => ([c0], Ok found)
    | Ok (inr (blossom, contracted_graph)) =>
        let contracted_pairing := b_contract_pairing blossom (p_edges iter (1 :: tag) p) in
        let w := augmenting_path_work iter (2 :: tag) fuel (as_graph contracted_graph) contracted_pairing in
        (c0 :: w.1,
         let! opath := w.2 in
         match opath with
         | Some path => let! lifted := b_lift (S fuel) blossom path g in Ok (Some lifted)
         | None => Ok None
         end)
    | Err e => ([c0], Err e)
    | Panic e => ([c0], Panic e)
    | NoFuel => ([c0], NoFuel)
    end).
  { intros iter tag fuel Hit Hfu. cbn [augmenting_path_work]. unfold p_edges at 1.
    rewrite (marker_start g p Hp) by apply Hit. cbn [cbind]. rewrite Hf. cbn [cbind].
    rewrite Hsv by lia. done. }
  assert (Hsingle : (forall iter tag fuel, hash_order_ok iter -> n <= S fuel ->
      (augmenting_path_work iter tag (S fuel) g p).1 = [c0]) ->
    exists C, search_costs g p C /\ 1 <= length C <= 1 + k /\
      (forall c, c ∈ C -> c <= g_order g + g_size g) /\ ((forall c, ~ odd_cycle g c) -> length C = 1)).
  { intros H. exists [c0]. split_and!; [|cbn; lia|cbn; lia| |done].
    - exists (S n). intros iter tag [|fuel] Hit Hfu; [lia|]. apply H; [done|lia].
    - intros c ->%elem_of_list_singleton. done. }
  destruct r as [f' m'|v pw f'].
  { apply Hsingle. intros iter tag fuel Hit Hfu. by rewrite Hunf. }
  destruct Hr as (HF & Hv & w & Hw & Hvw & Hpw).
  destruct (even_in_path g p f' Hg HF v Hv) as (pv & Hpv & _ & _).
  pose proof (f_path_some g p f' HF v pv Hpv) as Hfp. rewrite Hfp in Hunf. cbn [cbind expect_some] in Hunf.
  destruct (decide (last pv = last pw)) as [Hl|Hl].
  2:{ apply Hsingle. intros iter tag fuel Hit Hfu. rewrite Hunf by done.
      rewrite bool_decide_eq_false_2 by done. done. }
  rewrite bool_decide_eq_true_2 in Hunf by done.
  destruct (found_blossom g p Hg Hp f' v w pv pw HF Hv Hw Hvw Hpv Hpw Hl) as (B & c & l2 & Hbp & HB).
  pose proof (nodes_max_spec (g_nodes g)) as Hmax.
  destruct (nodes_max (g_nodes g)) as [m|] eqn:Em; cbn [cbind expect_some] in Hunf.
  2:{ apply Hsingle. intros iter tag fuel Hit Hfu. by rewrite Hunf by done. }
  destruct Hmax as [Hm Hle]. unfold checked_succ in Hunf.
  destruct (N.ltb m usize_max) eqn:Elt; cbn [cbind] in Hunf.
  2:{ apply Hsingle. intros iter tag fuel Hit Hfu. by rewrite Hunf by done. }
  set (b := (m + 1)%N) in *.
  assert (Hb : b ∈ g_nodes g -> b ∈ B).
  { intros Hb. specialize (Hle b Hb). unfold b in Hle. lia. }
  destruct (contract_graph_spec g Hg B b Hb) as (d & Hd & Hwf & Hn & Ha).
  unfold b_new in Hunf. rewrite Hbp in Hunf. cbn [cbind] in Hunf. rewrite Hd in Hunf. cbn [unwrap cbind] in Hunf.
  set (g' := as_graph d) in *. assert (Hg' : Lawful g') by (by apply wf_lawful).
  set (p' := b_contract_pairing (mkBlossom b B) (p_edges_of (map_to_list p))).
  assert (Hp' : pairing_of g' p') by (by apply (p'_pairing g p Hg Hp B c l2 HB b Hb g' Ha)).
  pose proof (measure_shrinks g p B c l2 b g' Hg Hg' HB Hb Hn Ha) as Hmeas.
  destruct (IHk (measure g')) with (g := g') (p := p') as (C & [n' HC] & Hlen & Hbound & _); [lia|done|done|done|].
  destruct (contracted_smaller g p B c l2 b d Hg Hwf HB Hn Ha) as [Hsz Hor].
  exists (c0 :: C). split_and!.
  - exists (S (n + n')). intros iter tag [|fuel] Hit Hfu; [lia|]. rewrite Hunf by (done || lia). cbn [fst].
    f_equal. replace (b_contract_pairing _ (p_edges iter (1 :: tag) p)) with p'; [apply HC; [done|lia]|].
    unfold p', p_edges. by eapply (contract_pairing_indep g p B c l2 b).
  - cbn [length]. lia.
  - cbn [length]. lia.
  - intros x [->|Hx]%elem_of_cons; [done|]. specialize (Hbound x Hx). fold g' in Hsz, Hor. lia.
  - intros Hno. exfalso. by apply (Hno B), HB.
Qed.

(** ** The whole run *)

Section whole.
  Context (g : Graph) (Hg : Lawful g) (iter : hash_order) (Hit : hash_order_ok iter).

  (** A search of [g]: not too many graphs, not too many calls on each. *)
  Definition fair (C : list nat) : Prop := 1 <= length C <= 1 + measure g /\
    (forall c, c ∈ C -> c <= g_order g + g_size g) /\ ((forall c, ~ odd_cycle g c) -> length C = 1).

  (** Result and cost of a search, whatever the order. *)
  Lemma ap_both p res : pairing_of g p ->
    (exists n, forall fuel tag, n <= fuel -> augmenting_path iter tag fuel g p = res) ->
    exists C, fair C /\ exists n, forall iter' fuel tag, hash_order_ok iter' -> n <= fuel ->
      augmenting_path_work iter' tag fuel g p = (C, res).
  Proof using Hg Hit.
    intros Hp [n Hn]. destruct (ap_work_spec g p Hg Hp) as (C & [n' HC] & Hf). exists C. split; [done|].
    exists (n + n'). intros iter' fuel tag Hit' Hfu.
    rewrite (surjective_pairing (augmenting_path_work iter' tag fuel g p)). f_equal; [apply HC; [done|lia]|].
    rewrite ap_erase, (ap_indep fuel g p iter' iter tag tag) by done. apply Hn. lia.
  Qed.

  Lemma work_return p paths q : pairing_of g p -> rounds iter g p paths q -> search_is iter g q None ->
    exists W, length W = 2 * length paths + 1 /\ (forall s, s ∈ W -> fair s) /\
      exists n, forall iter' fuel tag, hash_order_ok iter' -> n <= fuel ->
        maximum_matching_work iter' tag fuel g p = (W, Ok q).
  Proof using Hg Hit.
    intros Hp Hr Hq.
    assert (Hend : pairing_of g q -> exists C, fair C /\ exists n, forall iter' fuel tag, hash_order_ok iter' -> n <= fuel ->
      maximum_matching_work iter' tag fuel g q = ([C], Ok q)).
    { intros Hqg. destruct (ap_both q (Ok None) Hqg Hq) as (C & HC & n & Hn). exists C. split; [done|].
      exists (S n). intros iter' [|fuel] tag Hit' Hfu; [lia|]. cbn [maximum_matching_work]. cbv zeta.
      by rewrite Hn by (done || lia). }
    induction Hr as [q|p path p1 paths q Hs Ha Hr IH].
    { destruct (Hend Hp) as (C & HC & Hn). exists [C]. split; [done|]. split; [|done].
      by intros s ->%elem_of_list_singleton. }
    assert (Hp1 : pairing_of g p1) by (by eapply search_step).
    destruct IH as (W & HW & Hfair & n & Hn); [done|done|done|].
    assert (Hqg : pairing_of g q) by (by eapply rounds_pairing).
    destruct (Hend Hqg) as (Cq & HCq & nq & Hnq).
    destruct (ap_both p (Ok (Some path)) Hp Hs) as (C & HC & n0 & Hn0).
    exists (C :: W ++ [Cq]). split_and!.
    - cbn [length]. rewrite app_length. cbn [length]. lia.
    - intros s [->|[Hs'| ->%elem_of_list_singleton]%elem_of_app]%elem_of_cons; auto.
    - exists (S (n0 + n + nq)). intros iter' [|fuel] tag Hit' Hfu; [lia|]. cbn [maximum_matching_work]. cbv zeta.
      rewrite Hn0 by (done || lia). cbn [snd fst]. rewrite Ha. rewrite Hn by (done || lia). cbn [snd fst].
      by rewrite Hnq by (done || lia).
  Qed.

  Lemma work_panic p paths q e : pairing_of g p -> rounds iter g p paths q ->
    (search_panics iter g q e \/ exists path, search_is iter g q (Some path) /\ p_augment q path = Panic e) ->
    exists W, length W = length paths + 1 /\ (forall s, s ∈ W -> fair s) /\
      exists n, forall iter' fuel tag, hash_order_ok iter' -> n <= fuel ->
        maximum_matching_work iter' tag fuel g p = (W, Panic e).
  Proof using Hg Hit.
    intros Hp Hr Hq. induction Hr as [q|p path p1 paths q Hs Ha Hr IH].
    { destruct Hq as [Hq|(path & Hq & Ha)].
      - destruct (ap_both q (Panic e) Hp Hq) as (C & HC & n & Hn). exists [C]. split_and!; [done| |].
        + by intros s ->%elem_of_list_singleton.
        + exists (S n). intros iter' [|fuel] tag Hit' Hfu; [lia|]. cbn [maximum_matching_work]. cbv zeta.
          by rewrite Hn by (done || lia).
      - destruct (ap_both q (Ok (Some path)) Hp Hq) as (C & HC & n & Hn). exists [C]. split_and!; [done| |].
        + by intros s ->%elem_of_list_singleton.
        + exists (S n). intros iter' [|fuel] tag Hit' Hfu; [lia|]. cbn [maximum_matching_work]. cbv zeta.
          rewrite Hn by (done || lia). cbn [fst snd]. by rewrite Ha. }
    assert (Hp1 : pairing_of g p1) by (by eapply search_step).
    destruct IH as (W & HW & Hfair & n & Hn); [done|done|].
    destruct (ap_both p (Ok (Some path)) Hp Hs) as (C & HC & n0 & Hn0).
    exists (C :: W). split_and!.
    - cbn [length]. lia.
    - intros s [->|Hs']%elem_of_cons; auto.
    - exists (S (n0 + n)). intros iter' [|fuel] tag Hit' Hfu; [lia|]. cbn [maximum_matching_work]. cbv zeta.
      rewrite Hn0 by (done || lia). cbn [snd fst]. rewrite Ha. by rewrite Hn by (done || lia).
  Qed.
End whole.

Lemma fair_calls g W : (forall s, s ∈ W -> fair g s) ->
  all_calls W <= length W * ((1 + measure g) * (g_order g + g_size g)) /\
  calls_on_graph W <= length W * (g_order g + g_size g).
Proof.
  intros HW. unfold all_calls, calls_on_graph. induction W as [|s W IH]; [done|].
  destruct IH as [H1 H2]; [intros; apply HW; by right|].
  destruct (HW s) as ((_ & Hlen) & Hc & _); [left|]. cbn [fmap list_fmap sum_list_with length].
  assert (Hs : forall l, (forall c, c ∈ l -> c <= g_order g + g_size g) ->
    sum_list l <= length l * (g_order g + g_size g)).
  { clear. induction l as [|c l IH]; intros Hl; [done|]. cbn [sum_list_with length].
    assert (c <= g_order g + g_size g) by (apply Hl; left).
    assert (sum_list l <= length l * (g_order g + g_size g)) by (apply IH; intros; apply Hl; by right).
    unfold id in *. lia. }
  specialize (Hs s Hc). split.
  - assert (length s * (g_order g + g_size g) <= (1 + measure g) * (g_order g + g_size g)).
    { apply Nat.mul_le_mono_r. done. }
    set (Y := (1 + measure g) * (g_order g + g_size g)) in *. unfold id in *. lia.
  - assert (match s with [] => 0 | c :: _ => c end <= g_order g + g_size g).
    { destruct s; [lia|]. apply Hc. left. }
    unfold id in *. lia.
Qed.

(** The search for one augmenting path, and the whole of [maximum_matching]. *)
From Verif Require Import Outcome GraphModel TraversalModel ComponentsModel PairingModel Spec
  GraphProofs EditProofs TraversalProofs PathLemmas PairingProofs MatchTheory MaximumModel
  ForestProofs BlossomProofs ContractProofs LiftProofs TameProofs.

Lemma nodes_max_spec l :
  match nodes_max l with
  | None => l = []
  | Some m => m ∈ l /\ forall x, x ∈ l -> (x <= m)%N
  end.
Proof.
  induction l as [|y l IH]; [done|]. cbn [nodes_max]. destruct (nodes_max l) as [m|].
  - destruct IH as [Hm Hle]. split.
    + destruct (N.max_spec y m) as [[_ ->]|[_ ->]]; [by right|left].
    + intros x [->|Hx]%elem_of_cons; [lia|]. specialize (Hle x Hx). lia.
  - subst. split; [left|]. intros x ->%elem_of_list_singleton. lia.
Qed.

Definition measure (g : Graph) : nat := length (g_nodes g) + length (looped g).

Lemma elem_of_looped g v : Lawful g -> v ∈ looped g <-> adj g v v.
Proof.
  intros Hg. unfold looped. rewrite elem_of_list_filter. split.
  - intros [He Hv]. destruct (law_has_edge g Hg v v Hv Hv) as (r & Hr & Hadj).
    apply Hadj. congruence.
  - intros Hv. assert (Hn : v ∈ g_nodes g) by (by eapply law_adj_node).
    split; [|done]. destruct (law_has_edge g Hg v v Hn Hn) as (r & Hr & Hadj).
    rewrite Hr. f_equal. by apply Hadj.
Qed.

Lemma measure_shrinks g p B c l2 b g' : Lawful g -> Lawful g' -> Bloss g p B c l2 ->
  (b ∈ g_nodes g -> b ∈ B) ->
  g_nodes g' = b :: filter (fun x => x ∉ B) (g_nodes g) ->
  (forall x y, adj g' x y <-> made B b (g_edges g) x y) ->
  measure g' < measure g.
Proof.
  intros Hg Hg' HB Hb Hn Ha. unfold measure.
  assert (HndL : NoDup (looped g)) by (apply NoDup_filter, Hg).
  assert (HndL' : NoDup (looped g')) by (apply NoDup_filter, Hg').
  assert (Hsub : forall x, x ∈ looped g' -> x ∈ looped g /\ x ∉ B).
  { intros x. rewrite !elem_of_looped by done. intros Hx.
    destruct (decide (x = b)) as [->|Hxb].
    - destruct (adj_b_down g Hg B b Hb g' Ha b Hx); done.
    - destruct (adj_out_down g Hg B b g' Ha x x Hx Hxb Hxb); tauto. }
  assert (HL : length (looped g') <= length (looped g)).
  { apply submseteq_length, NoDup_submseteq; [done|]. intros x Hx. by apply Hsub. }
  destruct (bl_cycle _ _ _ _ _ HB) as (HndB & Hodd & _ & Hclose).
  assert (HN : length (g_nodes g') + length B = S (length (g_nodes g))).
  { rewrite Hn. cbn [length].
    rewrite (length_filter_split (fun x => x ∉ B) (g_nodes g)).
    assert (filter (fun x : N => ~ (x ∉ B)) (g_nodes g) ≡ₚ B) as ->; [|lia].
    apply NoDup_Permutation; [apply NoDup_filter, Hg|done|].
    intros x. rewrite elem_of_list_filter. split.
    - intros [H _]. destruct (decide (x ∈ B)); tauto.
    - intros Hx. split; [tauto|]. by apply HB. }
  destruct B as [|x [|y B']]; [done| |].
  - (* a self-loop *)
    assert (Hx : x ∈ looped g) by (apply elem_of_looped; [done|]; by apply Hclose).
    assert (S (length (looped g')) <= length (looped g)).
    { change (length (x :: looped g') <= length (looped g)).
      apply submseteq_length, NoDup_submseteq.
      - apply NoDup_cons. split; [|done]. intros [_ H]%Hsub. apply H. left.
      - intros z [->|Hz]%elem_of_cons; [done|]. by apply Hsub. }
    simpl in HN. lia.
  - destruct B' as [|z B']; [done|]. simpl in HN. lia.
Qed.

(** The contracted pairing does not depend on the iteration order. *)
Lemma contract_pairing_indep g p B c l2 b L1 L2 : Lawful g -> pairing_of g p -> Bloss g p B c l2 ->
  (b ∈ g_nodes g -> b ∈ B) -> L1 ≡ₚ map_to_list p -> L2 ≡ₚ map_to_list p ->
  b_contract_pairing (mkBlossom b B) (p_edges_of L1) = b_contract_pairing (mkBlossom b B) (p_edges_of L2).
Proof.
  intros Hg Hp HB Hb H1 H2. apply map_eq. intros x. apply option_eq. intros y.
  by rewrite (p'_lookup g p Hg Hp B c l2 HB b Hb L1 H1), (p'_lookup g p Hg Hp B c l2 HB b Hb L2 H2).
Qed.

(** What the result of a search means. *)
Definition ap_post (g : Graph) (p : Pairing) (res : comp (option (list N))) : Prop :=
  match res with
  | Ok None => exists O Cs, cert g p O Cs
  | Ok (Some path) => simple g path /\ path <> [] /\
      (exists M, matching g M /\ p_order p < 2 * length M) /\
      (tame g -> covers g p path) /\
      (separated_odd_cycles g -> Nat.even (length path) = true)
  | Panic POverflow => ~ id_room g /\ exists c, odd_cycle g c
  | _ => False
  end.

Lemma augments_bigger g p path : Lawful g -> pairing_of g p -> augments p path -> is_path g path ->
  path <> [] -> exists M, matching g M /\ p_order p < 2 * length M.
Proof.
  intros Hg Hp Hau Hpath Hne.
  destruct (augment_spec p path (proj1 Hp) Hau Hne) as (q & Hq & Hs & Hpairs & Hout & _ & Hord).
  assert (Hqg : pairing_of g q).
  { destruct Hau as (Hnd & Hev & _). rewrite augment_even in Hq by done. injection Hq as <-.
    apply pair_up_pairing_of; try done. intros a b0 (i & Ha & Hb)%path_pairs_elem. by eapply Hpath. }
  exists (p_edges_of (map_to_list q)). split; [by eapply pairing_matching|].
  rewrite <-(p_edges_length q Hs _ (reflexivity _)). lia.
Qed.

(** *** One search, with its blossom *)

Section step.
  Context (g : Graph) (p : Pairing) (Hg : Lawful g) (Hp : pairing_of g p).

  Definition continue (iter : hash_order) (tag : list nat) (fuel : nat) (r : search)
      : comp (option (list N)) :=
    match r with
    | Exhausted _ _ => Ok None
    | EvenPath v path_w forest =>
        let! opath := f_path forest v in
        let! path_v := expect_some opath in
        if bool_decide (last path_v = last path_w) then
          let! max_id := expect_some (nodes_max (g_nodes g)) in
          let! id := checked_succ max_id in
          let! blossom := b_new id path_v path_w in
          let! contracted_graph := unwrap (b_contract_graph blossom g) in
          let contracted_pairing := b_contract_pairing blossom (p_edges iter (1 :: tag) p) in
          let! opath := augmenting_path iter (2 :: tag) fuel
                          (as_graph contracted_graph) contracted_pairing in
          match opath with
          | Some path => let! lifted := b_lift (S fuel) blossom path g in Ok (Some lifted)
          | None => Ok None
          end
        else Ok (Some (reverse path_v ++ path_w))
    end.

  Lemma ap_unfold iter tag fuel f : hash_order_ok iter ->
    add_roots f_new p (g_nodes g) = Ok f ->
    augmenting_path iter tag (S fuel) g p =
      let! r := search_v (S fuel) g p f (marker0 p) in continue iter tag fuel r.
  Proof.
    intros Hit Hf. cbn [augmenting_path]. unfold p_edges at 1.
    rewrite (marker_start g p Hp) by apply Hit. cbn [cbind]. rewrite Hf. done.
  Qed.

  (** Everything a found pair of even nodes leads to. *)
  Inductive outcome (v : N) (pw : list N) (f : Forest) : Prop :=
  | out_path pv :
      (forall iter tag fuel, continue iter tag fuel (EvenPath v pw f) =
         Ok (Some (reverse pv ++ pw))) ->
      augments p (reverse pv ++ pw) -> is_path g (reverse pv ++ pw) ->
      (forall x, x ∈ reverse pv ++ pw -> x ∈ g_nodes g) -> 2 <= length (reverse pv ++ pw) ->
      fpath (f_parents f) v pv ->
      outcome v pw f
  | out_overflow m :
      (forall iter tag fuel, continue iter tag fuel (EvenPath v pw f) = Panic POverflow) ->
      m ∈ g_nodes g -> (usize_max <= m)%N ->
      (exists c, odd_cycle g c) ->
      outcome v pw f
  | out_blossom B c l2 b d :
      Bloss g p B c l2 -> (b ∈ g_nodes g -> b ∈ B) ->
      (forall x, x ∈ g_nodes g -> (x < b)%N) -> (exists m, m ∈ g_nodes g /\ b = (m + 1)%N) ->
      WF d -> g_nodes (as_graph d) = b :: filter (fun x => x ∉ B) (g_nodes g) ->
      (forall x y, adj (as_graph d) x y <-> made B b (g_edges g) x y) ->
      (forall iter tag fuel, hash_order_ok iter -> continue iter tag fuel (EvenPath v pw f) =
         let! opath := augmenting_path iter (2 :: tag) fuel (as_graph d)
           (b_contract_pairing (mkBlossom b B) (p_edges_of (map_to_list p))) in
         match opath with
         | Some path => let! lifted := b_lift (S fuel) (mkBlossom b B) path g in Ok (Some lifted)
         | None => Ok None
         end) ->
      (exists c, odd_cycle g c) ->
      (exists pv, fpath (f_parents f) v pv /\ blossom_path pv pw = Some B) ->
      outcome v pw f.

  Lemma found_outcome v pw f : found g p v pw f -> outcome v pw f.
  Proof.
    intros (HF & Hv & w & Hw & Hvw & Hpw).
    destruct (even_in_path g p f Hg HF v Hv) as (pv & Hpv & _ & _).
    pose proof (f_path_some g p f HF v pv Hpv) as Hfp.
    destruct (decide (last pv = last pw)) as [Hl|Hl].
    - destruct (found_blossom g p Hg Hp f v w pv pw HF Hv Hw Hvw Hpv Hpw Hl) as (B & c & l2 & Hbp & HB).
      assert (Hnb : exists c, odd_cycle g c) by (exists B; apply HB).
      pose proof (nodes_max_spec (g_nodes g)) as Hmax.
      destruct (nodes_max (g_nodes g)) as [m|] eqn:Em.
      2:{ exfalso. pose proof (bl_nodes _ _ _ _ _ HB c (bl_in _ _ _ _ _ HB)) as Hc.
          rewrite Hmax in Hc. by apply elem_of_nil in Hc. }
      destruct Hmax as [Hm Hle].
      destruct (N.ltb m usize_max) eqn:Elt.
      + apply N.ltb_lt in Elt. set (b := (m + 1)%N).
        assert (Hlt : forall x, x ∈ g_nodes g -> (x < b)%N).
        { intros x Hx. specialize (Hle x Hx). unfold b. lia. }
        assert (Hb : b ∈ g_nodes g -> b ∈ B) by (intros Hb; specialize (Hlt b Hb); lia).
        destruct (contract_graph_spec g Hg B b Hb) as (d & Hd & Hwf & Hn & Ha).
        apply (out_blossom v pw f B c l2 b d); try done; [by exists m| |by exists pv].
        intros iter tag fuel Hit. unfold continue. rewrite Hfp. cbn [cbind expect_some].
        rewrite bool_decide_eq_true_2 by done. rewrite Em. cbn [cbind expect_some].
        unfold checked_succ. rewrite (proj2 (N.ltb_lt _ _) Elt). cbn [cbind].
        unfold b_new. rewrite Hbp. cbn [cbind]. fold b. rewrite Hd. cbn [unwrap cbind].
        unfold p_edges. by erewrite contract_pairing_indep.
      + apply N.ltb_ge in Elt. apply (out_overflow v pw f m); try done.
        intros iter tag fuel. unfold continue. rewrite Hfp. cbn [cbind expect_some].
        rewrite bool_decide_eq_true_2 by done. rewrite Em. cbn [cbind expect_some].
        unfold checked_succ. rewrite (proj2 (N.ltb_ge _ _) Elt). done.
    - destruct (found_augments g p Hg Hp f v w pv pw HF Hv Hw Hvw Hpv Hpw Hl) as (H1 & H2 & H3 & H4).
      apply (out_path v pw f pv); try done.
      intros iter tag fuel. unfold continue. rewrite Hfp. cbn [cbind expect_some].
      by rewrite bool_decide_eq_false_2.
  Qed.
End step.

(** *** The whole search *)

Theorem ap_spec g p : Lawful g -> pairing_of g p ->
  exists n res, ap_post g p res /\ forall iter tag, hash_order_ok iter ->
    settles (fun fuel => augmenting_path iter tag fuel g p) n res.
Proof.
  remember (measure g) as k eqn:Hk. revert g p Hk.
  induction k as [k IHk] using lt_wf_ind; intros g p Hk Hg Hp.
  destruct (search_start g p Hg Hp) as (f & n & r & Hf & [Hs1 Hs2] & Hr).
  destruct r as [f' m'|v pw f'].
  { exists (S n), (Ok None). split; [exact Hr|]. intros iter tag Hit. split.
    - intros [|fuel] Hfu; [lia|]. rewrite (ap_unfold g p Hp iter tag fuel f Hit Hf).
      rewrite Hs1 by lia. done.
    - intros [|fuel]; [by left|]. rewrite (ap_unfold g p Hp iter tag fuel f Hit Hf).
      destruct (Hs2 (S fuel)) as [-> | ->]; [by left|by right]. }
  (* reduction to what follows the search *)
  assert (Hred : forall n' res, ap_post g p res ->
    (forall iter tag, hash_order_ok iter ->
       settles (fun fuel => continue g p iter tag fuel (EvenPath v pw f')) n' res) ->
    exists n res, ap_post g p res /\ forall iter tag, hash_order_ok iter ->
      settles (fun fuel => augmenting_path iter tag fuel g p) n res).
  { intros n' res Hpost Hset. exists (S (Nat.max n n')), res. split; [done|].
    intros iter tag Hit. destruct (Hset iter tag Hit) as [Hc1 Hc2]. split.
    - intros [|fuel] Hfu; [lia|]. rewrite (ap_unfold g p Hp iter tag fuel f Hit Hf).
      rewrite Hs1 by lia. apply Hc1. lia.
    - intros [|fuel]; [by left|]. rewrite (ap_unfold g p Hp iter tag fuel f Hit Hf).
      destruct (Hs2 (S fuel)) as [-> | ->]; [by left|]. apply Hc2. }
  destruct (found_outcome g p Hg Hp v pw f' Hr)
    as [pv Hcont Hau Hpath Hnodes Hlen _|m Hcont Hm Hmax Hnb|B c l2 b d HB Hb Hlt (m & Hm & ->) Hwf Hn Ha Hcont Hnb _].
  - apply (Hred 0 (Ok (Some (reverse pv ++ pw)))).
    + assert (Hne : reverse pv ++ pw <> []) by (intros E; rewrite E in Hlen; simpl in Hlen; lia).
      split_and!; [|done|by eapply augments_bigger| |].
      * split_and!; try done. apply Hau.
      * intros _. by apply augments_covers.
      * intros _. apply Hau.
    + intros iter tag _. apply settles_now. intros fuel. apply Hcont.
  - apply (Hred 0 (Panic POverflow)).
    + split; [|done]. intros Hroom. specialize (Hroom m Hm).
      assert (length (g_nodes g) <> 0); [|lia].
      destruct (g_nodes g); [by apply elem_of_nil in Hm|done].
    + intros iter tag _. apply settles_now. intros fuel. apply Hcont.
  - set (b := (m + 1)%N) in *. set (g' := as_graph d) in *.
    assert (Hg' : Lawful g') by (by apply wf_lawful).
    set (p' := b_contract_pairing (mkBlossom b B) (p_edges_of (map_to_list p))).
    assert (Hp' : pairing_of g' p').
    { by apply (p'_pairing g p Hg Hp B c l2 HB b Hb g' Ha). }
    pose proof (measure_shrinks g p B c l2 b g' Hg Hg' HB Hb Hn Ha) as Hmeas.
    destruct (IHk (measure g')) with (g := g') (p := p') as (n' & res' & Hpost' & Hset');
      [lia|done|done|done|].
    destruct res' as [[path|]| |e|]; try done.
    + (* a path of the contracted graph *)
      destruct Hpost' as ((Hnd & Hpath & Hnodes) & Hne & (M' & HM' & Hbig) & Htame & Hsepa).
      destruct (lift_spec g Hg B (bl_cycle _ _ _ _ _ HB) (bl_nodes _ _ _ _ _ HB) b Hb
                  g' Hn) with (path := path) as (nl & path' & Hlift & Hsimple & Havoid & Hne' & Hend & Hthr); try done.
      { intros x y Hxy Hxb Hyb. by apply (adj_out_down g Hg B b g' Ha). }
      { intros y Hy. destruct (adj_b_down g Hg B b Hb g' Ha y) as (_ & _ & x & Hx & Hxy); [|by eauto].
        destruct Hy as [Hy|Hy]; [done|]. by apply law_adj_sym. }
      apply (Hred (Nat.max n' nl) (Ok (Some path'))).
      * destruct (lift_good g p B c l2 b g' (map_to_list p) path path' Hg Hp HB Hb Hg' Hn Ha)
          as [Hgood1 Hgood2]; try done; [apply Hsimple|].
        split_and!; [done|auto| | |].
        2:{ intros Ht. apply Hgood1; [intros H3; by apply Ht; [apply HB|]|]. apply Htame.
            by apply (tame_contract g Hg B (bl_cycle _ _ _ _ _ HB) b Hb g' Hg' Ha). }
        2:{ intros Hs. apply Hgood2; [done|]. apply Hsepa.
            by apply (separated_contract g Hg B (bl_cycle _ _ _ _ _ HB) b Hb g' Hg' Ha). }
        destruct (matching_up g p Hg B c l2 HB b Hb g' Hg' Ha M' HM') as (M & HM & Hlen).
        exists M. split; [done|].
        pose proof (p'_order g p Hg Hp B c l2 HB b Hb (map_to_list p) (reflexivity _)) as Hord.
        fold p' in Hord. lia.
      * intros iter tag Hit. destruct (Hset' iter (2 :: tag) Hit) as [Ha1 Ha2].
        destruct Hlift as [Hl1 Hl2]. split.
        -- intros fuel Hfu. rewrite Hcont by done. fold p'. rewrite Ha1 by lia. cbn [cbind].
           rewrite Hl1 by lia. done.
        -- intros fuel. rewrite Hcont by done. fold p'.
           destruct (Ha2 fuel) as [-> | ->]; [by left|]. cbn [cbind].
           destruct (Hl2 (S fuel)) as [-> | ->]; [by left|by right].
    + (* a certificate of the contracted graph *)
      destruct Hpost' as (O & Cs & Hcert).
      apply (Hred n' (Ok None)).
      * eexists O, _. by apply (cert_up g p Hg Hp B c l2 HB b Hb g' Hg' Hn Ha (map_to_list p)).
      * intros iter tag Hit. destruct (Hset' iter (2 :: tag) Hit) as [Ha1 Ha2]. split.
        -- intros fuel Hfu. rewrite Hcont by done. fold p'. by rewrite Ha1 by lia.
        -- intros fuel. rewrite Hcont by done. fold p'.
           destruct (Ha2 fuel) as [-> | ->]; [by left|by right].
    + (* overflow below *)
      destruct e; try done. apply (Hred n' (Panic POverflow)).
      * split; [|done]. intros Hroom. apply (proj1 Hpost'). intros x Hx. unfold measure in Hmeas.
        specialize (Hroom m Hm). rewrite Hn in Hx.
        assert (x <= m + 1)%N.
        { apply elem_of_cons in Hx as [->|Hx]; [unfold b; lia|].
          apply elem_of_list_filter in Hx as [_ Hx]. specialize (Hlt x Hx). unfold b in Hlt. lia. }
        lia.
      * intros iter tag Hit. destruct (Hset' iter (2 :: tag) Hit) as [Ha1 Ha2]. split.
        -- intros fuel Hfu. rewrite Hcont by done. fold p'. by rewrite Ha1 by lia.
        -- intros fuel. rewrite Hcont by done. fold p'.
           destruct (Ha2 fuel) as [-> | ->]; [by left|by right].
Qed.

(** Fuel by fuel, the search does not depend on the iteration order. *)
Lemma ap_indep fuel : forall g p iter iter' tag tag', Lawful g -> pairing_of g p ->
  hash_order_ok iter -> hash_order_ok iter' ->
  augmenting_path iter tag fuel g p = augmenting_path iter' tag' fuel g p.
Proof.
  induction fuel as [|fuel IH]; intros g p iter iter' tag tag' Hg Hp Hi Hi'; [done|].
  destruct (search_start g p Hg Hp) as (f & n & r & Hf & [_ Hs2] & Hr).
  rewrite !(ap_unfold g p Hp _ _ fuel f) by done.
  destruct (Hs2 (S fuel)) as [-> | ->]; [done|]. cbn [cbind].
  destruct r as [f' m'|v pw f']; [done|].
  destruct (found_outcome g p Hg Hp v pw f' Hr)
    as [pv Hcont _ _ _ _ _|m Hcont _ _ _|B c l2 b d HB Hb _ _ Hwf Hn Ha Hcont _ _].
  - by rewrite !Hcont.
  - by rewrite !Hcont.
  - rewrite !Hcont by done. erewrite (IH _ _ iter iter'); try done.
    + by apply wf_lawful.
    + by apply (p'_pairing g p Hg Hp B c l2 HB b Hb (as_graph d) Ha).
Qed.

(** ** maximum_matching *)

Lemma simple_augment g p path q : Lawful g -> pairing_of g p -> simple g path ->
  p_augment p path = Ok q -> pairing_of g q.
Proof.
  intros Hg Hp (Hnd & Hpath & _) Hq. unfold p_augment in Hq.
  destruct (Nat.odd (length path)) eqn:Ho; [done|]. injection Hq as <-.
  apply pair_up_pairing_of; try done.
  - by rewrite <-Nat.negb_odd, Ho.
  - intros a b (i & Ha & Hb)%path_pairs_elem. by eapply Hpath.
Qed.

Lemma mm_post g fuel : forall iter tag p, Lawful g -> hash_order_ok iter -> pairing_of g p ->
  match maximum_matching iter tag fuel g p with
  | Ok q => pairing_of g q /\ exists O Cs, cert g q O Cs
  | Panic e => e = PEvenPath \/ (e = POverflow /\ ~ id_room g /\ exists c, odd_cycle g c)
  | Err _ => False
  | NoFuel => True
  end.
Proof.
  induction fuel as [|fuel IH]; intros iter tag p Hg Hit Hp; [done|]. cbn [maximum_matching].
  destruct (ap_spec g p Hg Hp) as (n & res & Hpost & Hset).
  destruct (Hset iter (0 :: tag) Hit) as [_ H2].
  destruct (H2 (S fuel)) as [-> | ->]; [done|].
  destruct res as [[path|]| |e|]; try done; cbn [cbind].
  - destruct Hpost as (Hsimple & _ & _ & _ & _).
    destruct (p_augment p path) as [q| |e|] eqn:Eq; cbn [cbind].
    + assert (Hq : pairing_of g q) by (by eapply simple_augment).
      pose proof (IH iter (1 :: tag) q Hg Hit Hq) as Hq1.
      destruct (maximum_matching iter (1 :: tag) fuel g q) as [q1| |e|]; cbn [cbind]; try done.
      apply IH; try done. apply Hq1.
    + unfold p_augment in Eq. by destruct (Nat.odd _).
    + unfold p_augment in Eq. destruct (Nat.odd _); [|done]. left. congruence.
    + done.
  - destruct e; try done. by right.
Qed.

Lemma mm_indep g fuel : forall iter iter' tag tag' p, Lawful g ->
  hash_order_ok iter -> hash_order_ok iter' -> pairing_of g p ->
  maximum_matching iter tag fuel g p = maximum_matching iter' tag' fuel g p.
Proof.
  induction fuel as [|fuel IH]; intros iter iter' tag tag' p Hg Hi Hi' Hp; [done|].
  cbn [maximum_matching]. rewrite (ap_indep (S fuel) g p iter iter' (0 :: tag) (0 :: tag')) by done.
  destruct (ap_spec g p Hg Hp) as (n & res & Hpost & Hset).
  destruct (Hset iter' (0 :: tag') Hi') as [_ H2].
  destruct (H2 (S fuel)) as [-> | ->]; [done|].
  destruct res as [[path|]| |e|]; try done; cbn [cbind].
  destruct Hpost as (Hsimple & _ & _ & _ & _).
  destruct (p_augment p path) as [q| |e|] eqn:Eq; cbn [cbind]; try done.
  assert (Hq : pairing_of g q) by (by eapply simple_augment).
  rewrite (IH iter iter' (1 :: tag) (1 :: tag')) by done.
  pose proof (mm_post g fuel iter' (1 :: tag') q Hg Hi' Hq) as Hq1.
  destruct (maximum_matching iter' (1 :: tag') fuel g q) as [q1| |e|]; cbn [cbind]; try done.
  apply IH; try done. apply Hq1.
Qed.

(** ** The run as a sequence of augmentations *)

Section runs.
  Context (g : Graph) (Hg : Lawful g) (iter : hash_order) (Hit : hash_order_ok iter).

  Lemma search_det p o o' : search_is iter g p o -> search_is iter g p o' -> o = o'.
  Proof.
    intros [n Hn] [m Hm]. specialize (Hn (n + m) [] ltac:(lia)). specialize (Hm (n + m) [] ltac:(lia)).
    congruence.
  Qed.

  (** What one call of the search does, at any fuel. *)
  Lemma search_spec p : pairing_of g p -> exists res, ap_post g p res /\ (forall o, res = Ok o <-> search_is iter g p o) /\ exists n, forall tag, settles (fun fuel => augmenting_path iter tag fuel g p) n res.
  Proof.
    intros Hp. destruct (ap_spec g p Hg Hp) as (n & res & Hpost & Hset).
    exists res. split; [done|]. split.
    - intros o. split.
      + intros ->. exists n. intros fuel tag Hf. by apply (Hset iter tag Hit).
      + intros [m Hm]. specialize (Hm (n + m) [] ltac:(lia)).
        destruct (Hset iter [] Hit) as [H1 _]. rewrite H1 in Hm by lia. done.
    - exists n. intros tag. by apply Hset.
  Qed.

  Lemma aug_final p paths q : augmentations iter g p paths q -> search_is iter g q None.
  Proof. intros H. by induction H. Qed.

  Lemma aug_pairing p paths q : pairing_of g p -> augmentations iter g p paths q -> pairing_of g q.
  Proof.
    intros Hp H. induction H as [|p path p1 paths q Hs Hau _ IH]; [done|]. apply IH.
    destruct (search_spec p Hp) as (res & Hpost & Hres & _). apply Hres in Hs as ->.
    destruct Hpost as (Hsimple & _). by eapply simple_augment.
  Qed.

  Lemma run_augmentations fuel : forall tag p q, pairing_of g p ->
    maximum_matching iter tag fuel g p = Ok q -> exists paths, augmentations iter g p paths q.
  Proof.
    induction fuel as [|fuel IH]; intros tag p q Hp Hrun; [done|]. cbn [maximum_matching] in Hrun.
    destruct (search_spec p Hp) as (res & Hpost & Hres & n & Hset).
    destruct (Hset (0 :: tag)) as [_ H2].
    destruct (H2 (S fuel)) as [E | E]; rewrite E in Hrun; [done|].
    destruct res as [[path|]| | |]; try done; cbn [cbind] in Hrun.
    - destruct (p_augment p path) as [p1| | |] eqn:Ep; try done; cbn [cbind] in Hrun.
      assert (Hp1 : pairing_of g p1) by (eapply simple_augment; [done|done|apply Hpost|done]).
      destruct (maximum_matching iter (1 :: tag) fuel g p1) as [p2| | |] eqn:E1; try done.
      cbn [cbind] in Hrun. destruct (IH _ _ _ Hp1 E1) as (paths & Haug).
      assert (Hp2 : pairing_of g p2) by (by eapply aug_pairing).
      destruct (IH _ _ _ Hp2 Hrun) as (paths' & Haug').
      assert (q = p2) as ->.
      { pose proof (aug_final _ _ _ Haug) as Hnone.
        inversion Haug' as [|? path' ? ? ? Hs']; subst; [done|].
        pose proof (search_det _ _ _ Hnone Hs'). done. }
      exists (path :: paths). econstructor; try done. by apply Hres.
    - injection Hrun as <-. exists []. constructor. by apply Hres.
  Qed.

  Lemma mm_unfold tag fuel p : maximum_matching iter tag (S fuel) g p =
    let! opath := augmenting_path iter (0 :: tag) (S fuel) g p in
    match opath with
    | None => Ok p
    | Some path =>
        let! p1 := p_augment p path in
        let! p2 := maximum_matching iter (1 :: tag) fuel g p1 in
        maximum_matching iter (2 :: tag) fuel g p2
    end.
  Proof. reflexivity. Qed.

  Lemma augmentations_run p paths q : augmentations iter g p paths q ->
    exists n, forall fuel tag, n <= fuel -> maximum_matching iter tag fuel g p = Ok q.
  Proof.
    intros H. induction H as [p [n Hn]|p path p1 paths q [n Hn] Hau Haug [n1 IH]].
    - exists (S n). intros [|fuel] tag Hf; [lia|]. cbn [maximum_matching].
      rewrite Hn by lia. done.
    - destruct (aug_final _ _ _ Haug) as [n2 Hn2].
      exists (S (S (n + n1 + n2))). intros [|[|fuel]] tag Hf; [lia|lia|].
      rewrite mm_unfold. rewrite Hn by lia. cbn [cbind]. rewrite Hau. cbn [cbind].
      rewrite IH by lia. cbn [cbind]. rewrite mm_unfold. rewrite Hn2 by lia. done.
  Qed.

  Lemma run_iff p q : pairing_of g p ->
    matching_run iter g p (Ok q) <-> exists paths, augmentations iter g p paths q.
  Proof.
    intros Hp. split.
    - intros (_ & n & Hn). eapply run_augmentations; [done|]. by apply (Hn n).
    - intros (paths & Haug). split; [done|]. destruct (augmentations_run _ _ _ Haug) as [n Hn].
      exists n. intros fuel Hf. by apply Hn.
  Qed.

  Lemma pairing_order p : pairing_of g p -> p_order p <= length (g_nodes g).
  Proof.
    intros Hp. unfold p_order. rewrite <-size_dom.
    rewrite <-(size_list_to_set (C := gset N) (g_nodes g)) by apply Hg.
    apply subseteq_size. intros x [y Hy]%elem_of_dom. apply elem_of_list_to_set.
    by eapply (adj_nodes g Hg x y), Hp.
  Qed.

  (** Totality and progress on tame graphs. *)
  Lemma tame_augment p path : pairing_of g p -> tame g -> search_is iter g p (Some path) ->
    exists q, p_augment p path = Ok q /\ pairing_of g q /\ p_order q = p_order p + 2 /\
      forall x, is_Some (p !! x) -> is_Some (q !! x).
  Proof.
    intros Hp Ht Hs. destruct (search_spec p Hp) as (res & Hpost & Hres & _). apply Hres in Hs as ->.
    destruct Hpost as (Hsimple & _ & _ & Hcov & _).
    destruct (covers_augment g p path (proj1 Hp) (Hcov Ht)) as (q & Hq & Hdom & _ & Hord).
    exists q. split_and!; [done|by eapply simple_augment|done|]. intros x Hx. apply Hdom. by left.
  Qed.

  Lemma gains_total p :
    (forall p path, pairing_of g p -> search_is iter g p (Some path) ->
       exists q, p_augment p path = Ok q /\ pairing_of g q /\ p_order q = p_order p + 2 /\
         forall x, is_Some (p !! x) -> is_Some (q !! x)) ->
    pairing_of g p -> id_room g \/ (forall c, ~ odd_cycle g c) ->
    exists paths q, augmentations iter g p paths q /\ p_order q = p_order p + 2 * length paths /\
      forall x, is_Some (p !! x) -> is_Some (q !! x).
  Proof.
    intros Ht Hp Hroom. remember (length (g_nodes g) - p_order p) as k eqn:Hk. revert p Hp Hk.
    induction k as [k IH] using lt_wf_ind; intros p Hp Hk.
    destruct (search_spec p Hp) as (res & Hpost & Hres & _).
    destruct res as [[path|]| |e|]; try done.
    - destruct (Ht p path Hp) as (q & Hq & Hqp & Hord & Hkeep); [by apply Hres|].
      pose proof (pairing_order q Hqp).
      destruct (IH (length (g_nodes g) - p_order q)) with (p := q) as (paths & r & Haug & Hr & Hkr);
        [lia|done|done|].
      exists (path :: paths), r. split_and!.
      + econstructor; try done. by apply Hres.
      + cbn [length]. lia.
      + auto.
    - exists [], p. split_and!; [constructor; by apply Hres|simpl; lia|done].
    - destruct e; try done. destruct Hpost as [H1 (c & H2)]. destruct Hroom as [H|H]; [done|]. by destruct (H c).
  Qed.

  Lemma tame_total p : pairing_of g p -> tame g -> id_room g \/ (forall c, ~ odd_cycle g c) ->
    exists paths q, augmentations iter g p paths q /\ p_order q = p_order p + 2 * length paths /\
      forall x, is_Some (p !! x) -> is_Some (q !! x).
  Proof. intros Hp Ht. apply gains_total; [|done]. intros p0 path Hp0. by apply tame_augment. Qed.

  (** With separated odd cycles there is no panic. *)
  Lemma separated_no_panic fuel : forall tag p e, pairing_of g p -> separated_odd_cycles g -> id_room g ->
    maximum_matching iter tag fuel g p <> Panic e.
  Proof.
    induction fuel as [|fuel IH]; intros tag p e Hp Hsep Hroom; [done|]. cbn [maximum_matching].
    destruct (search_spec p Hp) as (res & Hpost & Hres & n & Hset).
    destruct (Hset (0 :: tag)) as [_ H2].
    destruct (H2 (S fuel)) as [-> | ->]; [done|].
    destruct res as [[path|]| |e'|]; try done; cbn [cbind].
    - destruct Hpost as (Hsimple & _ & _ & _ & Hev). rewrite augment_even by auto. cbn [cbind].
      assert (Hq : pairing_of g (p_pair_up p path)).
      { eapply simple_augment; [done..|]. apply augment_even. auto. }
      pose proof (mm_post g fuel iter (1 :: tag) _ Hg Hit Hq) as Hq1.
      pose proof (IH (1 :: tag) (p_pair_up p path)) as HI.
      destruct (maximum_matching iter (1 :: tag) fuel g (p_pair_up p path)) as [q1| |e1|]; cbn [cbind]; try done.
      + apply IH; try done. apply Hq1.
      + intros [= ->]. by apply (HI e).
    - destruct e'; try done. by destruct Hpost as [H1 _].
  Qed.

  (** An outcome reached with some fuel is the outcome for all large fuels. *)
  Lemma mm_settles fuel : forall tag p, pairing_of g p -> maximum_matching iter tag fuel g p <> NoFuel ->
    exists n, forall fuel' tag', n <= fuel' ->
      maximum_matching iter tag' fuel' g p = maximum_matching iter tag fuel g p.
  Proof.
    induction fuel as [|fuel IH]; intros tag p Hp Hne; [done|].
    rewrite mm_unfold in *.
    destruct (search_spec p Hp) as (res & Hpost & Hres & n & Hset).
    assert (Hlate : forall fuel' tag', n <= fuel' -> augmenting_path iter tag' fuel' g p = res).
    { intros fuel' tag' Hf. by apply (Hset tag'). }
    destruct (Hset (0 :: tag)) as [_ H2].
    destruct (H2 (S fuel)) as [E | E]; rewrite E in *; [done|].
    destruct res as [[path|]| |e|]; try done; cbn [cbind] in *.
    - destruct (p_augment p path) as [p1| | |] eqn:Ep; try done; cbn [cbind] in *.
      + assert (Hp1 : pairing_of g p1) by (eapply simple_augment; [done|done|apply Hpost|done]).
        pose proof (IH (1 :: tag) p1 Hp1) as HI.
        pose proof (mm_post g fuel iter (1 :: tag) p1 Hg Hit Hp1) as Hq1.
        destruct (maximum_matching iter (1 :: tag) fuel g p1) as [p2| |e|]; try done; cbn [cbind] in *.
        * destruct HI as [n1 Hn1]; [done|]. destruct (IH (2 :: tag) p2) as [n2 Hn2]; [apply Hq1|done|].
          exists (S (n + n1 + n2)). intros [|fuel'] tag' Hf; [lia|]. rewrite mm_unfold.
          rewrite Hlate by lia. cbn [cbind]. rewrite Ep. cbn [cbind]. rewrite Hn1 by lia. cbn [cbind].
          apply Hn2. lia.
        * destruct HI as [n1 Hn1]; [done|].
          exists (S (n + n1)). intros [|fuel'] tag' Hf; [lia|]. rewrite mm_unfold.
          rewrite Hlate by lia. cbn [cbind]. rewrite Ep. cbn [cbind]. rewrite Hn1 by lia. done.
      + exists (S n). intros [|fuel'] tag' Hf; [lia|]. rewrite mm_unfold.
        rewrite Hlate by lia. cbn [cbind]. by rewrite Ep.
      + exists (S n). intros [|fuel'] tag' Hf; [lia|]. rewrite mm_unfold.
        rewrite Hlate by lia. cbn [cbind]. by rewrite Ep.
    - exists (S n). intros [|fuel'] tag' Hf; [lia|]. rewrite mm_unfold. by rewrite Hlate by lia.
    - exists (S n). intros [|fuel'] tag' Hf; [lia|]. rewrite mm_unfold. by rewrite Hlate by lia.
  Qed.

  Lemma run_det p m m' : matching_run iter g p m -> matching_run iter g p m' -> m = m'.
  Proof.
    intros (_ & n & Hn) (_ & n' & Hn'). rewrite <-(Hn (n + n')), <-(Hn' (n + n')) by lia. done.
  Qed.

  Lemma run_at p m fuel tag : pairing_of g p -> maximum_matching iter tag fuel g p = m ->
    m <> NoFuel -> matching_run iter g p m.
  Proof.
    intros Hp E Hne. split; [done|]. destruct (mm_settles fuel tag p Hp) as [n Hn]; [by rewrite E|].
    exists n. intros fuel' Hf. rewrite <-E. by apply Hn.
  Qed.

  Lemma run_or_diverges p : pairing_of g p ->
    matching_diverges iter g p <-> forall m, ~ matching_run iter g p m.
  Proof.
    intros Hp. split.
    - intros Hd m (Hne & n & Hn). apply Hne. rewrite <-(Hn n) by lia. apply Hd.
    - intros Hno fuel. destruct (maximum_matching iter [] fuel g p) eqn:E; try done;
        exfalso; eapply Hno, run_at; done.
  Qed.

  Lemma search_or p fuel tag o : pairing_of g p -> augmenting_path iter tag fuel g p = Ok o ->
    search_is iter g p o.
  Proof.
    intros Hp E. destruct (search_spec p Hp) as (res & _ & Hres & n & Hset).
    apply Hres. destruct (Hset tag) as [_ H2]. destruct (H2 fuel) as [E'|E']; congruence.
  Qed.

  (** A set of pairings closed under augmentation is never left. *)
  Lemma closed_diverges (S : list Pairing) :
    (forall p, p ∈ S -> exists path q, search_is iter g p (Some path) /\ p_augment p path = Ok q /\ q ∈ S) ->
    forall fuel tag p, pairing_of g p -> p ∈ S -> maximum_matching iter tag fuel g p = NoFuel.
  Proof.
    intros HS fuel. induction fuel as [|fuel IH]; intros tag p Hp Hin; [done|]. rewrite mm_unfold.
    destruct (HS p Hin) as (path & q & Hs & Hq & HqS).
    destruct (search_spec p Hp) as (res & Hpost & Hres & n & Hset). apply Hres in Hs as ->.
    destruct (Hset (0 :: tag)) as [_ H2]. destruct (H2 (Datatypes.S fuel)) as [-> | ->]; [done|].
    cbn [cbind]. rewrite Hq. cbn [cbind]. rewrite IH; [done| |done].
    eapply simple_augment; [done|done|apply Hpost|done].
  Qed.
  (** *** The plain loop *)

  Lemma search_step p path q : pairing_of g p -> search_is iter g p (Some path) ->
    p_augment p path = Ok q -> pairing_of g q.
  Proof.
    intros Hp Hs Hq. destruct (search_spec p Hp) as (res & Hpost & Hres & _). apply Hres in Hs as ->.
    eapply simple_augment; [done|done|apply Hpost|done].
  Qed.

  Lemma rounds_pairing p paths q : pairing_of g p -> rounds iter g p paths q -> pairing_of g q.
  Proof.
    intros Hp H. induction H as [|p path p1 paths q Hs Ha _ IH]; [done|].
    apply IH. by eapply search_step.
  Qed.

  Lemma rounds_augmentations p paths q :
    augmentations iter g p paths q <-> rounds iter g p paths q /\ search_is iter g q None.
  Proof.
    split.
    - intros H. induction H as [|p path p1 paths q Hs Ha _ IH]; [by repeat constructor|].
      destruct IH. split; [|done]. by econstructor.
    - intros [H Hn]. induction H; [by constructor|]. econstructor; eauto.
  Qed.

  (** If the run from [p1] ends, so does the run from [p]. *)
  Lemma run_back p path p1 m : pairing_of g p -> search_is iter g p (Some path) ->
    p_augment p path = Ok p1 -> matching_run iter g p1 m -> matching_run iter g p m.
  Proof.
    intros Hp Hs Ha Hrun. assert (Hp1 : pairing_of g p1) by (by eapply search_step).
    pose proof Hrun as (Hne & n & Hn). pose proof (mm_post g n iter [] p1 Hg Hit Hp1) as Hm.
    rewrite Hn in Hm by lia. destruct m as [q| |e|]; try done.
    - apply run_iff; [done|]. apply run_iff in Hrun as (paths & Haug); [|done].
      exists (path :: paths). by econstructor.
    - split; [done|]. destruct Hs as [k Hk].
      destruct (mm_settles n [] p1 Hp1) as [n1 Hn1]; [by rewrite Hn by lia|].
      exists (S (n + n1 + k)). intros [|fuel] Hf; [lia|]. rewrite mm_unfold. rewrite Hk by lia.
      cbn [cbind]. rewrite Ha. cbn [cbind]. rewrite Hn1 by lia. by rewrite Hn by lia.
  Qed.

  Lemma run_panic p e : pairing_of g p ->
    matching_run iter g p (Panic e) <->
    exists paths q, rounds iter g p paths q /\
      (search_panics iter g q e \/ exists path, search_is iter g q (Some path) /\ p_augment q path = Panic e).
  Proof.
    intros Hp. split.
    - intros (_ & n & Hn). specialize (Hn n ltac:(lia)).
      enough (H : forall fuel tag p, pairing_of g p -> maximum_matching iter tag fuel g p = Panic e ->
        exists paths q, rounds iter g p paths q /\
          (search_panics iter g q e \/
           exists path, search_is iter g q (Some path) /\ p_augment q path = Panic e)) by (by eapply H).
      clear n p Hp Hn. induction fuel as [|fuel IH]; intros tag p Hp Hrun; [done|].
      rewrite mm_unfold in Hrun.
      destruct (search_spec p Hp) as (res & Hpost & Hres & n & Hset).
      destruct (Hset (0 :: tag)) as [_ H2].
      destruct (H2 (S fuel)) as [E | E]; rewrite E in Hrun; [done|].
      destruct res as [[path|]| |e'|]; try done; cbn [cbind] in Hrun.
      + assert (Hs : search_is iter g p (Some path)) by (by apply Hres).
        destruct (p_augment p path) as [p1| |e'|] eqn:Ep; try done; cbn [cbind] in Hrun.
        * assert (Hp1 : pairing_of g p1) by (by eapply search_step).
          destruct (maximum_matching iter (1 :: tag) fuel g p1) as [p2| |e'|] eqn:E1; try done;
            cbn [cbind] in Hrun.
          -- destruct (run_augmentations _ _ _ _ Hp1 E1) as (paths & Haug).
             pose proof (aug_final _ _ _ Haug) as Hnone.
             assert (Hp2 : pairing_of g p2) by (by eapply aug_pairing).
             destruct fuel as [|fuel]; [done|]. rewrite mm_unfold in Hrun.
             destruct (search_spec p2 Hp2) as (res2 & _ & Hres2 & n2 & Hset2).
             apply Hres2 in Hnone as ->.
             destruct (Hset2 (0 :: 2 :: tag)) as [_ H2'].
             destruct (H2' (S fuel)) as [E2 | E2]; by rewrite E2 in Hrun.
          -- injection Hrun as ->. destruct (IH _ _ Hp1 E1) as (paths & q & Hr & Hq).
             exists (path :: paths), q. split; [by econstructor|done].
        * injection Hrun as ->. exists [], p. split; [constructor|]. right. by exists path.
      + injection Hrun as ->. exists [], p. split; [constructor|]. left. exists n.
        intros fuel' tag' Hf. by apply (Hset tag').
    - intros (paths & q & Hr & Hq). induction Hr as [q|p path p1 paths q Hs Ha _ IH].
      + split; [done|]. destruct Hq as [[n Hn]|(path & [n Hn] & Ha)].
        * exists (S n). intros [|fuel] Hf; [lia|]. rewrite mm_unfold. by rewrite Hn by lia.
        * exists (S n). intros [|fuel] Hf; [lia|]. rewrite mm_unfold. rewrite Hn by lia.
          cbn [cbind]. by rewrite Ha.
      + eapply run_back; try done. apply IH; [by eapply search_step|done].
  Qed.

  Lemma run_forever p : pairing_of g p ->
    matching_diverges iter g p <->
    forall k, exists paths q, length paths = k /\ rounds iter g p paths q.
  Proof.
    intros Hp. split.
    - intros Hd k. revert p Hp Hd. induction k as [|k IH]; intros p Hp Hd.
      { exists [], p. split; [done|constructor]. }
      destruct (search_spec p Hp) as (res & Hpost & Hres & n & Hset).
      assert (Hno : forall m, ~ matching_run iter g p m) by (by apply run_or_diverges).
      assert (Hlate : forall fuel tag, n <= fuel -> augmenting_path iter tag fuel g p = res).
      { intros fuel tag Hf. by apply (Hset tag). }
      destruct res as [[path|]| |e|]; try done.
      + assert (Hs : search_is iter g p (Some path)) by (by apply Hres).
        destruct (p_augment p path) as [p1| |e|] eqn:Ep.
        * assert (Hp1 : pairing_of g p1) by (by eapply search_step).
          destruct (IH p1 Hp1) as (paths & q & Hlen & Hr).
          { apply run_or_diverges; [done|]. intros m Hm. apply (Hno m). by eapply run_back. }
          exists (path :: paths), q. split; [by rewrite <-Hlen|by econstructor].
        * unfold p_augment in Ep. by destruct (Nat.odd _).
        * exfalso. apply (Hno (Panic e)). apply run_panic; [done|]. exists [], p.
          split; [constructor|]. right. by exists path.
        * unfold p_augment in Ep. by destruct (Nat.odd _).
      + exfalso. apply (Hno (Ok p)). apply run_iff; [done|]. exists []. constructor. by apply Hres.
      + exfalso. apply (Hno (Panic e)). apply run_panic; [done|]. exists [], p.
        split; [constructor|]. left. by exists n.
    - intros Hk fuel. generalize (@nil nat) as tag. revert p Hp Hk.
      induction fuel as [|fuel IH]; intros p Hp Hk tag; [done|]. rewrite mm_unfold.
      destruct (Hk 1) as (paths & q & Hlen & Hr).
      inversion Hr as [|? path p1 paths1 ? Hs Ha Hr1]; subst; [done|].
      destruct (search_spec p Hp) as (res & Hpost & Hres & n & Hset).
      pose proof Hs as Hs0. apply Hres in Hs0 as ->.
      destruct (Hset (0 :: tag)) as [_ H2]. destruct (H2 (S fuel)) as [-> | ->]; [done|].
      cbn [cbind]. rewrite Ha. cbn [cbind]. rewrite IH; [done|by eapply search_step|].
      intros k. destruct (Hk (S k)) as (paths' & q' & Hlen' & Hr').
      inversion Hr' as [|? path' p1' paths1' ? Hs' Ha' Hr1']; subst; [done|].
      pose proof (search_det _ _ _ Hs Hs') as [= <-]. rewrite Ha in Ha'. injection Ha' as <-.
      exists paths1', q'. split; [|done]. simpl in Hlen'. lia.
  Qed.
End runs.

(** Evaluation of concrete runs. *)
Definition canon : hash_order := fun _ p => map_to_list p.
Lemma canon_ok : hash_order_ok canon.
Proof. intros tag p. reflexivity. Qed.

Definition next (g : Graph) (p : Pairing) : comp Pairing :=
  let! o := augmenting_path canon [] 100 g p in
  match o with Some path => p_augment p path | None => Panic PNone end.

Lemma next_search g p q iter : Lawful g -> pairing_of g p -> hash_order_ok iter -> next g p = Ok q ->
  exists path, search_is iter g p (Some path) /\ p_augment p path = Ok q.
Proof.
  intros Hg Hp Hit. unfold next. destruct (augmenting_path canon [] 100 g p) as [[path|]| | |] eqn:E; try done.
  cbn [cbind]. intros Hq. exists path. split; [|done].
  eapply (search_or g Hg iter Hit p 100 []); [done|]. rewrite <-E. apply ap_indep; try done. apply canon_ok.
Qed.

Lemma run_canon g p m iter : Lawful g -> pairing_of g p -> hash_order_ok iter ->
  maximum_matching canon [] 100 g p = m -> m <> NoFuel -> matching_run iter g p m.
Proof.
  intros Hg Hp Hit E Hne. eapply (run_at g Hg iter Hit p m 100 []); try done.
  rewrite <-E. apply mm_indep; try done. apply canon_ok.
Qed.

Definition closed_under_next (g : Graph) (S : list Pairing) : bool :=
  forallb (fun p => match next g p with Ok q => bool_decide (q ∈ S) | _ => false end) S.

Lemma loops g p S iter : Lawful g -> hash_order_ok iter -> pairing_of g p -> p ∈ S ->
  (forall q, q ∈ S -> pairing_of g q) -> closed_under_next g S = true -> matching_diverges iter g p.
Proof.
  intros Hg Hit Hp Hin HS Hcl fuel. eapply (closed_diverges g Hg iter Hit S); try done.
  intros q Hq. unfold closed_under_next in Hcl. rewrite forallb_forall in Hcl.
  pose proof (Hcl q (proj1 (elem_of_list_In _ _) Hq)) as Hnext.
  destruct (next g q) as [r| | |] eqn:E; try done. apply bool_decide_eq_true_1 in Hnext.
  destruct (next_search g q r iter Hg (HS q Hq) Hit E) as (path & Hs & Hr). by exists path, r.
Qed.

Fixpoint trace_b (g : Graph) (p : Pairing) (l : list Pairing) : bool :=
  match l with
  | [] => true
  | q :: l' => match next g p with Ok q' => bool_decide (q' = q) | _ => false end && trace_b g q l'
  end.

Lemma round_trace g p l iter : Lawful g -> hash_order_ok iter -> (forall x, x ∈ p :: l -> pairing_of g x) ->
  trace_b g p l = true ->
  exists paths, length paths = length l /\ rounds iter g p paths (List.last l p).
Proof.
  intros Hg Hit. revert p. induction l as [|q l IH]; intros p Hall Ht.
  { exists []. split; [done|constructor]. }
  cbn [trace_b] in Ht. apply andb_true_iff in Ht as [H1 H2].
  destruct (next g p) as [q'| | |] eqn:E; try done. apply bool_decide_eq_true in H1 as ->.
  destruct (next_search g p q iter Hg (Hall p ltac:(left)) Hit E) as (path & Hs & Ha).
  destruct (IH q) as (paths & Hlen & Hr); [|done|].
  { intros x Hx. apply Hall. by right. }
  exists (path :: paths). split; [by simpl; rewrite Hlen|].
  replace (List.last (q :: l) p) with (List.last l q); [by econstructor|].
  clear. destruct l as [|a l]; [done|].
  change (List.last (a :: l) q = List.last (a :: l) p).
  revert a. induction l as [|b l IH]; intros a; [done|]. apply (IH b).
Qed.

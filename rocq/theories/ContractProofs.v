(** What holds of a contracted graph and pairing: stems, certificates and
    matchings go down and up through a blossom, and paths are lifted. *)
From Verif Require Import Outcome GraphModel TraversalModel ComponentsModel PairingModel Spec
  GraphProofs EditProofs TraversalProofs PathLemmas PairingProofs MatchTheory MaximumModel
  ForestProofs BlossomProofs.

(** ** Pairing up disjoint pairs *)

Lemma pair_all_snoc es e : pair_all (es ++ [e]) = p_pair (pair_all es) e.1 e.2.
Proof. unfold pair_all. by rewrite foldl_app. Qed.

Lemma pair_all_disjoint es : NoDup (endpoints es) ->
  symmetric_pairing (pair_all es) /\
  forall x y, pair_all es !! x = Some y <-> (x, y) ∈ es \/ (y, x) ∈ es.
Proof.
  induction es as [|e es IH] using rev_ind; intros Hnd.
  { split; [apply new_symmetric|]. intros x y. split; [done|]. intros [H|H]; by apply elem_of_nil in H. }
  rewrite endpoints_app in Hnd. apply NoDup_app in Hnd as (Hnd & Hdis & Hnd2).
  destruct (IH Hnd) as [Hs Hl]. rewrite pair_all_snoc. destruct e as [u v].
  change (endpoints [(u, v)]) with [u; v] in *. cbn [fst snd].
  assert (Huv : u <> v).
  { intros ->. apply NoDup_cons in Hnd2 as [H _]. apply H. left. }
  assert (Hout : forall x y, (x, y) ∈ es \/ (y, x) ∈ es -> x ∈ endpoints es).
  { intros x y [H|H]; apply elem_of_endpoints; eexists; (split; [exact H|]); auto. }
  assert (Hu : forall y, pair_all es !! u <> Some y /\ pair_all es !! v <> Some y).
  { intros y. rewrite !Hl. split; intros H%Hout; apply (Hdis _ H); set_solver. }
  split; [by apply pair_symmetric|]. intros x y. rewrite pair_lookup by done.
  rewrite !elem_of_app, !elem_of_list_singleton.
  assert (Hxu : forall x, pair_all es !! x <> Some u).
  { intros z Hz. apply Hs in Hz as [Hz _]. by destruct (Hu z). }
  assert (Hxv : forall x, pair_all es !! x <> Some v).
  { intros z Hz. apply Hs in Hz as [Hz _]. by destruct (Hu z). }
  specialize (Hl x y).
  repeat case_bool_decide; subst.
  - destruct (Hu y). split; [intros [= <-]; auto|].
    intros [[Hc|Hc]|[Hc|Hc]]; try tauto; congruence.
  - destruct (Hu y). split; [intros [= <-]; auto|].
    intros [[Hc|Hc]|[Hc|Hc]]; try tauto; congruence.
  - exfalso. specialize (Hxu x). specialize (Hxv x). tauto.
  - rewrite Hl. split; [tauto|]. intros [[Hc|Hc]|[Hc|Hc]]; try tauto; congruence.
Qed.

Lemma pair_all_order es : NoDup (endpoints es) -> p_order (pair_all es) = 2 * length es.
Proof.
  intros Hnd. destruct (pair_all_disjoint es Hnd) as [Hs Hl].
  rewrite <-endpoints_length. unfold p_order, size, map_size.
  rewrite <-(fmap_length fst (map_to_list (pair_all es))).
  apply Permutation_length, NoDup_Permutation; [apply NoDup_fst_map_to_list|done|].
  intros x. rewrite elem_of_list_fmap, elem_of_endpoints. split.
  - intros ([u v] & -> & Hin%elem_of_map_to_list%Hl). cbn [fst].
    destruct Hin as [H|H]; eexists; (split; [exact H|]); auto.
  - intros ([u v] & He & Hx). cbn [fst snd] in Hx. destruct Hx as [-> | ->].
    + exists (u, v). split; [done|]. apply elem_of_map_to_list, Hl. auto.
    + exists (v, u). split; [done|]. apply elem_of_map_to_list, Hl. auto.
Qed.

Section contracted.
  Context (g : Graph) (p : Pairing) (Hg : Lawful g) (Hp : pairing_of g p).
  Context (B : list N) (c : N) (l2 : list N) (HB : Bloss g p B c l2).
  Context (b : N) (Hb : b ∈ g_nodes g -> b ∈ B).
  Context (g' : Graph) (Hg' : Lawful g').
  Context (Hn' : g_nodes g' = b :: filter (fun x => x ∉ B) (g_nodes g)).
  Context (Ha' : forall x y, adj g' x y <-> made B b (g_edges g) x y).
  Notation σ := (squash B b).
  Notation out := (outside B).

  Lemma nodes_in x : x ∈ g_nodes g' <-> x = b \/ (x ∈ g_nodes g /\ x ∉ B).
  Proof. rewrite Hn', elem_of_cons, elem_of_list_filter. tauto. Qed.

  Lemma adj_down x y : adj g' x y ->
    exists s t, adj g s t /\ out (s, t) /\ x = σ s /\ y = σ t.
  Proof.
    intros (s & t & Hst & Ho & [[-> ->]|[-> ->]])%Ha'; apply (law_edges_adj g Hg) in Hst.
    - by exists s, t.
    - exists t, s. split_and!; try done; [by apply law_adj_sym|].
      unfold outside in *. simpl in *. tauto.
  Qed.

  Lemma adj_up s t : adj g s t -> s <> t -> out (s, t) -> adj g' (σ s) (σ t).
  Proof.
    intros Hst Hne Ho. apply Ha'. destruct (law_edges_complete g Hg s t Hne Hst) as [H|H].
    - exists s, t. auto.
    - exists t, s. split_and!; [done|unfold outside in *; simpl in *; tauto|auto].
  Qed.

  Lemma adj_out_up x y : adj g x y -> x <> y -> x ∉ B -> y ∉ B -> adj g' x y.
  Proof.
    intros H Hne Hx Hy. rewrite <-(squash_out B b x Hx), <-(squash_out B b y Hy).
    apply adj_up; try done. unfold outside. simpl. tauto.
  Qed.

  Lemma adj_out_down x y : adj g' x y -> x <> b -> y <> b -> adj g x y /\ x ∉ B /\ y ∉ B.
  Proof.
    intros (s & t & Hst & Ho & Hx & Hy)%adj_down Hxb Hyb.
    destruct (adj_nodes g Hg _ _ Hst) as [Hs Ht]. symmetry in Hx, Hy.
    apply (squash_other g B b) in Hx as [-> ?]; [|done..].
    apply (squash_other g B b) in Hy as [-> ?]; done.
  Qed.

  Lemma adj_b_down y : adj g' b y -> y <> b /\ y ∉ B /\ exists x, x ∈ B /\ adj g x y.
  Proof.
    intros (s & t & Hst & Ho & Hx & Hy)%adj_down.
    destruct (adj_nodes g Hg _ _ Hst) as [Hs Ht]. symmetry in Hx.
    apply (squash_b g B b Hb) in Hx; [|done].
    assert (HtB : t ∉ B) by (unfold outside in Ho; simpl in Ho; tauto).
    rewrite squash_out in Hy by done. subst. split_and!; [intros ->; auto|done|eauto].
  Qed.

  Lemma adj_b_up x y : x ∈ B -> y ∉ B -> adj g x y -> adj g' b y.
  Proof.
    intros Hx Hy H. rewrite <-(squash_in B b x Hx), <-(squash_out B b y Hy).
    apply adj_up; [done|intros ->; done|]. unfold outside. simpl. tauto.
  Qed.

  (** *** The pairing *)

  Lemma mate_in x y : x ∈ B -> p !! x = Some y -> x = c \/ y ∈ B.
  Proof.
    intros Hx Hxy. destruct (decide (x = c)) as [->|Hne]; [by left|right].
    destruct (bl_mates _ _ _ _ _ HB x Hx Hne) as (y' & Hy' & E). congruence.
  Qed.

  Lemma mate_base y : p !! c = Some y -> y ∉ B /\ exists l, l2 = y :: l.
  Proof.
    intros Hy. pose proof (bl_stem _ _ _ _ _ HB) as Hst.
    inversion Hst as [|? y' z l Hcy]; subst; [congruence|].
    assert (y' = y) as -> by congruence. split; [|by eexists].
    apply (bl_disj _ _ _ _ _ HB). left.
  Qed.

  Context (L : list (N * N)) (HL : L ≡ₚ map_to_list p).
  Notation es := (p_edges_of L).
  Definition kept : list (N * N) := filter (fun e => out e) es.
  Definition squashed : list (N * N) := (fun e => (σ e.1, σ e.2)) <$> kept.
  Notation p' := (b_contract_pairing (mkBlossom b B) es).

  Lemma contract_pairing_all : p' = pair_all squashed.
  Proof.
    unfold b_contract_pairing, pair_all, squashed, kept. generalize p_new.
    induction es as [|[s t] l IH]; intros q; [done|]. cbn [foldl]. rewrite IH, filter_cons.
    unfold b_contract_pair. cbn [b_path b_id].
    destruct (decide (s ∈ B)) as [Hs|Hs]; destruct (decide (t ∈ B)) as [Ht|Ht].
    - rewrite !bool_decide_eq_true_2 by done. rewrite decide_False; [done|].
      unfold outside. simpl. tauto.
    - rewrite (bool_decide_eq_true_2 (s ∈ B)), (bool_decide_eq_false_2 (t ∈ B)) by done.
      rewrite decide_True by (unfold outside; simpl; tauto). rewrite fmap_cons. cbn [foldl fst snd].
      by rewrite squash_in, squash_out.
    - rewrite (bool_decide_eq_false_2 (s ∈ B)), (bool_decide_eq_true_2 (t ∈ B)) by done.
      rewrite decide_True by (unfold outside; simpl; tauto). rewrite fmap_cons. cbn [foldl fst snd].
      by rewrite squash_out, (squash_in B b t).
    - rewrite !bool_decide_eq_false_2 by done.
      rewrite decide_True by (unfold outside; simpl; tauto). rewrite fmap_cons. cbn [foldl fst snd].
      by rewrite !squash_out.
  Qed.

  Lemma kept_elem s t : (s, t) ∈ kept -> p !! s = Some t /\ out (s, t).
  Proof.
    intros [Ho Hst]%elem_of_list_filter. apply (p_edges_elem p L HL) in Hst as [Hst _]. done.
  Qed.

  Lemma kept_endpoint x : x ∈ endpoints kept -> x ∈ g_nodes g /\ (x ∈ B -> x = c).
  Proof.
    intros ([s t] & [Hst Ho]%kept_elem & Hx)%elem_of_endpoints.
    destruct (adj_nodes g Hg s t) as [Hs Ht]; [by apply Hp|].
    unfold outside in Ho. cbn [fst snd] in *. destruct Hx as [-> | ->].
    - split; [done|]. intros HxB. destruct (mate_in s t HxB Hst); tauto.
    - split; [done|]. intros HxB. apply (proj1 Hp) in Hst as [Hts _].
      destruct (mate_in t s HxB Hts); tauto.
  Qed.

  Lemma squashed_nodup : NoDup (endpoints squashed).
  Proof.
    assert (endpoints squashed = σ <$> endpoints kept) as ->.
    { unfold squashed. induction kept as [|e l IH]; [done|]. rewrite fmap_cons.
      change (endpoints (?e :: ?l)) with (e.1 :: e.2 :: endpoints l).
      rewrite IH. done. }
    apply NoDup_fmap_2_strong.
    - intros x y [Hx Hxc]%kept_endpoint [Hy Hyc]%kept_endpoint Heq.
      apply (squash_eq g B b Hb) in Heq as [?|[HxB HyB]]; [done| |done..].
      rewrite (Hxc HxB), (Hyc HyB). done.
    - apply endpoints_filter_nodup. by apply (p_edges_nodup p (proj1 Hp)).
  Qed.

  Lemma p'_lookup x y : p' !! x = Some y <->
    exists s t, p !! s = Some t /\ out (s, t) /\ x = σ s /\ y = σ t.
  Proof.
    rewrite contract_pairing_all. rewrite (proj2 (pair_all_disjoint _ squashed_nodup)).
    assert (Hin : forall x y, (x, y) ∈ squashed <->
      exists s t, (s, t) ∈ kept /\ x = σ s /\ y = σ t).
    { intros u v. unfold squashed. rewrite elem_of_list_fmap. split.
      - intros ([s t] & [= -> ->] & H). eauto.
      - intros (s & t & H & -> & ->). by exists (s, t). }
    rewrite !Hin. split.
    - intros [(s & t & [Hst Ho]%kept_elem & -> & ->)|(s & t & [Hst Ho]%kept_elem & -> & ->)].
      + by exists s, t.
      + exists t, s. apply (proj1 Hp) in Hst as [Hts _]. split_and!; try done.
        unfold outside in *. simpl in *. tauto.
    - intros (s & t & Hst & Ho & -> & ->). destruct (proj1 Hp _ _ Hst) as [Hts Hne].
      destruct (decide (s < t)%N).
      + left. exists s, t. split; [|done]. apply elem_of_list_filter. split; [done|].
        by apply (p_edges_elem p L HL).
      + right. exists t, s. split; [|done]. apply elem_of_list_filter. split.
        * unfold outside in *. simpl in *. tauto.
        * apply (p_edges_elem p L HL). split; [done|lia].
  Qed.

  Lemma p'_pairing : pairing_of g' p'.
  Proof.
    split.
    - rewrite contract_pairing_all. apply pair_all_disjoint, squashed_nodup.
    - intros x y (s & t & Hst & Ho & -> & ->)%p'_lookup. apply adj_up; [by apply Hp| |done].
      by apply (proj1 Hp) in Hst as [_ ?].
  Qed.

  Lemma p'_out x y : x ∉ B -> y ∉ B -> p !! x = Some y -> p' !! x = Some y.
  Proof.
    intros Hx Hy H. apply p'_lookup. exists x, y. rewrite !squash_out by done.
    split_and!; try done. unfold outside. simpl. tauto.
  Qed.

  Lemma p'_none x : x ∈ g_nodes g -> x ∉ B -> p !! x = None -> p' !! x = None.
  Proof.
    intros Hx HxB H. destruct (p' !! x) as [y|] eqn:E; [|done].
    apply p'_lookup in E as (s & t & Hst & _ & Hs & _). symmetry in Hs.
    apply (squash_other g B b) in Hs as [-> _]; [congruence| |intros ->; auto].
    apply (adj_nodes g Hg s t). by apply Hp.
  Qed.

  Lemma p'_b : p' !! b = p !! c.
  Proof.
    destruct (p !! c) as [y|] eqn:E.
    - destruct (mate_base y E) as [Hy _]. apply p'_lookup. exists c, y.
      rewrite squash_in by apply HB. rewrite squash_out by done.
      split_and!; try done. unfold outside. simpl. tauto.
    - destruct (p' !! b) as [y|] eqn:E'; [|done].
      apply p'_lookup in E' as (s & t & Hst & Ho & Hs & _). symmetry in Hs.
      apply (squash_b g B b Hb) in Hs.
      2:{ apply (adj_nodes g Hg s t). by apply Hp. }
      unfold outside in Ho. simpl in Ho. destruct (mate_in s t Hs Hst) as [->|?]; [congruence|tauto].
  Qed.

  Lemma stem_down l : stem g p l -> NoDup l -> (forall x, x ∈ l -> x ∉ B) -> stem g' p' l.
  Proof.
    intros Hst. induction Hst as [r Hr Hn|x y z l Hxy Hyz Hst IH]; intros Hnd Hout.
    - assert (r ∉ B) by (apply Hout; left). constructor; [by apply p'_none|].
      apply nodes_in. by right.
    - apply NoDup_cons in Hnd as [Hx Hnd]. apply NoDup_cons in Hnd as [Hy Hnd].
      constructor.
      + apply p'_out; [apply Hout; left|apply Hout; right; left|done].
      + apply adj_out_up; [done|intros ->; apply Hy; left| |]; apply Hout; [right; left|right; right; left].
      + apply IH; [done|]. intros u Hu. apply Hout. by right; right.
  Qed.

  Lemma stem_b : stem g' p' (b :: l2) /\ NoDup (b :: l2).
  Proof.
    pose proof (bl_stem _ _ _ _ _ HB) as Hst. pose proof (bl_nodup _ _ _ _ _ HB) as Hnd.
    pose proof (bl_disj _ _ _ _ _ HB) as Hdis.
    apply NoDup_cons in Hnd as [Hc Hnd].
    split.
    - remember (c :: l2) as k eqn:Ek.
      destruct Hst as [r Hr Hn|x y z l Hxy Hyz Hst]; injection Ek as -> El;
        rewrite <-El in Hdis, Hnd |- *.
      + apply stem_root; [by rewrite p'_b|]. apply nodes_in. by left.
      + apply NoDup_cons in Hnd as [Hy Hnd]. apply stem_cons.
        * by rewrite p'_b.
        * apply adj_out_up; [done|intros ->; apply Hy; left| |]; apply Hdis; [left|right; left].
        * apply stem_down; [done|done|]. intros u Hu. apply Hdis. by right.
    - apply NoDup_cons. split; [|done]. intros Hin.
      apply (Hdis b Hin), Hb. pose proof (stem_is_path g p _ Hp Hst) as Hpath.
      eapply elem_of_is_path; [done|exact Hpath| |by right].
      destruct l2; [by apply elem_of_nil in Hin|]. simpl. lia.
  Qed.

  Lemma B_length : length B = S (length (filter (fun x => x <> c) B)).
  Proof.
    destruct (bl_cycle _ _ _ _ _ HB) as (Hnd & _).
    assert (Hperm : B ≡ₚ c :: filter (fun x => x <> c) B).
    { apply NoDup_Permutation; [done| |].
      - apply NoDup_cons. split; [|by apply NoDup_filter].
        intros [? _]%elem_of_list_filter. done.
      - intros x. rewrite elem_of_cons, elem_of_list_filter. destruct (decide (x = c)) as [->|].
        + split; [auto|]. intros _. apply HB.
        + tauto. }
    by rewrite Hperm at 1.
  Qed.

  Lemma p'_order : p_order p + 1 = p_order p' + length B.
  Proof.
    rewrite contract_pairing_all, pair_all_order by apply squashed_nodup.
    unfold squashed. rewrite fmap_length.
    rewrite (p_edges_length p (proj1 Hp) L HL).
    rewrite (length_filter_split (fun e => out e) es). fold kept.
    assert (2 * length (filter (fun e => ~ out e) es) = length (filter (fun x => x <> c) B)).
    { rewrite <-endpoints_length. apply Permutation_length, NoDup_Permutation.
      - apply endpoints_filter_nodup. by apply (p_edges_nodup p (proj1 Hp)).
      - apply NoDup_filter. apply (bl_cycle _ _ _ _ _ HB).
      - assert (Hcy : forall y, y ∈ B -> p !! c <> Some y).
        { intros y Hy E. by apply mate_base in E as [? _]. }
        intros x. rewrite elem_of_list_filter, elem_of_endpoints. split.
        + intros ([s t] & [Ho Hst]%elem_of_list_filter & Hx).
          apply (p_edges_elem p L HL) in Hst as [Hst _].
          destruct (proj1 Hp _ _ Hst) as [Hts _].
          assert (Hin : s ∈ B /\ t ∈ B).
          { unfold outside in Ho. simpl in Ho.
            destruct (decide (s ∈ B)), (decide (t ∈ B)); tauto. }
          cbn [fst snd] in Hx. destruct Hin as [HsB HtB].
          destruct Hx as [-> | ->]; (split; [|done]); intros ->.
          * by apply (Hcy t).
          * by apply (Hcy s).
        + intros [Hxc HxB]. destruct (bl_mates _ _ _ _ _ HB x HxB Hxc) as (y & Hy & Hxy).
          destruct (proj1 Hp _ _ Hxy) as [Hyx Hne].
          destruct (decide (x < y)%N).
          * exists (x, y). split; [|auto]. apply elem_of_list_filter. split.
            -- unfold outside. simpl. tauto.
            -- by apply (p_edges_elem p L HL).
          * exists (y, x). split; [|auto]. apply elem_of_list_filter. split.
            -- unfold outside. simpl. tauto.
            -- apply (p_edges_elem p L HL). split; [done|lia]. }
    pose proof B_length. lia.
  Qed.

  (** *** Certificates come back *)

  Definition swell (C : list N) : list N := C ≫= (fun x => if bool_decide (x = b) then B else [x]).

  Lemma swell_app C D : swell (C ++ D) = swell C ++ swell D.
  Proof. apply bind_app. Qed.

  Lemma swell_id C : b ∉ C -> swell C = C.
  Proof.
    induction C as [|x C IH]; [done|]. intros [Hx HC]%not_elem_of_cons.
    change (swell (x :: C)) with ((if bool_decide (x = b) then B else [x]) ++ swell C).
    rewrite bool_decide_eq_false_2 by congruence. by rewrite IH.
  Qed.

  Lemma elem_of_swell C x : x ∈ swell C <-> (x ∈ B /\ b ∈ C) \/ (x <> b /\ x ∈ C).
  Proof.
    unfold swell. rewrite elem_of_list_bind. split.
    - intros (y & Hx & Hy). case_bool_decide as Hyb.
      + subst. auto.
      + apply elem_of_list_singleton in Hx as ->. auto.
    - intros [[HxB HbC]|[Hxb HxC]].
      + exists b. by rewrite bool_decide_eq_true_2.
      + exists x. rewrite bool_decide_eq_false_2 by done. split; [left|done].
  Qed.

  Lemma swell_concat Cs : concat (swell <$> Cs) = swell (concat Cs).
  Proof.
    induction Cs as [|C Cs IH]; [done|]. rewrite fmap_cons. cbn [concat]. by rewrite IH, swell_app.
  Qed.

  Lemma swell_length C : NoDup C -> b ∈ C -> length (swell C) + 1 = length C + length B.
  Proof.
    intros Hnd Hin. apply elem_of_list_split in Hin as (C1 & C2 & ->).
    apply NoDup_app in Hnd as (_ & Hd & Hnd). apply NoDup_cons in Hnd as [HC2 _].
    assert (HC1 : b ∉ C1) by (intros H; apply (Hd b H); left).
    rewrite swell_app. change (swell (b :: C2)) with ((if bool_decide (b = b) then B else [b]) ++ swell C2).
    rewrite bool_decide_eq_true_2 by done. rewrite !swell_id by done.
    rewrite !app_length. simpl. lia.
  Qed.

  Lemma halves_swell k Cs : length B = 2 * k + 1 -> NoDup (concat Cs) -> b ∈ concat Cs ->
    halves (swell <$> Cs) = halves Cs + k.
  Proof.
    intros Hk. induction Cs as [|C Cs IH]; intros Hnd Hin; [by apply elem_of_nil in Hin|].
    cbn [concat] in *. apply NoDup_app in Hnd as (HnC & Hd & Hnd). rewrite fmap_cons.
    change (halves (?D :: ?Ds)) with (length D / 2 + halves Ds).
    apply elem_of_app in Hin as [Hin|Hin].
    - assert (Hnot : b ∉ concat Cs) by auto.
      assert (swell <$> Cs = Cs) as ->.
      { clear -Hnot. induction Cs as [|C Cs IH]; [done|]. cbn [concat] in Hnot.
        apply not_elem_of_app in Hnot as [H1 H2]. rewrite fmap_cons, swell_id by done. by rewrite IH. }
      pose proof (swell_length C HnC Hin) as Hl.
      assert (length (swell C) = length C + k * 2) as -> by lia.
      rewrite Nat.div_add by done. lia.
    - assert (Hnot : b ∉ C) by (intros H; by apply (Hd b H)).
      rewrite (swell_id C Hnot), IH by done. lia.
  Qed.

  Lemma B_odd : exists k, length B = 2 * k + 1.
  Proof.
    destruct (bl_cycle _ _ _ _ _ HB) as (_ & Hodd & _).
    apply Nat.odd_spec in Hodd as [k Hk]. by exists k.
  Qed.

  Lemma cert_up O Cs : cert g' p' O Cs -> cert g p O (swell <$> Cs).
  Proof.
    intros Hcert. destruct (stem_b) as [Hst Hnd].
    assert (HbO : b ∉ O).
    { destruct (stem_switch g' p' b l2 Hg' p'_pairing Hst Hnd) as (q & Hq & Hord & Hqb).
      eapply cert_covers; try done. apply Hg'. }
    destruct Hcert as [Hnodes Hedges Htight].
    pose proof (law_nodes g' Hg') as HndN. rewrite <-Hnodes in HndN.
    apply NoDup_app in HndN as (HndO & HdO & HndC).
    assert (HbC : b ∈ concat Cs).
    { assert (Hin : b ∈ O ++ concat Cs) by (rewrite Hnodes; apply nodes_in; by left).
      apply elem_of_app in Hin as [?|?]; done. }
    destruct (bl_cycle _ _ _ _ _ HB) as (HndB & _).
    destruct B_odd as [k Hk].
    constructor.
    - rewrite swell_concat. rewrite <-(swell_id O HbO) at 1. rewrite <-swell_app.
      assert (swell (O ++ concat Cs) ≡ₚ swell (g_nodes g')) as ->.
      { unfold swell. by rewrite Hnodes. }
      rewrite Hn'. change (swell (b :: ?l)) with ((if bool_decide (b = b) then B else [b]) ++ swell l).
      rewrite bool_decide_eq_true_2 by done. rewrite swell_id.
      2:{ intros [? ?]%elem_of_list_filter. auto. }
      apply NoDup_Permutation; [|apply Hg|].
      + apply NoDup_app. split_and!; [done| |by apply NoDup_filter, Hg].
        intros x Hx [? _]%elem_of_list_filter. done.
      + intros x. rewrite elem_of_app, elem_of_list_filter. split.
        * intros [Hx|[_ ?]]; [by apply HB|done].
        * intros Hx. destruct (decide (x ∈ B)); auto.
    - intros u v Hne Huv.
      assert (Hmem : forall x C, x ∈ g_nodes g -> σ x ∈ C -> x ∈ swell C).
      { intros x C Hx HxC. apply elem_of_swell. destruct (decide (x ∈ B)) as [HxB|HxB].
        - rewrite squash_in in HxC by done. auto.
        - rewrite squash_out in HxC by done. right. split; [intros ->; auto|done]. }
      assert (HmemO : forall x, σ x ∈ O -> x ∈ O).
      { intros x HxO. destruct (decide (x ∈ B)) as [HxB|HxB].
        - rewrite squash_in in HxO by done. done.
        - by rewrite squash_out in HxO by done. }
      destruct (adj_nodes g Hg u v Huv) as [Hu Hv].
      destruct (decide (u ∈ B /\ v ∈ B)) as [[HuB HvB]|Ho].
      + right. right.
        assert (HbC' : exists C, b ∈ C /\ C ∈ Cs).
        { clear -HbC. induction Cs as [|C Cs IH]; [by apply elem_of_nil in HbC|]. cbn [concat] in HbC.
          apply elem_of_app in HbC as [H|H].
          - exists C. split; [done|left].
          - destruct (IH H) as (D & ? & ?). exists D. split; [done|by right]. }
        destruct HbC' as (C & HbC' & HC).
        exists (swell C). split_and!; [apply elem_of_list_fmap; by exists C| |];
          apply elem_of_swell; auto.
      + assert (Hne' : σ u <> σ v).
        { intros E. apply (squash_eq g B b Hb) in E as [?|?]; tauto. }
        destruct (Hedges (σ u) (σ v) Hne') as [H|[H|(C & HC & HuC & HvC)]].
        * by apply adj_up.
        * left. by apply HmemO.
        * right. left. by apply HmemO.
        * right. right. exists (swell C). split_and!; [apply elem_of_list_fmap; by exists C| |];
            by apply Hmem.
    - rewrite (halves_swell k Cs Hk HndC HbC). pose proof p'_order. lia.
  Qed.

  (** *** Matchings expand *)

  Lemma matching_up M' : matching g' M' ->
    exists M, matching g M /\ 2 * length M + 1 = 2 * length M' + length B.
  Proof.
    intros HM'. pose proof HM' as [Hadj Hnd].
    set (touches := fun e : N * N => e.1 = b \/ e.2 = b).
    set (M0 := filter (fun e => ~ touches e) M').
    assert (HM0 : forall u v, (u, v) ∈ M0 -> adj g u v /\ u ∉ B /\ v ∉ B /\ u <> b /\ v <> b).
    { intros u v [Ht Hin]%elem_of_list_filter. unfold touches in Ht. simpl in Ht.
      destruct (adj_out_down u v) as (? & ? & ?); [by apply Hadj|tauto|tauto|]. tauto. }
    assert (Hnd0 : NoDup (endpoints M0)) by (by apply endpoints_filter_nodup).
    assert (H0B : forall x, x ∈ endpoints M0 -> x ∉ B).
    { intros x ([u v] & (_ & ? & ? & _)%HM0 & [-> | ->])%elem_of_endpoints; done. }
    destruct (decide (b ∈ endpoints M')) as [Hbin|Hbout].
    - apply elem_of_endpoints in Hbin as ([e1 e2] & He & Hbe). cbn [fst snd] in Hbe.
      assert (Hy : exists y, adj g' b y /\ y ∈ endpoints [(e1, e2)] /\ b ∈ endpoints [(e1, e2)]).
      { apply Hadj in He. destruct Hbe as [<- | <-].
        - exists e2. split_and!; [done|right; left|left].
        - exists e1. split_and!; [by apply law_adj_sym|left|right; left]. }
      destruct Hy as (y & Hby & Hye & Hbe').
      destruct (adj_b_down y Hby) as (Hyb & HyB & x & HxB & Hxy).
      destruct (odd_cycle_match g B x (bl_cycle _ _ _ _ _ HB) HxB) as (MB & [HMB1 HMB2] & HlB & HeB).
      assert (Hrest : forall f, f ∈ M' -> f <> (e1, e2) ->
                forall z, z ∈ endpoints [(e1, e2)] -> f.1 <> z /\ f.2 <> z).
      { intros [f1 f2] Hf Hne z Hz. apply elem_of_list_split in He as (Ma & Mb & E).
        rewrite E in Hnd, Hf. rewrite endpoints_app in Hnd.
        change (endpoints ((e1, e2) :: Mb)) with (endpoints [(e1, e2)] ++ endpoints Mb) in Hnd.
        apply NoDup_app in Hnd as (_ & Hd1 & Hnd). apply NoDup_app in Hnd as (_ & Hd2 & _).
        apply elem_of_app in Hf as [Hf|[?|Hf]%elem_of_cons]; [|done|].
        - split; cbn; intros ->; apply (Hd1 z); try (apply elem_of_app; by left);
            apply elem_of_endpoints; eexists; (split; [exact Hf|]); auto.
        - split; cbn; intros ->; apply (Hd2 z Hz);
            apply elem_of_endpoints; eexists; (split; [exact Hf|]); auto. }
      assert (Htouch : forall f, f ∈ M' -> touches f -> f = (e1, e2)).
      { intros f Hf Ht. destruct (decide (f = (e1, e2))); [done|].
        destruct (Hrest f Hf n b Hbe'). unfold touches in Ht. tauto. }
      exists ((x, y) :: MB ++ M0). split.
      + split.
        * intros u v [[= -> ->]|[Huv|Huv]%elem_of_app]%elem_of_cons; [done|by apply HMB1|].
          by apply HM0.
        * change (endpoints ((x, y) :: MB ++ M0)) with (x :: y :: endpoints (MB ++ M0)).
          rewrite endpoints_app.
          assert (HxM : x ∉ endpoints MB ++ endpoints M0).
          { intros [H|H]%elem_of_app; [|by apply (H0B x H)].
            by apply HeB in H as [_ ?]. }
          assert (HyM : y ∉ endpoints MB ++ endpoints M0).
          { intros [H|H]%elem_of_app; [by apply HeB in H as [? _]|].
            apply elem_of_endpoints in H as (f & Hf & Hyf).
            apply elem_of_list_filter in Hf as [Ht Hf].
            assert (Hne : f <> (e1, e2)).
            { intros ->. apply Ht. unfold touches. cbn. destruct Hbe; auto. }
            destruct (Hrest f Hf Hne y Hye). destruct Hyf; congruence. }
          apply NoDup_cons. split.
          { intros [->|H]%elem_of_cons; done. }
          apply NoDup_cons. split; [done|]. apply NoDup_app. split_and!; [done| |done].
          intros z [Hz _]%HeB Hz'. by apply (H0B z).
      + cbn [length]. rewrite app_length.
        assert (length M' = S (length M0)); [|lia].
        rewrite (length_filter_split touches M'). fold M0.
        assert (filter touches M' ≡ₚ [(e1, e2)]) as ->; [|done].
        apply NoDup_Permutation.
        * apply NoDup_filter. clear -Hnd. induction M' as [|f M IH]; [constructor|].
          change (endpoints (f :: M)) with (f.1 :: f.2 :: endpoints M) in Hnd.
          apply NoDup_cons in Hnd as [H1 Hnd]. apply NoDup_cons in Hnd as [H2 Hnd].
          apply NoDup_cons. split; [|by apply IH]. intros Hf. apply H2.
          apply elem_of_endpoints. exists f. auto.
        * apply NoDup_singleton.
        * intros f. rewrite elem_of_list_filter, elem_of_list_singleton. split.
          -- intros [? ?]. by apply Htouch.
          -- intros ->. split; [|done]. unfold touches. cbn. destruct Hbe; auto.
    - destruct (odd_cycle_match g B c (bl_cycle _ _ _ _ _ HB) (bl_in _ _ _ _ _ HB))
        as (MB & [HMB1 HMB2] & HlB & HeB).
      exists (MB ++ M0). split.
      + split.
        * intros u v [Huv|Huv]%elem_of_app; [by apply HMB1|]. by apply HM0.
        * rewrite endpoints_app. apply NoDup_app. split_and!; [done| |done].
          intros z [Hz _]%HeB Hz'. by apply (H0B z).
      + rewrite app_length. assert (M0 = M') as ->; [|lia].
        unfold M0.
        assert (Hall : forall e, e ∈ M' -> ~ touches e).
        { intros e He Ht. apply Hbout, elem_of_endpoints. exists e. unfold touches in Ht.
          split; [done|]. intuition congruence. }
        clear -Hall. induction M' as [|e M IH]; [done|]. rewrite filter_cons.
        rewrite decide_True by (apply Hall; left). f_equal. apply IH. intros f Hf. apply Hall. by right.
  Qed.
End contracted.

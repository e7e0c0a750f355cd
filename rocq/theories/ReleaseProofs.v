(** The search and the matching without overflow checks. *)
From Verif Require Import Outcome GraphModel TraversalModel ComponentsModel PairingModel Spec
  GraphProofs EditProofs TraversalProofs PathLemmas PairingProofs MatchTheory MaximumModel
  ReleaseModel ForestProofs BlossomProofs ContractProofs LiftProofs TameProofs MaximumProofs.

(** What the result of a search means. *)
Definition ap_post_release (g : Graph) (p : Pairing) (res : comp (option (list N))) : Prop :=
  match res with
  | Ok o => ap_post g p (Ok o)
  | Panic (PUnwrap (DuplicateNode n)) => n = 0%N /\ ~ id_room g /\ exists c, odd_cycle g c
  | _ => False
  end.

(** A reused id outside the blossom is refused. *)
Lemma contract_nodes_duplicate B b ids d a : Rep d a -> NoDup ids -> b ∈ a_nodes a -> b ∈ ids ->
  b ∉ B -> (forall x, x ∈ ids -> x <> b -> x ∉ a_nodes a) ->
  b_contract_nodes (mkBlossom b B) ids d = Err (DuplicateNode b).
Proof.
  revert d a. induction ids as [|x ids IH]; intros d a HR Hnd Hba Hb HbB Hout;
    [by apply elem_of_nil in Hb|].
  apply NoDup_cons in Hnd as [Hx Hnd]. cbn [b_contract_nodes b_path].
  destruct (decide (x = b)) as [->|Hne].
  - rewrite bool_decide_eq_false_2 by done.
    destruct (rep_step d a (AddNode b) HR) as [Hr _]. cbn [run_op a_result] in Hr.
    rewrite bool_decide_eq_true_2 in Hr by done.
    destruct (dg_add_node d b) as [d' r]. simpl in Hr. by subst r.
  - assert (Hbids : b ∈ ids) by (apply elem_of_cons in Hb as [->|?]; done).
    destruct (decide (x ∈ B)) as [Hin|Hin].
    + rewrite bool_decide_eq_true_2 by done. cbn [cbind].
      eapply IH; try done. intros y Hy. apply Hout. by right.
    + rewrite bool_decide_eq_false_2 by done.
      assert (Hres : a_result a (AddNode x) = Ok tt).
      { simpl. rewrite bool_decide_eq_false_2; [done|]. apply Hout; [left|done]. }
      destruct (local_ok d (AddNode x) a HR Hres) as (d' & Hd & HR').
      cbn [run_op] in Hd. rewrite Hd. cbn [cbind].
      unfold a_step in HR'. rewrite Hres in HR'.
      eapply (IH d' _ HR'); try done.
      * cbn. apply elem_of_app. by left.
      * cbn [a_nodes]. intros y Hy Hyb [Hya| ->%elem_of_list_singleton]%elem_of_app; [|done].
        revert Hya. apply Hout; [by right|done].
Qed.

Lemma contract_graph_duplicate g B b : Lawful g -> b ∈ g_nodes g -> b ∉ B ->
  b_contract_graph (mkBlossom b B) g = Err (DuplicateNode b).
Proof.
  intros Hg Hb HbB. unfold b_contract_graph. cbn [b_id].
  destruct (local_ok dg_new (AddNode b) (mkA [] []) rep_new) as (d0 & Hd0 & HR0); [done|].
  cbn [run_op] in Hd0. rewrite Hd0. cbn [cbind].
  erewrite (contract_nodes_duplicate B b (g_nodes g) d0); [done|exact HR0|apply Hg|left|done|done|].
  cbn. intros x _ Hne Hx%elem_of_list_singleton. done.
Qed.

Section step.
  Context (g : Graph) (p : Pairing) (Hg : Lawful g) (Hp : pairing_of g p).

  Definition continue_release (iter : hash_order) (tag : list nat) (fuel : nat) (r : search)
      : comp (option (list N)) :=
    match r with
    | Exhausted _ _ => Ok None
    | EvenPath v path_w forest =>
        let! opath := f_path forest v in
        let! path_v := expect_some opath in
        if bool_decide (last path_v = last path_w) then
          let! max_id := expect_some (nodes_max (g_nodes g)) in
          let id := wrapping_succ max_id in
          let! blossom := b_new id path_v path_w in
          let! contracted_graph := unwrap (b_contract_graph blossom g) in
          let contracted_pairing := b_contract_pairing blossom (p_edges iter (1 :: tag) p) in
          let! opath := augmenting_path_release iter (2 :: tag) fuel
                          (as_graph contracted_graph) contracted_pairing in
          match opath with
          | Some path => let! lifted := b_lift (S fuel) blossom path g in Ok (Some lifted)
          | None => Ok None
          end
        else Ok (Some (reverse path_v ++ path_w))
    end.

  Lemma ap_unfold_release iter tag fuel f : hash_order_ok iter ->
    add_roots f_new p (g_nodes g) = Ok f ->
    augmenting_path_release iter tag (S fuel) g p =
      let! r := search_v (S fuel) g p f (marker0 p) in continue_release iter tag fuel r.
  Proof.
    intros Hit Hf. cbn [augmenting_path_release]. unfold p_edges at 1.
    rewrite (marker_start g p Hp) by apply Hit. cbn [cbind]. rewrite Hf. done.
  Qed.

  Inductive outcome_release (v : N) (pw : list N) (f : Forest) : Prop :=
  | outr_path pv :
      (forall iter tag fuel, continue_release iter tag fuel (EvenPath v pw f) =
         Ok (Some (reverse pv ++ pw))) ->
      augments p (reverse pv ++ pw) -> is_path g (reverse pv ++ pw) ->
      (forall x, x ∈ reverse pv ++ pw -> x ∈ g_nodes g) -> 2 <= length (reverse pv ++ pw) ->
      outcome_release v pw f
  | outr_duplicate m :
      (forall iter tag fuel, continue_release iter tag fuel (EvenPath v pw f) =
         Panic (PUnwrap (DuplicateNode 0%N))) ->
      m ∈ g_nodes g -> (usize_max <= m)%N ->
      (exists c, odd_cycle g c) ->
      outcome_release v pw f
  | outr_blossom B c l2 m b d :
      Bloss g p B c l2 -> (b ∈ g_nodes g -> b ∈ B) ->
      m ∈ g_nodes g -> (forall x, x ∈ g_nodes g -> (x <= m)%N) ->
      ((m < usize_max)%N /\ b = (m + 1)%N \/ (usize_max <= m)%N) ->
      WF d -> g_nodes (as_graph d) = b :: filter (fun x => x ∉ B) (g_nodes g) ->
      (forall x y, adj (as_graph d) x y <-> made B b (g_edges g) x y) ->
      (forall iter tag fuel, hash_order_ok iter -> continue_release iter tag fuel (EvenPath v pw f) =
         let! opath := augmenting_path_release iter (2 :: tag) fuel (as_graph d)
           (b_contract_pairing (mkBlossom b B) (p_edges_of (map_to_list p))) in
         match opath with
         | Some path => let! lifted := b_lift (S fuel) (mkBlossom b B) path g in Ok (Some lifted)
         | None => Ok None
         end) ->
      (exists c, odd_cycle g c) ->
      outcome_release v pw f.

  Lemma found_outcome_release v pw f : found g p v pw f -> outcome_release v pw f.
  Proof.
    intros (HF & Hv & w & Hw & Hvw & Hpw).
    destruct (even_in_path g p f Hg HF v Hv) as (pv & Hpv & _ & _).
    pose proof (f_path_some g p f HF v pv Hpv) as Hfp.
    destruct (decide (last pv = last pw)) as [Hl|Hl].
    - destruct (found_blossom g p Hg Hp f v w pv pw HF Hv Hw Hvw Hpv Hpw Hl) as (B & c & l2 & Hbp & HB).
      assert (Hnb : exists c, odd_cycle g c) by (exists B; apply HB).
      pose proof (nodes_max_spec (g_nodes g)) as Hmax.
      destruct (nodes_max (g_nodes g)) as [m|] eqn:Em.
      2:{ exfalso. pose proof (bl_nodes _ _ _ _ _ HB c (bl_in _ _ _ _ _ HB)) as Hc.
          rewrite Hmax in Hc. by apply elem_of_nil in Hc. }
      destruct Hmax as [Hm Hle].
      set (b := wrapping_succ m).
      assert (Hcase : (m < usize_max)%N /\ b = (m + 1)%N \/ (usize_max <= m)%N /\ b = 0%N).
      { unfold b, wrapping_succ. destruct (N.ltb m usize_max) eqn:Elt.
        - apply N.ltb_lt in Elt. by left.
        - apply N.ltb_ge in Elt. by right. }
      assert (Hrun : forall iter tag fuel, continue_release iter tag fuel (EvenPath v pw f) =
        let! contracted_graph := unwrap (b_contract_graph (mkBlossom b B) g) in
        let contracted_pairing := b_contract_pairing (mkBlossom b B) (p_edges iter (1 :: tag) p) in
        let! opath := augmenting_path_release iter (2 :: tag) fuel
                          (as_graph contracted_graph) contracted_pairing in
        match opath with
        | Some path => let! lifted := b_lift (S fuel) (mkBlossom b B) path g in Ok (Some lifted)
        | None => Ok None
        end).
      { intros iter tag fuel. unfold continue_release. rewrite Hfp. cbn [cbind expect_some].
        rewrite bool_decide_eq_true_2 by done. rewrite Em. cbn [cbind expect_some].
        unfold b_new. rewrite Hbp. cbn [cbind]. done. }
      destruct (decide (b ∈ g_nodes g /\ b ∉ B)) as [[Hbg HbB]|Hb'].
      + destruct Hcase as [[_ Hbm]|[Hu Hb0]].
        { exfalso. specialize (Hle b Hbg). lia. }
        apply (outr_duplicate v pw f m); try done. intros iter tag fuel.
        rewrite Hrun, contract_graph_duplicate by done. cbn [unwrap cbind]. by rewrite Hb0.
      + assert (Hb : b ∈ g_nodes g -> b ∈ B) by (destruct (decide (b ∈ B)); tauto).
        destruct (contract_graph_spec g Hg B b Hb) as (d & Hd & Hwf & Hn & Ha).
        apply (outr_blossom v pw f B c l2 m b d); try done; [tauto|].
        intros iter tag fuel Hit. rewrite Hrun, Hd. cbn [unwrap cbind].
        unfold p_edges. by erewrite contract_pairing_indep.
    - destruct (found_augments g p Hg Hp f v w pv pw HF Hv Hw Hvw Hpv Hpw Hl) as (H1 & H2 & H3 & H4).
      apply (outr_path v pw f pv); try done.
      intros iter tag fuel. unfold continue_release. rewrite Hfp. cbn [cbind expect_some].
      by rewrite bool_decide_eq_false_2.
  Qed.
End step.

(** *** The whole search *)

Theorem ap_spec_release g p : Lawful g -> pairing_of g p ->
  exists n res, ap_post_release g p res /\ forall iter tag, hash_order_ok iter ->
    settles (fun fuel => augmenting_path_release iter tag fuel g p) n res.
Proof.
  remember (measure g) as k eqn:Hk. revert g p Hk.
  induction k as [k IHk] using lt_wf_ind; intros g p Hk Hg Hp.
  destruct (search_start g p Hg Hp) as (f & n & r & Hf & [Hs1 Hs2] & Hr).
  destruct r as [f' m'|v pw f'].
  { exists (S n), (Ok None). split; [exact Hr|]. intros iter tag Hit. split.
    - intros [|fuel] Hfu; [lia|]. rewrite (ap_unfold_release g p Hp iter tag fuel f Hit Hf).
      rewrite Hs1 by lia. done.
    - intros [|fuel]; [by left|]. rewrite (ap_unfold_release g p Hp iter tag fuel f Hit Hf).
      destruct (Hs2 (S fuel)) as [-> | ->]; [by left|by right]. }
  assert (Hred : forall n' res, ap_post_release g p res ->
    (forall iter tag, hash_order_ok iter ->
       settles (fun fuel => continue_release g p iter tag fuel (EvenPath v pw f')) n' res) ->
    exists n res, ap_post_release g p res /\ forall iter tag, hash_order_ok iter ->
      settles (fun fuel => augmenting_path_release iter tag fuel g p) n res).
  { intros n' res Hpost Hset. exists (S (Nat.max n n')), res. split; [done|].
    intros iter tag Hit. destruct (Hset iter tag Hit) as [Hc1 Hc2]. split.
    - intros [|fuel] Hfu; [lia|]. rewrite (ap_unfold_release g p Hp iter tag fuel f Hit Hf).
      rewrite Hs1 by lia. apply Hc1. lia.
    - intros [|fuel]; [by left|]. rewrite (ap_unfold_release g p Hp iter tag fuel f Hit Hf).
      destruct (Hs2 (S fuel)) as [-> | ->]; [by left|]. apply Hc2. }
  destruct (found_outcome_release g p Hg Hp v pw f' Hr)
    as [pv Hcont Hau Hpath Hnodes Hlen|m Hcont Hm Hmax Hnb|B c l2 m b d HB Hb Hm Hle Hbm Hwf Hn Ha Hcont Hnb].
  - apply (Hred 0 (Ok (Some (reverse pv ++ pw)))).
    + assert (Hne : reverse pv ++ pw <> []) by (intros E; rewrite E in Hlen; simpl in Hlen; lia).
      split_and!; [|done|by eapply augments_bigger| |].
      * split_and!; try done. apply Hau.
      * intros _. by apply augments_covers.
      * intros _. apply Hau.
    + intros iter tag _. apply settles_now. intros fuel. apply Hcont.
  - apply (Hred 0 (Panic (PUnwrap (DuplicateNode 0%N)))).
    + split; [done|]. split; [|done]. intros Hroom. specialize (Hroom m Hm).
      assert (length (g_nodes g) <> 0); [|lia].
      destruct (g_nodes g); [by apply elem_of_nil in Hm|done].
    + intros iter tag _. apply settles_now. intros fuel. apply Hcont.
  - set (g' := as_graph d) in *.
    assert (Hg' : Lawful g') by (by apply wf_lawful).
    set (p' := b_contract_pairing (mkBlossom b B) (p_edges_of (map_to_list p))).
    assert (Hp' : pairing_of g' p').
    { by apply (p'_pairing g p Hg Hp B c l2 HB b Hb g' Ha). }
    pose proof (measure_shrinks g p B c l2 b g' Hg Hg' HB Hb Hn Ha) as Hmeas.
    destruct (IHk (measure g')) with (g := g') (p := p') as (n' & res' & Hpost' & Hset');
      [lia|done|done|done|].
    destruct res' as [[path|]| |e|]; try done.
    + (* a path of the contracted graph *)
      destruct Hpost' as ((Hnd & Hpath & Hnodes) & Hne & (M' & HM' & Hbig) & Htame & Hsepa).
      destruct (lift_spec g Hg B (bl_cycle _ _ _ _ _ HB) (bl_nodes _ _ _ _ _ HB) b Hb
                  g' Hn) with (path := path) as (nl & path' & Hlift & Hsimple & Havoid & Hne' & Hend & Hthr); try done.
      { intros x y Hxy Hxb Hyb. by apply (adj_out_down g Hg B b g' Ha). }
      { intros y Hy. destruct (adj_b_down g Hg B b Hb g' Ha y) as (_ & _ & x & Hx & Hxy); [|by eauto].
        destruct Hy as [Hy|Hy]; [done|]. by apply law_adj_sym. }
      apply (Hred (Nat.max n' nl) (Ok (Some path'))).
      * destruct (lift_good g p B c l2 b g' (map_to_list p) path path' Hg Hp HB Hb Hg' Hn Ha)
          as [Hgood1 Hgood2]; try done; [apply Hsimple|].
        split_and!; [done|auto| | |].
        2:{ intros Ht. apply Hgood1; [intros H3; by apply Ht; [apply HB|]|]. apply Htame.
            by apply (tame_contract g Hg B (bl_cycle _ _ _ _ _ HB) b Hb g' Hg' Ha). }
        2:{ intros Hs. apply Hgood2; [done|]. apply Hsepa.
            by apply (separated_contract g Hg B (bl_cycle _ _ _ _ _ HB) b Hb g' Hg' Ha). }
        destruct (matching_up g p Hg B c l2 HB b Hb g' Hg' Ha M' HM') as (M & HM & Hlen).
        exists M. split; [done|].
        pose proof (p'_order g p Hg Hp B c l2 HB b Hb (map_to_list p) (reflexivity _)) as Hord.
        fold p' in Hord. lia.
      * intros iter tag Hit. destruct (Hset' iter (2 :: tag) Hit) as [Ha1 Ha2].
        destruct Hlift as [Hl1 Hl2]. split.
        -- intros fuel Hfu. rewrite Hcont by done. fold p'. rewrite Ha1 by lia. cbn [cbind].
           rewrite Hl1 by lia. done.
        -- intros fuel. rewrite Hcont by done. fold p'.
           destruct (Ha2 fuel) as [-> | ->]; [by left|]. cbn [cbind].
           destruct (Hl2 (S fuel)) as [-> | ->]; [by left|by right].
    + (* a certificate of the contracted graph *)
      destruct Hpost' as (O & Cs & Hcert).
      apply (Hred n' (Ok None)).
      * eexists O, _. by apply (cert_up g p Hg Hp B c l2 HB b Hb g' Hg' Hn Ha (map_to_list p)).
      * intros iter tag Hit. destruct (Hset' iter (2 :: tag) Hit) as [Ha1 Ha2]. split.
        -- intros fuel Hfu. rewrite Hcont by done. fold p'. by rewrite Ha1 by lia.
        -- intros fuel. rewrite Hcont by done. fold p'.
           destruct (Ha2 fuel) as [-> | ->]; [by left|by right].
    + (* a reused id below *)
      destruct e as [|e0| | | | | | | | |]; try done. destruct e0; try done.
      destruct Hpost' as (-> & Hnr & _). apply (Hred n' (Panic (PUnwrap (DuplicateNode 0%N)))).
      * split; [done|]. split; [|done]. intros Hroom. specialize (Hroom m Hm).
        destruct Hbm as [[Hlt ->]|Hu].
        -- apply Hnr. intros x Hx. unfold measure in Hmeas. rewrite Hn in Hx.
           assert (x <= m + 1)%N.
           { apply elem_of_cons in Hx as [->|Hx]; [lia|].
             apply elem_of_list_filter in Hx as [_ Hx]. specialize (Hle x Hx). lia. }
           lia.
        -- assert (length (g_nodes g) <> 0); [|lia].
           destruct (g_nodes g); [by apply elem_of_nil in Hm|done].
      * intros iter tag Hit. destruct (Hset' iter (2 :: tag) Hit) as [Ha1 Ha2]. split.
        -- intros fuel Hfu. rewrite Hcont by done. fold p'. by rewrite Ha1 by lia.
        -- intros fuel. rewrite Hcont by done. fold p'.
           destruct (Ha2 fuel) as [-> | ->]; [by left|by right].
Qed.

(** ** The matching *)

Lemma mm_post_release g fuel : forall iter tag p, Lawful g -> hash_order_ok iter -> pairing_of g p ->
  match maximum_matching_release iter tag fuel g p with
  | Ok q => pairing_of g q /\ exists O Cs, cert g q O Cs
  | Panic e => e = PEvenPath \/
      (e = PUnwrap (DuplicateNode 0%N) /\ ~ id_room g /\ exists c, odd_cycle g c)
  | Err _ => False
  | NoFuel => True
  end.
Proof.
  induction fuel as [|fuel IH]; intros iter tag p Hg Hit Hp; [done|]. cbn [maximum_matching_release].
  destruct (ap_spec_release g p Hg Hp) as (n & res & Hpost & Hset).
  destruct (Hset iter (0 :: tag) Hit) as [_ H2].
  destruct (H2 (S fuel)) as [-> | ->]; [done|].
  destruct res as [[path|]| |e|]; try done; cbn [cbind].
  - destruct Hpost as (Hsimple & _ & _ & _ & _).
    destruct (p_augment p path) as [q| |e|] eqn:Eq; cbn [cbind].
    + assert (Hq : pairing_of g q) by (by eapply simple_augment).
      pose proof (IH iter (1 :: tag) q Hg Hit Hq) as Hq1.
      destruct (maximum_matching_release iter (1 :: tag) fuel g q) as [q1| |e|]; cbn [cbind]; try done.
      apply IH; try done. apply Hq1.
    + unfold p_augment in Eq. by destruct (Nat.odd _).
    + unfold p_augment in Eq. destruct (Nat.odd _); [|done]. left. congruence.
    + done.
  - destruct e as [|e0| | | | | | | | |]; try done. destruct e0; try done.
    destruct Hpost as (-> & ?). by right.
Qed.

(** ** Where no addition overflows the two builds agree *)

Lemma ap_same fuel : forall iter tag g p,
  augmenting_path iter tag fuel g p <> Panic POverflow ->
  augmenting_path_release iter tag fuel g p = augmenting_path iter tag fuel g p.
Proof.
  induction fuel as [|fuel IH]; intros iter tag g p Hno; [done|].
  cbn [augmenting_path augmenting_path_release] in *.
  destruct (mark_edges _ _) as [marker| | |]; cbn [cbind] in *; try done.
  destruct (add_roots _ _ _) as [forest| | |]; cbn [cbind] in *; try done.
  destruct (search_v _ _ _ _ _) as [[f m|v pw f]| | |]; cbn [cbind] in *; try done.
  destruct (f_path f v) as [opath| | |]; cbn [cbind] in *; try done.
  destruct (expect_some opath) as [pv| | |]; cbn [cbind] in *; try done.
  destruct (bool_decide _); [|done].
  destruct (expect_some (nodes_max _)) as [m| | |]; cbn [cbind] in *; try done.
  unfold checked_succ, wrapping_succ in *. destruct (m <? usize_max)%N; cbn [cbind] in *; [|done].
  destruct (b_new _ _ _) as [b| | |]; cbn [cbind] in *; try done.
  destruct (unwrap _) as [d| | |]; cbn [cbind] in *; try done.
  rewrite IH; [done|]. intros E. apply Hno. by rewrite E.
Qed.

Lemma mm_same fuel : forall iter tag g p,
  maximum_matching iter tag fuel g p <> Panic POverflow ->
  maximum_matching_release iter tag fuel g p = maximum_matching iter tag fuel g p.
Proof.
  induction fuel as [|fuel IH]; intros iter tag g p Hno; [done|].
  cbn [maximum_matching maximum_matching_release] in *.
  rewrite ap_same by (intros E; apply Hno; by rewrite E).
  destruct (augmenting_path _ _ _ _ _) as [[path|]| | |]; cbn [cbind] in *; try done.
  destruct (p_augment p path) as [p1| | |]; cbn [cbind] in *; try done.
  rewrite IH by (intros E; apply Hno; by rewrite E).
  destruct (maximum_matching iter (1 :: tag) fuel g p1) as [p2| | |]; cbn [cbind] in *; try done.
  by apply IH.
Qed.

(** ** Fuel and iteration order do not matter *)

Lemma mm_settles_release g fuel : forall iter tag p, Lawful g -> hash_order_ok iter -> pairing_of g p ->
  maximum_matching_release iter tag fuel g p <> NoFuel ->
  exists n, forall fuel' iter' tag', n <= fuel' -> hash_order_ok iter' ->
    maximum_matching_release iter' tag' fuel' g p = maximum_matching_release iter tag fuel g p.
Proof.
  induction fuel as [|fuel IH]; intros iter tag p Hg Hit Hp Hne; [done|].
  cbn [maximum_matching_release] in Hne |- *.
  destruct (ap_spec_release g p Hg Hp) as (n & res & Hpost & Hset).
  destruct (Hset iter (0 :: tag) Hit) as [_ H2].
  destruct (H2 (S fuel)) as [E | E]; rewrite E in Hne |- *; [done|].
  destruct res as [[path|]| |e|]; try done; cbn [cbind] in Hne |- *.
  - destruct Hpost as (Hsimple & _ & _ & _ & _).
    destruct (p_augment p path) as [q| |e|] eqn:Eq; cbn [cbind] in Hne |- *.
    + assert (Hq : pairing_of g q) by (by eapply simple_augment).
      pose proof (mm_post_release g fuel iter (1 :: tag) q Hg Hit Hq) as Hq1.
      destruct (IH iter (1 :: tag) q Hg Hit Hq) as [n1 Hn1].
      { intros E1. by rewrite E1 in Hne. }
      destruct (maximum_matching_release iter (1 :: tag) fuel g q) as [q1| |e|]; cbn [cbind] in Hne |- *; try done.
      * destruct (IH iter (2 :: tag) q1 Hg Hit (proj1 Hq1) Hne) as [n2 Hn2].
        exists (S (n + n1 + n2)). intros [|fuel'] iter' tag' Hf Hit'; [lia|].
        cbn [maximum_matching_release]. rewrite (proj1 (Hset iter' (0 :: tag') Hit')) by lia.
        cbn [cbind]. rewrite Eq. cbn [cbind]. rewrite Hn1 by (done || lia). cbn [cbind]. apply Hn2; [lia|done].
      * exists (S (n + n1)). intros [|fuel'] iter' tag' Hf Hit'; [lia|].
        cbn [maximum_matching_release]. rewrite (proj1 (Hset iter' (0 :: tag') Hit')) by lia.
        cbn [cbind]. rewrite Eq. cbn [cbind]. by rewrite Hn1 by (done || lia).
    + exists (S n). intros [|fuel'] iter' tag' Hf Hit'; [lia|].
      cbn [maximum_matching_release]. rewrite (proj1 (Hset iter' (0 :: tag') Hit')) by lia.
      cbn [cbind]. by rewrite Eq.
    + exists (S n). intros [|fuel'] iter' tag' Hf Hit'; [lia|].
      cbn [maximum_matching_release]. rewrite (proj1 (Hset iter' (0 :: tag') Hit')) by lia.
      cbn [cbind]. by rewrite Eq.
    + done.
  - exists (S n). intros [|fuel'] iter' tag' Hf Hit'; [lia|].
    cbn [maximum_matching_release]. by rewrite (proj1 (Hset iter' (0 :: tag') Hit')) by lia.
  - exists (S n). intros [|fuel'] iter' tag' Hf Hit'; [lia|].
    cbn [maximum_matching_release]. by rewrite (proj1 (Hset iter' (0 :: tag') Hit')) by lia.
Qed.

(** Stack use of the matching. *)
From Verif Require Import Outcome GraphModel TraversalModel ComponentsModel PairingModel Spec
  GraphProofs EditProofs TraversalProofs PathLemmas PairingProofs MatchTheory MaximumModel
  StackModel SpecStack ForestProofs BlossomProofs ContractProofs LiftProofs TameProofs MaximumProofs.

Definition fits {A} (m : comp A) : comp (stacked A) := let! a := m in Ok (Fits a).

Section step.
  Context (g : Graph) (p : Pairing) (Hg : Lawful g) (Hp : pairing_of g p).

  Definition continue_stack (iter : hash_order) (tag : list nat) (fuel stack : nat) (r : search)
      : comp (stacked (option (list N))) :=
    match r with
    | Exhausted _ _ => Ok (Fits None)
    | EvenPath v path_w forest =>
        let! opath := f_path forest v in
        let! path_v := expect_some opath in
        if bool_decide (last path_v = last path_w) then
          let! max_id := expect_some (nodes_max (g_nodes g)) in
          let! id := checked_succ max_id in
          let! blossom := b_new id path_v path_w in
          let! contracted_graph := unwrap (b_contract_graph blossom g) in
          let contracted_pairing := b_contract_pairing blossom (p_edges iter (1 :: tag) p) in
          let! called := augmenting_path_stack iter (2 :: tag) fuel stack
                           (as_graph contracted_graph) contracted_pairing in
          match called with
          | Overflow => Ok Overflow
          | Fits (Some path) => let! lifted := b_lift (S fuel) blossom path g in Ok (Fits (Some lifted))
          | Fits None => Ok (Fits None)
          end
        else Ok (Fits (Some (reverse path_v ++ path_w)))
    end.

  Lemma ap_unfold_stack iter tag fuel stack f : hash_order_ok iter ->
    add_roots f_new p (g_nodes g) = Ok f ->
    augmenting_path_stack iter tag (S fuel) (S stack) g p =
      let! r := search_v (S fuel) g p f (marker0 p) in continue_stack iter tag fuel stack r.
  Proof.
    intros Hit Hf. cbn [augmenting_path_stack]. unfold p_edges at 1.
    rewrite (marker_start g p Hp) by apply Hit. cbn [cbind]. rewrite Hf. done.
  Qed.

  Inductive outcome_stack (v : N) (pw : list N) (f : Forest) : Prop :=
  | outs_path pv :
      (forall iter tag fuel stack, continue_stack iter tag fuel stack (EvenPath v pw f) =
         Ok (Fits (Some (reverse pv ++ pw)))) ->
      (forall iter tag fuel, continue g p iter tag fuel (EvenPath v pw f) =
         Ok (Some (reverse pv ++ pw))) ->
      augments p (reverse pv ++ pw) -> is_path g (reverse pv ++ pw) ->
      (forall x, x ∈ reverse pv ++ pw -> x ∈ g_nodes g) -> 2 <= length (reverse pv ++ pw) ->
      outcome_stack v pw f
  | outs_overflow :
      (forall iter tag fuel stack, continue_stack iter tag fuel stack (EvenPath v pw f) = Panic POverflow) ->
      (forall iter tag fuel, continue g p iter tag fuel (EvenPath v pw f) = Panic POverflow) ->
      outcome_stack v pw f
  | outs_blossom B c l2 b d :
      Bloss g p B c l2 -> (b ∈ g_nodes g -> b ∈ B) ->
      WF d -> g_nodes (as_graph d) = b :: filter (fun x => x ∉ B) (g_nodes g) ->
      (forall x y, adj (as_graph d) x y <-> made B b (g_edges g) x y) ->
      (forall iter tag fuel stack, hash_order_ok iter ->
         continue_stack iter tag fuel stack (EvenPath v pw f) =
         let! called := augmenting_path_stack iter (2 :: tag) fuel stack (as_graph d)
           (b_contract_pairing (mkBlossom b B) (p_edges_of (map_to_list p))) in
         match called with
         | Overflow => Ok Overflow
         | Fits (Some path) => let! lifted := b_lift (S fuel) (mkBlossom b B) path g in Ok (Fits (Some lifted))
         | Fits None => Ok (Fits None)
         end) ->
      (forall iter tag fuel, hash_order_ok iter -> continue g p iter tag fuel (EvenPath v pw f) =
         let! opath := augmenting_path iter (2 :: tag) fuel (as_graph d)
           (b_contract_pairing (mkBlossom b B) (p_edges_of (map_to_list p))) in
         match opath with
         | Some path => let! lifted := b_lift (S fuel) (mkBlossom b B) path g in Ok (Some lifted)
         | None => Ok None
         end) ->
      outcome_stack v pw f.

  Lemma found_outcome_stack v pw f : found g p v pw f -> outcome_stack v pw f.
  Proof.
    intros (HF & Hv & w & Hw & Hvw & Hpw).
    destruct (even_in_path g p f Hg HF v Hv) as (pv & Hpv & _ & _).
    pose proof (f_path_some g p f HF v pv Hpv) as Hfp.
    destruct (decide (last pv = last pw)) as [Hl|Hl].
    - destruct (found_blossom g p Hg Hp f v w pv pw HF Hv Hw Hvw Hpv Hpw Hl) as (B & c & l2 & Hbp & HB).
      pose proof (nodes_max_spec (g_nodes g)) as Hmax.
      destruct (nodes_max (g_nodes g)) as [m|] eqn:Em.
      2:{ exfalso. pose proof (bl_nodes _ _ _ _ _ HB c (bl_in _ _ _ _ _ HB)) as Hc.
          rewrite Hmax in Hc. by apply elem_of_nil in Hc. }
      destruct Hmax as [Hm Hle].
      destruct (N.ltb m usize_max) eqn:Elt.
      + apply N.ltb_lt in Elt. set (b := (m + 1)%N).
        assert (Hb : b ∈ g_nodes g -> b ∈ B).
        { intros Hb. specialize (Hle b Hb). unfold b in Hle. lia. }
        destruct (contract_graph_spec g Hg B b Hb) as (d & Hd & Hwf & Hn & Ha).
        apply (outs_blossom v pw f B c l2 b d); try done.
        * intros iter tag fuel stack Hit. unfold continue_stack. rewrite Hfp. cbn [cbind expect_some].
          rewrite bool_decide_eq_true_2 by done. rewrite Em. cbn [cbind expect_some].
          unfold checked_succ. rewrite (proj2 (N.ltb_lt _ _) Elt). cbn [cbind].
          unfold b_new. rewrite Hbp. cbn [cbind]. fold b. rewrite Hd. cbn [unwrap cbind].
          unfold p_edges. by erewrite contract_pairing_indep.
        * intros iter tag fuel Hit. unfold continue. rewrite Hfp. cbn [cbind expect_some].
          rewrite bool_decide_eq_true_2 by done. rewrite Em. cbn [cbind expect_some].
          unfold checked_succ. rewrite (proj2 (N.ltb_lt _ _) Elt). cbn [cbind].
          unfold b_new. rewrite Hbp. cbn [cbind]. fold b. rewrite Hd. cbn [unwrap cbind].
          unfold p_edges. by erewrite contract_pairing_indep.
      + apply N.ltb_ge in Elt. apply outs_overflow; intros; [unfold continue_stack|unfold continue];
          rewrite Hfp; cbn [cbind expect_some];
          rewrite bool_decide_eq_true_2 by done; rewrite Em; cbn [cbind expect_some];
          unfold checked_succ; by rewrite (proj2 (N.ltb_ge _ _) Elt).
    - destruct (found_augments g p Hg Hp f v w pv pw HF Hv Hw Hvw Hpv Hpw Hl) as (H1 & H2 & H3 & H4).
      apply (outs_path v pw f pv); try done; intros; [unfold continue_stack|unfold continue];
        rewrite Hfp; cbn [cbind expect_some]; by rewrite bool_decide_eq_false_2.
  Qed.
End step.

Lemma settles_det {A} (f : nat -> comp A) n m n' m' : settles f n m -> settles f n' m' -> m = m'.
Proof. intros [H _] [H' _]. rewrite <-(H (n + n')), <-(H' (n + n')) by lia. done. Qed.

(** A search needs a definite number of frames, at most one more than the nodes
    and self-loops of the graph: with fewer it overflows, with that many it does
    what it does on an unbounded stack. *)
Theorem ap_spec_stack g p : Lawful g -> pairing_of g p ->
  exists n d res, 1 <= d <= 1 + measure g /\ (1 < d -> exists c, odd_cycle g c) /\
  forall iter tag, hash_order_ok iter ->
    settles (fun fuel => augmenting_path iter tag fuel g p) n res /\
    forall stack, settles (fun fuel => augmenting_path_stack iter tag fuel stack g p) n
      (if d <=? stack then fits res else Ok Overflow).
Proof.
  remember (measure g) as k eqn:Hk. revert g p Hk.
  induction k as [k IHk] using lt_wf_ind; intros g p Hk Hg Hp.
  destruct (search_start g p Hg Hp) as (f & n & r & Hf & [Hs1 Hs2] & Hr).
  destruct r as [f' m'|v pw f'].
  { exists (S n), 1, (Ok None). split; [lia|]. split; [lia|]. intros iter tag Hit. split.
    - split.
      + intros [|fuel] Hfu; [lia|]. rewrite (ap_unfold g p Hp iter tag fuel f Hit Hf).
        rewrite Hs1 by lia. done.
      + intros [|fuel]; [by left|]. rewrite (ap_unfold g p Hp iter tag fuel f Hit Hf).
        destruct (Hs2 (S fuel)) as [-> | ->]; [by left|by right].
    - intros [|stack]; cbn [Nat.leb].
      { split; [by intros [|fuel] Hfu; [lia|]|]. intros [|fuel]; [by left|by right]. }
      split.
      + intros [|fuel] Hfu; [lia|]. rewrite (ap_unfold_stack g p Hp iter tag fuel stack f Hit Hf).
        rewrite Hs1 by lia. done.
      + intros [|fuel]; [by left|]. rewrite (ap_unfold_stack g p Hp iter tag fuel stack f Hit Hf).
        destruct (Hs2 (S fuel)) as [-> | ->]; [by left|by right]. }
  (* reduction to what follows the search *)
  assert (Hred : forall n' d' res, d' <= k -> (0 < d' -> exists c, odd_cycle g c) ->
    (forall iter tag, hash_order_ok iter ->
       settles (fun fuel => continue g p iter tag fuel (EvenPath v pw f')) n' res /\
       forall stack, settles (fun fuel => continue_stack g p iter tag fuel stack (EvenPath v pw f')) n'
         (if d' <=? stack then fits res else Ok Overflow)) ->
    exists n d res, 1 <= d <= 1 + k /\ (1 < d -> exists c, odd_cycle g c) /\ forall iter tag, hash_order_ok iter ->
      settles (fun fuel => augmenting_path iter tag fuel g p) n res /\
      forall stack, settles (fun fuel => augmenting_path_stack iter tag fuel stack g p) n
        (if d <=? stack then fits res else Ok Overflow)).
  { intros n' d' res Hd' Hodd Hset. exists (S (Nat.max n n')), (S d'), res. split; [lia|].
    split; [intros ?; apply Hodd; lia|].
    intros iter tag Hit. destruct (Hset iter tag Hit) as [[Hc1 Hc2] Hst]. split.
    - split.
      + intros [|fuel] Hfu; [lia|]. rewrite (ap_unfold g p Hp iter tag fuel f Hit Hf).
        rewrite Hs1 by lia. apply Hc1. lia.
      + intros [|fuel]; [by left|]. rewrite (ap_unfold g p Hp iter tag fuel f Hit Hf).
        destruct (Hs2 (S fuel)) as [-> | ->]; [by left|]. apply Hc2.
    - intros [|stack].
      { cbn [Nat.leb]. split; [by intros [|fuel] Hfu; [lia|]|]. intros [|fuel]; [by left|by right]. }
      destruct (Hst stack) as [Hc3 Hc4]. change (S d' <=? S stack) with (d' <=? stack). split.
      + intros [|fuel] Hfu; [lia|]. rewrite (ap_unfold_stack g p Hp iter tag fuel stack f Hit Hf).
        rewrite Hs1 by lia. apply Hc3. lia.
      + intros [|fuel]; [by left|]. rewrite (ap_unfold_stack g p Hp iter tag fuel stack f Hit Hf).
        destruct (Hs2 (S fuel)) as [-> | ->]; [by left|]. apply Hc4. }
  destruct (found_outcome_stack g p Hg Hp v pw f' Hr)
    as [pv Hcs Hcont Hau Hpath Hnodes Hlen|Hcs Hcont|B c l2 b d HB Hb Hwf Hn Ha Hcs Hcont].
  - apply (Hred 0 0 (Ok (Some (reverse pv ++ pw)))); [lia|lia|]. intros iter tag _. split.
    + apply settles_now. intros fuel. apply Hcont.
    + intros stack. apply settles_now. intros fuel. apply Hcs.
  - apply (Hred 0 0 (Panic POverflow)); [lia|lia|]. intros iter tag _. split.
    + apply settles_now. intros fuel. apply Hcont.
    + intros stack. apply settles_now. intros fuel. apply Hcs.
  - set (g' := as_graph d) in *.
    assert (Hg' : Lawful g') by (by apply wf_lawful).
    set (p' := b_contract_pairing (mkBlossom b B) (p_edges_of (map_to_list p))).
    assert (Hp' : pairing_of g' p').
    { by apply (p'_pairing g p Hg Hp B c l2 HB b Hb g' Ha). }
    pose proof (measure_shrinks g p B c l2 b g' Hg Hg' HB Hb Hn Ha) as Hmeas.
    destruct (IHk (measure g')) with (g := g') (p := p') as (n' & d' & res' & Hd' & _ & Hset');
      [lia|done|done|done|].
    destruct (ap_spec g' p' Hg' Hp') as (n0 & res0 & Hpost' & Hset0).
    assert (res0 = res') as ->.
    { eapply settles_det; [apply (Hset0 canon [] canon_ok)|apply (Hset' canon [] canon_ok)]. }
    destruct res' as [[path|]| |e|]; try done.
    + destruct Hpost' as ((Hnd & Hpath & Hnodes) & Hne & _).
      destruct (lift_spec g Hg B (bl_cycle _ _ _ _ _ HB) (bl_nodes _ _ _ _ _ HB) b Hb
                  g' Hn) with (path := path) as (nl & path' & Hlift & _); try done.
      { intros x y Hxy Hxb Hyb. by apply (adj_out_down g Hg B b g' Ha). }
      { intros y Hy. destruct (adj_b_down g Hg B b Hb g' Ha y) as (_ & _ & x & Hx & Hxy); [|by eauto].
        destruct Hy as [Hy|Hy]; [done|]. by apply law_adj_sym. }
      destruct Hlift as [Hl1 Hl2].
      apply (Hred (Nat.max n' nl) d' (Ok (Some path'))); [lia|intros _; exists B; apply HB|]. intros iter tag Hit.
      destruct (Hset' iter (2 :: tag) Hit) as [[Ha1 Ha2] Hst]. split.
      * split.
        -- intros fuel Hfu. rewrite Hcont by done. fold p'. rewrite Ha1 by lia. cbn [cbind].
           rewrite Hl1 by lia. done.
        -- intros fuel. rewrite Hcont by done. fold p'.
           destruct (Ha2 fuel) as [-> | ->]; [by left|]. cbn [cbind].
           destruct (Hl2 (S fuel)) as [-> | ->]; [by left|by right].
      * intros stack. destruct (Hst stack) as [Hb1 Hb2]. destruct (d' <=? stack).
        -- split.
           ++ intros fuel Hfu. rewrite Hcs by done. fold p'. rewrite Hb1 by lia. cbn [cbind fits].
              rewrite Hl1 by lia. done.
           ++ intros fuel. rewrite Hcs by done. fold p'.
              destruct (Hb2 fuel) as [-> | ->]; [by left|]. cbn [cbind fits].
              destruct (Hl2 (S fuel)) as [-> | ->]; [by left|by right].
        -- split.
           ++ intros fuel Hfu. rewrite Hcs by done. fold p'. by rewrite Hb1 by lia.
           ++ intros fuel. rewrite Hcs by done. fold p'.
              destruct (Hb2 fuel) as [-> | ->]; [by left|by right].
    + apply (Hred n' d' (Ok None)); [lia|intros _; exists B; apply HB|]. intros iter tag Hit.
      destruct (Hset' iter (2 :: tag) Hit) as [[Ha1 Ha2] Hst]. split.
      * split.
        -- intros fuel Hfu. rewrite Hcont by done. fold p'. by rewrite Ha1 by lia.
        -- intros fuel. rewrite Hcont by done. fold p'.
           destruct (Ha2 fuel) as [-> | ->]; [by left|by right].
      * intros stack. destruct (Hst stack) as [Hb1 Hb2]. split.
        -- intros fuel Hfu. rewrite Hcs by done. fold p'. rewrite Hb1 by lia. by destruct (d' <=? stack).
        -- intros fuel. rewrite Hcs by done. fold p'.
           destruct (Hb2 fuel) as [-> | ->]; [by left|right; by destruct (d' <=? stack)].
    + apply (Hred n' d' (Panic e)); [lia|intros _; exists B; apply HB|]. intros iter tag Hit.
      destruct (Hset' iter (2 :: tag) Hit) as [[Ha1 Ha2] Hst]. split.
      * split.
        -- intros fuel Hfu. rewrite Hcont by done. fold p'. by rewrite Ha1 by lia.
        -- intros fuel. rewrite Hcont by done. fold p'.
           destruct (Ha2 fuel) as [-> | ->]; [by left|by right].
      * intros stack. destruct (Hst stack) as [Hb1 Hb2]. split.
        -- intros fuel Hfu. rewrite Hcs by done. fold p'. rewrite Hb1 by lia. by destruct (d' <=? stack).
        -- intros fuel. rewrite Hcs by done. fold p'.
           destruct (Hb2 fuel) as [-> | ->]; [by left|right; by destruct (d' <=? stack)].
Qed.

(** ** The matching *)

Section runs.
  Context (g : Graph) (Hg : Lawful g) (iter : hash_order) (Hit : hash_order_ok iter).

  (** [W] frames are enough for any search. *)
  Context (W : nat) (HW : 1 <= W /\ (1 + measure g <= W \/ forall c, ~ odd_cycle g c)).

  (** One search on a bounded stack. *)
  Lemma search_stack p : pairing_of g p -> exists d res, 1 <= d <= W /\
    ap_post g p res /\ (forall o, res = Ok o <-> search_is iter g p o) /\
    (forall e, res = Panic e -> search_panics iter g p e) /\
    exists n, forall tag stack, settles (fun fuel => augmenting_path_stack iter tag fuel stack g p) n
      (if d <=? stack then fits res else Ok Overflow).
  Proof.
    intros Hp. destruct (ap_spec_stack g p Hg Hp) as (n & d & res & Hd & Hodd & Hset).
    destruct (search_spec g Hg iter Hit p Hp) as (res' & Hpost & Hres & n' & Hset').
    assert (res' = res) as ->.
    { eapply settles_det; [apply (Hset' [])|apply (Hset iter [] Hit)]. }
    assert (d <= W).
    { destruct HW as [H1 [H2|H2]]; [lia|]. destruct (decide (1 < d)) as [Hlt|]; [|lia].
      destruct (Hodd Hlt) as [c Hc]. by destruct (H2 c). }
    exists d, res. split_and!; try lia; try done.
    - intros e ->. exists n'. intros fuel tag Hf. by apply (Hset' tag).
    - exists n. intros tag stack. by apply (Hset iter tag Hit).
  Qed.

  Lemma mms_unfold tag fuel stack p : maximum_matching_stack iter tag (S fuel) (S stack) g p =
    let! searched := augmenting_path_stack iter (0 :: tag) (S fuel) stack g p in
    match searched with
    | Overflow => Ok Overflow
    | Fits None => Ok (Fits p)
    | Fits (Some path) =>
        let! p1 := p_augment p path in
        let! called := maximum_matching_stack iter (1 :: tag) fuel stack g p1 in
        match called with
        | Overflow => Ok Overflow
        | Fits p2 => maximum_matching_stack iter (2 :: tag) fuel (S stack) g p2
        end
    end.
  Proof. reflexivity. Qed.

  (** What ends a run on a stack of [stack] frames. *)
  Definition mms_post (stack : nat) (p : Pairing) (m : comp (stacked Pairing)) : Prop :=
    match m with
    | Ok (Fits q) => (exists paths, augmentations iter g p paths q /\ length paths + 2 <= stack) /\
        exists n, forall tag, settles (fun fuel => augmenting_path_stack iter tag fuel (pred stack) g q) n
          (Ok (Fits None))
    | Ok Overflow => exists paths q, rounds iter g p paths q /\ stack < length paths + 1 + W
    | Panic e => exists paths q, rounds iter g p paths q /\ length paths + 2 <= stack /\
        (search_panics iter g q e \/ exists path, search_is iter g q (Some path) /\ p_augment q path = Panic e)
    | _ => False
    end.

  Lemma mms_spec stack : forall p, pairing_of g p -> exists n m, mms_post stack p m /\
    forall tag, settles (fun fuel => maximum_matching_stack iter tag fuel stack g p) n m.
  Proof.
    induction stack as [|stack IH]; intros p Hp.
    { exists 1, (Ok Overflow). split; [exists [], p; split; [constructor|lia]|].
      intros tag. split; [by intros [|fuel] Hf; [lia|]|]. intros [|fuel]; [by left|by right]. }
    destruct (search_stack p Hp) as (d & res & Hd & Hpost & Hres & Hpan & n & Hset).
    destruct (d <=? stack) eqn:Eds.
    2:{ apply Nat.leb_gt in Eds. exists (S n), (Ok Overflow). split.
        { exists [], p. split; [constructor|]. simpl. lia. }
        intros tag. destruct (Hset (0 :: tag) stack) as [H1 H2].
        rewrite (proj2 (Nat.leb_gt _ _) Eds) in H1, H2. split.
        - intros [|fuel] Hf; [lia|]. rewrite mms_unfold. by rewrite H1 by lia.
        - intros [|fuel]; [by left|]. rewrite mms_unfold.
          destruct (H2 (S fuel)) as [-> | ->]; [by left|by right]. }
    assert (Hset1 : forall tag, settles (fun fuel => augmenting_path_stack iter tag fuel stack g p) n (fits res)).
    { intros tag. specialize (Hset tag stack). by rewrite Eds in Hset. }
    apply Nat.leb_le in Eds.
    destruct res as [[path|]| |e|]; try done.
    - (* a path *)
      assert (Hs : search_is iter g p (Some path)) by (by apply Hres).
      destruct (p_augment p path) as [p1| |e|] eqn:Ep.
      + assert (Hp1 : pairing_of g p1) by (by eapply search_step).
        destruct (IH p1 Hp1) as (n1 & m1 & Hm1 & Hset2).
        destruct m1 as [[q|]| |e|]; try done.
        * (* returned; the loop looks once more *)
          destruct Hm1 as ((paths & Haug & Hlen) & n2 & Hq).
          assert (Hqp : pairing_of g q) by (by eapply aug_pairing).
          destruct (search_stack q Hqp) as (dq & rq & Hdq & _ & _ & _ & nq & Hsq).
          assert (Hq' : forall tag, settles (fun fuel => augmenting_path_stack iter tag fuel stack g q) nq (Ok (Fits None))).
          { intros tag. pose proof (settles_det _ _ _ _ _ (Hsq tag (pred stack)) (Hq tag)) as E.
            destruct (dq <=? pred stack) eqn:E1; [|done]. apply Nat.leb_le in E1.
            specialize (Hsq tag stack). rewrite (proj2 (Nat.leb_le dq stack)) in Hsq by lia.
            by rewrite E in Hsq. }
          exists (S (S (n + n1 + nq))), (Ok (Fits q)). split.
          { split; [|by exists nq]. exists (path :: paths). split; [by econstructor|]. simpl. lia. }
          intros tag. destruct (Hset1 (0 :: tag)) as [A1 A2]. destruct (Hset2 (1 :: tag)) as [B1 B2].
          destruct (Hq' (0 :: 2 :: tag)) as [C1 C2]. split.
          -- intros [|[|fuel]] Hf; [lia|lia|]. rewrite mms_unfold. rewrite A1 by lia. cbn [cbind fits].
             rewrite Ep. cbn [cbind]. rewrite B1 by lia. cbn [cbind]. rewrite mms_unfold.
             by rewrite C1 by lia.
          -- intros [|fuel]; [by left|]. rewrite mms_unfold.
             destruct (A2 (S fuel)) as [-> | ->]; [by left|]. cbn [cbind fits]. rewrite Ep. cbn [cbind].
             destruct (B2 fuel) as [-> | ->]; [by left|]. cbn [cbind].
             destruct fuel as [|fuel]; [by left|]. rewrite mms_unfold.
             destruct (C2 (S fuel)) as [-> | ->]; [by left|by right].
        * destruct Hm1 as (paths & q & Hr & Hlt). exists (S (n + n1)), (Ok Overflow). split.
          { exists (path :: paths), q. split; [by econstructor|]. simpl. lia. }
          intros tag. destruct (Hset1 (0 :: tag)) as [A1 A2]. destruct (Hset2 (1 :: tag)) as [B1 B2]. split.
          -- intros [|fuel] Hf; [lia|]. rewrite mms_unfold. rewrite A1 by lia. cbn [cbind fits].
             rewrite Ep. cbn [cbind]. by rewrite B1 by lia.
          -- intros [|fuel]; [by left|]. rewrite mms_unfold.
             destruct (A2 (S fuel)) as [-> | ->]; [by left|]. cbn [cbind fits]. rewrite Ep. cbn [cbind].
             destruct (B2 fuel) as [-> | ->]; [by left|by right].
        * destruct Hm1 as (paths & q & Hr & Hlt & Hwhy). exists (S (n + n1)), (Panic e). split.
          { exists (path :: paths), q. split; [by econstructor|]. split; [simpl; lia|done]. }
          intros tag. destruct (Hset1 (0 :: tag)) as [A1 A2]. destruct (Hset2 (1 :: tag)) as [B1 B2]. split.
          -- intros [|fuel] Hf; [lia|]. rewrite mms_unfold. rewrite A1 by lia. cbn [cbind fits].
             rewrite Ep. cbn [cbind]. by rewrite B1 by lia.
          -- intros [|fuel]; [by left|]. rewrite mms_unfold.
             destruct (A2 (S fuel)) as [-> | ->]; [by left|]. cbn [cbind fits]. rewrite Ep. cbn [cbind].
             destruct (B2 fuel) as [-> | ->]; [by left|by right].
      + unfold p_augment in Ep. by destruct (Nat.odd _).
      + exists (S n), (Panic e). split.
        { exists [], p. split; [constructor|]. split; [simpl; lia|]. right. by exists path. }
        intros tag. destruct (Hset1 (0 :: tag)) as [A1 A2]. split.
        -- intros [|fuel] Hf; [lia|]. rewrite mms_unfold. rewrite A1 by lia. cbn [cbind fits]. by rewrite Ep.
        -- intros [|fuel]; [by left|]. rewrite mms_unfold.
           destruct (A2 (S fuel)) as [-> | ->]; [by left|]. cbn [cbind fits]. rewrite Ep. by right.
      + unfold p_augment in Ep. by destruct (Nat.odd _).
    - exists (S n), (Ok (Fits p)). split.
      { split; [|by exists n]. exists []. split; [constructor; by apply Hres|]. simpl. lia. }
      intros tag. destruct (Hset1 (0 :: tag)) as [A1 A2]. split.
      + intros [|fuel] Hf; [lia|]. rewrite mms_unfold. by rewrite A1 by lia.
      + intros [|fuel]; [by left|]. rewrite mms_unfold.
        destruct (A2 (S fuel)) as [-> | ->]; [by left|by right].
    - exists (S n), (Panic e). split.
      { exists [], p. split; [constructor|]. split; [simpl; lia|]. left. by apply Hpan. }
      intros tag. destruct (Hset1 (0 :: tag)) as [A1 A2]. split.
      + intros [|fuel] Hf; [lia|]. rewrite mms_unfold. by rewrite A1 by lia.
      + intros [|fuel]; [by left|]. rewrite mms_unfold.
        destruct (A2 (S fuel)) as [-> | ->]; [by left|by right].
  Qed.

End runs.

Section order.
  Context (g : Graph) (iter : hash_order).

  (** Rounds from the same pairing are prefixes of one another. *)
  Lemma rounds_split p paths q paths' q' : rounds iter g p paths q -> rounds iter g p paths' q' ->
    length paths <= length paths' ->
    exists rest, paths' = paths ++ rest /\ rounds iter g q rest q'.
  Proof.
    intros H. revert paths' q'. induction H as [p|p path p1 paths q Hs Ha Hr IH]; intros paths' q' H' Hlen.
    { by exists paths'. }
    inversion H' as [|? path' p1' paths1' ? Hs' Ha' Hr1']; subst; [simpl in Hlen; lia|].
    pose proof (search_det g iter _ _ _ Hs Hs') as [= <-]. rewrite Ha in Ha'. injection Ha' as <-.
    destruct (IH _ _ Hr1') as (rest & -> & Hrest); [simpl in Hlen; lia|]. by exists rest.
  Qed.

  (** After the last augmentation there are no further rounds. *)
  Lemma rounds_end p paths q paths' q' : augmentations iter g p paths q -> rounds iter g p paths' q' ->
    length paths' <= length paths.
  Proof.
    intros [H Hn]%rounds_augmentations H'.
    destruct (decide (length paths' <= length paths)) as [|Hlt]; [done|exfalso].
    destruct (rounds_split _ _ _ _ _ H H') as (rest & -> & Hrest); [lia|].
    destruct Hrest as [|p0 path p1 rest q' Hs]; [rewrite app_nil_r in Hlt; lia|].
    by pose proof (search_det g iter _ _ _ Hn Hs).
  Qed.

  Lemma search_panics_not p e o : search_panics iter g p e -> search_is iter g p o -> False.
  Proof.
    intros [n Hn] [n' Hn']. specialize (Hn (n + n') [] ltac:(lia)). specialize (Hn' (n + n') [] ltac:(lia)).
    congruence.
  Qed.

  Lemma panic_end p paths q paths' q' e : rounds iter g p paths q ->
    (search_panics iter g q e \/ exists path, search_is iter g q (Some path) /\ p_augment q path = Panic e) ->
    rounds iter g p paths' q' -> length paths' <= length paths.
  Proof.
    intros H Hwhy H'. destruct (decide (length paths' <= length paths)) as [|Hlt]; [done|exfalso].
    destruct (rounds_split _ _ _ _ _ H H') as (rest & -> & Hrest); [lia|].
    destruct Hrest as [|p0 path p1 rest q' Hs Ha]; [rewrite app_nil_r in Hlt; lia|].
    destruct Hwhy as [Hw|(path' & Hs' & Ha')]; [by eapply search_panics_not|].
    pose proof (search_det g iter _ _ _ Hs Hs') as [= <-]. congruence.
  Qed.

  Lemma stack_run_det stack p m m' : stack_run iter stack g p m -> stack_run iter stack g p m' -> m = m'.
  Proof.
    intros (_ & n & Hn) (_ & n' & Hn'). rewrite <-(Hn (n + n')), <-(Hn' (n + n')) by lia. done.
  Qed.
End order.

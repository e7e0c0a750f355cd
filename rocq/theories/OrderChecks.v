(** Deciding by computation how a run of [maximum_matching] ends for every hash
    iteration order, with a pairing that need not belong to the graph. *)
From Verif Require Import Outcome GraphModel TraversalModel PairingModel Spec
  GraphProofs EditProofs TraversalProofs PathLemmas PairingProofs MatchTheory MaximumModel
  ForestProofs BlossomProofs ContractProofs CycleProofs LiftProofs TameProofs MaximumProofs ShareProofs.

(** *** More fuel does not change an outcome *)

Definition upto {A} (a b : comp A) : Prop := a = NoFuel \/ a = b.

Lemma upto_refl {A} (a : comp A) : upto a a.
Proof. by right. Qed.

Lemma upto_bind {A B} (a b : comp A) (f h : A -> comp B) :
  upto a b -> (forall x, upto (f x) (h x)) -> upto (cbind a f) (cbind b h).
Proof. intros [-> | ->] Hf; [by left|]. destruct b; try (by right). apply Hf. Qed.

Lemma search_w_upto fuel fuel' : fuel <= fuel' -> forall v g p f m,
  upto (search_w fuel v g p f m) (search_w fuel' v g p f m).
Proof.
  revert fuel'. induction fuel as [|fuel IH]; intros [|fuel'] Hle v g p f m; try lia; try (by left).
  cbn [search_w]. apply upto_bind; [apply upto_refl|]. intros [w|]; [|apply upto_refl].
  apply upto_bind; [apply upto_refl|]. intros [pw|].
  - destruct (Nat.odd (length pw)); [apply upto_refl|]. apply upto_bind; [apply upto_refl|].
    intros m'. apply IH. lia.
  - do 4 (apply upto_bind; [apply upto_refl|]; intros ?). apply IH. lia.
Qed.

Lemma search_v_upto fuel fuel' : fuel <= fuel' -> forall g p f m,
  upto (search_v fuel g p f m) (search_v fuel' g p f m).
Proof.
  revert fuel'. induction fuel as [|fuel IH]; intros [|fuel'] Hle g p f m; try lia; try (by left).
  cbn [search_v]. apply upto_bind; [apply upto_refl|]. intros [v|]; [|apply upto_refl].
  apply upto_bind; [by apply search_w_upto|]. intros [f1 m1|]; [|apply upto_refl].
  apply upto_bind; [apply upto_refl|]. intros m2. apply IH. lia.
Qed.

Lemma rotate_upto fuel fuel' : fuel <= fuel' -> forall test l,
  upto (rotate_until fuel test l) (rotate_until fuel' test l).
Proof.
  revert fuel'. induction fuel as [|fuel IH]; intros [|fuel'] Hle test l; try lia; try (by left).
  cbn [rotate_until]. apply upto_bind; [apply upto_refl|]. intros [|]; [apply upto_refl|].
  apply IH. lia.
Qed.

Lemma lift_upto fuel fuel' b path g : fuel <= fuel' ->
  upto (b_lift fuel b path g) (b_lift fuel' b path g).
Proof.
  intros Hle. unfold b_lift. destruct (before (b_id b) path) as [lft|]; [|apply upto_refl].
  destruct lft as [|x lft]; destruct (drop _ path) as [|y rgt]; try apply upto_refl.
  - unfold b_lift_right. apply upto_bind; [apply upto_refl|]. intros t.
    apply upto_bind; [by apply rotate_upto|]. intros ?. apply upto_refl.
  - unfold b_lift_left. apply upto_bind; [apply upto_refl|]. intros t.
    apply upto_bind; [by apply rotate_upto|]. intros ?. apply upto_refl.
  - unfold b_lift_both. apply upto_bind; [apply upto_refl|]. intros t.
    apply upto_bind; [by apply rotate_upto|]. intros fb.
    apply upto_bind; [apply upto_refl|]. intros t'.
    apply upto_bind; [apply upto_refl|]. intros seg.
    destruct (Nat.even _); [apply upto_refl|].
    apply upto_bind; [by apply rotate_upto|]. intros rb.
    apply upto_bind; [apply upto_refl|]. intros ?. apply upto_refl.
Qed.

Lemma ap_upto iter fuel fuel' : fuel <= fuel' -> forall tag g p,
  upto (augmenting_path iter tag fuel g p) (augmenting_path iter tag fuel' g p).
Proof.
  revert fuel'. induction fuel as [|fuel IH]; intros [|fuel'] Hle tag g p; try lia; try (by left).
  cbn [augmenting_path]. apply upto_bind; [apply upto_refl|]. intros m.
  apply upto_bind; [apply upto_refl|]. intros f.
  apply upto_bind; [by apply search_v_upto|]. intros [|v pw f']; [apply upto_refl|].
  apply upto_bind; [apply upto_refl|]. intros opv.
  apply upto_bind; [apply upto_refl|]. intros pv.
  destruct (bool_decide _); [|apply upto_refl].
  do 4 (apply upto_bind; [apply upto_refl|]; intros ?).
  apply upto_bind; [apply IH; lia|]. intros [path|]; [|apply upto_refl].
  apply upto_bind; [by apply lift_upto|]. intros ?. apply upto_refl.
Qed.

Lemma mm_upto iter fuel fuel' : fuel <= fuel' -> forall tag g p,
  upto (maximum_matching iter tag fuel g p) (maximum_matching iter tag fuel' g p).
Proof.
  revert fuel'. induction fuel as [|fuel IH]; intros [|fuel'] Hle tag g p; try lia; try (by left).
  cbn [maximum_matching]. apply upto_bind; [by apply ap_upto|]. intros [path|]; [|apply upto_refl].
  apply upto_bind; [apply upto_refl|]. intros p1.
  apply upto_bind; [apply IH; lia|]. intros p2. apply IH. lia.
Qed.

(** *** The checker *)

Definition symmetric_b (q : Pairing) : bool :=
  forallb (fun e : N * N => if bool_decide (q !! e.2 = Some e.1) then bool_decide (e.1 <> e.2) else false)
    (map_to_list q).

Lemma symmetric_check q : symmetric_b q = true -> symmetric_pairing q.
Proof.
  intros H x y Hxy. unfold symmetric_b in H. rewrite forallb_forall in H.
  specialize (H (x, y)). cbn [fst snd] in H.
  assert (Hin : In (x, y) (map_to_list q)) by (by apply elem_of_list_In, elem_of_map_to_list).
  specialize (H Hin). repeat case_bool_decide; done.
Qed.

(** All contractions of [q], whatever the order, when they are one. *)
Definition contract_all (b : Blossom) (q : Pairing) : option Pairing :=
  let c0 := b_contract_pairing b (p_edges_of (map_to_list q)) in
  if forallb (fun L => bool_decide (b_contract_pairing b L = c0))
       (permutations (p_edges_of (map_to_list q)))
  then Some c0 else None.

Lemma contract_all_spec b q c L : contract_all b q = Some c -> L ≡ₚ map_to_list q ->
  b_contract_pairing b (p_edges_of L) = c.
Proof.
  unfold contract_all. intros H HL.
  destruct (forallb _ _) eqn:E; [|done]. injection H as <-. rewrite forallb_forall in E.
  specialize (E (p_edges_of L)). apply bool_decide_eq_true in E; [done|].
  apply elem_of_list_In, permutations_Permutation. unfold p_edges_of. by rewrite HL.
Qed.

Fixpoint ap_check (fuel : nat) (g : Graph) (q : Pairing) : option (comp (option (list N))) :=
  match fuel with
  | O => None
  | S fuel' =>
      if symmetric_b q then
        match add_roots f_new q (g_nodes g) with
        | Ok f =>
            match search_v fuel g q f (marker0 q) with
            | Ok (Exhausted _ _) => Some (Ok None)
            | Ok (EvenPath v pw forest) =>
                match f_path forest v with
                | Ok (Some pv) =>
                    if bool_decide (last pv = last pw) then
                      match nodes_max (g_nodes g) with
                      | Some m =>
                          if (m <? usize_max)%N then
                            match blossom_path pv pw with
                            | Some B =>
                                let blossom := mkBlossom (m + 1)%N B in
                                match b_contract_graph blossom g with
                                | Ok cg =>
                                    match contract_all blossom q with
                                    | Some c =>
                                        match ap_check fuel' (as_graph cg) c with
                                        | Some (Ok (Some path)) =>
                                            match b_lift fuel blossom path g with
                                            | Ok lifted => Some (Ok (Some lifted))
                                            | _ => None
                                            end
                                        | Some (Ok None) => Some (Ok None)
                                        | Some (Panic e) => Some (Panic e)
                                        | _ => None
                                        end
                                    | None => None
                                    end
                                | _ => None
                                end
                            | None => None
                            end
                          else None
                      | None => None
                      end
                    else Some (Ok (Some (reverse pv ++ pw)))
                | _ => None
                end
            | Panic e => Some (Panic e)
            | _ => None
            end
        | _ => None
        end
      else None
  end.

Lemma ap_check_spec iter fuel : hash_order_ok iter -> forall g q res, ap_check fuel g q = Some res ->
  forall tag, augmenting_path iter tag fuel g q = res.
Proof.
  intros Hit. induction fuel as [|fuel IH]; intros g q res H tag; [done|].
  cbn [ap_check] in H. destruct (symmetric_b q) eqn:Es; [|done]. apply symmetric_check in Es.
  destruct (add_roots f_new q (g_nodes g)) as [f| | |] eqn:Ef; try done.
  rewrite (ap_unfold_any g iter tag fuel q f Hit Es Ef).
  destruct (search_v (S fuel) g q f (marker0 q)) as [[f' m'|v pw forest]| |e|] eqn:Ev; try done; cbn [cbind].
  - by injection H as <-.
  - unfold continue. destruct (f_path forest v) as [[pv|]| | |]; try done. cbn [cbind expect_some].
    destruct (bool_decide (last pv = last pw)); [|by injection H as <-].
    destruct (nodes_max (g_nodes g)) as [m|]; [|done]. cbn [cbind expect_some].
    unfold checked_succ. destruct (m <? usize_max)%N; [|done]. cbn [cbind].
    unfold b_new. destruct (blossom_path pv pw) as [B|]; [|done]. cbn [cbind].
    destruct (b_contract_graph (mkBlossom (m + 1) B) g) as [cg| | |]; try done. cbn [unwrap cbind].
    destruct (contract_all (mkBlossom (m + 1) B) q) as [c|] eqn:Ec; [|done].
    unfold p_edges. rewrite (contract_all_spec _ _ _ _ Ec) by apply Hit.
    destruct (ap_check fuel (as_graph cg) c) as [r|] eqn:Ea; [|done].
    rewrite (IH _ _ _ Ea (2 :: tag)).
    destruct r as [[path|]| |e|]; try done; cbn [cbind].
    + destruct (b_lift (S fuel) (mkBlossom (m + 1) B) path g) as [l| | |]; try done. cbn [cbind].
      by injection H as <-.
    + by injection H as <-.
    + by injection H as <-.
  - by injection H as <-.
Qed.

Fixpoint mm_check (fuel : nat) (g : Graph) (p : Pairing) : option (comp Pairing) :=
  match fuel with
  | O => None
  | S fuel' =>
      match ap_check fuel g p with
      | Some (Ok None) => Some (Ok p)
      | Some (Ok (Some path)) =>
          match p_augment p path with
          | Ok p1 => match mm_check fuel' g p1 with
                     | Some (Ok p2) => mm_check fuel' g p2
                     | r => r
                     end
          | Panic e => Some (Panic e)
          | _ => None
          end
      | Some (Panic e) => Some (Panic e)
      | _ => None
      end
  end.

Lemma mm_check_spec iter fuel g : hash_order_ok iter -> forall p res, mm_check fuel g p = Some res ->
  forall tag, maximum_matching iter tag fuel g p = res.
Proof.
  intros Hit. induction fuel as [|fuel IH]; intros p res H tag; [done|].
  cbn [mm_check] in H. cbn [maximum_matching].
  destruct (ap_check (S fuel) g p) as [r|] eqn:Ea; [|done].
  rewrite (ap_check_spec iter (S fuel) Hit _ _ _ Ea).
  destruct r as [[path|]| |e|]; try done; cbn [cbind]; try (by injection H as <-).
  destruct (p_augment p path) as [p1| |e|]; try done; cbn [cbind]; try (by injection H as <-).
  destruct (mm_check fuel g p1) as [r|] eqn:E1; [|done].
  rewrite (IH _ _ E1). destruct r as [p2| |e|]; cbn [cbind]; try (by injection H as <-).
  by apply IH.
Qed.

Lemma run_check iter fuel g p res : hash_order_ok iter -> mm_check fuel g p = Some res -> res <> NoFuel ->
  matching_run iter g p res.
Proof.
  intros Hit H Hne. split; [done|]. exists fuel. intros fuel' Hf.
  pose proof (mm_check_spec iter fuel g Hit p res H []) as E.
  destruct (mm_upto iter fuel fuel' Hf [] g p) as [E'|E']; congruence.
Qed.

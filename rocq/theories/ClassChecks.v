(** Executable checks of the odd-cycle conditions, for concrete graphs. *)
From Verif Require Import Outcome GraphModel PairingModel Spec GraphProofs TraversalProofs PathLemmas.

Definition nb (g : Graph) (u : N) : list N :=
  match g_neighbors g u with Ok l => l | _ => [] end.

Lemma nb_adj g u v : v ∈ nb g u <-> adj g u v.
Proof.
  unfold nb, adj. split.
  - destruct (g_neighbors g u) as [l| | |]; [|by intros ?%elem_of_nil..]. by exists l.
  - intros (l & -> & Hl). done.
Qed.

(** All simple paths with [S n] nodes. *)
Fixpoint grow (g : Graph) (n : nat) : list (list N) :=
  match n with
  | O => (fun v => [v]) <$> g_nodes g
  | S n' => grow g n' ≫= (fun l =>
      match l with
      | [] => []
      | x :: _ => (fun y => y :: l) <$> filter (fun y => y ∉ l) (nb g x)
      end)
  end.

Lemma grow_complete g c : Lawful g -> NoDup c -> is_path g c -> (forall x, x ∈ c -> x ∈ g_nodes g) ->
  c <> [] -> c ∈ grow g (length c - 1).
Proof.
  intros Hg. induction c as [|y c IH]; [done|]. intros Hnd Hp Hin _.
  destruct c as [|x c].
  { simpl. apply elem_of_list_fmap. exists y. split; [done|]. apply Hin. left. }
  apply is_path_cons2 in Hp as [Hyx Hp]. apply NoDup_cons in Hnd as [Hy Hnd].
  cbn [length Nat.sub]. cbn [length] in IH. rewrite Nat.sub_succ, Nat.sub_0_r in IH.
  cbn [grow]. apply elem_of_list_bind. exists (x :: c). split.
  - apply elem_of_list_fmap. exists y. split; [done|]. apply elem_of_list_filter. split; [done|].
    apply nb_adj. by apply law_adj_sym.
  - apply IH; try done. intros z Hz. apply Hin. by right.
Qed.

Definition odd_cycles (g : Graph) : list (list N) :=
  filter (fun c => Nat.odd (length c) &&
                   match head c, last c with Some a, Some b => bool_decide (a ∈ nb g b) | _, _ => false end = true)
    (seq 0 (length (g_nodes g)) ≫= grow g).

Lemma odd_cycle_nodes g c : Lawful g -> odd_cycle g c -> forall y, y ∈ c -> y ∈ g_nodes g.
Proof.
  intros Hg (Hnd & Hodd & Hp & Hc). destruct c as [|x c]; [done|].
  destruct (last (x :: c)) as [z|] eqn:Hz; [|by apply last_None in Hz].
  specialize (Hc x z eq_refl eq_refl).
  intros y Hy. apply elem_of_cons in Hy as [->|Hy]; [by eapply law_adj_node|].
  apply elem_of_list_lookup in Hy as [i Hi].
  destruct ((x :: c) !! i) as [w|] eqn:Hw.
  - eapply law_adj_node; [done|]. by eapply (Hp i).
  - apply lookup_ge_None in Hw. apply lookup_lt_Some in Hi. simpl in Hw. lia.
Qed.

Lemma odd_cycles_complete g c : Lawful g -> odd_cycle g c -> c ∈ odd_cycles g.
Proof.
  intros Hg Hoc. pose proof (odd_cycle_nodes g c Hg Hoc) as Hin.
  destruct Hoc as (Hnd & Hodd & Hp & Hc). destruct c as [|x c]; [done|].
  destruct (last (x :: c)) as [z|] eqn:Hz; [|by apply last_None in Hz].
  specialize (Hc x z eq_refl eq_refl).
  unfold odd_cycles. apply elem_of_list_filter. split.
  - rewrite Hodd. cbn [head]. rewrite Hz. apply bool_decide_eq_true. by apply nb_adj.
  - apply elem_of_list_bind. exists (length (x :: c) - 1). split; [by apply grow_complete|].
    apply elem_of_seq. cbn [length].
    assert (length (x :: c) <= length (g_nodes g)); [|cbn [length] in *; lia].
    apply submseteq_length, NoDup_submseteq; done.
Qed.

Definition outside (g : Graph) (c : list N) : list N :=
  c ≫= (fun x => filter (fun u => u ∉ c) (nb g x)).

Lemma outside_elem g c x u : x ∈ c -> u ∉ c -> adj g x u -> u ∈ outside g c.
Proof.
  intros Hx Hu Hxu. apply elem_of_list_bind. exists x. split; [|done].
  apply elem_of_list_filter. split; [done|]. by apply nb_adj.
Qed.

Definition pendant_b (g : Graph) : bool :=
  forallb (fun c => forallb (fun u => forallb (fun v => bool_decide (u = v)) (outside g c)) (outside g c))
    (odd_cycles g).

Lemma pendant_check g : Lawful g -> pendant_b g = true -> pendant_odd_cycles g.
Proof.
  intros Hg H c x y u v Hc Hx Hy Hu Hv Hxu Hyv. unfold pendant_b in H.
  rewrite forallb_forall in H. specialize (H c).
  rewrite <-elem_of_list_In, forallb_forall in H. specialize (H (odd_cycles_complete g c Hg Hc) u).
  rewrite <-elem_of_list_In, forallb_forall in H.
  specialize (H (outside_elem g c x u Hx Hu Hxu) v).
  rewrite <-elem_of_list_In in H. specialize (H (outside_elem g c y v Hy Hv Hyv)).
  by apply bool_decide_eq_true in H.
Qed.

Definition disjoint_b (g : Graph) : bool :=
  forallb (fun c => forallb (fun d =>
    forallb (fun x => negb (bool_decide (x ∈ d)) || forallb (fun y => bool_decide (y ∈ d)) c) c)
    (odd_cycles g)) (odd_cycles g).

Lemma disjoint_check g : Lawful g -> disjoint_b g = true -> disjoint_odd_cycles g.
Proof.
  intros Hg H c d x Hc Hd Hxc Hxd y Hy. unfold disjoint_b in H.
  rewrite forallb_forall in H. specialize (H c).
  rewrite <-elem_of_list_In, forallb_forall in H. specialize (H (odd_cycles_complete g c Hg Hc) d).
  rewrite <-elem_of_list_In, forallb_forall in H. specialize (H (odd_cycles_complete g d Hg Hd) x).
  rewrite <-elem_of_list_In in H. specialize (H Hxc).
  rewrite (bool_decide_eq_true_2 _ Hxd) in H. simpl in H. rewrite forallb_forall in H.
  specialize (H y). rewrite <-elem_of_list_In in H. specialize (H Hy). by apply bool_decide_eq_true in H.
Qed.

(** Nodes linked to those of [S] outside [c]. *)
Fixpoint spread (g : Graph) (c : list N) (n : nat) (S : list N) : list N :=
  match n with
  | O => S
  | Datatypes.S n' => spread g c n' (remove_dups (S ++ (S ≫= (fun x => filter (fun u => u ∉ c) (nb g x)))))
  end.

Definition closed_b (g : Graph) (c S : list N) : bool :=
  forallb (fun x => forallb (fun u => bool_decide (u ∈ c) || bool_decide (u ∈ S)) (nb g x)) S.

Definition separated_b (g : Graph) : bool :=
  forallb (fun c => forallb (fun x => forallb (fun u => bool_decide (u ∈ c) ||
    let S := spread g c (length (g_nodes g)) [u] in
    bool_decide (u ∈ S) && closed_b g c S &&
    forallb (fun y => forallb (fun v => negb (bool_decide (v ∈ S)) || bool_decide (x = y)) (nb g y)) c)
    (nb g x)) c) (odd_cycles g).

Lemma separated_check g : Lawful g -> separated_b g = true -> separated_odd_cycles g.
Proof.
  intros Hg H c x y u v Hc Hx Hy Hxu Hyv [Hu Hl]. unfold separated_b in H.
  rewrite forallb_forall in H. specialize (H c).
  rewrite <-elem_of_list_In, forallb_forall in H. specialize (H (odd_cycles_complete g c Hg Hc) x).
  rewrite <-elem_of_list_In, forallb_forall in H. specialize (H Hx u).
  rewrite <-elem_of_list_In, nb_adj in H. specialize (H Hxu).
  rewrite (bool_decide_eq_false_2 _ Hu) in H. simpl in H.
  apply andb_true_iff in H as [[HuS Hcl]%andb_true_iff H].
  apply bool_decide_eq_true in HuS.
  set (S := spread g c (length (g_nodes g)) [u]) in *. clearbody S.
  assert (HvS : v ∈ S).
  { clear H Hyv Hy y Hxu Hu. induction Hl as [|a b d [Hab Hb] _ IH]; [done|].
    assert (HbS : b ∈ S); [|].
    { unfold closed_b in Hcl. rewrite forallb_forall in Hcl. specialize (Hcl a).
      rewrite <-elem_of_list_In, forallb_forall in Hcl. specialize (Hcl HuS b).
      rewrite <-elem_of_list_In, nb_adj in Hcl. specialize (Hcl Hab).
      rewrite (bool_decide_eq_false_2 _ Hb) in Hcl. by apply bool_decide_eq_true in Hcl. }
    by apply IH. }
  rewrite forallb_forall in H. specialize (H y).
  rewrite <-elem_of_list_In, forallb_forall in H. specialize (H Hy v).
  rewrite <-elem_of_list_In, nb_adj in H. specialize (H Hyv).
  rewrite (bool_decide_eq_true_2 _ HvS) in H. simpl in H. by apply bool_decide_eq_true in H.
Qed.

(** Pairings and ids. *)
Definition pairing_of_b (g : Graph) (p : Pairing) : bool :=
  forallb (fun e => bool_decide (p !! e.2 = Some e.1) && bool_decide (e.1 <> e.2) &&
                    bool_decide (e.2 ∈ nb g e.1)) (map_to_list p).

Lemma pairing_of_check g p : pairing_of_b g p = true -> pairing_of g p.
Proof.
  intros H. assert (Hall : forall u v, p !! u = Some v -> p !! v = Some u /\ u <> v /\ adj g u v).
  { intros u v Huv. unfold pairing_of_b in H. rewrite forallb_forall in H. specialize (H (u, v)).
    rewrite <-elem_of_list_In, elem_of_map_to_list in H. specialize (H Huv).
    apply andb_true_iff in H as [[H1 H2]%andb_true_iff H3].
    apply bool_decide_eq_true in H1, H2, H3. split_and!; [done|done|by apply nb_adj]. }
  split; [intros u v Huv|intros u v Huv]; destruct (Hall u v Huv) as (? & ? & ?); done.
Qed.

Definition id_room_b (g : Graph) : bool :=
  forallb (fun v => (v + N.of_nat (length (g_nodes g) + length (looped g)) <=? usize_max)%N) (g_nodes g).

Lemma id_room_check g : id_room_b g = true -> id_room g.
Proof.
  intros H v Hv. unfold id_room_b in H. rewrite forallb_forall in H. specialize (H v).
  rewrite <-elem_of_list_In in H. by apply N.leb_le, H.
Qed.

(** ** Quiet odd cycles *)

Definition pendant_cycle_b (g : Graph) (c : list N) : bool :=
  forallb (fun u => forallb (fun v => bool_decide (u = v)) (outside g c)) (outside g c).

Definition lone_cycle_b (g : Graph) (cs : list (list N)) (c : list N) : bool :=
  forallb (fun d => negb (existsb (fun x => bool_decide (x ∈ d)) c) || forallb (fun y => bool_decide (y ∈ c)) d) cs.

Definition dominant_cycle_b (g : Graph) (c : list N) : bool :=
  let S := spread g [] (length (g_nodes g)) c in
  forallb (fun x => bool_decide (x ∈ S)) c && closed_b g [] S &&
  (length (filter (fun x => x ∉ c) S) <=? 2).

Definition quiet_cycle_b (g : Graph) (cs : list (list N)) (c : list N) : bool :=
  if (if (if length c <=? 2 then true else pendant_cycle_b g c) then true
      else dominant_cycle_b g c) then true else lone_cycle_b g cs c.

Definition quiet_b (g : Graph) : bool := let cs := odd_cycles g in forallb (quiet_cycle_b g cs) cs.

Lemma quiet_cycle_check g c : Lawful g -> quiet_cycle_b g (odd_cycles g) c = true -> 3 <= length c ->
  pendant_cycle g c \/ lone_cycle g c \/ dominant_cycle g c.
Proof.
  intros Hg H H3. unfold quiet_cycle_b in H.
  change ((((length c <=? 2) || pendant_cycle_b g c) || dominant_cycle_b g c) || lone_cycle_b g (odd_cycles g) c = true) in H.
  apply orb_true_iff in H as [H|H]; [apply orb_true_iff in H as [H|H]; [apply orb_true_iff in H as [H|H]|]|].
  - apply Nat.leb_le in H. lia.
  - left. intros x y u v Hx Hy Hu Hv Hxu Hyv. unfold pendant_cycle_b in H.
    rewrite forallb_forall in H. specialize (H u).
    rewrite <-elem_of_list_In, forallb_forall in H.
    specialize (H (outside_elem g c x u Hx Hu Hxu) v).
    rewrite <-elem_of_list_In in H. specialize (H (outside_elem g c y v Hy Hv Hyv)).
    by apply bool_decide_eq_true in H.
  - right. right. unfold dominant_cycle_b in H.
    set (S := spread g [] (length (g_nodes g)) c) in *. clearbody S.
    apply andb_true_iff in H as [[Hin Hcl]%andb_true_iff Hl]. apply Nat.leb_le in Hl.
    assert (Hr : forall x y, x ∈ S -> reachable g x y -> y ∈ S).
    { intros x y Hx Hxy. induction Hxy as [|a b d Hab _ IH]; [done|]. apply IH.
      unfold closed_b in Hcl. rewrite forallb_forall in Hcl. specialize (Hcl a).
      rewrite <-elem_of_list_In, forallb_forall in Hcl. specialize (Hcl Hx b).
      rewrite <-elem_of_list_In, nb_adj in Hcl. specialize (Hcl Hab).
      by apply bool_decide_eq_true in Hcl. }
    assert (Hout : forall y, y ∈ S -> y ∈ c \/ y ∈ filter (fun x => x ∉ c) S).
    { intros y Hy. destruct (decide (y ∈ c)); [by left|]. right. by apply elem_of_list_filter. }
    assert (Hpick : exists u v, forall y, y ∈ filter (fun x => x ∉ c) S -> y = u \/ y = v).
    { destruct (filter (fun x => x ∉ c) S) as [|u [|v [|w l]]].
      - exists 0%N, 0%N. intros y Hy. by apply elem_of_nil in Hy.
      - exists u, u. intros y Hy. left. by apply elem_of_list_singleton.
      - exists u, v. intros y Hy. set_solver.
      - simpl in Hl. lia. }
    destruct Hpick as (u & v & Hpick). exists u, v. intros x y Hx Hxy.
    rewrite forallb_forall in Hin. specialize (Hin x). rewrite <-elem_of_list_In in Hin.
    specialize (Hin Hx). apply bool_decide_eq_true in Hin.
    destruct (Hout y (Hr x y Hin Hxy)) as [?|Hy]; [by left|]. right. auto.
  - right. left. intros d x Hd Hxc Hxd y Hy. unfold lone_cycle_b in H.
    rewrite forallb_forall in H. specialize (H d).
    rewrite <-elem_of_list_In in H. specialize (H (odd_cycles_complete g d Hg Hd)).
    apply orb_true_iff in H as [H|H].
    + apply negb_true_iff in H. exfalso. apply not_true_iff_false in H. apply H.
      apply existsb_exists. exists x. rewrite <-elem_of_list_In. split; [done|]. by apply bool_decide_eq_true.
    + rewrite forallb_forall in H. specialize (H y). rewrite <-elem_of_list_In in H.
      specialize (H Hy). by apply bool_decide_eq_true in H.
Qed.

Definition clique_cycle_b (g : Graph) (c : list N) : bool :=
  let S := spread g [] (length (g_nodes g)) c in
  forallb (fun x => bool_decide (x ∈ S)) c && closed_b g [] S &&
  forallb (fun u => forallb (fun v => N.eqb u v || bool_decide (v ∈ nb g u)) S) S.

Definition calm_b (g : Graph) : bool :=
  let cs := odd_cycles g in forallb (fun c => if clique_cycle_b g c then true else quiet_cycle_b g cs c) cs.

Lemma quiet_check g : Lawful g -> quiet_b g = true -> quiet_odd_cycles g.
Proof.
  intros Hg H c Hc H3. unfold quiet_b in H. rewrite forallb_forall in H.
  specialize (H c). rewrite <-elem_of_list_In in H. apply quiet_cycle_check; [done| |done].
  by apply H, odd_cycles_complete.
Qed.

Lemma calm_check g : Lawful g -> calm_b g = true -> calm_odd_cycles g.
Proof.
  intros Hg H c Hc H3. unfold calm_b in H. rewrite forallb_forall in H.
  specialize (H c). rewrite <-elem_of_list_In in H. specialize (H (odd_cycles_complete g c Hg Hc)).
  destruct (clique_cycle_b g c) eqn:E.
  2:{ destruct (quiet_cycle_check g c Hg H H3) as [?|[?|?]]; tauto. }
  clear H. rename E into H.
  right. right. right. unfold clique_cycle_b in H.
  set (S := spread g [] (length (g_nodes g)) c) in *. clearbody S.
  apply andb_true_iff in H as [[Hin Hcl]%andb_true_iff Hl].
  assert (Hr : forall x y, x ∈ S -> reachable g x y -> y ∈ S).
  { intros x y Hx Hxy. induction Hxy as [|a b d Hab _ IH]; [done|]. apply IH.
    unfold closed_b in Hcl. rewrite forallb_forall in Hcl. specialize (Hcl a).
    rewrite <-elem_of_list_In, forallb_forall in Hcl. specialize (Hcl Hx b).
    rewrite <-elem_of_list_In, nb_adj in Hcl. specialize (Hcl Hab).
    by apply bool_decide_eq_true in Hcl. }
  intros x u v Hx Hu Hv Huv.
  rewrite forallb_forall in Hin. specialize (Hin x). rewrite <-elem_of_list_In in Hin.
  specialize (Hin Hx). apply bool_decide_eq_true in Hin.
  apply (Hr x) in Hu; [|done]. apply (Hr x) in Hv; [|done].
  rewrite forallb_forall in Hl. specialize (Hl u). rewrite <-elem_of_list_In, forallb_forall in Hl.
  specialize (Hl Hu v). rewrite <-elem_of_list_In in Hl. specialize (Hl Hv).
  destruct (N.eqb_spec u v); [done|]. simpl in Hl. apply bool_decide_eq_true in Hl. by apply nb_adj.
Qed.

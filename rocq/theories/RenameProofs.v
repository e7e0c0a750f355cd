(** [maximum_matching] commutes with renaming nodes. *)
From Verif Require Import Outcome GraphModel TraversalModel PairingModel Spec SpecRename
  GraphProofs EditProofs TraversalProofs PathLemmas PairingProofs MatchTheory MaximumModel
  ForestProofs BlossomProofs ContractProofs CycleProofs LiftProofs TameProofs MaximumProofs
  ShareProofs.

(** What [r] returns, [r'] returns up to [R]; when [r] does not end yet, nor
    does [r']. *)
Definition csim {A B} (R : A -> B -> Prop) (r : comp A) (r' : comp B) : Prop :=
  match r with
  | Ok x => exists x', r' = Ok x' /\ R x x'
  | NoFuel => r' = NoFuel
  | _ => True
  end.

Lemma csim_ok {A B} (R : A -> B -> Prop) x x' : R x x' -> csim R (Ok x) (Ok x').
Proof. intros H. by exists x'. Qed.

Lemma csim_bind {A B C D} (R : A -> B -> Prop) (Q : C -> D -> Prop) m m' k k' :
  csim R m m' -> (forall x x', R x x' -> csim Q (k x) (k' x')) ->
  csim Q (let! x := m in k x) (let! x := m' in k' x).
Proof.
  intros Hm Hk. destruct m as [x| | |]; simpl in *; try done.
  - destruct Hm as (x' & -> & HR). by apply Hk.
  - by rewrite Hm.
Qed.

Lemma csim_mono {A B} (R R' : A -> B -> Prop) m m' : (forall x x', R x x' -> R' x x') ->
  csim R m m' -> csim R' m m'.
Proof. intros HR. destruct m; simpl; try done. intros (x' & ? & ?). eauto. Qed.

Lemma csim_unwrap {A B} (R : A -> B -> Prop) m m' : csim R m m' -> csim R (unwrap m) (unwrap m').
Proof. destruct m as [x| | |]; simpl; try done; [by intros (x' & -> & ?); eexists|by intros ->]. Qed.

Section names.
  Context (f : N -> N) (S : list N) (Hinj : forall u v, u ∈ S -> v ∈ S -> f u = f v -> u = v).
  Notation sub l := (forall x, x ∈ (l : list N) -> x ∈ S).

  Lemma nm_eq u v : u ∈ S -> v ∈ S -> f u = f v <-> u = v.
  Proof. intros Hu Hv. split; [by apply Hinj|by intros ->]. Qed.

  Lemma nm_elem u (l : list N) : u ∈ S -> sub l -> f u ∈ f <$> l <-> u ∈ l.
  Proof.
    intros Hu Hl. rewrite elem_of_list_fmap. split; [|eauto].
    intros (y & Hy & Hin). apply Hinj in Hy; [by subst|done|auto].
  Qed.

  Lemma nm_elem_b u (l : list N) : u ∈ S -> sub l -> bool_decide (f u ∈ f <$> l) = bool_decide (u ∈ l).
  Proof. intros. by apply bool_decide_ext, nm_elem. Qed.

  (** A list and its renaming. *)
  Definition lsim (l l' : list N) : Prop := l' = f <$> l /\ sub l.
  Definition xsim (x x' : N) : Prop := x' = f x /\ x ∈ S.

  Lemma lsim_app l l' k k' : lsim l l' -> lsim k k' -> lsim (l ++ k) (l' ++ k').
  Proof.
    intros [-> Hl] [-> Hk]. split; [by rewrite fmap_app|].
    intros x [?|?]%elem_of_app; auto.
  Qed.
  Lemma lsim_cons x x' l l' : xsim x x' -> lsim l l' -> lsim (x :: l) (x' :: l').
  Proof. intros [-> Hx] [-> Hl]. split; [done|]. intros y [->|?]%elem_of_cons; auto. Qed.
  Lemma lsim_cons_inv x l l' : lsim (x :: l) l' -> x ∈ S /\ l' = f x :: (f <$> l) /\ sub l.
  Proof. intros [-> Hl]. split_and!; [apply Hl; left|done|]. intros y Hy. apply Hl. by right. Qed.
  Lemma lsim_nil : lsim [] [].
  Proof. split; [done|]. intros x Hx. by apply elem_of_nil in Hx. Qed.
  Lemma lsim_reverse l l' : lsim l l' -> lsim (reverse l) (reverse l').
  Proof.
    intros [-> Hl]. split; [by rewrite fmap_reverse|]. intros x Hx. apply Hl. by apply elem_of_reverse.
  Qed.
  Lemma lsim_length l l' : lsim l l' -> length l' = length l.
  Proof. intros [-> _]. by rewrite fmap_length. Qed.
  Lemma lsim_last l l' : lsim l l' -> last l' = f <$> last l /\ forall x, last l = Some x -> x ∈ S.
  Proof.
    intros [-> Hl]. split; [by rewrite fmap_last|]. intros x Hx. apply Hl. by apply last_Some_elem_of.
  Qed.
  Lemma lsim_last_s l l' : lsim l l' -> csim xsim (expect_some (last l)) (expect_some (last l')).
  Proof.
    intros [-> Hx]%lsim_last. destruct (last l) as [x|]; [|done]. apply csim_ok. split; [done|auto].
  Qed.
  Lemma lsim_index l l' i : lsim l l' -> csim xsim (index l i) (index l' i).
  Proof.
    intros [-> Hl]. unfold index. rewrite list_lookup_fmap. destruct (l !! i) as [x|] eqn:E; [|done].
    apply csim_ok. split; [done|]. by eapply Hl, elem_of_list_lookup_2.
  Qed.
  Lemma lsim_rotate l l' : lsim l l' -> lsim (rotate_right l) (rotate_right l').
  Proof.
    intros [-> Hl]. destruct l as [|x l _] using rev_ind; [by apply lsim_nil|].
    unfold rotate_right. rewrite fmap_app. cbn [fmap list_fmap].
    rewrite !last_snoc, !removelast_last. apply lsim_cons.
    - split; [done|]. apply Hl, elem_of_app. right. left.
    - split; [done|]. intros y Hy. apply Hl, elem_of_app. by left.
  Qed.

  (** *** Paths of a blossom *)

  Lemma before_same x l : x ∈ S -> sub l -> before (f x) (f <$> l) = option_map (map f) (before x l).
  Proof.
    intros Hx. induction l as [|y l IH]; intros Hl; [done|]. cbn [before fmap list_fmap].
    rewrite (bool_decide_ext (f x = f y) (x = y)) by (apply nm_eq; [done|apply Hl; left]).
    case_bool_decide; [done|]. rewrite IH by (intros z Hz; apply Hl; by right).
    by destruct (before x l).
  Qed.

  Lemma before_sub x l k : before x l = Some k -> forall y, y ∈ k -> y ∈ l.
  Proof.
    revert k. induction l as [|z l IH]; intros k; [done|]. cbn [before]. case_bool_decide.
    - intros [= <-] y Hy. by apply elem_of_nil in Hy.
    - destruct (before x l) as [k'|]; [|done]. intros [= <-] y [->|Hy]%elem_of_cons; [left|right].
      by eapply IH.
  Qed.

  Lemma blossom_path_same l r : sub l -> sub r ->
    blossom_path (f <$> l) (f <$> r) = option_map (map f) (blossom_path l r).
  Proof.
    intros Hl Hr. induction l as [|x l IH]; [done|]. cbn [blossom_path fmap list_fmap].
    rewrite before_same; [|apply Hl; left|done]. destruct (before x r) as [k|].
    - cbn. f_equal. by rewrite fmap_reverse.
    - cbn [fmap option_fmap option_map]. rewrite IH by (intros y Hy; apply Hl; by right).
      by destruct (blossom_path l r).
  Qed.

  Lemma blossom_path_sub l r k : sub l -> sub r -> blossom_path l r = Some k -> sub k.
  Proof.
    revert k. induction l as [|x l IH]; intros k Hl Hr; [done|]. cbn [blossom_path].
    destruct (before x r) as [pre|] eqn:E.
    - intros [= <-] y [->|Hy]%elem_of_cons; [apply Hl; left|]. rewrite elem_of_reverse in Hy.
      apply Hr. exact (before_sub x r pre E y Hy).
    - destruct (blossom_path l r) as [path|]; [|done]. intros [= <-] y [->|Hy]%elem_of_cons; [apply Hl; left|].
      revert y Hy. apply IH; [|done|done]. intros y Hy. apply Hl. by right.
  Qed.

  (** *** Markers and forests *)

  Definition msim (m m' : Marker) : Prop :=
    (forall u, u ∈ S -> f u ∈ mk_nodes m' <-> u ∈ mk_nodes m) /\
    forall u v, u ∈ S -> v ∈ S -> mk_has_edge m' (f u) (f v) = mk_has_edge m u v.

  Lemma mark_edge_same m m' s t : msim m m' -> s ∈ S -> t ∈ S -> mk_has_edge m s t = false ->
    csim msim (mk_mark_edge m s t) (mk_mark_edge m' (f s) (f t)).
  Proof.
    intros [Hn He] Hs Ht Hst.
    destruct (mark_edge_ok m s t) as (m1 & -> & Hn1 & He1); [unfold hedge; congruence|].
    destruct (mark_edge_ok m' (f s) (f t)) as (m1' & -> & Hn1' & He1').
    { unfold hedge. rewrite He by done. congruence. }
    apply csim_ok. split.
    - intros u Hu. rewrite Hn1, Hn1'. by apply Hn.
    - intros u v Hu Hv. apply eq_true_iff_eq. fold (hedge m1' (f u) (f v)) (hedge m1 u v).
      rewrite He1, He1'. unfold hedge. rewrite He, !nm_eq by done. done.
  Qed.

  Lemma mark_node_same m m' s : msim m m' -> s ∈ S ->
    csim msim (mk_mark_node m s) (mk_mark_node m' (f s)).
  Proof.
    intros [Hn He] Hs. unfold mk_mark_node.
    rewrite (bool_decide_ext (f s ∈ mk_nodes m') (s ∈ mk_nodes m)) by (by apply Hn).
    case_bool_decide; [done|]. apply csim_ok. split; [|done]. intros u Hu. cbn [mk_nodes].
    rewrite !elem_of_union, !elem_of_singleton, Hn, nm_eq by done. done.
  Qed.

  Definition entry_renamed (e : entry) : entry := mkEntry (f <$> e_parent e) (e_parity e).

  Record fsim (F F' : Forest) : Prop := {
    fs_nodes : lsim (f_nodes F) (f_nodes F');
    fs_parents : forall u, u ∈ S -> f_parents F' !! f u = entry_renamed <$> f_parents F !! u;
    fs_closed : forall u e w, f_parents F !! u = Some e -> e_parent e = Some w -> w ∈ S
  }.

  Lemma climb_same F F' fuel : fsim F F' -> forall o, (forall w, o = Some w -> w ∈ S) ->
    csim lsim (f_climb fuel F o) (f_climb fuel F' (f <$> o)).
  Proof.
    intros HF. induction fuel as [|fuel IH]; intros [w|] Ho; cbn [f_climb fmap option_fmap option_map];
      try done; try (apply csim_ok, lsim_nil).
    rewrite (fs_parents _ _ HF) by (by apply Ho).
    destruct (f_parents F !! w) as [e|] eqn:E; cbn [fmap option_fmap option_map]; [|done].
    eapply csim_bind; [apply IH|].
    { intros z Hz. by eapply (fs_closed _ _ HF). }
    intros l l' Hl. apply csim_ok, lsim_cons; [|done]. split; [done|by apply Ho].
  Qed.

  Definition osim {A B} (R : A -> B -> Prop) (o : option A) (o' : option B) : Prop :=
    match o, o' with Some x, Some x' => R x x' | None, None => True | _, _ => False end.

  Lemma path_same F F' w : fsim F F' -> w ∈ S -> csim (osim lsim) (f_path F w) (f_path F' (f w)).
  Proof.
    intros HF Hw. unfold f_path. rewrite (fs_parents _ _ HF) by done.
    destruct (f_parents F !! w) as [e|] eqn:E; cbn [fmap option_fmap option_map].
    2:{ by apply csim_ok. }
    eapply csim_bind.
    - rewrite (lsim_length _ _ (fs_nodes _ _ HF)). apply climb_same; [done|].
      intros z Hz. by eapply (fs_closed _ _ HF).
    - intros l l' Hl. apply csim_ok. by apply lsim_cons.
  Qed.

  Lemma put_same F F' w e : fsim F F' -> w ∈ S -> (forall z, e_parent e = Some z -> z ∈ S) ->
    fsim (mkForest (<[w := e]> (f_parents F)) (f_nodes F ++ [w]))
      (mkForest (<[f w := entry_renamed e]> (f_parents F')) (f_nodes F' ++ [f w])).
  Proof.
    intros HF Hw He. split; cbn [f_nodes f_parents].
    - apply lsim_app; [apply HF|]. apply lsim_cons; [done|apply lsim_nil].
    - intros u Hu. destruct (decide (u = w)) as [->|Hne]; [by rewrite !lookup_insert|].
      rewrite !lookup_insert_ne; [by apply HF|done|]. intros E. by apply Hinj in E.
    - intros u e' z [[-> <-]|[_ Hu]]%lookup_insert_Some Hz; [by apply He|]. by eapply (fs_closed _ _ HF).
  Qed.

  Lemma add_edge_same F F' v w : fsim F F' -> v ∈ S -> w ∈ S ->
    csim fsim (f_add_edge F v w) (f_add_edge F' (f v) (f w)).
  Proof.
    intros HF Hv Hw. unfold f_add_edge. rewrite !(fs_parents _ _ HF) by done.
    destruct (f_parents F !! v) as [e|] eqn:E; cbn [fmap option_fmap option_map]; [|done].
    destruct (f_parents F !! w) as [e'|] eqn:E'; cbn [fmap option_fmap option_map]; [done|].
    apply csim_ok. apply (put_same F F' w (mkEntry (Some v) (parity_invert (e_parity e)))); [done|done|].
    by intros z [= <-].
  Qed.

  Lemma add_root_same F F' v : fsim F F' -> v ∈ S -> csim fsim (f_add_root F v) (f_add_root F' (f v)).
  Proof.
    intros HF Hv. unfold f_add_root. rewrite !(fs_parents _ _ HF) by done.
    destruct (f_parents F !! v) as [e|] eqn:E; cbn [fmap option_fmap option_map]; [done|].
    apply csim_ok. by apply (put_same F F' v (mkEntry None Even)).
  Qed.

  Lemma new_same : fsim f_new f_new.
  Proof.
    split; [apply lsim_nil|..].
    - intros u _. cbn [f_new f_parents]. by rewrite !lookup_empty.
    - intros u e w Hu. cbn [f_new f_parents] in Hu. by rewrite lookup_empty in Hu.
  Qed.

  Lemma find_v_same F F' m m' ids : fsim F F' -> msim m m' -> sub ids ->
    csim (osim xsim) (find_v (f_parents F) m ids) (find_v (f_parents F') m' (f <$> ids)).
  Proof.
    intros HF [Hn _]. induction ids as [|i ids IH]; intros Hi; [by apply csim_ok|].
    assert (i ∈ S) by (apply Hi; left). cbn [find_v fmap list_fmap].
    rewrite (fs_parents _ _ HF) by done.
    assert (HI : csim (osim xsim) (find_v (f_parents F) m ids) (find_v (f_parents F') m' (f <$> ids))).
    { apply IH. intros y Hy. apply Hi. by right. }
    destruct (f_parents F !! i) as [[par []]|]; cbn [fmap option_fmap option_map entry_renamed e_parity]; try done.
    unfold mk_has_node. rewrite (bool_decide_ext (f i ∈ mk_nodes m') (i ∈ mk_nodes m)) by (by apply Hn).
    case_bool_decide; [done|]. by apply csim_ok.
  Qed.
End names.

(** *** Two graphs *)

Section search_same.
  Context (f : N -> N) (g h : Graph) (Hg : Lawful g) (Hh : Lawful h) (Hr : renamed f g h).
  Context (p q : Pairing) (Hp : pairing_of g p) (Hq : pairing_renamed f p q).
  Notation S := (g_nodes g).
  Notation Hinj := (proj1 Hr).

  Lemma rn_row v : v ∈ S -> exists l, g_neighbors g v = Ok l /\ g_neighbors h (f v) = Ok (f <$> l) /\
    forall w, w ∈ l -> w ∈ S.
  Proof.
    intros Hv. destruct (law_neighbors g Hg v Hv) as (l & Hl & _). exists l. split; [done|].
    split; [by apply Hr|]. intros w Hw. apply (law_adj_node g Hg v). by exists l.
  Qed.

  Lemma rn_adj u v : u ∈ S -> v ∈ S -> adj h (f u) (f v) <-> adj g u v.
  Proof.
    intros Hu Hv. destruct (rn_row u Hu) as (l & Hl & Hl' & Hsub). unfold adj. rewrite Hl, Hl'. split.
    - intros (k & [= <-] & Hin). exists l. split; [done|]. by apply (nm_elem f S Hinj v l).
    - intros (k & [= <-] & Hin). eexists. split; [done|]. apply elem_of_list_fmap. eauto.
  Qed.

  Lemma rn_has_edge u v : u ∈ S -> v ∈ S -> g_has_edge h (f u) (f v) = g_has_edge g u v.
  Proof.
    intros Hu Hv. destruct (law_has_edge g Hg u v Hu Hv) as (b & -> & Hb).
    assert (Hn : forall x, x ∈ S -> f x ∈ g_nodes h).
    { intros x Hx. rewrite (proj1 (proj2 Hr)). apply elem_of_list_fmap. eauto. }
    destruct (law_has_edge h Hh (f u) (f v) (Hn u Hu) (Hn v Hv)) as (b' & -> & Hb').
    rewrite rn_adj in Hb' by done. f_equal. apply eq_true_iff_eq. by rewrite Hb, Hb'.
  Qed.

  Lemma rp_node u v : p !! u = Some v -> u ∈ S /\ v ∈ S.
  Proof. intros H. apply (adj_nodes g Hg). by apply Hp. Qed.

  Lemma rp_lookup u : u ∈ S -> q !! f u = f <$> p !! u.
  Proof.
    intros Hu. destruct (p !! u) as [v|] eqn:E; cbn.
    - apply Hq. eauto.
    - destruct (q !! f u) as [y|] eqn:E'; [|done]. apply Hq in E' as (u' & v' & Hp' & Hu' & _).
      apply Hinj in Hu'; [by subst; congruence|done|]. by apply (rp_node u' v').
  Qed.

  Lemma rp_pairing : pairing_of h q.
  Proof.
    split.
    - intros x y (u & v & Huv & -> & ->)%Hq. destruct (rp_node u v Huv) as [Hu Hv].
      apply (proj1 Hp) in Huv as [Hvu Hne]. split; [apply Hq; eauto|].
      intros E. by apply Hinj in E.
    - intros x y (u & v & Huv & -> & ->)%Hq. destruct (rp_node u v Huv) as [Hu Hv].
      apply rn_adj; [done|done|]. by apply Hp.
  Qed.

  Lemma some_w_same v m m' : v ∈ S -> msim f S m m' ->
    csim (fun o o' => o' = f <$> o /\ forall w, o = Some w -> w ∈ S /\ mk_has_edge m v w = false)
      (some_w v g m) (some_w (f v) h m').
  Proof.
    intros Hv [_ He]. unfold some_w. destruct (rn_row v Hv) as (l & -> & -> & Hsub).
    cbn [unwrap cbind]. apply csim_ok. split.
    - induction l as [|w l IH]; [done|]. cbn [fmap list_fmap]. rewrite !filter_cons.
      rewrite He by (done || apply Hsub; left).
      destruct (decide (mk_has_edge m v w = false)); [done|]. apply IH.
      intros x Hx. apply Hsub. by right.
    - intros w Hw. apply head_Some_elem_of, elem_of_list_filter in Hw as [Hw Hin]. auto.
  Qed.

  Definition ssim (r r' : search) : Prop :=
    match r, r' with
    | Exhausted F m, Exhausted F' m' => fsim f S F F' /\ msim f S m m'
    | EvenPath v l F, EvenPath v' l' F' => xsim f S v v' /\ lsim f S l l' /\ fsim f S F F'
    | _, _ => False
    end.

  Lemma search_w_same fuel : forall v F F' m m', v ∈ S -> fsim f S F F' -> msim f S m m' ->
    csim ssim (search_w fuel v g p F m) (search_w fuel (f v) h q F' m').
  Proof.
    induction fuel as [|fuel IH]; intros v F F' m m' Hv HF Hm; [done|]. cbn [search_w].
    eapply csim_bind; [by apply some_w_same|]. intros ow ow' [-> Hw].
    destruct ow as [w|]; cbn [fmap option_fmap option_map]; [|by apply csim_ok].
    destruct (Hw w eq_refl) as [HwS Hvw]. clear Hw.
    eapply csim_bind; [by apply (path_same f S)|]. intros o o' Ho.
    destruct o as [l|], o' as [l'|]; try done; cbn [osim] in Ho.
    - rewrite (lsim_length _ _ _ _ Ho). destruct (Nat.odd (length l)); [by apply csim_ok|].
      eapply csim_bind; [by apply (mark_edge_same f S Hinj)|]. intros m1 m1' Hm1. by apply IH.
    - eapply csim_bind; [by apply (add_edge_same f S Hinj)|]. intros F1 F1' HF1.
      unfold p_mate. rewrite rp_lookup by done. destruct (p !! w) as [y|] eqn:Ey; [|done]. cbn.
      apply rp_node in Ey as [_ Hy].
      eapply csim_bind; [by apply (add_edge_same f S Hinj)|]. intros F2 F2' HF2.
      eapply csim_bind; [by apply (mark_edge_same f S Hinj)|]. intros m1 m1' Hm1. by apply IH.
  Qed.

  Lemma search_v_same fuel : forall F F' m m', fsim f S F F' -> msim f S m m' ->
    csim ssim (search_v fuel g p F m) (search_v fuel h q F' m').
  Proof.
    induction fuel as [|fuel IH]; intros F F' m m' HF Hm; [done|]. cbn [search_v].
    unfold some_v. destruct (fs_nodes _ _ _ _ HF) as [-> Hsub].
    eapply csim_bind; [by apply (find_v_same f S)|]. intros o o' Ho.
    destruct o as [v|], o' as [v'|]; try done; cbn [osim] in Ho; [|by apply csim_ok].
    destruct Ho as [-> Hv]. eapply csim_bind; [by apply search_w_same|]. intros r r' Hrr.
    destruct r as [F1 m1|v1 l1 F1], r' as [F1' m1'|v1' l1' F1']; try done; [|by apply csim_ok].
    destruct Hrr as [HF1 Hm1].
    eapply csim_bind; [by apply (mark_node_same f S Hinj)|]. intros m2 m2' Hm2. by apply IH.
  Qed.

  Lemma add_roots_same ids : (forall x, x ∈ ids -> x ∈ S) -> forall F F', fsim f S F F' ->
    csim (fsim f S) (add_roots F p ids) (add_roots F' q (f <$> ids)).
  Proof.
    induction ids as [|x ids IH]; intros Hi F F' HF; [by apply csim_ok|].
    cbn [add_roots fmap list_fmap].
    assert (x ∈ S) by (apply Hi; left).
    eapply csim_bind with (R := fsim f S).
    - unfold p_has_node. rewrite rp_lookup by done. 
      rewrite (bool_decide_ext (is_Some (f <$> p !! x)) (is_Some (p !! x))) by (by rewrite fmap_is_Some).
      case_bool_decide; [by apply csim_ok|]. by apply (add_root_same f S Hinj).
    - intros F1 F1' HF1. apply IH; [|done]. intros y Hy. apply Hi. by right.
  Qed.

  Lemma marker0_same : msim f S (marker0 p) (marker0 q).
  Proof.
    split; [by intros u _; unfold marker0; cbn [mk_nodes]; rewrite !elem_of_empty|].
    intros u v Hu Hv. unfold mk_has_edge, marker0. cbn [mk_edges].
    rewrite !lookup_fmap, rp_lookup by done. destruct (p !! u) as [w|] eqn:E; [|done]. cbn.
    apply rp_node in E as [_ Hw]. apply bool_decide_ext. rewrite !elem_of_list_singleton.
    by apply (nm_eq f S Hinj).
  Qed.

  (** *** Lifting *)

  Lemma has_edge_same u u' v v' : xsim f S u u' -> xsim f S v v' ->
    csim eq (unwrap (g_has_edge g u v)) (unwrap (g_has_edge h u' v')).
  Proof.
    intros [-> Hu] [-> Hv]. rewrite rn_has_edge by done. destruct (law_has_edge g Hg u v Hu Hv) as (b & -> & _).
    by apply csim_ok.
  Qed.

  Lemma rotate_until_same fuel (t t' : list N -> comp bool) :
    (forall l l', lsim f S l l' -> csim eq (t l) (t' l')) ->
    forall l l', lsim f S l l' -> csim (lsim f S) (rotate_until fuel t l) (rotate_until fuel t' l').
  Proof.
    intros Ht. induction fuel as [|fuel IH]; intros l l' Hl; [done|]. cbn [rotate_until].
    eapply csim_bind; [by apply Ht|]. intros b b' <-. destruct b; [by apply csim_ok|].
    by apply IH, lsim_rotate.
  Qed.

  Lemma take_to_edge_same t t' l : xsim f S t t' -> forall l', lsim f S l l' ->
    csim (lsim f S) (take_to_edge g t l) (take_to_edge h t' l').
  Proof.
    intros Ht. induction l as [|x l IH]; intros l' Hl.
    { destruct Hl as [-> _]. apply csim_ok, lsim_nil. }
    apply lsim_cons_inv in Hl as (Hx & -> & Hl). cbn [take_to_edge].
    eapply csim_bind; [by apply has_edge_same|]. intros b b' <-. destruct b.
    - apply csim_ok. apply lsim_cons; [done|apply lsim_nil].
    - eapply csim_bind; [by apply IH|]. intros k k' Hk. by apply csim_ok, lsim_cons.
  Qed.

  Section lift.
    Context (b b' : N) (B : list N) (HB : forall x, x ∈ B -> x ∈ S) (fuel : nat).
    Let bl := mkBlossom b B.
    Let bl' := mkBlossom b' (f <$> B).

    Lemma lift_left_same l l' : lsim f S l l' ->
      csim (lsim f S) (b_lift_left fuel bl l g) (b_lift_left fuel bl' l' h).
    Proof.
      intros Hl. unfold b_lift_left. eapply csim_bind; [by apply lsim_last_s|]. intros s s' Hs.
      eapply csim_bind.
      - apply rotate_until_same; [|done]. intros c c' Hc.
        eapply csim_bind; [by apply lsim_index|]. intros x x' Hx. by apply has_edge_same.
      - intros c c' Hc. by apply csim_ok, lsim_app.
    Qed.

    Lemma lift_right_same r r' : lsim f S r r' ->
      csim (lsim f S) (b_lift_right fuel bl r g) (b_lift_right fuel bl' r' h).
    Proof.
      intros Hl. unfold b_lift_right. eapply csim_bind; [by apply lsim_index|]. intros s s' Hs.
      eapply csim_bind.
      - apply rotate_until_same; [|done]. intros c c' Hc.
        eapply csim_bind; [by apply lsim_last_s|]. intros x x' Hx. by apply has_edge_same.
      - intros c c' Hc. by apply csim_ok, lsim_app.
    Qed.

    Lemma lift_both_same l l' r r' : lsim f S l l' -> lsim f S r r' ->
      csim (lsim f S) (b_lift_both fuel bl l r g) (b_lift_both fuel bl' l' r' h).
    Proof.
      intros Hl Hrr. unfold b_lift_both. cbn [b_path bl bl'].
      eapply csim_bind; [by apply lsim_last_s|]. intros s s' Hs.
      assert (Ht : forall c c', lsim f S c c' ->
        csim eq (let! x := index c 0 in unwrap (g_has_edge g s x))
                (let! x := index c' 0 in unwrap (g_has_edge h s' x))).
      { intros c c' Hc. eapply csim_bind; [by apply lsim_index|]. intros x x' Hx. by apply has_edge_same. }
      assert (HBs : lsim f S B (f <$> B)) by done.
      eapply csim_bind; [by apply rotate_until_same|]. intros c c' Hc.
      eapply csim_bind; [by apply lsim_index|]. intros t t' Htt.
      eapply csim_bind; [by apply take_to_edge_same|]. intros k k' Hk.
      assert (Hw : lsim f S (l ++ k ++ r) (l' ++ k' ++ r')) by (by repeat apply lsim_app).
      rewrite (lsim_length _ _ _ _ Hw). destruct (Nat.even _); [by apply csim_ok|].
      eapply csim_bind; [by apply rotate_until_same, lsim_reverse|]. intros c1 c1' Hc1.
      eapply csim_bind; [by apply take_to_edge_same|]. intros k1 k1' Hk1.
      apply csim_ok. by repeat apply lsim_app.
    Qed.

    (** The names in the contracted graph. *)
    Definition names (x : N) : N := if bool_decide (x = b) then b' else f x.

    Lemma names_same (l : list N) : b ∉ l -> names <$> l = f <$> l.
    Proof.
      intros Hb. apply list_fmap_ext. intros i x Hx. apply elem_of_list_lookup_2 in Hx.
      unfold names. rewrite bool_decide_eq_false_2; [done|]. by intros ->.
    Qed.

    Context (Hb : b ∉ S) (Hb' : b' ∉ g_nodes h).

    Lemma names_inj u v : u ∈ b :: S -> v ∈ b :: S -> names u = names v -> u = v.
    Proof.
      assert (Hn : forall x, x ∈ S -> f x <> b').
      { intros x Hx E. apply Hb'. rewrite <-E, (proj1 (proj2 Hr)). apply elem_of_list_fmap. eauto. }
      unfold names. intros [->|Hu]%elem_of_cons [->|Hv]%elem_of_cons.
      - done.
      - rewrite bool_decide_eq_true_2, bool_decide_eq_false_2 by (done || by intros ->).
        intros E. symmetry in E. by apply Hn in E.
      - rewrite bool_decide_eq_false_2, bool_decide_eq_true_2 by (done || by intros ->).
        intros E. by apply Hn in E.
      - rewrite !bool_decide_eq_false_2 by (by intros ->). by apply Hinj.
    Qed.

    Lemma names_b : names b = b'.
    Proof. unfold names. by rewrite bool_decide_eq_true_2. Qed.

    Lemma before_split x l k : before x l = Some k -> l = k ++ x :: drop (Datatypes.S (length k)) l.
    Proof.
      revert k. induction l as [|y l IH]; intros k; [done|]. cbn [before]. case_bool_decide as E.
      - subst. intros [= <-]. cbn. by rewrite drop_0.
      - destruct (before x l) as [k'|]; [|done]. intros [= <-]. cbn. f_equal. by apply IH.
    Qed.

    Lemma before_none x l : before x l = None -> x ∉ l.
    Proof.
      induction l as [|y l IH]; [intros _ H; by apply elem_of_nil in H|]. cbn [before]. case_bool_decide; [done|].
      destruct (before x l); [done|]. intros _ [?|?]%elem_of_cons; [done|]. by apply IH.
    Qed.

    Lemma lift_same path : NoDup path -> (forall x, x ∈ path -> x ∈ b :: S) ->
      csim (lsim f S) (b_lift fuel bl path g) (b_lift fuel bl' (names <$> path) h).
    Proof.
      intros Hnd Hsub. unfold b_lift. cbn [b_id b_path bl bl'].
      rewrite <-names_b at 1.
      rewrite (before_same names (b :: S) names_inj b path) by (done || left).
      assert (Hin : forall l : list N, (forall x, x ∈ l -> x ∈ path) -> b ∉ l -> lsim f S l (names <$> l)).
      { intros l Hl Hbl. split; [by apply names_same|]. intros x Hx.
        destruct (elem_of_cons S x b) as [Hc _]. destruct (Hc (Hsub x (Hl x Hx))) as [->|?]; done. }
      destruct (before b path) as [lft|] eqn:E; cbn [option_map].
      2:{ apply csim_ok, Hin; [done|]. by apply before_none. }
      change (map names lft) with (names <$> lft). rewrite fmap_length.
      change (drop (Datatypes.S (length lft)) (names <$> path)) with (drop (Datatypes.S (length lft)) (map names path)).
      rewrite skipn_map. change (map names ?l) with (names <$> l).
      apply before_split in E. set (rgt := drop (Datatypes.S (length lft)) path) in *.
      assert (Hnd' := Hnd). rewrite E in Hnd'. apply NoDup_app in Hnd' as (_ & Hd & Hnd').
      apply NoDup_cons in Hnd' as [Hbr _].
      assert (Hl : lsim f S lft (names <$> lft)).
      { apply Hin; [|intros Hbl; apply (Hd b Hbl); left]. intros x Hx. rewrite E. apply elem_of_app. by left. }
      assert (Hrg : lsim f S rgt (names <$> rgt)).
      { apply Hin; [|done]. intros x Hx. rewrite E. apply elem_of_app. right. by right. }
      clearbody rgt. clear E.
      destruct lft as [|l1 lft], rgt as [|r1 rgt].
      - apply csim_ok. done.
      - by apply lift_right_same.
      - by apply lift_left_same.
      - by apply lift_both_same.
    Qed.
  End lift.
End search_same.

(** *** Contraction *)

Section built_same.
  Context (k : N -> N) (T : list N) (Hinj : forall u v, u ∈ T -> v ∈ T -> k u = k v -> u = v).

  (** Edges that correspond, each in either direction. *)
  Definition esim (e e' : N * N) : Prop := same_edge (k e.1, k e.2) e' /\ e.1 ∈ T /\ e.2 ∈ T.

  Record asim (a a' : agraph) : Prop := {
    as_nodes : lsim k T (a_nodes a) (a_nodes a');
    as_edges : Forall2 esim (a_edges a) (a_edges a')
  }.
  Definition dsim (d d' : DefaultGraph) : Prop := exists a a', Rep d a /\ Rep d' a' /\ asim a a'.

  Lemma asim_node a a' x : asim a a' -> x ∈ T -> k x ∈ a_nodes a' <-> x ∈ a_nodes a.
  Proof. intros Ha Hx. destruct (as_nodes _ _ Ha) as [-> Hs]. by apply (nm_elem k T Hinj). Qed.

  Lemma asim_edge a a' s t : asim a a' -> s ∈ T -> t ∈ T ->
    ((k s, k t) ∈ a_edges a' \/ (k t, k s) ∈ a_edges a') <-> ((s, t) ∈ a_edges a \/ (t, s) ∈ a_edges a).
  Proof.
    intros Ha Hs Ht. pose proof (as_edges _ _ Ha) as HE. clear Ha.
    induction HE as [|[u v] [u' v'] E E' [Huv [Hu Hv]] HE IH].
    { split; intros [H|H]; by apply elem_of_nil in H. }
    cbn [fst snd] in Hu, Hv. unfold same_edge in Huv. cbn [fst snd] in Huv.
    rewrite !elem_of_cons.
    assert (((k s, k t) = (u', v') \/ (k t, k s) = (u', v')) <-> ((s, t) = (u, v) \/ (t, s) = (u, v))); [|tauto].
    split.
    - intros [H|H]; injection H as <- <-; destruct Huv as [H|H]; injection H as H1 H2;
        apply Hinj in H1, H2; subst; auto.
    - intros [H|H]; injection H as -> ->; destruct Huv as [H|H]; injection H as <- <-; auto.
  Qed.

  Lemma result_local {A} (d : DefaultGraph) (r : comp A) e : r = Err e -> local (d, r) = Err e.
  Proof. by intros ->. Qed.

  Lemma add_node_dsim d d' x : dsim d d' -> x ∈ T ->
    csim dsim (local (dg_add_node d x)) (local (dg_add_node d' (k x))).
  Proof.
    intros (a & a' & HR & HR' & Ha) Hx.
    destruct (decide (x ∈ a_nodes a)) as [Hin|Hin].
    - destruct (rep_step d a (AddNode x) HR) as [H _]. cbn [run_op a_result] in H.
      rewrite bool_decide_eq_true_2 in H by done. destruct (dg_add_node d x) as [d1 r1]. cbn in H. by subst.
    - assert (H1 : a_result a (AddNode x) = Ok tt) by (cbn; by rewrite bool_decide_eq_false_2).
      assert (H2 : a_result a' (AddNode (k x)) = Ok tt).
      { cbn. rewrite bool_decide_eq_false_2; [done|]. by rewrite (asim_node a a'). }
      destruct (local_ok d (AddNode x) a HR H1) as (d1 & Hd1 & HR1).
      destruct (local_ok d' (AddNode (k x)) a' HR' H2) as (d1' & Hd1' & HR1').
      cbn [run_op] in Hd1, Hd1'. rewrite Hd1, Hd1'. apply csim_ok.
      unfold a_step in HR1, HR1'. rewrite H1 in HR1. rewrite H2 in HR1'.
      eexists _, _. split_and!; [exact HR1|exact HR1'|]. split; cbn [a_nodes a_edges]; [|apply Ha].
      apply lsim_app; [apply Ha|]. apply lsim_cons; [done|apply lsim_nil].
  Qed.

  Lemma add_edge_dsim d d' s t s' t' : dsim d d' -> esim (s, t) (s', t') ->
    csim dsim (local (dg_add_edge d s t)) (local (dg_add_edge d' s' t')).
  Proof.
    intros (a & a' & HR & HR' & Ha) Hst. pose proof Hst as (He & Hs & Ht). cbn [fst snd] in Hs, Ht.
    destruct (a_result a (AddEdge s t)) as [[]|e| |] eqn:H1.
    - assert (H2 : a_result a' (AddEdge s' t') = Ok tt).
      { cbn in H1. destruct (bool_decide_reflect (s ∉ a_nodes a)) as [|Hsn]; [done|].
        destruct (bool_decide_reflect (t ∉ a_nodes a)) as [|Htn]; [done|].
        case_bool_decide as Hno; [done|]. apply dec_stable in Hsn, Htn.
        apply (asim_node a a' s Ha Hs) in Hsn. apply (asim_node a a' t Ha Ht) in Htn.
        rewrite <-(asim_edge a a' s t Ha Hs Ht) in Hno.
        destruct He as [He|He]; injection He as <- <-; cbn;
          rewrite !bool_decide_eq_false_2; tauto. }
      destruct (local_ok d (AddEdge s t) a HR H1) as (d1 & Hd1 & HR1).
      destruct (local_ok d' (AddEdge s' t') a' HR' H2) as (d1' & Hd1' & HR1').
      cbn [run_op] in Hd1, Hd1'. rewrite Hd1, Hd1'. apply csim_ok.
      unfold a_step in HR1, HR1'. rewrite H1 in HR1. rewrite H2 in HR1'.
      eexists _, _. split_and!; [exact HR1|exact HR1'|]. split; cbn [a_nodes a_edges]; [apply Ha|].
      apply Forall2_app; [apply Ha|]. by constructor.
    - destruct (rep_step d a (AddEdge s t) HR) as [H _]. cbn [run_op] in H. rewrite H1 in H.
      destruct (dg_add_edge d s t) as [d1 r1]. cbn in H. by subst.
    - exfalso. revert H1. cbn. by repeat case_bool_decide.
    - exfalso. revert H1. cbn. by repeat case_bool_decide.
  Qed.

  Lemma has_edge_dsim d d' s t s' t' : dsim d d' -> esim (s, t) (s', t') ->
    csim eq (dg_has_edge d s t) (dg_has_edge d' s' t').
  Proof.
    intros (a & a' & HR & HR' & Ha) (He & Hs & Ht). cbn [fst snd] in Hs, Ht.
    destruct (rep_observes d a HR) as (_ & _ & _ & _ & _ & _ & _ & _ & Ho).
    destruct (rep_observes d' a' HR') as (_ & _ & _ & _ & _ & _ & _ & _ & Ho').
    cbn [as_graph g_has_edge] in Ho, Ho'. rewrite Ho, Ho'.
    destruct (bool_decide_reflect (s ∉ a_nodes a)) as [|Hsn]; [done|].
    destruct (bool_decide_reflect (t ∉ a_nodes a)) as [|Htn]; [done|]. apply dec_stable in Hsn, Htn.
    apply (asim_node a a' s Ha Hs) in Hsn. apply (asim_node a a' t Ha Ht) in Htn.
    pose proof (asim_edge a a' s t Ha Hs Ht) as HE.
    eexists. split; [|reflexivity].
    destruct He as [He|He]; injection He as <- <-;
      rewrite (bool_decide_eq_false_2 (k s ∉ _)), (bool_decide_eq_false_2 (k t ∉ _)) by tauto; f_equal;
      apply bool_decide_ext; tauto.
  Qed.

  Lemma dsim_renamed d d' : dsim d d' ->
    renamed k (as_graph d) (as_graph d') /\ edges_renamed k (as_graph d) (as_graph d') /\
    Lawful (as_graph d) /\ Lawful (as_graph d').
  Proof.
    intros (a & a' & HR & HR' & Ha).
    assert (Lawful (as_graph d) /\ Lawful (as_graph d')) as Hlaw by (split; apply wf_lawful; [apply HR|apply HR']).
    destruct (rep_observes d a HR) as (H1 & H2 & _ & _ & _ & _ & H3 & _).
    destruct (rep_observes d' a' HR') as (G1 & G2 & _ & _ & _ & _ & G3 & _).
    destruct (as_nodes _ _ Ha) as [Hn Hsub].
    split; [|split; [|done]].
    - split_and!.
      + intros u v Hu Hv. rewrite H1 in Hu, Hv. apply Hinj; auto.
      + by rewrite G1, H1.
      + intros v l Hl. rewrite H3 in Hl. case_bool_decide as Hv; [|done]. injection Hl as <-.
        assert (HvT : v ∈ T) by auto.
        rewrite G3, bool_decide_eq_true_2 by (by apply (asim_node a a')). f_equal.
        pose proof (as_edges _ _ Ha) as HE. unfold a_neighbors. clear H2 G2.
        induction HE as [|[x y] [x' y'] E E' (Hxy & Hx & Hy) HE IH]; [done|].
        cbn [mbind list_bind]. rewrite !fmap_app, IH. f_equal. cbn [fst snd] in *.
        assert (Hd : forall z, z ∈ T -> bool_decide (k z = k v) = bool_decide (z = v)).
        { intros z Hz. by apply bool_decide_ext, (nm_eq k T Hinj). }
        destruct Hxy as [Hxy|Hxy]; injection Hxy as <- <-; rewrite !Hd by done.
        * repeat case_bool_decide; done.
        * repeat case_bool_decide; subst; done.
    - unfold edges_renamed. rewrite H2, G2. pose proof (as_edges _ _ Ha) as HE.
      eapply Forall2_impl; [exact HE|]. intros e e' H. apply H.
  Qed.
End built_same.

Section contract_same.
  Context (f : N -> N) (g h : Graph) (Hg : Lawful g) (Hh : Lawful h) (Hr : renamed f g h).
  Context (He : edges_renamed f g h).
  Context (b b' : N) (B : list N) (HB : forall x, x ∈ B -> x ∈ g_nodes g).
  Context (Hb : b ∉ g_nodes g) (Hb' : b' ∉ g_nodes h).
  Notation S := (g_nodes g).
  Notation k := (names f b b').
  Notation T := (b :: S).
  Notation Hinj := (proj1 Hr).
  Notation Hk := (names_inj f g h Hr b b' Hb Hb').

  Lemma names_node x : x ∈ S -> k x = f x.
  Proof. intros Hx. unfold names. rewrite bool_decide_eq_false_2; [done|]. by intros ->. Qed.

  Lemma in_blossom x : x ∈ S -> bool_decide (f x ∈ f <$> B) = bool_decide (x ∈ B).
  Proof. intros Hx. by apply (nm_elem_b f S Hinj). Qed.

  Lemma contract_nodes_same ids : (forall x, x ∈ ids -> x ∈ S) -> forall d d', dsim k T d d' ->
    csim (dsim k T) (b_contract_nodes (mkBlossom b B) ids d)
      (b_contract_nodes (mkBlossom b' (f <$> B)) (f <$> ids) d').
  Proof.
    induction ids as [|x ids IH]; intros Hi d d' Hd; [by apply csim_ok|].
    assert (Hx : x ∈ S) by (apply Hi; left).
    cbn [b_contract_nodes fmap list_fmap b_path].
    eapply csim_bind with (R := dsim k T).
    - change ((fix map l := match l with [] => [] | a :: t => f a :: map t end) B) with (f <$> B).
      rewrite in_blossom by done. case_bool_decide; [by apply csim_ok|].
      rewrite <-(names_node x Hx). apply (add_node_dsim k T Hk); [done|by right].
    - intros d1 d1' Hd1. apply IH; [|done]. intros y Hy. apply Hi. by right.
  Qed.

  Lemma contract_edge_same d d' s t s' t' : dsim k T d d' -> s ∈ S -> t ∈ S ->
    same_edge (f s, f t) (s', t') ->
    csim (dsim k T) (b_contract_edge (mkBlossom b B) s t d) (b_contract_edge (mkBlossom b' (f <$> B)) s' t' d').
  Proof.
    intros Hd Hs Ht Hst. unfold b_contract_edge. cbn [b_path b_id].
    assert (HsT : s ∈ T) by (by right). assert (HtT : t ∈ T) by (by right).
    assert (HbT : b ∈ T) by left.
    assert (E : forall x y x' y', x ∈ T -> y ∈ T -> (x', y') = (k x, k y) \/ (x', y') = (k y, k x) ->
      esim k T (x, y) (x', y')).
    { intros x y x' y' Hx Hy Hxy. split; [|done]. unfold same_edge. cbn [fst snd].
      destruct Hxy as [H|H]; injection H as -> ->; auto. }
    assert (Hif : forall x y x' y', esim k T (x, y) (x', y') ->
      csim (dsim k T) (let! has := dg_has_edge d x y in if has : bool then Ok d else local (dg_add_edge d x y))
        (let! has := dg_has_edge d' x' y' in if has : bool then Ok d' else local (dg_add_edge d' x' y'))).
    { intros x y x' y' Hxy. eapply csim_bind; [by apply (has_edge_dsim k T Hk)|]. intros r r' <-.
      destruct r; [by apply csim_ok|by apply (add_edge_dsim k T Hk)]. }
    assert (Es := names_node s Hs). assert (Et := names_node t Ht). assert (Eb := names_b f b b').
    destruct Hst as [H|H]; injection H as <- <-; rewrite !in_blossom by done;
      destruct (bool_decide (s ∈ B)), (bool_decide (t ∈ B)); try (by apply csim_ok).
    all: try apply Hif; try apply (add_edge_dsim k T Hk); try done; apply E; try done;
      rewrite ?Es, ?Et, ?Eb; auto.
  Qed.

  Lemma contract_edges_same es es' : Forall2 (fun e e' => same_edge (f e.1, f e.2) e') es es' ->
    (forall e, e ∈ es -> e.1 ∈ S /\ e.2 ∈ S) -> forall d d', dsim k T d d' ->
    csim (dsim k T) (b_contract_edges (mkBlossom b B) es d) (b_contract_edges (mkBlossom b' (f <$> B)) es' d').
  Proof.
    intros HE. induction HE as [|[s t] [s' t'] es es' Hst HE IH]; intros Hin d d' Hd; [by apply csim_ok|].
    destruct (Hin (s, t)) as [Hs Ht]; [left|]. cbn [b_contract_edges].
    eapply csim_bind; [by apply contract_edge_same|]. intros d1 d1' Hd1. apply IH; [|done].
    intros e Hein. apply Hin. by right.
  Qed.

  Lemma contract_graph_same :
    csim (dsim k T) (b_contract_graph (mkBlossom b B) g) (b_contract_graph (mkBlossom b' (f <$> B)) h).
  Proof.
    unfold b_contract_graph. cbn [b_id].
    assert (H0 : dsim k T dg_new dg_new).
    { exists (mkA [] []), (mkA [] []). split_and!; [apply rep_new|apply rep_new|].
      split; [apply lsim_nil|constructor]. }
    eapply csim_bind with (R := dsim k T).
    - rewrite <-(names_b f b b') at 2. apply (add_node_dsim k T Hk); [done|left].
    - intros d d' Hd. eapply csim_bind with (R := dsim k T).
      + rewrite (proj1 (proj2 Hr)). by apply contract_nodes_same.
      + intros d1 d1' Hd1. apply contract_edges_same; [done| |done].
        intros [s t] Hst. apply (adj_nodes g Hg). by apply (law_edges_adj g Hg).
  Qed.

  (** The contracted pairings correspond. *)
  Lemma contract_pairing_same p q c l2 L L' : pairing_of g p -> pairing_renamed f p q ->
    Bloss g p B c l2 -> L ≡ₚ map_to_list p -> L' ≡ₚ map_to_list q ->
    pairing_renamed k (b_contract_pairing (mkBlossom b B) (p_edges_of L))
      (b_contract_pairing (mkBlossom b' (f <$> B)) (p_edges_of L')).
  Proof.
    intros Hp Hq HBl HL HL'.
    pose proof (rp_pairing f g h Hg Hr p q Hp Hq) as Hpq.
    assert (Hnode : forall u v, p !! u = Some v -> u ∈ S /\ v ∈ S) by exact (rp_node g Hg p Hp).
    assert (HinB : forall u, u ∈ S -> f u ∈ f <$> B <-> u ∈ B) by (intros u Hu; by apply (nm_elem f S Hinj)).
    intros x y.
    rewrite (any_lookup q (proj1 Hpq) (f <$> B) (f c) b'); [| | |done].
    2:{ intros u v Hu (u0 & v0 & Huv & -> & ->)%Hq. destruct (Hnode _ _ Huv) as [Hu0 Hv0].
        apply HinB in Hu; [|done].
        destruct (mate_in g p B c l2 HBl u0 v0 Hu Huv) as [->|Hv]; [by left|right]. by apply HinB. }
    2:{ intros v Hv. apply Hq in Hv as (u0 & v0 & Huv & -> & ->). destruct Hb'.
        rewrite (proj1 (proj2 Hr)). apply elem_of_list_fmap. exists u0. split; [done|]. by apply (Hnode u0 v0). }
    assert (Hlk : forall x y, b_contract_pairing (mkBlossom b B) (p_edges_of L) !! x = Some y <->
      exists s t, p !! s = Some t /\ outside B (s, t) /\ x = squash B b s /\ y = squash B b t).
    { intros u v. apply (any_lookup p (proj1 Hp) B c b); try done.
      - intros a a' Ha. by apply (mate_in g p B c l2 HBl).
      - intros a Ha. destruct Hb. by apply (Hnode b a). }
    assert (Hsq : forall u, u ∈ S -> squash (f <$> B) b' (f u) = k (squash B b u)).
    { intros u Hu. unfold squash. rewrite in_blossom by done. case_bool_decide.
      - by rewrite names_b.
      - by rewrite names_node. }
    assert (Hout : forall s t, s ∈ S -> t ∈ S -> outside (f <$> B) (f s, f t) <-> outside B (s, t)).
    { intros s t Hs Ht. unfold outside. cbn [fst snd]. by rewrite !HinB. }
    split.
    - intros (s & t & (u & v & Huv & -> & ->)%Hq & Ho & -> & ->). destruct (Hnode _ _ Huv) as [Hu Hv].
      exists (squash B b u), (squash B b v). split_and!; [|by apply Hsq..].
      apply Hlk. exists u, v. split_and!; try done. by apply Hout.
    - intros (u & v & (s & t & Hst & Ho & -> & ->)%Hlk & -> & ->). destruct (Hnode _ _ Hst) as [Hs Ht].
      exists (f s), (f t). split_and!; [apply Hq; eauto|by apply Hout|by rewrite Hsq..].
  Qed.
End contract_same.

(** *** The search *)

Lemma csim_bind_eq {A B C D} (R : A -> B -> Prop) (Q : C -> D -> Prop) m m' k k' :
  csim R m m' -> (forall x x', m = Ok x -> R x x' -> csim Q (k x) (k' x')) ->
  csim Q (let! x := m in k x) (let! x := m' in k' x).
Proof.
  intros Hm Hk. destruct m as [x| | |]; simpl in *; try done.
  - destruct Hm as (x' & -> & HR). by apply Hk.
  - by rewrite Hm.
Qed.

Definition room (n : nat) (h : Graph) : Prop :=
  forall x, x ∈ g_nodes h -> (x + N.of_nat n <= usize_max)%N.

Lemma ap_simple g p iter tag fuel path : Lawful g -> pairing_of g p -> hash_order_ok iter ->
  augmenting_path iter tag fuel g p = Ok (Some path) -> simple g path.
Proof.
  intros Hg Hp Hi E. destruct (ap_spec g p Hg Hp) as (n & res & Hpost & Hset).
  destruct (Hset iter tag Hi) as [_ H2]. destruct (H2 fuel) as [E'|E']; [congruence|].
  rewrite E in E'. subst res. apply Hpost.
Qed.

Theorem ap_same fuel : forall f g h p q iter iter' tag tag', Lawful g -> Lawful h ->
  renamed f g h -> edges_renamed f g h -> pairing_of g p -> pairing_renamed f p q ->
  room (measure g) h -> hash_order_ok iter -> hash_order_ok iter' ->
  csim (osim (lsim f (g_nodes g))) (augmenting_path iter tag fuel g p)
    (augmenting_path iter' tag' fuel h q).
Proof.
  induction fuel as [|fuel IH];
    intros f g h p q iter iter' tag tag' Hg Hh Hr He Hp Hq Hroom Hi Hi'; [done|].
  pose proof (rp_pairing f g h Hg Hr p q Hp Hq) as Hpq.
  destruct (search_start g p Hg Hp) as (F & n & r & HF & [_ Hs2] & Hres).
  assert (HaR := add_roots_same f g h Hg Hr p q Hp Hq (g_nodes g) (fun _ H => H) f_new f_new
    (new_same f (g_nodes g))).
  rewrite HF in HaR. destruct HaR as (F0 & HF' & HFs).
  rewrite (ap_unfold g p Hp iter tag fuel F) by done.
  rewrite (ap_unfold h q Hpq iter' tag' fuel F0); [|done|by rewrite (proj1 (proj2 Hr))].
  eapply csim_bind_eq.
  { apply (search_v_same f g h Hg Hr p q Hp Hq); [done|]. by apply (marker0_same f g h). }
  intros r1 r1' Er Hs.
  assert (r1 = r) as -> by (destruct (Hs2 (S fuel)); congruence). clear Hs2 Er.
  destruct r as [F1 m1|v pw F1], r1' as [F1' m1'|v' pw' F1']; try done.
  { by apply csim_ok. }
  cbn [ssim] in Hs. destruct Hs as ([-> Hv] & Hpw & HF1).
  pose proof Hres as (HFI & Hve & w & Hwe & Hvw & Hfw).
  destruct (even_in_path g p F1 Hg HFI v Hve) as (pv & Hpv & _ & _).
  pose proof (f_path_some g p F1 HFI v pv Hpv) as Hfp.
  unfold continue. eapply csim_bind_eq; [by apply (path_same f (g_nodes g))|].
  intros o o' Eo Ho. rewrite Hfp in Eo. injection Eo as <-. destruct o' as [pv'|]; [|done].
  cbn [osim] in Ho. cbn [expect_some cbind].
  assert (Hlast : bool_decide (last pv' = last pw') = bool_decide (last pv = last pw)).
  { destruct (lsim_last _ _ _ _ Ho) as [-> H1]. destruct (lsim_last _ _ _ _ Hpw) as [-> H2].
    apply bool_decide_ext. destruct (last pv) as [a|], (last pw) as [c|]; cbn; try done.
    split; [|congruence]. intros E. injection E as E. f_equal. apply (proj1 Hr); auto. }
  rewrite Hlast. clear Hlast. case_bool_decide as Hl.
  2:{ apply csim_ok. cbn [osim]. apply lsim_app; [by apply lsim_reverse|done]. }
  destruct (found_blossom g p Hg Hp F1 v w pv pw HFI Hve Hwe Hvw Hpv Hfw Hl) as (B & c & l2 & Hbp & HB).
  assert (HBs : forall x, x ∈ B -> x ∈ g_nodes g) by apply HB.
  pose proof (nodes_max_spec (g_nodes g)) as Hmax.
  destruct (nodes_max (g_nodes g)) as [m|] eqn:Em; [|done].
  destruct Hmax as [Hm Hle].
  assert (Hn : g_nodes h = f <$> g_nodes g) by apply Hr.
  assert (Hfm : f m ∈ g_nodes h) by (rewrite Hn; apply elem_of_list_fmap; eauto).
  pose proof (nodes_max_spec (g_nodes h)) as Hmax'.
  destruct (nodes_max (g_nodes h)) as [m'|] eqn:Em'.
  2:{ rewrite Hmax' in Hfm. by apply elem_of_nil in Hfm. }
  destruct Hmax' as [Hm' Hle']. cbn [expect_some cbind].
  assert (Hlen : 0 < length (g_nodes g)).
  { destruct (g_nodes g); [by apply elem_of_nil in Hm|simpl; lia]. }
  unfold checked_succ. destruct (N.ltb_spec m usize_max) as [Elt|Elt]; [|done].
  rewrite (proj2 (N.ltb_lt m' usize_max)).
  2:{ specialize (Hroom m' Hm'). unfold measure in Hroom. lia. }
  cbn [cbind]. set (b := (m + 1)%N). set (b' := (m' + 1)%N).
  assert (Hb : b ∉ g_nodes g) by (intros H; specialize (Hle b H); unfold b in Hle; lia).
  assert (Hb' : b' ∉ g_nodes h) by (intros H; specialize (Hle' b' H); unfold b' in Hle'; lia).
  unfold b_new. destruct Ho as [-> Hpvs]. destruct Hpw as [-> Hpws].
  rewrite (blossom_path_same f (g_nodes g) (proj1 Hr)) by done. rewrite Hbp. cbn [option_map cbind].
  change (map f B) with (f <$> B).
  eapply csim_bind_eq; [apply csim_unwrap, (contract_graph_same f g h Hg Hr He b b' B HBs Hb Hb')|].
  intros d d' Ed Hd.
  assert (HbB : b ∈ g_nodes g -> b ∈ B) by done.
  destruct (contract_graph_spec g Hg B b HbB) as (d0 & Hd0 & Hwf & Hgn & Ha).
  rewrite Hd0 in Ed. injection Ed as ->.
  destruct (dsim_renamed (names f b b') (b :: g_nodes g) (names_inj f g h Hr b b' Hb Hb') d d' Hd)
    as (Hr' & He' & Hg' & Hh').
  unfold p_edges.
  set (p' := b_contract_pairing (mkBlossom b B) (p_edges_of (iter (1 :: tag) p))).
  set (q' := b_contract_pairing (mkBlossom b' (f <$> B)) (p_edges_of (iter' (1 :: tag') q))).
  assert (Hp' : pairing_of (as_graph d) p').
  { apply (p'_pairing g p Hg Hp B c l2 HB b HbB (as_graph d) Ha). apply Hi. }
  assert (Hq' : pairing_renamed (names f b b') p' q').
  { apply (contract_pairing_same f g h Hg Hr b b' B HBs Hb Hb' p q c l2); done. }
  pose proof (measure_shrinks g p B c l2 b (as_graph d) Hg Hg' HB HbB Hgn Ha) as Hmeas.
  assert (Hroom' : room (measure (as_graph d)) (as_graph d')).
  { intros x Hx. rewrite (proj1 (proj2 Hr')), Hgn in Hx. specialize (Hroom m' Hm') as Hrm.
    assert (x <= m' + 1)%N; [|lia].
    cbn [fmap list_fmap] in Hx. apply elem_of_cons in Hx as [->|Hx]; [rewrite names_b; unfold b'; lia|].
    apply elem_of_list_fmap in Hx as (y & -> & [_ Hy]%elem_of_list_filter).
    rewrite (names_node f g b b' Hb) by done.
    assert (f y ∈ g_nodes h) as Hfy by (rewrite Hn; apply elem_of_list_fmap; eauto).
    specialize (Hle' _ Hfy). lia. }
  eapply csim_bind_eq; [by apply (IH (names f b b'))|].
  intros o o' Eo Ho. destruct o as [path|], o' as [path'|]; try done; [|by apply csim_ok].
  cbn [osim] in Ho. destruct Ho as [-> Hsub].
  destruct (ap_simple _ _ _ _ _ _ Hg' Hp' Hi Eo) as (Hnd & _ & _).
  eapply csim_bind.
  { apply (lift_same f g h Hg Hh Hr b b' B HBs (S fuel) Hb Hb' path Hnd).
    intros x Hx. apply Hsub in Hx. rewrite Hgn in Hx. apply elem_of_cons in Hx as [->|Hx]; [left|right].
    by apply elem_of_list_filter in Hx as [_ Hx]. }
  intros l l' Hl'. by apply csim_ok.
Qed.

(** *** Augmenting *)

Section augment_same.
  Context (f : N -> N) (S : list N) (Hinj : forall u v, u ∈ S -> v ∈ S -> f u = f v -> u = v).

  Definition psim (p q : Pairing) : Prop := pairing_renamed f p q /\
    forall u v, p !! u = Some v -> u ∈ S /\ v ∈ S.

  Lemma psim_lookup p q u : psim p q -> u ∈ S -> q !! f u = f <$> p !! u.
  Proof.
    intros [Hq Hs] Hu. destruct (p !! u) as [v|] eqn:E; cbn.
    - apply Hq. eauto.
    - destruct (q !! f u) as [y|] eqn:E'; [|done]. apply Hq in E' as (u' & v' & Hp' & Hu' & _).
      apply Hinj in Hu'; [by subst; congruence|done|]. by apply (Hs u' v').
  Qed.

  Lemma psim_put p q s t : psim p q -> s ∈ S -> t ∈ S -> psim (<[s := t]> p) (<[f s := f t]> q).
  Proof.
    intros [Hq Hsub] Hs Ht. split.
    - intros x y. rewrite lookup_insert_Some. split.
      + intros [[<- <-]|[Hne Hxy]].
        * exists s, t. by rewrite lookup_insert.
        * apply Hq in Hxy as (u & v & Huv & -> & ->). exists u, v.
          rewrite lookup_insert_ne by congruence. done.
      + intros (u & v & Huv & -> & ->). apply lookup_insert_Some in Huv as [[-> ->]|[Hne Huv]]; [by left|].
        right. split; [|apply Hq; eauto]. intros E. apply Hinj in E; [done|done|]. by apply (Hsub u v).
    - intros u v [[-> ->]|[_ Huv]]%lookup_insert_Some; [done|by apply Hsub].
  Qed.

  Lemma psim_delete p q s : psim p q -> s ∈ S -> psim (delete s p) (delete (f s) q).
  Proof.
    intros [Hq Hsub] Hs. split.
    - intros x y. rewrite lookup_delete_Some. split.
      + intros [Hne (u & v & Huv & -> & ->)%Hq]. exists u, v. rewrite lookup_delete_ne by congruence. done.
      + intros (u & v & [Hne Huv]%lookup_delete_Some & -> & ->). split; [|apply Hq; eauto].
        intros E. apply Hinj in E; [done|done|]. by apply (Hsub u v).
    - intros u v [_ Huv]%lookup_delete_Some. by apply Hsub.
  Qed.

  Lemma psim_insert p q s t : psim p q -> s ∈ S -> t ∈ S -> psim (p_insert p s t) (p_insert q (f s) (f t)).
  Proof.
    intros Hpq Hs Ht. unfold p_insert. rewrite (psim_lookup p q s Hpq Hs).
    destruct (p !! s) as [cur|] eqn:E; cbn; [|by apply psim_put].
    apply (proj2 Hpq) in E as [_ Hcur].
    rewrite (bool_decide_ext (f cur = f t) (cur = t)) by (by apply (nm_eq f S Hinj)).
    case_bool_decide; [done|]. apply psim_delete; [|done]. by apply psim_put.
  Qed.

  Lemma psim_pair_up path : forall p q, psim p q -> (forall x, x ∈ path -> x ∈ S) ->
    psim (p_pair_up p path) (p_pair_up q (f <$> path)).
  Proof.
    induction path as [path IH] using (induction_ltof1 _ (@length N)). unfold ltof in IH.
    intros p q Hpq Hin. destruct path as [|a [|c path]]; try done. cbn [p_pair_up fmap list_fmap].
    assert (a ∈ S /\ c ∈ S) as [Ha Hc] by (split; apply Hin; [left|right; left]).
    apply IH.
    - simpl. lia.
    - unfold p_pair. by repeat apply psim_insert.
    - intros x Hx. apply Hin. by right; right.
  Qed.

  Lemma augment_same p q path : psim p q -> (forall x, x ∈ path -> x ∈ S) ->
    match p_augment p path with
    | Ok p' => exists q', p_augment q (f <$> path) = Ok q' /\ psim p' q'
    | m => p_augment q (f <$> path) = m
    end.
  Proof.
    intros Hpq Hin. unfold p_augment. rewrite fmap_length. destruct (Nat.odd (length path)); [done|].
    eexists. split; [done|]. by apply psim_pair_up.
  Qed.
End augment_same.

Definition msame (f : N -> N) (m m' : comp Pairing) : Prop :=
  match m with
  | Ok p => exists q, m' = Ok q /\ pairing_renamed f p q
  | m => m' = m
  end.

Theorem mm_same f g h fuel : Lawful g -> Lawful h -> renamed f g h -> edges_renamed f g h ->
  id_room g -> id_room h ->
  forall p q iter iter' tag tag', pairing_of g p -> pairing_renamed f p q ->
  hash_order_ok iter -> hash_order_ok iter' ->
  msame f (maximum_matching iter tag fuel g p) (maximum_matching iter' tag' fuel h q).
Proof.
  intros Hg Hh Hr He Hrg Hrh.
  assert (Hroom : room (measure g) h).
  { assert (measure g = measure h) as ->; [|exact Hrh].
    unfold measure. rewrite (proj1 (proj2 Hr)), fmap_length. f_equal.
    unfold looped. rewrite (proj1 (proj2 Hr)).
    assert (Hs : forall l, (forall x, x ∈ l -> x ∈ g_nodes g) ->
      length (filter (fun v => g_has_edge g v v = Ok true) l) =
      length (filter (fun v => g_has_edge h v v = Ok true) (f <$> l))); [|by apply Hs].
    induction l as [|x l IH]; intros Hl; [done|]. cbn [fmap list_fmap]. rewrite !filter_cons.
    rewrite (rn_has_edge f g h Hg Hh Hr x x) by (apply Hl; left).
    assert (Hl' := IH (fun y Hy => Hl y (elem_of_list_further _ _ _ Hy))).
    case_decide; cbn [length]; by rewrite Hl'. }
  induction fuel as [|fuel IH]; intros p q iter iter' tag tag' Hp Hq Hi Hi'; [done|].
  cbn [maximum_matching].
  pose proof (ap_same (S fuel) f g h p q iter iter' (0 :: tag) (0 :: tag') Hg Hh Hr He Hp Hq Hroom Hi Hi') as Hs.
  destruct (ap_spec g p Hg Hp) as (n & res & Hpost & Hset).
  destruct (Hset iter (0 :: tag) Hi) as [_ H2].
  destruct (H2 (S fuel)) as [E|E]; rewrite E in Hs |- *.
  { cbn [csim] in Hs. rewrite Hs. done. }
  destruct res as [[path|]| |e|]; try done; cbn [csim cbind] in *.
  3:{ destruct e; try done. by destruct (proj1 Hpost). }
  2:{ destruct Hs as ([l'|] & -> & Ho); [done|]. cbn [cbind]. by exists q. }
  destruct Hs as ([path'|] & -> & Ho); [|done]. cbn [osim] in Ho. destruct Ho as [-> Hsub]. cbn [cbind].
  destruct Hpost as (Hsimple & _ & _ & _ & _).
  assert (Hps : psim f (g_nodes g) p q) by (split; [done|exact (rp_node g Hg p Hp)]).
  pose proof (augment_same f (g_nodes g) (proj1 Hr) p q path Hps Hsub) as Ha.
  destruct (p_augment p path) as [p1| |e|] eqn:Eq; cbn [cbind msame]; try (by rewrite Ha).
  destruct Ha as (q1 & -> & Hpq1). cbn [cbind].
  assert (Hp1 : pairing_of g p1) by (by eapply simple_augment).
  pose proof (IH p1 q1 iter iter' (1 :: tag) (1 :: tag') Hp1 (proj1 Hpq1) Hi Hi') as H1.
  pose proof (mm_post g fuel iter (1 :: tag) p1 Hg Hi Hp1) as Hq1.
  destruct (maximum_matching iter (1 :: tag) fuel g p1) as [p2| |e|]; cbn [cbind msame] in *; try (by rewrite H1).
  destruct H1 as (q2 & -> & Hpq2). cbn [cbind]. apply IH; try done. apply Hq1.
Qed.

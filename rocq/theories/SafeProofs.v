(** The panics maximum_matching can raise, whatever the pairing it is given. *)
From Verif Require Import Outcome GraphModel TraversalModel ComponentsModel PairingModel Spec
  GraphProofs Checks EditProofs ConvertProofs EqProofs TraversalProofs PathLemmas PairingProofs MatchTheory
  MaximumModel ForestProofs BlossomProofs ContractProofs LiftProofs TameProofs MaximumProofs ReleaseModel ReleaseProofs SelfPairProofs.

(** [m] does not end in an error or in a panic outside [E], and its result, if
    any, satisfies [Q]. *)
Definition safeE {A} (E : panic -> Prop) (Q : A -> Prop) (m : comp A) : Prop :=
  match m with Ok a => Q a | NoFuel => True | Err _ => False | Panic e => E e end.

Lemma safeE_bind {A B} E (Q : A -> Prop) (R : B -> Prop) m (k : A -> comp B) :
  safeE E Q m -> (forall a, m = Ok a -> Q a -> safeE E R (k a)) -> safeE E R (cbind m k).
Proof. destruct m as [a| | |]; cbn; intros H Hk; try done. by apply Hk. Qed.

(** The panics of the search and of lifting a path. *)
Definition basic (e : panic) : Prop :=
  (exists x, e = PForestDuplicate x) \/ (exists x, e = PUnwrap (MissingNode x)).
Definition benign (e : panic) : Prop := basic e \/ e = PEvenPath \/ e = POverflow.
Definition benign_release (e : panic) : Prop := basic e \/ e = PEvenPath \/ e = PUnwrap (DuplicateNode 0%N).

Definition safe {A} (Q : A -> Prop) (m : comp A) : Prop := safeE basic Q m.

Lemma safe_bind {A B} (Q : A -> Prop) (R : B -> Prop) m (k : A -> comp B) :
  safe Q m -> (forall a, m = Ok a -> Q a -> safe R (k a)) -> safe R (cbind m k).
Proof. apply safeE_bind. Qed.

(** A step of the search inside a program that can raise more panics. *)
Lemma safe_then {A B} (E : panic -> Prop) (Q : A -> Prop) (R : B -> Prop) m (k : A -> comp B) :
  (forall e, basic e -> E e) ->
  safe Q m -> (forall a, m = Ok a -> Q a -> safeE E R (k a)) -> safeE E R (cbind m k).
Proof. intros HE. destruct m as [a| | |]; cbn; intros H Hk; try done; [by apply Hk|by apply HE]. Qed.

Section safe.
  Context (g : Graph) (Hg : Lawful g).

  Definition inF (f : Forest) (x : N) : Prop := is_Some (f_parents f !! x).

  Record SInv (p : Pairing) (f : Forest) : Prop := {
    si_dom : forall x, x ∈ f_nodes f -> inF f x;
    si_par : forall x y par, f_parents f !! x = Some (mkEntry (Some y) par) -> inF f y;
    si_root : forall x, x ∈ g_nodes g -> p !! x = None -> inF f x
  }.

  Lemma climb_safe p f fuel : SInv p f -> forall o, (forall y, o = Some y -> inF f y) ->
    safe (fun _ => True) (f_climb fuel f o).
  Proof.
    intros HF. induction fuel as [|fuel IH]; intros [y|] Ho; try done. cbn [f_climb].
    destruct (Ho y eq_refl) as [[o par] He]. rewrite He. cbn [e_parent].
    eapply safe_bind; [apply IH|done]. intros z ->. by eapply (si_par p f HF).
  Qed.

  Lemma path_safe p f x : SInv p f ->
    safe (fun o => match o with Some l => l <> [] /\ inF f x | None => f_parents f !! x = None end) (f_path f x).
  Proof.
    intros HF. unfold f_path. destruct (f_parents f !! x) as [[o par]|] eqn:E; [|done].
    eapply safe_bind; [eapply climb_safe; [done|]|].
    - cbn [e_parent]. intros y ->. by eapply (si_par p f HF).
    - intros l _ _. cbn. split; [done|by eexists].
  Qed.

  Lemma add_edge_safe p f v w : SInv p f -> inF f v ->
    safe (fun f' => SInv p f' /\ inF f' w /\ forall x, inF f x -> inF f' x) (f_add_edge f v w).
  Proof.
    intros HF [e He]. unfold f_add_edge. rewrite He. destruct (f_parents f !! w) as [e'|] eqn:Ew.
    { left. by exists w. }
    cbn [safe]. assert (Hmono : forall x, inF f x -> is_Some (<[w := mkEntry (Some v) (parity_invert (e_parity e))]> (f_parents f) !! x)).
    { intros x Hx. destruct (decide (x = w)) as [->|]; [rewrite lookup_insert; by eexists|by rewrite lookup_insert_ne]. }
    split; [split|split].
    - cbn [f_nodes]. intros x [Hx| ->%elem_of_list_singleton]%elem_of_app; unfold inF; cbn [f_parents].
      + apply Hmono. by apply (si_dom p f HF).
      + rewrite lookup_insert. by eexists.
    - cbn [f_parents]. intros x y par. destruct (decide (x = w)) as [->|Hx].
      + rewrite lookup_insert. intros [= <- _]. apply Hmono. by exists e.
      + rewrite lookup_insert_ne by done. intros Hy. apply Hmono. by eapply (si_par p f HF).
    - intros x Hx Hpx. apply Hmono. by apply (si_root p f HF).
    - unfold inF. cbn [f_parents]. rewrite lookup_insert. by eexists.
    - exact Hmono.
  Qed.

  Lemma mark_edge_safe m v w : mk_has_edge m v w = false ->
    exists m', mk_mark_edge m v w = Ok m' /\ mk_nodes m' = mk_nodes m.
  Proof.
    intros H. destruct (mark_edge_ok m v w) as (m' & ? & ? & _); [unfold hedge; congruence|]. eauto.
  Qed.

  Lemma some_w_safe v m : safe (fun o => match o with Some w => w ∈ g_nodes g /\ mk_has_edge m v w = false | None => True end)
    (some_w v g m).
  Proof.
    unfold some_w. destruct (decide (v ∈ g_nodes g)) as [Hv|Hv].
    - destruct (law_neighbors g Hg v Hv) as (l & Hl & _). rewrite Hl. cbn [unwrap cbind safe].
      destruct (head _) as [w|] eqn:Eh; [|done].
      assert (Hw : w ∈ filter (fun id => mk_has_edge m v id = false) l).
      { destruct (filter _ l); [done|]. injection Eh as <-. left. }
      apply elem_of_list_filter in Hw as [Hm Hw]. split; [|done]. apply (law_adj_node g Hg v). by exists l.
    - rewrite (law_neighbors_err g Hg v Hv). cbn. right. by exists v.
  Qed.

  Definition sound_end (p : Pairing) (v : N) (m : Marker) (r : search) : Prop :=
    match r with
    | Exhausted f' m' => SInv p f' /\ mk_nodes m' = mk_nodes m
    | EvenPath v' pw f' => SInv p f' /\ inF f' v' /\ pw <> [] /\ g_nodes g <> []
    end.

  Lemma search_w_safe p v fuel : forall f m, SInv p f -> inF f v ->
    safe (sound_end p v m) (search_w fuel v g p f m).
  Proof.
    induction fuel as [|fuel IH]; intros f m HF Hv; [done|]. cbn [search_w].
    eapply safe_bind; [apply some_w_safe|]. intros [w|] _ Hw; [|done]. destruct Hw as [Hw Hm].
    destruct (mark_edge_safe m v w Hm) as (m' & Hm' & Hmn).
    eapply safe_bind; [by apply (path_safe p f w)|]. intros [pw|] _ Hpw.
    - destruct Hpw as [Hne _]. destruct (Nat.odd (length pw)).
      + cbn. split_and!; [done|done|done|]. intros E. rewrite E in Hw. by apply elem_of_nil in Hw.
      + rewrite Hm'. cbn [cbind]. specialize (IH f m' HF Hv).
        destruct (search_w fuel v g p f m') as [[]| | |]; cbn in *; try done. by rewrite <-Hmn.
    - eapply safe_bind; [by apply (add_edge_safe p f v w)|]. intros f1 _ (HF1 & Hw1 & Hmono1).
      unfold p_mate. destruct (p !! w) as [x|] eqn:Ex.
      2:{ exfalso. destruct (si_root p f HF w Hw Ex) as [? ?]. congruence. }
      cbn [cbind]. eapply safe_bind; [by apply (add_edge_safe p f1 w x)|]. intros f2 _ (HF2 & _ & Hmono2).
      rewrite Hm'. cbn [cbind]. specialize (IH f2 m' HF2 (Hmono2 v (Hmono1 v Hv))).
      destruct (search_w fuel v g p f2 m') as [[]| | |]; cbn in *; try done. by rewrite <-Hmn.
  Qed.

  Lemma find_v_safe P m ids : (forall x, x ∈ ids -> is_Some (P !! x)) ->
    safe (fun o => match o with Some v => is_Some (P !! v) /\ v ∉ mk_nodes m | None => True end) (find_v P m ids).
  Proof.
    induction ids as [|x ids IH]; intros Hin; [done|]. cbn [find_v].
    destruct (Hin x) as [[o []] He]; [left|..]; rewrite He.
    - unfold mk_has_node. case_bool_decide as Hm; [apply IH; intros; apply Hin; by right|].
      cbn. split; [by eexists|done].
    - apply IH. intros. apply Hin. by right.
  Qed.

  Lemma search_v_safe p fuel : forall f m, SInv p f ->
    safe (fun r => match r with EvenPath v pw f' => inF f' v /\ SInv p f' /\ pw <> [] /\ g_nodes g <> [] | _ => True end)
      (search_v fuel g p f m).
  Proof.
    induction fuel as [|fuel IH]; intros f m HF; [done|]. cbn [search_v].
    eapply safe_bind; [apply find_v_safe; apply (si_dom p f HF)|]. intros [v|] _ Hv; [|done]. destruct Hv as [Hv Hvm].
    eapply safe_bind; [by apply (search_w_safe p v (S fuel))|]. intros [f' m'|v' pw f'] _ Hr.
    - destruct Hr as [HF' Hmn]. unfold mk_mark_node. rewrite bool_decide_eq_false_2 by (by rewrite Hmn).
      cbn [cbind]. by apply IH.
    - cbn in *. tauto.
  Qed.

  (** *** Lifting *)

  Lemma has_edge_safe u v : safe (fun _ => True) (unwrap (g_has_edge g u v)).
  Proof.
    destruct (decide (u ∈ g_nodes g)) as [Hu|Hu].
    - destruct (decide (v ∈ g_nodes g)) as [Hv|Hv].
      + destruct (law_has_edge g Hg u v Hu Hv) as (b & -> & _). done.
      + rewrite (law_has_edge_err_r g Hg u v Hu Hv). right. by exists v.
    - rewrite (law_has_edge_err_l g Hg u v Hu). right. by exists u.
  Qed.

  Lemma rotate_safe test fuel : (forall l, l <> [] -> safe (fun _ => True) (test l)) ->
    forall l, l <> [] -> safe (fun l' => l' <> []) (rotate_until fuel test l).
  Proof.
    intros Ht. induction fuel as [|fuel IH]; intros l Hl; [done|]. cbn [rotate_until].
    eapply safe_bind; [by apply Ht|]. intros [] _ _; [done|]. apply IH.
    unfold rotate_right. destruct (last l) eqn:E; [done|]. by apply last_None in E.
  Qed.

  Lemma take_safe tid l : safe (fun _ => True) (take_to_edge g tid l).
  Proof.
    induction l as [|x l IH]; [done|]. cbn [take_to_edge]. eapply safe_bind; [apply has_edge_safe|].
    intros [] _ _; [done|]. eapply safe_bind; [apply IH|done].
  Qed.

  Lemma last_safe {A} (l : list A) : l <> [] -> safe (fun _ => True) (expect_some (last l)).
  Proof. intros Hl. destruct (last l) eqn:E; [done|]. by apply last_None in E. Qed.
  Lemma index_safe {A} (l : list A) : l <> [] -> safe (fun _ => True) (index l 0).
  Proof. by destruct l. Qed.

  Lemma lift_safe fuel b path : b_path b <> [] -> safe (fun _ => True) (b_lift fuel b path g).
  Proof.
    intros Hb. unfold b_lift. destruct (before _ path) as [lft|]; [|done].
    destruct lft as [|x lft], (drop _ path) as [|y rgt]; [done|..].
    - unfold b_lift_right. eapply safe_bind; [by apply index_safe|]. intros tid _ _.
      eapply safe_bind; [apply rotate_safe; [|done]|done]. intros l Hl.
      eapply safe_bind; [by apply last_safe|]. intros z _ _. apply has_edge_safe.
    - unfold b_lift_left. eapply safe_bind; [by apply last_safe|]. intros sid _ _.
      eapply safe_bind; [apply rotate_safe; [|done]|done]. intros l Hl.
      eapply safe_bind; [by apply index_safe|]. intros z _ _. apply has_edge_safe.
    - unfold b_lift_both. eapply safe_bind; [by apply last_safe|]. intros sid _ _.
      assert (Hrot : forall l, l <> [] -> safe (fun l' => l' <> []) (rotate_until fuel
        (fun copy => let! x := index copy 0 in unwrap (g_has_edge g sid x)) l)).
      { intros l0 Hl0. apply rotate_safe; [|done]. intros l Hl.
        eapply safe_bind; [by apply index_safe|]. intros z _ _. apply has_edge_safe. }
      eapply safe_bind; [by apply Hrot|]. intros fb _ _.
      eapply safe_bind; [by apply index_safe|]. intros tid _ _.
      eapply safe_bind; [apply take_safe|]. intros seg _ _.
      destruct (Nat.even _); [done|].
      eapply safe_bind; [apply Hrot|].
      { intros E. apply Hb. rewrite <-(reverse_involutive (b_path b)), E. done. }
      intros rb _ _. eapply safe_bind; [apply take_safe|done].
  Qed.
End safe.

Lemma before_some x l : x ∈ l -> exists pre, before x l = Some pre.
Proof.
  induction l as [|y l IH]; intros Hx; [by apply elem_of_nil in Hx|]. cbn [before].
  case_bool_decide as E; [by eexists|]. apply elem_of_cons in Hx as [?|Hx]; [done|].
  destruct (IH Hx) as [pre ->]. by eexists.
Qed.

Lemma blossom_path_some lft rgt x : last lft = Some x -> x ∈ rgt ->
  exists path, blossom_path lft rgt = Some path /\ path <> [].
Proof.
  revert x. induction lft as [|y lft IH]; intros x Hl Hx; [done|]. cbn [blossom_path].
  destruct (before y rgt) as [pre|] eqn:E; [by eexists|].
  destruct lft as [|z lft].
  - injection Hl as ->. destruct (before_some x rgt Hx) as [pre Hp]. congruence.
  - destruct (IH x Hl Hx) as (path & -> & _). by eexists.
Qed.

(** The search up to the place where a new id is made. *)
Section shell.
  Context (iter : hash_order) (Hit : hash_order_ok iter) (E : panic -> Prop) (HE : forall e, basic e -> E e).

  Lemma shell_safe g p (Hg : Lawful g) tag fuel (k : Blossom -> comp (option (list N)))
      (newid : N -> comp N) :
    (forall mx path, mx ∈ g_nodes g -> (forall x, x ∈ g_nodes g -> (x <= mx)%N) -> path <> [] ->
       safeE E (fun _ => True) (let! id := newid mx in k (mkBlossom id path))) ->
    safeE E (fun _ => True)
      (let! marker := mark_edges mk_new (p_edges iter (0 :: tag) p) in
       let! forest := add_roots f_new p (g_nodes g) in
       let! r := search_v fuel g p forest marker in
       match r with
       | Exhausted _ _ => Ok None
       | EvenPath v path_w forest =>
           let! opath := f_path forest v in
           let! path_v := expect_some opath in
           if bool_decide (last path_v = last path_w) then
             let! max_id := expect_some (nodes_max (g_nodes g)) in
             let! id := newid max_id in
             let! blossom := b_new id path_v path_w in
             k blossom
           else Ok (Some (reverse path_v ++ path_w))
       end).
  Proof.
    intros Hk.
    destruct (self_marks p iter Hit (0 :: tag)) as (m & -> & _).
    destruct (self_roots g p Hg) as (f & -> & Har & Hfn & Hfp). cbn [cbind].
    assert (HF : SInv g p f).
    { split.
      - intros x Hx. exists (mkEntry None Even). by apply Har.
      - intros x y par Hx. assert (Hx' : x ∈ f_nodes f).
        { rewrite Hfn, elem_of_list_filter. apply and_comm, Hfp. by eexists. }
        apply Har in Hx'. congruence.
      - intros x Hx Hpx. by apply Hfp. }
    eapply safe_then; [done|by apply (search_v_safe g Hg p fuel)|]. intros [f' m'|v pw f'] _ Hr; [done|].
    destruct Hr as (Hv & HF' & Hpw & Hgn).
    eapply safe_then; [done|by apply (path_safe g p f' v)|]. intros [pv|] _ Hpv.
    2:{ exfalso. destruct Hv as [? ?]. congruence. }
    destruct Hpv as [Hpv _]. cbn [expect_some cbind]. case_bool_decide as Hl; [|done].
    pose proof (nodes_max_spec (g_nodes g)) as Hmax.
    destruct (nodes_max (g_nodes g)) as [mx|]; [|done]. destruct Hmax as [Hmx Hle]. cbn [expect_some cbind].
    destruct (last pv) as [x|] eqn:Ex; [|by apply last_None in Ex].
    destruct (blossom_path_some pv pw x Ex) as (path & Hpath & Hne).
    { symmetry in Hl. apply last_Some in Hl as [l' ->]. apply elem_of_app. right. left. }
    specialize (Hk mx path Hmx Hle Hne). destruct (newid mx) as [id| | |]; cbn [cbind] in *; try done.
    unfold b_new. rewrite Hpath. done.
  Qed.
End shell.

Lemma ap_safe iter fuel : hash_order_ok iter -> forall tag g p, Lawful g ->
  safeE benign (fun _ => True) (augmenting_path iter tag fuel g p).
Proof.
  intros Hit. induction fuel as [|fuel IH]; intros tag g p Hg; [done|]. cbn [augmenting_path].
  assert (HE : forall e, basic e -> benign e) by (intros e He; by left).
  apply (shell_safe iter Hit benign HE g p Hg tag (S fuel)
    (fun blossom => let! contracted_graph := unwrap (b_contract_graph blossom g) in
       let! opath := augmenting_path iter (2 :: tag) fuel (as_graph contracted_graph)
                       (b_contract_pairing blossom (p_edges iter (1 :: tag) p)) in
       match opath with
       | Some path => let! lifted := b_lift (S fuel) blossom path g in Ok (Some lifted)
       | None => Ok None
       end) checked_succ).
  intros mx path Hmx Hle Hne.
  unfold checked_succ. destruct (N.ltb mx usize_max); [|cbn; right; by right]. cbn [cbind].
  destruct (contract_graph_spec g Hg path (mx + 1)%N) as (d & Hd & Hwf & _).
  { intros Hb. specialize (Hle _ Hb). lia. }
  rewrite Hd. cbn [unwrap cbind]. eapply safeE_bind; [by apply IH, wf_lawful|].
  intros [path'|] _ _; [|done]. eapply safe_then; [done|by apply lift_safe|done].
Qed.

Lemma mm_safe iter fuel g : hash_order_ok iter -> Lawful g -> forall tag p,
  safeE benign (fun _ => True) (maximum_matching iter tag fuel g p).
Proof.
  intros Hit Hg. induction fuel as [|fuel IH]; intros tag p; [done|]. cbn [maximum_matching].
  eapply safeE_bind; [by apply ap_safe|]. intros [path|] _ _; [|done].
  eapply safeE_bind.
  { instantiate (1 := fun _ => True). unfold p_augment. destruct (Nat.odd _); [|done]. right. by left. }
  intros p1 _ _. eapply safeE_bind; [apply IH|]. intros p2 _ _. apply IH.
Qed.

(** *** Without overflow checks *)

Lemma ap_safe_release iter fuel : hash_order_ok iter -> forall tag g p, Lawful g ->
  safeE benign_release (fun _ => True) (augmenting_path_release iter tag fuel g p).
Proof.
  intros Hit. induction fuel as [|fuel IH]; intros tag g p Hg; [done|]. cbn [augmenting_path_release].
  assert (HE : forall e, basic e -> benign_release e) by (intros e He; by left).
  apply (shell_safe iter Hit benign_release HE g p Hg tag (S fuel)
    (fun blossom => let! contracted_graph := unwrap (b_contract_graph blossom g) in
       let! opath := augmenting_path_release iter (2 :: tag) fuel (as_graph contracted_graph)
                       (b_contract_pairing blossom (p_edges iter (1 :: tag) p)) in
       match opath with
       | Some path => let! lifted := b_lift (S fuel) blossom path g in Ok (Some lifted)
       | None => Ok None
       end) (fun mx => Ok (wrapping_succ mx))).
  intros mx path Hmx Hle Hne. cbn [cbind].
  assert (Hid : (wrapping_succ mx ∈ g_nodes g -> wrapping_succ mx ∈ path) \/
    (wrapping_succ mx = 0%N /\ 0%N ∈ g_nodes g /\ 0%N ∉ path)).
  { unfold wrapping_succ. destruct (N.ltb mx usize_max).
    - left. intros Hb. specialize (Hle _ Hb). lia.
    - destruct (decide (0%N ∈ path)); [by left|]. destruct (decide (0%N ∈ g_nodes g)); [by right|by left]. }
  destruct Hid as [Hid|(-> & H0 & H0p)].
  2:{ rewrite (contract_graph_duplicate g path 0%N Hg H0 H0p). cbn. right. by right. }
  destruct (contract_graph_spec g Hg path (wrapping_succ mx) Hid) as (d & Hd & Hwf & _).
  rewrite Hd. cbn [unwrap cbind]. eapply safeE_bind; [by apply IH, wf_lawful|].
  intros [path'|] _ _; [|done]. eapply safe_then; [done|by apply lift_safe|done].
Qed.

Lemma mm_safe_release iter fuel g : hash_order_ok iter -> Lawful g -> forall tag p,
  safeE benign_release (fun _ => True) (maximum_matching_release iter tag fuel g p).
Proof.
  intros Hit Hg. induction fuel as [|fuel IH]; intros tag p; [done|]. cbn [maximum_matching_release].
  eapply safeE_bind; [by apply ap_safe_release|]. intros [path|] _ _; [|done].
  eapply safeE_bind.
  { instantiate (1 := fun _ => True). unfold p_augment. destruct (Nat.odd _); [|done]. right. by left. }
  intros p1 _ _. eapply safeE_bind; [apply IH|]. intros p2 _ _. apply IH.
Qed.

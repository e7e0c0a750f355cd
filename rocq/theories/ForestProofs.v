(** The alternating forest grown by one path search: it never panics, always
    ends, and ends either with an optimality certificate or with two even
    nodes joined by an edge. *)
From Verif Require Import Outcome GraphModel TraversalModel ComponentsModel PairingModel Spec
  GraphProofs TraversalProofs PathLemmas PairingProofs MatchTheory MaximumModel.

(** [f] ends as [m] whenever its fuel is at least [n], and with less fuel it
    gives nothing else. *)
Definition settles {A} (f : nat -> comp A) (n : nat) (m : comp A) : Prop :=
  (forall fuel, n <= fuel -> f fuel = m) /\ forall fuel, f fuel = NoFuel \/ f fuel = m.

(** ** Paths in the forest *)

Inductive fpath (P : gmap N entry) : N -> list N -> Prop :=
| fp_root x par : P !! x = Some (mkEntry None par) -> fpath P x [x]
| fp_cons x y par l : P !! x = Some (mkEntry (Some y) par) -> fpath P y l -> fpath P x (x :: l).

Lemma fpath_head P x l : fpath P x l -> head l = Some x.
Proof. by destruct 1. Qed.

Lemma fpath_det P x l l' : fpath P x l -> fpath P x l' -> l = l'.
Proof.
  intros H. revert l'. induction H as [x par Hx|x y par l Hx _ IH]; intros l' H'; inversion H'; subst;
    try congruence.
  f_equal. apply IH. congruence.
Qed.

Lemma fpath_suffix P x l l1 y l2 : fpath P x l -> l = l1 ++ y :: l2 -> fpath P y (y :: l2).
Proof.
  intros H. revert l1. induction H as [x par Hx|x z par l Hx Hz IH]; intros l1 Heq.
  - destruct l1 as [|? [|]]; simplify_eq/=. by econstructor.
  - destruct l1 as [|? l1]; simplify_eq/=; [by econstructor|]. by eapply IH.
Qed.

Lemma fpath_nodup P x l : fpath P x l -> NoDup l.
Proof.
  intros H. induction H as [x par Hx|x z par l Hx Hz IH]; [apply NoDup_singleton|].
  apply NoDup_cons. split; [|done]. intros Hin.
  apply elem_of_list_split in Hin as (l1 & l2 & ->).
  pose proof (fpath_suffix _ _ _ _ _ _ Hz eq_refl) as Hs.
  assert (x :: l2 = x :: l1 ++ x :: l2) as Heq.
  { eapply fpath_det; [exact Hs|]. by econstructor. }
  apply (f_equal length) in Heq. simpl in Heq. rewrite app_length in Heq. simpl in Heq. lia.
Qed.

Lemma fpath_elem P x l y : fpath P x l -> y ∈ l -> is_Some (P !! y).
Proof.
  intros H. induction H as [x par Hx|x z par l Hx Hz IH].
  - intros ->%elem_of_list_singleton. by eexists.
  - intros [->|?]%elem_of_cons; [by eexists|auto].
Qed.

Lemma fpath_mono P P' x l : P ⊆ P' -> fpath P x l -> fpath P' x l.
Proof.
  intros Hsub H. induction H as [x par Hx|x z par l Hx Hz IH]; econstructor; try done;
    by eapply lookup_weaken.
Qed.

(** Two consecutive nodes of a path are child and parent. *)
Lemma fpath_step P x l l1 y z l2 : fpath P x l -> l = l1 ++ y :: z :: l2 ->
  exists par, P !! y = Some (mkEntry (Some z) par).
Proof.
  intros H ->.
  pose proof (fpath_suffix _ _ _ l1 y (z :: l2) H eq_refl) as Hs.
  inversion Hs as [|? y' ? ? Hy Hz]; subst. apply fpath_head in Hz. injection Hz as ->. by eexists.
Qed.

Lemma climb_fpath fuel f y l : fpath (f_parents f) y l -> length l <= fuel ->
  f_climb fuel f (Some y) = Ok l.
Proof.
  intros H. revert fuel. induction H as [x par Hx|x z par l Hx Hz IH]; intros [|fuel] Hlen;
    simpl in Hlen; try lia; cbn [f_climb]; rewrite Hx; cbn [cbind e_parent].
  - by destruct fuel.
  - rewrite IH by lia. done.
Qed.

(** ** The forest invariant *)

Definition even_in (P : gmap N entry) (x : N) : Prop := exists o, P !! x = Some (mkEntry o Even).
Definition odd_in (P : gmap N entry) (x : N) : Prop := exists o, P !! x = Some (mkEntry o Odd).

Record FInv (g : Graph) (p : Pairing) (f : Forest) : Prop := {
  fi_nodup : NoDup (f_nodes f);
  fi_dom : forall x, x ∈ f_nodes f <-> is_Some (f_parents f !! x);
  fi_path : forall x, is_Some (f_parents f !! x) -> exists l, fpath (f_parents f) x l;
  fi_root : forall x par, f_parents f !! x = Some (mkEntry None par) ->
    par = Even /\ p !! x = None /\ x ∈ g_nodes g;
  fi_even : forall x y, f_parents f !! x = Some (mkEntry (Some y) Even) ->
    p !! x = Some y /\ exists z, f_parents f !! y = Some (mkEntry (Some z) Odd);
  fi_odd : forall x y, f_parents f !! x = Some (mkEntry (Some y) Odd) ->
    adj g y x /\ even_in (f_parents f) y /\
    exists m, p !! x = Some m /\ f_parents f !! m = Some (mkEntry (Some x) Even);
  fi_free : forall x, x ∈ g_nodes g -> p !! x = None -> is_Some (f_parents f !! x)
}.

Lemma even_odd_excl P x : even_in P x -> odd_in P x -> False.
Proof. intros [? ?] [? ?]. congruence. Qed.

Lemma even_or_odd P x : is_Some (P !! x) -> even_in P x \/ odd_in P x.
Proof. intros [[o []] ?]; [left|right]; by eexists. Qed.

Section finv.
  Context (g : Graph) (p : Pairing) (f : Forest).
  Context (Hg : Lawful g) (Hp : pairing_of g p) (HF : FInv g p f).
  Notation P := (f_parents f).

  Lemma finv_nodes x : is_Some (P !! x) -> x ∈ g_nodes g.
  Proof.
    intros [[[y|] []] Hx].
    - apply (fi_even _ _ _ HF) in Hx as [Hx _]. apply Hp in Hx. apply law_adj_sym in Hx; [|done].
      by eapply law_adj_node.
    - apply (fi_odd _ _ _ HF) in Hx as [Hx _]. by eapply law_adj_node.
    - by apply (fi_root _ _ _ HF) in Hx as (_ & _ & ?).
    - by apply (fi_root _ _ _ HF) in Hx as (_ & _ & ?).
  Qed.

  Lemma f_path_spec x :
    f_path f x = match P !! x with None => Ok None | Some _ => f_path f x end.
  Proof. unfold f_path. by destruct (P !! x). Qed.

  Lemma fpath_length x l : fpath P x l -> length l <= length (f_nodes f).
  Proof.
    intros H. apply submseteq_length, NoDup_submseteq; [by eapply fpath_nodup|].
    intros y Hy. apply (fi_dom _ _ _ HF). by eapply fpath_elem.
  Qed.

  Lemma f_path_some x l : fpath P x l -> f_path f x = Ok (Some l).
  Proof.
    intros H. pose proof (fpath_length x l H) as Hlen. unfold f_path.
    destruct H as [x par Hx|x z par l Hx Hz]; rewrite Hx; cbn [e_parent].
    - done.
    - rewrite (climb_fpath _ _ _ _ Hz); [done|]. simpl in Hlen. lia.
  Qed.

  Lemma f_path_none x : P !! x = None -> f_path f x = Ok None.
  Proof. intros H. unfold f_path. by rewrite H. Qed.

  (** The path of an even node is a stem, that of an odd node is one longer. *)
  Lemma fpath_stem x l : fpath P x l ->
    (even_in P x -> stem g p l) /\ (odd_in P x -> exists y l', l = y :: l' /\ stem g p l').
  Proof.
    intros H. induction H as [x par Hx|x y par l Hx Hy IH].
    - apply (fi_root _ _ _ HF) in Hx as Hr. destruct Hr as (-> & Hr & Hn). split.
      + intros _. by constructor.
      + intros [o Ho]. congruence.
    - destruct IH as [IHe IHo]. split.
      + intros [o Ho]. assert (par = Even) as -> by congruence.
        apply (fi_even _ _ _ HF) in Hx as [Hm (z & Hz)].
        inversion Hy as [? ? Hy'|? z' ? l' Hy' Hz']; subst; [congruence|].
        assert (z' = z) as -> by congruence.
        destruct IHo as (? & ? & [= <- <-] & Hst); [by eexists|].
        pose proof (fpath_head _ _ _ Hz') as Hhd. destruct l' as [|z'' l']; [done|].
        injection Hhd as ->. constructor; try done.
        apply (fi_odd _ _ _ HF) in Hz as [Hz _]. by apply law_adj_sym.
      + intros [o Ho]. assert (par = Odd) as -> by congruence. exists x, l. split; [done|].
        apply (fi_odd _ _ _ HF) in Hx as (_ & He & _). auto.
  Qed.

  Lemma fpath_even_odd x l : fpath P x l -> even_in P x <-> Nat.odd (length l) = true.
  Proof.
    intros H. destruct (fpath_stem x l H) as [He Ho]. split.
    - intros Hx. eapply stem_odd. auto.
    - intros Hl. destruct (even_or_odd P x) as [?|Hx]; [|done|].
      { eapply fpath_elem; [exact H|]. apply fpath_head in H. destruct l; [done|]. injection H as ->. left. }
      destruct (Ho Hx) as (y & l' & -> & Hs). apply stem_odd in Hs.
      change (length (y :: l')) with (S (length l')) in Hl.
      rewrite Nat.odd_succ, <-Nat.negb_odd, Hs in Hl. done.
  Qed.

  Lemma even_in_path x : even_in P x -> exists l, fpath P x l /\ stem g p l /\ NoDup l.
  Proof.
    intros He. destruct (fi_path _ _ _ HF x) as (l & Hl); [destruct He; by eexists|].
    exists l. split_and!; [done|by apply (fpath_stem x l Hl)|by eapply fpath_nodup].
  Qed.
End finv.

(** ** The marker *)

Definition hedge (m : Marker) (u v : N) : Prop := mk_has_edge m u v = true.

Lemma hedge_alt m u v : hedge m u v <-> exists l, mk_edges m !! u = Some l /\ v ∈ l.
Proof.
  unfold hedge, mk_has_edge. destruct (mk_edges m !! u) as [l|]; split.
  - intros H. apply bool_decide_eq_true in H. by exists l.
  - intros (l' & [= <-] & H). by apply bool_decide_eq_true.
  - done.
  - by intros (? & ? & _).
Qed.

Lemma mark_edge_ok m s t : ~ hedge m s t -> exists m', mk_mark_edge m s t = Ok m' /\
  mk_nodes m' = mk_nodes m /\
  forall u v, hedge m' u v <-> hedge m u v \/ (u = s /\ v = t) \/ (u = t /\ v = s).
Proof.
  intros Hn. unfold mk_mark_edge.
  set (l1 := match mk_edges m !! s with Some l => l | None => [] end).
  assert (Ht : t ∉ l1).
  { unfold l1. intros Hin. apply Hn, hedge_alt. destruct (mk_edges m !! s) as [l|]; [|by apply elem_of_nil in Hin].
    by exists l. }
  assert (match mk_edges m !! s with
          | Some l => if bool_decide (t ∈ l) then Panic (PEdgeMarkedTwice s t)
                      else Ok (<[s := l ++ [t]]> (mk_edges m))
          | None => Ok (<[s := [t]]> (mk_edges m)) end = Ok (<[s := l1 ++ [t]]> (mk_edges m))) as ->.
  { unfold l1 in *. destruct (mk_edges m !! s) as [l|]; [|done]. by rewrite bool_decide_eq_false_2. }
  cbn [cbind]. set (e1 := <[s := l1 ++ [t]]> (mk_edges m)).
  set (l2 := match e1 !! t with Some l => l | None => [] end).
  exists (mkMarker (mk_nodes m) (<[t := l2 ++ [s]]> e1)). split_and!; [|done|].
  { unfold l2. by destruct (e1 !! t). }
  assert (H1 : forall u v, hedge (mkMarker (mk_nodes m) e1) u v <-> hedge m u v \/ (u = s /\ v = t)).
  { intros u v. rewrite !hedge_alt. unfold e1. cbn [mk_edges].
    destruct (decide (u = s)) as [->|Hu].
    - rewrite lookup_insert. split.
      + intros (l & [= <-] & [Hl|Hl]%elem_of_app); [|right; split; [done|by apply elem_of_list_singleton]].
        left. unfold l1 in Hl. destruct (mk_edges m !! s) as [l|]; [by exists l|by apply elem_of_nil in Hl].
      + intros [(l & Hl & Hv)|[_ ->]].
        * exists (l1 ++ [t]). split; [done|]. unfold l1. rewrite Hl. apply elem_of_app. by left.
        * exists (l1 ++ [t]). split; [done|]. apply elem_of_app. right. left.
    - rewrite lookup_insert_ne by done. intuition. }
  intros u v.
  assert (H2 : hedge (mkMarker (mk_nodes m) (<[t := l2 ++ [s]]> e1)) u v <->
               hedge (mkMarker (mk_nodes m) e1) u v \/ (u = t /\ v = s)).
  { rewrite !hedge_alt. cbn [mk_edges]. destruct (decide (u = t)) as [->|Hu].
    - rewrite lookup_insert. split.
      + intros (l & [= <-] & [Hl|Hl]%elem_of_app); [|right; split; [done|by apply elem_of_list_singleton]].
        left. unfold l2 in Hl. destruct (e1 !! t) as [l|]; [by exists l|by apply elem_of_nil in Hl].
      + intros [(l & Hl & Hv)|[_ ->]].
        * exists (l2 ++ [s]). split; [done|]. unfold l2. rewrite Hl. apply elem_of_app. by left.
        * exists (l2 ++ [s]). split; [done|]. apply elem_of_app. right. left.
    - rewrite lookup_insert_ne by done. intuition. }
  rewrite H2, H1. tauto.
Qed.

Record MInv (g : Graph) (p : Pairing) (P : gmap N entry) (m : Marker) : Prop := {
  mi_mates : forall u v, p !! u = Some v -> hedge m u v;
  mi_edge : forall u v, hedge m u v ->
    p !! u = Some v \/ (even_in P u /\ odd_in P v) \/ (odd_in P u /\ even_in P v);
  mi_node : forall v, v ∈ mk_nodes m -> even_in P v /\ forall w, adj g v w -> hedge m v w
}.

(** ** The searches *)

Section search.
  Context (g : Graph) (p : Pairing) (Hg : Lawful g) (Hp : pairing_of g p).

  (** What a search that found something tells. *)
  Definition found (v : N) (path_w : list N) (f : Forest) : Prop :=
    FInv g p f /\ even_in (f_parents f) v /\
    exists w, even_in (f_parents f) w /\ adj g v w /\ fpath (f_parents f) w path_w.

  (** What the inner loop leaves behind. *)
  Definition scanned (v : N) (m0 : Marker) (f : Forest) (m : Marker) : Prop :=
    FInv g p f /\ MInv g p (f_parents f) m /\ even_in (f_parents f) v /\
    mk_nodes m = mk_nodes m0 /\ forall w, adj g v w -> hedge m v w.

  Lemma f_grow f v w m : FInv g p f -> even_in (f_parents f) v -> adj g v w ->
    f_parents f !! w = None -> p !! w = Some m ->
    exists f', (let! f1 := f_add_edge f v w in f_add_edge f1 w m) = Ok f' /\ FInv g p f' /\
      f_parents f ⊆ f_parents f' /\ odd_in (f_parents f') w.
  Proof.
    intros HF Hv Hvw Hw Hm.
    assert (Hmw : p !! m = Some w /\ w <> m) by (by apply (proj1 Hp) in Hm). destruct Hmw as [Hmw Hne].
    assert (Hmn : f_parents f !! m = None).
    { destruct (f_parents f !! m) as [[o par]|] eqn:Em; [|done]. exfalso.
      destruct o as [y|]; [|apply (fi_root _ _ _ HF) in Em as (_ & ? & _); congruence].
      destruct par.
      - apply (fi_even _ _ _ HF) in Em as (? & z & Hz). congruence.
      - apply (fi_odd _ _ _ HF) in Em as (_ & _ & k & Hk & Hk'). congruence. }
    destruct Hv as [ov Hv]. unfold f_add_edge. rewrite Hv, Hw. cbn [cbind].
    cbn [f_parents f_nodes]. rewrite lookup_insert. cbn [e_parity parity_invert].
    rewrite lookup_insert_ne by done. rewrite Hmn.
    set (P1 := <[w := mkEntry (Some v) Odd]> (f_parents f)).
    set (P2 := <[m := mkEntry (Some w) Even]> P1).
    assert (Hsub : f_parents f ⊆ P2).
    { unfold P2, P1. etrans; [by apply (insert_subseteq _ w (mkEntry (Some v) Odd))|].
      apply insert_subseteq. by rewrite lookup_insert_ne. }
    assert (Hw2 : P2 !! w = Some (mkEntry (Some v) Odd)).
    { unfold P2, P1. rewrite lookup_insert_ne by done. by rewrite lookup_insert. }
    assert (Hm2 : P2 !! m = Some (mkEntry (Some w) Even)).
    { unfold P2. by rewrite lookup_insert. }
    assert (Hcase : forall x e, P2 !! x = Some e ->
      (x = m /\ e = mkEntry (Some w) Even) \/ (x = w /\ e = mkEntry (Some v) Odd) \/
      f_parents f !! x = Some e).
    { intros x e Hx. destruct (decide (x = m)) as [->|Hxm]; [left; split; congruence|].
      destruct (decide (x = w)) as [->|Hxw]; [right; left; split; congruence|].
      right. right. unfold P2, P1 in Hx. by rewrite !lookup_insert_ne in Hx by done. }
    assert (Hv2 : P2 !! v = Some (mkEntry ov Even)) by (by eapply lookup_weaken).
    exists (mkForest P2 ((f_nodes f ++ [w]) ++ [m])). split_and!; [done| |done|by eexists].
    constructor; cbn [f_nodes f_parents].
    - rewrite <-app_assoc. apply NoDup_app. split_and!; [apply HF| |].
      + intros x Hx%(fi_dom _ _ _ HF) Hin. simpl in Hin.
        apply elem_of_cons in Hin as [-> | ->%elem_of_list_singleton];
          destruct Hx as [? Hx]; congruence.
      + repeat constructor; set_solver.
    - intros x. rewrite !elem_of_app, !elem_of_list_singleton, (fi_dom _ _ _ HF). split.
      + intros [[[e He]| ->]| ->]; [|by eexists..]. eexists. by eapply lookup_weaken.
      + intros [e He]. destruct (Hcase x e He) as [[-> _]|[[-> _]|Hx]]; [by right|by left; right|].
        left; left. by eexists.
    - assert (Hpv : exists l, fpath (f_parents f) v l) by (apply (fi_path _ _ _ HF); by eexists).
      destruct Hpv as [l Hl]. apply (fpath_mono _ P2) in Hl; [|done].
      assert (Hlw : fpath P2 w (w :: l)) by (by econstructor).
      intros x [e He]. destruct (Hcase x e He) as [[-> _]|[[-> _]|Hx]].
      + exists (m :: w :: l). by econstructor.
      + by exists (w :: l).
      + destruct (fi_path _ _ _ HF x) as [l' Hl']; [by eexists|]. exists l'. by eapply fpath_mono.
    - intros x par Hx. destruct (Hcase _ _ Hx) as [[_ ?]|[[_ ?]|?]]; [done..|].
      by apply (fi_root _ _ _ HF).
    - intros x y Hx. destruct (Hcase _ _ Hx) as [[-> [= ->]]|[[_ ?]|Hx']]; [|done|].
      + split; [done|]. by exists v.
      + apply (fi_even _ _ _ HF) in Hx' as (? & z & Hz). split; [done|]. exists z.
        by eapply lookup_weaken.
    - intros x y Hx. destruct (Hcase _ _ Hx) as [[_ ?]|[[-> [= ->]]|Hx']]; [done| |].
      + split_and!; [done|by eexists|]. by exists m.
      + apply (fi_odd _ _ _ HF) in Hx' as (? & [o Ho] & k & ? & Hk). split_and!; [done| |].
        * exists o. by eapply lookup_weaken.
        * exists k. split; [done|]. by eapply lookup_weaken.
    - intros x Hx Hpx. destruct (fi_free _ _ _ HF x Hx Hpx) as [e He]. exists e.
      by eapply lookup_weaken.
  Qed.

  Lemma even_mono (P P' : gmap N entry) x : P ⊆ P' -> even_in P x -> even_in P' x.
  Proof. intros Hs [o Ho]. exists o. by eapply lookup_weaken. Qed.
  Lemma odd_mono (P P' : gmap N entry) x : P ⊆ P' -> odd_in P x -> odd_in P' x.
  Proof. intros Hs [o Ho]. exists o. by eapply lookup_weaken. Qed.

  Lemma minv_mark P P' m m' v w : P ⊆ P' -> MInv g p P m -> even_in P v -> odd_in P' w ->
    mk_nodes m' = mk_nodes m ->
    (forall u u', hedge m' u u' <-> hedge m u u' \/ (u = v /\ u' = w) \/ (u = w /\ u' = v)) ->
    MInv g p P' m'.
  Proof.
    intros Hs HM Hv Hw Hn He. constructor.
    - intros a b Hab. apply He. left. by apply HM.
    - intros a b [Hab|[[-> ->]|[-> ->]]]%He.
      + destruct (mi_edge _ _ _ _ HM a b Hab) as [?|[[??]|[??]]]; [by left| |];
          right; [left|right]; split; eauto using even_mono, odd_mono.
      + right. left. split; [|done]. by eapply even_mono.
      + right. right. split; [done|]. by eapply even_mono.
    - rewrite Hn. intros a Ha. destruct (mi_node _ _ _ _ HM a Ha) as [H1 H2]. split.
      + by eapply even_mono.
      + intros b Hb. apply He. left. auto.
  Qed.

  Definition pending (v : N) (m : Marker) : list N :=
    match g_neighbors g v with
    | Ok l => filter (fun id => mk_has_edge m v id = false) l
    | _ => []
    end.

  Lemma some_w_spec v m : v ∈ g_nodes g -> some_w v g m = Ok (head (pending v m)).
  Proof.
    intros Hv. destruct (law_neighbors g Hg v Hv) as (l & Hl & _). unfold some_w, pending.
    by rewrite Hl.
  Qed.

  Lemma elem_of_pending v m w : w ∈ pending v m <-> adj g v w /\ ~ hedge m v w.
  Proof.
    unfold pending, adj, hedge. destruct (g_neighbors g v) as [l| | |] eqn:El;
      try (split; [intros H; by apply elem_of_nil in H|by intros [(? & ? & _) _]]).
    rewrite elem_of_list_filter, not_true_iff_false. split.
    - intros [? ?]. eauto.
    - intros [(l' & [= <-] & ?) ?]. done.
  Qed.

  Lemma pending_shrinks v m m' w : w ∈ pending v m -> hedge m' v w ->
    (forall u, hedge m v u -> hedge m' v u) -> length (pending v m') < length (pending v m).
  Proof.
    unfold pending. destruct (g_neighbors g v) as [l| | |]; try (intros H; by apply elem_of_nil in H).
    intros [Hw Hin]%elem_of_list_filter Hm' Hmono.
    assert (Hle : forall l', length (filter (fun id => mk_has_edge m' v id = false) l') <=
                        length (filter (fun id => mk_has_edge m v id = false) l')).
    { induction l' as [|x l' IH]; [done|]. rewrite !filter_cons.
      destruct (decide (mk_has_edge m' v x = false)) as [E|E];
        destruct (decide (mk_has_edge m v x = false)) as [E'|E']; simpl; try lia.
      apply not_false_iff_true in E'. apply Hmono in E'. unfold hedge in E'. congruence. }
    apply elem_of_list_split in Hin as (l1 & l2 & ->).
    rewrite !filter_app, !filter_cons, !app_length.
    rewrite (decide_True (P := mk_has_edge m v w = false)) by done.
    rewrite (decide_False (P := mk_has_edge m' v w = false)) by (unfold hedge in Hm'; congruence).
    simpl. pose proof (Hle l1). pose proof (Hle l2). lia.
  Qed.

  Lemma search_w_spec n v f m : length (pending v m) < n ->
    FInv g p f -> MInv g p (f_parents f) m -> even_in (f_parents f) v ->
    exists r, settles (fun fuel => search_w fuel v g p f m) n (Ok r) /\
      match r with
      | Exhausted f' m' => scanned v m f' m' /\ f_parents f ⊆ f_parents f'
      | EvenPath v' pw f' => v' = v /\ found v' pw f'
      end.
  Proof.
    revert f m. induction n as [|n IH]; intros f m Hn HF HM Hv; [lia|].
    assert (Hvn : v ∈ g_nodes g) by (apply (finv_nodes g p f Hg Hp HF); destruct Hv; by eexists).
    destruct (pending v m) as [|w rest] eqn:Ep.
    { exists (Exhausted f m). split.
      - split.
        + intros [|fuel] Hf; [lia|]. cbn [search_w]. by rewrite some_w_spec, Ep.
        + intros [|fuel]; [by left|]. right. cbn [search_w]. by rewrite some_w_spec, Ep.
      - split; [|done]. split_and!; try done. intros w Hw.
        destruct (mk_has_edge m v w) eqn:E; [done|]. exfalso.
        apply (not_elem_of_nil w). rewrite <-Ep. apply elem_of_pending. split; [done|].
        unfold hedge. congruence. }
    assert (Hwp : w ∈ pending v m) by (rewrite Ep; left).
    apply elem_of_pending in Hwp as [Hvw Hnm].
    destruct (mark_edge_ok m v w Hnm) as (m' & Hmark & Hnodes & Hedges).
    assert (Hlt : length (pending v m') < n).
    { apply Nat.lt_le_trans with (length (pending v m)).
      - apply (pending_shrinks v m m' w).
        + rewrite Ep. left.
        + apply Hedges. auto.
        + intros u Hu. apply Hedges. auto.
      - rewrite Ep. simpl in *. lia. }
    destruct (f_parents f !! w) as [e|] eqn:Ew.
    - destruct (fi_path _ _ _ HF w) as [pw Hpw]; [by eexists|].
      pose proof (f_path_some g p f HF w pw Hpw) as Hfp.
      destruct (Nat.odd (length pw)) eqn:Eo.
      + exists (EvenPath v pw f). split.
        * split; (intros [|fuel]; [intros; lia|]) || (intros [|fuel]; [by left|]); intros; try right;
            cbn [search_w]; rewrite some_w_spec, Ep by done; cbn [cbind head];
            rewrite Hfp; cbn [cbind]; by rewrite Eo.
        * split; [done|]. split_and!; [done|done|]. exists w. split_and!; [|done|done].
          by apply (fpath_even_odd g p f Hg HF w pw Hpw).
      + assert (Hwo : odd_in (f_parents f) w).
        { destruct (even_or_odd (f_parents f) w) as [He|?]; [by eexists| |done].
          apply (fpath_even_odd g p f Hg HF w pw Hpw) in He. congruence. }
        destruct (IH f m' Hlt HF) as (r & [Hs1 Hs2] & Hr); [|done|].
        { by eapply (minv_mark _ _ m m' v w). }
        exists r. split.
        * assert (Hstep : forall fuel, search_w (S fuel) v g p f m = search_w fuel v g p f m').
          { intros fuel. cbn [search_w]. rewrite some_w_spec, Ep by done. cbn [cbind head].
            rewrite Hfp. cbn [cbind]. rewrite Eo, Hmark. done. }
          split.
          -- intros [|fuel] Hf; [lia|]. rewrite Hstep. apply Hs1. lia.
          -- intros [|fuel]; [by left|]. rewrite Hstep. apply Hs2.
        * destruct r as [f' m''|]; [|done]. destruct Hr as ((? & ? & ? & Hn' & ?) & ?).
          split; [|done]. split_and!; try done. congruence.
    - assert (Hm : exists k, p !! w = Some k).
      { destruct (p !! w) as [k|] eqn:Ek; [by eexists|]. exfalso.
        destruct (fi_free _ _ _ HF w) as [? ?]; [by eapply law_adj_node|done|congruence]. }
      destruct Hm as [k Hk].
      destruct (f_grow f v w k HF Hv Hvw Ew Hk) as (f' & Hgrow & HF' & Hsub & Hwo).
      destruct (IH f' m' Hlt HF') as (r & [Hs1 Hs2] & Hr).
      { by eapply (minv_mark _ _ m m' v w). }
      { by eapply even_mono. }
      exists r. split.
      + assert (Hstep : forall fuel, search_w (S fuel) v g p f m = search_w fuel v g p f' m').
        { intros fuel. cbn [search_w]. rewrite some_w_spec, Ep by done. cbn [cbind head].
          rewrite (f_path_none f w Ew). cbn [cbind].
          destruct (f_add_edge f v w) as [f1| | |] eqn:Ef1; cbn [cbind] in Hgrow; try done.
          cbn [cbind]. unfold p_mate. rewrite Hk. cbn [cbind]. rewrite Hgrow. cbn [cbind].
          rewrite Hmark. done. }
        split.
        * intros [|fuel] Hf; [lia|]. rewrite Hstep. apply Hs1. lia.
        * intros [|fuel]; [by left|]. rewrite Hstep. apply Hs2.
      + destruct r as [f'' m''|]; [|done]. destruct Hr as ((? & ? & ? & Hn' & ?) & ?).
        split; [|by etrans]. split_and!; try done. congruence.
  Qed.

  Lemma find_v_spec f m ids : FInv g p f -> (forall x, x ∈ ids -> is_Some (f_parents f !! x)) ->
    (exists v, find_v (f_parents f) m ids = Ok (Some v) /\ v ∈ ids /\
       even_in (f_parents f) v /\ v ∉ mk_nodes m) \/
    (find_v (f_parents f) m ids = Ok None /\
       forall v, v ∈ ids -> even_in (f_parents f) v -> v ∈ mk_nodes m).
  Proof.
    intros HF. induction ids as [|x ids IH]; intros Hids.
    { right. split; [done|]. intros v Hv. by apply elem_of_nil in Hv. }
    destruct (Hids x) as [[o par] Hx]; [left|]. cbn [find_v]. rewrite Hx.
    assert (IH' := IH (fun y Hy => Hids y (elem_of_list_further _ _ _ Hy))). clear IH.
    destruct par.
    - unfold mk_has_node. case_bool_decide as Hmx.
      + destruct IH' as [(v & ? & ? & ? & ?)|[? H]]; [left|right].
        * exists v. split_and!; try done. by right.
        * split; [done|]. intros v [->|?]%elem_of_cons; auto.
      + left. exists x. split_and!; [done|left|by eexists|done].
    - destruct IH' as [(v & ? & ? & ? & ?)|[? H]]; [left|right].
      + exists v. split_and!; try done. by right.
      + split; [done|]. intros v [->|?]%elem_of_cons; [|auto].
        intros [o' Ho]. congruence.
  Qed.

  (** Nodes not marked yet. *)
  Definition unmarked (m : Marker) : nat := length (filter (fun x => x ∉ mk_nodes m) (g_nodes g)).

  Definition degree_bound (D : nat) : Prop :=
    forall v l, g_neighbors g v = Ok l -> length l < D.

  Lemma pending_bound D v m : degree_bound D -> 0 < D -> length (pending v m) < D.
  Proof.
    intros HD H0. unfold pending. destruct (g_neighbors g v) as [l| | |] eqn:E; try done.
    apply HD in E. eapply Nat.le_lt_trans; [apply filter_length|done].
  Qed.

  Lemma search_v_spec D n f m : degree_bound D -> 0 < D -> unmarked m < n ->
    FInv g p f -> MInv g p (f_parents f) m ->
    exists r, settles (fun fuel => search_v fuel g p f m) (D + n) (Ok r) /\
      match r with
      | Exhausted f' m' => FInv g p f' /\ MInv g p (f_parents f') m' /\
          forall v, even_in (f_parents f') v -> v ∈ mk_nodes m'
      | EvenPath v' pw f' => found v' pw f'
      end.
  Proof.
    intros HD H0. revert f m. induction n as [|n IH]; intros f m Hn HF HM; [lia|].
    destruct (find_v_spec f m (f_nodes f) HF) as [(v & Hfind & Hvn & Hve & Hvm)|[Hfind Hall]].
    { intros x Hx. by apply (fi_dom _ _ _ HF). }
    2:{ exists (Exhausted f m). split.
        - split; (intros [|fuel]; [intros; lia|]) || (intros [|fuel]; [by left|]); intros; try right;
            cbn [search_v]; unfold some_v; by rewrite Hfind.
        - split_and!; try done. intros v Hv. apply Hall; [|done]. apply (fi_dom _ _ _ HF).
          destruct Hv; by eexists. }
    destruct (search_w_spec D v f m (pending_bound D v m HD H0) HF HM Hve) as (r & [Hw1 Hw2] & Hr).
    destruct r as [f' m'|v' pw f'].
    - destruct Hr as ((HF' & HM' & Hve' & Hmn & Hsc) & Hsub).
      assert (Hvm' : v ∉ mk_nodes m') by (by rewrite Hmn).
      set (m'' := mkMarker ({[v]} ∪ mk_nodes m') (mk_edges m')).
      assert (Hmark : mk_mark_node m' v = Ok m'').
      { unfold mk_mark_node. by rewrite bool_decide_eq_false_2. }
      assert (HM'' : MInv g p (f_parents f') m'').
      { constructor.
        - apply HM'.
        - apply HM'.
        - intros x [->%elem_of_singleton|Hx]%elem_of_union; [done|]. by apply HM'. }
      assert (Hlt : unmarked m'' < n).
      { assert (Hvg : v ∈ g_nodes g) by (apply (finv_nodes g p f Hg Hp HF); destruct Hve; by eexists).
        apply Nat.lt_le_trans with (unmarked m); [|lia]. unfold unmarked.
        apply elem_of_list_split in Hvg as (l1 & l2 & Heq).
        assert (Hin'' : forall x, x ∈ mk_nodes m'' <-> x = v \/ x ∈ mk_nodes m).
        { intros x. unfold m''. cbn [mk_nodes]. by rewrite elem_of_union, elem_of_singleton, Hmn. }
        assert (Hle : forall l, length (filter (fun x => x ∉ mk_nodes m'') l) <=
                           length (filter (fun x => x ∉ mk_nodes m) l)).
        { clear -Hin''. induction l as [|x l IHl]; [done|]. rewrite !filter_cons.
          repeat case_decide; cbn [length]; try lia. exfalso. specialize (Hin'' x).
          destruct (decide (x ∈ mk_nodes m)); tauto. }
        rewrite Heq, !filter_app, !filter_cons, !app_length.
        rewrite (decide_True (P := v ∉ mk_nodes m)) by done.
        rewrite (decide_False (P := v ∉ mk_nodes m'')).
        2:{ rewrite Hin''. tauto. }
        cbn [length]. pose proof (Hle l1). pose proof (Hle l2). lia. }
      destruct (IH f' m'' Hlt HF' HM'') as (r & [Hs1 Hs2] & Hr).
      exists r. split; [|done].
      assert (Hstep : forall fuel, search_w (S fuel) v g p f m = Ok (Exhausted f' m') ->
        search_v (S fuel) g p f m = search_v fuel g p f' m'').
      { intros fuel Hf. cbn [search_v]. unfold some_v. rewrite Hfind. cbn [cbind].
        rewrite Hf. cbn [cbind]. by rewrite Hmark. }
      split.
      + intros [|fuel] Hf; [lia|]. rewrite Hstep by (apply Hw1; lia). apply Hs1. lia.
      + intros [|fuel]; [by left|]. destruct (Hw2 (S fuel)) as [Hf|Hf].
        * left. cbn [search_v]. unfold some_v. rewrite Hfind. cbn [cbind].
          rewrite Hf. done.
        * rewrite (Hstep fuel Hf). apply Hs2.
    - destruct Hr as [-> Hr]. exists (EvenPath v pw f'). split; [|done]. split.
      + intros [|fuel] Hf; [lia|]. cbn [search_v]. unfold some_v. rewrite Hfind. cbn [cbind].
        rewrite Hw1 by lia. done.
      + intros [|fuel]; [by left|]. cbn [search_v]. unfold some_v. rewrite Hfind. cbn [cbind].
        destruct (Hw2 (S fuel)) as [->| ->]; auto.
  Qed.

  (** *** The start *)

  Definition marker0 : Marker := mkMarker ∅ ((fun m => [m]) <$> p).

  Lemma mark_edges_spec es m :
    mk_nodes m = ∅ -> NoDup (endpoints es) ->
    (forall x, x ∈ endpoints es -> mk_edges m !! x = None) ->
    exists m', mark_edges m es = Ok m' /\ mk_nodes m' = ∅ /\
      (forall u v, (u, v) ∈ es -> mk_edges m' !! u = Some [v] /\ mk_edges m' !! v = Some [u]) /\
      (forall x, x ∉ endpoints es -> mk_edges m' !! x = mk_edges m !! x).
  Proof.
    revert m. induction es as [|[s t] es IH]; intros m Hmn Hnd Hout.
    { exists m. split_and!; try done. intros u v Huv. by apply elem_of_nil in Huv. }
    change (endpoints ((s, t) :: es)) with (s :: t :: endpoints es) in *.
    apply NoDup_cons in Hnd as [Hs Hnd]. apply NoDup_cons in Hnd as [Ht Hnd].
    assert (Hst : s <> t) by (intros ->; apply Hs; left).
    assert (Hse : s ∉ endpoints es) by (intros ?; apply Hs; by right).
    cbn [mark_edges]. unfold mk_mark_edge.
    rewrite (Hout s) by left. cbn [cbind]. rewrite lookup_insert_ne by done.
    rewrite (Hout t) by (right; left). cbn [cbind].
    set (m1 := mkMarker (mk_nodes m) (<[t := [s]]> (<[s := [t]]> (mk_edges m)))).
    destruct (IH m1) as (m' & Hm & Hn' & H1 & H2); [done|done| |].
    { intros x Hx. cbn [mk_edges m1]. rewrite !lookup_insert_ne by (intros ->; done).
      apply Hout. by right; right. }
    exists m'. split_and!; [done|done| |].
    - intros u v [[= -> ->]|Huv]%elem_of_cons; [|by apply H1].
      rewrite !H2 by done. cbn [mk_edges m1]. rewrite lookup_insert.
      rewrite lookup_insert_ne by done. by rewrite lookup_insert.
    - intros x Hx. rewrite H2 by (intros ?; apply Hx; by right; right).
      cbn [mk_edges m1]. rewrite !lookup_insert_ne; [done|intros ->; apply Hx; left|intros ->; apply Hx; right; left].
  Qed.

  Lemma marker_start L : L ≡ₚ map_to_list p -> mark_edges mk_new (p_edges_of L) = Ok marker0.
  Proof.
    intros HL. destruct (mark_edges_spec (p_edges_of L) mk_new) as ([mn me] & -> & Hmn & H1 & H2).
    - done.
    - by apply (p_edges_nodup p (proj1 Hp)).
    - done.
    - cbn [mk_nodes mk_edges] in *. unfold marker0. f_equal. f_equal; [done|].
      apply map_eq. intros x. rewrite lookup_fmap. destruct (p !! x) as [y|] eqn:Ex.
      + cbn. destruct (proj1 Hp _ _ Ex) as [Ey Hne].
        destruct (decide (x < y)%N).
        * apply (H1 x y). by apply (p_edges_elem p L HL).
        * apply (H1 y x). apply (p_edges_elem p L HL). split; [done|lia].
      + rewrite H2; [done|]. rewrite (p_edges_endpoints p (proj1 Hp) L HL). by intros [? ?]; congruence.
  Qed.

  Lemma marker0_inv P : MInv g p P marker0.
  Proof.
    constructor.
    - intros u v Huv. apply hedge_alt. exists [v]. cbn [mk_edges marker0].
      rewrite lookup_fmap, Huv. split; [done|left].
    - intros u v (l & Hl & Hv)%hedge_alt. cbn [mk_edges marker0] in Hl. rewrite lookup_fmap in Hl.
      destruct (p !! u) as [y|]; [|done]. injection Hl as <-.
      apply elem_of_list_singleton in Hv as ->. by left.
    - intros v Hv. by apply elem_of_empty in Hv.
  Qed.

  Lemma add_roots_spec ids f : NoDup ids -> (forall x, x ∈ ids -> f_parents f !! x = None) ->
    exists f', add_roots f p ids = Ok f' /\
      (f_nodes f' = f_nodes f ++ filter (fun x => p !! x = None) ids) /\
      forall x, f_parents f' !! x =
        if bool_decide (x ∈ ids /\ p !! x = None) then Some (mkEntry None Even) else f_parents f !! x.
  Proof.
    revert f. induction ids as [|v ids IH]; intros f Hnd Hout.
    { exists f. split_and!; [done|by rewrite app_nil_r|]. intros x.
      rewrite bool_decide_eq_false_2; [done|]. intros [Hx _]. by apply elem_of_nil in Hx. }
    apply NoDup_cons in Hnd as [Hv Hnd]. cbn [add_roots]. unfold p_has_node.
    rewrite filter_cons.
    destruct (p !! v) as [y|] eqn:Ev.
    - rewrite (bool_decide_eq_true_2 (is_Some (Some y))) by (by eexists). cbn [cbind].
      destruct (IH f Hnd) as (f' & -> & Hn & Hl); [intros; apply Hout; by right|].
      exists f'. split_and!; [done|by rewrite decide_False|].
      intros x. rewrite Hl. apply (f_equal (fun b : bool => if b then _ else _)).
      apply bool_decide_ext. rewrite elem_of_cons. split; [tauto|].
      intros [[->|?] ?]; [congruence|done].
    - rewrite (bool_decide_eq_false_2 (is_Some None)) by (by intros [? ?]).
      unfold f_add_root. rewrite (Hout v) by left. cbn [cbind].
      destruct (IH (mkForest (<[v:=mkEntry None Even]> (f_parents f)) (f_nodes f ++ [v])) Hnd)
        as (f' & -> & Hn & Hl).
      { intros x Hx. cbn [f_parents]. rewrite lookup_insert_ne by (intros ->; done).
        apply Hout. by right. }
      exists f'. split_and!; [done| |].
      + rewrite decide_True by done. rewrite Hn. cbn [f_nodes]. by rewrite <-app_assoc.
      + intros x. rewrite Hl. cbn [f_parents]. destruct (decide (x = v)) as [->|Hx].
        * rewrite (bool_decide_eq_false_2 (v ∈ ids /\ _)) by tauto.
          rewrite lookup_insert. rewrite bool_decide_eq_true_2; [done|]. split; [left|done].
        * rewrite lookup_insert_ne by done.
          apply (f_equal (fun b : bool => if b then _ else _)).
          apply bool_decide_ext. rewrite elem_of_cons. tauto.
  Qed.

  Lemma forest_start : exists f, add_roots f_new p (g_nodes g) = Ok f /\ FInv g p f.
  Proof.
    destruct (add_roots_spec (g_nodes g) f_new (law_nodes g Hg)) as (f & Hf & Hn & Hl); [done|].
    exists f. split; [done|]. cbn [f_nodes f_parents f_new app] in Hn, Hl.
    assert (Hl' : forall x e, f_parents f !! x = Some e -> e = mkEntry None Even /\ x ∈ g_nodes g /\ p !! x = None).
    { intros x e He. rewrite Hl in He. case_bool_decide as Hx; [|done].
      injection He as <-. tauto. }
    constructor.
    - rewrite Hn. apply NoDup_filter, Hg.
    - intros x. rewrite Hn, elem_of_list_filter, Hl. case_bool_decide as Hx.
      + split; [by eexists|tauto].
      + split; [tauto|by intros [? ?]].
    - intros x [e He]. exists [x]. apply Hl' in He as He'. destruct He' as (-> & _). by econstructor.
    - intros x par Hx. by apply Hl' in Hx as ([= ->] & ? & ?).
    - intros x y Hx. by apply Hl' in Hx as (? & _).
    - intros x y Hx. by apply Hl' in Hx as (? & _).
    - intros x Hx Hpx. rewrite Hl, bool_decide_eq_true_2 by done. by eexists.
  Qed.

  (** *** An exhausted search certifies optimality *)

  Lemma exhausted_shape f m : FInv g p f -> MInv g p (f_parents f) m ->
    (forall v, even_in (f_parents f) v -> v ∈ mk_nodes m) ->
    exists O U E, cert g p O (U :: ((fun x => [x]) <$> E)) /\
      (forall x, x ∈ O <-> odd_in (f_parents f) x) /\ (forall x, x ∈ E <-> even_in (f_parents f) x) /\
      Nat.even (length U) = true /\
      forall u v, even_in (f_parents f) u -> adj g u v -> odd_in (f_parents f) v.
  Proof.
    intros HF HM Hall. set (P := f_parents f) in *.
    set (isodd := fun x => match P !! x with Some (mkEntry _ Odd) => true | _ => false end).
    set (iseven := fun x => match P !! x with Some (mkEntry _ Even) => true | _ => false end).
    set (O := filter (fun x => isodd x = true) (g_nodes g)).
    set (E := filter (fun x => iseven x = true) (g_nodes g)).
    set (U := filter (fun x => P !! x = None) (g_nodes g)).
    assert (Hodd : forall x, isodd x = true <-> odd_in P x).
    { intros x. unfold isodd, odd_in. destruct (P !! x) as [[o []]|]; split; try done;
        try (by intros [? ?]). by eexists. }
    assert (Heven : forall x, iseven x = true <-> even_in P x).
    { intros x. unfold iseven, even_in. destruct (P !! x) as [[o []]|]; split; try done;
        try (by intros [? ?]). by eexists. }
    assert (Hnodes : forall x, is_Some (P !! x) -> x ∈ g_nodes g) by (intros; by eapply finv_nodes).
    assert (HO : forall x, x ∈ O <-> odd_in P x).
    { intros x. unfold O. rewrite elem_of_list_filter, Hodd. split; [tauto|].
      intros [o Ho]. split; [by exists o|apply Hnodes; by eexists]. }
    assert (HE : forall x, x ∈ E <-> even_in P x).
    { intros x. unfold E. rewrite elem_of_list_filter, Heven. split; [tauto|].
      intros [o Ho]. split; [by exists o|apply Hnodes; by eexists]. }
    assert (HU : forall x, x ∈ U <-> x ∈ g_nodes g /\ P !! x = None).
    { intros x. unfold U. rewrite elem_of_list_filter. tauto. }
    assert (Hee : forall u v, even_in P u -> adj g u v -> odd_in P v).
    { intros u v Hu Huv. apply Hall in Hu as Hum. apply (mi_node _ _ _ _ HM) in Hum as [_ Hum].
      apply Hum, (mi_edge _ _ _ _ HM) in Huv as [Hm|[[_ ?]|[? _]]]; [|done|].
      - destruct Hu as [[y|] Hu].
        + apply (fi_even _ _ _ HF) in Hu as (? & z & Hz). assert (y = v) as <- by congruence. by eexists.
        + apply (fi_root _ _ _ HF) in Hu as (_ & ? & _). congruence.
      - exfalso. by eapply even_odd_excl. }
    assert (Hconc : concat ((fun x : N => [x]) <$> E) = E).
    { clear. induction E as [|x l IH]; [done|]. rewrite fmap_cons. cbn [concat]. by rewrite IH. }
    assert (Hhal : halves ((fun x : N => [x]) <$> E) = 0).
    { clear. induction E as [|x l IH]; [done|]. rewrite fmap_cons.
      change (halves ([x] :: ?l')) with (length [x] / 2 + halves l'). rewrite IH. done. }
    assert (HlU : length U = 2 * (length (p_edges_of (map_to_list p)) - length O) /\
                  length O <= length (p_edges_of (map_to_list p))).
    { set (mate := fun x => match p !! x with Some y => y | None => x end).
      assert (Hmate : forall x, odd_in P x -> exists k, p !! x = Some k /\ mate x = k /\
        P !! k = Some (mkEntry (Some x) Even)).
      { intros x [[y|] Hx].
        - apply (fi_odd _ _ _ HF) in Hx as (_ & _ & k & Hk & Hk'). exists k.
          split_and!; try done. unfold mate. by rewrite Hk.
        - by apply (fi_root _ _ _ HF) in Hx as (? & _). }
      assert (Hperm : (map_to_list p).*1 ≡ₚ O ++ (mate <$> O) ++ U).
      { apply NoDup_Permutation.
        - apply NoDup_fst_map_to_list.
        - apply NoDup_app. split_and!; [by apply NoDup_filter, Hg| |].
          + intros x Hx%HO [Hx'|[_ Hx']%HU]%elem_of_app.
            * apply elem_of_list_fmap in Hx' as (y & -> & Hy%HO).
              destruct (Hmate y Hy) as (k & _ & Hk & Hk'). rewrite Hk in Hx.
              eapply even_odd_excl; [|exact Hx]. by eexists.
            * destruct Hx. congruence.
          + apply NoDup_app. split_and!.
            * apply NoDup_fmap_2_strong; [|by apply NoDup_filter, Hg].
              intros x y (k & Hk & Ek & _)%HO%Hmate (k' & Hk' & Ek' & _)%HO%Hmate Heq.
              assert (k = k') as <- by congruence.
              apply (proj1 Hp) in Hk as [Hk _]. apply (proj1 Hp) in Hk' as [Hk' _]. congruence.
            * intros x (y & -> & Hy%HO)%elem_of_list_fmap [_ Hx]%HU.
              destruct (Hmate y Hy) as (k & _ & Hk & Hk'). congruence.
            * by apply NoDup_filter, Hg.
        - intros x. rewrite !elem_of_app, HO, HU, (elem_of_list_fmap mate). split.
          + intros ([a b] & -> & Hab%elem_of_map_to_list)%elem_of_list_fmap. cbn [fst].
            destruct (P !! a) as [[o par]|] eqn:Ea.
            * destruct par; [|left; by exists o]. right. left. destruct o as [y|].
              -- apply (fi_even _ _ _ HF) in Ea as (Hy & z & Hz). exists y. rewrite HO.
                 split; [|by eexists]. unfold mate. apply (proj1 Hp) in Hy as [Hy _]. by rewrite Hy.
              -- apply (fi_root _ _ _ HF) in Ea as (_ & ? & _). congruence.
            * right. right. split; [|done]. apply Hp in Hab. apply law_adj_sym in Hab; [|done].
              by eapply law_adj_node.
          + assert (Hin : forall a b, p !! a = Some b -> a ∈ (map_to_list p).*1).
            { intros a b Hab. apply elem_of_list_fmap. exists (a, b).
              by rewrite elem_of_map_to_list. }
            intros [Hx|[(y & -> & Hy%HO)|[Hx HPx]]].
            * destruct (Hmate x Hx) as (k & Hk & _). eauto.
            * destruct (Hmate y Hy) as (k & Hk & -> & _). apply (proj1 Hp) in Hk as [Hk _]. eauto.
            * destruct (p !! x) as [y|] eqn:Ex; [eauto|].
              destruct (fi_free _ _ _ HF x Hx Ex). unfold P in *. congruence. }
      apply Permutation_length in Hperm. rewrite fmap_length, !app_length, fmap_length in Hperm.
      assert (Hord : p_order p = length (map_to_list p)) by done.
      pose proof (p_edges_length p (proj1 Hp) _ (reflexivity (map_to_list p))) as Hev.
      lia. }
    destruct HlU as [HlU HleO].
    exists O, U, E. split_and!; [|done|done| |exact Hee].
    2:{ rewrite HlU, Nat.even_mul. done. }
    constructor.
    - cbn [concat]. rewrite Hconc. apply NoDup_Permutation.
      + apply NoDup_app. split_and!; [by apply NoDup_filter, Hg| |].
        * intros x Hx%HO [Hx'%HU|Hx'%HE]%elem_of_app; [|by eapply even_odd_excl].
          destruct Hx, Hx'. congruence.
        * apply NoDup_app. split_and!; [by apply NoDup_filter, Hg| |by apply NoDup_filter, Hg].
          intros x Hx%HU [? Hx']%HE. destruct Hx. congruence.
      + apply Hg.
      + intros x. rewrite !elem_of_app, HO, HU, HE. split.
        * intros [[? ?]|[[? ?]|[? ?]]]; try done; apply Hnodes; by eexists.
        * intros Hx. destruct (P !! x) as [e|] eqn:Ex; [|auto].
          destruct (even_or_odd P x); [by eexists|auto..].
    - intros u v Hne Huv. rewrite !HO.
      destruct (P !! u) as [e|] eqn:Eu.
      { destruct (even_or_odd P u) as [He|?]; [by eexists| |auto]. right. left. eauto. }
      destruct (P !! v) as [e|] eqn:Ev.
      { destruct (even_or_odd P v) as [He|?]; [by eexists| |auto]. left.
        apply (Hee v u He). by apply law_adj_sym. }
      right. right. exists U. split_and!; [left| |].
      + apply HU. split; [|done]. apply law_adj_sym in Huv; [|done]. by eapply law_adj_node.
      + apply HU. split; [|done]. by eapply law_adj_node.
    - change (halves (U :: ?l)) with (length U / 2 + halves l). rewrite Hhal, Nat.add_0_r.
      assert (length U / 2 = length (p_edges_of (map_to_list p)) - length O).
      { rewrite HlU, Nat.mul_comm. by apply Nat.div_mul. }
      pose proof (p_edges_length p (proj1 Hp) _ (reflexivity (map_to_list p))) as Hev. lia.
  Qed.

  Lemma exhausted_cert f m : FInv g p f -> MInv g p (f_parents f) m ->
    (forall v, even_in (f_parents f) v -> v ∈ mk_nodes m) -> exists O Cs, cert g p O Cs.
  Proof. intros HF HM Hall. destruct (exhausted_shape f m HF HM Hall) as (O & U & E & H & _). eauto. Qed.

  (** *** The whole search *)

  Lemma degree_bound_exists : exists D, 0 < D /\ degree_bound D.
  Proof.
    set (deg := fun v => match g_neighbors g v with Ok l => length l | _ => 0 end).
    exists (S (max_list (deg <$> g_nodes g))). split; [lia|]. intros v l Hl.
    assert (Hv : v ∈ g_nodes g).
    { destruct (decide (v ∈ g_nodes g)); [done|]. by rewrite law_neighbors_err in Hl. }
    apply Nat.lt_succ_r. apply (max_list_elem_of_le). apply elem_of_list_fmap.
    exists v. split; [|done]. unfold deg. by rewrite Hl.
  Qed.

  Lemma search_start : exists f n r,
    add_roots f_new p (g_nodes g) = Ok f /\
    settles (fun fuel => search_v fuel g p f marker0) n (Ok r) /\
    match r with
    | Exhausted _ _ => exists O Cs, cert g p O Cs
    | EvenPath v pw f' => found v pw f'
    end.
  Proof.
    destruct forest_start as (f & Hf & HF). destruct degree_bound_exists as (D & H0 & HD).
    destruct (search_v_spec D (S (unmarked marker0)) f marker0) as (r & Hs & Hr);
      [done|done|lia|done|apply marker0_inv|].
    exists f, (D + S (unmarked marker0)), r. split_and!; [done|done|].
    destruct r as [f' m'|]; [|done]. destruct Hr as (? & ? & ?). by eapply exhausted_cert.
  Qed.
End search.

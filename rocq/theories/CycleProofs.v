(** Cut steps and cycles. *)
From Verif Require Import Outcome GraphModel TraversalModel ComponentsModel PairingModel Spec
  GraphProofs EditProofs ConvertProofs EqProofs TraversalProofs BfsProofs DfsProofs PathLemmas.

(** Discovered nodes descend from the root. *)
Lemma disc_ancestor r E v : cut_exact r E -> v ∈ discovered r E -> ancestor E r v.
Proof.
  intros Hc Hv. unfold discovered in Hv. apply elem_of_cons in Hv as [->|Hv]; [constructor|].
  apply elem_of_list_fmap in Hv as (s & -> & [Hcs [i Hi]%elem_of_list_lookup]%elem_of_list_filter).
  revert s Hcs Hi. induction i as [i IH] using lt_wf_ind. intros s Hcs Hi.
  assert (Hs : mkStep (sid s) (tid s) false ∈ E).
  { rewrite <-Hcs. destruct s. by eapply elem_of_list_lookup_2. }
  destruct (Hc i s Hi) as [_ [Hr|(j & x & Hj & Hx & Hcx & Heq)]].
  - rewrite Hr in Hs. by apply rtc_once.
  - eapply rtc_r; [|exact Hs]. rewrite <-Heq. by eapply IH.
Qed.

Lemma ancestor_mono E F a b : (forall s, s ∈ E -> s ∈ F) -> ancestor E a b -> ancestor F a b.
Proof. intros H. apply rtc_subrel. auto. Qed.

(** A connected relation has simple chains. *)
Lemma rtc_chain (R : N -> N -> Prop) u v : rtc R u v ->
  exists l, NoDup l /\ head l = Some u /\ last l = Some v /\
    (forall i a b, l !! i = Some a -> l !! S i = Some b -> R a b) /\
    (forall x, x ∈ l -> rtc R u x).
Proof.
  intros H. induction H as [x|x y z Hxy _ IH].
  { exists [x]. split_and!; [apply NoDup_singleton|done|done| |].
    - intros [|i] a b; simpl; [done|]. by rewrite lookup_nil.
    - intros w ->%elem_of_list_singleton. constructor. }
  destruct IH as (l & Hnd & Hh & Hl & Hp & Hin).
  destruct (decide (x ∈ l)) as [Hxl|Hxl].
  - apply elem_of_list_split in Hxl as (l1 & l2 & ->).
    exists (x :: l2). rewrite NoDup_app in Hnd. split_and!; try tauto.
    + by rewrite last_app_cons in Hl.
    + intros i a b Ha Hb. apply (Hp (length l1 + i)).
      * rewrite lookup_app_r by lia. by replace (length l1 + i - length l1) with i by lia.
      * rewrite lookup_app_r by lia. rewrite <-Hb. f_equal. lia.
    + intros w Hw. eapply rtc_l; [exact Hxy|]. apply Hin. rewrite elem_of_app. by right.
  - exists (x :: l). split_and!.
    + by constructor.
    + done.
    + by destruct l.
    + intros [|i] a b Ha Hb; simpl in *; [|by eapply Hp]. injection Ha as <-.
      destruct l as [|c l]; [done|]. simpl in *. congruence.
    + intros w [->|Hw]%elem_of_cons; [constructor|]. eapply rtc_l; [exact Hxy|]. by apply Hin.
Qed.

(** Two steps over one edge. *)
Lemma times_crossed_two E s s' : s ∈ E -> s' ∈ E -> s <> s' ->
  same_edge (sid s, tid s) (sid s', tid s') ->
  2 <= times_crossed (sid s, tid s) (crossed E).
Proof.
  intros Hs Hs' Hne He. unfold times_crossed.
  induction E as [|x E IH]; [by apply elem_of_nil in Hs|].
  change (crossed (x :: E)) with ((sid x, tid x) :: crossed E).
  rewrite filter_cons. apply elem_of_cons in Hs, Hs'.
  destruct Hs as [->|Hs], Hs' as [->|Hs']; [done|..].
  - rewrite decide_True by (by left). simpl. apply le_n_S.
    assert (0 < times_crossed (sid x, tid x) (crossed E)); [|done]. apply times_crossed_pos.
    exists (sid s', tid s'). split; [|done]. apply elem_of_list_fmap. by exists s'.
  - rewrite decide_True by done. simpl. apply le_n_S.
    assert (0 < times_crossed (sid s, tid s) (crossed E)); [|done]. apply times_crossed_pos.
    exists (sid s, tid s). split; [|by left]. apply elem_of_list_fmap. by exists s.
  - specialize (IH Hs Hs'). case_decide; simpl; lia.
Qed.

(** A cut step closes a cycle. *)
Lemma cut_on_cycle g r E V s : Lawful g -> TInv g r E V [] ->
  s ∈ E -> cut s = true -> sid s <> tid s -> on_cycle g (sid s).
Proof.
  intros Hg HT Hs Hc Hne. destruct (ti_emit _ _ _ _ _ HT s Hs) as (Hadj & HsV & HtV).
  set (R := fun a b => mkStep a b false ∈ E \/ mkStep b a false ∈ E).
  assert (Hsym : forall a b, rtc R a b -> rtc R b a).
  { intros a b H. induction H as [|x y z Hxy _ IH]; [constructor|]. eapply rtc_r; [done|].
    unfold R in *. tauto. }
  assert (Hroot : forall v, v ∈ V -> rtc R r v).
  { intros v Hv. rewrite (ti_disc _ _ _ _ _ HT) in Hv.
    apply disc_ancestor in Hv; [|apply (ti_cut _ _ _ _ _ HT)].
    eapply rtc_subrel; [|exact Hv]. intros a b Hab. by left. }
  assert (Hst : rtc R (sid s) (tid s)) by (etrans; [by apply Hsym, Hroot|by apply Hroot]).
  destruct (rtc_chain R _ _ Hst) as (l & Hnd & Hh & Hl & Hp & _).
  assert (HR : forall a b, R a b -> adj g a b).
  { intros a b [H|H]; apply (ti_emit _ _ _ _ _ HT) in H as (? & _); [done|]. by apply law_adj_sym. }
  exists l. split; [|destruct l; [done|]; injection Hh as ->; left]. split_and!; [|done| |].
  - destruct l as [|a [|b [|c l]]]; simpl in *; [done|congruence| |lia]. exfalso.
    injection Hh as ->. injection Hl as ->.
    pose proof (ti_once _ _ _ _ _ HT _ _ Hne) as Honce. rewrite app_nil_r in Honce.
    destruct (Hp 0 (sid s) (tid s) eq_refl eq_refl) as [H|H].
    + pose proof (times_crossed_two E s _ Hs H) as H2. simpl in H2.
      assert (2 <= times_crossed (sid s, tid s) (crossed E)); [|lia].
      apply H2; [intros Heq; rewrite Heq in Hc; done|by left].
    + pose proof (times_crossed_two E s _ Hs H) as H2. simpl in H2.
      assert (2 <= times_crossed (sid s, tid s) (crossed E)); [|lia].
      apply H2; [intros Heq; rewrite Heq in Hc; done|by right].
  - intros i a b Ha Hb. apply HR. by eapply Hp.
  - exists (sid s), (tid s). split_and!; [done|done|]. by apply law_adj_sym.
Qed.

Lemma cut_ring g r E V : Lawful g -> TInv g r E V [] ->
  (exists s, s ∈ E /\ cut s = true) -> has_ring g r.
Proof.
  intros Hg HT (s & Hs & Hc).
  destruct (ti_emit _ _ _ _ _ HT s Hs) as (Hadj & HsV & HtV).
  exists (sid s). split; [by apply (ti_reach _ _ _ _ _ HT)|].
  destruct (decide (sid s = tid s)) as [Heq|Hne].
  { left. by rewrite <-Heq in Hadj. }
  right. by eapply cut_on_cycle.
Qed.

(** A node of a cycle has two neighbors on it. *)
Lemma cycle_two g c v : Lawful g -> is_cycle g c -> v ∈ c ->
  exists u w, u <> w /\ u <> v /\ w <> v /\ u ∈ c /\ w ∈ c /\ adj g v u /\ adj g v w.
Proof.
  intros Hg (Hlen & Hnd & Hp & a & b & Hh & Hl & Hab) [i Hi]%elem_of_list_lookup.
  pose proof (lookup_lt_Some _ _ _ Hi) as Hlt.
  assert (Hb : c !! (length c - 1) = Some b).
  { rewrite last_lookup in Hl. rewrite <-Hl. f_equal. lia. }
  assert (Ha : c !! 0 = Some a) by (by rewrite <-head_lookup).
  assert (Hinj : forall j k x, c !! j = Some x -> c !! k = Some x -> j = k)
    by (intros j k x; by apply NoDup_lookup).
  assert (Hprev : exists j u, j < length c /\ c !! j = Some u /\ adj g v u /\
    ((0 < i /\ j = i - 1) \/ (i = 0 /\ j = length c - 1))).
  { destruct i as [|i].
    - exists (length c - 1), b. split_and!; [lia|done| |by right]. 
      rewrite Ha in Hi. injection Hi as <-. by apply law_adj_sym.
    - destruct (lookup_lt_is_Some_2 c i) as [u Hu]; [lia|]. exists i, u.
      split_and!; [lia|done| |left; lia]. apply law_adj_sym; [done|]. by eapply Hp. }
  assert (Hnext : exists j w, j < length c /\ c !! j = Some w /\ adj g v w /\
    ((S i < length c /\ j = S i) \/ (S i = length c /\ j = 0))).
  { destruct (decide (S i < length c)) as [Hs|Hs].
    - destruct (lookup_lt_is_Some_2 c (S i)) as [w Hw]; [lia|]. exists (S i), w.
      split_and!; [lia|done| |left; lia]. by eapply Hp.
    - exists 0, a. split_and!; [lia|done| |right; lia].
      assert (i = length c - 1) as -> by lia. rewrite Hb in Hi. by injection Hi as <-. }
  destruct Hprev as (j & u & Hj & Hu & Hvu & Hj'). destruct Hnext as (k & w & Hk & Hw & Hvw & Hk').
  exists u, w. split_and!; try done.
  - intros ->. pose proof (Hinj j k w Hu Hw). lia.
  - intros ->. pose proof (Hinj j i v Hu Hi). lia.
  - intros ->. pose proof (Hinj k i v Hw Hi). lia.
  - by eapply elem_of_list_lookup_2.
  - by eapply elem_of_list_lookup_2.
Qed.

(** The last element of a list with a given property. *)
Lemma last_such {A} (P : A -> Prop) `{!forall x, Decision (P x)} (l : list A) :
  (exists x, x ∈ l /\ P x) -> exists l1 x l2, l = l1 ++ x :: l2 /\ P x /\ forall y, y ∈ l2 -> ~ P y.
Proof.
  induction l as [|x l IH] using rev_ind; intros (y & Hy & HP); [by apply elem_of_nil in Hy|].
  destruct (decide (P x)) as [Hx|Hx].
  - exists l, x, []. split_and!; [done|done|]. intros z Hz. by apply elem_of_nil in Hz.
  - destruct IH as (l1 & z & l2 & -> & Hz & Hl2).
    { apply elem_of_app in Hy as [Hy| ->%elem_of_list_singleton]; [by exists y|done]. }
    exists l1, z, (l2 ++ [x]). split_and!; [by rewrite <-app_assoc|done|].
    intros w [Hw| ->%elem_of_list_singleton]%elem_of_app; [by apply Hl2|done].
Qed.

Lemma noncut_order r E s : cut_exact r E -> s ∈ E -> cut s = false ->
  exists m1 m2, discovered r E = m1 ++ tid s :: m2 /\ sid s ∈ m1.
Proof.
  intros Hc Hs Hcs. apply elem_of_list_split in Hs as (E1 & E2 & ->).
  exists (discovered r E1), (tid <$> filter (fun x => cut x = false) E2). split.
  - unfold discovered. rewrite filter_app, filter_cons, decide_True, fmap_app, fmap_cons by done. done.
  - destruct (Hc (length E1) s) as [_ Hsid]; [by rewrite lookup_app_r, Nat.sub_diag by lia|].
    destruct Hsid as [->|(j & x & Hj & Hx & Hcx & <-)]; [left|].
    rewrite lookup_app_l in Hx by lia. right. apply elem_of_list_fmap. exists x. split; [done|].
    apply elem_of_list_filter. split; [done|]. by eapply elem_of_list_lookup_2.
Qed.

Lemma noncut_unique r E s s' : NoDup (discovered r E) -> s ∈ E -> s' ∈ E ->
  cut s = false -> cut s' = false -> tid s = tid s' -> s = s'.
Proof.
  intros Hnd Hs Hs' Hc Hc' Ht. unfold discovered in Hnd. apply NoDup_cons in Hnd as [_ Hnd].
  assert (H1 : s ∈ filter (fun x => cut x = false) E) by (by apply elem_of_list_filter).
  assert (H2 : s' ∈ filter (fun x => cut x = false) E) by (by apply elem_of_list_filter).
  apply elem_of_list_lookup in H1 as [i Hi]. apply elem_of_list_lookup in H2 as [j Hj].
  assert (i = j) as ->; [|congruence].
  eapply (NoDup_lookup _ i j (tid s) Hnd); rewrite list_lookup_fmap.
  - by rewrite Hi.
  - rewrite Hj. simpl. by rewrite Ht.
Qed.

(** Without cut steps and with nothing left out there is no cycle. *)
Lemma covered_no_ring g r E V : Lawful g -> TInv g r E V [] ->
  (forall v w, v ∈ V -> adj g v w -> exists e, e ∈ crossed E /\ same_edge (v, w) e) ->
  (forall s, s ∈ E -> cut s = false) -> ~ has_ring g r.
Proof.
  intros Hg HT Hcov Hnc (v & Hv & Hring).
  pose proof (ti_cut _ _ _ _ _ HT) as Hce. pose proof (ti_nodup _ _ _ _ _ HT) as Hnd.
  assert (Hclosed : forall v, reachable g r v -> v ∈ V).
  { assert (HrV : r ∈ V) by (apply (ti_disc _ _ _ _ _ HT); left).
    assert (Hcl : forall a b, rtc (adj g) a b -> a ∈ V -> b ∈ V); [|intros x Hx; by eapply Hcl].
    intros a b Hab. induction Hab as [|x y z Hxy _ IH]; [done|]. intros Hx. apply IH.
    destruct (Hcov x y Hx Hxy) as (e & He & Hs).
    apply elem_of_list_fmap in He as (s & -> & He).
    destruct (ti_emit _ _ _ _ _ HT s He) as (_ & ? & ?).
    destruct Hs as [[= ? ?]|[= ? ?]]; by subst. }
  assert (Hstep : forall a b, a ∈ V -> adj g a b ->
    mkStep a b false ∈ E \/ mkStep b a false ∈ E).
  { intros a b Ha Hab. destruct (Hcov a b Ha Hab) as (e & He & Hs).
    apply elem_of_list_fmap in He as (s & -> & He). pose proof (Hnc s He) as Hcs.
    destruct s as [x y c]. simpl in *. subst c.
    destruct Hs as [[= <- <-]|[= -> ->]]; [by left|by right]. }
  destruct Hring as [Hloop|(c & Hc & Hvc)].
  { assert (H : mkStep v v false ∈ E) by (destruct (Hstep v v); auto).
    destruct (noncut_order r E _ Hce H eq_refl) as (m1 & m2 & Heq & Hin). simpl in *.
    rewrite Heq in Hnd. apply NoDup_app in Hnd as (_ & Hd & _). apply (Hd v Hin). left. }
  assert (HcV : forall x, x ∈ c -> x ∈ discovered r E).
  { intros x Hx. apply (ti_disc _ _ _ _ _ HT), Hclosed.
    assert (Hcl : forall a b, a ∈ c -> b ∈ c -> reachable g a b).
    { destruct Hc as (_ & _ & Hp & _). intros a b [i Hi]%elem_of_list_lookup [j Hj]%elem_of_list_lookup.
      assert (Hle : forall k i j a b, j = i + k -> c !! i = Some a -> c !! j = Some b -> reachable g a b).
      { clear -Hp. induction k as [|k IH]; intros i j a b -> Ha Hb.
        - rewrite Nat.add_0_r in Hb. rewrite Ha in Hb. injection Hb as ->. constructor.
        - pose proof (lookup_lt_Some _ _ _ Hb). destruct (lookup_lt_is_Some_2 c (S i)) as [x Hx]; [lia|].
          eapply rtc_l; [by eapply (Hp i)|]. eapply (IH (S i)); [|done|exact Hb]. lia. }
      destruct (decide (i <= j)); [by eapply (Hle (j - i) i j); [lia|..]|].
      assert (Hr : reachable g b a) by (by eapply (Hle (i - j) j i); [lia|..]).
      clear -Hr Hg. unfold reachable in *. induction Hr as [|x y z Hxy _ IH]; [constructor|].
      eapply rtc_r; [exact IH|]. by apply law_adj_sym. }
    unfold reachable in *. etrans; [exact Hv|]. by apply Hcl. }
  destruct (last_such (fun x => x ∈ c) (discovered r E)) as (l1 & z & l2 & Hd & Hz & Hl2).
  { exists v. split; [by apply HcV|done]. }
  destruct (cycle_two g c z Hg Hc Hz) as (u & w & Huw & Huz & Hwz & Hu & Hw & Hzu & Hzw).
  assert (Hinto : forall x, x ∈ c -> x <> z -> adj g z x -> mkStep x z false ∈ E).
  { intros x Hx Hxz Hzx. destruct (Hstep z x) as [H|H]; [|done| |done].
    { apply Hclosed. apply (ti_reach _ _ _ _ _ HT), (ti_disc _ _ _ _ _ HT), HcV. done. }
    exfalso. destruct (noncut_order r E _ Hce H eq_refl) as (m1 & m2 & Heq & Hin). simpl in *.
    assert (Hx1 : x ∈ l1).
    { pose proof (HcV x Hx) as Hxd. rewrite Hd in Hxd. rewrite elem_of_app, elem_of_cons in Hxd.
      destruct Hxd as [?|[?|?]]; [done|done|]. exfalso. by apply (Hl2 x). }
    apply elem_of_list_lookup in Hx1 as [i Hi]. apply elem_of_list_lookup in Hin as [j Hj].
    pose proof (lookup_lt_Some _ _ _ Hi). pose proof (lookup_lt_Some _ _ _ Hj).
    assert (i = length m1).
    { eapply (NoDup_lookup _ _ _ x Hnd); [rewrite Hd; by apply lookup_app_l_Some|].
      rewrite Heq. by rewrite lookup_app_r, Nat.sub_diag by lia. }
    assert (j = length l1).
    { eapply (NoDup_lookup _ _ _ z Hnd); [rewrite Heq; by apply lookup_app_l_Some|].
      rewrite Hd. by rewrite lookup_app_r, Nat.sub_diag by lia. }
    lia. }
  pose proof (noncut_unique r E _ _ Hnd (Hinto u Hu Huz Hzu) (Hinto w Hw Hwz Hzw)
    eq_refl eq_refl eq_refl) as [= ->]. done.
Qed.

(** ** Breadth first: a cut step appears exactly when there is a cycle *)

Definition all_covered (g : Graph) (E : list Step) (V : gset N) (Q : list (N * N)) : Prop :=
  forall v w, v ∈ V -> adj g v w -> exists e, e ∈ crossed E ++ Q /\ same_edge (v, w) e.

Lemma all_covered_new g r : all_covered g [] {[r]} ((fun x => (r, x)) <$> nbrs g r).
Proof.
  intros v w ->%elem_of_singleton Hadj. exists (r, w). split; [|by left].
  simpl. apply elem_of_list_fmap. exists w. split; [done|]. by apply adj_nbrs.
Qed.

Lemma all_covered_bfs g E t s t' : Lawful g ->
  all_covered g E (bf_nodes t) (bf_queue t) -> bfs_next g t = Ok (Some s, t') ->
  all_covered g (E ++ [s]) (bf_nodes t') (bf_queue t').
Proof.
  intros Hg HJ (p & n & rest & HQ & [(Hn & -> & ->)|(Hn & -> & ->)])%bfs_next_inv; simpl;
    unfold all_covered in *; rewrite HQ in HJ; rewrite crossed_app; simpl.
  - intros v w Hv Ha. destruct (HJ v w Hv Ha) as (e & He & Hs).
    exists e. by rewrite <-app_assoc.
  - assert (Hold : forall e, e ∈ crossed E ++ (p, n) :: rest -> forall l,
      e ∈ (crossed E ++ [(p, n)]) ++ rest ++ l) by (intros; set_solver).
    intros v w [->%elem_of_singleton|Hv]%elem_of_union Ha.
    + destruct (decide (w = p)) as [->|Hwp].
      { exists (p, n). split; [set_solver|]. by right. }
      destruct (decide (w ∈ bf_nodes t)) as [Hw|Hw].
      * destruct (HJ w n Hw) as (e & He & Hs); [by apply law_adj_sym|].
        exists e. split; [by apply Hold|].
        destruct Hs as [<-|Hs]; [by right|]. left. destruct e; simpl in *. congruence.
      * exists (n, w). split; [|by left]. rewrite !elem_of_app. right; right.
        apply elem_of_list_fmap. exists w. split; [done|]. apply elem_of_list_filter.
        split; [done|]. by apply adj_nbrs.
    + destruct (HJ v w Hv Ha) as (e & He & Hs). exists e. split; [by apply Hold|done].
Qed.

Lemma bool_all_cut (E : list Step) :
  (exists s, s ∈ E /\ cut s = true) \/ (forall s, s ∈ E -> cut s = false).
Proof.
  induction E as [|x E [(s & Hs & Hc)|H]].
  - right. intros s Hs. by apply elem_of_nil in Hs.
  - left. exists s. split; [by right|done].
  - destruct (cut x) eqn:Ex.
    + left. exists x. split; [left|done].
    + right. intros s [->|Hs]%elem_of_cons; [done|by apply H].
Qed.

Lemma bfs_cut_iff_ring g r steps : Lawful g -> breadth_first g r steps ->
  (exists s, s ∈ steps /\ cut s = true) <-> has_ring g r.
Proof.
  intros Hg Hb. pose proof (bfs_root g r steps Hg Hb) as Hr.
  destruct (bfs_run g Hg r (all_covered g) Hr) as (steps' & V & Hb' & HT & HJ).
  - apply all_covered_new.
  - intros E t s t' _ HJ Hn _. by eapply all_covered_bfs.
  - rewrite (breadth_first_fun g r steps steps' Hb Hb'). split; [by eapply cut_ring|].
    intros Hring. destruct (bool_all_cut steps') as [?|Hnc]; [done|]. exfalso.
    eapply (covered_no_ring g r steps' V); [done|done| |done|done].
    intros v w Hv Ha. destruct (HJ v w Hv Ha) as (e & He & Hs). rewrite app_nil_r in He. eauto.
Qed.

(** ** Depth first *)

Lemma dfs_next_inv g t s t' : dfs_next g t = Ok (Some s, t') ->
  exists p n rest, df_stack t = (p, n) :: rest /\
    ((n ∈ df_nodes t /\ s = mkStep p n true /\ t' = mkDF (df_nodes t) rest) \/
     (n ∉ df_nodes t /\ s = mkStep p n false /\
      t' = mkDF ({[n]} ∪ df_nodes t)
             (foldl (dfs_push (df_nodes t) p n) rest (reverse (nbrs g n))))).
Proof.
  unfold dfs_next. destruct t as [V [|[p n] rest]]; simpl; [done|]. intros H.
  exists p, n, rest. split; [done|]. case_bool_decide as Hn.
  - left. by simplify_eq.
  - right. apply cbind_ok in H as (l & Hl%unwrap_ok & H). simplify_eq. split_and!; [done|done|].
    unfold nbrs. by rewrite Hl.
Qed.

Lemma dfs_push_keep V p n l rest e :
  e ∈ rest -> (forall x, x ∈ l -> x <> p -> x ∈ V -> e.1 <> x /\ e.2 <> n) ->
  e ∈ foldl (dfs_push V p n) rest l.
Proof.
  revert rest. induction l as [|x l IH]; intros rest He H; [done|]. simpl. apply IH.
  - unfold dfs_push. case_bool_decide; [done|]. apply elem_of_cons. right.
    case_bool_decide; [|done]. apply elem_of_list_filter. split; [|done]. apply H; [left|done|done].
  - intros y Hy. apply H. by right.
Qed.

Lemma dfs_push_new V p n l rest y : n ∉ V ->
  y ∈ l -> y <> p -> y <> n -> (n, y) ∈ foldl (dfs_push V p n) rest l.
Proof.
  intros Hn Hy Hyp Hyn. apply elem_of_list_split in Hy as (l1 & l2 & ->).
  rewrite foldl_app. simpl. apply dfs_push_keep.
  - unfold dfs_push. rewrite bool_decide_eq_false_2 by done. left.
  - intros x _ _ Hx. simpl. split; [|done]. intros ->. done.
Qed.

Lemma dfs_push_fresh' V p n l rest :
  (forall x, x ∈ l -> x <> p -> x ∉ V) ->
  foldl (dfs_push V p n) rest (reverse l) =
  ((fun x => (n, x)) <$> filter (fun x => x <> p) l) ++ rest.
Proof.
  intros Hf. induction l as [|x l IH]; [done|].
  rewrite reverse_cons, foldl_app, IH by (intros; apply Hf; [by right|done]).
  cbn [foldl]. unfold dfs_push at 1. rewrite filter_cons.
  case_bool_decide as Hx.
  - rewrite decide_False by tauto. done.
  - rewrite decide_True by done. rewrite bool_decide_eq_false_2; [done|].
    apply Hf; [left|done].
Qed.

(** As long as nothing has been cut, or is about to be, nothing is left out. *)
Definition cut_or_covered (g : Graph) (E : list Step) (V : gset N) (Q : list (N * N)) : Prop :=
  (exists s, s ∈ E /\ cut s = true) \/ (exists a b, (a, b) ∈ Q /\ b ∈ V) \/ all_covered g E V Q.

Lemma cut_or_covered_step g E t s t' : Lawful g ->
  cut_or_covered g E (df_nodes t) (df_stack t) -> dfs_next g t = Ok (Some s, t') ->
  cut_or_covered g (E ++ [s]) (df_nodes t') (df_stack t').
Proof.
  intros Hg HJ (p & n & rest & HQ & [(Hn & -> & ->)|(Hn & -> & ->)])%dfs_next_inv;
    cbn [df_nodes df_stack]; rewrite HQ in HJ.
  { left. exists (mkStep p n true). split; [set_solver|done]. }
  set (V := df_nodes t) in *.
  destruct HJ as [(s & Hs & Hc)|HJ]; [left; exists s; set_solver|right].
  destruct (decide (Exists (fun x => x <> p /\ x ∈ V) (nbrs g n))) as [Hex|Hex].
  - left. apply Exists_exists in Hex as (x & Hx & Hxp & HxV). exists n, x. split; [|set_solver].
    apply dfs_push_new; [done|by rewrite elem_of_reverse|done|]. by intros ->.
  - rewrite <-Forall_Exists_neg in Hex. rewrite Forall_forall in Hex.
    rewrite dfs_push_fresh' by (intros x Hx Hxp HxV; by apply (Hex x Hx)).
    destruct HJ as [(a & b & Hab & Hb)|HJ].
    + left. exists a, b. split; [|set_solver]. apply elem_of_cons in Hab as [[= -> ->]|Hab]; [done|].
      apply elem_of_app. by right.
    + right. intros v w [->%elem_of_singleton|Hv]%elem_of_union Ha; rewrite crossed_app; simpl.
      * destruct (decide (w = p)) as [->|Hwp].
        { exists (p, n). split; [set_solver|by right]. }
        exists (n, w). split; [|by left]. rewrite !elem_of_app. right; left.
        apply elem_of_list_fmap. exists w. split; [done|]. apply elem_of_list_filter.
        split; [done|]. by apply adj_nbrs.
      * destruct (HJ v w Hv Ha) as (e & He & Hs). exists e. split; [|done]. set_solver.
Qed.

Lemma dfs_cut_iff_ring g r steps : Lawful g -> depth_first g r steps ->
  ((exists s, s ∈ steps /\ cut s = true) <-> has_ring g r) /\
  ((forall s, s ∈ steps -> cut s = false) ->
    forall u v, reachable g r u -> adj g u v -> times_crossed (u, v) (crossed steps) = 1).
Proof.
  intros Hg Hb. pose proof (dfs_root g r steps Hg Hb) as Hr.
  destruct (dfs_run g Hg r (cut_or_covered g) Hr) as (steps' & V & Hb' & HT & HJ).
  { right; right. apply all_covered_new. }
  { intros E t s t' _ HJ Hn _. by eapply cut_or_covered_step. }
  rewrite (depth_first_fun g r steps steps' Hb Hb'). clear dependent steps. rename steps' into steps.
  assert (Hcov : (forall s, s ∈ steps -> cut s = false) ->
    forall v w, v ∈ V -> adj g v w -> exists e, e ∈ crossed steps /\ same_edge (v, w) e).
  { intros Hnc v w Hv Ha. destruct HJ as [(s & Hs & Hc)|[(a & b & Hab & _)|HJ]].
    - by rewrite (Hnc s Hs) in Hc.
    - by apply elem_of_nil in Hab.
    - destruct (HJ v w Hv Ha) as (e & He & Hs). rewrite app_nil_r in He. eauto. }
  split; [split; [by eapply cut_ring|]|].
  - intros Hring. destruct (bool_all_cut steps) as [?|Hnc]; [done|]. exfalso.
    by eapply (covered_no_ring g r steps V); [..|exact Hring]; auto.
  - intros Hnc u v Hu Huv. specialize (Hcov Hnc).
    assert (HV : forall v, reachable g r v -> v ∈ V).
    { assert (HrV : r ∈ V) by (apply (ti_disc _ _ _ _ _ HT); left).
    assert (Hcl : forall a b, rtc (adj g) a b -> a ∈ V -> b ∈ V); [|intros x Hx; by eapply Hcl].
    intros a b Hab. induction Hab as [|x y z Hxy _ IH]; [done|]. intros Hx. apply IH.
    destruct (Hcov x y Hx Hxy) as (e & He & Hs).
      apply elem_of_list_fmap in He as (s & -> & He).
      destruct (ti_emit _ _ _ _ _ HT s He) as (_ & ? & ?).
      destruct Hs as [[= ? ?]|[= ? ?]]; by subst. }
    assert (Hne : u <> v).
    { intros ->. eapply (covered_no_ring g r steps V); [done|done|done|done|].
      exists v. auto. }
    pose proof (ti_once _ _ _ _ _ HT u v Hne) as H1. rewrite app_nil_r in H1.
    assert (0 < times_crossed (u, v) (crossed steps)); [|lia].
    apply times_crossed_pos. by apply Hcov; [apply HV|].
Qed.

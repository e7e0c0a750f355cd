(** Breadth-first traversal: completeness and distances. *)
From Verif Require Import Outcome GraphModel TraversalModel ComponentsModel PairingModel Spec
  GraphProofs EditProofs ConvertProofs EqProofs TraversalProofs.

Section bfs.
  Context (g : Graph) (Hg : Lawful g) (r : N) (Hr : r ∈ g_nodes g).

  Definition covers (E : list Step) (V : gset N) (Q : list (N * N)) : Prop :=
    forall v w, v ∈ V -> w <> v -> adj g v w ->
      exists e, e ∈ crossed E ++ Q /\ same_edge (v, w) e.

  Definition levels (E : list Step) (V : gset N) (Q : list (N * N)) : Prop :=
    exists (L : N -> nat) (k : nat),
      (forall v, v ∈ V -> distance g r v (L v)) /\
      StronglySorted le (map (fun q => L q.1) Q) /\
      (forall q, q ∈ Q -> k <= L q.1) /\
      (forall v, v ∈ V -> L v <= S k) /\
      (forall m w, walk g m r w -> m <= k -> w ∈ V) /\
      StronglySorted le (map L (discovered r E)) /\
      (forall s, s ∈ E -> cut s = false -> L (tid s) = S (L (sid s))).

  Lemma bfs_next_inv t s t' : bfs_next g t = Ok (Some s, t') ->
    exists p n rest, bf_queue t = (p, n) :: rest /\
      ((n ∈ bf_nodes t /\ s = mkStep p n true /\ t' = mkBF (bf_nodes t) rest) \/
       (n ∉ bf_nodes t /\ s = mkStep p n false /\
        t' = mkBF ({[n]} ∪ bf_nodes t)
          (rest ++ ((fun x => (n, x)) <$>
             filter (fun x => x <> p /\ x ∉ bf_nodes t) (nbrs g n))))).
  Proof.
    unfold bfs_next. destruct t as [V [|[p n] rest]]; simpl; [done|]. intros H.
    exists p, n, rest. split; [done|]. case_bool_decide as Hn.
    - left. by simplify_eq.
    - right. apply cbind_ok in H as (l & Hl%unwrap_ok & H). simplify_eq. split_and!; [done|done|].
      f_equal. unfold nbrs. rewrite Hl. apply bfs_push_spec.
  Qed.

  Lemma covers_new : covers [] {[r]} ((fun x => (r, x)) <$> nbrs g r).
  Proof.
    intros v w ->%elem_of_singleton Hne Hadj. exists (r, w). split; [|by left].
    simpl. apply elem_of_list_fmap. exists w. split; [done|]. by apply adj_nbrs.
  Qed.

  Lemma covers_step E t s t' :
    covers E (bf_nodes t) (bf_queue t) -> bfs_next g t = Ok (Some s, t') ->
    covers (E ++ [s]) (bf_nodes t') (bf_queue t').
  Proof.
    intros HJ (p & n & rest & HQ & [(Hn & -> & ->)|(Hn & -> & ->)])%bfs_next_inv; simpl;
      unfold covers in *; rewrite HQ in HJ; rewrite crossed_app; simpl.
    - intros v w Hv Hne Ha. destruct (HJ v w Hv Hne Ha) as (e & He & Hs).
      exists e. by rewrite <-app_assoc.
    - assert (Hold : forall e, e ∈ crossed E ++ (p, n) :: rest -> forall l,
        e ∈ (crossed E ++ [(p, n)]) ++ rest ++ l) by (intros; set_solver).
      intros v w [->%elem_of_singleton|Hv]%elem_of_union Hne Ha.
      + destruct (decide (w = p)) as [->|Hwp].
        { exists (p, n). split; [set_solver|]. by right. }
        destruct (decide (w ∈ bf_nodes t)) as [Hw|Hw].
        * destruct (HJ w n Hw) as (e & He & Hs); [done|by apply law_adj_sym|].
          exists e. split; [by apply Hold|].
          destruct Hs as [<-|Hs]; [by right|]. left. destruct e; simpl in *. congruence.
        * exists (n, w). split; [|by left]. rewrite !elem_of_app. right; right.
          apply elem_of_list_fmap. exists w. split; [done|]. apply elem_of_list_filter.
          split; [done|]. by apply adj_nbrs.
      + destruct (HJ v w Hv Hne Ha) as (e & He & Hs). exists e. split; [by apply Hold|done].
  Qed.

  Lemma covers_closed E V : TInv g r E V [] -> covers E V [] ->
    forall v, reachable g r v -> v ∈ V.
  Proof.
    intros HI HJ v Hv. assert (HrV : r ∈ V) by (apply (ti_disc _ _ _ _ _ HI); left).
    revert HrV. generalize r as x, Hv. clear Hv. intros x Hv.
    induction Hv as [|x y z Hxy _ IH]; intros Hx; [done|].
    apply IH. destruct (decide (y = x)) as [->|Hne]; [done|].
    destruct (HJ x y Hx Hne Hxy) as (e & He & Hs). rewrite app_nil_r in He.
    apply elem_of_list_fmap in He as (s & -> & He).
    destruct (ti_emit _ _ _ _ _ HI s He) as (_ & ? & ?).
    destruct Hs as [[= ? ?]|[= ? ?]]; by subst.
  Qed.

  (** *** Levels *)

  Lemma levels_new : levels [] {[r]} ((fun x => (r, x)) <$> nbrs g r).
  Proof.
    exists (fun _ => 0), 0. split_and!.
    - intros v ->%elem_of_singleton. split; [constructor|lia].
    - induction (_ <$> _); simpl; constructor; [done|]. apply Forall_forall.
      intros x Hx. lia.
    - intros; lia.
    - intros; lia.
    - intros m w Hw Hm. assert (m = 0) as -> by lia. inversion Hw; subst. set_solver.
    - repeat constructor.
    - intros s Hs. by apply elem_of_nil in Hs.
  Qed.

  Lemma walk_snoc m u v : walk g (S m) u v -> exists w, walk g m u w /\ adj g w v.
  Proof.
    unfold walk. revert u. induction m as [|m IH]; intros u H.
    - inversion H as [|? ? y ? Ha Hs]; subst. inversion Hs; subst. exists u. split; [constructor|done].
    - inversion H as [|? ? y ? Ha Hs]; subst. destruct (IH y Hs) as (w & Hw & Hwv).
      exists w. split; [by eapply nsteps_l|done].
  Qed.

  Lemma levels_advance E V p n rest L k :
    TInv g r E V ((p, n) :: rest) -> covers E V ((p, n) :: rest) ->
    (forall v, v ∈ V -> distance g r v (L v)) ->
    StronglySorted le (map (fun q => L q.1) ((p, n) :: rest)) ->
    k <= L p ->
    (forall v, v ∈ V -> L v <= S k) ->
    (forall m w, walk g m r w -> m <= k -> w ∈ V) ->
    (forall v, v ∈ V -> L v <= S (L p)) /\
    (forall m w, walk g m r w -> m <= L p -> w ∈ V).
  Proof.
    intros HI HJ HL Hs Hk HV Hw.
    destruct (ti_pend _ _ _ _ _ HI p n) as [_ HpV]; [left|].
    pose proof (HV p HpV). split; [intros v Hv; specialize (HV v Hv); lia|].
    intros m w Hwalk Hm. destruct (decide (m <= k)); [by eapply Hw|].
    destruct m as [|m]; [lia|]. destruct (walk_snoc m r w Hwalk) as (u & Hu & Huw).
    assert (HuV : u ∈ V) by (apply (Hw m); [done|lia]).
    destruct (decide (w = u)) as [->|Hne]; [done|].
    destruct (HJ u w HuV Hne Huw) as ([a b] & [He|He]%elem_of_app & Hse).
    - apply elem_of_list_fmap in He as (s & [= -> ->] & He).
      destruct (ti_emit _ _ _ _ _ HI s He) as (_ & ? & ?).
      destruct Hse as [[= ? ?]|[= ? ?]]; by subst.
    - destruct Hse as [[= <- <-]|[= Hxa Hxb]]; [|subst].
      + assert (L p <= L u).
        { apply elem_of_cons in He as [[= -> ->]|He]; [done|].
          simpl in Hs. apply StronglySorted_inv in Hs as [_ Hf].
          rewrite Forall_forall in Hf. apply Hf.
          apply elem_of_list_fmap. by exists (u, w). }
        destruct (HL u HuV) as [_ Hmin]. specialize (Hmin m Hu). lia.
      + by eapply (ti_pend _ _ _ _ _ HI).
  Qed.

  Lemma StronglySorted_snoc (l : list nat) x :
    StronglySorted le l -> (forall y, y ∈ l -> y <= x) -> StronglySorted le (l ++ [x]).
  Proof.
    induction 1 as [|y l Hs IH Hf]; intros Hx; simpl; [repeat constructor|].
    constructor; [apply IH; intros; apply Hx; by right|].
    apply Forall_app. split; [done|]. constructor; [|constructor]. apply Hx. left.
  Qed.

  Lemma StronglySorted_app_const (l : list nat) {A} (k : list A) x :
    StronglySorted le l -> (forall y, y ∈ l -> y <= x) ->
    StronglySorted le (l ++ map (fun _ => x) k).
  Proof.
    intros Hl Hx. induction k as [|y k IH] using rev_ind; simpl; [by rewrite app_nil_r|].
    rewrite map_app, app_assoc. simpl. apply StronglySorted_snoc; [done|].
    intros z [?|Hz]%elem_of_app; [by apply Hx|].
    apply elem_of_list_fmap in Hz as (? & -> & _). done.
  Qed.

  Lemma levels_step E t s t' :
    TInv g r E (bf_nodes t) (bf_queue t) ->
    covers E (bf_nodes t) (bf_queue t) -> levels E (bf_nodes t) (bf_queue t) ->
    bfs_next g t = Ok (Some s, t') ->
    levels (E ++ [s]) (bf_nodes t') (bf_queue t').
  Proof.
    intros HI HJ (L & k0 & HL & Hs & Hk0 & HV0 & Hw0 & Hd & Ht)
      (p & n & rest & HQ & Hcase)%bfs_next_inv.
    rewrite HQ in *.
    destruct (levels_advance E (bf_nodes t) p n rest L k0) as [HV Hw]; try done.
    { apply (Hk0 (p, n)). left. }
    destruct (ti_pend _ _ _ _ _ HI p n) as [Hadj HpV]; [left|].
    simpl in Hs. apply StronglySorted_inv in Hs as [Hs Hf]. rewrite Forall_forall in Hf.
    assert (Hge : forall q, q ∈ rest -> L p <= L q.1).
    { intros q Hq. apply Hf. apply elem_of_list_fmap. by exists q. }
    clear k0 Hk0 HV0 Hw0 Hf.
    destruct Hcase as [(Hn & -> & ->)|(Hn & -> & ->)]; simpl.
    - exists L, (L p). rewrite discovered_snoc. cbn [cut]. rewrite app_nil_r.
      split_and!; try done.
      intros s [Hin| ->%elem_of_list_singleton]%elem_of_app Hc; [by apply Ht|done].
    - set (L' := fun x => if decide (x = n) then S (L p) else L x).
      assert (HL' : forall v, v ∈ bf_nodes t -> L' v = L v).
      { intros v Hv. unfold L'. destruct (decide (v = n)) as [->|]; done. }
      assert (HLn : L' n = S (L p)) by (unfold L'; by rewrite decide_True).
      assert (HQV : forall q, q ∈ rest -> q.1 ∈ bf_nodes t).
      { intros [a b] Hq. eapply (ti_pend _ _ _ _ _ HI). by right. }
      exists L', (L p). split_and!.
      + intros v [->%elem_of_singleton|Hv]%elem_of_union.
        * rewrite HLn. split.
          -- destruct (HL p HpV) as [Hwp _]. unfold walk in *. by eapply nsteps_r.
          -- intros m Hm. destruct (decide (S (L p) <= m)); [done|].
             exfalso. apply Hn, (Hw m); [done|lia].
        * rewrite HL' by done. by apply HL.
      + rewrite map_app.
        assert (Hrest : map (fun q => L' q.1) rest = map (fun q => L q.1) rest).
        { apply map_ext_in. intros q Hq%elem_of_list_In. by apply HL', HQV. }
        rewrite Hrest.
        assert (Hnew : forall l, map (fun q : N * N => L' q.1) ((fun x => (n, x)) <$> l) =
                  map (fun _ => S (L p)) l).
        { intros l. induction l as [|x l IH]; [done|]. simpl. by rewrite HLn, <-IH. }
        rewrite Hnew. apply StronglySorted_app_const; [done|].
        intros y (q & -> & Hq)%elem_of_list_fmap. by apply HV, HQV.
      + intros q [Hq|(x & -> & _)%elem_of_list_fmap]%elem_of_app.
        * rewrite HL' by (by apply HQV). by apply Hge.
        * simpl. rewrite HLn. lia.
      + intros v [->%elem_of_singleton|Hv]%elem_of_union; [rewrite HLn; lia|].
        rewrite HL' by done. by apply HV.
      + intros m w Hm Hle. apply elem_of_union_r. by eapply Hw.
      + rewrite discovered_snoc. cbn [cut tid]. rewrite map_app. cbn [map]. rewrite HLn.
        assert (Hdis : map L' (discovered r E) = map L (discovered r E)).
        { apply map_ext_in. intros v Hv%elem_of_list_In.
          apply HL'. by apply (ti_disc _ _ _ _ _ HI). }
        change (StronglySorted le (map L' (discovered r E) ++ [S (L p)])). rewrite Hdis.
        apply StronglySorted_snoc; [done|].
        intros y (v & -> & Hv)%elem_of_list_fmap. apply HV. by apply (ti_disc _ _ _ _ _ HI).
      + intros s [Hin| ->%elem_of_list_singleton]%elem_of_app Hc.
        * destruct (ti_emit _ _ _ _ _ HI s Hin) as (_ & ? & ?).
          rewrite !HL' by done. by apply Ht.
        * simpl. rewrite HLn, HL' by done. done.
  Qed.

  Lemma bfs_all : exists steps V, breadth_first g r steps /\ TInv g r steps V [] /\
    covers steps V [] /\ levels steps V [].
  Proof.
    destruct (bfs_run g Hg r (fun E V Q => covers E V Q /\ levels E V Q) Hr)
      as (steps & V & Hb & HI & HJ & HL).
    - split; [apply covers_new|apply levels_new].
    - intros E t s t' HI [HJ HL] Hn Hst. split; [by eapply covers_step|by eapply levels_step].
    - by exists steps, V.
  Qed.
End bfs.

(** ** Properties of the collected steps *)

Lemma bfs_root g r steps : Lawful g -> breadth_first g r steps -> r ∈ g_nodes g.
Proof.
  intros Hg (t & n & Ht & _). rewrite bfs_new_spec in Ht by done. by case_bool_decide.
Qed.

Lemma bfs_facts g r steps : Lawful g -> breadth_first g r steps ->
  exists V, TInv g r steps V [] /\ covers g steps V [] /\ levels g r steps V [].
Proof.
  intros Hg Hb. destruct (bfs_all g Hg r (bfs_root g r steps Hg Hb)) as (steps' & V & Hb' & H).
  rewrite (breadth_first_fun g r steps steps' Hb Hb'). eauto.
Qed.

Lemma bfs_total g r : Lawful g -> r ∈ g_nodes g -> exists steps, breadth_first g r steps.
Proof. intros Hg Hr. destruct (bfs_all g Hg r Hr) as (steps & V & Hb & _). eauto. Qed.

Lemma bfs_component g r steps : Lawful g -> breadth_first g r steps ->
  NoDup (discovered r steps) /\
  forall v, v ∈ discovered r steps <-> reachable g r v.
Proof.
  intros Hg Hb. destruct (bfs_facts g r steps Hg Hb) as (V & HI & HJ & _).
  split; [apply (ti_nodup _ _ _ _ _ HI)|]. intros v. rewrite <-(ti_disc _ _ _ _ _ HI). split.
  - apply (ti_reach _ _ _ _ _ HI).
  - eapply covers_closed; [exact HI|exact HJ].
Qed.

Lemma bfs_crosses g r steps : Lawful g -> breadth_first g r steps ->
  (forall s, s ∈ steps -> adj g (sid s) (tid s)) /\
  forall u v, u <> v -> adj g u v -> reachable g r u ->
    times_crossed (u, v) (crossed steps) = 1.
Proof.
  intros Hg Hb. destruct (bfs_facts g r steps Hg Hb) as (V & HI & HJ & _). split.
  - intros s Hs. by apply (ti_emit _ _ _ _ _ HI).
  - intros u v Hne Ha Hu. assert (HuV : u ∈ V) by (by eapply covers_closed).
    destruct (HJ u v HuV ltac:(done) Ha) as (e & He & Hs). rewrite app_nil_r in He.
    pose proof (ti_once _ _ _ _ _ HI u v Hne) as H. rewrite app_nil_r in H.
    assert (0 < times_crossed (u, v) (crossed steps)) by (apply times_crossed_pos; eauto). lia.
Qed.

Lemma distance_fun g u v n m : distance g u v n -> distance g u v m -> n = m.
Proof. intros [H1 H2] [H3 H4]. specialize (H2 m H3). specialize (H4 n H1). lia. Qed.

Lemma StronglySorted_lookup (l : list nat) i j a b :
  StronglySorted le l -> l !! i = Some a -> l !! j = Some b -> i <= j -> a <= b.
Proof.
  intros H. revert i j. induction H as [|x l Hs IH Hf]; intros i j Hi Hj Hij; [by rewrite lookup_nil in Hi|].
  destruct i as [|i], j as [|j]; simpl in *; simplify_eq; [lia| |lia|].
  - rewrite Forall_forall in Hf. apply Hf. by eapply elem_of_list_lookup_2.
  - eapply (IH i j); [done|done|lia].
Qed.

Lemma bfs_distances g r steps : Lawful g -> breadth_first g r steps ->
  (forall i j u v du dv, i <= j ->
     discovered r steps !! i = Some u -> discovered r steps !! j = Some v ->
     distance g r u du -> distance g r v dv -> du <= dv) /\
  (forall s d, s ∈ steps -> cut s = false -> distance g r (sid s) d ->
     distance g r (tid s) (S d)) /\
  (forall v, v ∈ discovered r steps -> exists d, distance g r v d).
Proof.
  intros Hg Hb. destruct (bfs_facts g r steps Hg Hb) as (V & HI & _ & (L & k & HL & _ & _ & _ & _ & Hd & Ht)).
  assert (HLd : forall v, v ∈ discovered r steps -> distance g r v (L v)).
  { intros v Hv. apply HL. by apply (ti_disc _ _ _ _ _ HI). }
  split_and!.
  - intros i j u v du dv Hij Hi Hj Hu Hv.
    rewrite (distance_fun g r u du (L u) Hu) by (apply HLd; by eapply elem_of_list_lookup_2).
    rewrite (distance_fun g r v dv (L v) Hv) by (apply HLd; by eapply elem_of_list_lookup_2).
    eapply (StronglySorted_lookup _ i j); [exact Hd|..|done].
    + by rewrite list_lookup_fmap, Hi.
    + by rewrite list_lookup_fmap, Hj.
  - intros s d Hs Hc Hds. destruct (ti_emit _ _ _ _ _ HI s Hs) as (_ & ? & ?).
    rewrite (distance_fun g r (sid s) d (L (sid s)) Hds) by (by apply HL).
    rewrite <-(Ht s Hs Hc). by apply HL.
  - eauto.
Qed.

(** Generic: cut counts. *)
Lemma length_cut_split (steps : list Step) :
  length steps = length (filter (fun s => cut s = true) steps) +
                 length (filter (fun s => cut s = false) steps).
Proof.
  induction steps as [|s steps IH]; [done|]. rewrite !filter_cons. destruct (cut s); simpl; lia.
Qed.

Lemma bfs_circuit_rank g r steps : Lawful g -> LoopFree g -> breadth_first g r steps ->
  length (filter (fun s => cut s = true) steps) + length (discovered r steps) =
  length (filter (fun e => e.1 ∈ discovered r steps) (g_edges g)) + 1.
Proof.
  intros Hg Hlf Hb. destruct (bfs_facts g r steps Hg Hb) as (V & HI & HJ & _).
  destruct (bfs_component g r steps Hg Hb) as [_ Hcomp].
  destruct (bfs_crosses g r steps Hg Hb) as [Hadj Hcross].
  unfold discovered at 1. simpl. rewrite fmap_length.
  pose proof (length_cut_split steps) as Hlen.
  assert (Hall : length steps = length (filter (fun e => e.1 ∈ discovered r steps) (g_edges g))).
  2:{ rewrite <-Hall. lia. }
  assert (Hp : (norm <$> crossed steps) ≡ₚ
               (norm <$> filter (fun e => e.1 ∈ discovered r steps) (g_edges g))).
  { apply NoDup_Permutation.
    - apply NoDup_alt. intros i j e Hi Hj. rewrite list_lookup_fmap in Hi, Hj.
      apply fmap_Some in Hi as ([a b] & Hi & He1). apply fmap_Some in Hj as (e2 & Hj & He2).
      destruct (decide (i = j)) as [|Hij]; [done|exfalso].
      assert (H1 : (a, b) ∈ crossed steps) by (by eapply elem_of_list_lookup_2).
      apply elem_of_list_fmap in H1 as (s & [= -> ->] & Hs).
      pose proof (Hadj s Hs) as Ha.
      assert (Hne : sid s <> tid s) by (intros Heq; rewrite Heq in Ha; by apply (Hlf (tid s))).
      pose proof (ti_once _ _ _ _ _ HI _ _ Hne) as Honce. rewrite app_nil_r in Honce.
      assert (Hs12 : same_edge (sid s, tid s) e2) by (apply norm_same_edge; congruence).
      assert (2 <= times_crossed (sid s, tid s) (crossed steps)); [|lia].
      clear -Hi Hj Hij Hs12. unfold times_crossed. 
      generalize dependent (sid s, tid s). intros f Hi Hs12. clear s.
      revert i j Hi Hj Hij. induction (crossed steps) as [|x l IH]; intros i j Hi Hj Hij.
      { by rewrite lookup_nil in Hi. }
      rewrite filter_cons. destruct i as [|i], j as [|j]; simpl in *; [lia|..].
      + injection Hi as ->. rewrite decide_True by (by left). simpl.
        assert (Hin : e2 ∈ filter (fun f' => same_edge f f') l).
        { apply elem_of_list_filter. split; [done|]. by eapply elem_of_list_lookup_2. }
        destruct (filter _ _); [by apply elem_of_nil in Hin|simpl; lia].
      + injection Hj as ->. rewrite decide_True by done. simpl.
        assert (Hin : f ∈ filter (fun f' => same_edge f f') l).
        { apply elem_of_list_filter. split; [by left|]. by eapply elem_of_list_lookup_2. }
        destruct (filter _ _); [by apply elem_of_nil in Hin|simpl; lia].
      + specialize (IH i j Hi Hj ltac:(lia)). case_decide; simpl; lia.
    - apply NoDup_fmap_2_strong; [|apply NoDup_filter, law_edges_nodup, Hg].
      intros [a b] [c d] [_ Hx]%elem_of_list_filter [_ Hy]%elem_of_list_filter Hn.
      apply norm_same_edge in Hn as [->|[= -> ->]]; [done|].
      by rewrite (law_edges_once g Hg d c Hx Hy).
    - intros e. split.
      + intros ([a b] & -> & (s & [= -> ->] & Hs)%elem_of_list_fmap)%elem_of_list_fmap.
        pose proof (Hadj s Hs) as Ha.
        assert (Hne : sid s <> tid s) by (intros Heq; rewrite Heq in Ha; by apply (Hlf (tid s))).
        destruct (ti_emit _ _ _ _ _ HI s Hs) as (_ & Hs1 & Hs2).
        rewrite (ti_disc _ _ _ _ _ HI) in Hs1, Hs2. apply elem_of_list_fmap.
        destruct (law_edges_complete g Hg _ _ Hne Ha) as [Hin|Hin].
        * eexists. split; [done|]. by apply elem_of_list_filter.
        * exists (tid s, sid s). split; [apply norm_same_edge; by right|].
          by apply elem_of_list_filter.
      + intros ([a b] & -> & [Hin He]%elem_of_list_filter)%elem_of_list_fmap. simpl in Hin.
        pose proof (law_edges_adj g Hg a b He) as Ha.
        assert (Hne : a <> b) by (intros ->; by apply (Hlf b)).
        assert (Hc : 0 < times_crossed (a, b) (crossed steps)).
        { rewrite Hcross; [lia|done|done|]. by apply Hcomp. }
        apply times_crossed_pos in Hc as (f & Hf & Hs). apply elem_of_list_fmap.
        exists f. split; [by apply norm_same_edge|done]. }
  apply Permutation_length in Hp. unfold crossed in Hp. by rewrite !fmap_length in Hp.
Qed.

Lemma bfs_cut_exact g r steps : Lawful g -> breadth_first g r steps -> cut_exact r steps.
Proof.
  intros Hg Hb. destruct (bfs_facts g r steps Hg Hb) as (V & HI & _). apply (ti_cut _ _ _ _ _ HI).
Qed.

(** Proofs about the nodes asked by traversals (C87). *)
From Verif Require Import Outcome GraphModel TraversalModel ComponentsModel PairingModel GreedyModel
  Spec SpecAdvance GraphProofs DfsProofs AdvanceProofs QueryModel SpecQuery.

Lemma abind_snd {A B} (m : asking A) (k : A -> asking B) : (abind m k).2 = cbind m.2 (fun a => (k a).2).
Proof. unfold abind. by destruct m.2. Qed.

Lemma abind_ok {A B} (m : asking A) (k : A -> asking B) qs b : abind m k = (qs, Ok b) ->
  exists q1 a q2, m = (q1, Ok a) /\ k a = (q2, Ok b) /\ qs = q1 ++ q2.
Proof.
  destruct m as [q1 [a| | |]]; cbn; [|done..]. intros H. exists q1, a. destruct (k a) as [q2 m2].
  injection H as <- <-. by exists q2.
Qed.

Lemma quiet_ok {A} (m : comp A) qs a : quiet m = (qs, Ok a) -> qs = [] /\ m = Ok a.
Proof. by intros [= <- ->]. Qed.

(** ** Same outcome *)

Lemma dfs_new_asks_same g r : (dfs_new_asks g r).2 = dfs_new g r.
Proof. unfold dfs_new_asks. rewrite abind_snd. done. Qed.
Lemma bfs_new_asks_same g r : (bfs_new_asks g r).2 = bfs_new g r.
Proof. unfold bfs_new_asks. rewrite abind_snd. done. Qed.
Lemma dfs_next_asks_same g t : (dfs_next_asks g t).2 = dfs_next g t.
Proof.
  unfold dfs_next_asks, dfs_next. destruct (df_stack t) as [|[p n] rest]; [done|].
  destruct (bool_decide _); [done|]. by rewrite abind_snd.
Qed.
Lemma bfs_next_asks_same g t : (bfs_next_asks g t).2 = bfs_next g t.
Proof.
  unfold bfs_next_asks, bfs_next. destruct (bf_queue t) as [|[p n] rest]; [done|].
  destruct (bool_decide _); [done|]. by rewrite abind_snd.
Qed.
Lemma dfs_advance_asks_same k g : forall t, (dfs_advance_asks k g t).2 = dfs_advance k g t.
Proof.
  induction k as [|k IH]; intros t; [done|]. cbn [dfs_advance_asks dfs_advance].
  rewrite abind_snd, dfs_next_asks_same. destruct (dfs_next g t) as [r| | |]; cbn [cbind]; [|done..].
  by rewrite abind_snd, IH.
Qed.
Lemma bfs_advance_asks_same k g : forall t, (bfs_advance_asks k g t).2 = bfs_advance k g t.
Proof.
  induction k as [|k IH]; intros t; [done|]. cbn [bfs_advance_asks bfs_advance].
  rewrite abind_snd, bfs_next_asks_same. destruct (bfs_next g t) as [r| | |]; cbn [cbind]; [|done..].
  by rewrite abind_snd, IH.
Qed.
Lemma dfs_run_asks_same k g r : (dfs_run_asks k g r).2 = let! t := dfs_new g r in dfs_advance k g t.
Proof.
  unfold dfs_run_asks. rewrite abind_snd, dfs_new_asks_same.
  destruct (dfs_new g r); cbn [cbind]; [|done..]. apply dfs_advance_asks_same.
Qed.
Lemma bfs_run_asks_same k g r : (bfs_run_asks k g r).2 = let! t := bfs_new g r in bfs_advance k g t.
Proof.
  unfold bfs_run_asks. rewrite abind_snd, bfs_new_asks_same.
  destruct (bfs_new g r); cbn [cbind]; [|done..]. apply bfs_advance_asks_same.
Qed.
Lemma dg_extend_dfs_asks_same fuel g : forall t d, (dg_extend_dfs_asks fuel g t d).2 = dg_extend_dfs fuel g t d.
Proof.
  induction fuel as [|fuel IH]; intros t d; [done|]. cbn [dg_extend_dfs_asks dg_extend_dfs].
  rewrite abind_snd, dfs_next_asks_same. destruct (dfs_next g t) as [[[s|] t']| | |]; cbn [cbind]; [|done..].
  rewrite abind_snd. cbn [quiet snd]. destruct (if dg_is_empty d then _ else _); cbn [cbind]; [|done..].
  rewrite abind_snd. cbn [quiet snd]. destruct (if cut s then _ else _); cbn [cbind]; [|done..].
  rewrite abind_snd. cbn [quiet snd]. destruct (local _); cbn [cbind]; [|done..]. apply IH.
Qed.
Lemma c_next_asks_same fuel g c : (c_next_asks fuel g c).2 = c_next fuel g c.
Proof.
  unfold c_next_asks, c_next. destruct (c_skip _ _) as [[r it]|]; [|done].
  rewrite abind_snd. unfold aunwrap at 1. cbn [snd]. rewrite dfs_new_asks_same.
  destruct (unwrap (dfs_new g r)) as [t| | |]; cbn [cbind]; [|done..].
  rewrite abind_snd. unfold aunwrap. cbn [snd]. unfold dg_try_from_dfs_asks, dg_try_from_dfs.
  rewrite dg_extend_dfs_asks_same.
  destruct (unwrap (dg_extend_dfs fuel g t dg_new)) as [d| | |]; cbn [cbind]; [|done..].
  destruct (dg_is_empty d); [|done]. by rewrite abind_snd.
Qed.
Lemma c_advance_asks_same fuel k g : forall c, (c_advance_asks fuel k g c).2 = c_advance fuel k g c.
Proof.
  induction k as [|k IH]; intros c; [done|]. cbn [c_advance_asks c_advance].
  rewrite abind_snd, c_next_asks_same. destruct (c_next fuel g c) as [r| | |]; cbn [cbind]; [|done..].
  by rewrite abind_snd, IH.
Qed.
Lemma greedy_loop_asks_same fuel g : forall c st, (greedy_loop_asks fuel g c st).2 = greedy_loop fuel g c st.
Proof.
  induction fuel as [|fuel IH]; intros c st; [done|]. cbn [greedy_loop_asks greedy_loop].
  rewrite abind_snd, c_next_asks_same.
  destruct (c_next (S fuel) g c) as [[[d|] c']| | |]; cbn [cbind]; [|done..].
  rewrite abind_snd. cbn [quiet snd]. destruct (expect_some _) as [r| | |]; cbn [cbind]; [|done..].
  rewrite abind_snd. cbn [quiet snd]. destruct (unwrap (dfs_new _ _)) as [t| | |]; cbn [cbind]; [|done..].
  rewrite abind_snd. cbn [quiet snd]. destruct (dfs_collect _ _ _) as [l| | |]; cbn [cbind]; [|done..].
  apply IH.
Qed.

(** ** Only what was asked matters *)


Lemma abind_agree {A B} g h (m m' : asking A) (k k' : A -> asking B) :
  agree g h (abind m k).1 -> (agree g h m.1 -> m' = m) ->
  (forall a, m.2 = Ok a -> agree g h (k a).1 -> k' a = k a) -> abind m' k' = abind m k.
Proof.
  intros Ha Hm Hk. unfold abind in *. destruct m as [q [a|e|e|]]; cbn [fst snd] in *;
    [|by rewrite (Hm Ha)..].
  rewrite Hm; [|intros v Hv; apply Ha; cbn; set_solver]. cbn [fst snd].
  rewrite Hk; [done|done|]. intros v Hv. apply Ha. cbn. set_solver.
Qed.

Lemma ask_agree g h v : agree g h (ask g v).1 -> ask h v = ask g v.
Proof. intros H. unfold ask. f_equal. symmetry. apply H. cbn. set_solver. Qed.
Lemma aunwrap_agree {A} g h (m m' : asking A) : (agree g h m.1 -> m' = m) ->
  agree g h (aunwrap m).1 -> aunwrap m' = aunwrap m.
Proof. intros H Ha. by rewrite H. Qed.

Lemma dfs_new_agree g h r : agree g h (dfs_new_asks g r).1 -> dfs_new_asks h r = dfs_new_asks g r.
Proof. intros H. apply (abind_agree g h _ _ _ _ H); [apply ask_agree|done]. Qed.
Lemma bfs_new_agree g h r : agree g h (bfs_new_asks g r).1 -> bfs_new_asks h r = bfs_new_asks g r.
Proof. intros H. apply (abind_agree g h _ _ _ _ H); [apply ask_agree|done]. Qed.
Lemma dfs_next_agree g h t : agree g h (dfs_next_asks g t).1 -> dfs_next_asks h t = dfs_next_asks g t.
Proof.
  unfold dfs_next_asks. destruct (df_stack t) as [|[p n] rest]; [done|].
  destruct (bool_decide _); [done|]. intros H. apply (abind_agree g h _ _ _ _ H); [|done].
  apply aunwrap_agree, ask_agree.
Qed.
Lemma bfs_next_agree g h t : agree g h (bfs_next_asks g t).1 -> bfs_next_asks h t = bfs_next_asks g t.
Proof.
  unfold bfs_next_asks. destruct (bf_queue t) as [|[p n] rest]; [done|].
  destruct (bool_decide _); [done|]. intros H. apply (abind_agree g h _ _ _ _ H); [|done].
  apply aunwrap_agree, ask_agree.
Qed.
Lemma dfs_advance_agree g h k : forall t, agree g h (dfs_advance_asks k g t).1 ->
  dfs_advance_asks k h t = dfs_advance_asks k g t.
Proof.
  induction k as [|k IH]; intros t H; [done|]. cbn [dfs_advance_asks] in *.
  apply (abind_agree g h _ _ _ _ H); [apply dfs_next_agree|]. intros r _ Hr.
  apply (abind_agree g h _ _ _ _ Hr); [apply IH|done].
Qed.
Lemma bfs_advance_agree g h k : forall t, agree g h (bfs_advance_asks k g t).1 ->
  bfs_advance_asks k h t = bfs_advance_asks k g t.
Proof.
  induction k as [|k IH]; intros t H; [done|]. cbn [bfs_advance_asks] in *.
  apply (abind_agree g h _ _ _ _ H); [apply bfs_next_agree|]. intros r _ Hr.
  apply (abind_agree g h _ _ _ _ Hr); [apply IH|done].
Qed.
Lemma dfs_run_agree g h k r : agree g h (dfs_run_asks k g r).1 -> dfs_run_asks k h r = dfs_run_asks k g r.
Proof.
  intros H. apply (abind_agree g h _ _ _ _ H); [apply dfs_new_agree|]. intros t _. apply dfs_advance_agree.
Qed.
Lemma bfs_run_agree g h k r : agree g h (bfs_run_asks k g r).1 -> bfs_run_asks k h r = bfs_run_asks k g r.
Proof.
  intros H. apply (abind_agree g h _ _ _ _ H); [apply bfs_new_agree|]. intros t _. apply bfs_advance_agree.
Qed.
Lemma dg_extend_agree g h fuel : forall t d, agree g h (dg_extend_dfs_asks fuel g t d).1 ->
  dg_extend_dfs_asks fuel h t d = dg_extend_dfs_asks fuel g t d.
Proof.
  induction fuel as [|fuel IH]; intros t d H; [done|]. cbn [dg_extend_dfs_asks] in *.
  apply (abind_agree g h _ _ _ _ H); [apply dfs_next_agree|]. intros [[s|] t'] _ H1; [|done].
  apply (abind_agree g h _ _ _ _ H1); [done|]. intros d1 _ H2.
  apply (abind_agree g h _ _ _ _ H2); [done|]. intros d2 _ H3.
  apply (abind_agree g h _ _ _ _ H3); [done|]. intros d3 _. apply IH.
Qed.
Lemma c_next_agree g h fuel c : agree g h (c_next_asks fuel g c).1 -> c_next_asks fuel h c = c_next_asks fuel g c.
Proof.
  unfold c_next_asks. destruct (c_skip _ _) as [[r it]|]; [|done]. intros H.
  apply (abind_agree g h _ _ _ _ H); [apply aunwrap_agree, dfs_new_agree|]. intros t _ H1.
  apply (abind_agree g h _ _ _ _ H1); [apply aunwrap_agree, dg_extend_agree|]. intros d _ H2.
  destruct (dg_is_empty d); [|done]. done.
Qed.
Lemma c_advance_agree g h fuel k : forall c, agree g h (c_advance_asks fuel k g c).1 ->
  c_advance_asks fuel k h c = c_advance_asks fuel k g c.
Proof.
  induction k as [|k IH]; intros c H; [done|]. cbn [c_advance_asks] in *.
  apply (abind_agree g h _ _ _ _ H); [apply c_next_agree|]. intros r _ Hr.
  apply (abind_agree g h _ _ _ _ Hr); [apply IH|done].
Qed.
Lemma greedy_agree g h fuel : forall c st, agree g h (greedy_loop_asks fuel g c st).1 ->
  greedy_loop_asks fuel h c st = greedy_loop_asks fuel g c st.
Proof.
  induction fuel as [|fuel IH]; intros c st H; [done|]. cbn [greedy_loop_asks] in *.
  apply (abind_agree g h _ _ _ _ H); [apply c_next_agree|]. intros [[d|] c'] _ H1; [|done].
  apply (abind_agree g h _ _ _ _ H1); [done|]. intros r _ H2.
  apply (abind_agree g h _ _ _ _ H2); [done|]. intros t _ H3.
  apply (abind_agree g h _ _ _ _ H3); [done|]. intros l _. apply IH.
Qed.

(** ** Which nodes are asked *)

Definition found (outs : list (option Step)) : list N :=
  tid <$> filter (fun s => cut s = false) (omap id outs).

Lemma found_cons o outs : found (o :: outs) = found [o] ++ found outs.
Proof.
  by destruct o as [[a b []]|].
Qed.
Lemma found_app l k : found (l ++ k) = found l ++ found k.
Proof.
  induction l as [|o l IH]; [done|]. cbn [app]. rewrite (found_cons o (l ++ k)), IH, (found_cons o l).
  by rewrite app_assoc.
Qed.

Section gen.
  Context {T : Type} (next : T -> asking (option Step * T)) (nodes : T -> gset N) (nb : N -> comp (list N)).
  Hypothesis Hok : forall t qs o t', next t = (qs, Ok (o, t')) ->
    qs = found [o] /\ NoDup qs /\ (forall v, v ∈ qs -> v ∉ nodes t) /\ nodes t' = nodes t ∪ list_to_set qs.
  Hypothesis Hbad : forall t qs m, next t = (qs, m) -> (forall r, m <> Ok r) ->
    exists x, qs = [x] /\ x ∉ nodes t /\ (forall l, nb x <> Ok l) /\ m = (let! l := unwrap (nb x) in NoFuel).

  Fixpoint gadvance_asks (k : nat) (t : T) : asking (list (option Step) * T) :=
    match k with
    | O => quiet (Ok ([], t))
    | S k' => ask! r := next t in
              ask! r' := gadvance_asks k' r.2 in
              quiet (Ok (r.1 :: r'.1, r'.2))
    end.

  Lemma gadvance_asks_ok k : forall t qs outs t', gadvance_asks k t = (qs, Ok (outs, t')) ->
    qs = found outs /\ NoDup qs /\ (forall v, v ∈ qs -> v ∉ nodes t) /\ nodes t' = nodes t ∪ list_to_set qs.
  Proof using Hok.
    induction k as [|k IH]; intros t qs outs t' H; cbn [gadvance_asks] in H.
    { apply quiet_ok in H as [-> [= <- <-]]. split_and!; [done|constructor|by intros v ?%elem_of_nil|]. cbn. by rewrite (right_id_L ∅ (∪)). }
    apply abind_ok in H as (q1 & [o t1] & q2 & H1 & H & ->).
    apply abind_ok in H as (q3 & [outs1 t2] & q4 & H2 & H & ->). cbn [fst snd] in *.
    apply quiet_ok in H as [-> [= <- <-]]. rewrite app_nil_r.
    apply Hok in H1 as (-> & Hd1 & Hn1 & Ht1). apply IH in H2 as (-> & Hd2 & Hn2 & Ht2).
    split_and!.
    - by rewrite (found_cons o outs1).
    - apply NoDup_app. split_and!; [done| |done]. intros v Hv Hv'. apply (Hn2 v Hv'). rewrite Ht1, elem_of_union, elem_of_list_to_set. by right.
    - intros v [Hv|Hv]%elem_of_app; [by apply Hn1|]. intros Hv'. apply (Hn2 v Hv). rewrite Ht1, elem_of_union. by left.
    - rewrite Ht2, Ht1, list_to_set_app_L. by rewrite (assoc_L (∪)).
  Qed.

  Lemma gadvance_asks_bad k : forall t qs m, gadvance_asks k t = (qs, m) -> (forall r, m <> Ok r) ->
    exists j outs t' x, j < k /\ gadvance_asks j t = (found outs, Ok (outs, t')) /\
      qs = found outs ++ [x] /\ x ∉ nodes t' /\ (forall l, nb x <> Ok l) /\
      m = (let! l := unwrap (nb x) in NoFuel).
  Proof using Hok Hbad.
    induction k as [|k IH]; intros t qs m H Hm; cbn [gadvance_asks] in H.
    { injection H as <- <-. by destruct (Hm ([], t)). }
    unfold abind in H at 1. destruct (next t) as [q1 m1] eqn:E1.
    destruct m1 as [[o t1]|e|e|] eqn:Em; cbn [fst snd] in *.
    - destruct (gadvance_asks k t1) as [q2 m2] eqn:E2. unfold abind in H. cbn [fst snd] in H.
      assert (Hm2 : forall r, m2 <> Ok r).
      { intros [l t2] ->. injection H as <- <-. by destruct (Hm (o :: l, t2)). }
      assert (H' : qs = q1 ++ q2 /\ match m2 with Ok _ => True | Err e => m = Err e | Panic e => m = Panic e
        | NoFuel => m = NoFuel end).
      { destruct m2; cbn [fst snd] in *; [by destruct (Hm2 a)|by injection H as <- <-..]. }
      clear H. destruct H' as [-> Hmm].
      destruct (IH t1 q2 m2 E2 Hm2) as (j & outs & t' & x & Hj & Hr & -> & Hx & Hnx & Hm2').
      exists (S j), (o :: outs), t', x. destruct (Hok _ _ _ _ E1) as (-> & _).
      split_and!; [lia| |by rewrite (found_cons o outs), <-app_assoc|done|done|].
      + cbn [gadvance_asks]. rewrite E1. unfold abind. cbn [fst snd]. rewrite Hr. cbn [fst snd quiet].
        by rewrite app_nil_r, <-(found_cons o outs).
      + subst m2. destruct (nb x); [by destruct (Hnx a)|done..].
    - exists 0, [], t. injection H as <- <-. destruct (Hbad t q1 (Err e) E1) as (x & -> & Hx & Hn & Hmm); [done|].
      exists x. split_and!; [lia|done|done|exact Hx|exact Hn|]. destruct (nb x); cbn in *; congruence.
    - exists 0, [], t. injection H as <- <-. destruct (Hbad t q1 (Panic e) E1) as (x & -> & Hx & Hn & Hmm); [done|].
      exists x. split_and!; [lia|done|done|exact Hx|exact Hn|]. destruct (nb x); cbn in *; congruence.
    - exists 0, [], t. injection H as <- <-. destruct (Hbad t q1 NoFuel E1) as (x & -> & Hx & Hn & Hmm); [done|].
      exists x. split_and!; [lia|done|done|exact Hx|exact Hn|]. destruct (nb x); cbn in *; congruence.
  Qed.
End gen.

Lemma dfs_gadvance_asks k g t : dfs_advance_asks k g t = gadvance_asks (dfs_next_asks g) k t.
Proof. revert t. induction k as [|k IH]; intros t; [done|]. cbn. unfold abind. destruct (dfs_next_asks g t) as [q []]; cbn; [|done..]. by rewrite IH. Qed.
Lemma bfs_gadvance_asks k g t : bfs_advance_asks k g t = gadvance_asks (bfs_next_asks g) k t.
Proof. revert t. induction k as [|k IH]; intros t; [done|]. cbn. unfold abind. destruct (bfs_next_asks g t) as [q []]; cbn; [|done..]. by rewrite IH. Qed.

Lemma dfs_next_asks_ok g t qs o t' : dfs_next_asks g t = (qs, Ok (o, t')) ->
  qs = found [o] /\ NoDup qs /\ (forall v, v ∈ qs -> v ∉ df_nodes t) /\ df_nodes t' = df_nodes t ∪ list_to_set qs.
Proof.
  unfold dfs_next_asks. destruct (df_stack t) as [|[p n] rest].
  { intros [-> [= <- <-]]%quiet_ok. split_and!; [done|constructor|set_solver|set_solver]. }
  destruct (bool_decide_reflect (n ∈ df_nodes t)) as [Hn|Hn].
  { intros [-> [= <- <-]]%quiet_ok. split_and!; [done|constructor|set_solver|set_solver]. }
  intros (q1 & l & q2 & H1 & H & ->)%abind_ok. apply quiet_ok in H as [-> [= <- <-]].
  injection H1 as <- _. cbn. split_and!; [done|apply NoDup_singleton|set_solver|set_solver].
Qed.
Lemma bfs_next_asks_ok g t qs o t' : bfs_next_asks g t = (qs, Ok (o, t')) ->
  qs = found [o] /\ NoDup qs /\ (forall v, v ∈ qs -> v ∉ bf_nodes t) /\ bf_nodes t' = bf_nodes t ∪ list_to_set qs.
Proof.
  unfold bfs_next_asks. destruct (bf_queue t) as [|[p n] rest].
  { intros [-> [= <- <-]]%quiet_ok. split_and!; [done|constructor|set_solver|set_solver]. }
  destruct (bool_decide_reflect (n ∈ bf_nodes t)) as [Hn|Hn].
  { intros [-> [= <- <-]]%quiet_ok. split_and!; [done|constructor|set_solver|set_solver]. }
  intros (q1 & l & q2 & H1 & H & ->)%abind_ok. apply quiet_ok in H as [-> [= <- <-]].
  injection H1 as <- _. cbn. split_and!; [done|apply NoDup_singleton|set_solver|set_solver].
Qed.

Lemma dfs_next_asks_bad g t qs m : dfs_next_asks g t = (qs, m) -> (forall r, m <> Ok r) ->
  exists x, qs = [x] /\ x ∉ df_nodes t /\ (forall l, g_neighbors g x <> Ok l) /\
    m = (let! l := unwrap (g_neighbors g x) in NoFuel).
Proof.
  unfold dfs_next_asks. intros H Hm. destruct (df_stack t) as [|[p n] rest].
  { injection H as <- <-. by edestruct Hm. }
  destruct (bool_decide_reflect (n ∈ df_nodes t)) as [Hn|Hn].
  { injection H as <- <-. by edestruct Hm. }
  exists n. unfold abind, aunwrap, ask in H. cbn [fst snd] in H.
  destruct (g_neighbors g n); cbn in *; injection H as <- <-; [by edestruct Hm|done..].
Qed.
Lemma bfs_next_asks_bad g t qs m : bfs_next_asks g t = (qs, m) -> (forall r, m <> Ok r) ->
  exists x, qs = [x] /\ x ∉ bf_nodes t /\ (forall l, g_neighbors g x <> Ok l) /\
    m = (let! l := unwrap (g_neighbors g x) in NoFuel).
Proof.
  unfold bfs_next_asks. intros H Hm. destruct (bf_queue t) as [|[p n] rest].
  { injection H as <- <-. by edestruct Hm. }
  destruct (bool_decide_reflect (n ∈ bf_nodes t)) as [Hn|Hn].
  { injection H as <- <-. by edestruct Hm. }
  exists n. unfold abind, aunwrap, ask in H. cbn [fst snd] in H.
  destruct (g_neighbors g n); cbn in *; injection H as <- <-; [by edestruct Hm|done..].
Qed.

Lemma dfs_new_asks_ok g r qs t : dfs_new_asks g r = (qs, Ok t) -> qs = [r] /\ df_nodes t = {[r]}.
Proof. intros (q1 & l & q2 & [= <- _] & H & ->)%abind_ok. by apply quiet_ok in H as [-> [= <-]]. Qed.
Lemma bfs_new_asks_ok g r qs t : bfs_new_asks g r = (qs, Ok t) -> qs = [r] /\ bf_nodes t = {[r]}.
Proof. intros (q1 & l & q2 & [= <- _] & H & ->)%abind_ok. by apply quiet_ok in H as [-> [= <-]]. Qed.

Lemma dfs_run_asks_ok k g r qs outs t : dfs_run_asks k g r = (qs, Ok (outs, t)) ->
  qs = discovered r (omap id outs) /\ NoDup qs.
Proof.
  intros (q1 & t0 & q2 & (-> & Ht0)%dfs_new_asks_ok & H & ->)%abind_ok. rewrite dfs_gadvance_asks in H.
  destruct (gadvance_asks_ok _ _ (dfs_next_asks_ok g) _ _ _ _ _ H) as (-> & Hd & Hn & _).
  split; [done|]. apply NoDup_cons. split; [|done]. intros Hr%Hn. rewrite Ht0 in Hr. set_solver.
Qed.
Lemma bfs_run_asks_ok k g r qs outs t : bfs_run_asks k g r = (qs, Ok (outs, t)) ->
  qs = discovered r (omap id outs) /\ NoDup qs.
Proof.
  intros (q1 & t0 & q2 & (-> & Ht0)%bfs_new_asks_ok & H & ->)%abind_ok. rewrite bfs_gadvance_asks in H.
  destruct (gadvance_asks_ok _ _ (bfs_next_asks_ok g) _ _ _ _ _ H) as (-> & Hd & Hn & _).
  split; [done|]. apply NoDup_cons. split; [|done]. intros Hr%Hn. rewrite Ht0 in Hr. set_solver.
Qed.

(** Components: the nodes asked by one call are the nodes of the graph it yields. *)
Lemma add_node_nodes d v d' : local (dg_add_node d v) = Ok d' -> dg_nodes d' = dg_nodes d ++ [v].
Proof. unfold dg_add_node. destruct (dg_indices d !! v); cbn; [done|]. by intros [= <-]. Qed.
Lemma add_edge_nodes d u v d' : local (dg_add_edge d u v) = Ok d' -> dg_nodes d' = dg_nodes d.
Proof. unfold dg_add_edge. repeat case_match; cbn; try done; by intros [= <-]. Qed.

Lemma extend_asks_nodes fuel g : forall t d qs d', dg_nodes d <> [] ->
  dg_extend_dfs_asks fuel g t d = (qs, Ok d') -> dg_nodes d' = dg_nodes d ++ qs.
Proof.
  induction fuel as [|fuel IH]; intros t d qs d' Hd H; [done|]. cbn [dg_extend_dfs_asks] in H.
  apply abind_ok in H as (q1 & [[s|] t'] & q2 & H1 & H & ->).
  2:{ apply quiet_ok in H as [-> [= <-]]. apply dfs_next_asks_ok in H1 as (-> & _). cbn. by rewrite app_nil_r. }
  apply dfs_next_asks_ok in H1 as (-> & _).
  apply abind_ok in H as (q3 & d1 & q4 & [-> H1]%quiet_ok & H & ->).
  assert (Hemp : dg_is_empty d = false).
  { destruct (dg_is_empty d) eqn:E; [|done]. by apply is_empty_true in E. }
  rewrite Hemp in H1. injection H1 as <-.
  apply abind_ok in H as (q5 & d2 & q6 & [-> H2]%quiet_ok & H & ->).
  apply abind_ok in H as (q7 & d3 & q8 & [-> H3]%quiet_ok & H & ->).
  apply add_edge_nodes in H3. apply IH in H as ->.
  - rewrite H3. unfold found. cbn. destruct (cut s); cbn; [by injection H2 as <-|].
    apply add_node_nodes in H2 as ->. by rewrite <-app_assoc.
  - rewrite H3. destruct (cut s); [by injection H2 as <-|]. apply add_node_nodes in H2 as ->. by destruct (dg_nodes d).
Qed.

Lemma c_next_asks_nodes fuel g c qs o c' : c_next_asks fuel g c = (qs, Ok (o, c')) ->
  qs = match o with None => [] | Some d => dg_nodes d end.
Proof.
  unfold c_next_asks. destruct (c_skip _ _) as [[r it]|]; [|by intros [-> [= <- <-]]%quiet_ok].
  intros (q1 & t & q2 & H1 & H & ->)%abind_ok.
  assert (q1 = [r] /\ exists l : list N, t = mkDF {[r]} ((fun x => (r, x)) <$> l)) as (-> & l & ->).
  { unfold aunwrap, dfs_new_asks, abind, ask in H1. cbn in H1.
    destruct (g_neighbors g r) as [l| | |]; cbn in H1; [|done..]. injection H1 as <- <-. split; [done|].
    exists l. clear. f_equal. rewrite <-(reverse_involutive (_ <$> l)). f_equal.
    assert (Hf : forall (l : list N) (a : list (N * N)), foldl (fun st n => (r, n) :: st) a l = reverse ((fun x => (r, x)) <$> l) ++ a).
    { clear l. induction l as [|x l IH]; intros a; [done|]. cbn [foldl]. by rewrite IH, fmap_cons, reverse_cons, <-app_assoc. }
    by rewrite Hf, app_nil_r. }
  apply abind_ok in H as (q3 & d & q4 & H2 & H & ->). unfold aunwrap, dg_try_from_dfs_asks in H2.
  assert (H2' : dg_extend_dfs_asks fuel g (mkDF {[r]} ((fun x => (r, x)) <$> l)) dg_new = (q3, Ok d)).
  { destruct (dg_extend_dfs_asks _ _ _ _) as [q m]. injection H2 as <- H2. destruct m; cbn in H2; try done.
    by injection H2 as ->. }
  clear H2. destruct fuel as [|fuel]; [done|]. cbn [dg_extend_dfs_asks] in H2'.
  destruct l as [|x l].
  { cbn in H2'. injection H2' as <- <-. cbn in H.
    change (dg_is_empty dg_new) with true in H. cbn in H. by injection H as <- <- <-. }
  apply abind_ok in H2' as (q5 & [o1 t1] & q6 & H1' & H2 & ->).
  assert (Ho : exists b, o1 = Some (mkStep r x b)).
  { unfold dfs_next_asks in H1'. cbn [df_stack fmap list_fmap] in H1'.
    destruct (bool_decide _); [apply quiet_ok in H1' as [_ [= <- _]]; by eexists|].
    apply abind_ok in H1' as (? & ? & ? & _ & [_ [= <- _]]%quiet_ok & _). by eexists. }
  destruct Ho as [b ->]. apply dfs_next_asks_ok in H1' as (-> & _).
  apply abind_ok in H2 as (q7 & d1 & q8 & [-> Hd1]%quiet_ok & H2 & ->).
  change (dg_is_empty dg_new) with true in Hd1. cbn [sid] in Hd1. apply add_node_nodes in Hd1. cbn in Hd1.
  apply abind_ok in H2 as (q9 & d2 & q10 & [-> Hd2]%quiet_ok & H2 & ->). cbn [cut tid sid] in *.
  apply abind_ok in H2 as (q11 & d3 & q12 & [-> Hd3]%quiet_ok & H2 & ->). apply add_edge_nodes in Hd3.
  assert (Hd3' : dg_nodes d3 = r :: found [Some (mkStep r x b)]).
  { rewrite Hd3. destruct b; [injection Hd2 as <-; by rewrite Hd1|]. apply add_node_nodes in Hd2 as ->. by rewrite Hd1. }
  apply extend_asks_nodes in H2; [|by rewrite Hd3'].
  destruct (dg_is_empty d) eqn:E; [apply is_empty_true in E; by rewrite E, Hd3' in H2|].
  apply quiet_ok in H as [-> [= <- <-]]. rewrite H2, Hd3', app_nil_r. done.
Qed.

Lemma c_advance_asks_nodes fuel k g : forall c qs outs, c_advance_asks fuel k g c = (qs, Ok outs) ->
  qs = omap id outs ≫= dg_nodes.
Proof.
  induction k as [|k IH]; intros c qs outs H; cbn [c_advance_asks] in H.
  { by apply quiet_ok in H as [-> [= <-]]. }
  apply abind_ok in H as (q1 & [o c'] & q2 & H1 & H & ->).
  apply abind_ok in H as (q3 & outs1 & q4 & H2 & H & ->). apply quiet_ok in H as [-> [= <-]].
  apply c_next_asks_nodes in H1 as ->. apply IH in H2 as ->. rewrite app_nil_r. by destruct o.
Qed.

Lemma greedy_asks_nodes fuel g : forall c st qs p, greedy_loop_asks fuel g c st = (qs, Ok p) ->
  exists ds, c_collect fuel g c = Ok ds /\ qs = ds ≫= dg_nodes.
Proof.
  induction fuel as [|fuel IH]; intros c st qs p H; [done|]. cbn [greedy_loop_asks c_collect] in *.
  apply abind_ok in H as (q1 & [[d|] c'] & q2 & H1 & H & ->).
  2:{ pose proof (f_equal snd H1) as Hs. rewrite c_next_asks_same in Hs. cbn in Hs. rewrite Hs. cbn.
      apply c_next_asks_nodes in H1 as ->. apply quiet_ok in H as [-> _]. by exists []. }
  pose proof (f_equal snd H1) as Hs. rewrite c_next_asks_same in Hs. cbn [snd] in Hs. rewrite Hs. cbn [cbind].
  apply c_next_asks_nodes in H1 as ->.
  apply abind_ok in H as (q3 & r & q4 & [-> _]%quiet_ok & H & ->).
  apply abind_ok in H as (q5 & t & q6 & [-> _]%quiet_ok & H & ->).
  apply abind_ok in H as (q7 & l & q8 & [-> _]%quiet_ok & H & ->).
  apply IH in H as (ds & -> & ->). cbn. by exists (d :: ds).
Qed.

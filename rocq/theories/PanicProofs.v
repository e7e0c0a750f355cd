(** What a panic leaves behind. *)
From Verif Require Import Outcome GraphModel TraversalModel ComponentsModel PairingModel Spec SpecAdvance SpecPanic
  GraphProofs EditProofs ConvertProofs EqProofs TraversalProofs BfsProofs DfsProofs LoopProofs AdvanceProofs
  PairingProofs MatchTheory MaximumModel PanicModel MaximumProofs.

Lemma augment_left_same p path : p_augment p path =
  match p_augment_left p path with
  | (q, Ok _) => Ok q | (_, Err e) => Err e | (_, Panic e) => Panic e | (_, NoFuel) => NoFuel
  end.
Proof. unfold p_augment, p_augment_left. by destruct (Nat.odd _). Qed.

Lemma mm_left_same iter fuel : forall tag g p, maximum_matching iter tag fuel g p =
  match maximum_matching_left iter tag fuel g p with
  | (q, Ok _) => Ok q | (_, Err e) => Err e | (_, Panic e) => Panic e | (_, NoFuel) => NoFuel
  end.
Proof.
  induction fuel as [|fuel IH]; intros tag g p; [done|]. cbn [maximum_matching maximum_matching_left].
  destruct (augmenting_path iter (0 :: tag) (S fuel) g p) as [[path|]|e|e|]; cbn [cbind]; [|done..].
  rewrite augment_left_same. destruct (p_augment_left p path) as [p1 [[]|e|e|]]; cbn [cbind]; [|done..].
  rewrite IH. destruct (maximum_matching_left iter (1 :: tag) fuel g p1) as [p2 [[]|e|e|]]; cbn [cbind]; [|done..].
  apply IH.
Qed.

Section left.
  Context (g : Graph) (Hg : Lawful g) (iter : hash_order) (Hit : hash_order_ok iter).

  Lemma left_panic p paths q e : pairing_of g p -> rounds iter g p paths q ->
    (search_panics iter g q e \/ exists path, search_is iter g q (Some path) /\ p_augment q path = Panic e) ->
    exists n, forall fuel tag, n <= fuel -> maximum_matching_left iter tag fuel g p = (q, Panic e).
  Proof using Hg Hit.
    intros Hp Hr Hq. induction Hr as [q|p path p1 paths q Hs Ha Hr IH].
    - destruct Hq as [[n Hn]|(path & [n Hn] & Ha)].
      + exists (S n). intros [|fuel] tag Hf; [lia|]. cbn [maximum_matching_left]. by rewrite Hn by lia.
      + exists (S n). intros [|fuel] tag Hf; [lia|]. cbn [maximum_matching_left]. rewrite Hn by lia.
        unfold p_augment in Ha. unfold p_augment_left. destruct (Nat.odd (length path)); [|done]. by simplify_eq.
    - destruct IH as [n1 Hn1]; [by eapply search_step|done|]. destruct Hs as [n Hn].
      exists (S (n + n1)). intros [|fuel] tag Hf; [lia|]. cbn [maximum_matching_left]. rewrite Hn by lia.
      unfold p_augment in Ha. unfold p_augment_left. destruct (Nat.odd (length path)); [done|].
      simplify_eq. by rewrite Hn1 by lia.
  Qed.
End left.

(** ** components *)

Lemma c_next_left_same fuel g c : c_next fuel g c =
  let r := c_next_left fuel g c in
  match r.2 with Ok o => Ok (o, r.1) | Err e => Err e | Panic e => Panic e | NoFuel => NoFuel end.
Proof.
  unfold c_next, c_next_left. destruct (c_skip _ _) as [[root iter']|]; [|done]. cbv zeta.
  destruct (unwrap (dfs_new g root)) as [t|e|e|]; cbn [cbind]; [|done..].
  destruct (unwrap (dg_try_from_dfs fuel g t)) as [d|e|e|]; cbn [cbind]; [|done..].
  destruct (dg_is_empty d); [|done].
  destruct (unwrap (local (dg_add_node d root))) as [d'|e|e|]; done.
Qed.

Lemma c_next_left_state fuel g V r iter e : r ∉ V ->
  c_next fuel g (mkC V (r :: iter)) = Panic e ->
  c_next_left fuel g (mkC V (r :: iter)) = (mkC ({[r]} ∪ V) iter, Panic e).
Proof.
  intros Hr. unfold c_next, c_next_left. cbn [c_visited c_iter c_skip]. rewrite bool_decide_eq_false_2 by done.
  destruct (unwrap (dfs_new g r)) as [t|e'|e'|]; cbn [cbind]; try done; [|by intros [= ->]].
  destruct (unwrap (dg_try_from_dfs fuel g t)) as [d|e'|e'|]; cbn [cbind]; try done; [|by intros [= ->]].
  destruct (dg_is_empty d); [|done].
  destruct (unwrap (local (dg_add_node d r))) as [d'|e'|e'|]; try done. by intros [= ->].
Qed.

Lemma c_next_left_ok fuel g c o c' : c_next fuel g c = Ok (o, c') -> c_next_left fuel g c = (c', Ok o).
Proof.
  rewrite c_next_left_same. destruct (c_next_left fuel g c) as [c1 [o1|e|e|]]; cbn; try done.
  by intros [= -> ->].
Qed.

Lemma c_next_left_skip g fuel V r iter : r ∈ V ->
  c_next_left fuel g (mkC V (r :: iter)) = c_next_left fuel g (mkC V iter).
Proof. intros Hr. unfold c_next_left. cbn [c_visited c_iter c_skip]. by rewrite bool_decide_eq_true_2 by done. Qed.

Lemma c_advance_left_done g fuel V k : c_advance_left fuel k g (mkC V []) = replicate k (Ok None).
Proof. induction k as [|k IH]; [done|]. cbn. by f_equal. Qed.

Lemma components_resume g : Lawful g -> forall todo seen V, (forall v, v ∈ todo -> v ∈ g_nodes g) ->
  (forall v, v ∈ V <-> v ∈ seen) ->
  exists outs n, resumes g seen todo outs /\
    forall fuel, n <= fuel -> forall k, c_advance_left fuel k g (mkC V todo) =
      take k (call_result <$> outs) ++ replicate (k - length outs) (Ok None).
Proof.
  intros Hg. induction todo as [|r todo IH]; intros seen V Hin HV.
  { exists [], 0. split; [constructor|]. intros fuel _ k. rewrite c_advance_left_done. cbn.
    rewrite take_nil. by rewrite Nat.sub_0_r. }
  destruct (decide (r ∈ V)) as [HrV|HrV].
  { destruct (IH seen V) as (outs & n & Hs & Ha); [intros; apply Hin; by right|done|].
    exists outs, n. split; [apply res_seen; [by apply HV|done]|].
    intros fuel Hf [|k]; [by rewrite <-(Ha fuel)|]. rewrite <-(Ha fuel) by done. cbn [c_advance_left].
    by rewrite c_next_left_skip. }
  destruct (c_next_exact g V r todo Hg) as (steps & Hd & [(d & V' & n1 & Hl & Ho & HV' & Hn)|(x & n1 & Hx & Hn)]);
    [apply Hin; left|done|..].
  - destruct (IH (discovered r steps ++ seen) V') as (outs & n & Hs & Ha);
      [intros; apply Hin; by right|intros v; rewrite HV', elem_of_app, HV; done|].
    exists (inl d :: outs), (n1 + n). split; [eapply res_yield; try done; by rewrite <-HV|].
    intros fuel Hf [|k]; [done|]. cbn [c_advance_left].
    rewrite (c_next_left_ok _ _ _ _ _ (Hn fuel ltac:(lia))). cbn [fst snd]. rewrite Ha by lia. done.
  - destruct (IH (r :: seen) ({[r]} ∪ V)) as (outs & n & Hs & Ha);
      [intros; apply Hin; by right|intros v; rewrite elem_of_union, elem_of_singleton, elem_of_cons, HV; done|].
    exists (inr (DuplicateEdge x x) :: outs), (n1 + n).
    split; [eapply res_fail; try done; by rewrite <-HV|].
    intros fuel Hf [|k]; [done|]. cbn [c_advance_left].
    rewrite (c_next_left_state _ _ _ _ _ _ HrV (Hn fuel ltac:(lia))). cbn [fst snd]. rewrite Ha by lia. done.
Qed.

Lemma resumes_length g seen todo outs : resumes g seen todo outs -> length outs <= length todo.
Proof. induction 1; simpl; lia. Qed.

Lemma resumes_covers g seen todo outs : resumes g seen todo outs -> forall v, v ∈ todo -> v ∈ seen \/
  (exists d, inl d ∈ outs /\ v ∈ g_nodes (as_graph d)) \/
  (exists steps x, depth_first g v steps /\ crossed_again steps x).
Proof.
  induction 1 as [seen|seen u todo outs Hu _ IH|seen u todo steps d outs Hu Hd Hl Ho _ IH|
    seen u todo steps x outs Hu Hd Hx _ IH]; intros v Hv.
  - by apply elem_of_nil in Hv.
  - apply elem_of_cons in Hv as [->|Hv]; [by left|by apply IH].
  - destruct Ho as (Hn & _).
    assert (Hin : forall w, w ∈ discovered u steps -> (exists d', inl d' ∈ inl d :: outs /\ w ∈ g_nodes (as_graph d'))).
    { intros w Hw. exists d. split; [left|by rewrite Hn]. }
    apply elem_of_cons in Hv as [->|Hv]; [right; left; apply Hin; left|].
    destruct (IH v Hv) as [[?|?]%elem_of_app|[(d' & ? & ?)|?]]; [right; left; by apply Hin|by left| |by do 2 right].
    right. left. exists d'. split; [by right|done].
  - apply elem_of_cons in Hv as [->|Hv]; [right; right; eauto|].
    destruct (IH v Hv) as [[->|?]%elem_of_cons|[(d' & ? & ?)|?]]; [right; right; eauto|by left| |by do 2 right].
    right. left. exists d'. split; [by right|done].
Qed.

(** A family of bipartite graphs of which [greedy] pairs four nodes only. *)
From Verif Require Import Outcome GraphModel TraversalModel ComponentsModel PairingModel GreedyModel
  Spec SpecSearch SpecTangle GraphProofs EditProofs ConvertProofs EqProofs TraversalProofs BfsProofs DfsProofs
  PathLemmas AcyclicProofs CycleProofs NarrowProofs ComponentsProofs GreedyProofs SearchProofs TextbookProofs
  TangleProofs.

(** The path 0-1-2-3; for each [i < k] a node [bx i] joined to 3 and 1, and a
    node [bz i] joined to it. *)
Definition bx (i : nat) : N := N.of_nat (2 * i + 4).
Definition bz (i : nat) : N := N.of_nat (2 * i + 5).
Definition tooth (i : nat) : list (N * N) := [(3, bx i); (bx i, 1); (bx i, bz i)]%N.
Definition broom_edges (k : nat) : list (N * N) := ([(0, 1); (1, 2); (2, 3)] ++ (seq 0 k ≫= tooth))%N.

Lemma rtc_sym (R : N -> N -> Prop) x y : (forall a b, R a b -> R b a) -> rtc R x y -> rtc R y x.
Proof. intros H Hr. induction Hr as [|a b c Hab _ IH]; [constructor|]. eapply rtc_r; [exact IH|]. by apply H. Qed.

Lemma pivot {A} (x : A) l1 l2 k1 k2 : x ∉ l1 -> x ∉ l2 -> l1 ++ x :: l2 = k1 ++ x :: k2 -> k1 = l1.
Proof.
  intros H1 H2. revert k1. induction l1 as [|a l1 IH]; intros [|b k1] H; simpl in *; injection H.
  - done.
  - intros -> <-. exfalso. apply H2. rewrite elem_of_app, elem_of_cons. tauto.
  - intros _ ->. exfalso. apply H1. left.
  - intros Heq ->. f_equal. apply IH; [|done]. intros Hin. apply H1. by right.
Qed.

Ltac ids := unfold bx, bz in *; lia.

Lemma in_teeth e s k : e ∈ seq s k ≫= tooth <-> exists i, s <= i < s + k /\ (e = (3, bx i) \/ e = (bx i, 1) \/ e = (bx i, bz i))%N.
Proof.
  rewrite elem_of_list_bind. unfold tooth. split.
  - intros (i & He & Hi). apply elem_of_seq in Hi. exists i. split; [lia|]. set_solver.
  - intros (i & Hi & He). exists i. rewrite elem_of_seq. split; [set_solver|lia].
Qed.

Lemma teeth_distinct s k : distinct_edges (seq s k ≫= tooth).
Proof.
  revert s. induction k as [|k IH]; intros s; [intros i j e f H; done|].
  cbn [seq]. rewrite bind_cons. unfold tooth at 1. cbn [app].
  rewrite !distinct_cons. split_and!; [apply IH|..].
  - intros f (i & Hi & Hf)%in_teeth. unfold same_edge.
    destruct Hf as [->|[->| ->]]; intros [H|H]; injection H; ids.
  - intros f. rewrite elem_of_cons. intros [->|(i & Hi & Hf)%in_teeth].
    + intros [H|H]; injection H; ids.
    + destruct Hf as [->|[->| ->]]; intros [H|H]; injection H; ids.
  - intros f. rewrite !elem_of_cons. intros [->|[->|(i & Hi & Hf)%in_teeth]].
    + intros [H|H]; injection H; ids.
    + intros [H|H]; injection H; ids.
    + destruct Hf as [->|[->| ->]]; intros [H|H]; injection H; ids.
Qed.

Lemma broom_distinct k : distinct_edges (broom_edges k).
Proof.
  unfold broom_edges. cbn [app]. rewrite !distinct_cons. split_and!; [apply teeth_distinct|..].
  all: intros f; rewrite ?elem_of_cons; intros Hf.
  all: repeat destruct Hf as [->|Hf]; [intros [H|H]; injection H; ids..|].
  all: apply in_teeth in Hf as (i & Hi & Hf); destruct Hf as [->|[->| ->]]; intros [H|H]; injection H; ids.
Qed.

Section broom.
  Context (k : nat) (d : DefaultGraph) (Hd : dg_try_from_edges (broom_edges k) = Ok d).
  Notation g := (as_graph d).

  Lemma broom_api : Api d.
  Proof using Hd. by eapply api_edges. Qed.

  Lemma broom_adj u v : adj g u v <->
    (u = 0 /\ v = 1 \/ u = 1 /\ v = 0 \/ u = 1 /\ v = 2 \/ u = 2 /\ v = 1 \/ u = 2 /\ v = 3 \/ u = 3 /\ v = 2)%N \/
    exists i, i < k /\ (u = 3 /\ v = bx i \/ u = bx i /\ v = 3 \/ u = bx i /\ v = 1 \/ u = 1 /\ v = bx i \/
      u = bx i /\ v = bz i \/ u = bz i /\ v = bx i)%N.
  Proof using Hd.
    destruct (try_from_edges_result _ _ Hd) as (_ & _ & -> & _). unfold broom_edges.
    rewrite !elem_of_app, !in_teeth, !elem_of_cons, !elem_of_nil. split.
    - intros [[H|H]|[H|H]].
      + left. repeat destruct H as [[= -> ->]|H]; [lia..|done].
      + destruct H as (i & Hi & H). right. exists i. split; [lia|]. destruct H as [[= -> ->]|[[= -> ->]|[= -> ->]]]; tauto.
      + left. repeat destruct H as [[= -> ->]|H]; [lia..|done].
      + destruct H as (i & Hi & H). right. exists i. split; [lia|]. destruct H as [[= -> ->]|[[= -> ->]|[= -> ->]]]; tauto.
    - intros [H|(i & Hi & H)].
      + repeat destruct H as [[-> ->]|H]; try tauto. destruct H as [-> ->]; tauto.
      + repeat destruct H as [[-> ->]|H]; [..|destruct H as [-> ->]].
        all: first [left; right; exists i; split; [lia|tauto]|right; right; exists i; split; [lia|tauto]].
  Qed.

  Lemma broom_nodes v : v ∈ g_nodes g <-> (v = 0 \/ v = 1 \/ v = 2 \/ v = 3)%N \/ exists i, i < k /\ (v = bx i \/ v = bz i).
  Proof using Hd.
    pose proof (api_lawful _ broom_api) as Hg. split.
    - intros Hv. destruct (try_from_edges_result _ _ Hd) as (_ & Hn & _). rewrite Hn in Hv.
      apply -> first_mentions_elem in Hv. unfold endpoints in Hv. apply elem_of_list_bind in Hv as (e & Hv & He).
      unfold broom_edges in He. rewrite elem_of_app, in_teeth, !elem_of_cons, elem_of_nil in He.
      destruct He as [He|(i & Hi & He)].
      + repeat destruct He as [->|He]; simpl in Hv; rewrite ?elem_of_cons, ?elem_of_nil in Hv; [left; lia..|done].
      + destruct He as [->|[->| ->]]; simpl in Hv; rewrite !elem_of_cons, elem_of_nil in Hv.
        * destruct Hv as [->|[->|[]]]; [tauto|]. right. exists i. split; [lia|tauto].
        * destruct Hv as [->|[->|[]]]; [|tauto]. right. exists i. split; [lia|tauto].
        * right. exists i. split; [lia|tauto].
    - intros [H|(i & Hi & H)].
      + assert (exists w, adj g v w) as [w Hw]; [|by eapply lawful_adj_l].
        destruct H as [->|[->|[->| ->]]]; [exists 1%N|exists 0%N|exists 1%N|exists 2%N]; apply broom_adj; tauto.
      + assert (exists w, adj g v w) as [w Hw]; [|by eapply lawful_adj_l].
        destruct H as [->| ->]; [exists 3%N|exists (bx i)]; apply broom_adj; right; exists i; (split; [done|tauto]).
  Qed.

  Lemma broom_loop_free : LoopFree g.
  Proof using Hd.
    intros v Hv. apply broom_adj in Hv as [H|(i & Hi & H)]; [lia|ids].
  Qed.

  Lemma broom_bipartite : Bipartite g.
  Proof using Hd.
    exists (fun v => N.even v). intros u v Huv.
    assert (Hx : forall i, N.even (bx i) = true).
    { intros i. apply N.even_spec. exists (N.of_nat (i + 2)). ids. }
    assert (Hz : forall i, N.even (bz i) = false).
    { intros i. rewrite <-N.negb_odd, negb_false_iff. apply N.odd_spec. exists (N.of_nat (i + 2)). ids. }
    apply broom_adj in Huv as [H|(i & Hi & H)].
    - repeat destruct H as [[-> ->]|H]; try done. destruct H as [-> ->]; done.
    - repeat destruct H as [[-> ->]|H]; [..|destruct H as [-> ->]]; rewrite ?Hx, ?Hz; done.
  Qed.

  Lemma broom_first : head (g_nodes g) = Some 0%N.
  Proof using Hd.
    destruct (try_from_edges_result _ _ Hd) as (_ & -> & _). unfold broom_edges.
    change (head (first_mentions ([0; 1; 1; 2; 2; 3]%N ++ endpoints (seq 0 k ≫= tooth))) = Some 0%N).
    unfold first_mentions. rewrite foldl_app.
    assert (Hgen : forall l acc, head acc = Some 0%N ->
      head (foldl (fun acc x => if bool_decide (x ∈ acc) then acc else acc ++ [x]) acc l) = Some 0%N).
    { induction l as [|x l IH]; intros acc Hacc; [done|]. simpl. apply IH.
      case_bool_decide; [done|]. by destruct acc. }
    apply Hgen. vm_compute. reflexivity.
  Qed.

  Lemma broom_reach v : v ∈ g_nodes g -> reachable g 0 v.
  Proof using Hd.
    assert (H1 : reachable g 0 1) by (apply rtc_once, broom_adj; tauto).
    assert (H2 : reachable g 0 2) by (eapply rtc_r; [exact H1|]; apply broom_adj; tauto).
    assert (H3 : reachable g 0 3) by (eapply rtc_r; [exact H2|]; apply broom_adj; tauto).
    intros [[->|[->|[->| ->]]]|(i & Hi & H)]%broom_nodes; [constructor|done..|].
    assert (Hx : reachable g 0 (bx i)).
    { eapply rtc_r; [exact H3|]. apply broom_adj. right. exists i. split; [done|tauto]. }
    destruct H as [->| ->]; [done|]. eapply rtc_r; [exact Hx|]. apply broom_adj. right. exists i. split; [done|tauto].
  Qed.

  (** ** Untangled from 0 *)
  Lemma broom_path P v : is_path g P -> head P = Some 0%N -> last P = Some v -> v <> 0%N -> 1%N ∈ P.
  Proof using Hd.
    intros Hp Hh Hl Hv. destruct P as [|p [|q P]]; [done|simpl in *; congruence|].
    injection Hh as ->. apply is_path_cons2 in Hp as [Hq _].
    apply broom_adj in Hq as [H|(i & Hi & H)]; [assert (q = 1%N) as -> by lia; right; left|ids].
  Qed.

  (** Off a path through 1 and 3, a neighbor of 3 is joined to no other. *)
  Lemma broom_apart P c e : 1%N ∈ P -> 3%N ∈ P -> adj g 3 c -> adj g 3 e -> joined g P c e -> c = e.
  Proof using Hd.
    intros H1 H3 Hc He Hj.
    assert (Hcs : c = 2%N \/ exists i, i < k /\ c = bx i).
    { apply broom_adj in Hc as [H|(i & Hi & H)]; [left; lia|right; exists i; split; [done|ids]]. }
    assert (Hes : e = 2%N \/ exists i, i < k /\ e = bx i).
    { apply broom_adj in He as [H|(i & Hi & H)]; [left; lia|right; exists i; split; [done|ids]]. }
    assert (Hinv : e = c \/ exists i, c = bx i /\ e = bz i).
    { unfold joined in Hj. clear He Hes. pattern e. eapply rtc_last; [| |exact Hj]; [by left|].
      intros a b _ (Hab & Ha & Hb) [->|(i & -> & ->)].
      - destruct Hcs as [->|(i & Hi & ->)].
        + exfalso. apply broom_adj in Hab as [H|(j & Hj' & H)]; [|ids].
          assert (b = 1%N \/ b = 3%N) as [->| ->] by lia; done.
        + right. exists i. split; [done|]. apply broom_adj in Hab as [H|(j & Hj' & H)]; [ids|].
          assert (b = 1%N \/ b = 3%N \/ b = bz i) as [->|[->| ->]] by ids; done.
      - left. apply broom_adj in Hab as [H|(j & Hj' & H)]; [ids|]. ids. }
    destruct Hinv as [->|(i & -> & ->)]; [done|]. destruct Hes as [?|(j & _ & ?)]; ids.
  Qed.

  Lemma broom_untangled : untangled g 0.
  Proof using Hd.
    intros P v c e x Hp Hnd Hh Hl Hc He Hne HcP HeP Hj Hx.
    assert (HvP : v ∈ P) by (by apply last_Some_elem_of).
    destruct (decide (v = 0%N)) as [->|Hv0].
    { exfalso. apply broom_adj in Hc as [H|(i & Hi & H)]; [|ids].
      apply broom_adj in He as [H'|(i & Hi & H')]; [|ids]. lia. }
    pose proof (broom_path P v Hp Hh Hl Hv0) as H1.
    pose proof Hx as Hx'. apply broom_adj in Hx' as Hxs.
    assert (Hcs : c <> 1%N) by (by intros ->). assert (Hes : e <> 1%N) by (by intros ->).
    destruct (decide (v = 1%N)) as [->|Hv1].
    { (* the path is 0, 1 *)
      assert (P = [0; 1]%N) as ->.
      { destruct P as [|p [|q P]]; [done|simpl in *; congruence|]. injection Hh as ->.
        apply is_path_cons2 in Hp as [Hq _].
        assert (q = 1%N) as ->. { apply broom_adj in Hq as [H|(i & Hi & H)]; [lia|ids]. }
        destruct P as [|z P]; [done|]. exfalso.
        change (last (z :: P) = Some 1%N) in Hl. apply last_Some_elem_of in Hl.
        apply NoDup_cons in Hnd as [_ [Hnd _]%NoDup_cons]. by apply Hnd. }
      assert (Hto3 : forall w, adj g 1 w -> w <> 0%N -> joined g [0; 1]%N w 3).
      { intros w Hw Hw0. apply rtc_once. split_and!; [|apply not_elem_of_cons; split; [done|]|].
        - apply broom_adj. apply broom_adj in Hw as [H|(i & Hi & H)]; [left; lia|].
          right. exists i. split; [done|]. assert (w = bx i) as -> by ids. tauto.
        - apply not_elem_of_cons. split; [|apply not_elem_of_nil]. intros ->. by apply broom_loop_free in Hw.
        - rewrite !elem_of_cons, elem_of_nil. lia. }
      split.
      - intros Hin. exists []. rewrite !elem_of_cons, elem_of_nil in Hin. destruct Hin as [->|[->|[]]]; [done|].
        by apply broom_loop_free in Hx.
      - intros Hin. assert (c <> 0%N) by (intros ->; apply HcP; left). assert (x <> 0%N) by (intros ->; apply Hin; left).
        pose proof (Hto3 c ltac:(done) ltac:(done)) as Hc3. assert (Hx3 : joined g [0; 1]%N x 3) by (by apply Hto3).
        unfold joined in *. transitivity 3%N; [done|]. eapply rtc_sym; [|exact Hx3].
        intros a b (Hab & Ha & Hb). split_and!; [|done|done]. apply law_adj_sym; [|done].
        apply api_lawful, broom_api. }
    exfalso. destruct (decide (v = 3%N)) as [->|Hv3].
    { apply Hne. by apply (broom_apart P). }
    apply broom_adj in Hc as [H|(i & Hi & H)].
    - (* 2 has one other neighbor *)
      apply broom_adj in He as [H'|(j & Hj' & H')]; [|ids]. lia.
    - apply broom_adj in He as [H'|(j & Hj' & H')]; [ids|].
      assert (Hij : i = j) by ids. subst j.
      assert (v = bx i) as -> by ids.
      assert (Hiso : forall w, joined g P (bz i) w -> w = bz i).
      { intros w Hw. apply rtc_inv in Hw as [->|(z & (Hz & _ & HzP) & _)]; [done|]. exfalso.
        apply broom_adj in Hz as [Hz|(j & Hj2 & Hz)]; [ids|]. assert (z = bx i) as -> by ids. done. }
      assert (Hcz : c = bz i \/ e = bz i) by ids. destruct Hcz as [-> | ->].
      + apply Hiso in Hj. by subst.
      + assert (Hj2 : joined g P (bz i) c).
        { unfold joined in *. eapply rtc_sym; [|exact Hj].
          intros a b (Hab & Ha & Hb). split_and!; [|done|done]. apply law_adj_sym; [|done].
          apply api_lawful, broom_api. }
        apply Hiso in Hj2. by subst.
  Qed.

  (** ** The traversal *)
  Definition row_of (v : N) (e : N * N) : list N :=
    (if bool_decide (e.1 = v) then [e.2] else []) ++ (if bool_decide (e.2 = v) then [e.1] else []).

  Lemma broom_neighbors v : v ∈ g_nodes g ->
    g_neighbors g v = Ok (([(0, 1); (1, 2); (2, 3)]%N ≫= row_of v) ++ (seq 0 k ≫= fun i => tooth i ≫= row_of v)).
  Proof using Hd.
    intros Hv. destruct (try_from_edges_result _ _ Hd) as (_ & Hn & _ & (_ & _ & _ & _ & _ & _ & H & _)).
    rewrite Hn in Hv. rewrite H. cbn [a_nodes]. rewrite bool_decide_eq_true_2 by done. f_equal.
    unfold a_neighbors. cbn [a_edges]. unfold broom_edges. rewrite bind_app. f_equal.
    clear. generalize 0 as s. induction k as [|n IH]; intros s; [done|].
    cbn [seq]. rewrite !bind_cons, bind_app, IH. done.
  Qed.

  Lemma teeth_none (f : nat -> list N) s n : (forall i, f i = []) -> seq s n ≫= f = [].
  Proof using Type. intros H. revert s. induction n as [|n IH]; intros s; [done|]. cbn [seq]. by rewrite bind_cons, H, IH. Qed.

  Lemma teeth_one (f : nat -> list N) (h : nat -> N) s n : (forall i, f i = [h i]) -> seq s n ≫= f = h <$> seq s n.
  Proof using Type. intros H. revert s. induction n as [|n IH]; intros s; [done|]. cbn [seq]. by rewrite bind_cons, H, IH. Qed.

  Lemma teeth_at (f : nat -> list N) i s n : (forall j, j <> i -> f j = []) -> s <= i < s + n -> seq s n ≫= f = f i.
  Proof using Type.
    intros H. revert s. induction n as [|n IH]; intros s Hi; [lia|]. cbn [seq]. rewrite bind_cons.
    destruct (decide (s = i)) as [->|Hne].
    - assert (Hrest : forall s' m, i < s' -> seq s' m ≫= f = []).
      { clear -H. intros s' m. revert s'. induction m as [|m IH]; intros s' Hs; [done|]. cbn [seq].
        rewrite bind_cons, H, IH by lia. done. }
      by rewrite Hrest, app_nil_r by lia.
    - rewrite H, IH by (done || lia). done.
  Qed.

  Lemma row_tooth v i : tooth i ≫= row_of v =
    row_of v (3%N, bx i) ++ row_of v (bx i, 1%N) ++ row_of v (bx i, bz i).
  Proof using Type. unfold tooth. rewrite !bind_cons. simpl. by rewrite app_nil_r. Qed.

  Ltac rows := rewrite ?row_tooth; unfold row_of; cbn [fst snd];
    repeat (first [rewrite bool_decide_eq_true_2 by (done || ids)|rewrite bool_decide_eq_false_2 by ids]);
    reflexivity.

  Lemma nb_0 : g_neighbors g 0 = Ok [1%N].
  Proof using Hd.
    rewrite broom_neighbors by (apply broom_nodes; lia). rewrite (teeth_none (fun i => tooth i ≫= row_of 0%N)); [done|].
    intros i. rows.
  Qed.
  Lemma nb_1 : g_neighbors g 1 = Ok ([0; 2]%N ++ (bx <$> seq 0 k)).
  Proof using Hd.
    rewrite broom_neighbors by (apply broom_nodes; lia). rewrite (teeth_one (fun i => tooth i ≫= row_of 1%N) bx); [done|].
    intros i. rows.
  Qed.
  Lemma nb_2 : g_neighbors g 2 = Ok [1; 3]%N.
  Proof using Hd.
    rewrite broom_neighbors by (apply broom_nodes; lia). rewrite (teeth_none (fun i => tooth i ≫= row_of 2%N)); [done|].
    intros i. rows.
  Qed.
  Lemma nb_3 : g_neighbors g 3 = Ok ([2]%N ++ (bx <$> seq 0 k)).
  Proof using Hd.
    rewrite broom_neighbors by (apply broom_nodes; lia). rewrite (teeth_one (fun i => tooth i ≫= row_of 3%N) bx); [done|].
    intros i. rows.
  Qed.
  Lemma nb_x i : i < k -> g_neighbors g (bx i) = Ok [3; 1; bz i]%N.
  Proof using Hd.
    intros Hi. rewrite broom_neighbors by (apply broom_nodes; right; exists i; split; [done|tauto]).
    rewrite (teeth_at (fun j => tooth j ≫= row_of (bx i)) i); [|intros j Hj; rows|lia].
    f_equal. change ([(0, 1); (1, 2); (2, 3)]%N ≫= row_of (bx i)) with
      (row_of (bx i) (0, 1)%N ++ row_of (bx i) (1, 2)%N ++ row_of (bx i) (2, 3)%N ++ []). rows.
  Qed.
  Lemma nb_z i : i < k -> g_neighbors g (bz i) = Ok [bx i].
  Proof using Hd.
    intros Hi. rewrite broom_neighbors by (apply broom_nodes; right; exists i; split; [done|tauto]).
    rewrite (teeth_at (fun j => tooth j ≫= row_of (bz i)) i); [|intros j Hj; rows|lia].
    f_equal. change ([(0, 1); (1, 2); (2, 3)]%N ≫= row_of (bz i)) with
      (row_of (bz i) (0, 1)%N ++ row_of (bz i) (1, 2)%N ++ row_of (bz i) (2, 3)%N ++ []). rows.
  Qed.

  Definition comb_steps (s n : nat) : list Step :=
    seq s n ≫= fun i => [mkStep 3 (bx i) false; mkStep (bx i) 1 true; mkStep (bx i) (bz i) false]%N.
  Definition broom_steps : list Step :=
    [mkStep 0 1 false; mkStep 1 2 false; mkStep 2 3 false]%N ++ comb_steps 0 k.

  (** No edge of [E] touches the nodes numbered [s] or more. *)
  Definition untouched (E : list (N * N)) (s : nat) : Prop :=
    forall e i, e ∈ E -> s <= i -> e.1 <> bx i /\ e.1 <> bz i /\ e.2 <> bx i /\ e.2 <> bz i.

  Lemma comb_run tail rest n : forall s E, s + n <= k -> untouched E s -> (exists q, (q, 1%N) ∈ E) ->
    textbook g 0 (E ++ (seq s n ≫= tooth)) tail rest ->
    textbook g 0 E (((fun x => (3%N, x)) <$> (bx <$> seq s n)) ++ tail) (comb_steps s n ++ rest).
  Proof using Hd.
    induction n as [|n IH]; intros s E Hsn Hun H1 Hrun.
    { cbn in *. by rewrite app_nil_r in Hrun. }
    unfold comb_steps. cbn [seq]. rewrite bind_cons, !fmap_cons. cbn [app].
    assert (Hout : forall e, e ∈ E -> e.1 <> bx s /\ e.1 <> bz s /\ e.2 <> bx s /\ e.2 <> bz s) by (intros e He; by apply Hun).
    apply tb_visit with [3; 1; bz s]%N.
    { intros He. by apply Hout in He as (_ & _ & ? & _). }
    { intros He. by apply Hout in He as (? & _). }
    { ids. }
    { intros q He. by apply Hout in He as (_ & _ & ? & _). }
    { apply nb_x. lia. }
    rewrite !fmap_cons. cbn [app fmap list_fmap].
    apply tb_skip. { right. rewrite elem_of_app, elem_of_list_singleton. by right. }
    apply tb_cut.
    { rewrite elem_of_app, elem_of_list_singleton. intros [He|[= He _]]; [|ids]. by apply Hout in He as (? & _). }
    { rewrite elem_of_app, elem_of_list_singleton. intros [He|[= He]]. by apply Hout in He as (_ & _ & ? & _). }
    { right. destruct H1 as [q Hq]. exists q. rewrite elem_of_app. by left. }
    apply tb_visit with [bx s].
    { rewrite !elem_of_app, !elem_of_list_singleton. intros [[He|He]|He]; [|injection He; ids..]. by apply Hout in He as (? & _). }
    { rewrite !elem_of_app, !elem_of_list_singleton. intros [[He|He]|He]; [|injection He; ids..]. by apply Hout in He as (_ & ? & _). }
    { ids. }
    { intros q. rewrite !elem_of_app, !elem_of_list_singleton. intros [[He|He]|He]; [|injection He; ids..]. by apply Hout in He as (_ & _ & _ & ?). }
    { apply nb_z. lia. }
    cbn [app fmap list_fmap]. apply tb_skip. { right. rewrite !elem_of_app, !elem_of_list_singleton. by right. }
    apply (IH (S s)).
    - lia.
    - intros e i. rewrite !elem_of_app, !elem_of_list_singleton. intros [[[He| ->]| ->]| ->] Hi; [by apply Hun; [|lia]|..];
        cbn [fst snd]; ids.
    - destruct H1 as [q Hq]. exists q. rewrite !elem_of_app. tauto.
    - cbn [seq] in Hrun. rewrite bind_cons in Hrun. unfold tooth at 1 in Hrun. by rewrite <-!app_assoc.
  Qed.

  Lemma skip_all E l : (forall e, e ∈ l -> e ∈ E \/ (e.2, e.1) ∈ E) -> textbook g 0 E l [].
  Proof using Type.
    induction l as [|[a b] l IH]; intros H; [constructor|]. apply tb_skip; [apply (H (a, b)); left|].
    apply IH. intros e He. apply H. by right.
  Qed.

  Lemma broom_textbook : textbook_run g 0 broom_steps.
  Proof using Hd.
    exists [1%N]. split; [apply nb_0|]. unfold broom_steps. cbn [fmap list_fmap app].
    apply tb_visit with ([0; 2]%N ++ (bx <$> seq 0 k)); [by intros ?%elem_of_nil|by intros ?%elem_of_nil|done|by intros q ?%elem_of_nil|apply nb_1|].
    cbn [app]. rewrite !fmap_cons. cbn [app].
    apply tb_skip. { right. left. }
    apply tb_visit with [1; 3]%N; [by intros [?|?%elem_of_nil]%elem_of_cons|by intros [?|?%elem_of_nil]%elem_of_cons|done| |apply nb_2|].
    { by intros q [?|?%elem_of_nil]%elem_of_cons. }
    cbn [app fmap list_fmap].
    apply tb_skip. { right. right. left. }
    apply tb_visit with ([2]%N ++ (bx <$> seq 0 k)); [| |done| |apply nb_3|].
    { by intros [?|[?|?%elem_of_nil]%elem_of_cons]%elem_of_cons. }
    { by intros [?|[?|?%elem_of_nil]%elem_of_cons]%elem_of_cons. }
    { by intros q [?|[?|?%elem_of_nil]%elem_of_cons]%elem_of_cons. }
    cbn [app]. rewrite !fmap_cons. cbn [app].
    apply tb_skip. { right. right. right. left. }
    rewrite <-(app_nil_r (comb_steps 0 k)). apply comb_run.
    - lia.
    - intros e i. rewrite !elem_of_cons, elem_of_nil. intros [->|[->|[->|[]]]] _; cbn [fst snd]; ids.
    - exists 0%N. left.
    - apply skip_all. intros e. rewrite app_nil_r. intros (x & -> & (i & -> & Hi%elem_of_seq)%elem_of_list_fmap)%elem_of_list_fmap.
      right. cbn [fst snd]. rewrite elem_of_app. right. apply in_teeth. exists i. split; [lia|tauto].
  Qed.

  Lemma broom_run : depth_first g 0 broom_steps.
  Proof using Hd.
    pose proof (api_lawful _ broom_api) as Hg.
    assert (H0 : 0%N ∈ g_nodes g) by (apply broom_nodes; tauto).
    destruct (dfs_total g 0 Hg H0) as (steps & Hs).
    by rewrite <-(untangled_textbook g Hg 0 broom_untangled broom_loop_free H0 broom_steps steps broom_textbook Hs).
  Qed.

  (** Which pairs the rule of [greedy] takes. *)
  Lemma comb_in s n t : t ∈ comb_steps s n <-> exists i, s <= i < s + n /\
    (t = mkStep 3 (bx i) false \/ t = mkStep (bx i) 1 true \/ t = mkStep (bx i) (bz i) false)%N.
  Proof using Type.
    unfold comb_steps. rewrite elem_of_list_bind. split.
    - intros (i & Ht & Hi%elem_of_seq). exists i. split; [lia|].
      rewrite !elem_of_cons, elem_of_nil in Ht. tauto.
    - intros (i & Hi & Ht). exists i. rewrite !elem_of_cons, elem_of_nil, elem_of_seq. split; [tauto|lia].
  Qed.

  Lemma broom_taken p : symmetric_pairing p ->
    (forall u v, p !! u = Some v <-> u <> v /\ taken broom_steps p u v) ->
    p = pair_all [(0, 1); (2, 3)]%N.
  Proof using Type.
    intros Hsym Hrule.
    assert (H01 : p !! 0%N = Some 1%N).
    { apply Hrule. split; [done|]. exists [], (mkStep 0 1 false), (drop 1 broom_steps).
      split_and!; [done|by left|]. by intros s' ?%elem_of_nil. }
    assert (H10 : p !! 1%N = Some 0%N) by (by apply Hsym).
    assert (H23 : p !! 2%N = Some 3%N).
    { apply Hrule. split; [done|]. exists [mkStep 0 1 false; mkStep 1 2 false]%N, (mkStep 2 3 false), (comb_steps 0 k).
      split_and!; [done|by left|]. intros s'. rewrite !elem_of_cons, elem_of_nil.
      intros [->|[->|[]]]; cbn [sid tid]; (split; [done|split; [done|]]); [intros [?|?]; done|].
      intros _. rewrite H10. done. }
    assert (H32 : p !! 3%N = Some 2%N) by (by apply Hsym).
    assert (Hno : forall i, p !! bx i = None /\ p !! bz i = None).
    { assert (Hn : forall u v i, u = bx i \/ u = bz i -> p !! u <> Some v).
      { intros u v i Hu Huv. pose proof Huv as Hvu. apply Hsym in Hvu as [Hvu Hne].
        assert (Hv : v <> 0%N /\ v <> 1%N /\ v <> 2%N /\ v <> 3%N).
        { split_and!; intros ->; rewrite ?H01, ?H10, ?H23, ?H32 in Hvu; injection Hvu; destruct Hu as [->| ->]; ids. }
        apply Hrule in Huv as [_ (pre & s & post & Heq & Hor & Hpre)].
        assert (Hs : s ∈ broom_steps) by (rewrite Heq, elem_of_app, elem_of_cons; tauto).
        unfold broom_steps in Hs. rewrite elem_of_app, !elem_of_cons, elem_of_nil, comb_in in Hs.
        destruct Hs as [Hs|(j & Hj & Hs)].
        { repeat destruct Hs as [->|Hs]; [..|done]; cbn [sid tid] in Hor;
            destruct Hor as [[= H1 H2]|[= H1 H2]]; destruct Hu; ids. }
        destruct Hs as [->|[->| ->]]; cbn [sid tid] in Hor.
        { destruct Hor as [[= H1 H2]|[= H1 H2]]; destruct Hu; ids. }
        { destruct Hor as [[= H1 H2]|[= H1 H2]]; destruct Hu; ids. }
        (* the step to the node's own leaf comes after its cut step *)
        assert (Hin : mkStep (bx j) 1 true ∈ pre).
        { clear -Heq Hj. unfold broom_steps, comb_steps in Heq.
          assert (Hsplit : seq 0 k = seq 0 j ++ j :: seq (S j) (k - S j)).
          { replace k with (j + S (k - S j)) at 1 by lia. by rewrite seq_app. }
          rewrite Hsplit, bind_app, bind_cons in Heq. cbn [app] in Heq.
          rewrite app_comm_cons, app_comm_cons, app_comm_cons in Heq.
          set (A := mkStep 0 1 false :: mkStep 1 2 false :: mkStep 2 3 false :: (seq 0 j ≫= _)) in Heq.
          set (B := seq (S j) (k - S j) ≫= _) in Heq.
          assert (HA : mkStep (bx j) (bz j) false ∉ A ++ [mkStep 3 (bx j) false; mkStep (bx j) 1 true]).
          { subst A. rewrite elem_of_app, !elem_of_cons, elem_of_nil. 
            intros [[H|[H|[H|H]]]|[H|[H|[]]]]; try (injection H; ids).
            apply comb_in in H as (i & Hi & [H|[H|H]]); injection H; ids. }
          assert (HB : mkStep (bx j) (bz j) false ∉ B).
          { subst B. intros (i & Hi & [H|[H|H]])%comb_in; injection H; ids. }
          change ((A ++ [mkStep 3 (bx j) false; mkStep (bx j) 1 true; mkStep (bx j) (bz j) false] ++ B)%N =
            pre ++ mkStep (bx j) (bz j) false :: post) in Heq.
          replace (A ++ [mkStep 3 (bx j) false; mkStep (bx j) 1 true; mkStep (bx j) (bz j) false] ++ B)%N with
            ((A ++ [mkStep 3 (bx j) false; mkStep (bx j) 1 true]) ++ mkStep (bx j) (bz j) false :: B)%N in Heq
            by (by rewrite <-app_assoc).
          assert (pre = A ++ [mkStep 3 (bx j) false; mkStep (bx j) 1 true])%N as ->; [|set_solver].
          by eapply (pivot _ _ _ _ _ HA HB). }
        specialize (Hpre _ Hin). cbn [sid] in Hpre. destruct Hpre as (Hp1 & Hp2 & _).
        destruct Hor as [[= H1 H2]|[= H1 H2]]; congruence. }
      intros i. split; apply eq_None_not_Some; intros [v Hv]; eapply Hn; [|exact Hv| |exact Hv]; eauto. }
    assert (Hkeys : forall u v, p !! u = Some v -> (u = 0 \/ u = 1 \/ u = 2 \/ u = 3)%N).
    { intros u v Huv. pose proof Huv as Hs. apply Hrule in Hs as [_ (pre & s & post & Heq & Hor & _)].
      assert (Hs : s ∈ broom_steps) by (rewrite Heq, elem_of_app, elem_of_cons; tauto).
      unfold broom_steps in Hs. rewrite elem_of_app, !elem_of_cons, elem_of_nil, comb_in in Hs.
      destruct Hs as [Hs|(j & Hj & Hs)].
      - repeat destruct Hs as [->|Hs]; [..|done]; cbn [sid tid] in Hor; destruct Hor as [[= H1 H2]|[= H1 H2]]; lia.
      - destruct (Hno j) as [N1 N2].
        destruct Hs as [->|[->| ->]]; cbn [sid tid] in Hor; destruct Hor as [[= -> H2]|[= -> H2]]; try lia; congruence. }
    apply map_eq. intros u. unfold pair_all. cbn [foldl fst snd].
    destruct (decide (u = 0%N)) as [->|]; [rewrite H01; symmetry; vm_compute; reflexivity|].
    destruct (decide (u = 1%N)) as [->|]; [rewrite H10; symmetry; vm_compute; reflexivity|].
    destruct (decide (u = 2%N)) as [->|]; [rewrite H23; symmetry; vm_compute; reflexivity|].
    destruct (decide (u = 3%N)) as [->|]; [rewrite H32; symmetry; vm_compute; reflexivity|].
    transitivity (@None N).
    - apply eq_None_not_Some. intros [v Hv]. apply Hkeys in Hv. tauto.
    - symmetry.
      replace (p_pair (p_pair p_new 0 1) 2 3)%N with (<[3 := 2]> (<[2 := 3]> (<[1 := 0]> (<[0 := 1]> (∅ : gmap N N)))))%N by reflexivity.
      rewrite !lookup_insert_ne by done. done.
  Qed.
End broom.

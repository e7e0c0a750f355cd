(** Breadth-first traversal: the exact order of the steps. *)
From Verif Require Import Outcome GraphModel TraversalModel ComponentsModel PairingModel Spec
  GraphProofs EditProofs ConvertProofs EqProofs TraversalProofs BfsProofs.

Lemma level_order_snoc g seen todo n :
  level_order g seen (todo ++ [n]) =
  level_order g seen todo ++ ((fun w => (n, w)) <$> filter (fun w => w ∉ seen ++ todo) (nbrs g n)).
Proof.
  revert seen. induction todo as [|u todo IH]; intros seen; cbn [level_order app].
  - rewrite !app_nil_r. done.
  - rewrite IH, <-!app_assoc. done.
Qed.

Lemma bfs_level_order g r steps : Lawful g -> breadth_first g r steps ->
  crossed steps = level_order g [] (discovered r steps).
Proof.
  intros Hg Hb. pose proof (bfs_root g r steps Hg Hb) as Hr.
  destruct (bfs_run g Hg r (fun E V Q => crossed E ++ Q = level_order g [] (discovered r E)) Hr)
    as (steps' & V & Hb' & HI & HJ).
  - unfold discovered. simpl. rewrite app_nil_r. fold (nbrs g r). f_equal.
    induction (nbrs g r) as [|x l IH]; [done|]. rewrite filter_cons, decide_True by set_solver.
    by f_equal.
  - intros E t s t' HI HJ (p & n & rest & HQ & [(Hn & -> & ->)|(Hn & -> & ->)])%bfs_next_inv _;
      cbn [bf_nodes bf_queue]; rewrite HQ in *; rewrite crossed_app, discovered_snoc; cbn [cut tid].
    + rewrite app_nil_r, <-HJ, <-app_assoc. done.
    + rewrite level_order_snoc, <-HJ, <-!app_assoc. simpl. do 4 f_equal.
      destruct (ti_pend _ _ _ _ _ HI p n) as [_ HpV]; [left|].
      apply list_filter_iff. intros x. rewrite <-(ti_disc _ _ _ _ _ HI).
      split; [tauto|]. intros Hx. split; [|done]. by intros ->.
  - rewrite (breadth_first_fun g r steps steps' Hb Hb'). by rewrite app_nil_r in HJ.
Qed.


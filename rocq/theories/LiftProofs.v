(** Lifting a simple path of the contracted graph gives a simple path. *)
From Verif Require Import Outcome GraphModel TraversalModel ComponentsModel PairingModel Spec
  GraphProofs EditProofs TraversalProofs PathLemmas PairingProofs MatchTheory MaximumModel
  ForestProofs BlossomProofs ContractProofs.

Lemma settles_now {A} (f : nat -> comp A) m : (forall fuel, f fuel = m) -> settles f 0 m.
Proof. intros H. split; intros; auto. Qed.

Lemma settles_le {A} (f : nat -> comp A) n n' m : n <= n' -> settles f n m -> settles f n' m.
Proof. intros Hn [H1 H2]. split; [|done]. intros fuel Hf. apply H1. lia. Qed.

Lemma settles_bind {A C} (f : nat -> comp A) n a (k : nat -> A -> comp C) n' m :
  settles f n (Ok a) -> settles (fun fuel => k fuel a) n' m ->
  settles (fun fuel => let! x := f fuel in k fuel x) (Nat.max n n') m.
Proof.
  intros [H1 H2] [K1 K2]. split.
  - intros fuel Hf. rewrite H1 by lia. cbn [cbind]. apply K1. lia.
  - intros fuel. destruct (H2 fuel) as [-> | ->]; [by left|]. cbn [cbind]. apply K2.
Qed.

Lemma settles_bind_ok {A C} (m0 : comp A) a (k : nat -> A -> comp C) n m :
  m0 = Ok a -> settles (fun fuel => k fuel a) n m ->
  settles (fun fuel => let! x := m0 in k fuel x) n m.
Proof. intros ->. done. Qed.

(** ** Rotations *)

Definition rotation (B C : list N) : Prop := exists B1 B2, B = B1 ++ B2 /\ C = B2 ++ B1.

Lemma rotation_perm B C : rotation B C -> C ≡ₚ B.
Proof. intros (B1 & B2 & -> & ->). apply Permutation_app_comm. Qed.

Lemma rotation_cycle g B C : odd_cycle g B -> rotation B C -> odd_cycle g C.
Proof.
  intros (Hnd & Hodd & Hp & Hc) Hrot. pose proof (rotation_perm _ _ Hrot) as Hperm.
  assert (NoDup C) by (by rewrite Hperm).
  assert (Nat.odd (length C) = true) by (by rewrite Hperm).
  destruct Hrot as (B1 & [|x B2] & -> & ->).
  - rewrite app_nil_r in *. done.
  - destruct (rotate_path g B1 x B2 Hp Hc) as [H1 H2]. split_and!; done.
Qed.

Lemma cycle_reverse g B : Lawful g -> odd_cycle g B -> odd_cycle g (reverse B).
Proof.
  intros Hg (Hnd & Hodd & Hp & Hc). split_and!.
  - by rewrite (reverse_Permutation B).
  - by rewrite reverse_length.
  - by apply is_path_reverse.
  - intros a z Ha Hz. rewrite head_reverse in Ha. rewrite last_reverse in Hz.
    apply law_adj_sym; auto.
Qed.

Lemma split_uniq (x : N) l1 r1 l2 r2 : NoDup (l1 ++ x :: r1) ->
  l1 ++ x :: r1 = l2 ++ x :: r2 -> l2 = l1 /\ r2 = r1.
Proof.
  revert l2. induction l1 as [|y l1 IH]; intros [|z l2] Hnd E; cbn [app] in E.
  - injection E as ->. done.
  - injection E as -> ->. apply NoDup_cons in Hnd as [Hx _]. destruct Hx.
    apply elem_of_app. right. left.
  - injection E as -> <-. apply NoDup_cons in Hnd as [Hx _]. destruct Hx.
    apply elem_of_app. right. left.
  - injection E as -> E. apply NoDup_cons in Hnd as [_ Hnd].
    destruct (IH l2 Hnd E) as [-> ->]. done.
Qed.

Lemma rotation_split B x D : rotation B (x :: D) -> exists L R, B = L ++ x :: R /\ D = R ++ L.
Proof.
  intros (B1 & B2 & -> & E). destruct B2 as [|y B2].
  - exists [], D. rewrite app_nil_r. split; [done|]. by rewrite app_nil_r.
  - injection E as <- ->. by exists B1, B2.
Qed.

Lemma rotation_reverse B C : rotation B C -> rotation (reverse B) (reverse C).
Proof.
  intros (B1 & B2 & -> & ->). exists (reverse B2), (reverse B1). by rewrite !reverse_app.
Qed.

Lemma rotation_swap B C1 C2 : rotation B (C1 ++ C2) -> NoDup B -> rotation B (C2 ++ C1).
Proof.
  intros Hrot Hnd. destruct C1 as [|x C1].
  { by rewrite app_nil_r. }
  destruct (rotation_split B x (C1 ++ C2) Hrot) as (L & R & -> & E).
  destruct (decide (length C1 <= length R)) as [Hle|Hle].
  - assert (exists K, R = C1 ++ K) as [K ->].
    { exists (drop (length C1) R). rewrite <-(take_drop (length C1) R) at 1. f_equal.
      rewrite <-(take_app_le R L) by done. rewrite <-E. by rewrite take_app. }
    rewrite <-app_assoc in E. apply app_inv_head in E as ->.
    exists (L ++ x :: C1), K. split; [by rewrite <-app_assoc|]. by rewrite <-app_assoc.
  - assert (exists K, C1 = R ++ K) as [K ->].
    { exists (drop (length R) C1). rewrite <-(take_drop (length R) C1) at 1. f_equal.
      rewrite <-(take_app_le C1 C2) by lia. rewrite E. by rewrite take_app. }
    rewrite <-app_assoc in E. apply app_inv_head in E as <-.
    exists K, (C2 ++ x :: R). split; [by rewrite <-app_assoc|]. by rewrite <-app_assoc.
Qed.

Lemma rotation_opposite B x D D' : NoDup B -> rotation B (x :: D) -> rotation (reverse B) (x :: D') ->
  D' = reverse D.
Proof.
  intros Hnd (L & R & E & ->)%rotation_split (L' & R' & E' & ->)%rotation_split.
  rewrite E in E', Hnd. rewrite reverse_app, reverse_cons, <-app_assoc in E'.
  apply split_uniq in E' as [-> ->]; [by rewrite reverse_app|].
  assert (Hp : reverse R ++ [x] ++ reverse L ≡ₚ L ++ x :: R); [|by rewrite Hp].
  rewrite <-(reverse_Permutation (L ++ x :: R)), reverse_app, reverse_cons, <-app_assoc. done.
Qed.

(** Two ways round an odd cycle between the same nodes differ in parity. *)
Lemma two_ways B seg rest seg' rest' x z : NoDup B -> Nat.odd (length B) = true ->
  rotation B (seg ++ rest) -> rotation (reverse B) (seg' ++ rest') ->
  head seg = Some x -> last seg = Some z -> head seg' = Some x -> last seg' = Some z ->
  Nat.even (length seg) = true -> Nat.odd (length seg') = true.
Proof.
  intros Hnd Hodd Hr Hr' Hh Hl Hh' Hl' Hev.
  pose proof (rotation_perm _ _ Hr) as Hperm.
  assert (HndC : NoDup (seg ++ rest)) by (by rewrite Hperm).
  destruct seg as [|x1 s]; [done|]. injection Hh as ->.
  destruct seg' as [|x1 s']; [done|]. injection Hh' as ->.
  destruct s as [|z1 D1 _] using rev_ind; [done|].
  rewrite app_comm_cons, last_snoc in Hl. injection Hl as ->.
  destruct s' as [|z1 K _] using rev_ind; [done|].
  rewrite app_comm_cons, last_snoc in Hl'. injection Hl' as ->.
  cbn [app] in Hr, Hr'. pose proof (rotation_opposite B x _ _ Hnd Hr Hr') as E.
  rewrite <-!app_assoc in E. cbn [app] in E. rewrite reverse_app, reverse_cons, <-app_assoc in E.
  symmetry in E. apply split_uniq in E as [-> _].
  - cbn [length]. rewrite app_length, reverse_length. cbn [length].
    apply Permutation_length in Hperm. rewrite <-Hperm in Hodd.
    cbn [app] in Hodd. cbn [length] in Hodd, Hev. rewrite !app_length in Hodd.
    rewrite app_length in Hev. cbn [length] in Hodd, Hev.
    replace (S (length D1 + 1)) with (2 + length D1) in Hev by lia.
    replace (S (length D1 + 1 + length rest)) with (2 + (length D1 + length rest)) in Hodd by lia.
    replace (S (length rest + 1)) with (2 + length rest) by lia.
    change (Nat.even (length D1) = true) in Hev.
    change (Nat.odd (length D1 + length rest) = true) in Hodd.
    change (Nat.odd (length rest) = true).
    rewrite Nat.odd_add, <-Nat.negb_even, Hev in Hodd. by destruct (Nat.odd (length rest)).
  - cbn [app] in HndC. apply NoDup_cons in HndC as [_ HndC].
    rewrite <-app_assoc in HndC. cbn [app] in HndC.
    assert (Hp : reverse rest ++ [z] ++ reverse D1 ≡ₚ D1 ++ z :: rest); [|by rewrite Hp].
    rewrite <-(reverse_Permutation (D1 ++ z :: rest)), reverse_app, reverse_cons, <-app_assoc. done.
Qed.

Lemma rotate_right_snoc l x : rotate_right (l ++ [x]) = x :: l.
Proof. unfold rotate_right. rewrite last_snoc. by rewrite removelast_last. Qed.

Lemma rotate_until_spec B test (T : list N -> bool) :
  (forall C, C ≡ₚ B -> test C = Ok (T C)) ->
  forall B3 B1 B2, B = B1 ++ B3 ++ B2 -> T (B3 ++ B2 ++ B1) = true ->
  exists C, rotation B C /\ T C = true /\
    settles (fun fuel => rotate_until fuel test (B2 ++ B1 ++ B3)) (S (length B3)) (Ok C).
Proof.
  intros Htest B3. induction B3 as [|x B3 IH] using rev_ind; intros B1 B2 HB HT.
  - simpl in *. rewrite app_nil_r. exists (B2 ++ B1). split_and!; [by exists B1, B2|done|].
    assert (Hp : B2 ++ B1 ≡ₚ B) by (rewrite HB; apply Permutation_app_comm).
    split.
    + intros [|fuel] Hf; [lia|]. cbn [rotate_until]. rewrite Htest by done. cbn [cbind]. by rewrite HT.
    + intros [|fuel]; [by left|]. right. cbn [rotate_until]. rewrite Htest by done.
      cbn [cbind]. by rewrite HT.
  - set (C0 := B2 ++ B1 ++ B3 ++ [x]).
    assert (Hrot : rotation B C0).
    { exists (B1 ++ B3 ++ [x]), B2. split; [|done]. rewrite HB. by rewrite <-!app_assoc. }
    pose proof (rotation_perm _ _ Hrot) as Hperm.
    destruct (T C0) eqn:ET.
    + exists C0. split_and!; [done|done|]. split.
      * intros [|fuel] Hf; [lia|]. cbn [rotate_until]. rewrite Htest by done. cbn [cbind]. by rewrite ET.
      * intros [|fuel]; [by left|]. right. cbn [rotate_until]. rewrite Htest by done.
        cbn [cbind]. by rewrite ET.
    + destruct (IH B1 (x :: B2)) as (C & HC & HTC & [Hs1 Hs2]).
      { rewrite HB. by rewrite <-!app_assoc. }
      { rewrite <-app_assoc in HT. done. }
      exists C. split_and!; [done|done|].
      assert (Hstep : forall fuel, rotate_until (S fuel) test C0 =
                              rotate_until fuel test ((x :: B2) ++ B1 ++ B3)).
      { intros fuel. cbn [rotate_until]. rewrite Htest by done. cbn [cbind]. rewrite ET.
        f_equal. unfold C0. rewrite !app_assoc, rotate_right_snoc. by rewrite <-!app_assoc. }
      rewrite app_length. cbn [length]. split.
      * intros [|fuel] Hf; [lia|]. rewrite Hstep. apply Hs1. lia.
      * intros [|fuel]; [by left|]. rewrite Hstep. apply Hs2.
Qed.

Section lift.
  Context (g : Graph) (p : Pairing) (Hg : Lawful g) (Hp : pairing_of g p).
  Context (B : list N) (HB : odd_cycle g B) (HBn : forall x, x ∈ B -> x ∈ g_nodes g).

  Definition edge (u v : N) : bool := match g_has_edge g u v with Ok r => r | _ => false end.

  Lemma edge_spec u v : u ∈ g_nodes g -> v ∈ g_nodes g ->
    unwrap (g_has_edge g u v) = Ok (edge u v) /\ (edge u v = true <-> adj g u v).
  Proof.
    intros Hu Hv. destruct (law_has_edge g Hg u v Hu Hv) as (r & Hr & Hadj).
    unfold edge. rewrite Hr. done.
  Qed.

  (** A rotation that starts at a neighbor of [sid]. *)
  Lemma rotate_head A sid x : odd_cycle g A -> A ≡ₚ B -> sid ∈ g_nodes g -> x ∈ A -> adj g sid x ->
    exists C y, rotation A C /\ head C = Some y /\ adj g sid y /\
      settles (fun fuel => rotate_until fuel
        (fun copy => let! x := index copy 0 in unwrap (g_has_edge g sid x)) A) (S (length B)) (Ok C).
  Proof.
    intros HA HAB Hs Hx Hsx.
    set (T := fun C : list N => match C with y :: _ => edge sid y | [] => false end).
    destruct (elem_of_list_split A x Hx) as (A1 & A2 & E).
    destruct (rotate_until_spec A
      (fun copy => let! x := index copy 0 in unwrap (g_has_edge g sid x)) T) with (B3 := x :: A2) (B1 := A1)
      (B2 := @nil N) as (C & HC & HT & Hset).
    - intros C HCA. destruct C as [|y C].
      { symmetry in HCA. apply Permutation_nil_r in HCA. subst A.
        by destruct A1. }
      unfold index, T. cbn [lookup list_lookup cbind]. apply edge_spec; [done|].
      apply HBn. rewrite <-HAB, <-HCA. left.
    - by rewrite app_nil_r.
    - cbn. apply edge_spec; [done|apply HBn; by rewrite <-HAB|done].
    - destruct C as [|y C]; [done|]. exists (y :: C), y. split_and!; [done|done| |].
      + cbn in HT. apply edge_spec in HT; [done|done|]. apply HBn.
        rewrite <-HAB, <-(rotation_perm _ _ HC). left.
      + simpl app in Hset at 1. rewrite <-E in Hset. eapply settles_le; [|exact Hset].
        apply le_n_S. rewrite <-(Permutation_length HAB), E, app_length. lia.
  Qed.

  (** A rotation that ends at a neighbor of [tid]. *)
  Lemma rotate_last tid x : tid ∈ g_nodes g -> x ∈ B -> adj g x tid ->
    exists C y, rotation B C /\ last C = Some y /\ adj g y tid /\
      settles (fun fuel => rotate_until fuel
        (fun copy => let! x := expect_some (last copy) in unwrap (g_has_edge g x tid)) B)
        (S (length B)) (Ok C).
  Proof.
    intros Ht Hx Hxt.
    set (T := fun C : list N => match last C with Some y => edge y tid | None => false end).
    destruct (elem_of_list_split B x Hx) as (B1 & B3 & E).
    destruct (rotate_until_spec B
      (fun copy => let! x := expect_some (last copy) in unwrap (g_has_edge g x tid)) T)
      with (B3 := B3) (B1 := B1 ++ [x]) (B2 := @nil N) as (C & HC & HT & Hset).
    - intros C HCB. unfold T. destruct (last C) as [y|] eqn:El.
      + cbn [expect_some cbind]. apply edge_spec; [|done]. apply HBn. rewrite <-HCB.
        apply last_Some in El as [l ->]. apply elem_of_app. right. left.
      + apply last_None in El. subst C. symmetry in HCB. apply Permutation_nil_r in HCB.
        rewrite HCB in E. by destruct B1.
    - rewrite app_nil_r, <-app_assoc. done.
    - unfold T. simpl. rewrite app_assoc, last_snoc. apply edge_spec; [by apply HBn|done|done].
    - unfold T in HT. destruct (last C) as [y|] eqn:El; [|done].
      exists C, y. split_and!; [done|done| |].
      + apply edge_spec in HT; [done| |done]. apply HBn. rewrite <-(rotation_perm _ _ HC).
        apply last_Some in El as [l ->]. apply elem_of_app. right. left.
      + rewrite <-app_assoc in Hset. simpl in Hset. rewrite <-E in Hset.
        eapply settles_le; [|exact Hset]. apply le_n_S. rewrite E, app_length. simpl. lia.
  Qed.

  (** The shortest prefix that ends at a neighbor of [tid]. *)
  Lemma take_to_edge_spec tid C x : tid ∈ g_nodes g -> (forall y, y ∈ C -> y ∈ g_nodes g) ->
    x ∈ C -> adj g x tid ->
    exists seg rest y, take_to_edge g tid C = Ok seg /\ C = seg ++ rest /\
      last seg = Some y /\ adj g y tid /\ head seg = head C.
  Proof.
    intros Ht. induction C as [|z C IH]; intros HC Hx Hxt; [by apply elem_of_nil in Hx|].
    cbn [take_to_edge]. destruct (edge_spec z tid) as [-> Hz]; [apply HC; left|done|].
    cbn [cbind]. destruct (edge z tid).
    - exists [z], C, z. split_and!; try done. by apply Hz.
    - apply elem_of_cons in Hx as [->|Hx]; [naive_solver|].
      destruct IH as (seg & rest & y & -> & -> & Hl & Hy & Hh); [|done|done|].
      { intros y Hy. apply HC. by right. }
      exists (z :: seg), rest, y. split_and!; try done. by destruct seg.
  Qed.

  Context (b : N) (Hb : b ∈ g_nodes g -> b ∈ B).
  Context (g' : Graph) (Hn' : g_nodes g' = b :: filter (fun x => x ∉ B) (g_nodes g)).
  Context (Hout : forall x y, adj g' x y -> x <> b -> y <> b -> adj g x y).
  Context (Hadjb : forall y, adj g' b y \/ adj g' y b -> exists x, x ∈ B /\ adj g x y).

  Lemma path_out l : is_path g' l -> b ∉ l -> is_path g l.
  Proof.
    intros Hl Hbl i x y Hx Hy. apply Hout; [by eapply Hl| |]; intros ->; apply Hbl;
      by eapply elem_of_list_lookup_2.
  Qed.

  (** Gluing: parts outside the blossom and a simple path through it. *)
  Lemma glue lft seg rgt :
    NoDup (lft ++ b :: rgt) -> is_path g' (lft ++ b :: rgt) ->
    (forall x, x ∈ lft ++ b :: rgt -> x ∈ g_nodes g') ->
    NoDup seg -> is_path g seg -> (forall x, x ∈ seg -> x ∈ B) -> seg <> [] ->
    (forall u x, last lft = Some u -> head seg = Some x -> adj g u x) ->
    (forall x u, last seg = Some x -> head rgt = Some u -> adj g x u) ->
    NoDup (lft ++ seg ++ rgt) /\ is_path g (lft ++ seg ++ rgt) /\
    (forall x, x ∈ lft ++ seg ++ rgt -> x ∈ g_nodes g).
  Proof.
    intros Hnd Hpath Hnodes Hns Hps HsB Hne Hj1 Hj2.
    apply NoDup_app in Hnd as (Hnl & Hd & Hnd). apply NoDup_cons in Hnd as [Hbr Hnr].
    assert (Hbl : b ∉ lft) by (intros H; apply (Hd b H); left).
    assert (Hlr : forall x, x ∈ lft \/ x ∈ rgt -> x ∈ g_nodes g /\ x ∉ B).
    { intros x Hx. assert (Hxb : x <> b) by (intros ->; tauto).
      assert (Hin : x ∈ lft ++ b :: rgt) by (rewrite elem_of_app, elem_of_cons; tauto).
      apply Hnodes in Hin. rewrite Hn' in Hin. apply elem_of_cons in Hin as [?|Hin]; [done|].
      by apply elem_of_list_filter in Hin as [? ?]. }
    apply is_path_app in Hpath as (Hpl & Hpr & _). apply is_path_cons in Hpr as [Hpr _].
    split_and!.
    - apply NoDup_app. split_and!; [done| |].
      + intros x Hx [Hx'|Hx']%elem_of_app.
        * destruct (Hlr x) as [_ ?]; [by left|]. auto.
        * apply (Hd x Hx). by right.
      + apply NoDup_app. split_and!; [done| |done]. intros x Hx Hx'.
        destruct (Hlr x) as [_ ?]; [by right|]. auto.
    - apply is_path_app. split_and!; [by apply path_out| |].
      + apply is_path_app. split_and!; [done|by apply path_out|done].
      + intros u x Hu Hx. apply Hj1; [done|]. by destruct seg.
    - intros x [Hx|[Hx|Hx]%elem_of_app]%elem_of_app; [apply Hlr; auto|auto|apply Hlr; auto].
  Qed.

  Definition simple (l : list N) : Prop :=
    NoDup l /\ is_path g l /\ forall x, x ∈ l -> x ∈ g_nodes g.

  Lemma lift_spec path :
    NoDup path -> is_path g' path -> (forall x, x ∈ path -> x ∈ g_nodes g') ->
    exists n path', settles (fun fuel => b_lift fuel (mkBlossom b B) path g) n (Ok path') /\
      simple path' /\ (b ∉ path -> path' = path) /\ (path <> [] -> path' <> []) /\
      (forall lft rgt, path = lft ++ b :: rgt -> lft = [] \/ rgt = [] ->
         exists C, C ≡ₚ B /\ path' = lft ++ C ++ rgt) /\
      (forall lft rgt, path = lft ++ b :: rgt -> lft <> [] -> rgt <> [] ->
         (forall u x y, last lft = Some u -> x ∈ B -> y ∈ B -> adj g u x -> adj g u y -> x = y) ->
         (forall u x y, head rgt = Some u -> x ∈ B -> y ∈ B -> adj g x u -> adj g y u -> x = y) ->
         Nat.even (length path) = true ->
         exists A seg rest, path' = lft ++ seg ++ rgt /\ Nat.odd (length seg) = true /\
           (forall x u, head seg = Some x -> last lft = Some u -> adj g u x) /\
           (forall x u, last seg = Some x -> head rgt = Some u -> adj g x u) /\
           (A = B \/ A = reverse B) /\ rotation A (seg ++ rest)).
  Proof.
    intros Hnd Hpath Hnodes. unfold b_lift. cbn [b_id b_path].
    pose proof (before_spec b path) as Hbef. destruct (before b path) as [lft|].
    2:{ exists 0, path. split_and!; [by apply settles_now| |done|done| |].
        2:{ intros lft rgt ->. destruct Hbef. apply elem_of_app. right. left. }
        2:{ intros lft rgt ->. destruct Hbef. apply elem_of_app. right. left. }
        split_and!; [done|by apply path_out|].
        intros x Hx. assert (x <> b) by (intros ->; done). apply Hnodes in Hx. rewrite Hn' in Hx.
        apply elem_of_cons in Hx as [?|Hx]; [done|]. by apply elem_of_list_filter in Hx as [_ ?]. }
    destruct Hbef as (rgt & -> & Hbl).
    assert (drop (S (length lft)) (lft ++ b :: rgt) = rgt) as ->.
    { replace (S (length lft)) with (length (lft ++ [b])) by (rewrite app_length; simpl; lia).
      change (b :: rgt) with ([b] ++ rgt). rewrite app_assoc. apply drop_app. }
    assert (Hbin : b ∈ lft ++ b :: rgt) by (apply elem_of_app; right; left).
    assert (Huniq : forall lft' rgt', lft ++ b :: rgt = lft' ++ b :: rgt' -> lft' = lft /\ rgt' = rgt).
    { intros lft' rgt' E. by apply split_uniq in E. }
    assert (HBne : B <> []).
    { destruct HB as (_ & Ho & _). by destruct B. }
    pose proof HB as (HBnd & HBodd & HBp & HBc).
    assert (Hnode : forall x, x ∈ lft \/ x ∈ rgt -> x ∈ g_nodes g).
    { intros x Hx. apply NoDup_app in Hnd as (_ & Hd & Hnd). apply NoDup_cons in Hnd as [Hbr _].
      assert (Hxb : x <> b) by (intros ->; tauto).
      assert (Hin : x ∈ lft ++ b :: rgt) by (rewrite elem_of_app, elem_of_cons; tauto).
      apply Hnodes in Hin. rewrite Hn' in Hin. apply elem_of_cons in Hin as [?|Hin]; [done|].
      by apply elem_of_list_filter in Hin as [_ ?]. }
    assert (Hjl : forall u, last lft = Some u -> exists x, x ∈ B /\ adj g u x).
    { intros u Hu. apply is_path_app in Hpath as (_ & _ & Hj).
      destruct (Hadjb u) as (x & Hx & Hxu); [right; by apply Hj|].
      exists x. split; [done|]. by apply law_adj_sym. }
    assert (Hjr : forall u, head rgt = Some u -> exists x, x ∈ B /\ adj g x u).
    { intros u Hu. apply is_path_app in Hpath as (_ & Hpr & _). apply is_path_cons in Hpr as [_ Hj].
      apply Hadjb. left. auto. }
    destruct lft as [|l0 lft0] eqn:El; destruct rgt as [|r0 rgt0] eqn:Er.
    - exists 0, B. split_and!; [by apply settles_now| |set_solver|done| |].
      + split_and!; done.
      + intros lft' rgt' [-> ->]%Huniq _. exists B. split; [done|]. simpl. by rewrite app_nil_r.
      + intros lft' rgt' [-> ->]%Huniq ?. done.
    - destruct (Hjr r0 eq_refl) as (x & Hx & Hxr).
      destruct (rotate_last r0 x) as (C & y & HC & Hly & Hyr & Hset); [apply Hnode; right; left|done|done|].
      destruct (rotation_cycle g B C HB HC) as (HCnd & _ & HCp & _).
      eexists _, (C ++ r0 :: rgt0). split_and!.
      + unfold b_lift_right. apply settles_bind_ok with (a := r0); [done|]. cbn [b_path].
        eapply settles_bind; [exact Hset|]. by apply settles_now.
      + apply (glue [] C (r0 :: rgt0)); try done.
        * intros z Hz. by rewrite <-(rotation_perm _ _ HC).
        * intros ->. done.
        * intros z u Hz [= <-]. congruence.
      + set_solver.
      + intros _. by destruct C.
      + intros lft' rgt' [-> ->]%Huniq _. exists C. split; [by apply rotation_perm|done].
      + intros lft' rgt' [-> ->]%Huniq ?. done.
    - destruct (last (l0 :: lft0)) as [sid|] eqn:Esid; [|by apply last_None in Esid].
      destruct (Hjl sid eq_refl) as (x & Hx & Hsx).
      destruct (rotate_head B sid x) as (C & y & HC & Hhy & Hsy & Hset); try done.
      { apply Hnode. left. apply last_Some in Esid as [l ->]. apply elem_of_app. right. left. }
      destruct (rotation_cycle g B C HB HC) as (HCnd & _ & HCp & _).
      eexists _, ((l0 :: lft0) ++ C). split_and!.
      + unfold b_lift_left. apply settles_bind_ok with (a := sid); [by rewrite Esid|]. cbn [b_path].
        eapply settles_bind; [exact Hset|]. by apply settles_now.
      + rewrite <-(app_nil_r C). apply (glue (l0 :: lft0) C []); try done.
        * intros z Hz. by rewrite <-(rotation_perm _ _ HC).
        * intros ->. done.
        * intros u z Hu Hz. congruence.
      + set_solver.
      + done.
      + intros lft' rgt' [-> ->]%Huniq _. exists C. rewrite app_nil_r. split; [by apply rotation_perm|done].
      + intros lft' rgt' [-> ->]%Huniq _ ?. done.
    - destruct (last (l0 :: lft0)) as [sid|] eqn:Esid; [|by apply last_None in Esid].
      destruct (Hjl sid eq_refl) as (x & Hx & Hsx).
      destruct (Hjr r0 eq_refl) as (x' & Hx' & Hxr).
      assert (Hsn : sid ∈ g_nodes g).
      { apply Hnode. left. apply last_Some in Esid as [l ->]. apply elem_of_app. right. left. }
      assert (Hrn : r0 ∈ g_nodes g) by (apply Hnode; right; left).
      (* either direction *)
      assert (Hdir : forall A, odd_cycle g A -> A ≡ₚ B ->
        exists C seg, settles (fun fuel => rotate_until fuel
          (fun copy => let! x := index copy 0 in unwrap (g_has_edge g sid x)) A) (S (length B)) (Ok C) /\
          take_to_edge g r0 C = Ok seg /\
          simple ((l0 :: lft0) ++ seg ++ r0 :: rgt0) /\
          exists y z rest, head seg = Some y /\ last seg = Some z /\ adj g sid y /\ adj g z r0 /\
            C = seg ++ rest /\ rotation A C).
      { intros A HA HAB.
        destruct (rotate_head A sid x HA HAB Hsn) as (C & y & HC & Hhy & Hsy & Hset);
          [by rewrite HAB|done|].
        destruct (rotation_cycle g A C HA HC) as (HCnd & _ & HCp & _).
        destruct (take_to_edge_spec r0 C x' Hrn) as (seg & rest & z & Hseg & HCs & Hlz & Hzr & Hhs).
        { intros u Hu. apply HBn. by rewrite <-HAB, <-(rotation_perm _ _ HC). }
        { by rewrite (rotation_perm _ _ HC), HAB. }
        { done. }
        exists C, seg. split_and!; [done|done| |].
        2:{ exists y, z, rest. split_and!; try done. congruence. }
        assert (HsB : forall u, u ∈ seg -> u ∈ B).
        { intros u Hu. rewrite <-HAB, <-(rotation_perm _ _ HC), HCs. apply elem_of_app. by left. }
        rewrite HCs in HCnd, HCp. apply NoDup_app in HCnd as (HCnd & _).
        apply is_path_app in HCp as (HCp & _).
        apply (glue (l0 :: lft0) seg (r0 :: rgt0)); try done.
        - intros ->. done.
        - intros u u' Hu Hu'. congruence.
        - intros u u' Hu [= <-]. congruence. }
      destruct (Hdir B HB (reflexivity B)) as (C & seg & Hset & Hseg & Hsimple & y & z & rest & Hhy & Hlz & Hsy & Hzr & -> & Hrot).
      destruct (Hdir (reverse B) (cycle_reverse g B Hg HB) (reverse_Permutation B))
        as (C' & seg' & Hset' & Hseg' & Hsimple' & y' & z' & rest' & Hhy' & Hlz' & Hsy' & Hzr' & -> & Hrot').
      destruct (Nat.even (length ((l0 :: lft0) ++ seg ++ r0 :: rgt0))) eqn:Eev.
      + eexists _, _. split_and!.
        * unfold b_lift_both. apply settles_bind_ok with (a := sid); [by rewrite Esid|]. cbn [b_path].
          eapply settles_bind; [exact Hset|]. apply settles_bind_ok with (a := r0); [done|].
          apply settles_bind_ok with (a := seg); [done|]. rewrite Eev. by apply settles_now.
        * done.
        * set_solver.
        * done.
        * intros lft' rgt' [-> ->]%Huniq [?|?]; done.
        * intros lft' rgt' [-> ->]%Huniq _ _ _ _ Hevp. exists B, seg, rest. split_and!; try done.
          -- rewrite !app_length in *. cbn [length] in *.
             rewrite <-Nat.negb_even. destruct (Nat.even (length seg)) eqn:Es; [|done]. exfalso.
             revert Eev Hevp. rewrite !Nat.even_add. rewrite Es.
             generalize (S (length lft0)), (S (length rgt0)). intros n1 n2.
             rewrite Nat.even_succ, <-Nat.negb_even.
             destruct (Nat.even n1), (Nat.even n2); done.
          -- intros x0 u Hx0 Hu. rewrite Hu in Esid. congruence.
          -- intros x0 u Hx0 [= <-]. congruence.
          -- by left.
      + eexists _, _. split_and!.
        * unfold b_lift_both. apply settles_bind_ok with (a := sid); [by rewrite Esid|]. cbn [b_path].
          eapply settles_bind; [exact Hset|]. apply settles_bind_ok with (a := r0); [done|].
          apply settles_bind_ok with (a := seg); [done|]. rewrite Eev.
          eapply settles_bind; [exact Hset'|]. apply settles_bind_ok with (a := seg'); [done|].
          by apply settles_now.
        * done.
        * set_solver.
        * done.
        * intros lft' rgt' [-> ->]%Huniq [?|?]; done.
        * intros lft' rgt' [-> ->]%Huniq _ _ Hul Hur Hevp.
          exists (reverse B), seg', rest'. split_and!; try done.
          -- assert (HsB : forall u, u ∈ seg -> u ∈ B).
             { intros u Hu. rewrite <-(rotation_perm _ _ Hrot). apply elem_of_app. by left. }
             assert (HsB' : forall u, u ∈ seg' -> u ∈ B).
             { intros u Hu. rewrite <-(reverse_Permutation B), <-(rotation_perm _ _ Hrot').
               apply elem_of_app. by left. }
             assert (y' = y) as ->.
             { apply (Hul sid); try done.
               - apply HsB'. destruct seg'; [done|]. injection Hhy' as ->. left.
               - apply HsB. destruct seg; [done|]. injection Hhy as ->. left. }
             assert (z' = z) as ->.
             { apply (Hur r0); try done.
               - apply HsB'. apply last_Some in Hlz' as [? ->]. apply elem_of_app. right. left.
               - apply HsB. apply last_Some in Hlz as [? ->]. apply elem_of_app. right. left. }
             eapply (two_ways B seg rest seg' rest' y z); try done.
             revert Eev Hevp. rewrite !app_length. cbn [length]. rewrite !Nat.even_add.
             generalize (S (length lft0)), (S (length rgt0)). intros n1 n2.
             rewrite Nat.even_succ, <-Nat.negb_even.
             destruct (Nat.even n1), (Nat.even (length seg)), (Nat.even n2); done.
          -- intros x0 u Hx0 Hu. rewrite Hu in Esid. congruence.
          -- intros x0 u Hx0 [= <-]. congruence.
          -- by right.
  Qed.
End lift.

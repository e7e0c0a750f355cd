(** Results of Rust code: values, [Err], panics and "has not returned yet". *)
From stdpp Require Export gmap list numbers sorting.

(** src/graph/error.rs:1-6  [enum Error]. *)
Inductive error :=
| MissingNode (id : N)
| DuplicateNode (id : N)
| MissingEdge (sid tid : N)
| DuplicateEdge (sid tid : N).

(** The panics the modelled code can raise.  One constructor per panicking
    construct; the citation gives the Rust site(s). *)
Inductive panic :=
| PIndex                       (* [v[i]] / [v[a..b]] out of bounds (anywhere) *)
| PUnwrap (e : error)          (* [.unwrap()] / [.expect(..)] on [Err(e)] *)
| PNone                        (* [.unwrap()] / [.expect(..)] on [None] *)
| PForestDuplicate (id : N)    (* matching/forest.rs:24,40 "duplicate node" *)
| PForestMissing (id : N)      (* matching/forest.rs:31,63 "missing parent" *)
| PNodeMarkedTwice (id : N)    (* matching/marker.rs:19 *)
| PEdgeMarkedTwice (s t : N)   (* matching/marker.rs:31 *)
| PEvenPath                    (* matching/pairing.rs:36 "even path augmentation" *)
| PMissingMate (id : N)        (* matching/pairing.rs:49 "missing node" *)
| PBlossomRoot                 (* matching/blossom.rs:31 "blossom root not found" *)
| POverflow.                   (* arithmetic overflow (overflow checks on) *)

(** Outcome of running Rust code that returns [Result<A, Error>] (or plain
    [A], in which case [Err] never occurs). *)
Inductive comp (A : Type) :=
| Ok (a : A)
| Err (e : error)
| Panic (p : panic)
| NoFuel.
Arguments Ok {A} a.
Arguments Err {A} e.
Arguments Panic {A} p.
Arguments NoFuel {A}.

(** Sequencing; this is also Rust's [?] operator. *)
Definition cbind {A B} (m : comp A) (f : A -> comp B) : comp B :=
  match m with
  | Ok a => f a
  | Err e => Err e
  | Panic p => Panic p
  | NoFuel => NoFuel
  end.
Notation "'let!' x := m 'in' k" := (cbind m (fun x => k))
  (at level 200, x pattern, m at level 100, k at level 200, right associativity).

(** [.unwrap()] and [.expect(msg)] on a [Result]. *)
Definition unwrap {A} (m : comp A) : comp A :=
  match m with
  | Err e => Panic (PUnwrap e)
  | _ => m
  end.

(** [.unwrap()] and [.expect(msg)] on an [Option]. *)
Definition expect_some {A} (o : option A) : comp A :=
  match o with Some a => Ok a | None => Panic PNone end.

(** Checked indexing [v[i]]. *)
Definition index {A} (l : list A) (i : nat) : comp A :=
  match l !! i with Some a => Ok a | None => Panic PIndex end.

(** [usize::MAX] on a 64-bit target. *)
Definition usize_max : N := 18446744073709551615%N.

Global Instance error_eq_dec : EqDecision error.
Proof. solve_decision. Defined.
Global Instance panic_eq_dec : EqDecision panic.
Proof. solve_decision. Defined.
Global Instance comp_eq_dec {A} `{EqDecision A} : EqDecision (comp A).
Proof. solve_decision. Defined.

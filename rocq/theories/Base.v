(** Common definitions: outcomes and enumerations. *)
From Coq Require Import List Arith ZArith Lia Bool.
Import ListNotations.

(** Outcome of a C++ call: a value, or undefined behaviour / failed [assert].
    The code base guards its preconditions with [assert] only (no exceptions),
    so a violated [assert] and an out-of-range access are both [UB]. *)
Inductive res (A : Type) : Type := Ok (a : A) | UB.
Arguments Ok {A} _.
Arguments UB {A}.

Definition bind {A B} (m : res A) (f : A -> res B) : res B :=
  match m with Ok a => f a | UB => UB end.
Notation "'do' x <- m ; f" := (bind m (fun x => f))
  (at level 200, x pattern, m at level 100, f at level 200, right associativity).
Definition guard {A} (b : bool) (m : res A) : res A := if b then m else UB.

(** include/jrl-qp/enums.h:14-23 *)
Inductive status : Type :=
  INACTIVE | LOWER | UPPER | EQUALITY | LOWER_BOUND | UPPER_BOUND | FIXED.

(** The underlying integer of the enumerator (enums.h:14-23; comparisons such
    as [status < LOWER_BOUND] in ConstraintNormal.h:46 use it). *)
Definition status_int (s : status) : nat :=
  match s with
  | INACTIVE => 0 | LOWER => 1 | UPPER => 2 | EQUALITY => 3
  | LOWER_BOUND => 4 | UPPER_BOUND => 5 | FIXED => 6
  end.

Definition status_eqb (a b : status) : bool := Nat.eqb (status_int a) (status_int b).

Lemma status_eqb_spec a b : reflect (a = b) (status_eqb a b).
Proof. destruct a, b; constructor; congruence. Qed.

Lemma status_eqb_refl a : status_eqb a a = true.
Proof. destruct a; reflexivity. Qed.

Lemma status_eq_dec (a b : status) : {a = b} + {a <> b}.
Proof. decide equality. Defined.

(** include/jrl-qp/enums.h:26-37 *)
Inductive term_status : Type :=
  SUCCESS | INCONSISTENT_INPUT | NON_POS_HESSIAN | INFEASIBLE | MAX_ITER_REACHED
| LINEAR_DEPENDENCY_DETECTED | OVERCONSTRAINED_PROBLEM | UNKNOWN.

(** include/jrl-qp/internal/SelectedConstraint.h:14-45.  [sc_idx] is an [int]
    in the code, -1 in the default-constructed/"none" value; here it is a [nat]
    and the "none" value is recognised by [sc_st = INACTIVE] (its index is
    never read by the code, DualSolver.cpp:116). *)
Record selcstr := SC { sc_idx : nat; sc_st : status }.

Lemma bind_ok {A B} (m : res A) (f : A -> res B) b :
  bind m f = Ok b -> exists a, m = Ok a /\ f a = Ok b.
Proof. destruct m; simpl; intros; [eauto | discriminate]. Qed.

Lemma guard_ok {A} c (m : res A) a : guard c m = Ok a -> c = true /\ m = Ok a.
Proof. destruct c; simpl; intros; [auto | discriminate]. Qed.

(** Model of experimental::BoxAndSingleConstraintSolver
    (src/experimental/BoxAndSingleConstraintSolver.cpp): projection of a point
    x0 on {xl <= x <= xu, c'x >= bl}.  It is the dense dual solver with its own
    initialisation; everything after [init_] is [Solver.loop].  Logging is
    omitted. *)
From Coq Require Import List Arith ZArith Lia Bool.
From Verif Require Import Base ActiveSet Num Solver.
Import ListNotations.

Section Box.
Variable S : ops.
Notation T := (carrier S).
Notation vec := (vec S).
Notation mat := (mat S).
Notation problem := (problem S).
Notation options := (options S).
Notation sol := (sol S).
Notation "x + y" := (add S x y) : ops_scope.
Notation "x - y" := (sub S x y) : ops_scope.
Notation "x * y" := (mul S x y) : ops_scope.

(** The arguments of solve (BoxAndSingleConstraintSolver.cpp:11-15) with their
    sizes; infinite bounds are [None], as in [Solver.problem].
    [ba_n] is x0.size(). *)
Record box_args := BA {
  ba_x0 : vec; ba_n : nat;
  ba_c : vec; ba_csize : nat;
  ba_bl : option T;
  ba_xl : nat -> option T; ba_xlsize : nat;
  ba_xu : nat -> option T; ba_xusize : nat
}.

(** lines 24-27: the asserts ([c] is a vector: c.cols() == 1) *)
Definition box_sizes (a : box_args) : bool :=
  (ba_csize a =? ba_n a) && (ba_xlsize a =? ba_n a) && (ba_xusize a =? ba_xlsize a).

(** lines 31-39: the problem the main loop works on.  [pb_.a] holds x0 (not
    -x0); [pb_.G] is not assigned by this class and is read neither by [init_]
    nor by the loop: it is given here the dimensions of the problem and zero
    coefficients. *)
Definition box_pb (a : box_args) : problem :=
  Pb (fun _ _ => zero S) (ba_n a) (ba_n a) (ba_x0 a) (ba_n a)
     (fun i _ => ba_c a i) (ba_csize a) 1 (fun _ => ba_bl a) 1 (fun _ => None) 1
     (ba_xl a) (ba_xlsize a) (ba_xu a) (ba_xusize a).

(** The variables of [init_] (lines 51-60) *)
Record box_st := BS { bs_A : aset; bs_q : nat; bs_f : T; bs_x : vec; bs_u : vec; bs_R : mat; bs_J : mat }.

(** [x0[i] < xl[i]] and [x0[i] > xu[i]]: false against an infinite bound *)
Definition lt_lo (x : T) (b : option T) : bool := match b with Some b => ltb S x b | None => false end.
Definition gt_up (x : T) (b : option T) : bool := match b with Some b => ltb S b x | None => false end.

(** R(q,q) = v; R.col(q).head(q).setZero() (lines 68-69, 79-80) *)
Definition box_R (R : mat) (q : nat) (v : T) : mat :=
  fun i j => if j =? q then (if i =? q then v else if i <? q then zero S else R i j) else R i j.

(** Body of the loop, lines 63-90, with the bound checks of the views *)
Definition box_step (pb : problem) (n i : nat) (b : box_st) : res box_st :=
  let q := bs_q b in
  guard ((i <? n) && (i <? p_asize pb) && (i <? p_xlsize pb) && (i <? p_xusize pb)) (
  let x0 := p_a pb i in
  if lt_lo x0 (p_xl pb i) then
    match p_xl pb i with
    | Some l =>
        guard (q <? n) (
        let ui := (l - x0)%ops in
        do A <- as_activate (bs_A b) (i + 1)%nat LOWER_BOUND;
        Ok (BS A (q + 1)%nat (bs_f b + half S * ui * ui)%ops (vm n (upd (bs_x b) i l)) (vm n (upd (bs_u b) q ui))
               (mm n (box_R (bs_R b) q (one S))) (mm n (mupd (bs_J b) i q (one S)))))
    | None => UB
    end
  else if gt_up x0 (p_xu pb i) then
    match p_xu pb i with
    | Some r =>
        guard (q <? n) (
        let ui := (x0 - r)%ops in
        do A <- as_activate (bs_A b) (i + 1)%nat UPPER_BOUND;
        Ok (BS A (q + 1)%nat (bs_f b + half S * ui * ui)%ops (vm n (upd (bs_x b) i r)) (vm n (upd (bs_u b) q ui))
               (mm n (box_R (bs_R b) q (opp S (one S)))) (mm n (mupd (bs_J b) i q (one S)))))
    | None => UB
    end
  else
    guard ((n - i + q - 1)%nat <? n) (
    Ok (BS (bs_A b) q (bs_f b) (vm n (upd (bs_x b) i x0)) (bs_u b) (bs_R b)
           (mm n (mupd (bs_J b) i (n - i + q - 1)%nat (one S)))))).

Fixpoint box_loop (pb : problem) (n k : nat) (b : box_st) : res box_st :=
  match k with
  | O => Ok b
  | Datatypes.S i => do b <- box_loop pb n i b; box_step pb n i b
  end.

(** lines 46-94 *)
Definition box_init (pb : problem) (o : options) (s : sol) : res (term_status * sol) :=
  let n := s_n s in
  let s := set_A s (as_reset (s_A s)) in
  do J0 <- getM (s_J s) n n n;
  do R0 <- getM (s_R s) n n n;
  do x <- getV (s_x s) n;
  do u <- getV (s_u s) n;
  do b <- box_loop pb n n (BS (s_A s) 0 (zero S) x u R0 (fun _ _ => zero S));
  let s := set_f (set_A s (bs_A b)) (bs_f b) in
  let s := set_u (set_x s (wset (s_x s) (bs_x b))) (wset (s_u s) (bs_u b)) in
  Ok (SUCCESS, set_R (set_J s (wset (s_J s) (unview n n (bs_J b) (w_buf (s_J s)))))
                     (wset (s_R s) (unview n n (bs_R b) (w_buf (s_R s))))).

(** lines 11-44 *)
Definition box_solve (junk : vec) (a : box_args) (o : options) (s : sol) : res (term_status * sol) :=
  guard (box_sizes a) (
  let s := resize junk s (ba_n a) 1 (0 <? ba_xlsize a) in
  dual_solve box_init (box_pb a) o s).

(** line 9: BoxAndSingleConstraintSolver(nbVar), i.e. resize(nbVar, 1, true) *)
Definition box_new (junk : vec) (n : nat) : sol := resize junk (sol_new S) n 1 true.

(** The objects a user can hold *)
Inductive box_history : sol -> Prop :=
| bh_new : box_history (sol_new S)
| bh_new_n junk n : box_history (box_new junk n)
| bh_resize junk s n m ub : box_history s -> box_history (resize junk s n m ub)
| bh_reset s : box_history s -> box_history (resetActiveSet s)
| bh_mult s l s' : box_history s -> multipliers s = Ok (l, s') -> box_history s'
| bh_solve junk a o s st s' : box_history s -> leb S (o_bigBnd o) (o_bigBnd o) = true ->
    box_solve junk a o s = Ok (st, s') -> box_history s'.
End Box.

Arguments BA {S}. Arguments ba_x0 {S}. Arguments ba_n {S}. Arguments ba_c {S}. Arguments ba_csize {S}. Arguments ba_bl {S}.
Arguments ba_xl {S}. Arguments ba_xlsize {S}. Arguments ba_xu {S}. Arguments ba_xusize {S}.
Arguments box_sizes {S}. Arguments box_pb {S}. Arguments BS {S}.
Arguments bs_A {S}. Arguments bs_q {S}. Arguments bs_f {S}. Arguments bs_x {S}. Arguments bs_u {S}. Arguments bs_R {S}. Arguments bs_J {S}.
Arguments lt_lo {S}. Arguments gt_up {S}. Arguments box_R {S}. Arguments box_step {S}. Arguments box_loop {S}.
Arguments box_init {S}. Arguments box_solve {S}. Arguments box_new {S}.

(** Model of test::generateBoxAndSingleConstraintProblem
    (src/experimental/BoxAndSingleConstraintSolver.cpp:97-176), exact arithmetic.
    The vectors returned by VectorXd::Random are inputs.  Loops whose iterations
    touch only entry i are written entry by entry. *)
From Coq Require Import List Arith ZArith Lia Bool Reals.
From Verif Require Import Base Num LinAlg TestPb.
Local Open Scope R_scope.

(** lines 102-104 and 131, in the order they are drawn *)
Record bdraws := BD { gd_x0 : rvec; gd_r1 : rvec; gd_r2 : rvec; gd_c : rvec }.

Section G.
Variable d : bdraws.
(** lines 112-121 *)
Definition gxl (i : nat) : R := if Rltb (gd_r1 d i) (gd_r2 d i) then gd_r1 d i else gd_r2 d i.
Definition gxu (i : nat) : R := if Rltb (gd_r1 d i) (gd_r2 d i) then gd_r2 d i else gd_r1 d i.
(** lines 123-128 *)
Definition gxb (i : nat) : R :=
  if Rltb (gd_x0 d i) (gxl i) then gxl i else if Rltb (gxu i) (gd_x0 d i) then gxu i else gd_x0 d i.
(** lines 133-147 *)
Definition gsl (i : nat) : R := if Rltb 0 (gd_c d i) then gxl i else gxu i.
Definition gsu (i : nat) : R := if Rltb 0 (gd_c d i) then gxu i else gxl i.
(** lines 149-160 *)
Definition gb (n : nat) (act : bool) (lvl : R) : R :=
  if act then
    let d1 := rsum n (fun i => gd_c d i * gxb i) in
    let d2 := rsum n (fun i => gd_c d i * gsu i) in
    lvl * d1 + (1 - lvl) * d2
  else rsum n (fun i => gd_c d i * gsl i).
(** lines 99-101 (assert) and 162-175; [transposedMat] keeps its default, false *)
Definition boxgen (n : nat) (act : bool) (lvl : R) : res (lsproblem fcstr) :=
  guard (negb act || (Rltb 0 lvl && Rltb lvl 1))
  (Ok (LS (FC (DM n 1 (fun i _ => gd_c d i)) (BV 1 (fun _ => Some (gb n act lvl))) (BV 1 (fun _ => None))
              (BV n (fun i => Some (gxl i))) (BV n (fun i => Some (gxu i))) false)
          (DM n n (fun i j => if (i =? j)%nat then 1 else 0)) (DV n (gd_x0 d)))).
End G.

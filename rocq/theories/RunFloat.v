(** Sanity runs of the solver model on IEEE-754 doubles (Coq primitive floats).
    These are tests of the model, not proofs, and no theorem depends on them. *)
From Coq Require Import List Arith Bool PrimFloat.
From Verif Require Import Base ActiveSet Num Solver.
Import ListNotations.

Definition Fops : ops :=
  Ops float 0%float 1%float PrimFloat.add PrimFloat.sub PrimFloat.mul PrimFloat.div PrimFloat.opp
      PrimFloat.sqrt PrimFloat.ltb PrimFloat.leb PrimFloat.eqb 1e-14%float left_order.

Definition vf (l : list float) : nat -> float := fun i => nth i l 0%float.
(* by columns *)
Definition mf (l : list (list float)) : nat -> nat -> float := fun i j => nth i (nth j l []) 0%float.
Definition vo (l : list float) : nat -> option float := fun i => Some (nth i l 0%float).

Definition mkpb (n m : nat) G a C bl bu xl xu : problem Fops :=
  @Pb Fops (mf G) n n (vf a) n (mf C) n m (vo bl) m (vo bu) m (vo xl) (length xl) (vo xu) (length xu).

Definition defopt : options Fops := @Opt Fops 500 1e100%float false true.

Definition run pb := 
  match @gi_solve Fops (fun _ => nan) pb defopt (sol_new Fops) with
  | UB => None
  | Ok (st, s) =>
      match solution s, multipliers s with
      | Ok x, Ok (u, _) => Some (st, x, u, objectiveValue s, iterations s, activeSet s)
      | _, _ => None
      end
  end.

(** tests/GoldfarbIdnaniSolverTest.cpp:50-73, the example of the
    Goldfarb-Idnani paper: minimiser (0.5, 1.5). *)
Definition paper := mkpb 2 1 [[4;-2];[-2;4]]%float [6;0]%float [[1;1]]%float [2]%float [10]%float [0;0]%float [10;10]%float.

Definition close (a b : float) : bool := PrimFloat.ltb (PrimFloat.abs (a - b)) 1e-12%float.
Definition closeL (a b : list float) : bool :=
  (length a =? length b) && forallb (fun p => close (fst p) (snd p)) (combine a b).

Definition check (pb : problem Fops) st x u f it act : bool :=
  match run pb with
  | Some (st', x', u', f', it', act') =>
      (match st, st' with SUCCESS, SUCCESS => true | INFEASIBLE, INFEASIBLE => true | _, _ => false end)
      && closeL x x' && closeL u u' && close f f' && (it =? it')
      && forallb (fun p => status_eqb (fst p) (snd p)) (combine act act')
  | None => false
  end.
Eval vm_compute in run paper.
Definition t3 := mkpb 3 3 [[4;1;0];[1;3;1];[0;1;5]]%float [1;-8;3]%float
   [[1;1;1];[1;-1;0];[0;2;1]]%float [1;-1;-4]%float [1;0.5;1.5]%float [-2;-2;-2]%float [2;2;2]%float.
Eval vm_compute in run t3.

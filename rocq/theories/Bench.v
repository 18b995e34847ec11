(** Model of the warm-start benchmark (benchmarks/SolversWarmStart.cpp), in exact arithmetic: the generated problems, the path
    followed by the linear cost, the choice of the problem, and the loop that solves. *)
From Coq Require Import List Arith ZArith Lia Bool Reals Lra.
From Verif Require Import Base Num Solver LinAlg QPSpec TestPb RandMat Adapt.
Import ListNotations.
Local Open Scope R_scope.

(** MatrixXd::Identity *)
Definition idm : rmat := fun i j => if (i =? j)%nat then 1 else 0.

(** SolversWarmStart.cpp:36-60; [draws i] is what randnVec draws for row i (randomMatrices.h:49-54 normalises it);
    assigning a column vector to a row transposes it *)
Definition generateWSProblem (n mi : nat) (doubleSided : bool) (draws : nat -> rvec) : qpproblem scstr :=
  QP (SCs (FC (DM mi n (fun i j => normalize n (draws i) j))
              (BV mi (fun _ => if doubleSided then Some (-1) else None)) (BV mi (fun _ => Some 1))
              (BV n (fun _ => Some (-1))) (BV n (fun _ => Some 1)) false)
          (DM 0 n (fun _ _ => 0)) (DV 0 (fun _ => 0)))
     (DM n n idm) (DV n (fun _ => 0)) 0.

Definition norm2 (n : nat) (v : rvec) : R := sqrt (rdot n v v).
(** SolversWarmStart.cpp:85-97.  The program computes with doubles, where p1.norm() / 0, multiplied by a null entry, the quotient
    0 / 0 and acos of a number outside [-1, 1] are not numbers and do not stop the program: None stands for them. *)
Definition decomposedRotation (n1 n2 : nat) (p1 p2 : rvec) : res (option rvec * option R) :=
  guard (n1 =? n2)%nat (
  guard (Rltb (norm2 n1 p1 - norm2 n2 p2) (/ 10 ^ 14)) (
  if Rleb (rdot n1 p1 p1) 0 then Ok (None, None) else
  let c := rdot n1 p1 p2 / rdot n1 p1 p1 in
  let v := fun i => p2 i - c * p1 i in
  let v' := if Rleb (norm2 n1 v) 0 then None else Some (let k := norm2 n1 p1 / norm2 n1 v in fun i => v i * k) in
  let a := if Rleb (-1) c && Rleb c 1 then Some (acos c) else None in
  Ok (v', a))).

(** One problem of the collection, SolversWarmStart.cpp:64-82 (radius r = 2 sqrt n).  None: v or a is not a number. *)
Record wspath := WP { w_p1 : rvec; w_p2 : rvec; w_v : rvec; w_a : R }.
Definition generatePath (n : nat) (d1 d2 : rvec) : res (option wspath) :=
  let r := 2 * sqrt (INR n) in
  let p1 := fun i => r * normalize n d1 i in
  let p2 := fun i => r * normalize n d2 i in
  do va <- decomposedRotation n n p1 p2;
  Ok (match va with (Some v, Some a) => Some (WP p1 p2 v a) | _ => None end).
(** SolversWarmStart.cpp:162-169 *)
Definition geta (w : wspath) (t : R) : rvec := fun i => cos (t * w_a w) * w_p1 w i + sin (t * w_a w) * w_v w i.

(** The member [i] and the index of the problem: SolversWarmStart.cpp:124, 132-136, 203-210.  Integer division truncates;
    an index out of the array of NbPb elements is undefined. *)
Definition NbPb : Z := 50%Z.
Definition at_pb (i : Z) : res nat :=
  let k := Z.rem i NbPb in guard ((0 <=? k) && (k <? NbPb))%Z (Ok (Z.to_nat k)).
(** getGIPb (and the other getters): the new value of i and the index used *)
Definition getPb (i : Z) : res (Z * nat) := do k <- at_pb (i + 1)%Z; Ok ((i + 1)%Z, k).
(** geta: the index used *)
Definition geta_idx (i : Z) : res nat := at_pb i.

(** The arguments of solver.solve(qp.G, a, qp.C, qp.l, qp.u, qp.xl, qp.xu), with the current contents of qp.G *)
Definition with_Ga {S : ops} (pb : problem S) (G : mat S) (a : vec S) : problem S :=
  Pb G (p_Grows pb) (p_Gcols pb) a (p_asize pb) (p_C pb) (p_Crows pb) (p_Ccols pb) (p_bl pb) (p_blsize pb)
     (p_bu pb) (p_busize pb) (p_xl pb) (p_xlsize pb) (p_xu pb) (p_xusize pb).
(** SolversWarmStart.cpp:234-254, the inner loop of BENCH_GI: the same matrix qp.G is passed to every call, and each call
    leaves its factor in it ([s_G]).  [as_] is the list of the successive linear costs. *)
Fixpoint solve_seq {S : ops} (junk : nat -> vec S) (pb : problem S) (o : options S) (G : mat S) (s : sol S) (as_ : list (vec S)) : res (list (term_status * sol S)) :=
  match as_ with
  | [] => Ok []
  | a :: r =>
      do rs <- gi_solve (junk (length r)) (with_Ga pb G a) o s;
      do l <- solve_seq junk pb o (s_G (snd rs)) (snd rs) r;
      Ok (rs :: l)
  end.

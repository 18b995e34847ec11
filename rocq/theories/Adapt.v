(** Model of the conversions of a test problem to the conventions of other solvers
    (benchmarks/problemAdaptors.h, benchmarks/problemAdaptors.cpp), in exact
    arithmetic.  Infinite bounds are [None], as in TestPb.v; a lower bound of +inf and
    an upper bound of -inf are not represented.  Eigen's size assertions are [UB];
    [jm], [jb] are the contents of coefficients that are never written. *)
From Coq Require Import List Arith ZArith Lia Bool Reals.
From Verif Require Import Base Num LinAlg TestPb.
Import ListNotations.
Local Open Scope R_scope.

(** problemAdaptors.cpp:12-15 (on a non-empty vector of lower bounds, (x < Inf).any() always holds, and the
    other way round for upper bounds) *)
Definition hasFiniteElements (b : bvec) : bool :=
  (bn b =? 0)%nat || existsb (fun i => match ba b i with Some _ => true | None => false end) (seq 0 (bn b)).
(** problemAdaptors.cpp:18-24, 27-33 *)
Definition me (s : scstr) : nat := if ft (sbase s) then mc (sE s) else mr (sE s).
Definition mi (s : scstr) : nat := if ft (sbase s) then mc (fC (sbase s)) else mr (fC (sbase s)).
(** [M] or [M.transpose()], according to transposedMat *)
Definition as_rows (t : bool) (M : dmat) : dmat := if t then DM (mc M) (mr M) (fun i j => ma M j i) else M.
Definition bopp (b : option R) : option R := match b with Some v => Some (- v) | None => None end.

(** problemAdaptors.h:16-27, 29-40, 42-52, 54-65.  Right-hand sides of inequalities may be infinite. *)
Record eigenqp := EQ { q_Q : dmat; q_c : dvec; q_Aeq : dmat; q_beq : dvec; q_Aineq : dmat; q_bineq : bvec }.
Record eiqp := EI { e_G : dmat; e_g0 : dvec; e_CE : dmat; e_ce0 : dvec; e_CI : dmat; e_ci0 : bvec }.
Record lssol := LSS { l_Q : dmat; l_p : dvec; l_C : dmat; l_l : bvec; l_u : bvec }.
Record qld := QL { d_Q : dmat; d_c : dvec; d_A : dmat; d_b : bvec; d_xl : bvec; d_xu : bvec }.

Section Adapt.
Variable jm : rmat.
Variable jb : nat -> option R.

Definition qpsep_wf (q : qpproblem scstr) : res bool := qp_wellFormed sc_wellFormed sbase q.

(** problemAdaptors.cpp:39-99 *)
Definition eigen_pb (q : qpproblem scstr) : res eigenqp :=
  do wf <- qpsep_wf q;
  guard wf (
  let s := qpF q in let b := sbase s in let t := ft b in
  let nVar := vn (qpa q) in
  let C := as_rows t (fC b) in
  let nl := if hasFiniteElements (fl b) then mi s else O in
  let nu := if hasFiniteElements (fu b) then mi s else O in
  let nxl := if hasFiniteElements (fxl b) then bn (fxl b) else O in
  let nxu := if hasFiniteElements (fxu b) then bn (fxu b) else O in
  let startu := nl in let startxl := (nl + nu)%nat in let startxu := (nl + nu + nxl)%nat in
  let nIneq := (nl + nu + nxl + nxu)%nat in
  guard ((nl =? 0) || ((mr C =? nl) && (mc C =? nVar) && (bn (fl b) =? nl)))%nat (
  guard ((nu =? 0) || ((mr C =? nu) && (mc C =? nVar) && (bn (fu b) =? nu)))%nat (
  let A := fun i j =>
    if (i <? nl)%nat then - ma C i j
    else if (i <? startxl)%nat then ma C (i - startu)%nat j
    else if (i <? startxu)%nat then (if (i - startxl =? j)%nat then -1 else 0)
    else if (i <? nIneq)%nat then (if (i - startxu =? j)%nat then 1 else 0)
    else jm i j in
  let bi := fun i =>
    if (i <? nl)%nat then bopp (ba (fl b) i)
    else if (i <? startxl)%nat then ba (fu b) (i - startu)%nat
    else if (i <? startxu)%nat then bopp (ba (fxl b) (i - startxl)%nat)
    else if (i <? nIneq)%nat then ba (fxu b) (i - startxu)%nat
    else jb i in
  Ok (EQ (qpG q) (qpa q) (as_rows t (sE s)) (sf s) (DM nIneq nVar A) (BV nIneq bi))))).

(** problemAdaptors.cpp:194-203 *)
Definition tr_ (M : dmat) : dmat := DM (mc M) (mr M) (fun i j => ma M j i).
Definition ei_pb (q : qpproblem scstr) : res eiqp :=
  do e <- eigen_pb q;
  Ok (EI (q_Q e) (q_c e) (tr_ (q_Aeq e)) (DV (vn (q_beq e)) (fun i => - va (q_beq e) i))
         (DM (mc (q_Aineq e)) (mr (q_Aineq e)) (fun i j => - ma (q_Aineq e) j i)) (q_bineq e)).

(** problemAdaptors.cpp:101-140 *)
Definition lssol_pb (q : qpproblem scstr) : res lssol :=
  do wf <- qpsep_wf q;
  guard wf (
  let s := qpF q in let b := sbase s in let t := ft b in
  let nVar := vn (qpa q) in let nEq := me s in let nIneq := mi s in
  let E := as_rows t (sE s) in let C := as_rows t (fC b) in
  guard ((mr E =? nEq) && (mr C =? nIneq) && (mc E =? nVar) && (mc C =? nVar))%nat (
  guard ((bn (fxl b) =? 0) || ((bn (fxl b) =? nVar) && (bn (fxu b) =? nVar)))%nat (
  guard ((vn (sf s) =? nEq) && (bn (fl b) =? nIneq) && (bn (fu b) =? nIneq))%nat (
  let nb := (0 <? bn (fxl b))%nat in
  let l := fun i =>
    if (i <? nVar)%nat then (if nb then ba (fxl b) i else Some (- 10 ^ 30))
    else if (i <? nVar + nEq)%nat then Some (va (sf s) (i - nVar)%nat) else ba (fl b) (i - nVar - nEq)%nat in
  let u := fun i =>
    if (i <? nVar)%nat then (if nb then ba (fxu b) i else Some (10 ^ 30))
    else if (i <? nVar + nEq)%nat then Some (va (sf s) (i - nVar)%nat) else ba (fu b) (i - nVar - nEq)%nat in
  Ok (LSS (qpG q) (qpa q) (DM (nEq + nIneq) nVar (fun i j => if (i <? nEq)%nat then ma E i j else ma C (i - nEq)%nat j))
          (BV (nVar + nEq + nIneq) l) (BV (nVar + nEq + nIneq) u)))))).

(** problemAdaptors.cpp:142-192 *)
Definition qld_pb (q : qpproblem scstr) : res qld :=
  do wf <- qpsep_wf q;
  guard wf (
  let s := qpF q in let b := sbase s in let t := ft b in
  let nVar := vn (qpa q) in let nEq := me s in
  let E := as_rows t (sE s) in let C := as_rows t (fC b) in
  let nl := if hasFiniteElements (fl b) then mi s else O in
  let nu := if hasFiniteElements (fu b) then mi s else O in
  let startl := nEq in let startu := (nEq + nl)%nat in
  let nIneq := (nEq + nl + nu)%nat in
  guard ((mr E =? nEq) && (mc E =? nVar) && (vn (sf s) =? nEq))%nat (
  guard ((nl =? 0) || ((mr C =? nl) && (mc C =? nVar) && (bn (fl b) =? nl)))%nat (
  guard ((nu =? 0) || ((mr C =? nu) && (mc C =? nVar) && (bn (fu b) =? nu)))%nat (
  let A := fun i j =>
    if (i <? nEq)%nat then ma E i j
    else if (i <? startu)%nat then ma C (i - startl)%nat j
    else if (i <? nIneq)%nat then - ma C (i - startu)%nat j else jm i j in
  let bb := fun i =>
    if (i <? nEq)%nat then Some (- va (sf s) i)
    else if (i <? startu)%nat then bopp (ba (fl b) (i - startl)%nat)
    else if (i <? nIneq)%nat then ba (fu b) (i - startu)%nat else jb i in
  Ok (QL (qpG q) (qpa q) (DM nIneq nVar A) (BV nIneq bb)
         (if (0 <? bn (fxl b))%nat then fxl b else BV nVar (fun _ => None))
         (if (0 <? bn (fxu b))%nat then fxu b else BV nVar (fun _ => None))))))).

(** problemAdaptors.cpp:205-208 with problems.h:117-120: C is transposed, the flag transposedMat stays *)
Definition gi_pb (q : qpproblem scstr) : res (qpproblem fcstr) :=
  do g <- qp_of_qp joint_of_sep q;
  let c := qpF g in
  Ok (QP (FC (if ft c then fC c else tr_ (fC c)) (fl c) (fu c) (fxl c) (fxu c) (ft c)) (qpG g) (qpa g) (qpcst g)).
End Adapt.

(** Model of the test helpers: KKT checker (src/test/kkt.cpp) and problem
    representations and conversions (include/jrl-qp/test/problems.h,
    src/test/problems.cpp), in exact arithmetic.  Infinite bounds are [None]
    (-inf in a lower bound, +inf in an upper bound). *)
From Coq Require Import List Arith ZArith Lia Bool Reals Lra.
From Verif Require Import Base Num LinAlg.
Import ListNotations.
Local Open Scope R_scope.

(** Eigen objects with their sizes *)
Record dmat := DM { mr : nat; mc : nat; ma : rmat }.
Record dvec := DV { vn : nat; va : rvec }.
Record bvec := BV { bn : nat; ba : nat -> option R }.

(** ** kkt.cpp *)
(** v.lpNorm<Infinity>(), 0 for an empty vector *)
Fixpoint ninf (n : nat) (v : rvec) : R := match n with O => 0 | S k => Rmax (ninf k v) (Rabs (v k)) end.

(** kkt.cpp:14-22; [li = cx - bl] is +inf for an infinite bound, [ui] is -inf *)
Definition checkKKTConstraint (cx : R) (bl bu : option R) (u tau_x tau_u : R) : bool :=
  let abs_li_le := match bl with Some l => Rleb (Rabs (cx - l)) tau_x | None => false end in
  let li_ge := match bl with Some l => Rleb (- tau_x) (cx - l) | None => true end in
  let ui_le := match bu with Some b => Rleb (cx - b) tau_x | None => true end in
  let abs_ui_le := match bu with Some b => Rleb (Rabs (cx - b)) tau_x | None => false end in
  let b1 := abs_li_le && Rleb u (- tau_u) in
  let b2 := li_ge && ui_le && Rleb (Rabs u) tau_u in
  let b3 := abs_ui_le && Rleb tau_u u in
  b1 || b2 || b3.

(** kkt.cpp:27-41 *)
Definition dims_cstr (n : nat) (C : dmat) (bl bu xl xu : bvec) (tr : bool) : bool :=
  let m := bn bl in let nb := bn xl in
  ((negb tr && (mr C =? m) && (mc C =? n)) || (tr && (mr C =? n) && (mc C =? m)))%nat
  && (bn bu =? m)%nat && ((nb =? 0) || (nb =? n))%nat && (bn xu =? nb)%nat.
(** kkt.cpp:43-72 *)
Definition dims_qp (x u : dvec) (G : dmat) (a : dvec) (C : dmat) (bl bu xl xu : bvec) (tr : bool) : bool :=
  (vn x =? vn a)%nat && (vn u =? bn bl + bn xl)%nat && (mr G =? vn a)%nat && (mc G =? vn a)%nat
  && dims_cstr (vn a) C bl bu xl xu tr.
(** kkt.cpp:74-86 *)
Definition dims_fp (x u : dvec) (C : dmat) (bl bu xl xu : bvec) (tr : bool) : bool :=
  (vn u =? bn bl + bn xl)%nat && dims_cstr (vn x) C bl bu xl xu tr.

(** kkt.cpp:112-145; [u.tail(n)] starts at [u.size() - n] *)
Definition dLagr (x u : dvec) (G : dmat) (a : dvec) (C : dmat) (bl xl : bvec) (tr : bool) (i : nat) : R :=
  let n := vn x in let m := bn bl in
  rsum n (fun j => ma G i j * va x j) + va a i
  + (if (bn xl =? 0)%nat then 0 else va u (vn u - n + i)%nat)
  + (if tr then rsum m (fun j => ma C i j * va u j) else rsum m (fun j => ma C j i * va u j)).
Definition testKKTStationarity (x u : dvec) (G : dmat) (a : dvec) (C : dmat) (bl bu xl xu : bvec) (tr : bool) (tau_d : R) : res bool :=
  guard (dims_qp x u G a C bl bu xl xu tr)
  (let tau_u := tau_d * (1 + ninf (vn u) (va u)) in
   Ok (Rleb (ninf (vn x) (dLagr x u G a C bl xl tr)) tau_u)).

(** kkt.cpp:170-180: [cx] *)
Definition cxval (x : dvec) (C : dmat) (tr : bool) (i : nat) : R :=
  if tr then rsum (vn x) (fun j => ma C j i * va x j) else rsum (vn x) (fun j => ma C i j * va x j).
(** kkt.cpp:155-194 *)
Definition testKKTFeasibility (x u : dvec) (C : dmat) (bl bu xl xu : bvec) (tr : bool) (tau_p tau_d : R) : res bool :=
  guard (dims_fp x u C bl bu xl xu tr)
  (let tau_x := tau_p * (1 + ninf (vn x) (va x)) in
   let tau_u := tau_d * (1 + ninf (vn u) (va u)) in
   Ok (forallb (fun i => checkKKTConstraint (cxval x C tr i) (ba bl i) (ba bu i) (va u i) tau_x tau_u) (seq 0 (bn bl))
       && forallb (fun i => checkKKTConstraint (va x i) (ba xl i) (ba xu i) (va u (bn bl + i)%nat) tau_x tau_u) (seq 0 (bn xl)))).

(** kkt.cpp:88-105 *)
Definition testKKT (x u : dvec) (G : dmat) (a : dvec) (C : dmat) (bl bu xl xu : bvec) (tr : bool) (tau_p tau_d : R) : res bool :=
  do b1 <- testKKTStationarity x u G a C bl bu xl xu tr tau_d;
  do b2 <- testKKTFeasibility x u C bl bu xl xu tr tau_p tau_d;
  Ok (b1 && b2).

(** ** problems.h *)
(** problems.h:16-33 *)
Record fcstr := FC { fC : dmat; fl : bvec; fu : bvec; fxl : bvec; fxu : bvec; ft : bool }.
(** problems.h:41-55 *)
Record scstr := SCs { sbase : fcstr; sE : dmat; sf : dvec }.
(** problems.h:62-71; the constraints of either kind *)
Record lsproblem (F : Type) := LS { lsF : F; lsA : dmat; lsb : dvec }.
(** problems.h:78-98 *)
Record qpproblem (F : Type) := QP { qpF : F; qpG : dmat; qpa : dvec; qpcst : R }.
Arguments LS {F}. Arguments lsF {F}. Arguments lsA {F}. Arguments lsb {F}.
Arguments QP {F}. Arguments qpF {F}. Arguments qpG {F}. Arguments qpa {F}. Arguments qpcst {F}.

Definition ble (strict : bool) (l u : option R) : bool :=   (* [l <= u] (or [<]) with infinities *)
  match l, u with Some l, Some u => if strict then Rltb l u else Rleb l u | _, _ => true end.
(** problems.cpp:28-46.  Eigen asserts that the operands of a coefficient-wise
    comparison have equal sizes, and b5, b6 are evaluated whatever b1, b3 are. *)
Definition fc_wellFormed (c : fcstr) (noEq : bool) : res bool :=
  guard ((bn (fl c) =? bn (fu c))%nat && (bn (fxl c) =? bn (fxu c))%nat)
  (let b1 := (bn (fl c) =? bn (fu c))%nat in
   let b2 := if ft c then (bn (fl c) =? mc (fC c))%nat else (bn (fl c) =? mr (fC c))%nat in
   let b3 := (bn (fxl c) =? bn (fxu c))%nat in
   let b4 := if (bn (fxl c) =? 0)%nat then true else if ft c then (bn (fxl c) =? mr (fC c))%nat else (bn (fxl c) =? mc (fC c))%nat in
   let b5 := forallb (fun i => ble noEq (ba (fl c) i) (ba (fu c) i)) (seq 0 (bn (fl c))) in
   let b6 := forallb (fun i => ble false (ba (fxl c) i) (ba (fxu c) i)) (seq 0 (bn (fxl c))) in
   Ok (b1 && b2 && b3 && b4 && b5 && b6)).
(** problems.cpp:106-112 *)
Definition sc_wellFormed (s : scstr) : res bool :=
  do b1 <- fc_wellFormed (sbase s) true;
  let C := fC (sbase s) in let t := ft (sbase s) in
  let b2 := if t then (mr C =? mr (sE s))%nat else (mc C =? mc (sE s))%nat in
  let b3 := if t then (vn (sf s) =? mc (sE s))%nat else (vn (sf s) =? mr (sE s))%nat in
  Ok (b1 && b2 && b3).

(** problems.cpp:7-26: equalities first, then the inequalities *)
Definition joint_of_sep (s : scstr) : res fcstr :=
  do wf <- sc_wellFormed s;
  guard wf
  (let c := sbase s in let C := fC c in let E := sE s in
   let C' := if ft c
     then DM (mr C) (mc C + mc E) (fun i j => if (j <? mc E)%nat then ma E i j else ma C i (j - mc E)%nat)
     else DM (mr C + mr E) (mc C) (fun i j => if (i <? mr E)%nat then ma E i j else ma C (i - mr E)%nat j) in
   let cat (b : bvec) := BV (bn b + vn (sf s)) (fun i => if (i <? vn (sf s))%nat then Some (va (sf s) i) else ba b (i - vn (sf s))%nat) in
   Ok (FC C' (cat (fl c)) (cat (fu c)) (fxl c) (fxu c) (ft c))).

(** problems.cpp:48-58: counting loop; [own] is the size of the members l, u of
    the object under construction (0), and [l[i]] asserts [i < own] *)
Fixpoint count_loop (own k : nat) : res nat :=
  match k with
  | O => Ok O
  | S i => do c <- count_loop own i; guard (i <? own)%nat (Ok c)
  end.
(** problems.cpp:61-100: the filling loop, for rows or columns alike ([at_] is
    constraint [i] of the source).  Every write is checked against the size of its
    destination: [nE] lines in E, [nf] entries in f, [nC] lines in C, [nl] in l, u. *)
Record sepst := SS { ss_E : nat -> rvec; ss_f : rvec; ss_C : nat -> rvec; ss_l : nat -> option R; ss_u : nat -> option R; ss_neq : nat; ss_nineq : nat }.
Definition same_bound (l u : option R) : bool := match l, u with Some a, Some b => Reqb a b | _, _ => false end.
Definition setf {X} (f : nat -> X) (k : nat) (v : X) : nat -> X := fun i => if (i =? k)%nat then v else f i.
Fixpoint fill_loop (nE nf nC nl : nat) (at_ : nat -> rvec) (l u : nat -> option R) (k : nat) (s : sepst) : res sepst :=
  match k with
  | O => Ok s
  | S i =>
      do s <- fill_loop nE nf nC nl at_ l u i s;
      if same_bound (l i) (u i) then
        guard (ss_neq s <? nE)%nat (guard (ss_neq s <? nf)%nat
          (match l i with
           | Some v => Ok (SS (setf (ss_E s) (ss_neq s) (at_ i)) (setf (ss_f s) (ss_neq s) v) (ss_C s) (ss_l s) (ss_u s) (S (ss_neq s)) (ss_nineq s))
           | None => UB end))
      else
        guard (ss_nineq s <? nC)%nat (guard (ss_nineq s <? nl)%nat
          (Ok (SS (ss_E s) (ss_f s) (setf (ss_C s) (ss_nineq s) (at_ i)) (setf (ss_l s) (ss_nineq s) (l i)) (setf (ss_u s) (ss_nineq s) (u i)) (ss_neq s) (S (ss_nineq s)))))
  end.
(** problems.cpp:48-104.  [neq] is reset to 0 before the resizes (line 60) and f, l, u
    are never resized. *)
Definition sep_of_joint (c : fcstr) : res scstr :=
  do wf <- fc_wellFormed c false;
  guard wf
  (do n <- count_loop 0 (bn (fl c));
   let C := fC c in
   let neq := O in
   let at_ := if ft c then (fun i a => ma C a i) else (fun i a => ma C i a) in
   let nC := if ft c then (mc C - neq)%nat else (mr C - neq)%nat in
   do s <- fill_loop neq 0 nC 0 at_ (ba (fl c)) (ba (fu c)) (bn (fl c))
             (SS (fun _ _ => 0) (fun _ => 0) (fun _ _ => 0) (fun _ => None) (fun _ => None) O O);
   let C' := if ft c then DM (mr C) nC (fun i j => ss_C s j i) else DM nC (mc C) (ss_C s) in
   let E' := if ft c then DM (mr C) neq (fun i j => ss_E s j i) else DM neq (mc C) (ss_E s) in
   Ok (SCs (FC C' (BV 0 (ss_l s)) (BV 0 (ss_u s)) (fxl c) (fxu c) (ft c)) E' (DV 0 (ss_f s)))).

(** problems.h:110-115: [conv] is the copy or the conversion of the constraints *)
Definition qp_of_ls {F F' : Type} (conv : F -> res F') (ls : lsproblem F) : res (qpproblem F') :=
  do f <- conv (lsF ls);
  guard (vn (lsb ls) =? mr (lsA ls))%nat   (* Eigen's product *)
  (let A := lsA ls in
   Ok (QP f (DM (mc A) (mc A) (fun i j => rsum (mr A) (fun k => ma A k i * ma A k j)))
            (DV (mc A) (fun i => rsum (mr A) (fun k => - ma A k i * va (lsb ls) k))) 0)).
(** problems.h:117-120: [objCst] is not copied *)
Definition qp_of_qp {F F' : Type} (conv : F -> res F') (q : qpproblem F) : res (qpproblem F') :=
  do f <- conv (qpF q); Ok (QP f (qpG q) (qpa q) 0).

(** problems.h:139-147 *)
Definition qp_wellFormed {F : Type} (base : F -> res bool) (cst : F -> fcstr) (q : qpproblem F) : res bool :=
  do b1 <- base (qpF q);
  let C := fC (cst (qpF q)) in let t := ft (cst (qpF q)) in
  let b2 := if t then (mc (qpG q) =? mr C)%nat else (mc (qpG q) =? mc C)%nat in
  let b3 := (mc (qpG q) =? vn (qpa q))%nat in
  let b4 := (mc (qpG q) =? mc C)%nat in
  Ok (b1 && b2 && b3 && b4).
(** problems.h:100-107 *)
Definition ls_wellFormed {F : Type} (base : F -> res bool) (cst : F -> fcstr) (q : lsproblem F) : res bool :=
  do b1 <- base (lsF q);
  let C := fC (cst (lsF q)) in let t := ft (cst (lsF q)) in
  let b2 := if t then (mc (lsA q) =? mr C)%nat else (mc (lsA q) =? mc C)%nat in
  let b3 := (mr (lsA q) =? vn (lsb q))%nat in
  Ok (b1 && b2 && b3).

(** Model of the structured Hessian, of the structured factor J and of the structured QR
    (include/jrl-qp/structured/StructuredG.h, StructuredJ.h, StructuredQR.h and
    src/structured/StructuredG.cpp, StructuredJ.cpp, StructuredQR.cpp), generic over the scalar operations.

    C++ ints are [nat]; failed asserts (jrl-qp's and Eigen's) are [UB].  The blocks are values: the
    copy of a StructuredG shares the matrices of the caller in the code (see BlockAlias.v).
    StructuredJ only holds pointers to the StructuredG and to the Q and q of the StructuredQR: its
    functions take them as arguments.  Statements under JRLQP_DEBUG_ONLY are omitted, as are
    StructuredG::start_ and StructuredQR::work_tmp_, which are never read. *)
From Coq Require Import List Arith ZArith Lia Bool.
From Verif Require Import Base Num Solver Util Block Ortho StructC.
Import ListNotations.

Section StructG.
Variable S : ops.
Variable isz : carrier S -> bool.   (* Eigen's isZero() on one coefficient, in the asserts of the arrow solves *)
Variable tiny : carrier S.          (* Eigen's makeHouseholder: squared norm below which a tail counts as zero *)
Notation T := (carrier S).
Notation vec := (vec S).
Notation mat := (mat S).
Notation blk := (blk S).
Notation "x + y" := (add S x y) : ops_scope.
Notation "x - y" := (sub S x y) : ops_scope.
Notation "x * y" := (mul S x y) : ops_scope.
Notation "x / y" := (div S x y) : ops_scope.
Notation "- x" := (opp S x) : ops_scope.
Notation "0" := (zero S) : ops_scope.
Notation "1" := (one S) : ops_scope.

(** ** StructuredG *)
(** StructuredG.h:17-22 *)
Inductive gtype := TriBlockDiagonal | BlockArrowUp | BlockArrowDown.
(** StructuredG.h:70-77 *)
Record structG := StG { g_type : gtype; g_diag : list blk; g_off : list blk; g_n : nat; g_dec : bool }.
(** StructuredG.cpp:6-20 *)
Fixpoint stg_loop (diag : list blk) (acc : list blk) (n : nat) : res (list blk * nat) :=
  match diag with
  | [] => Ok (acc, n)
  | D :: ds => guard (bcol D =? brow D) (stg_loop ds (acc ++ [D]) (n + bcol D))
  end.
Definition stg_new (t : gtype) (diag offDiag : list blk) : res structG :=
  do r <- stg_loop diag [] 0; Ok (StG t (fst r) offDiag (snd r) false).
(** StructuredG.cpp:22-43 *)
Definition stg_llt (G : structG) : res (bool * structG) :=
  do r <- (match g_type G with
           | TriBlockDiagonal => triBlockDiagLLT (g_diag G) (g_off G)
           | BlockArrowUp => blockArrowLLT (g_diag G) (g_off G) true
           | BlockArrowDown => blockArrowLLT (g_diag G) (g_off G) false
           end);
  let '(done, dl, ol) := r in Ok (done, StG (g_type G) dl ol (g_n G) done).
(** a vector of size [n] as a block of one column, and back *)
Definition col_of (n : nat) (v : vec) : blk := Bk n 1 (fun i _ => v i).
Definition of_col (X : blk) : vec := vm (brow X) (fun i => bm X i 0).
(** StructuredG.cpp:45-65; [v] has size [vsize] *)
Definition stg_solveLt (G : structG) (vsize : nat) (v : vec) : res vec :=
  guard (g_dec G) (
  guard (vsize =? g_n G) (
  do X <- (match g_type G with
           | TriBlockDiagonal => triBlockDiagLTransposeSolve (g_diag G) (g_off G) (col_of vsize v) None
           | BlockArrowUp => blockArrowLTransposeSolve (g_diag G) (g_off G) true (col_of vsize v) 0 None
           | BlockArrowDown => blockArrowLTransposeSolve (g_diag G) (g_off G) false (col_of vsize v) 0 None
           end);
  Ok (of_col X))).
(** StructuredG.cpp:67-89: dense right-hand side; [out] (size [osize]) is overwritten *)
Definition stg_solveL (G : structG) (osize : nat) (isize : nat) (inp : vec) : res vec :=
  guard (g_dec G) (
  guard ((isize =? g_n G) && (osize =? g_n G)) (
  do X <- (match g_type G with
           | TriBlockDiagonal => triBlockDiagLSolve (g_diag G) (g_off G) (col_of osize inp) 0
           | BlockArrowUp => blockArrowLSolve isz (g_diag G) (g_off G) true (col_of osize inp) 0 None
           | BlockArrowDown => blockArrowLSolve isz (g_diag G) (g_off G) false (col_of osize inp) 0 None
           end);
  Ok (of_col X))).
(** StructuredG.cpp:91-113: right-hand side with a single non zero segment *)
Definition stg_solveL_nz (G : structG) (osize : nat) (out : vec) (z : snz S) : res vec :=
  guard (g_dec G) (
  guard ((z_size z =? g_n G) && (osize =? g_n G)) (
  do v <- toFullVector z osize out;
  do X <- (match g_type G with
           | TriBlockDiagonal => triBlockDiagLSolve (g_diag G) (g_off G) (col_of osize v) (z_start z)
           | BlockArrowUp => blockArrowLSolve isz (g_diag G) (g_off G) true (col_of osize v) (z_start z) (Some (z_end z))
           | BlockArrowDown => blockArrowLSolve isz (g_diag G) (g_off G) false (col_of osize v) (z_start z) (Some (z_end z))
           end);
  Ok (of_col X))).

(** ** StructuredJ; [jn] is nbVar_, [Q] and [q] what Q_ points to *)
(** StructuredJ.cpp:33-42 (OrthonormalSequence.h:110-140 for m1 and m2) *)
Definition premultByJ2 (jn : nat) (G : structG) (Q : oseq S) (q : nat) (osize : nat) (out : vec) (isize : nat) (inp : vec) : res vec :=
  guard (osize =? jn) (
  guard ((q <=? q_n Q) && (isize =? q_n Q - q)) (
  guard ((isize <=? osize) && (q <=? osize)) (      (* Eigen: tail(m2), head(m1) *)
  let w := vm osize (fun i => if i <? q then 0%ops
                              else if (osize - isize <=? i) && (i <? osize) then inp (i - (osize - isize))%nat else out i) in
  do w <- os_apply Q osize w;
  stg_solveLt G osize w))).
(** StructuredJ.cpp:44-58 *)
Definition premultByJt (jn : nat) (G : structG) (Q : oseq S) (osize : nat) (out : vec) (C : structC S) (sc : selcstr) : res vec :=
  do v <- (if status_int (sc_st sc) <=? status_int EQUALITY then
             do c <- stc_col C (sc_idx sc);
             do v <- stg_solveL_nz G osize out c;
             Ok (if status_eqb (sc_st sc) UPPER then vm osize (fun i => if i <? osize then v i * (- (1)) else v i)%ops else v)
           else
             let e : vec := fun _ => (if status_eqb (sc_st sc) UPPER_BOUND then - (1) else 1)%ops in
             guard (c_nbCstr C <=? sc_idx sc) (       (* a negative start is caught by the assert of the vector *)
             do z <- snz_new 1 e (sc_idx sc - c_nbCstr C) jn;
             stg_solveL_nz G osize out z));
  os_apply_t Q osize v.

(** ** StructuredQR *)
(** StructuredQR.h:42-49 *)
Record qrs := QRs { r_q : nat; r_n : nat; r_ld : nat; r_R : work S; r_ess : work S; r_Q : oseq S }.
(** StructuredQR.cpp:8, StructuredQR.h:42-49 *)
Definition sqr_new : qrs := QRs 0 0 1 (W 0 (fun _ => zero S)) (W 0 (fun _ => zero S)) (os_new 0).
(** StructuredQR.cpp:38-42 *)
Definition sqr_reset (r : qrs) : qrs := QRs 0 (r_n r) (r_ld r) (r_R r) (r_ess r) (os_clear (r_Q r)).
(** StructuredQR.cpp:44-52; static_cast<int>(std::sqrt(nbVar)) is the integer square root *)
Definition sqr_resize (junk : vec) (r : qrs) (nbVar : nat) : qrs :=
  QRs (r_q r) nbVar (Nat.min 10 (Nat.sqrt nbVar)) (w_resize junk (r_R r) (nbVar * nbVar)) (w_resize junk (r_ess r) nbVar) (os_resize (r_Q r) nbVar).
(** The buffer of a workspace as a list, and back (Workspace::changeLd is modelled on lists in Util.v) *)
Definition w_list (w : work S) : list T := map (w_buf w) (seq 0 (w_size w)).
Definition w_of (w : work S) (l : list T) : work S := W (w_size w) (fun k => nth k l (w_buf w k)).
(** StructuredQR.cpp:10-19 *)
Definition adjustLdR (r : qrs) (q : nat) : res qrs :=
  guard (q <=? r_n r) (
  if r_ld r <? q then
    let newLd := Nat.min (2 * r_ld r) (r_n r) in
    do l <- changeLd (r_q r) (r_q r) (r_ld r) newLd (w_list (r_R r));
    Ok (QRs (r_q r) (r_n r) newLd (w_of (r_R r) l) (r_ess r) (r_Q r))
  else Ok r).
(** StructuredQR.cpp:21-36: R as a matrix of size q x q, and the object after adjustLdR *)
Definition getR (r : qrs) (q : nat) : res (mat * qrs) :=
  do r <- adjustLdR r q;
  do R <- getM (r_R r) q q (r_ld r);
  Ok (R, r).
(** StructuredQR.cpp:64-69; [out] has size [osize], [inp] size [isize] *)
Definition sqr_RSolve (r : qrs) (osize : nat) (out : vec) (isize : nat) (inp : vec) : res (vec * qrs) :=
  guard ((isize =? r_q r) && (osize =? r_q r)) (
  do Rr <- getR r (r_q r);
  Ok (vm osize (vhead osize (bwd osize osize (fst Rr) inp) out), snd Rr)).

(** Eigen/src/Householder/Householder.h:67-98, makeHouseholder on [c 0 .. c (m-1)]: (tau, beta, essential) *)
Definition tail_sq (m : nat) (c : vec) : T := sumn [51]%nat (m - 1) (fun t => c (1 + t)%nat * c (1 + t)%nat)%ops.
Definition mkHouse (m : nat) (c : vec) : T * T * vec :=
  let c0 := c 0%nat in
  let tsq := tail_sq m c in
  if leb S tsq tiny then (zero S, c0, fun _ => zero S)
  else
    let b0 := sqrt_ S (c0 * c0 + tsq)%ops in
    let beta := if leb S (zero S) c0 then (- b0)%ops else b0 in
    (((beta - c0) / beta)%ops, beta, fun i => (c (1 + i)%nat / (c0 - beta))%ops).
(** StructuredQR.cpp:70-84; [d] has size [dsize].  The boolean says whether makeHouseholder counted as zero
    a tail that is not: it is not part of the code. *)
Definition sqr_add (junk : vec) (r : qrs) (dsize : nat) (d : vec) : res (bool * qrs) :=
  let n := r_n r in
  let q := r_q r in
  guard (dsize =? n) (
  guard (q + 1 <=? n) (                                      (* asVector(nbVar_ - q_ - 1), d.tail(nbVar_ - q_) *)
  do e0 <- getV (r_ess r) (n - q - 1);
  let c := fun t => d (q + t)%nat in
  let '(tau, beta, ess) := mkHouse (n - q) c in
  let e := vm (n - q - 1) (vhead (n - q - 1) ess e0) in
  do Rr <- getR r (q + 1);
  let '(R, r) := Rr in
  let R' := fun i j => if j =? q then (if i <? q then d i else if i =? q then beta else R i j) else R i j in
  do Q <- os_prepare junk (r_Q r) OHouseholder (n - q) 1;
  do Q <- os_addH Q q (n - q - 1) e tau;
  Ok (leb S (tail_sq (n - q) c) tiny && ltb S (zero S) (tail_sq (n - q) c),
      QRs (q + 1) n (r_ld r) (wset (r_R r) (unview (r_ld r) (q + 1) R' (w_buf (r_R r)))) (wset (r_ess r) e) Q))).

(** StructuredQR.cpp:93-100: the loop, [R] being seen as (q+1)x(q+1) *)
Definition rem_R (q i : nat) (R : mat) (g : givens S) (rr : T) : mat :=
  fun a b =>
    if b =? i then (if a <? i then R a (Datatypes.S i) else if a =? i then rr else R a b)
    else if (i + 2 <=? b) && (b <=? q) then
      (if a =? i then (gc g * R i b - gs g * R (Datatypes.S i) b)%ops
       else if a =? Datatypes.S i then (gs g * R i b + gc g * R (Datatypes.S i) b)%ops
       else R a b)
    else R a b.
Fixpoint sqr_rem_loop (ld q cnt i : nat) (R : mat) (Q : oseq S) : res (mat * oseq S) :=
  match cnt with
  | O => Ok (R, Q)
  | Datatypes.S c =>
      let '(g, rr) := makeGivens (R i (Datatypes.S i)) (R (Datatypes.S i) (Datatypes.S i)) in
      do Q <- os_addG Q i g;
      sqr_rem_loop ld q c (Datatypes.S i) (mm ld (rem_R q i R g rr)) Q
  end.
(** StructuredQR.cpp:86-102 (returns false, which the callers ignore) *)
Definition sqr_remove (junk : vec) (r : qrs) (l : nat) : res qrs :=
  guard (1 <=? r_q r) (                                      (* q_ = -1: getR(0), then prepare with negative sizes *)
  let q := (r_q r - 1)%nat in
  let r := QRs q (r_n r) (r_ld r) (r_R r) (r_ess r) (r_Q r) in
  do Rr <- getR r (q + 1);
  let '(R, r) := Rr in
  guard (l <=? q) (                                          (* prepare(.., q_-l+1, q_-l): Eigen asserts the sizes *)
  do Q <- os_prepare junk (r_Q r) OGivens (q - l + 1) (q - l);
  do RQ <- sqr_rem_loop (r_ld r) q (q - l) l R Q;
  Ok (QRs q (r_n r) (r_ld r) (wset (r_R r) (unview (r_ld r) (q + 1) (fst RQ) (w_buf (r_R r)))) (r_ess r) (snd RQ)))).
End StructG.
Arguments StG {S}. Arguments g_type {S}. Arguments g_diag {S}. Arguments g_off {S}. Arguments g_n {S}. Arguments g_dec {S}.
Arguments stg_loop {S}. Arguments stg_new {S}. Arguments stg_llt {S}. Arguments col_of {S}. Arguments of_col {S}. Arguments stg_solveLt {S}. Arguments stg_solveL {S}. Arguments stg_solveL_nz {S}.
Arguments premultByJ2 {S}. Arguments premultByJt {S}.
Arguments QRs {S}. Arguments r_q {S}. Arguments r_n {S}. Arguments r_ld {S}. Arguments r_R {S}. Arguments r_ess {S}. Arguments r_Q {S}.
Arguments sqr_new {S}. Arguments sqr_reset {S}. Arguments sqr_resize {S}. Arguments w_list {S}. Arguments w_of {S}. Arguments adjustLdR {S}. Arguments getR {S}. Arguments sqr_RSolve {S}.
Arguments tail_sq {S}. Arguments mkHouse {S}. Arguments sqr_add {S}. Arguments rem_R {S}. Arguments sqr_rem_loop {S}. Arguments sqr_remove {S}.

(** Model of the block Goldfarb-Idnani solver (include/jrl-qp/experimental/BlockGISolver.h,
    src/experimental/BlockGISolver.cpp) with DualSolver (src/DualSolver.cpp), generic over the scalar
    operations.  Conventions as in Solver.v.

    One call of solve on an object in any state is modelled; the Hessian is a value, i.e. the call is the first
    one on the matrices (for later calls see BlockAlias.v).  StructuredJ holds pointers to the factorised
    Hessian and to the Q and q of the StructuredQR, set at each initialisation: only its nbVar_ is kept here. *)
From Coq Require Import List Arith ZArith Lia Bool.
From Verif Require Import Base ActiveSet Num Solver Warm Block Ortho StructC StructG.
Import ListNotations.

Section BlockGI.
Variable S : ops.
Variable isz : carrier S -> bool.
Variable tiny : carrier S.
Notation T := (carrier S).
Notation vec := (vec S).
Notation mat := (mat S).
Notation sol := (sol S).
Notation problem := (problem S).
Notation options := (options S).
Notation "x + y" := (add S x y) : ops_scope.
Notation "x - y" := (sub S x y) : ops_scope.
Notation "x * y" := (mul S x y) : ops_scope.
Notation "x / y" := (div S x y) : ops_scope.
Notation "- x" := (opp S x) : ops_scope.

(** The arguments of solve: BlockGISolver.cpp:17-24 *)
Record bproblem := BP {
  bp_G : structG S; bp_a : vec; bp_asize : nat; bp_C : structC S;
  bp_bl : nat -> option T; bp_blsize : nat;
  bp_bu : nat -> option T; bp_busize : nat;
  bp_xl : nat -> option T; bp_xlsize : nat;
  bp_xu : nat -> option T; bp_xusize : nat
}.
(** The same problem with dense matrices *)
Definition dense_of (bp : bproblem) (H Cd : mat) : problem :=
  Pb H (g_n (bp_G bp)) (g_n (bp_G bp)) (bp_a bp) (bp_asize bp) Cd (c_nbVar (bp_C bp)) (c_nbCstr (bp_C bp))
     (bp_bl bp) (bp_blsize bp) (bp_bu bp) (bp_busize bp) (bp_xl bp) (bp_xlsize bp) (bp_xu bp) (bp_xusize bp).
(** What the functions shared with the dense solver look at: sizes and bounds *)
Definition bounds_only (bp : bproblem) : problem := dense_of bp (fun _ _ => zero S) (fun _ _ => zero S).

(** The object: DualSolver.h:123-140, BlockGISolver.h (work_d_ is [s_d] of the base part, whose [s_J], [s_R] and
    [s_G] are not used; [b_G] is pb_.G after the factorisation in place).  [b_tiny] is not part of the code: it
    records whether, in the current call of solve, some call of makeHouseholder counted as zero a tail that is not. *)
Record bsol := BS { b_s : sol; b_G : structG S; b_QR : qrs S; b_Jn : nat; b_cx : work S; b_bact : work S; b_tiny : bool }.
Definition bset_s (b : bsol) (s : sol) : bsol := BS s (b_G b) (b_QR b) (b_Jn b) (b_cx b) (b_bact b) (b_tiny b).
Definition bset_G (b : bsol) (G : structG S) : bsol := BS (b_s b) G (b_QR b) (b_Jn b) (b_cx b) (b_bact b) (b_tiny b).
Definition bset_QR (b : bsol) (r : qrs S) : bsol := BS (b_s b) (b_G b) r (b_Jn b) (b_cx b) (b_bact b) (b_tiny b).
Definition bset_cx (b : bsol) (c : work S) : bsol := BS (b_s b) (b_G b) (b_QR b) (b_Jn b) c (b_bact b) (b_tiny b).

(** BlockGISolver.cpp:9 *)
Definition bsol_new : bsol :=
  let w0 := W 0 (fun _ => zero S) in
  BS (sol_new S) (StG TriBlockDiagonal [] [] 0 false) sqr_new 0 w0 w0 false.

(** BlockGISolver.cpp:275-288 with DualSolver.cpp:19-25 *)
Definition bresize (junk : vec) (b : bsol) (nbVar nbCstr : nat) (useBounds : bool) : bsol :=
  let s := b_s b in
  let b := if nbVar =? s_n s then b
           else BS (set_d s (w_resize junk (s_d s) nbVar)) (b_G b) (sqr_resize junk (b_QR b) nbVar) nbVar (b_cx b)
                   (w_resize junk (b_bact b) nbVar) (b_tiny b) in
  let b := if nbCstr =? a_nc (s_A s) then b else bset_cx b (w_resize junk (b_cx b) nbCstr) in
  bset_s b (resize_p junk (b_s b) nbVar nbCstr useBounds).

(** BlockGISolver.cpp:119-138: the general constraints *)
Fixpoint bsel_cstr (bp : bproblem) (A : aset) (cx : vec) (k : nat) (acc : T * selcstr) : res (T * selcstr) :=
  match k with
  | O => Ok acc
  | Datatypes.S i =>
      do acc <- bsel_cstr bp A cx i acc;
      do act <- isActive A i;
      if act then Ok acc
      else guard (i <? c_nbCstr (bp_C bp)) (Ok (sel_one (cx i) (bp_bl bp i) (bp_bu bp i) i LOWER UPPER acc))
  end.
(** BlockGISolver.cpp:109-162 *)
Definition bselect (bp : bproblem) (b : bsol) : res (selcstr * bsol) :=
  let s := b_s b in
  let A := s_A s in
  do x <- getV (s_x s) (s_n s);
  do cx0 <- getV (b_cx b) (c_nbCstr (bp_C bp));
  do cx <- stc_transposeMult (bp_C bp) (c_nbCstr (bp_C bp)) cx0 (s_n s) x;
  do acc <- bsel_cstr bp A cx (a_nc A) (zero S, SC 0 INACTIVE);
  do acc <- sel_bnd (bounds_only bp) A x (a_nb A) acc;
  Ok (snd acc, bset_cx b (wset (b_cx b) cx)).

(** BlockGISolver.cpp:164-172 *)
Definition bcomputeStep (bp : bproblem) (b : bsol) (sc : selcstr) : res bsol :=
  let s := b_s b in
  let n := s_n s in
  let q := nact (s_A s) in
  let Q := r_Q (b_QR b) in
  do d0 <- getV (s_d s) n;
  do z0 <- getV (s_z s) n;
  do r0 <- getV (s_r s) q;
  do d1 <- premultByJt isz (b_Jn b) (b_G b) Q n d0 (bp_C bp) sc;
  let d := vm n (vhead n d1 d0) in
  guard (q <=? n) (
  do z1 <- premultByJ2 (b_Jn b) (b_G b) Q (r_q (b_QR b)) n z0 (n - q) (fun i => d (q + i)%nat);
  let z := vm n (vhead n z1 z0) in
  do rr <- sqr_RSolve (b_QR b) q r0 q d;
  let r := vm q (vhead q (fst rr) r0) in
  Ok (bset_QR (bset_s b (set_r (set_z (set_d s (wset (s_d s) d)) (wset (s_z s) z)) (wset (s_r s) r))) (snd rr))).

(** BlockGISolver.cpp:199-239 *)
Definition blen2 (bp : bproblem) (n : nat) (x z : vec) (sc : selcstr) : res T :=
  let p := sc_idx sc in
  let pb := (p - c_nbCstr (bp_C bp))%nat in
  let go (b : option T) (cx cz : T) : res T := match b with Some b => Ok ((b - cx) / cz)%ops | None => UB end in
  let cstr (b : option T) : res T :=
    do c <- stc_col (bp_C bp) p;
    do cx <- snz_dot c n x;
    do cz <- snz_dot c n z;
    go b cx cz in
  let bnd (b : option T) : res T := guard ((c_nbCstr (bp_C bp) <=? p) && (pb <? n)) (go b (x pb) (z pb)) in
  match sc_st sc with
  | LOWER => cstr (bp_bl bp p)
  | UPPER => cstr (bp_bu bp p)
  | LOWER_BOUND => bnd (bp_xl bp pb)
  | UPPER_BOUND => bnd (bp_xu bp pb)
  | _ => UB
  end.
(** BlockGISolver.cpp:174-242 *)
Definition bcomputeStepLength (bp : bproblem) (o : options) (b : bsol) (sc : selcstr) : res (T * T * nat) :=
  let s := b_s b in
  let n := s_n s in
  let u := w_buf (s_u s) in let r := w_buf (s_r s) in
  let x := w_buf (s_x s) in let z := w_buf (s_z s) in
  do tl <- len1 (s_A s) u r (o_bigBnd o) (nact (s_A s));
  do t2 <- (if ltb S (eps14 S) (norm n z) then blen2 bp n x z sc else Ok (o_bigBnd o));
  Ok (fst tl, t2, snd tl).

(** BlockGISolver.cpp:255-273 *)
Definition bdot (bp : bproblem) (n : nat) (sc : selcstr) (z : vec) : res T :=
  let p := sc_idx sc in
  let pb := (p - c_nbCstr (bp_C bp))%nat in
  let cstr := do c <- stc_col (bp_C bp) p; snz_dot c n z in
  let bnd := guard ((c_nbCstr (bp_C bp) <=? p) && (pb <? n)) (Ok (z pb)) in
  match sc_st sc with
  | EQUALITY | LOWER => cstr
  | UPPER => do v <- cstr; Ok (- v)%ops
  | FIXED | LOWER_BOUND => bnd
  | UPPER_BOUND => do v <- bnd; Ok (- v)%ops
  | INACTIVE => UB
  end.

(** BlockGISolver.cpp:244-248 with DualSolver.cpp:229-233 *)
Definition baddConstraint (junk : vec) (b : bsol) (sc : selcstr) : res bsol :=
  let s := b_s b in
  do A <- as_activate (s_A s) (sc_idx sc) (sc_st sc);
  do d <- getV (s_d s) (s_n s);
  do fr <- sqr_add tiny junk (b_QR b) (s_n s) d;
  Ok (BS (set_A s A) (b_G b) (snd fr) (b_Jn b) (b_cx b) (b_bact b) (b_tiny b || fst fr)).

(** BlockGISolver.cpp:250-253 with DualSolver.cpp:235-242 *)
Definition bremoveConstraint (junk : vec) (b : bsol) (l : nat) : res bsol :=
  let s := b_s b in
  let q := nact (s_A s) in
  guard (l <=? q) (
  let u := w_buf (s_u s) in
  let u' := vm (q + 1)%nat (fun i => if (l <=? i) && (i <? q) then u (i + 1)%nat else u i) in
  let s := set_u s (wset (s_u s) u') in
  do A <- as_deactivate (s_A s) l;
  do r <- sqr_remove junk (b_QR b) l;
  Ok (bset_QR (bset_s b (set_A s A)) r)).

(** BlockGISolver.cpp:62-107, 376-451 and 453-484.  After initializePrimalDualPoints, which asserts that no
    constraint is active, the loop that deactivates constraints with a negative multiplier looks at none. *)
Definition binit (bp : bproblem) (o : options) (ws : list status) (b : bsol) : res (term_status * bsol) :=
  let s := b_s b in
  let n := s_n s in
  do r <- processInitialActiveSet (bounds_only bp) o ws n (s_A s);
  let s := set_A s (snd r) in
  match fst r with
  | SUCCESS =>
      do dG <- stg_llt (b_G b);
      let b := bset_G (bset_s b s) (snd dG) in
      if negb (fst dG) then Ok (NON_POS_HESSIAN, b)
      else
        let b := bset_QR b (sqr_reset (b_QR b)) in
        guard (g_dec (b_G b)) (
        guard (nact (s_A s) =? 0) (
        do x0 <- getV (s_x s) n;
        do x1 <- stg_solveL isz (b_G b) n (bp_asize bp) (bp_a bp);
        do x2 <- stg_solveLt (b_G b) n x1;
        let x := vm n (vhead n (fun i => - x2 i)%ops x0) in
        let s := set_f (set_x s (wset (s_x s) x)) (half S * dot [23]%nat n (bp_a bp) x)%ops in
        do u <- getV (s_u s) 0;
        do ba <- getV (b_bact b) 0;
        Ok (SUCCESS, bset_s b s)))
  | st => Ok (st, bset_s b s)
  end.

(** DualSolver.cpp:91-168, with the functions above *)
Record blst := BL { bl_s : bsol; bl_skip : bool; bl_sc : selcstr }.
Inductive biter_out := BContinue (l : blst) | BStop (st : term_status) (b : bsol).

Definition bstep1 (bp : bproblem) (l : blst) : res (option blst * bsol) :=
  if bl_skip l then Ok (Some l, bl_s l)
  else
    do r <- bselect bp (bl_s l);
    let '(sc, b) := r in
    match sc_st sc with
    | INACTIVE => Ok (None, b)
    | _ =>
        let s := b_s b in
        let q := nact (s_A s) in
        do r0 <- getV (s_r s) q;
        do u <- getV (s_u s) (q + 1)%nat;
        Ok (Some (BL (bset_s b (set_u s (wset (s_u s) (upd u q (zero S))))) false sc), b)
    end.

Definition bstep2 (junk : vec) (bp : bproblem) (o : options) (l : blst) : res biter_out :=
  let sc := bl_sc l in
  let n := s_n (b_s (bl_s l)) in
  let q := nact (s_A (b_s (bl_s l))) in
  do b <- bcomputeStep bp (bl_s l) sc;
  do tl <- bcomputeStepLength bp o b sc;
  let '(t1, t2, lidx) := tl in
  let t := if ltb S t2 t1 then t2 else t1 in
  let s := b_s b in
  let remove (b : bsol) : res biter_out :=
    do b <- bremoveConstraint junk b lidx;
    do r0 <- getV (s_r (b_s b)) (q - 1)%nat;
    do u0 <- getV (s_u (b_s b)) q;
    Ok (BContinue (BL b true sc)) in
  if leb S (o_bigBnd o) t then Ok (BStop INFEASIBLE b)
  else if leb S (o_bigBnd o) t2 then
    remove (bset_s b (set_u s (wset (s_u s) (dual_step q t (w_buf (s_u s)) (w_buf (s_r s))))))
  else
    let x := w_buf (s_x s) in let z := w_buf (s_z s) in
    do nz <- bdot bp n sc z;
    let u := w_buf (s_u s) in
    let s := set_x s (wset (s_x s) (vm n (vhead n (fun i => x i + t * z i)%ops x))) in
    let s := set_f s (s_f s + t * nz * (half S * t + u q))%ops in
    let s := set_u s (wset (s_u s) (dual_step q t u (w_buf (s_r s)))) in
    if eqb S t t2 then
      do b <- baddConstraint junk (bset_s b s) sc;
      Ok (BContinue (BL b false sc))
    else remove (bset_s b s).

Definition biter (junk : vec) (bp : bproblem) (o : options) (l : blst) : res biter_out :=
  do l1 <- bstep1 bp l;
  match fst l1 with
  | None => Ok (BStop SUCCESS (snd l1))
  | Some l1 => bstep2 junk bp o l1
  end.

Definition bbump (l : blst) : blst :=
  let b := bl_s l in BL (bset_s b (set_it (b_s b) (Datatypes.S (s_it (b_s b))))) (bl_skip l) (bl_sc l).
Fixpoint bloop (junk : vec) (bp : bproblem) (o : options) (fuel : nat) (l : blst) : res (term_status * bsol) :=
  match fuel with
  | O => Ok (MAX_ITER_REACHED, bl_s l)
  | Datatypes.S f =>
      do r <- biter junk bp o l;
      match r with
      | BStop st b => Ok (st, b)
      | BContinue l' => bloop junk bp o f (bbump l')
      end
  end.

(** DualSolver.cpp:170-198, as [Solver.terminate] *)
Definition bterminate (o : options) (st : term_status) (b : bsol) : res (term_status * bsol) :=
  match st with
  | OVERCONSTRAINED_PROBLEM | UNKNOWN => if o_debug o then UB else Ok (st, b)
  | _ => Ok (st, b)
  end.

(** BlockGISolver.cpp:17-60 and DualSolver.cpp:91-168, 200-210; [ws] is the argument [as] *)
Definition bgi_solve (junk : vec) (bp : bproblem) (o : options) (ws : list status) (b : bsol) : res (term_status * bsol) :=
  guard (sizes_ok (bounds_only bp)) (
  guard ((length ws =? c_nbCstr (bp_C bp) + bp_xlsize bp)%nat || is_nil ws) (
  guard (o_warm o || is_nil ws) (
  let b := BS (b_s b) (bp_G bp) (b_QR b) (b_Jn b) (b_cx b) (b_bact b) false in
  let b := bresize junk b (g_n (bp_G bp)) (c_nbCstr (bp_C bp)) (0 <? bp_xlsize bp)%nat in
  let ws' := if o_warm o then (if is_nil ws then a_status (s_A (b_s b)) else ws) else [] in
  let s := set_exp (b_s b) true in
  let s := if o_warm o then s else set_A s (as_reset (s_A s)) in
  do rs <- binit bp o ws' (bset_s b (set_it s 0));
  match rs with
  | (SUCCESS, b) =>
      let s := b_s b in
      do x0 <- getV (s_x s) (s_n s);
      do z <- getV (s_z s) (s_n s);
      do u <- getV (s_u s) (nact (s_A s));
      do rs <- bloop junk bp o (o_maxIter o - s_it s)%nat (BL b false (SC 0 INACTIVE));
      bterminate o (fst rs) (snd rs)
  | (st, b) => bterminate o st b
  end))).
End BlockGI.
Arguments BP {S}. Arguments bp_G {S}. Arguments bp_a {S}. Arguments bp_asize {S}. Arguments bp_C {S}. Arguments bp_bl {S}. Arguments bp_blsize {S}. Arguments bp_bu {S}. Arguments bp_busize {S}.
Arguments bp_xl {S}. Arguments bp_xlsize {S}. Arguments bp_xu {S}. Arguments bp_xusize {S}. Arguments dense_of {S}. Arguments bounds_only {S}.
Arguments BS {S}. Arguments b_s {S}. Arguments b_G {S}. Arguments b_QR {S}. Arguments b_Jn {S}. Arguments b_cx {S}. Arguments b_bact {S}. Arguments b_tiny {S}.
Arguments bset_s {S}. Arguments bset_G {S}. Arguments bset_QR {S}. Arguments bset_cx {S}. Arguments bsol_new {S}. Arguments bresize {S}. Arguments bsel_cstr {S}. Arguments bselect {S}.
Arguments bcomputeStep {S}. Arguments blen2 {S}. Arguments bcomputeStepLength {S}. Arguments bdot {S}. Arguments baddConstraint {S}. Arguments bremoveConstraint {S}. Arguments binit {S}.
Arguments BL {S}. Arguments bl_s {S}. Arguments bl_skip {S}. Arguments bl_sc {S}. Arguments BContinue {S}. Arguments BStop {S}. Arguments bstep1 {S}. Arguments bstep2 {S}. Arguments biter {S}.
Arguments bbump {S}. Arguments bloop {S}. Arguments bterminate {S}. Arguments bgi_solve {S}.

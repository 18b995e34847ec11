(** Model of the warm-startable dense solver
    (src/experimental/GoldfarbIdnaniSolver.cpp).  Selection, step, step length,
    constraint addition and removal are textually those of
    src/GoldfarbIdnaniSolver.cpp (modelled in Solver.v, with both line ranges); this file models what
    differs: the arguments, the initial active set and the initialisation by a
    QR factorisation.

    Simplifications: statements under JRLQP_DEBUG_ONLY and logging are omitted;
    Eigen's blocked Householder QR is modelled by the unblocked algorithm (same
    reflections); the contents left in the scratch vector work_tmp_ by the
    Householder routines are not tracked (it is overwritten before being read);
    an infinite bound is considered beyond bigBnd_ ([bigBnd_] finite). *)
From Coq Require Import List Arith ZArith Lia Bool.
From Verif Require Import Base ActiveSet Num Solver.
Import ListNotations.

Section Warm.
Variable S : ops.
Notation T := (carrier S).
Notation vec := (vec S).
Notation mat := (mat S).
Notation sol := (sol S).
Notation problem := (problem S).
Notation options := (options S).
Notation "x + y" := (add S x y) : ops_scope.
Notation "x - y" := (sub S x y) : ops_scope.
Notation "x * y" := (mul S x y) : ops_scope.
Notation "x / y" := (div S x y) : ops_scope.
Notation "- x" := (opp S x) : ops_scope.
Notation "0" := (zero S) : ops_scope.
Notation "1" := (one S) : ops_scope.

(** ** Householder reflections (Eigen/src/Householder/Householder.h) *)
Fixpoint hpow (k : nat) : T := match k with O => one S | Datatypes.S k => (half S * hpow k)%ops end.
(** (std::numeric_limits<double>::min)() *)
Definition dblmin : T := hpow 1022.

(** squared norm of the part of column [k] below the diagonal *)
Definition hh_tail (n k : nat) (B : mat) : T :=
  sumn [30; k]%nat (n - 1 - k) (fun t => (B (k + 1 + t)%nat k * B (k + 1 + t)%nat k)%ops).
(** Householder.h:67-98, makeHouseholder on column [k] from row [k] down: (tau, beta, essential);
    the essential part is indexed by the absolute row. *)
Definition house (n k : nat) (B : mat) : T * T * vec :=
  let c0 := B k k in
  let tsq := hh_tail n k B in
  if leb S tsq dblmin then (zero S, c0, fun _ => zero S)
  else
    let b0 := sqrt_ S (c0 * c0 + tsq)%ops in
    let beta := if leb S (zero S) c0 then (- b0)%ops else b0 in
    (((beta - c0) / beta)%ops, beta, fun i => (B i k / (c0 - beta))%ops).

(** Householder.h:116-134 and HouseholderQR.h:255-284 (householder_qr_inplace_unblocked),
    one column: store beta and the essential part, apply to the columns on the right. *)
Definition qr_col (n q k : nat) (B : mat) : T * mat :=
  let '(tau, beta, ess) := house n k B in
  let ess := vm n ess in
  let t := vm q (fun j => sumn [31; k; j]%nat (n - 1 - k) (fun r => (ess (k + 1 + r)%nat * B (k + 1 + r)%nat j)%ops) + B k j)%ops in
  (tau, mm n (fun i j =>
     if j =? k then (if i =? k then beta else if (k <? i) && (i <? n) then ess i else B i j)
     else if (k <? j) && (j <? q) && (k <=? i) && (i <? n) then
       if (n - k =? 1)%nat then (B i j * (1 - tau))%ops
       else if eqb S tau (zero S) then B i j
       else if i =? k then (B k j - tau * t j)%ops else (B i j - tau * ess i * t j)%ops
     else B i j)).
Fixpoint qr_loop (n q cnt k : nat) (B : mat) (h : vec) : mat * vec :=
  match cnt with
  | O => (B, h)
  | Datatypes.S c => let '(tau, B') := qr_col n q k B in qr_loop n q c (Datatypes.S k) B' (upd h k tau)
  end.

(** Householder.h:153-171 applyHouseholderOnTheRight on the columns [k..n-1] of J *)
Definition hh_right (n k : nat) (tau : T) (ess : vec) (J : mat) : mat :=
  let t := vm n (fun i => sumn [32; k; i]%nat (n - 1 - k) (fun r => (J i (k + 1 + r)%nat * ess (k + 1 + r)%nat)%ops) + J i k)%ops in
  mm n (fun i j =>
     if (k <=? j) && (j <? n) then
       if (n - k =? 1)%nat then (J i j * (1 - tau))%ops
       else if eqb S tau (zero S) then J i j
       else if j =? k then (J i k - tau * t i)%ops else (J i j - tau * t i * ess j)%ops
     else J i j).
(** HouseholderSequence.h:258-270 applyThisOnTheRight: J H_0 H_1 ... *)
Fixpoint app_q (n cnt k : nat) (B : mat) (h : vec) (J : mat) : mat :=
  match cnt with
  | O => J
  | Datatypes.S c => app_q n c (Datatypes.S k) B h (hh_right n k (h k) (fun i => B i k) J)
  end.

(** ** The object: include/jrl-qp/experimental/GoldfarbIdnaniSolver.h:55-62 (the additional work areas) *)
Record xsol := XS { x_s : sol; x_tmp : work S; x_h : work S; x_b : work S }.
Definition xset_s (x : xsol) (s : sol) : xsol := XS s (x_tmp x) (x_h x) (x_b x).

(** experimental/GoldfarbIdnaniSolver.cpp:13 *)
Definition xsol_new : xsol := let w0 := W 0%nat (fun _ => zero S) in XS (sol_new S) w0 w0 w0.

(** experimental/GoldfarbIdnaniSolver.cpp:289-300 with DualSolver.cpp:19-25 *)
Definition xresize (junk : vec) (x : xsol) (nbVar nbCstr : nat) (useBounds : bool) : xsol :=
  let g w := if nbVar =? s_n (x_s x) then w else w_resize junk w nbVar in
  XS (resize junk (x_s x) nbVar nbCstr useBounds) (g (x_tmp x)) (g (x_h x)) (g (x_b x)).

(** ** Initial active set: experimental/GoldfarbIdnaniSolver.cpp:302-388 *)
(** [pb_.xl[i] < -bigBnd_], [pb_.xu[i] > bigBnd_] *)
Definition lo_inf (big : T) (b : option T) : bool := match b with Some v => ltb S v (- big)%ops | None => true end.
Definition up_inf (big : T) (b : option T) : bool := match b with Some v => ltb S big v | None => true end.
Definition wget (ws : list status) (i : nat) : res status := match nth_error ws i with Some s => Ok s | None => UB end.
Definition is_nil (ws : list status) : bool := match ws with [] => true | _ => false end.

(** lines 311-337, after the bounds [< k] *)
Fixpoint pia_bnd (pb : problem) (o : options) (ws : list status) (k : nat) (A : aset) : res aset :=
  match k with
  | O => Ok A
  | Datatypes.S i =>
      do A <- pia_bnd pb o ws i A;
      let bi := (a_nc A + i)%nat in
      if bounds_eq (p_xl pb i) (p_xu pb i) then as_activate A bi FIXED
      else if negb (is_nil ws) && o_warm o then
        do s <- wget ws bi;
        if status_eqb s INACTIVE then Ok A
        else guard (4 <=? status_int s)
          (if status_eqb s FIXED then Ok A
           else if (status_eqb s LOWER_BOUND && lo_inf (o_bigBnd o) (p_xl pb i))
                   || (status_eqb s UPPER_BOUND && up_inf (o_bigBnd o) (p_xu pb i)) then Ok A
           else as_activate A bi s)
      else Ok A
  end.
(** lines 338-362; the test [s == FIXED] of line 348 is the one in the code (it
    cannot succeed after the assert of line 347) *)
Fixpoint pia_cstr (pb : problem) (o : options) (ws : list status) (k : nat) (A : aset) : res aset :=
  match k with
  | O => Ok A
  | Datatypes.S i =>
      do A <- pia_cstr pb o ws i A;
      if bounds_eq (p_bl pb i) (p_bu pb i) then as_activate A i EQUALITY
      else if negb (is_nil ws) && o_warm o then
        do s <- wget ws i;
        if status_eqb s INACTIVE then Ok A
        else guard (status_int s <=? 3)
          (if status_eqb s FIXED then Ok A
           else if (status_eqb s LOWER && lo_inf (o_bigBnd o) (p_bl pb i))
                   || (status_eqb s UPPER && up_inf (o_bigBnd o) (p_bu pb i)) then Ok A
           else as_activate A i s)
      else Ok A
  end.
(** lines 371-384: deactivate from the end, skipping equalities, until [n] are left.
    [i] is the C++ variable; below 0 the access [A_[i]] is out of range. *)
Fixpoint trim (n i : nat) (A : aset) : res aset :=
  if nact A <=? n then Ok A
  else match i with
       | O => UB
       | Datatypes.S j =>
           do c <- as_get A j;
           do st <- as_stat A c;
           if isEq st then trim n j A
           else do A' <- as_deactivate A j; trim n j A'
       end.
Definition processInitialActiveSet (pb : problem) (o : options) (ws : list status) (n : nat) (A : aset) : res (term_status * aset) :=
  let A := as_reset A in
  do A <- pia_bnd pb o ws (a_nb A) A;
  do A <- pia_cstr pb o ws (a_nc A) A;
  if n <? nact A then
    if (Z.of_nat n <? a_me A + a_mbe A)%Z then Ok (OVERCONSTRAINED_PROBLEM, A)
    else do A <- trim n (nact A) A; Ok (SUCCESS, A)
  else Ok (SUCCESS, A).

(** ** Factorisation: experimental/GoldfarbIdnaniSolver.cpp:390-459 *)
(** lines 398-425: column and right-hand side of the active constraint [ci].  An
    infinite right-hand side is flagged as UB. *)
Definition fill_col (pb : problem) (n nc : nat) (ci : nat) (st : status) : res (option (vec * T)) :=
  let rd (b : option T) (f : T -> vec * T) := match b with Some v => Ok (Some (f v)) | None => UB end in
  let k := (ci - nc)%nat in
  match st with
  | LOWER | EQUALITY => rd (p_bl pb ci) (fun v => (fun i => p_C pb i ci, v))
  | UPPER => rd (p_bu pb ci) (fun v => (fun i => - p_C pb i ci, - v))%ops
  | LOWER_BOUND | FIXED => guard (k <? n) (rd (p_xl pb k) (fun v => (fun i => if i =? k then one S else zero S, v)))
  | UPPER_BOUND => guard (k <? n) (rd (p_xu pb k) (fun v => (fun i => if i =? k then - (1) else zero S, - v)))%ops
  | INACTIVE => Ok None
  end.
Fixpoint fill (pb : problem) (n : nat) (A : aset) (k : nat) (N : mat) (b : vec) : res (mat * vec) :=
  match k with
  | O => Ok (N, b)
  | Datatypes.S i =>
      do Nb <- fill pb n A i N b;
      do ci <- as_get A i;
      do st <- as_stat A ci;
      do c <- fill_col pb n (a_nc A) ci st;
      Ok (match c with
          | Some (v, w) => ((fun r j => if j =? i then v r else fst Nb r j), upd (snd Nb) i w)
          | None => Nb
          end)
  end.
Definition initComputationData (pb : problem) (L : mat) (x : xsol) : res xsol :=
  let s := x_s x in
  let n := s_n s in
  let q := nact (s_A s) in
  do Nm0 <- getM (s_R s) n q n;
  do b0 <- getV (x_b x) q;
  do Nb <- fill pb n (s_A s) q Nm0 b0;
  do J0 <- getM (s_J s) n n n;
  let J := mm n (fun i j => bwd n n (tr L) (fun k => idm S k j) i) in
  let B := mm n (fun i j => fwd n L (fun k => fst Nb k j) i) in
  do h0 <- getV (x_h x) q;
  do t0 <- getV (x_tmp x) n;
  let '(B, h) := qr_loop n q (Nat.min n q) 0 B h0 in
  let J := app_q n (Nat.min n q) 0 B h J in
  let s := set_R (set_J s (wset (s_J s) (unview n n J (w_buf (s_J s))))) (wset (s_R s) (unview n q B (w_buf (s_R s)))) in
  Ok (XS s (x_tmp x) (wset (x_h x) (vm q h)) (wset (x_b x) (vm q (snd Nb)))).

(** ** Primal-dual point: experimental/GoldfarbIdnaniSolver.cpp:461-487 *)
Definition initPrimalDual (pb : problem) (x : xsol) : res xsol :=
  let s := x_s x in
  let n := s_n s in
  let q := nact (s_A s) in
  do J <- getM (s_J s) n n n;
  do R <- getM (s_R s) q q n;
  do b <- getV (x_b x) q;
  do al0 <- getV (x_tmp x) n;
  do be0 <- getV (s_r s) q;
  do x0 <- getV (s_x s) n;
  do u0 <- getV (s_u s) q;
  guard (q <=? n) (
  let al := vm n (vhead n (fun k => sumn [33; k]%nat n (fun i => (J i k * p_a pb i)%ops)) al0) in
  let be := vm q (vhead q (fwd q (tr R) b) be0) in
  let x' := vm n (vhead n (fun i => sumn [34; i]%nat q (fun k => J i k * be k) - sumn [35; i]%nat (n - q) (fun t => J i (q + t)%nat * al (q + t)%nat))%ops x0) in
  let u' := vm q (vhead q (bwd q q R (fun k => al k + be k)%ops) u0) in
  let f := (sumn [36]%nat q (fun k => be k * (half S * be k + al k)) - half S * sumn [37]%nat (n - q) (fun t => al (q + t)%nat * al (q + t)%nat))%ops in
  let s := set_u (set_x (set_f (set_r s (wset (s_r s) be)) f) (wset (s_x s) x')) (wset (s_u s) u') in
  Ok (XS s (wset (x_tmp x) al) (x_h x) (x_b x))).

(** ** Deactivation of the constraints with a negative multiplier: lines 80-105 *)
(** lines 87-96, after rows [< k] *)
Fixpoint neg_min (A : aset) (u : vec) (k : nat) : res (T * option nat) :=
  match k with
  | O => Ok ((- eps14 S)%ops, None)
  | Datatypes.S l =>
      do acc <- neg_min A u l;
      do i <- as_get A l;
      do st <- as_stat A i;
      Ok (if ltb S (u l) (fst acc) && negb (isEq st) then (u l, Some l) else acc)
  end.
(** lines 82-105; [fuel] bounds the number of turns of [while(true)], see [drop_fuel] in WarmSafe.v *)
Fixpoint drop_loop (pb : problem) (fuel : nat) (x : xsol) : res xsol :=
  match fuel with
  | O => UB
  | Datatypes.S f =>
      let s := x_s x in
      let q := nact (s_A s) in
      do u <- getV (s_u s) q;
      do b <- getV (x_b x) q;
      do m <- neg_min (s_A s) u q;
      match snd m with
      | None => Ok x
      | Some l =>
          let s := set_it s (Datatypes.S (s_it s)) in
          let b' := vm q (fun i => if (l <=? i) && (i <? q - 1) then b (i + 1)%nat else b i) in
          do A <- as_deactivate (s_A s) l;
          do s <- removeConstraint_ (set_A s A) l;
          do x <- initPrimalDual pb (XS s (x_tmp x) (x_h x) (wset (x_b x) b'));
          drop_loop pb f x
      end
  end.

(** ** init_: experimental/GoldfarbIdnaniSolver.cpp:66-108 *)
Definition xinit (pb : problem) (o : options) (ws : list status) (x : xsol) : res (term_status * xsol) :=
  let s := x_s x in
  do r <- processInitialActiveSet pb o ws (s_n s) (s_A s);
  let s := set_A s (snd r) in
  match fst r with
  | SUCCESS =>
      let '(ret, Lm) := llt (s_n s) (p_G pb) in
      let s := set_G s Lm in
      match ret with
      | Some _ => Ok (NON_POS_HESSIAN, xset_s x s)
      | None =>
          do x <- initComputationData pb Lm (xset_s x s);
          do x <- initPrimalDual pb x;
          do x <- drop_loop pb (Datatypes.S (nact (s_A (x_s x)))) x;
          Ok (SUCCESS, x)
      end
  | st => Ok (st, xset_s x s)
  end.

(** ** solve: experimental/GoldfarbIdnaniSolver.cpp:20-64 and DualSolver.cpp:91-168.
    [ws] is the argument [as].  Without the warm start option the former contents
    of [pb_.as] are kept but never looked at. *)
Definition xgi_solve (junk : vec) (pb : problem) (o : options) (ws : list status) (x : xsol) : res (term_status * xsol) :=
  guard (sizes_ok pb) (
  guard ((length ws =? p_Ccols pb + p_xlsize pb)%nat || is_nil ws) (
  guard (o_warm o || is_nil ws) (
  let x := xresize junk x (p_Grows pb) (p_Ccols pb) (0 <? p_xlsize pb)%nat in
  let ws' := if o_warm o then (if is_nil ws then a_status (s_A (x_s x)) else ws) else [] in
  let s := set_exp (x_s x) true in
  let s := if o_warm o then s else set_A s (as_reset (s_A s)) in
  do rs <- xinit pb o ws' (xset_s x (set_it s 0));
  match rs with
  | (SUCCESS, x) =>
      let s := x_s x in
      do x0 <- getV (s_x s) (s_n s);
      do z <- getV (s_z s) (s_n s);
      do u <- getV (s_u s) (nact (s_A s));
      do rs <- loop pb o (o_maxIter o - s_it s)%nat (L s false (SC 0 INACTIVE));
      let '(st, s) := rs in
      do r <- terminate o st s; Ok (fst r, xset_s x (snd r))
  | (st, x) => do r <- terminate o st (x_s x); Ok (fst r, xset_s x (snd r))
  end))).

End Warm.

Arguments XS {S}. Arguments x_s {S}. Arguments x_tmp {S}. Arguments x_h {S}. Arguments x_b {S}. Arguments xset_s {S}.
Arguments hh_tail {S}. Arguments house {S}. Arguments qr_col {S}. Arguments qr_loop {S}. Arguments hh_right {S}. Arguments app_q {S}.
Arguments xresize {S}. Arguments lo_inf {S}. Arguments up_inf {S}. Arguments pia_bnd {S}. Arguments pia_cstr {S}.
Arguments processInitialActiveSet {S}. Arguments fill_col {S}. Arguments fill {S}. Arguments initComputationData {S}.
Arguments initPrimalDual {S}. Arguments neg_min {S}. Arguments drop_loop {S}. Arguments xinit {S}. Arguments xgi_solve {S}.

(** Model of DualSolver (src/DualSolver.cpp) and of the dense
    GoldfarbIdnaniSolver (src/GoldfarbIdnaniSolver.cpp), generic over the
    scalar operations.

    Conventions: C++ [int] sizes/indices are [nat]; a failed [assert] or an
    out-of-range view is [UB]; statements under JRLQP_DEBUG_ONLY and all
    logging are omitted (they do not change the values used later). *)
From Coq Require Import List Arith ZArith Lia Bool.
From Verif Require Import Base ActiveSet Num.
Import ListNotations.

Section Solver.
Variable S : ops.
Notation T := (carrier S).
Notation vec := (vec S).
Notation mat := (mat S).
Notation "x + y" := (add S x y) : ops_scope.
Notation "x - y" := (sub S x y) : ops_scope.
Notation "x * y" := (mul S x y) : ops_scope.
Notation "x / y" := (div S x y) : ops_scope.
Notation "- x" := (opp S x) : ops_scope.
Notation "0" := (zero S) : ops_scope.
Notation "1" := (one S) : ops_scope.

(** The arguments of [solve] (GoldfarbIdnaniSolver.cpp:20-26) with the sizes
    the asserts look at.  Bounds may be infinite: [None] is -inf for a lower
    bound and +inf for an upper bound (the opposite infinities are not
    representable).  [p_C i j]: coefficient of variable [i] in constraint [j]. *)
Record problem := Pb {
  p_G : mat; p_Grows : nat; p_Gcols : nat;
  p_a : vec; p_asize : nat;
  p_C : mat; p_Crows : nat; p_Ccols : nat;
  p_bl : nat -> option T; p_blsize : nat;
  p_bu : nat -> option T; p_busize : nat;
  p_xl : nat -> option T; p_xlsize : nat;
  p_xu : nat -> option T; p_xusize : nat
}.

(** GoldfarbIdnaniSolver.cpp:35-41: the size asserts *)
Definition sizes_ok (pb : problem) : bool :=
  let n := p_Grows pb in let m := p_Ccols pb in
  (p_Gcols pb =? n) && (p_asize pb =? n) && (p_Crows pb =? n) && (p_blsize pb =? m) &&
  (p_busize pb =? m) && ((p_xlsize pb =? n) || (p_xlsize pb =? 0)) && (p_xusize pb =? p_xlsize pb).

(** SolverOptions.h:14-20 (the fields that matter) and whether [assert] in
    DualSolver::terminate is compiled in. *)
Record options := Opt { o_maxIter : nat; o_bigBnd : T; o_warm : bool; o_debug : bool }.

(** The solver object: DualSolver.h:123-140, GoldfarbIdnaniSolver.h (work_d_,
    work_J_, work_R_); [s_G] is the caller's matrix G after the call (modified
    in place by the factorisation). *)
Record sol := St {
  s_it : nat; s_n : nat; s_A : aset; s_f : T;
  s_x : work S; s_z : work S; s_u : work S; s_r : work S; s_exp : bool;
  s_d : work S; s_J : work S; s_R : work S; s_G : mat
}.

Definition set_it s v := St v (s_n s) (s_A s) (s_f s) (s_x s) (s_z s) (s_u s) (s_r s) (s_exp s) (s_d s) (s_J s) (s_R s) (s_G s).
Definition set_A s v := St (s_it s) (s_n s) v (s_f s) (s_x s) (s_z s) (s_u s) (s_r s) (s_exp s) (s_d s) (s_J s) (s_R s) (s_G s).
Definition set_f s v := St (s_it s) (s_n s) (s_A s) v (s_x s) (s_z s) (s_u s) (s_r s) (s_exp s) (s_d s) (s_J s) (s_R s) (s_G s).
Definition set_x s v := St (s_it s) (s_n s) (s_A s) (s_f s) v (s_z s) (s_u s) (s_r s) (s_exp s) (s_d s) (s_J s) (s_R s) (s_G s).
Definition set_z s v := St (s_it s) (s_n s) (s_A s) (s_f s) (s_x s) v (s_u s) (s_r s) (s_exp s) (s_d s) (s_J s) (s_R s) (s_G s).
Definition set_u s v := St (s_it s) (s_n s) (s_A s) (s_f s) (s_x s) (s_z s) v (s_r s) (s_exp s) (s_d s) (s_J s) (s_R s) (s_G s).
Definition set_r s v := St (s_it s) (s_n s) (s_A s) (s_f s) (s_x s) (s_z s) (s_u s) v (s_exp s) (s_d s) (s_J s) (s_R s) (s_G s).
Definition set_exp s v := St (s_it s) (s_n s) (s_A s) (s_f s) (s_x s) (s_z s) (s_u s) (s_r s) v (s_d s) (s_J s) (s_R s) (s_G s).
Definition set_d s v := St (s_it s) (s_n s) (s_A s) (s_f s) (s_x s) (s_z s) (s_u s) (s_r s) (s_exp s) v (s_J s) (s_R s) (s_G s).
Definition set_J s v := St (s_it s) (s_n s) (s_A s) (s_f s) (s_x s) (s_z s) (s_u s) (s_r s) (s_exp s) (s_d s) v (s_R s) (s_G s).
Definition set_R s v := St (s_it s) (s_n s) (s_A s) (s_f s) (s_x s) (s_z s) (s_u s) (s_r s) (s_exp s) (s_d s) (s_J s) v (s_G s).
Definition set_G s v := St (s_it s) (s_n s) (s_A s) (s_f s) (s_x s) (s_z s) (s_u s) (s_r s) (s_exp s) (s_d s) (s_J s) (s_R s) v.

(** Replace the contents of a workspace (assignment through a view) *)
Definition wset (w : work S) (b : vec) : work S := W (w_size w) b.

(** Views with their asserts *)
Definition getV (w : work S) (n : nat) : res vec := guard (vec_fits w n) (Ok (w_buf w)).
Definition getM (w : work S) (r c ld : nat) : res mat := guard (mat_fits w r c ld) (Ok (view ld (w_buf w))).

(** DualSolver.cpp:8-12 and GoldfarbIdnaniSolver.cpp:11: default construction *)
Definition sol_new : sol :=
  let w0 := W 0 (fun _ => zero S) in
  St 0 0 (as_new 0 0) (zero S) w0 w0 w0 w0 false w0 w0 w0 (fun _ _ => zero S).

(** DualSolver.cpp:250-274 *)
Definition resize_p (junk : vec) (s : sol) (nbVar nbCstr : nat) (useBounds : bool) : sol :=
  let s := if nbVar =? s_n s then s
           else St (s_it s) nbVar (s_A s) (s_f s) (w_resize junk (s_x s) nbVar) (w_resize junk (s_z s) nbVar)
                   (s_u s) (s_r s) (s_exp s) (s_d s) (s_J s) (s_R s) (s_G s) in
  let nbBnd := if useBounds then nbVar else O in
  let s := if (nbCstr + nbBnd)%nat =? nbAll (s_A s) then s
           else set_r (set_u s (w_resize junk (s_u s) (nbCstr + nbBnd)%nat))
                      (w_resize junk (s_r s) (nbCstr + nbBnd)%nat) in
  if (nbCstr =? a_nc (s_A s)) && (nbBnd =? a_nb (s_A s)) then s
  else set_A s (as_resize (s_A s) nbCstr nbBnd).

(** GoldfarbIdnaniSolver.cpp:261-269 (experimental: lines 288-299) *)
Definition resize_d (junk : vec) (s : sol) (nbVar : nat) : sol :=
  if nbVar =? s_n s then s
  else set_R (set_J (set_d s (w_resize junk (s_d s) nbVar))
                    (w_resize junk (s_J s) (nbVar * nbVar)%nat))
             (w_resize junk (s_R s) (nbVar * nbVar)%nat).

(** DualSolver.cpp:19-25 *)
Definition resize (junk : vec) (s : sol) (nbVar nbCstr : nat) (useBounds : bool) : sol :=
  resize_p junk (resize_d junk s nbVar) nbVar nbCstr useBounds.

(** DualSolver.cpp:86-89 *)
Definition resetActiveSet (s : sol) : sol := set_A s (as_reset (s_A s)).

(** ** ConstraintNormal (include/jrl-qp/internal/ConstraintNormal.h) *)

(** lines 44-48: the assert of the constructor *)
Definition cn_ok (pb : problem) (sc : selcstr) : bool :=
  ((status_int (sc_st sc) <? 4) && (sc_idx sc <? p_Ccols pb))
  || ((4 <=? status_int (sc_st sc)) && (p_Ccols pb <=? sc_idx sc)).

(** lines 86-107: preMultiplyByMt, out = M^T n *)
Definition cn_preMt (pb : problem) (sc : selcstr) (n : nat) (M : mat) : res vec :=
  match sc_st sc with
  | EQUALITY | LOWER => Ok (fun k => sumn [10; sc_idx sc; k]%nat n (fun i => (M i k * p_C pb i (sc_idx sc))%ops))
  | UPPER => Ok (fun k => sumn [11; sc_idx sc; k]%nat n (fun i => (- M i k * p_C pb i (sc_idx sc))%ops))
  | FIXED | LOWER_BOUND =>
      guard ((sc_idx sc - p_Ccols pb)%nat <? n) (Ok (fun k => M (sc_idx sc - p_Ccols pb)%nat k))
  | UPPER_BOUND =>
      guard ((sc_idx sc - p_Ccols pb)%nat <? n) (Ok (fun k => - M (sc_idx sc - p_Ccols pb)%nat k)%ops)
  | INACTIVE => UB
  end.

(** lines 110-130: dot, n^T v *)
Definition cn_dot (pb : problem) (sc : selcstr) (n : nat) (v : vec) : res T :=
  match sc_st sc with
  | EQUALITY | LOWER => Ok (dot [12; sc_idx sc]%nat n v (fun i => p_C pb i (sc_idx sc)))
  | UPPER => Ok (- dot [13; sc_idx sc]%nat n v (fun i => p_C pb i (sc_idx sc)))%ops
  | FIXED | LOWER_BOUND =>
      guard ((sc_idx sc - p_Ccols pb)%nat <? n) (Ok (v (sc_idx sc - p_Ccols pb)%nat))
  | UPPER_BOUND =>
      guard ((sc_idx sc - p_Ccols pb)%nat <? n) (Ok (- v (sc_idx sc - p_Ccols pb)%nat)%ops)
  | INACTIVE => UB
  end.

(** ** Selection of a violated constraint: GoldfarbIdnaniSolver.cpp:88-143
    (experimental: lines 110-165, same code).
    [smin] is carried with the selection; [INACTIVE] means "none". *)
Definition below (cx : T) (b : option T) (smin : T) : option T :=   (* [double sl = cx - bl; sl < smin] *)
  match b with
  | Some b => let sl := (cx - b)%ops in if ltb S sl smin then Some sl else None
  | None => None
  end.
Definition above (cx : T) (b : option T) (smin : T) : option T :=   (* [double su = bu - cx; su < smin] *)
  match b with
  | Some b => let su := (b - cx)%ops in if ltb S su smin then Some su else None
  | None => None
  end.

Definition sel_one (cx : T) (lo up : option T) (idx : nat) (sl su : status)
                   (acc : T * selcstr) : T * selcstr :=
  match below cx lo (fst acc) with
  | Some v => (v, SC idx sl)
  | None => match above cx up (fst acc) with
            | Some v => (v, SC idx su)
            | None => acc
            end
  end.

Fixpoint sel_cstr (pb : problem) (A : aset) (x : vec) (k : nat) (acc : T * selcstr) : res (T * selcstr) :=
  match k with
  | O => Ok acc
  | Datatypes.S i =>
      do acc <- sel_cstr pb A x i acc;
      do act <- isActive A i;
      Ok (if act then acc
          else sel_one (dot [14; i]%nat (p_Crows pb) (fun t => p_C pb t i) x) (p_bl pb i) (p_bu pb i) i LOWER UPPER acc)
  end.
Fixpoint sel_bnd (pb : problem) (A : aset) (x : vec) (k : nat) (acc : T * selcstr) : res (T * selcstr) :=
  match k with
  | O => Ok acc
  | Datatypes.S i =>
      do acc <- sel_bnd pb A x i acc;
      do act <- isActiveBnd A i;
      Ok (if act then acc
          else sel_one (x i) (p_xl pb i) (p_xu pb i) (a_nc A + i)%nat LOWER_BOUND UPPER_BOUND acc)
  end.
Definition selectViolated (pb : problem) (s : sol) : res selcstr :=
  do x <- getV (s_x s) (s_n s);
  do acc <- sel_cstr pb (s_A s) x (a_nc (s_A s)) (zero S, SC 0 INACTIVE);
  do acc <- sel_bnd pb (s_A s) x (a_nb (s_A s)) acc;
  Ok (snd acc).

(** ** Step: GoldfarbIdnaniSolver.cpp:145-158 (experimental: 167-180).
    d = J^T n, z = J_2 d_2, r = R^-1 d_1. *)
Definition computeStep (pb : problem) (s : sol) (sc : selcstr) : res sol :=
  let n := s_n s in
  let q := nact (s_A s) in
  do d0 <- getV (s_d s) n;
  do J <- getM (s_J s) n n n;
  do R <- getM (s_R s) q q n;
  do z0 <- getV (s_z s) n;
  do r0 <- getV (s_r s) q;
  guard (cn_ok pb sc) (
  do d1 <- cn_preMt pb sc n J;
  let d := vm n (vhead n d1 d0) in
  guard (q <=? n) (
  let z := vm n (vhead n (fun i => sumn [15; q; i]%nat (n - q) (fun t => (J i (q + t)%nat * d (q + t)%nat)%ops)) z0) in
  let r := vm q (vhead q (bwd q q R d) r0) in
  Ok (set_r (set_z (set_d s (wset (s_d s) d)) (wset (s_z s) z)) (wset (s_r s) r)))).

(** ** Step length: GoldfarbIdnaniSolver.cpp:160-220 (experimental: 182-242).
    Note the status looked up is the one of constraint index [k], not of the
    [k]-th active constraint. *)
Definition isEq (st : status) : bool := status_eqb st EQUALITY || status_eqb st FIXED.

Fixpoint len1 (A : aset) (u r : vec) (big : T) (k : nat) : res (T * nat) :=   (* (t1, l) after rows < k *)
  match k with
  | O => Ok (big, O)
  | Datatypes.S i =>
      do acc <- len1 A u r big i;
      do st <- as_stat A i;
      Ok (if negb (isEq st) && ltb S (zero S) (r i)
          then let tk := (u i / r i)%ops in
               if ltb S tk (fst acc) then (tk, i) else acc
          else acc)
  end.

(** [b], [cx], [cz] of the switch at lines 184-216; the EQUALITY/FIXED/default
    branch is [__builtin_unreachable].  An infinite bound cannot be selected
    (see [below], [above]); reading one here is flagged as UB. *)
Definition len2 (pb : problem) (n : nat) (x z : vec) (sc : selcstr) : res T :=
  let p := sc_idx sc in
  let pb' := (p - p_Ccols pb)%nat in
  let go (b : option T) (cx cz : T) : res T :=
    match b with Some b => Ok ((b - cx) / cz)%ops | None => UB end in
  let c := fun i => p_C pb i p in
  match sc_st sc with
  | LOWER => go (p_bl pb p) (dot [16; p]%nat n c x) (dot [17; p]%nat n c z)
  | UPPER => go (p_bu pb p) (dot [18; p]%nat n c x) (dot [19; p]%nat n c z)
  | LOWER_BOUND => guard (pb' <? n) (go (p_xl pb pb') (x pb') (z pb'))
  | UPPER_BOUND => guard (pb' <? n) (go (p_xu pb pb') (x pb') (z pb'))
  | _ => UB
  end.

(** z.norm() *)
Definition norm (n : nat) (z : vec) : T := sqrt_ S (dot [20]%nat n z z).

Definition computeStepLength (pb : problem) (o : options) (s : sol) (sc : selcstr) : res (T * T * nat) :=
  let n := s_n s in
  let u := w_buf (s_u s) in let r := w_buf (s_r s) in
  let x := w_buf (s_x s) in let z := w_buf (s_z s) in
  do tl <- len1 (s_A s) u r (o_bigBnd o) (nact (s_A s));
  guard (cn_ok pb sc) (
  do t2 <- (if ltb S (eps14 S) (norm n z) then len2 pb n x z sc else Ok (o_bigBnd o));
  Ok (fst tl, t2, snd tl)).

(** ** QR update: GoldfarbIdnaniSolver.cpp:222-239 (experimental: 244-261) *)
Fixpoint add_loop (n cnt i : nat) (d : vec) (J : mat) : vec * mat :=
  match cnt with
  | O => (d, J)
  | Datatypes.S c =>
      let '(g, rr) := makeGivens (d i) (d (Datatypes.S i)) in
      add_loop n c (i - 1)%nat (vm n (upd d i rr)) (mm n (rot_cols J i g))
  end.
Definition addConstraint_ (s : sol) : res sol :=
  let n := s_n s in
  let q := nact (s_A s) in   (* already counts the new constraint *)
  do d <- getV (s_d s) n;
  do J <- getM (s_J s) n n n;
  let '(d', J') := add_loop n (n - q)%nat (n - 2)%nat d J in
  do R <- getM (s_R s) q q n;
  guard (q <=? n) (        (* d.head(q) *)
  let R' := fun i j => if (j =? q - 1)%nat && (i <? q) then d' i else R i j in
  Ok (set_R (set_J (set_d s (wset (s_d s) d')) (wset (s_J s) (unview n n J' (w_buf (s_J s)))))
            (wset (s_R s) (unview n q R' (w_buf (s_R s)))))).

(** DualSolver.cpp:229-233; [addConstraint_] always returns true *)
Definition addConstraint (s : sol) (sc : selcstr) : res sol :=
  do A <- as_activate (s_A s) (sc_idx sc) (sc_st sc);
  addConstraint_ (set_A s A).

(** ** QR downdate: GoldfarbIdnaniSolver.cpp:241-259 (experimental: 263-281).
    Loop body for index [i], [R] being seen as (q+1)x(q+1). *)
Definition rem_step (q i : nat) (RJ : mat * mat) : mat * mat :=
  let '(R, J) := RJ in
  let '(g, rr) := makeGivens (R i (Datatypes.S i)) (R (Datatypes.S i) (Datatypes.S i)) in
  let R' := fun a b =>
    if b =? i then (if a <? i then R a (Datatypes.S i) else if a =? i then rr else R a b)
    else if (i + 2 <=? b) && (b <=? q) then
      (if a =? i then (gc g * R i b - gs g * R (Datatypes.S i) b)%ops
       else if a =? Datatypes.S i then (gs g * R i b + gc g * R (Datatypes.S i) b)%ops
       else R a b)
    else R a b in
  (R', rot_cols J i g).
Fixpoint rem_loop (n q cnt i : nat) (RJ : mat * mat) : mat * mat :=
  match cnt with
  | O => RJ
  | Datatypes.S c =>
      let '(R', J') := rem_step q i RJ in
      rem_loop n q c (Datatypes.S i) (mm n R', mm n J')
  end.
Definition removeConstraint_ (s : sol) (l : nat) : res sol :=
  let n := s_n s in
  let q := nact (s_A s) in   (* already counts that the constraint was removed *)
  do J <- getM (s_J s) n n n;
  do R <- getM (s_R s) (q + 1)%nat (q + 1)%nat n;
  let '(R', J') := rem_loop n q (q - l)%nat l (R, J) in
  Ok (set_R (set_J s (wset (s_J s) (unview n n J' (w_buf (s_J s)))))
            (wset (s_R s) (unview n (q + 1)%nat R' (w_buf (s_R s))))).

(** DualSolver.cpp:235-242: [u] is a view of size q+1 *)
Definition removeConstraint (s : sol) (l : nat) : res sol :=
  let q := nact (s_A s) in
  guard (l <=? q) (
  let u := w_buf (s_u s) in
  let u' := vm (q + 1)%nat (fun i => if (l <=? i) && (i <? q) then u (i + 1)%nat else u i) in
  let s := set_u s (wset (s_u s) u') in
  do A <- as_deactivate (s_A s) l;
  removeConstraint_ (set_A s A) l).

(** ** Initialisation: GoldfarbIdnaniSolver.cpp:301-338 *)
Definition addInitialConstraint (pb : problem) (s : sol) (sc : selcstr) : res sol :=
  let n := s_n s in
  let q := nact (s_A s) in
  do x <- getV (s_x s) n;
  do z0 <- getV (s_z s) n;
  do u <- getV (s_u s) (q + 1)%nat;
  do r0 <- getV (s_r s) q;
  let s := set_u s (wset (s_u s) (upd u q (zero S))) in
  do s <- computeStep pb s sc;
  let z := w_buf (s_z s) in let r := w_buf (s_r s) in let u := w_buf (s_u s) in
  guard (isEq (sc_st sc)) (
  guard (cn_ok pb sc) (
  do t <- (if ltb S (eps14 S) (norm n z) then
             if status_eqb (sc_st sc) EQUALITY then
               let p := sc_idx sc in
               match p_bl pb p with
               | Some b => Ok ((b - dot [21; p]%nat n (fun i => p_C pb i p) x) / dot [22; p]%nat n (fun i => p_C pb i p) z)%ops
               | None => UB
               end
             else
               let k := (sc_idx sc - p_Ccols pb)%nat in
               guard (k <? n)
               (match p_xl pb k with Some b => Ok ((b - x k) / z k)%ops | None => UB end)
           else Ok (zero S));
  let x' := vm n (vhead n (fun i => x i + t * z i)%ops x) in
  do nz <- cn_dot pb sc n z;
  let f' := (s_f s + t * nz * (half S * t + u q))%ops in
  let u' := vm (q + 1)%nat (fun i => if i <? q then (u i - t * r i)%ops
                                 else if i =? q then (u q + t)%ops else u i) in
  let s := set_u (set_f (set_x s (wset (s_x s) x')) f') (wset (s_u s) u') in
  addConstraint s sc)).

Definition bounds_eq (a b : option T) : bool :=   (* [bl[i] == bu[i]]; -inf and +inf differ *)
  match a, b with Some x, Some y => eqb S x y | _, _ => false end.

(** GoldfarbIdnaniSolver.cpp:271-290 *)
Fixpoint init_cstr (pb : problem) (k : nat) (s : sol) : res sol :=
  match k with
  | O => Ok s
  | Datatypes.S i =>
      do s <- init_cstr pb i s;
      if bounds_eq (p_bl pb i) (p_bu pb i) then addInitialConstraint pb s (SC i EQUALITY) else Ok s
  end.
Fixpoint init_bnd (pb : problem) (k : nat) (s : sol) : res sol :=
  match k with
  | O => Ok s
  | Datatypes.S i =>
      do s <- init_bnd pb i s;
      if bounds_eq (p_xl pb i) (p_xu pb i)
      then addInitialConstraint pb s (SC (a_nc (s_A s) + i)%nat FIXED) else Ok s
  end.
Definition initActiveSet (pb : problem) (s : sol) : res sol :=
  do s <- init_cstr pb (a_nc (s_A s)) s;
  init_bnd pb (a_nb (s_A s)) s.

(** GoldfarbIdnaniSolver.cpp:56-86 *)
Definition gi_init (pb : problem) (o : options) (s : sol) : res (term_status * sol) :=
  let n := s_n s in
  let '(ret, L) := llt n (p_G pb) in
  let s := set_G s L in
  match ret with
  | Some _ => Ok (NON_POS_HESSIAN, s)
  | None =>
      do J0 <- getM (s_J s) n n n;
      let J := mm n (fun i j => bwd n n (tr L) (fun k => idm S k j) i) in
      let s := set_J s (wset (s_J s) (unview n n J (w_buf (s_J s)))) in
      do x0 <- getV (s_x s) n;
      let y := vm n (fwd n L (p_a pb)) in
      let w := vm n (bwd n n (tr L) y) in
      let x := vm n (vhead n (fun i => - w i)%ops x0) in
      let s := set_f (set_x s (wset (s_x s) x)) (half S * dot [23]%nat n (p_a pb) x)%ops in
      let s := set_A s (as_reset (s_A s)) in
      do s <- initActiveSet pb s;
      Ok (SUCCESS, s)
  end.

(** ** DualSolver::solve (DualSolver.cpp:91-168) *)

(** DualSolver.cpp:170-198: no case for OVERCONSTRAINED_PROBLEM and UNKNOWN *)
Definition terminate (o : options) (st : term_status) (s : sol) : res (term_status * sol) :=
  match st with
  | OVERCONSTRAINED_PROBLEM | UNKNOWN => if o_debug o then UB else Ok (st, s)
  | _ => Ok (st, s)
  end.

(** DualSolver.cpp:200-210 *)
Definition dual_init (init_ : problem -> options -> sol -> res (term_status * sol))
    (pb : problem) (o : options) (s : sol) : res (term_status * sol) :=
  let s := set_exp s true in
  let s := if o_warm o then s else set_A s (as_reset (s_A s)) in
  init_ pb o (set_it s 0).

(** Loop-carried data: solver state, [skipStep1], [sc] *)
Record lst := L { l_s : sol; l_skip : bool; l_sc : selcstr }.
Inductive iter_out := Continue (l : lst) | Stop (st : term_status) (s : sol).

(** Step 1 (lines 111-123) *)
Definition step1 (pb : problem) (l : lst) : res (option lst) :=
  if l_skip l then Ok (Some l)
  else
    do sc <- selectViolated pb (l_s l);
    match sc_st sc with
    | INACTIVE => Ok None
    | _ =>
        let s := l_s l in
        let q := nact (s_A s) in
        do r0 <- getV (s_r s) q;
        do u <- getV (s_u s) (q + 1)%nat;
        Ok (Some (L (set_u s (wset (s_u s) (upd u q (zero S)))) false sc))
    end.

(** lines 137-138 and 149-150: u.head(q) -= t*r; u[q] += t *)
Definition dual_step (q : nat) (t : T) (u r : vec) : vec :=
  vm (q + 1)%nat (fun i => if i <? q then (u i - t * r i)%ops else if i =? q then (u q + t)%ops else u i).

(** Step 2 (lines 125-166) *)
Definition step2 (pb : problem) (o : options) (l : lst) : res iter_out :=
  let s := l_s l in let sc := l_sc l in
  let n := s_n s in
  let q := nact (s_A s) in
  do s <- computeStep pb s sc;
  do tl <- computeStepLength pb o s sc;
  let '(t1, t2, lidx) := tl in
  let t := if ltb S t2 t1 then t2 else t1 in      (* std::min(t1,t2) *)
  if leb S (o_bigBnd o) t then Ok (Stop INFEASIBLE s)
  else if leb S (o_bigBnd o) t2 then
    let s := set_u s (wset (s_u s) (dual_step q t (w_buf (s_u s)) (w_buf (s_r s)))) in
    do s <- removeConstraint s lidx;
    do r0 <- getV (s_r s) (q - 1)%nat;
    do u0 <- getV (s_u s) q;
    Ok (Continue (L s true sc))
  else
    let x := w_buf (s_x s) in let z := w_buf (s_z s) in
    do nz <- cn_dot pb sc n z;
    let u := w_buf (s_u s) in
    let s := set_x s (wset (s_x s) (vm n (vhead n (fun i => x i + t * z i)%ops x))) in
    let s := set_f s (s_f s + t * nz * (half S * t + u q))%ops in
    let s := set_u s (wset (s_u s) (dual_step q t u (w_buf (s_r s)))) in
    if eqb S t t2 then
      do s <- addConstraint s sc;
      Ok (Continue (L s false sc))
    else
      do s <- removeConstraint s lidx;
      do r0 <- getV (s_r s) (q - 1)%nat;
      do u0 <- getV (s_u s) q;
      Ok (Continue (L s true sc)).

Definition iter (pb : problem) (o : options) (l : lst) : res iter_out :=
  do l1 <- step1 pb l;
  match l1 with
  | None => Ok (Stop SUCCESS (l_s l))
  | Some l1 => step2 pb o l1
  end.

(** [for(; it_ < maxIter; ++it_)]: [fuel] is [maxIter - it_]. *)
Fixpoint loop (pb : problem) (o : options) (fuel : nat) (l : lst) : res (term_status * sol) :=
  match fuel with
  | O => Ok (MAX_ITER_REACHED, l_s l)
  | Datatypes.S f =>
      do r <- iter pb o l;
      match r with
      | Stop st s => Ok (st, s)
      | Continue l' => loop pb o f (L (set_it (l_s l') (Datatypes.S (s_it (l_s l')))) (l_skip l') (l_sc l'))
      end
  end.

Definition dual_solve (init_ : problem -> options -> sol -> res (term_status * sol))
    (pb : problem) (o : options) (s : sol) : res (term_status * sol) :=
  do rs <- dual_init init_ pb o s;
  match rs with
  | (SUCCESS, s) =>
      do x <- getV (s_x s) (s_n s);
      do z <- getV (s_z s) (s_n s);
      do u <- getV (s_u s) (nact (s_A s));
      do rs <- loop pb o (o_maxIter o - s_it s)%nat (L s false (SC 0 INACTIVE));
      let '(st, s) := rs in terminate o st s
  | (st, s) => terminate o st s
  end.

(** GoldfarbIdnaniSolver::solve, GoldfarbIdnaniSolver.cpp:20-54 *)
Definition gi_solve (junk : vec) (pb : problem) (o : options) (s : sol) : res (term_status * sol) :=
  guard (sizes_ok pb) (
  let s := resize junk s (p_Grows pb) (p_Ccols pb) (0 <? p_xlsize pb) in
  dual_solve gi_init pb o s).

(** ** Accessors *)
(** DualSolver.cpp:33-36 *)
Definition solution (s : sol) : res (list T) :=
  do x <- getV (s_x s) (s_n s); Ok (map x (seq 0 (s_n s))).

(** DualSolver.cpp:38-68 *)
Fixpoint expand (A : aset) (r : vec) (k : nat) (u : vec) : res vec :=
  match k with
  | O => Ok u
  | Datatypes.S k' =>
      do u <- expand A r k' u;
      do i <- as_get A k';
      do st <- as_stat A i;
      Ok (upd u i (match st with UPPER | UPPER_BOUND => r k' | _ => - r k' end)%ops)
  end.
Definition multipliers (s : sol) : res (list T * sol) :=
  let m := nbAll (s_A s) in
  do s <- (if s_exp s then
      let s := set_exp s false in
      let q := nact (s_A s) in
      do r0 <- getV (s_r s) q;
      do u0 <- getV (s_u s) q;
      let r := vm q (vhead q u0 r0) in
      do u1 <- getV (s_u s) m;
      do u <- expand (s_A s) r q (fun _ => zero S);
      Ok (set_u (set_r s (wset (s_r s) r)) (wset (s_u s) (vm m u)))
    else Ok s);
  do u <- getV (s_u s) m;
  Ok (map u (seq 0 m), s).

(** DualSolver.cpp:70-84 *)
Definition objectiveValue (s : sol) : T := s_f s.
Definition iterations (s : sol) : nat := s_it s.
Definition activeSet (s : sol) : list status := a_status (s_A s).

End Solver.

Arguments Pb {S}. Arguments Opt {S}. Arguments St {S}. Arguments L {S}.
Arguments Continue {S}. Arguments Stop {S}.
Arguments p_G {S}. Arguments p_Grows {S}. Arguments p_Gcols {S}. Arguments p_a {S}. Arguments p_asize {S}.
Arguments p_C {S}. Arguments p_Crows {S}. Arguments p_Ccols {S}. Arguments p_bl {S}. Arguments p_blsize {S}.
Arguments p_bu {S}. Arguments p_busize {S}. Arguments p_xl {S}. Arguments p_xlsize {S}. Arguments p_xu {S}. Arguments p_xusize {S}.
Arguments o_maxIter {S}. Arguments o_bigBnd {S}. Arguments o_warm {S}. Arguments o_debug {S}.
Arguments s_it {S}. Arguments s_n {S}. Arguments s_A {S}. Arguments s_f {S}. Arguments s_x {S}. Arguments s_z {S}.
Arguments s_u {S}. Arguments s_r {S}. Arguments s_exp {S}. Arguments s_d {S}. Arguments s_J {S}. Arguments s_R {S}. Arguments s_G {S}.
Arguments l_s {S}. Arguments l_skip {S}. Arguments l_sc {S}.
Arguments set_it {S}. Arguments set_A {S}. Arguments set_f {S}. Arguments set_x {S}. Arguments set_z {S}.
Arguments set_u {S}. Arguments set_r {S}. Arguments set_exp {S}. Arguments set_d {S}. Arguments set_J {S}.
Arguments set_R {S}. Arguments set_G {S}. Arguments wset {S}. Arguments getV {S}. Arguments getM {S}.
Arguments sizes_ok {S}. Arguments resize_p {S}. Arguments resize_d {S}. Arguments resize {S}. Arguments resetActiveSet {S}.
Arguments cn_ok {S}. Arguments cn_preMt {S}. Arguments cn_dot {S}. Arguments below {S}. Arguments above {S}.
Arguments sel_one {S}. Arguments sel_cstr {S}. Arguments sel_bnd {S}. Arguments selectViolated {S}.
Arguments computeStep {S}. Arguments len1 {S}. Arguments len2 {S}. Arguments norm {S}. Arguments computeStepLength {S}.
Arguments add_loop {S}. Arguments addConstraint_ {S}. Arguments addConstraint {S}. Arguments rem_step {S}.
Arguments rem_loop {S}. Arguments removeConstraint_ {S}. Arguments removeConstraint {S}.
Arguments addInitialConstraint {S}. Arguments bounds_eq {S}. Arguments init_cstr {S}. Arguments init_bnd {S}.
Arguments initActiveSet {S}. Arguments gi_init {S}. Arguments terminate {S}. Arguments dual_init {S}.
Arguments step1 {S}. Arguments dual_step {S}. Arguments step2 {S}. Arguments iter {S}. Arguments loop {S}.
Arguments dual_solve {S}. Arguments gi_solve {S}. Arguments solution {S}. Arguments expand {S}. Arguments multipliers {S}.
Arguments objectiveValue {S}. Arguments iterations {S}. Arguments activeSet {S}.

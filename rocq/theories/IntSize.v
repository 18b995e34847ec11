(** Model of the [int] arithmetic behind the sizes of the dense solvers: Workspace
    (include/jrl-qp/internal/Workspace.h), DualSolver::resize / resize_p (src/DualSolver.cpp:18-25, 251-274) and
    GoldfarbIdnaniSolver::resize_ (src/GoldfarbIdnaniSolver.cpp:258-267).
    The other files model these sizes by natural numbers; here they are 32-bit two's complement integers.
    Only the sizes are modelled (no contents), for the members of the stable solver; the experimental solver
    adds three more vectors of size nbVar (src/experimental/GoldfarbIdnaniSolver.cpp:293-304). *)
From Coq Require Import ZArith Lia Bool.
From Verif Require Import Base ActiveSet Num Solver.
Local Open Scope Z_scope.

Definition int_max : Z := 2147483647.
Definition int_min : Z := -2147483648.
Definition fits_int (z : Z) : bool := (int_min <=? z) && (z <=? int_max).
(** two's complement reduction, what the usual compilers produce *)
Definition wrap (z : Z) : Z := (z + 2147483648) mod 4294967296 - 2147483648.

(** How an overflowing signed operation behaves: undefined (the C++ standard) or wrapping *)
Inductive mode := strict | wrapping.
Definition int_result (m : mode) (z : Z) : res Z :=
  match m with
  | strict => guard (fits_int z) (Ok z)
  | wrapping => Ok (wrap z)
  end.
Definition iadd (m : mode) (a b : Z) : res Z := int_result m (a + b).
Definition imul (m : mode) (a b : Z) : res Z := int_result m (a * b).

(** Workspace.h:38-46, resize(int size, bool fit = false); buffer_.size() is a 64-bit Eigen::Index.
    A negative size is never greater than the size of the buffer. *)
Definition iw_resize (buf size : Z) : Z := if buf <? size then size else buf.
(** Workspace.h:54-58, resize(rows, cols) *)
Definition iw_resize2 (m : mode) (buf rows cols : Z) : res Z := do p <- imul m rows cols; Ok (iw_resize buf p).
(** Workspace.h:118-122, the two assertions of asMatrix(rows, cols, ld) *)
Definition iw_view (m : mode) (buf rows cols ld : Z) : res bool := do p <- imul m ld cols; Ok ((p <=? buf) && (rows <=? ld)).

(** The sizes held by a solver object *)
Record isizes := IS { i_n : Z; i_x : Z; i_z : Z; i_u : Z; i_r : Z; i_d : Z; i_J : Z; i_R : Z; i_nc : Z; i_nb : Z }.
(** a default-constructed object (DualSolver.h:28, member initialisers) *)
Definition isizes_new : isizes := IS 0 0 0 0 0 0 0 0 0 0.

(** src/GoldfarbIdnaniSolver.cpp:258-267 *)
Definition iresize_d (m : mode) (s : isizes) (n : Z) : res isizes :=
  if n =? i_n s then Ok s
  else
    do J <- iw_resize2 m (i_J s) n n;
    do R <- iw_resize2 m (i_R s) n n;
    Ok (IS (i_n s) (i_x s) (i_z s) (i_u s) (i_r s) (iw_resize (i_d s) n) J R (i_nc s) (i_nb s)).
(** src/DualSolver.cpp:251-274; ActiveSet::nbAll() is the int sum nbCstr_ + nbBnd_ (ActiveSet.h:75-78) *)
Definition iresize_p (m : mode) (s : isizes) (n nc : Z) (useBounds : bool) : res isizes :=
  let s := if n =? i_n s then s
           else IS n (iw_resize (i_x s) n) (iw_resize (i_z s) n) (i_u s) (i_r s) (i_d s) (i_J s) (i_R s) (i_nc s) (i_nb s) in
  let nb := if useBounds then n else 0 in
  do t <- iadd m nc nb;
  do a <- iadd m (i_nc s) (i_nb s);
  let s := if t =? a then s
           else IS (i_n s) (i_x s) (i_z s) (iw_resize (i_u s) t) (iw_resize (i_r s) t) (i_d s) (i_J s) (i_R s) (i_nc s) (i_nb s) in
  Ok (if (nc =? i_nc s) && (nb =? i_nb s) then s
      else IS (i_n s) (i_x s) (i_z s) (i_u s) (i_r s) (i_d s) (i_J s) (i_R s) nc nb).
(** src/DualSolver.cpp:18-25 *)
Definition iresize (m : mode) (s : isizes) (n nc : Z) (useBounds : bool) : res isizes :=
  do s <- iresize_d m s n; iresize_p m s n nc useBounds.

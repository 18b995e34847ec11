(** Model of the small utilities: Workspace::changeLd
    (include/jrl-qp/internal/Workspace.h:56-85), the log filter
    (src/utils/Logger.cpp, include/jrl-qp/utils/Logger.h, SolverOptions.h) and
    the names of the termination statuses (src/utils/enumsIO.cpp). *)
From Coq Require Import List Arith NArith ZArith Lia Bool String.
From Verif Require Import Base.
Import ListNotations.

(** ** Workspace::changeLd *)
Section ChangeLd.
Context {X : Type}.

(** C's memmove of [n] elements inside one buffer: reads everything, then
    writes; an access outside of the buffer is UB. *)
Definition memmove (b : list X) (dst src n : nat) : res (list X) :=
  guard ((dst + n <=? List.length b) && (src + n <=? List.length b))
    (Ok (firstn dst b ++ firstn n (skipn src b) ++ skipn (dst + n) b)).

(** Workspace.h:69-71 and 78-80: [&buffer_[i*oldLd]], [&buffer_[i*newLd]]
    (Eigen's operator[] asserts the range), then memmove. *)
Definition move_col (rows oldLd newLd i : nat) (b : list X) : res (list X) :=
  guard ((i * oldLd <? List.length b) && (i * newLd <? List.length b)) (memmove b (i * newLd) (i * oldLd) rows).

(** Workspace.h:67-72: [for(int i = cols-1; i > 0; --i)], [k] = current value of [i] *)
Fixpoint grow_loop (rows oldLd newLd k : nat) (b : list X) : res (list X) :=
  match k with
  | O => Ok b
  | S k' => do b <- move_col rows oldLd newLd k b; grow_loop rows oldLd newLd k' b
  end.
(** Workspace.h:76-81: [for(int i = 1; i < cols; ++i)], the first [k] values of [i] *)
Fixpoint shrink_loop (rows oldLd newLd k : nat) (b : list X) : res (list X) :=
  match k with
  | O => Ok b
  | S k' => do b <- shrink_loop rows oldLd newLd k' b; move_col rows oldLd newLd k b
  end.
(** Workspace.h:62-85 *)
Definition changeLd (rows cols oldLd newLd : nat) (b : list X) : res (list X) :=
  if oldLd <? newLd then guard (cols * newLd <? List.length b) (grow_loop rows oldLd newLd (cols - 1) b)
  else if newLd <? oldLd then shrink_loop rows oldLd newLd (cols - 1) b
  else Ok b.
End ChangeLd.

(** ** Logger *)
Local Open Scope N_scope.
Definition all32 : N := 0xFFFFFFFF.
(** defs.h:22 *)
Definition noIterationFlag : N := 0x80000000.
(** Logger.h:71-74; a stream is a number *)
Record logger := Lg { lg_flags : N; lg_iter : Z; lg_name : string; lg_os : nat }.
(** Logger.cpp:7-14; [~flag] on 32 bits *)
Definition setFlag (l : logger) (flag : N) (add : bool) : logger :=
  Lg (if add then N.lor (lg_flags l) flag else N.land (lg_flags l) (N.lxor flag all32)) (lg_iter l) (lg_name l) (lg_os l).
(** Logger.cpp:16-20 *)
Definition setOutputStream (l : logger) (os : nat) : logger := Lg (lg_flags l) (lg_iter l) (lg_name l) os.
(** Where a message goes and under which Matlab variable (Logger.h:94-106) *)
Inductive target := PerIteration (name : string) (index : Z) | General (name : string) | Comment.
(** Logger.h:118-128: [log]; [None] is "no output" *)
Definition log (l : logger) (flag : N) : option (nat * target) :=
  if negb (N.land flag (lg_flags l) =? 0) then
    Some (lg_os l, if negb (N.land flag noIterationFlag =? 0) then General (lg_name l) else PerIteration (lg_name l) (lg_iter l + 1))
  else None.
(** Logger.h:112-115 *)
Definition comment (l : logger) (flag : N) : option (nat * target) :=
  if negb (N.land flag (lg_flags l) =? 0) then Some (lg_os l, Comment) else None.
(** Logger.cpp:22-26 *)
Definition startIter (l : logger) (i : Z) : logger * option (nat * target) :=
  let l := Lg (lg_flags l) i (lg_name l) (lg_os l) in (l, log l all32).
(** SolverOptions.h: the log fields of the options and their setters (lines 26-45, 83-88) *)
Record log_options := LO { lo_flags : N; lo_os : nat }.
Definition addLogFlag (o : log_options) (f : N) := LO (N.lor (lo_flags o) f) (lo_os o).
Definition removeLogFlag (o : log_options) (f : N) := LO (N.land (lo_flags o) (N.lxor f all32)) (lo_os o).
(** DualSolver.cpp:8-12: log_ with no flag, on the default stream (stream 0) *)
Definition log_new : logger := Lg 0 (-1) "log" 0.
(** DualSolver.cpp:26-31 *)
Definition set_options (l : logger) (o : log_options) : logger := setOutputStream (setFlag l (lo_flags o) true) (lo_os o).
Definition after_options (os : list log_options) : logger := fold_left set_options os log_new.

(** ** enumsIO.cpp:5-36: the text printed for a TerminationStatus given by its
    integer value (enums.h:29-40; any int can be cast to the enum).  [show_int]
    is the decimal form printed by [os << int]. *)
Local Open Scope string_scope.
Definition status_name (show_int : Z -> string) (s : Z) : string :=
  match s with
  | 0 => "success"
  | 1 => "inconsistent inputs"
  | 2 => "non positive hessian matrix"
  | 3 => "infeasible"
  | 4 => "maximum iteration reached"
  | 5 => "linear dependency detected"
  | 6 => "overconstrained problem"
  | _ => "unknown failure (" ++ show_int s ++ ")"
  end%Z.
Definition term_code (s : term_status) : Z :=
  match s with
  | SUCCESS => 0 | INCONSISTENT_INPUT => 1 | NON_POS_HESSIAN => 2 | INFEASIBLE => 3 | MAX_ITER_REACHED => 4
  | LINEAR_DEPENDENCY_DETECTED => 5 | OVERCONSTRAINED_PROBLEM => 6 | UNKNOWN => 7
  end%Z.

(** Model of the dynamic allocations made by the dense solvers for their own members (Workspace buffers and the two
    vectors of the active set), to state when solve() allocates: include/jrl-qp/internal/Workspace.h,
    src/DualSolver.cpp, src/GoldfarbIdnaniSolver.cpp, src/experimental/GoldfarbIdnaniSolver.cpp, src/internal/ActiveSet.cpp.
    Only the capacities and the number of allocations are modelled (with [ActiveSet.v] for the contents of the active
    set); temporaries of Eigen, of the logger and of the caller are not.  Sizes are natural numbers (IntSize.v has the
    [int] arithmetic).  [grow c w] is the capacity that std::vector chooses when [w] elements do not fit in [c]; the
    standard only says [w <= grow c w]. *)
From Coq Require Import List Arith ZArith Lia Bool.
From Verif Require Import Base ActiveSet.
Import ListNotations.

(** the members of a solver; the last three buffers only exist in the experimental solver *)
Record obj := Obj {
  o_n : nat; o_A : aset; o_status : nat; o_active : nat;
  o_x : nat; o_z : nat; o_u : nat; o_r : nat; o_d : nat; o_J : nat; o_R : nat; o_tmp : nat; o_h : nat; o_bact : nat;
  o_allocs : nat }.

(** Workspace.h:38-46, resize(size, fit = false): buffer_.resize allocates when the size changes *)
Definition ws_resize (buf size : nat) : nat := if buf <? size then size else buf.
Definition ws_alloc (buf size : nat) : nat := if buf <? size then 1 else 0.
(** std::vector: resize / reserve / push_back reaching [w] elements *)
Section Grow.
Variable grow : nat -> nat -> nat.
Definition v_fit (cap w : nat) : nat := if cap <? w then grow cap w else cap.
Definition v_alloc (cap w : nat) : nat := if cap <? w then 1 else 0.

(** GoldfarbIdnaniSolver.cpp:258-267 (stable: [e = false]), experimental/GoldfarbIdnaniSolver.cpp:293-304 ([e = true]) *)
Definition o_resize_ (e : bool) (o : obj) (n : nat) : obj :=
  if n =? o_n o then o
  else
    Obj (o_n o) (o_A o) (o_status o) (o_active o) (o_x o) (o_z o) (o_u o) (o_r o)
      (ws_resize (o_d o) n) (ws_resize (o_J o) (n * n)) (ws_resize (o_R o) (n * n))
      (if e then ws_resize (o_tmp o) n else o_tmp o) (if e then ws_resize (o_h o) n else o_h o) (if e then ws_resize (o_bact o) n else o_bact o)
      (o_allocs o + ws_alloc (o_d o) n + ws_alloc (o_J o) (n * n) + ws_alloc (o_R o) (n * n)
       + (if e then ws_alloc (o_tmp o) n + ws_alloc (o_h o) n + ws_alloc (o_bact o) n else 0)).
(** ActiveSet.cpp:31-43 *)
Definition o_asresize (o : obj) (nc nb : nat) : obj :=
  Obj (o_n o) (as_resize (o_A o) nc nb) (v_fit (o_status o) (nc + nb)) (v_fit (o_active o) (nc + nb))
    (o_x o) (o_z o) (o_u o) (o_r o) (o_d o) (o_J o) (o_R o) (o_tmp o) (o_h o) (o_bact o)
    (o_allocs o + v_alloc (o_status o) (nc + nb) + v_alloc (o_active o) (nc + nb)).
(** DualSolver.cpp:251-274 *)
Definition o_resize_p (o : obj) (n nc : nat) (useBounds : bool) : obj :=
  let o := if n =? o_n o then o
           else Obj n (o_A o) (o_status o) (o_active o) (ws_resize (o_x o) n) (ws_resize (o_z o) n) (o_u o) (o_r o) (o_d o) (o_J o) (o_R o) (o_tmp o) (o_h o) (o_bact o)
                  (o_allocs o + ws_alloc (o_x o) n + ws_alloc (o_z o) n) in
  let nb := if useBounds then n else 0 in
  let o := if nc + nb =? nbAll (o_A o) then o
           else Obj (o_n o) (o_A o) (o_status o) (o_active o) (o_x o) (o_z o) (ws_resize (o_u o) (nc + nb)) (ws_resize (o_r o) (nc + nb)) (o_d o) (o_J o) (o_R o) (o_tmp o) (o_h o) (o_bact o)
                  (o_allocs o + ws_alloc (o_u o) (nc + nb) + ws_alloc (o_r o) (nc + nb)) in
  if (nc =? a_nc (o_A o)) && (nb =? a_nb (o_A o)) then o else o_asresize o nc nb.
(** DualSolver.cpp:18-24 *)
Definition o_resize (e : bool) (o : obj) (n nc : nat) (useBounds : bool) : obj := o_resize_p (o_resize_ e o n) n nc useBounds.
(** Default constructors: DualSolver.cpp:7-11, GoldfarbIdnaniSolver.cpp:11, ActiveSet.cpp:7-15 (a default active set is resized to (0, 0)) *)
Definition o_new : obj := Obj 0 (as_new 0 0) 0 0 0 0 0 0 0 0 0 0 0 0 0.

(** What solve() does to these members: it calls resize once, at its beginning, then init and the iterations go through
    the operations of the active set.  ActiveSet.cpp:87-131 (activate: push_back), 132-168 (deactivate: erase), 45-58 (reset: clear). *)
Inductive event := Resize (n nc : nat) (useBounds : bool) | Activate (i : nat) (s : status) | Deactivate (k : nat) | Reset.
Definition with_A (o : obj) (A : aset) (active_cap allocs : nat) : obj :=
  Obj (o_n o) A (o_status o) active_cap (o_x o) (o_z o) (o_u o) (o_r o) (o_d o) (o_J o) (o_R o) (o_tmp o) (o_h o) (o_bact o) allocs.
Definition o_step (e : bool) (o : obj) (v : event) : res obj :=
  match v with
  | Resize n nc b => Ok (o_resize e o n nc b)
  | Activate i s =>
      do A <- as_activate (o_A o) i s;
      let w := S (length (a_active (o_A o))) in
      Ok (with_A o A (v_fit (o_active o) w) (o_allocs o + v_alloc (o_active o) w))
  | Deactivate k => do A <- as_deactivate (o_A o) k; Ok (with_A o A (o_active o) (o_allocs o))
  | Reset => Ok (with_A o (as_reset (o_A o)) (o_active o) (o_allocs o))
  end.
Fixpoint o_run (e : bool) (o : obj) (l : list event) : res obj :=
  match l with
  | [] => Ok o
  | v :: l => do o <- o_step e o v; o_run e o l
  end.
End Grow.

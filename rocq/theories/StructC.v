(** Model of the block-diagonal constraint matrices
    (include/jrl-qp/structured/StructuredC.h, src/structured/StructuredC.cpp),
    generic over the scalar operations.  C++ ints are [nat]; failed asserts and
    accesses out of range are [UB]; the MatrixConstRef blocks are values. *)
From Coq Require Import List Arith ZArith Lia Bool.
From Verif Require Import Base Num Solver Block Ortho.
Import ListNotations.

Section StructC.
Variable S : ops.
Notation T := (carrier S).
Notation vec := (vec S).
Notation blk := (blk S).

(** StructuredC.h:46-53 (type_ is always Diagonal) *)
Record structC := StC { c_diag : list blk; c_cumVar : list nat; c_cumCstr : list nat; c_toBlock : list nat; c_nbVar : nat; c_nbCstr : nat }.

(** StructuredC.cpp:11-21: the loop of the constructor; [push_back] appends *)
Fixpoint stc_loop (C : list blk) (s : structC) : structC :=
  match C with
  | [] => s
  | Ci :: C' =>
      stc_loop C' (StC (c_diag s ++ [Ci]) (c_cumVar s ++ [c_nbVar s]) (c_cumCstr s ++ [c_nbCstr s])
                       (c_toBlock s ++ repeat (length (c_diag s)) (bcol Ci))
                       (c_nbVar s + brow Ci) (c_nbCstr s + bcol Ci))
  end.
(** StructuredC.cpp:9-24 *)
Definition stc_new (C : list blk) : structC :=
  let s := stc_loop C (StC [] [] [] [] 0 0) in
  StC (c_diag s) (c_cumVar s ++ [c_nbVar s]) (c_cumCstr s ++ [c_nbCstr s]) (c_toBlock s) (c_nbVar s) (c_nbCstr s).

Definition at_ {X} (l : list X) (i : nat) : res X := match nth_error l i with Some x => Ok x | None => UB end.
(** StructuredC.cpp:59-64: Eigen asserts that the column exists *)
Definition stc_col (C : structC) (i : nat) : res (snz S) :=
  guard (i <? c_nbCstr C) (
  do bi <- at_ (c_toBlock C) i;
  do D <- at_ (c_diag C) bi;
  do c0 <- at_ (c_cumCstr C) bi;
  do v0 <- at_ (c_cumVar C) bi;
  guard ((c0 <=? i) && (i - c0 <? bcol D)) (snz_new (brow D) (fun k => bm D k (i - c0)) v0 (c_nbVar C))).
(** StructuredC.cpp:72-76 from the block [i] on, [out] of size [osize], [inp] of size [isize] *)
Fixpoint tmult_loop (ds : list blk) (i : nat) (C : structC) (osize : nat) (out : vec) (isize : nat) (inp : vec) : res vec :=
  match ds with
  | [] => Ok out
  | D :: ds' =>
      do c0 <- at_ (c_cumCstr C) i;
      do v0 <- at_ (c_cumVar C) i;
      guard ((c0 + bcol D <=? osize) && (v0 + brow D <=? isize)) (
      tmult_loop ds' (i + 1) C osize
        (vm osize (fun k => if (c0 <=? k) && (k <? c0 + bcol D)
                            then sumn [50; c0; k]%nat (brow D) (fun t => mul S (bm D t (k - c0)) (inp (v0 + t))) else out k)) isize inp)
  end.
(** StructuredC.cpp:66-77 *)
Definition stc_transposeMult (C : structC) (osize : nat) (out : vec) (isize : nat) (inp : vec) : res vec :=
  guard ((isize =? c_nbVar C) && (osize =? c_nbCstr C)) (tmult_loop (c_diag C) 0 C osize out isize inp).
End StructC.
Arguments StC {S}. Arguments c_diag {S}. Arguments c_cumVar {S}. Arguments c_cumCstr {S}. Arguments c_toBlock {S}. Arguments c_nbVar {S}. Arguments c_nbCstr {S}.
Arguments stc_loop {S}. Arguments stc_new {S}. Arguments stc_col {S}. Arguments tmult_loop {S}. Arguments stc_transposeMult {S}.

(** Specification of the block matrices: what a list of blocks stands for. *)
From Coq Require Import List Arith ZArith Lia Bool Reals Lra.
From Verif Require Import Base Num LinAlg Block BlockElim.
Import ListNotations.
Local Open Scope R_scope.
Notation rblk := (blk Rops).

Fixpoint total {S : ops} (ds : list (blk S)) : nat := match ds with [] => 0%nat | D :: ds => (brow D + total ds)%nat end.

(** ** Block tridiagonal: consistent sizes, and the lower half of the matrix
<<
    D  .  .
    B  D1 .
    0  B1 D2 ...
>> *)
Fixpoint tri_sizes {S : ops} (D : blk S) (ds ss : list (blk S)) : Prop :=
  brow D = bcol D /\
  match ss, ds with
  | [], [] => True
  | B :: ss', D1 :: ds' => brow B = brow D1 /\ bcol B = brow D /\ tri_sizes D1 ds' ss'
  | _, _ => False
  end.
(** [K] extended by rows of zeros below its [r] rows *)
Definition pad_below (r : nat) (K : rmat) : rmat := fun i j => if (i <? r)%nat then K i j else 0.
Fixpoint tri_low (D : rblk) (ds ss : list rblk) : rmat :=
  match ss, ds with
  | B :: ss', D1 :: ds' => blk2 (brow D) (bm D) (pad_below (brow B) (bm B)) (tri_low D1 ds' ss')
  | _, _ => bm D
  end.

(** ** Arrow (pointing down): blocks D_1 .. D_{b-1} on the diagonal, B_1 .. B_{b-1} D_b below
<<
    D1 .  .
    0  D2 .
    B1 B2 Db
>> *)
Fixpoint arrow_sizes {S : ops} (ds bs : list (blk S)) (Db : blk S) : Prop :=
  match ds, bs with
  | [], [] => brow Db = bcol Db
  | D :: ds', B :: bs' => brow D = bcol D /\ brow B = brow Db /\ bcol B = brow D /\ arrow_sizes ds' bs' Db
  | _, _ => False
  end.
(** [K] preceded by [r] rows of zeros *)
Definition pad_above (r : nat) (K : rmat) : rmat := fun i j => if (i <? r)%nat then 0 else K (i - r)%nat j.
Fixpoint arrow_low (ds bs : list rblk) (Db : rblk) : rmat :=
  match ds, bs with
  | D :: ds', B :: bs' => blk2 (brow D) (bm D) (pad_above (total ds') (bm B)) (arrow_low ds' bs' Db)
  | _, _ => bm Db
  end.

(** A block whose stored factor starts with a positive pivot *)
Definition head_pos (D : rblk) : Prop := brow D = 0%nat \/ 0 < bm D 0%nat 0%nat.
(** same sizes, same entries strictly above the diagonal *)
Definition same_upper (D D' : rblk) : Prop := brow D' = brow D /\ bcol D' = bcol D /\ forall i j, (i < j)%nat -> bm D' i j = bm D i j.
(** [Lm] is a Cholesky factor of the symmetric matrix with lower half [M] (size [n]):
    the lower half of [Lm] has positive diagonal, and L L^T = M *)
Definition cholesky_factor (n : nat) (M Lm : rmat) : Prop :=
  (forall i, (i < n)%nat -> 0 < Lm i i) /\
  (forall i j, (i < n)%nat -> (j < n)%nat -> rsum n (fun t => lower Lm i t * lower Lm j t) = gsym M i j).

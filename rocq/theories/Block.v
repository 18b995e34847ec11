(** Model of the block Cholesky factorisations and triangular solves
    (src/decomposition/triBlockDiagLLT.cpp, src/decomposition/blockArrowLLT.cpp).

    A [MatrixRef] is a block with its sizes; the blocks of a call are assumed not
    to overlap in memory.  Eigen's blocked kernels are modelled by the unblocked,
    mathematically equal ones.  [int start] is assumed non negative and [end < 0]
    is the absence of hint ([None]).  Failed asserts and accesses out of range
    (jrl-qp's and Eigen's) are [UB]. *)
From Coq Require Import List Arith ZArith Lia Bool.
From Verif Require Import Base Num.
Import ListNotations.

Section Block.
Variable S : ops.
Notation T := (carrier S).
Notation vec := (vec S).
Notation mat := (mat S).
Notation "x + y" := (add S x y) : ops_scope.
Notation "x - y" := (sub S x y) : ops_scope.
Notation "x * y" := (mul S x y) : ops_scope.

Record blk := Bk { brow : nat; bcol : nat; bm : mat }.

(** Eigen/src/Cholesky/LLT.h: the return code of llt_inplace::blocked, -1 or the index of the failing pivot *)
Definition eigen_ret (r : option nat) : Z := match r with None => -1 | Some k => Z.of_nat k end%Z.
(** triBlockDiagLLT.cpp:18-19, 31; blockArrowLLT.cpp:63-64, 77 (LLT.h asserts a square matrix) *)
Definition blk_llt (D : blk) : res (Z * blk) :=
  guard (brow D =? bcol D)
    (let r := llt (brow D) (bm D) in Ok (eigen_ret (fst r), Bk (brow D) (bcol D) (snd r))).
(** triBlockDiagLLT.cpp:22-23, blockArrowLLT.cpp:71: X = X L^-T in place (L^T is
    upper triangular, on the right: one forward substitution per row) *)
Definition solve_right (L X : blk) : res blk :=
  guard ((brow L =? bcol L) && (bcol L =? bcol X))
    (Ok (Bk (brow X) (bcol X) (fun i => fwd (bcol X) (bm L) (bm X i)))).
(** blockArrowLLT.cpp:69: X = L^-1 X in place *)
Definition solve_left (L X : blk) : res blk :=
  guard ((brow L =? bcol L) && (bcol L =? brow X))
    (Ok (Bk (brow X) (bcol X) (fun i j => fwd (brow X) (bm L) (fun k => bm X k j) i))).
Definition tblk (X : blk) : blk := Bk (bcol X) (brow X) (fun i j => bm X j i).
(** triBlockDiagLLT.cpp:26-27, blockArrowLLT.cpp:74: D.selfadjointView<Lower>().rankUpdate(B, -1.) *)
Definition rank_update (D B : blk) : res blk :=
  guard ((brow D =? bcol D) && (brow B =? brow D))
    (Ok (Bk (brow D) (bcol D) (fun i j =>
       if j <=? i then (subn [40; i; j]%nat (bcol B) (bm D i j) (fun k => bm B i k * bm B j k))%ops else bm D i j))).

(** ** triBlockDiagLLT.cpp:8-35 *)
(** lines 13-34 from the block [D] on; the test [ret > 0] is the one of the code *)
Fixpoint tri_llt_loop (D : blk) (ds ss : list blk) : res (bool * list blk * list blk) :=
  match ss, ds with
  | [], [] =>
      do r <- blk_llt D;
      Ok (negb (0 <? fst r)%Z, [snd r], [])
  | B :: ss', D1 :: ds' =>
      do r <- blk_llt D;
      if (0 <? fst r)%Z then Ok (false, snd r :: ds, ss)
      else
        do B' <- solve_right (snd r) B;
        do D1' <- rank_update D1 B';
        do t <- tri_llt_loop D1' ds' ss';
        let '(ok, dl, bl) := t in Ok (ok, snd r :: dl, B' :: bl)
  | _, _ => UB
  end.
Definition triBlockDiagLLT (diag subDiag : list blk) : res (bool * list blk * list blk) :=
  guard (length diag =? length subDiag + 1)%nat
    (match diag with D :: ds => tri_llt_loop D ds subDiag | [] => UB end).

(** ** blockArrowLLT.cpp:51-88 *)
(** [get<Up>::B] (lines 27-48) *)
Definition get_B (up : bool) (X : blk) : blk := if up then tblk X else X.
(** lines 59-79; [ds] are D(0) .. D(b-2), [Db] is D(b-1) *)
Fixpoint arrow_llt_loop (up : bool) (ds ss : list blk) (Db : blk) : res (bool * list blk * list blk * blk) :=
  match ss, ds with
  | [], [] => do r <- blk_llt Db; Ok (fst r <=? 0, [], [], snd r)%Z
  | X :: ss', D :: ds' =>
      do r <- blk_llt D;
      if (0 <? fst r)%Z then Ok (false, snd r :: ds', ss, Db)
      else
        do X' <- (if up then solve_left (snd r) X else solve_right (snd r) X);
        do Db' <- rank_update Db (get_B up X');
        do t <- arrow_llt_loop up ds' ss' Db';
        let '(ok, dl, bl, db) := t in Ok (ok, snd r :: dl, X' :: bl, db)
  | _, _ => UB
  end.
(** [get<Up>::D]: the blocks D(0) .. D(b-2) and D(b-1) *)
Definition arrow_split (up : bool) (diag : list blk) : option (list blk * blk) :=
  match diag with
  | [] => None
  | D :: ds => Some (if up then (ds, D) else (removelast diag, last diag D))
  end.
Definition arrow_join (up : bool) (ds : list blk) (Db : blk) : list blk := if up then Db :: ds else ds ++ [Db].
Definition blockArrowLLT (diag side : list blk) (up : bool) : res (bool * list blk * list blk) :=
  guard (length diag =? length side + 1)%nat
    (match arrow_split up diag with
     | None => UB
     | Some (ds, Db) =>
         do t <- arrow_llt_loop up ds side Db;
         let '(ok, dl, bl, db) := t in Ok (ok, arrow_join up dl db, bl)
     end).

(** ** Elementary operations on the rows of the right-hand side *)
(** L.bottomRightCorner(r,r) with r = rows - s, resp. L.topLeftCorner(r,r) *)
Definition shift (s : nat) (L : mat) : mat := fun i j => L (s + i)%nat (s + j)%nat.
(** M.middleRows(a, r) <- L^-1 M.middleRows(a, r) *)
Definition rows_solve (a r : nat) (L : mat) (M : blk) : res blk :=
  guard (a + r <=? brow M)
    (Ok (Bk (brow M) (bcol M) (fun i j =>
       if (a <=? i) && (i <? a + r) then fwd r L (fun k => bm M (a + k)%nat j) (i - a) else bm M i j))).
(** M.middleRows(a, r) <- L^-T M.middleRows(a, r) *)
Definition rows_solve_t (a r : nat) (L : mat) (M : blk) : res blk :=
  guard (a + r <=? brow M)
    (Ok (Bk (brow M) (bcol M) (fun i j =>
       if (a <=? i) && (i <? a + r) then bwd r r (tr L) (fun k => bm M (a + k)%nat j) (i - a) else bm M i j))).
(** M.middleRows(a, r) -= B * M.middleRows(l, k), with B of size r x k *)
Definition rows_sub (a : nat) (r : nat) (B : mat) (l k : nat) (M : blk) : res blk :=
  guard ((a + r <=? brow M) && (l + k <=? brow M))
    (Ok (Bk (brow M) (bcol M) (fun i j =>
       if (a <=? i) && (i <? a + r) then (subn [41; i; j]%nat k (bm M i j) (fun t => B (i - a)%nat t * bm M (l + t)%nat j))%ops else bm M i j))).

(** ** triBlockDiagLLT.cpp:37-92: the loop on the blocks [ds], [prev] is
    subDiag[i-1] and [ss] the following ones *)
Fixpoint tri_lsolve_loop (start : nat) (ds : list blk) (prev : option blk) (ss : list blk) (n l li : nat) (zero : bool) (M : blk) : res blk :=
  match ds with
  | [] => guard (n =? brow M) (Ok M)
  | D :: ds' =>
      guard (brow D =? bcol D) (
      let ni := brow D in
      do r <- (if start <=? n + ni then
                 if zero then
                   let r := (n + ni - start)%nat in
                   guard (r <=? ni) (do M <- rows_solve start r (shift (ni - r) (bm D)) M; Ok (M, false))
                 else match prev with
                      | None => UB
                      | Some B => guard ((brow B =? ni) && (bcol B =? li))
                          (do M <- rows_sub n ni (bm B) l li M; do M <- rows_solve n ni (bm D) M; Ok (M, false))
                      end
               else Ok (M, zero));
      tri_lsolve_loop start ds' (hd_error ss) (tl ss) (n + ni) n ni (snd r) (fst r))
  end.
Definition triBlockDiagLSolve (diag subDiag : list blk) (M : blk) (start : nat) : res blk :=
  guard (length diag =? length subDiag + 1)%nat (tri_lsolve_loop start diag None subDiag 0 0 0 true M).

(** ** triBlockDiagLLT.cpp:94-158: the blocks from the last to the first ([ds] is
    reversed); [prev] is subDiag[i], [n] the first row after block [i].  The
    guard [ni <= n] is implied by the final assert [n == 0] (n only decreases). *)
Fixpoint tri_ltsolve_loop (end_ : nat) (ds : list blk) (prev : option blk) (ss : list blk) (n l li : nat) (zero : bool) (M : blk) : res blk :=
  match ds with
  | [] => guard (n =? 0) (Ok M)
  | D :: ds' =>
      guard ((brow D =? bcol D) && (brow D <=? n)) (
      let ni := brow D in
      do r <- (if n - ni <? end_ then
                 if zero then
                   let r := (end_ + ni - n)%nat in
                   guard (r <=? ni) (do M <- rows_solve_t (n - ni) r (bm D) M; Ok (M, false))
                 else match prev with
                      | None => UB
                      | Some B => guard ((bcol B =? ni) && (brow B =? li))
                          (do M <- rows_sub (n - ni) ni (fun i k => bm B k i) (l - li) li M; do M <- rows_solve_t (n - ni) ni (bm D) M; Ok (M, false))
                      end
               else Ok (M, zero));
      tri_ltsolve_loop end_ ds' (hd_error ss) (tl ss) (n - ni) n ni (snd r) (fst r))
  end.
Definition triBlockDiagLTransposeSolve (diag subDiag : list blk) (M : blk) (end_ : option nat) : res blk :=
  let e := match end_ with Some e => e | None => brow M end in
  tri_ltsolve_loop e (rev diag) None (rev subDiag) (brow M) 0 0 true M.

(** ** blockArrowLLT.cpp:90-148.  [isz] stands for the test of the assert
    [isZero()] on one coefficient.  [nlast] is [diag.back().rows()], which the
    code uses for both orientations (line 138). *)
Variable isz : T -> bool.
Definition rows_zero (a r : nat) (M : blk) : bool :=
  forallb (fun i => forallb (fun j => isz (bm M (a + i)%nat j)) (seq 0 (bcol M))) (seq 0 r).
Fixpoint arrow_lsolve_loop (up : bool) (start end_ nlast : nat) (ds ss : list blk) (n : nat) (M : blk) : res (nat * blk) :=
  match ds, ss with
  | [], [] => Ok (n, M)
  | D :: ds', X :: ss' =>
      guard (brow D =? bcol D) (
      let ni := brow D in
      let s := (start - n)%nat in
      do M <- (if (ni <? s) || (end_ <=? n) then
                 guard (n + ni <=? brow M) (guard (rows_zero n ni M) (Ok M))
               else
                 do M <- rows_solve (n + s) (ni - s) (shift s (bm D)) M;
                 let B := get_B up X in
                 guard ((nlast <=? brow M) && (brow B =? nlast) && (s + (ni - s) <=? bcol B))
                   (rows_sub (brow M - nlast) nlast (fun i k => bm B i (s + k)%nat) (n + s) (ni - s) M));
      arrow_lsolve_loop up start end_ nlast ds' ss' (n + ni) M)
  | _, _ => UB
  end.
Definition arrow_lsolve_ (up : bool) (diag side : list blk) (M : blk) (start end_ : nat) : res blk :=
  guard (length diag =? length side + 1)%nat
    (match arrow_split up diag with
     | None => UB
     | Some (ds, Db) =>
         do t <- arrow_lsolve_loop up start end_ (brow (last diag Db)) ds side 0 M;
         guard (brow Db =? bcol Db) (rows_solve (fst t) (brow Db) (bm Db) (snd t))
     end).
(** blockArrowLLT.cpp:150-173 *)
Definition rotate_up (n0 : nat) (v : blk) : blk :=   (* the first n0 rows go to the bottom *)
  Bk (brow v) (bcol v) (fun i j => if i <? brow v - n0 then bm v (n0 + i)%nat j else bm v (i - (brow v - n0))%nat j).
Definition rotate_down (n0 : nat) (v : blk) : blk :=   (* the last n0 rows go to the top *)
  Bk (brow v) (bcol v) (fun i j => if i <? n0 then bm v (brow v - n0 + i)%nat j else bm v (i - n0)%nat j).
Definition blockArrowLSolve (diag side : list blk) (up : bool) (v : blk) (start : nat) (end_ : option nat) : res blk :=
  let e := match end_ with Some e => e | None => brow v end in
  if up then
    match diag with
    | [] => UB
    | D :: _ => guard (brow D <=? brow v) (arrow_lsolve_ true diag side (rotate_up (brow D) v) (start - brow D) (e - brow D))
    end
  else arrow_lsolve_ false diag side v start e.

(** ** blockArrowLLT.cpp:175-253 *)
Fixpoint arrow_ltsolve_loop (up : bool) (start end_ : nat) (zero : bool) (nb : nat) (ds ss : list blk) (n : nat) (M : blk) : res blk :=
  match ds with
  | [] => Ok M
  | D :: ds' =>
      match ss with
      | [] => UB
      | X :: ss' =>
      guard ((brow D =? bcol D) && (n + brow D <=? brow M)) (
      let ni := brow D in
      if zero && (n + ni <=? start) then arrow_ltsolve_loop up start end_ zero nb ds' ss' (n + ni) M
      else
        do M <- (if zero then Ok M
                 else let B := get_B up X in
                   guard ((bcol B =? ni) && (brow B =? nb)) (rows_sub n ni (fun i k => bm B k i) (brow M - nb) nb M));
        do M <- (if n <=? end_ then
                   if n + ni <=? end_ then rows_solve_t n ni (bm D) M
                   else guard zero (rows_solve_t n (end_ - n) (bm D) M)
                 else Ok M);
        arrow_ltsolve_loop up start end_ zero nb ds' ss' (n + ni) M)
      end
  end.
Definition arrow_ltsolve_ (up : bool) (diag side : list blk) (M : blk) (start end_ : nat) : res blk :=
  match arrow_split up diag with
  | None => UB
  | Some (ds, Db) =>
      let nb := brow Db in
      let s := brow M in
      guard ((nb <=? s) && (brow Db =? bcol Db)) (
      do t <- (if s - nb <? end_ then
                 let r := (end_ + nb - s)%nat in
                 guard (r <=? nb) (do M <- rows_solve_t (s - nb) r (bm Db) M; Ok (M, false))
               else Ok (M, true));
      arrow_ltsolve_loop up start end_ (snd t) nb ds side 0 (fst t))
  end.
(** blockArrowLLT.cpp:255-277 *)
Definition blockArrowLTransposeSolve (diag side : list blk) (up : bool) (v : blk) (start : nat) (end_ : option nat) : res blk :=
  let e := match end_ with Some e => e | None => brow v end in
  if up then
    do v <- arrow_ltsolve_ true diag side v start e;
    match diag with
    | [] => UB
    | D :: _ => guard (brow D <=? brow v) (Ok (rotate_down (brow D) v))
    end
  else arrow_ltsolve_ false diag side v start e.
End Block.
Arguments Bk {S}. Arguments brow {S}. Arguments bcol {S}. Arguments bm {S}.
Arguments blk_llt {S}. Arguments solve_right {S}. Arguments solve_left {S}. Arguments rank_update {S}. Arguments tblk {S}. Arguments get_B {S}.
Arguments tri_llt_loop {S}. Arguments triBlockDiagLLT {S}. Arguments arrow_llt_loop {S}. Arguments arrow_split {S}. Arguments arrow_join {S}. Arguments blockArrowLLT {S}.
Arguments shift {S}. Arguments rows_solve {S}. Arguments rows_solve_t {S}. Arguments rows_sub {S}. Arguments rows_zero {S}.
Arguments tri_lsolve_loop {S}. Arguments triBlockDiagLSolve {S}. Arguments tri_ltsolve_loop {S}. Arguments triBlockDiagLTransposeSolve {S}.
Arguments arrow_lsolve_loop {S}. Arguments arrow_lsolve_ {S}. Arguments rotate_up {S}. Arguments rotate_down {S}. Arguments blockArrowLSolve {S}.
Arguments arrow_ltsolve_loop {S}. Arguments arrow_ltsolve_ {S}. Arguments blockArrowLTransposeSolve {S}.

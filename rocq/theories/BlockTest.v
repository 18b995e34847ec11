(** Model of the problem builders of the tests of the block Cholesky decompositions and of the block solver
    (tests/BlockGISolverTest.in.cpp, tests/triBlockDiagLLTTest.cpp, tests/blockArrowLLTTest.cpp), over the reals.
    The k-th call of setRandom writes the values [d k], whatever they are.  Where the tests use the fixed block
    sizes {3, 5, 2, 3}, the model has a list of sizes. *)
From Coq Require Import List Arith Lia Bool Reals.
From Verif Require Import Base Num LinAlg Block StructC StructG.
Import ListNotations.
Local Open Scope R_scope.

(** first row of block [k] *)
Definition start (ns : list nat) (k : nat) : nat := list_sum (firstn k ns).
Definition in_block (r c nr nc i j : nat) : bool := (r <=? i)%nat && (i <? r + nr)%nat && (c <=? j)%nat && (j <? c + nc)%nat.
(** [B.block(r, c, nr, nc) = X] on a matrix with [rows] rows and [cols] columns: Eigen asserts that the block is inside *)
Definition put (B : rmat) (r c nr nc : nat) (X : rmat) : rmat := fun i j => if in_block r c nr nc i j then X (i - r)%nat (j - c)%nat else B i j.
Definition set_block (rows cols : nat) (B : rmat) (r c nr nc : nat) (X : rmat) : res rmat :=
  guard ((r + nr <=? rows)%nat && (c + nc <=? cols)%nat) (Ok (put B r c nr nc X)).

(** BlockGISolverTest.in.cpp:29-46 (same text in triBlockDiagLLTTest.cpp:16-33).  [ns] is what remains of the vector from
    index [i] on.  With an empty vector n.size() - 1 wraps and n[0] is read: undefined. *)
Fixpoint bi_loop (s : nat) (d : nat -> rmat) (i k : nat) (ns : list nat) (B : rmat) : res rmat :=
  match ns with
  | ni :: ((n1 :: _) as r) =>
      do B <- set_block s s B k k ni ni (d (2 * i)%nat);
      do B <- set_block s s B (k + ni) k n1 ni (d (2 * i + 1)%nat);
      bi_loop s d (S i) (k + ni) r B
  | _ => Ok B
  end.
Definition biBlockDiagRandom (ns : list nat) (d : nat -> rmat) : res rmat :=
  match ns with
  | [] => UB
  | _ =>
      let s := list_sum ns in
      do B <- bi_loop s d 0 0 ns (fun _ _ => 0);
      let nb := last ns 0%nat in
      set_block s s B (s - nb) (s - nb) nb nb (d (2 * (length ns - 1))%nat)
  end.

(** BlockGISolverTest.in.cpp:48-68 (same text in blockArrowLLTTest.cpp:17-37); n.back() of an empty vector is undefined *)
Fixpoint col_loop (s n0 nb : nat) (first : bool) (d : nat -> rmat) (i k : nat) (ns : list nat) (B : rmat) : res rmat :=
  match ns with
  | [] => Ok B
  | ni :: r =>
      do B <- set_block s s B k k ni ni (d (2 * i)%nat);
      do B <- (if first then set_block s s B k 0 ni n0 (d (2 * i + 1)%nat) else set_block s s B k (s - nb) ni nb (d (2 * i + 1)%nat));
      col_loop s n0 nb first d (S i) (k + ni) r B
  end.
Definition blockDiagAndOneColDiagRandom (ns : list nat) (first : bool) (d : nat -> rmat) : res rmat :=
  match ns with
  | [] => UB
  | n0 :: _ =>
      let s := list_sum ns in let nb := last ns 0%nat in
      do B <- col_loop s n0 nb first d 0 0 ns (fun _ _ => 0);
      set_block s s B (s - nb) (s - nb) nb nb (d (2 * length ns)%nat)
  end.

(** [A * A.transpose()] and [A.transpose() * A] *)
Definition mul_At (n : nat) (A : rmat) : rmat := fun i j => rsum n (fun t => A i t * A j t).
Definition mul_tA (n : nat) (A : rmat) : rmat := fun i j => rsum n (fun t => A t i * A t j).

(** The references packed into vectors: BlockGISolverTest.in.cpp:78-80, 129-131, 209-219, 287-299 *)
Definition block_at (H : rmat) (r c nr nc : nat) : blk Rops := Bk nr nc (fun i j => H (r + i)%nat (c + j)%nat).
Definition pack_diag (ns : list nat) (H : rmat) : list (blk Rops) :=
  map (fun k => block_at H (start ns k) (start ns k) (nth k ns 0) (nth k ns 0))%nat (seq 0 (length ns)).
Definition pack_sub (ns : list nat) (H : rmat) : list (blk Rops) :=
  map (fun k => block_at H (start ns (k + 1)) (start ns k) (nth (k + 1) ns 0) (nth k ns 0))%nat (seq 0 (length ns - 1)).
(** the first column of blocks (arrow pointing up), or the last row of blocks *)
Definition pack_side (up : bool) (ns : list nat) (H : rmat) : list (blk Rops) :=
  let l := (length ns - 1)%nat in
  map (fun k => if up then block_at H (start ns (k + 1)) 0 (nth (k + 1) ns 0) (nth 0 ns 0)
                else block_at H (start ns l) (start ns k) (nth l ns 0) (nth k ns 0))%nat (seq 0 (length ns - 1)).

(** The references alias the matrix: what the matrix holds once the blocks have been overwritten *)
Definition place : Type := (nat * nat * blk Rops)%type.
Definition write_back (H : rmat) (l : list place) : rmat := fold_left (fun H p => let '(r, c, b) := p in put H r c (brow b) (bcol b) (bm b)) l H.
Definition diag_places (ns : list nat) (dl : list (blk Rops)) : list place := map (fun k => (start ns k, start ns k, nth k dl (Bk 0 0 (fun _ _ => 0)))) (seq 0 (length dl)).
Definition sub_places (ns : list nat) (sl : list (blk Rops)) : list place := map (fun k => (start ns (k + 1), start ns k, nth k sl (Bk 0 0 (fun _ _ => 0)))) (seq 0 (length sl)).
Definition side_places (up : bool) (ns : list nat) (sl : list (blk Rops)) : list place :=
  map (fun k => if up then (start ns (k + 1), 0%nat, nth k sl (Bk 0 0 (fun _ _ => 0)))
                else (start ns (length ns - 1), start ns k, nth k sl (Bk 0 0 (fun _ _ => 0)))) (seq 0 (length sl)).

(** The constraints: BlockGISolverTest.in.cpp:85-102.  A piece is what is used of a randomProblem: C (mi rows, ni columns),
    l and u.  The references pushed to Cs are taken when the block has just been written and never change afterwards. *)
Record piece := Piece { pc_n : nat; pc_m : nat; pc_C : rmat; pc_l : nat -> option R; pc_u : nat -> option R }.
Definition seg_put (v : nat -> option R) (c m : nat) (w : nat -> option R) : nat -> option R := fun i => if (c <=? i)%nat && (i <? c + m)%nat then w (i - c)%nat else v i.
Record cstrs := Cstrs { cs_C : rmat; cs_blocks : list (blk Rops); cs_l : nat -> option R; cs_u : nat -> option R }.
Fixpoint c_loop (n m : nat) (ps : list piece) (r c : nat) (x : cstrs) : res cstrs :=
  match ps with
  | [] => Ok x
  | p :: ps =>
      do C <- set_block n m (cs_C x) r c (pc_n p) (pc_m p) (fun i j => pc_C p j i);
      c_loop n m ps (r + pc_n p) (c + pc_m p)
        (Cstrs C (cs_blocks x ++ [block_at C r c (pc_n p) (pc_m p)]) (seg_put (cs_l x) c (pc_m p) (pc_l p)) (seg_put (cs_u x) c (pc_m p) (pc_u p)))
  end.
Definition build_constraints (n m : nat) (ps : list piece) : res cstrs := c_loop n m ps 0 0 (Cstrs (fun _ _ => 0) [] (fun _ => None) (fun _ => None)).

(** BlockGISolverTest.in.cpp:190-206: the number of constraints of each block, guessed from the first non-zero of each
    column of C ([rows] x [cols]).  [while(C(j, i) == 0) ++j] runs past a column of zeros: undefined. *)
Fixpoint first_nz (C : rmat) (rows i j fuel : nat) : res nat :=
  guard (j <? rows)%nat
  (match fuel with
   | O => UB
   | S f => if Reqb (C j i) 0 then first_nz C rows i (S j) f else Ok j
   end).
(** ++nbCstr.back() of an empty vector is undefined, but j >= 0 makes the other branch run first *)
Fixpoint incr_last (l : list nat) : list nat := match l with [] => [] | [x] => [S x] | x :: l => x :: incr_last l end.
Fixpoint scan_loop (C : rmat) (rows nDofs : nat) (i cnt : nat) (nb : list nat) : res (list nat) :=
  match cnt with
  | O => Ok nb
  | S c =>
      do j <- first_nz C rows i 0 (S rows);
      scan_loop C rows nDofs (S i) c (if (length nb * nDofs <=? j)%nat then nb ++ [1%nat] else incr_last nb)
  end.
Definition scan (C : rmat) (rows cols nDofs : nat) : res (list nat) := scan_loop C rows nDofs 0 cols [].

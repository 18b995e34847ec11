(** Model of include/jrl-qp/test/randomMatrices.h, in exact arithmetic.  The
    random numbers are inputs.  [H], computed and not used in randOrtho (lines
    105-109), is left out. *)
From Coq Require Import List Arith ZArith Lia Bool Reals.
From Verif Require Import Base Num LinAlg.
Local Open Scope R_scope.

(** Eigen's normalize(): divides by the norm if the squared norm is positive *)
Definition normalize (n : nat) (v : rvec) : rvec :=
  let z := rsum n (fun k => v k * v k) in if Rltb 0 z then fun k => v k / sqrt z else v.

(** What one call to randOrtho draws: line 72, and line 89 for each i *)
Record odraws := OD { od_pos : bool; od_v : nat -> rvec }.

(** lines 83-122, one iteration; [Q] is size x size *)
Definition ortho_step (size : nat) (d : odraws) (i : nat) (st : rmat * bool) : rmat * bool :=
  let '(Q, positiveDet) := st in
  let v := normalize i (od_v d i) in                                  (* line 89, randUnitVec (lines 49-54) *)
  let positive := Rleb 0 (v 0%nat) in                                 (* line 92 *)
  let v1 := fun k => if (k =? 0)%nat then (if positive then v k + 1 else v k - 1) else v k in  (* lines 95, 100 *)
  let pd := if positive then (if (i mod 2 =? 0)%nat then negb positiveDet else positiveDet) else negb positiveDet in  (* 96, 101 *)
  let v := normalize i v1 in                                          (* line 103 *)
  let o := (size - i)%nat in
  let w := fun a => rsum i (fun k => Q (o + k)%nat (o + a)%nat * v k) in  (* line 111 *)
  let Q :=
    if positive then
      let Q := fun r c => if (r =? o)%nat && (c =? o)%nat then -1 else Q r c in                 (* line 114 *)
      let Q := fun r c => if (S o <=? r)%nat && (S o <=? c)%nat then - Q r c else Q r c in      (* line 115 *)
      fun r c => if (o <=? r)%nat && (o <=? c)%nat then Q r c + 2 * v (r - o)%nat * w (c - o)%nat else Q r c  (* line 116 *)
    else fun r c => if (o <=? r)%nat && (o <=? c)%nat then Q r c - 2 * v (r - o)%nat * w (c - o)%nat else Q r c in  (* line 120 *)
  (Q, pd).
(** the loop of line 83: k iterations, the first one with i = 2 *)
Fixpoint ortho_loop (size : nat) (d : odraws) (k : nat) (st : rmat * bool) : rmat * bool :=
  match k with O => st | S j => ortho_step size d (S (S j)) (ortho_loop size d j st) end.
Definition idm : rmat := fun i j => if (i =? j)%nat then 1 else 0.
(** lines 62-127 *)
Definition randOrtho (size : nat) (special : bool) (d : odraws) : rmat :=
  if (size =? 0)%nat then idm else
  let Q := fun r c => if (r =? size - 1)%nat && (c =? size - 1)%nat then (if od_pos d then 1 else -1) else idm r c in
  let '(Q, positiveDet) := ortho_loop size d (size - 1) (Q, od_pos d) in
  if special && negb positiveDet then fun r c => if (c =? 0)%nat then - Q r c else Q r c else Q.

(** What one call to randn draws *)
Record ndraws := ND { nd_M : rmat; (* randnMat, line 157 *) nd_s : rvec; (* setRandom, line 160 *) nd_o1 : odraws; nd_o2 : odraws }.
(** lines 149-178; a negative rank means min(rows, cols) *)
Definition randn (rows cols : nat) (rank : Z) (d : ndraws) : res rmat :=
  guard (Z.leb rank (Z.of_nat rows) && Z.leb rank (Z.of_nat cols))
  (let p := Nat.min rows cols in
   let rank := if Z.ltb rank 0 then p else Z.to_nat rank in
   if (rank =? 0)%nat then Ok (fun _ _ => 0)
   else if (rank =? p)%nat then Ok (nd_M d)
   else
     let s := fun k => if (k <? rank)%nat then nd_s d k * sqrt (3 * INR rows * INR cols / INR rank) else 0 in
     if (rows <=? cols)%nat then
       let U := randOrtho rows false (nd_o1 d) in
       let M := fun i j => if (j <? rows)%nat then U i j * s j else 0 in
       let V := randOrtho cols false (nd_o2 d) in
       Ok (fun i j => rsum cols (fun k => M i k * V k j))
     else
       let V := randOrtho cols false (nd_o1 d) in
       let M := fun i j => if (i <? cols)%nat then s i * V i j else 0 in
       let U := randOrtho rows false (nd_o2 d) in
       Ok (fun i j => rsum rows (fun k => U i k * M k j))).

(** What one call to randDependent draws *)
Record pdraws := PD { pd_M : ndraws; pd_A : odraws; pd_B : odraws }.
(** lines 189-215 *)
Definition randDependent (cols rowsA rankA rowsB rankB rankAB : nat) (d : pdraws) : res (rmat * rmat) :=
  guard ((rankA <=? rowsA) && (rankA <=? cols) && (rankB <=? rowsB) && (rankB <=? cols)
         && (rankA <=? rankAB) && (rankB <=? rankAB) && (rankAB <=? rankA + rankB) && (rankAB <=? cols))%nat
  (do M <- randn (rankA + rankB) cols (Z.of_nat rankAB) (pd_M d);
   let A := if (rankA =? rowsA)%nat then M
            else let U := randOrtho rowsA false (pd_A d) in fun i j => rsum rankA (fun k => U i k * M k j) in
   let B := if (rankB =? rowsB)%nat then (fun i j => M (rankA + i)%nat j)
            else let U := randOrtho rowsB false (pd_B d) in fun i j => rsum rankB (fun k => U i k * M (rankA + k)%nat j) in
   Ok (A, B)).

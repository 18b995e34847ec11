(** Model of the single-segment vectors (include/jrl-qp/internal/SingleNZSegmentVector.h)
    and of the orthonormal sequences (include/jrl-qp/internal/OrthonormalSequence.h,
    src/internal/OrthonormalSequence.cpp), generic over the scalar operations.

    C++ [int] sizes and indices are [nat]; failed asserts (jrl-qp's and Eigen's)
    are [UB].  The template [ElemOrthonormalSequence::add(HouseholderSequence)]
    (OrthonormalSequence.h:143-146) is a function with an empty body and is not
    part of the model; [toDense] (OrthonormalSequence.cpp:127-135, debug only) is
    [applyToTheLeft] on the columns of the identity. *)
From Coq Require Import List Arith ZArith Lia Bool.
From Verif Require Import Base Num Solver.
Import ListNotations.

Section Ortho.
Variable S : ops.
Notation T := (carrier S).
Notation vec := (vec S).
Notation mat := (mat S).
Notation "x + y" := (add S x y) : ops_scope.
Notation "x - y" := (sub S x y) : ops_scope.
Notation "x * y" := (mul S x y) : ops_scope.
Notation "- x" := (opp S x) : ops_scope.
Notation "0" := (zero S) : ops_scope.
Notation "1" := (one S) : ops_scope.

(** ** SingleNZSegmentVector.h *)
(** lines 58-60: the segment ([z_len] coefficients [z_v]), its position and the size of the vector *)
Record snz := NZ { z_start : nat; z_len : nat; z_size : nat; z_v : vec }.
(** lines 17-21 *)
Definition snz_new (len : nat) (v : vec) (start size : nat) : res snz :=
  guard (start + len <=? size) (Ok (NZ start len size v)).
(** lines 28-31 *)
Definition z_end (z : snz) : nat := (z_start z + z_len z)%nat.
(** lines 43-49: [u] is a vector of size [usize] *)
Definition toFullVector (z : snz) (usize : nat) (u : vec) : res vec :=
  guard (usize =? z_size z)
    (Ok (vm usize (fun i => if i <? z_start z then 0%ops
                            else if i <? z_end z then z_v z (i - z_start z)%nat
                            else if i <? z_size z then 0%ops else u i))).
(** lines 51-55 *)
Definition snz_dot (z : snz) (usize : nat) (u : vec) : res T :=
  guard (usize =? z_size z) (Ok (sumn [52]%nat (z_len z) (fun k => z_v z k * u (z_start z + k)%nat)%ops)).

(** ** ElemOrthonormalSequence *)
(** OrthonormalSequence.h:17-22 *)
Inductive otype := OHouseholder | OGivens | OPermutation.
Definition otype_eqb (a b : otype) : bool :=
  match a, b with OHouseholder, OHouseholder | OGivens, OGivens | OPermutation, OPermutation => true | _, _ => false end.
(** OrthonormalSequence.h:67-72 (tmp_ is not used) *)
Record elem := El { e_ty : otype; e_n : nat; e_size : nat; e_w1 : work S; e_w2 : work S }.

(** OrthonormalSequence.cpp:7-26 *)
Definition elem_new (junk : vec) (ty : otype) (n size : nat) : res elem :=
  match ty with
  | OHouseholder => Ok (El ty n 0 (W (n * size)%nat junk) (W size junk))
  | OGivens => Ok (El ty n 0 (W size junk) (W size junk))
  | OPermutation => UB
  end.
(** OrthonormalSequence.cpp:28-36 *)
Definition elem_addG (e : elem) (g : givens S) : res elem :=
  let k := e_size e in
  guard (otype_eqb (e_ty e) OGivens) (
  do c <- getV (e_w1 e) (k + 1)%nat;
  do s <- getV (e_w2 e) (k + 1)%nat;
  Ok (El (e_ty e) (e_n e) (k + 1)%nat (wset (e_w1 e) (vm (k + 1)%nat (upd c k (gc g)))) (wset (e_w2 e) (vm (k + 1)%nat (upd s k (gs g)))))).
(** OrthonormalSequence.cpp:38-48; [ess] has size [esz] *)
Definition elem_addH (e : elem) (esz : nat) (ess : vec) (tau : T) : res elem :=
  let n := e_n e in
  let k := e_size e in
  guard (otype_eqb (e_ty e) OHouseholder) (
  guard (esz + k + 1 =? n) (
  do E <- getM (e_w1 e) n (k + 1)%nat n;
  do t <- getV (e_w2 e) (k + 1)%nat;
  let E' := fun i j => if j =? k then (if i =? k then 1%ops else if k <? i then ess (i - k - 1)%nat else E i j) else E i j in
  Ok (El (e_ty e) n (k + 1)%nat (wset (e_w1 e) (unview n (k + 1)%nat E' (w_buf (e_w1 e)))) (wset (e_w2 e) (vm (k + 1)%nat (upd t k tau)))))).

(** Eigen/src/Householder/Householder.h:116-134: v.bottomRows(n-k).applyHouseholderOnTheLeft
    with essential part E.col(k).tail(n-k-1) and coefficient h[k] *)
Definition hh_step (n : nat) (E : mat) (h : vec) (k : nat) (v : vec) : vec :=
  if (n - k =? 1)%nat then upd v k (v k * (1 - h k))%ops
  else if eqb S (h k) (zero S) then v
  else
    let tmp := (sumn [53; k]%nat (n - k - 1) (fun r => E (k + 1 + r)%nat k * v (k + 1 + r)%nat) + v k)%ops in
    vm n (fun i => if i =? k then (v k - h k * tmp)%ops
                   else if (k <? i) && (i <? n) then (v i - h k * E i k * tmp)%ops else v i).
(** Eigen/src/Householder/HouseholderSequence.h, applyThisOnTheLeft on one column (the blocked variant for long
    sequences computes the same product): H = H_0 H_1 ..., so the last reflector first *)
Fixpoint hh_apply (n : nat) (E : mat) (h : vec) (cnt : nat) (v : vec) : vec :=
  match cnt with
  | O => v
  | Datatypes.S k => hh_apply n E h k (hh_step n E h k v)
  end.
(** H.transpose(): the reflectors in the order of the sequence *)
Fixpoint hh_apply_t (n : nat) (E : mat) (h : vec) (cnt : nat) (v : vec) : vec :=
  match cnt with
  | O => v
  | Datatypes.S k => hh_step n E h k (hh_apply_t n E h k v)
  end.
(** the case size_ == 1 (OrthonormalSequence.cpp:60-64, 99-103) *)
Definition hh_one (n : nat) (E : mat) (h : vec) (start size : nat) (v : vec) : vec :=
  let d := sumn [54; start]%nat size (fun r => E (start + r)%nat 0%nat * v (start + r)%nat)%ops in
  vm n (fun i => if i <? n then (v i - h 0%nat * d * E i 0%nat)%ops else v i).

(** Eigen/src/Jacobi/Jacobi.h: v.applyOnTheLeft(i, i+1, Givens(c,s)) *)
Definition g_step (n : nat) (c s : T) (i : nat) (v : vec) : vec :=
  vm n (fun k => if k =? i then (c * v i + s * v (Datatypes.S i))%ops
                 else if k =? Datatypes.S i then (- s * v i + c * v (Datatypes.S i))%ops else v k).
(** OrthonormalSequence.cpp:77-78: for(int i = b; i >= 0; --i), [cnt] = b+1 *)
Fixpoint g_down (n : nat) (c s : vec) (cnt : nat) (v : vec) : vec :=
  match cnt with
  | O => v
  | Datatypes.S i => g_down n c s i (g_step n (c i) (s i) i v)
  end.
(** OrthonormalSequence.cpp:116-117: for(int i = b; i < size_; ++i), with Givens(c,s).transpose() = Givens(c,-s) *)
Fixpoint g_up (n : nat) (c s : vec) (b cnt : nat) (v : vec) : vec :=
  match cnt with
  | O => v
  | Datatypes.S k => g_up n c s (Datatypes.S b) k (g_step n (c b) (- s b)%ops b v)
  end.

(** OrthonormalSequence.cpp:50-87; [v] has size [vsize] (always e_n here) *)
Definition elem_apply (e : elem) (vsize : nat) (v : vec) (start size : nat) : res vec :=
  let n := e_n e in
  let k := e_size e in
  guard ((vsize =? n) && (start + size <=? n)) (
  match e_ty e with
  | OHouseholder =>
      do E <- getM (e_w1 e) n k n;
      do h <- getV (e_w2 e) k;
      if k =? 1 then Ok (hh_one n E h start size v) else Ok (hh_apply n E h (Nat.min n k) v)
  | OGivens =>
      do c <- getV (e_w1 e) k;
      do s <- getV (e_w2 e) k;
      let cnt := Nat.min k (start + size) in
      guard ((cnt =? 0) || (cnt <? n)) (Ok (g_down n c s cnt v))
  | OPermutation => UB
  end).
(** OrthonormalSequence.cpp:89-126 *)
Definition elem_apply_t (e : elem) (vsize : nat) (v : vec) (start size : nat) : res vec :=
  let n := e_n e in
  let k := e_size e in
  guard ((vsize =? n) && (start + size <=? n)) (
  match e_ty e with
  | OHouseholder =>
      do E <- getM (e_w1 e) n k n;
      do h <- getV (e_w2 e) k;
      if k =? 1 then Ok (hh_one n E h start size v) else Ok (hh_apply_t n E h (Nat.min n k) v)
  | OGivens =>
      do c <- getV (e_w1 e) k;
      do s <- getV (e_w2 e) k;
      let b := (start - 1)%nat in
      guard ((k <=? b) || (k <? n)) (Ok (g_up n c s b (k - b) v))
  | OPermutation => UB
  end).

(** ** OrthonormalSequence *)
(** OrthonormalSequence.h:98-107; [q_seq] is seq_ from the last element to the first *)
Record oseq := OS { q_n : nat; q_seq : list (nat * elem) }.
(** OrthonormalSequence.cpp:137 *)
Definition os_new (n : nat) : oseq := OS n [].
(** OrthonormalSequence.cpp:169-172 *)
Definition os_prepare (junk : vec) (q : oseq) (ty : otype) (n seqSize : nat) : res oseq :=
  do e <- elem_new junk ty n seqSize; Ok (OS (q_n q) ((0%nat, e) :: q_seq q)).
(** OrthonormalSequence.cpp:141-150 and 156-165: the element to extend and its start *)
Definition os_back (q : oseq) (ty : otype) (start : nat) : res (nat * elem * list (nat * elem)) :=
  match q_seq q with
  | [] => UB
  | (st, e) :: rest =>
      guard (otype_eqb (e_ty e) ty) (
      if e_size e =? 0 then Ok (start, e, rest) else guard (st + e_size e =? start)%nat (Ok (st, e, rest)))
  end.
(** OrthonormalSequence.cpp:139-152 *)
Definition os_addG (q : oseq) (start : nat) (g : givens S) : res oseq :=
  do b <- os_back q OGivens start;
  let '(st, e, rest) := b in
  do e <- elem_addG e g; Ok (OS (q_n q) ((st, e) :: rest)).
(** OrthonormalSequence.cpp:154-167 *)
Definition os_addH (q : oseq) (start esz : nat) (ess : vec) (tau : T) : res oseq :=
  do b <- os_back q OHouseholder start;
  let '(st, e, rest) := b in
  do e <- elem_addH e esz ess tau; Ok (OS (q_n q) ((st, e) :: rest)).
(** OrthonormalSequence.cpp:174-182 *)
Definition os_clear (q : oseq) : oseq := OS (q_n q) [].
Definition os_resize (q : oseq) (n : nat) : oseq := OS n (q_seq q).

(** [f] on v.segment(start, n), v of size N *)
Definition on_segment (N start n : nat) (v : vec) (f : vec -> res vec) : res vec :=
  guard (start + n <=? N) (
  do w <- f (fun k => v (start + k)%nat);
  Ok (vm N (fun i => if (start <=? i) && (i <? start + n) then w (i - start)%nat else v i))).

(** OrthonormalSequence.cpp:189-197 *)
Fixpoint os_app (N : nat) (l : list (nat * elem)) (v : vec) : res vec :=
  match l with
  | [] => Ok v
  | (st, e) :: l' =>
      do v <- on_segment N st (e_n e) v (fun w => elem_apply e (e_n e) w 0 (e_n e));
      os_app N l' v
  end.
Definition os_apply (q : oseq) (vsize : nat) (v : vec) : res vec :=
  guard (vsize =? q_n q) (os_app (q_n q) (q_seq q) v).
(** OrthonormalSequence.cpp:199-207 *)
Fixpoint os_app_t (N : nat) (l : list (nat * elem)) (v : vec) : res vec :=
  match l with
  | [] => Ok v
  | (st, e) :: l' =>
      do v <- on_segment N st (e_n e) v (fun w => elem_apply_t e (e_n e) w 0 (e_n e));
      os_app_t N l' v
  end.
Definition os_apply_t (q : oseq) (vsize : nat) (v : vec) : res vec :=
  guard (vsize =? q_n q) (os_app_t (q_n q) (rev (q_seq q)) v).

(** OrthonormalSequence.cpp:209-226 and 228-245: the loop, [start] and [end_] bound the non zeros *)
Fixpoint os_nz (N : nat) (app : elem -> nat -> vec -> nat -> nat -> res vec) (l : list (nat * elem)) (start end_ : nat) (v : vec) : res vec :=
  match l with
  | [] => Ok v
  | (st, e) :: l' =>
      if (end_ <=? st) || (st + e_n e <? start) then os_nz N app l' start end_ v
      else
        let s := (start - st)%nat in
        let n := Nat.min (e_n e) (end_ - st) in
        guard (s <=? n) (    (* assert size >= 0 *)
        do v <- on_segment N st (e_n e) v (fun w => app e (e_n e) w s (n - s)%nat);
        os_nz N app l' (Nat.min start st) (Nat.max end_ (st + e_n e)) v)
  end.
Definition os_apply_nz (q : oseq) (osize : nat) (out : vec) (z : snz) : res vec :=
  guard ((z_size z =? q_n q) && (osize =? q_n q)) (
  do v <- toFullVector z osize out;
  os_nz (q_n q) elem_apply (q_seq q) (z_start z) (z_end z) v).
Definition os_apply_t_nz (q : oseq) (osize : nat) (out : vec) (z : snz) : res vec :=
  guard ((z_size z =? q_n q) && (osize =? q_n q)) (
  do v <- toFullVector z osize out;
  os_nz (q_n q) elem_apply_t (rev (q_seq q)) (z_start z) (z_end z) v).
End Ortho.
Arguments NZ {S}. Arguments z_start {S}. Arguments z_len {S}. Arguments z_size {S}. Arguments z_v {S}. Arguments snz_new {S}. Arguments z_end {S}.
Arguments toFullVector {S}. Arguments snz_dot {S}.
Arguments El {S}. Arguments e_ty {S}. Arguments e_n {S}. Arguments e_size {S}. Arguments e_w1 {S}. Arguments e_w2 {S}.
Arguments elem_new {S}. Arguments elem_addG {S}. Arguments elem_addH {S}. Arguments hh_step {S}. Arguments hh_apply {S}. Arguments hh_apply_t {S}. Arguments hh_one {S}.
Arguments g_step {S}. Arguments g_down {S}. Arguments g_up {S}. Arguments elem_apply {S}. Arguments elem_apply_t {S}.
Arguments OS {S}. Arguments q_n {S}. Arguments q_seq {S}. Arguments os_new {S}. Arguments os_prepare {S}. Arguments os_back {S}. Arguments os_addG {S}. Arguments os_addH {S}.
Arguments os_clear {S}. Arguments os_resize {S}. Arguments on_segment {S}. Arguments os_app {S}. Arguments os_apply {S}. Arguments os_app_t {S}. Arguments os_apply_t {S}.
Arguments os_nz {S}. Arguments os_apply_nz {S}. Arguments os_apply_t_nz {S}.

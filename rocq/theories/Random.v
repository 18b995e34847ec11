(** Model of the generator of random least-squares problems
    (src/test/randomProblems.cpp, include/jrl-qp/test/randomProblems.h), in exact
    arithmetic.  The random numbers are inputs ([draws]); the factorisation
    ColPivHouseholderQR is a parameter [qr], constrained in the theorems by what
    Eigen promises of it ([is_cpqr]).  Loops whose iterations touch only entry i
    are written entry by entry.  int sizes are [nat]. *)
From Coq Require Import List Arith ZArith Lia Bool Reals.
From Verif Require Import Base Num LinAlg TestPb.
Import ListNotations.
Local Open Scope R_scope.

(** randomProblems.h:17-34 *)
Record characs := Ch {
  c_nVar : nat; c_nObj : nat; c_nEq : nat; c_nIneq : nat; c_rankObj : nat; c_shared : nat;
  c_nSI : nat; (* strongly active inequalities *) c_nWI : nat; (* weakly active inequalities *)
  c_nSB : nat; (* strongly active bounds *) c_nWB : nat; (* weakly active bounds *)
  c_bounds : bool; c_double : bool; c_strict : bool }.

(** randomProblems.cpp:253-265 (the assertions on signs hold by typing) *)
Definition check (c : characs) : bool :=
  (c_nObj c <=? c_nVar c)%nat && (c_nEq c <=? c_nVar c)%nat && (c_nSI c + c_nWI c <=? c_nIneq c)%nat
  && (if c_bounds c then (c_nSB c + c_nWB c <=? c_nVar c)%nat else ((c_nSB c =? 0) && (c_nWB c =? 0))%nat)
  && (c_nEq c + c_nSI c + c_nSB c <=? c_nVar c)%nat && (c_rankObj c <=? c_nObj c)%nat && (c_shared c <=? c_rankObj c)%nat.

(** lines 21-22 *)
Definition nstrong (c : characs) : nat := (c_nEq c + c_nSI c + c_nSB c)%nat.

(** The random numbers, in the order they are drawn *)
Record draws := Dr {
  d_A : rmat; d_Ca : rmat; (* matrices returned by randn or randDependent, lines 37, 42, 50, 76 *)
  d_v : rvec;              (* lines 61, 83 *)
  d_W : rmat;              (* randOrtho, lines 129, 146 *)
  d_Cin : rmat;            (* line 157 *)
  d_x : rvec;              (* line 160 *)
  d_rl : rvec; d_ru : rvec; (* lines 170-171 *)
  d_us : rvec;             (* line 199 *)
  d_r : rvec;              (* line 203 *)
  d_bl : rvec; d_bu : rvec; (* lines 221-222 *)
  d_ji : nat -> nat; d_jb : nat -> nat (* lines 229, 239 *)
}.

(** A column-pivoting QR factorisation: Q, R and the permutation *)
Record cpqr := QRF { f_Q : rmat; f_R : rmat; f_p : nat -> nat }.

(** M << A, Ca (lines 78-79); lines 54-55 use its transpose *)
Definition stack (nObj : nat) (A Ca : rmat) : rmat := fun i j => if (i <? nObj)%nat then A i j else Ca (i - nObj)%nat j.
(** Ca.bottomRows(nStrongActBounds).setIdentity() (lines 51, 77) *)
Definition set_bounds (c : characs) (Ca : rmat) : rmat :=
  fun k j => if (k <? c_nEq c + c_nSI c)%nat then Ca k j else if (k - (c_nEq c + c_nSI c) =? j)%nat then 1 else 0.
(** P.applyThisOnTheLeft(x): entry p(j) of the result is entry j of x *)
Definition apply_perm (n : nat) (p : nat -> nat) (x : rvec) : rvec := fun i => rsum n (fun j => if (p j =? i)%nat then x j else 0).
(** the assertions of randDependent(cols, rowsA, rankA, rowsB, rankB, rankAB) (randomMatrices.h:196-198) *)
Definition dep_ok (cols rowsA rankA rowsB rankB rankAB : nat) : bool :=
  ((rankA <=? rowsA) && (rankA <=? cols) && (rankB <=? rowsB) && (rankB <=? cols)
   && (rankA <=? rankAB) && (rankB <=? rankAB) && (rankAB <=? rankA + rankB) && (rankAB <=? cols))%nat.

Section Gen.
Variable qr : nat -> nat -> rmat -> cpqr.   (* rows, columns, matrix *)

(** lines 48-49 *)
Definition rankA (c : characs) : nat :=
  let r := (c_rankObj c + nstrong c - c_shared c)%nat in if (c_nVar c <? r)%nat then c_nVar c else r.
(** lines 73-75 *)
Definition rankB (c : characs) : nat :=
  let r := (c_rankObj c + nstrong c - c_shared c)%nat in if (r =? c_nVar c)%nat then (c_nVar c - 1)%nat else r.

(** Step 1, lines 27-87: A, Ca and reducedMultipliers *)
Definition step_one (d : draws) (c : characs) : res (rmat * rmat * rvec) :=
  let n := c_nVar c in let ns := nstrong c in let cols := (c_nObj c + ns)%nat in
  if (c_nObj c =? 0)%nat then Ok (d_A d, d_Ca d, fun _ => 0)
  else if (ns =? 0)%nat then Ok (d_A d, d_Ca d, fun _ => 0)
  else if (n <? cols)%nat then
    let rk := rankA c in
    guard (dep_ok n (c_nObj c) (c_rankObj c) ns ns rk)
    (let A := d_A d in let Ca := set_bounds c (d_Ca d) in
     let f := qr n cols (fun i j => stack (c_nObj c) A Ca j i) in
     let v := d_v d in
     let u := fun i => - rsum (cols - rk) (fun k => f_R f i (rk + k)%nat * v k) in
     let u := bwd (S:=Rops) rk rk (f_R f) u in
     let red := fun i => if (i <? rk)%nat then u i else v (i - rk)%nat in
     Ok (A, Ca, apply_perm cols (f_p f) red))
  else
    let rk := rankB c in
    guard (dep_ok n (c_nObj c) (c_rankObj c) ns ns rk)
    (let A := d_A d in let Ca := set_bounds c (d_Ca d) in
     let f := qr cols n (stack (c_nObj c) A Ca) in
     (* Q is cols x cols and rightCols(nVar - rankTot) asserts that it has that many columns *)
     guard (n - rk <=? cols)%nat
     (Ok (A, Ca, fun i => rsum (n - rk) (fun k => f_Q f i (cols - (n - rk) + k)%nat * d_v d k)))).

(** Step 2, lines 89-102: the signs of the multipliers of one-sided inequalities *)
Definition flip (c : characs) (red : rvec) (k : nat) : bool :=   (* row k of Ca is negated *)
  negb (c_double c) && (c_nEq c <=? k)%nat && (k <? c_nEq c + c_nSI c)%nat && Rltb (red (c_nObj c + k)%nat) 0.
Definition step_two_Ca (c : characs) (Ca : rmat) (red : rvec) : rmat :=
  fun k j => if flip c red k then - Ca k j else Ca k j.
Definition step_two_red (c : characs) (red : rvec) : rvec :=
  fun i => if (c_nObj c <=? i)%nat && flip c red (i - c_nObj c) then - red i else red i.

(** The problem under construction *)
Record gen := Gn { g_A : rmat; g_b : rvec; g_E : rmat; g_f : rvec; g_C : rmat; g_l : nat -> option R; g_u : rvec;
  g_xl : rvec; g_xu : rvec; g_x : rvec; g_le : rvec; g_li : rvec; g_lb : rvec }.

(** Steps 3 and 4, lines 104-157: the rows of C.  In the strictlyFeasible case the
    product of [Q1.cwiseAbs() * mult.cwiseSign()] (nWeak x 1) by Ca (nstrong x nVar)
    asserts nstrong = 1. *)
Definition sgn (r : R) : R := if Rltb 0 r then 1 else if Rltb r 0 then -1 else 0.
Definition rows_of_C (d : draws) (c : characs) (Ca : rmat) (red : rvec) : res rmat :=
  guard (negb (c_strict c) || (nstrong c =? 1)%nat)
  (Ok (fun i j =>
    if (i <? c_nSI c)%nat then Ca (c_nEq c + i)%nat j
    else if (i <? c_nSI c + c_nWI c)%nat then
      (if c_strict c then rsum (nstrong c) (fun k => Rabs (d_W d (i - c_nSI c)%nat k) * sgn (red (c_nObj c + k)%nat)) * Ca 0%nat j
       else rsum (nstrong c) (fun k => d_W d (i - c_nSI c)%nat k * Ca k j))
    else d_Cin d (i - c_nSI c - c_nWI c)%nat j)).

(** Steps 3 and 5, lines 104-124 and 159-223 *)
Definition step_five (d : draws) (c : characs) (A Ca C : rmat) (red : rvec) : gen :=
  let n := c_nVar c in let x := d_x d in
  let cx := fun i => rsum n (fun j => C i j * x j) in
  let li := fun i => if (i <? c_nSI c)%nat then red (c_nObj c + c_nEq c + i)%nat else 0 in
  let lb := fun i => if (i <? c_nSB c)%nat then red (c_nObj c + c_nEq c + c_nSI c + i)%nat else 0 in
  let rl := fun i => Rabs (d_rl d i) in let ru := fun i => Rabs (d_ru d i) in
  (* lines 173-193: for the weakly active double-sided constraints, is the row negated? *)
  let neg := fun i => c_double c && (c_nSI c <=? i)%nat && (i <? c_nSI c + c_nWI c)%nat && negb (Rltb (ru i) (rl i)) in
  let l := fun i =>
    if c_double c then
      Some (if (i <? c_nSI c)%nat then (if Rltb 0 (li i) then cx i - rl i else cx i)
            else if (i <? c_nSI c + c_nWI c)%nat then (if Rltb (ru i) (rl i) then cx i - rl i else cx i)
            else cx i - rl i)
    else None in
  let u := fun i =>
    if c_double c then
      (if (i <? c_nSI c)%nat then (if Rltb 0 (li i) then cx i else cx i + ru i)
       else if (i <? c_nSI c + c_nWI c)%nat then (if Rltb (ru i) (rl i) then cx i else - cx i + ru i)
       else cx i + ru i)
    else if (i <? c_nSI c + c_nWI c)%nat then cx i else cx i + Rabs (d_us d (i - c_nSI c - c_nWI c)%nat) in
  (* lines 201-223 *)
  let xl := fun i =>
    if (i <? c_nSB c)%nat then (if Rltb 0 (lb i) then x i - Rabs (d_r d i) else x i)
    else if (i <? c_nSB c + c_nWB c)%nat then (if Rltb 0 (d_r d i) then x i - d_r d i else x i)
    else x i - Rabs (d_bl d (i - c_nSB c - c_nWB c)%nat) in
  let xu := fun i =>
    if (i <? c_nSB c)%nat then (if Rltb 0 (lb i) then x i else x i + Rabs (d_r d i))
    else if (i <? c_nSB c + c_nWB c)%nat then (if Rltb 0 (d_r d i) then x i else x i - d_r d i)
    else x i + Rabs (d_bu d (i - c_nSB c - c_nWB c)%nat) in
  Gn A (fun i => rsum n (fun j => A i j * x j) - red i) Ca (fun i => rsum n (fun j => Ca i j * x j))
     (fun i j => if neg i then - C i j else C i j) l u xl xu x (fun i => red (c_nObj c + i)%nat) li lb.

(** Step 6, lines 225-248: Fisher-Yates shuffles *)
Definition swap {X} (i j : nat) (f : nat -> X) : nat -> X := fun k => if (k =? i)%nat then f j else if (k =? j)%nat then f i else f k.
Definition swap_cstr (i j : nat) (g : gen) : gen :=
  Gn (g_A g) (g_b g) (g_E g) (g_f g) (swap i j (g_C g)) (swap i j (g_l g)) (swap i j (g_u g)) (g_xl g) (g_xu g) (g_x g)
     (g_le g) (swap i j (g_li g)) (g_lb g).
Definition swap_var (i j : nat) (g : gen) : gen :=
  Gn (fun k => swap i j (g_A g k)) (g_b g) (fun k => swap i j (g_E g k)) (g_f g) (fun k => swap i j (g_C g k)) (g_l g) (g_u g)
     (swap i j (g_xl g)) (swap i j (g_xu g)) (swap i j (g_x g)) (g_le g) (g_li g) (swap i j (g_lb g)).
(** for(int i = k; i > 0; --i) { int j = get(0, i); swap } *)
Fixpoint shuffle (sw : nat -> nat -> gen -> gen) (js : nat -> nat) (k : nat) (g : gen) : res gen :=
  match k with
  | O => Ok g
  | S i => guard (js k <=? k)%nat (shuffle sw js i (sw k (js k) g))
  end.

(** The returned object: a LeastSquareProblem<true>, x and the multipliers *)
Record rlsproblem := RLS { r_pb : lsproblem scstr; r_x : dvec; r_le : dvec; r_li : dvec; r_lb : dvec }.

(** lines 15-251 *)
Definition randomProblem (d : draws) (c : characs) : res rlsproblem :=
  guard (check c)
  (do r <- step_one d c;
   let '(A, Ca, red) := r in
   let Ca2 := step_two_Ca c Ca red in let red2 := step_two_red c red in
   do C <- rows_of_C d c Ca2 red2;
   let g := step_five d c A Ca2 C red2 in
   do g <- shuffle swap_cstr (d_ji d) (c_nIneq c - 1) g;
   do g <- (if c_bounds c then shuffle swap_var (d_jb d) (c_nVar c - 1) g else Ok g);
   let n := c_nVar c in let nbd := if c_bounds c then n else O in
   Ok (RLS (LS (SCs (FC (DM (c_nIneq c) n (g_C g)) (BV (c_nIneq c) (g_l g)) (BV (c_nIneq c) (fun i => Some (g_u g i)))
                        (BV nbd (fun i => Some (g_xl g i))) (BV nbd (fun i => Some (g_xu g i))) false)
                    (DM (c_nEq c) n (g_E g)) (DV (c_nEq c) (g_f g)))
               (DM (c_nObj c) n (g_A g)) (DV (c_nObj c) (g_b g)))
           (DV n (g_x g)) (DV (c_nEq c) (g_le g)) (DV (c_nIneq c) (g_li g)) (DV nbd (g_lb g)))).
End Gen.

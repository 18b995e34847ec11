(** C70, C71: how the answers of the dense solver vary with the problem, in exact
    real arithmetic: multipliers are prices, the minimiser depends on the linear
    cost in a Lipschitz way, and two descriptions of one problem get one answer.
    Feasibility, objective, KKT points are those of QPSpec.v. *)
From Coq Require Import List Arith ZArith Lia Bool Reals Lra Permutation.
From Verif Require Import Base ActiveSet ActiveSetProofs Num Solver LinAlg QPSpec GIBase GIRun GIDual GITotal GICall GISafe GIHist GIFinal GIInit GIExample BoxGap PropReal PropWarm.
Import ListNotations.
Local Open Scope R_scope.

(** ** Specification *)
(** the data to which C44 applies *)
Definition suited (pb : rproblem) : Prop :=
  sizes_ok pb = true /\ posdef (nv pb) (hess pb) /\ GIRun.ordered pb /\ equalities_first pb /\ eq_independent pb /\ tolerance_gap pb.
(** a call of solve on [pb], with an infinity of at least [B] and enough
    iterations allowed, on an object with any past, returned [st] and left [s'] *)
Definition call (B : R) (pb : rproblem) (st : term_status) (s' : sol Rops) : Prop :=
  exists junk o s, B <= o_bigBnd o /\ (let m := nc pb + nb pb in m + 2 * 3 ^ m < o_maxIter o)%nat /\ history Rops s /\
    gi_solve junk pb o s = Ok (st, s').
(** what solution() and multipliers() then return *)
Definition returned (s' : sol Rops) (x lam : rvec) : Prop :=
  exists lx ll s'', solution s' = Ok lx /\ multipliers s' = Ok (ll, s'') /\ x = vec_of lx /\ lam = vec_of ll.

(** [pb'] has the cost of [pb] *)
Definition same_cost (pb pb' : rproblem) : Prop :=
  nv pb' = nv pb /\ (forall i j, (i < nv pb)%nat -> (j < nv pb)%nat -> hess pb' i j = hess pb i j) /\ (forall i, (i < nv pb)%nat -> p_a pb' i = p_a pb i).
(** [pb'] has the constraint normals of [pb] (bounds may differ) *)
Definition same_normals (pb pb' : rproblem) : Prop :=
  nc pb' = nc pb /\ nb pb' = nb pb /\ (forall i j, (i < nv pb)%nat -> (j < nc pb)%nat -> p_C pb' i j = p_C pb i j).
(** number of an optional bound (only used where it is finite) *)
Definition val (b : option R) : R := match b with Some v => v | None => 0 end.
(** how much the side of constraint [i] that has a price moves between [pb] and [pb'] *)
Definition moved (pb pb' : rproblem) (lam : rvec) (i : nat) : R :=
  if Rlt_dec 0 (lam i) then val (cup pb' i) - val (cup pb i) else
  if Rlt_dec (lam i) 0 then val (clo pb' i) - val (clo pb i) else 0.
(** the priced sides are still finite in [pb'] *)
Definition priced_finite (pb pb' : rproblem) (lam : rvec) : Prop :=
  forall i, (i < ncb pb)%nat -> (0 < lam i -> cup pb' i <> None) /\ (lam i < 0 -> clo pb' i <> None).
Definition norm (n : nat) (v : rvec) : R := sqrt (rdot n v v).

(** ** Proofs *)
Lemma kkt_identity pb x lam y : (nb pb <= nv pb)%nat -> kkt pb x lam ->
  rsum (nv pb) (fun i => (y i - x i) * gradient pb x i) =
  rsum (ncb pb) (fun i => - lam i * (rdot (nv pb) (cvec pb i) y - rdot (nv pb) (cvec pb i) x)).
Proof.
  intros Hb [KS _ _ _]. set (n := nv pb) in *.
  assert (E : rsum n (fun i => (y i - x i) * gradient pb x i)
     = rsum (nc pb) (fun j => - lam j * (rdot n (fun i => p_C pb i j) y - rdot n (fun i => p_C pb i j) x))
       + rsum (nb pb) (fun i => - lam (nc pb + i)%nat * (y i - x i))).
  { rewrite (sum_ext n _ (fun i => rsum (nc pb) (fun j => - lam j * (p_C pb i j * y i - p_C pb i j * x i))
       + (if (i <? nb pb)%nat then - lam (nc pb + i)%nat * (y i - x i) else 0))).
    - rewrite sum_plus, sum_swap. f_equal.
      + apply sum_ext. intros j Hj. rewrite sum_scal. f_equal. rewrite sum_minus. reflexivity.
      + replace n with (nb pb + (n - nb pb))%nat by lia. rewrite sum_app.
        rewrite (sum_zero (n - nb pb)).
        * rewrite (sum_ext (nb pb) _ (fun i => - lam (nc pb + i)%nat * (y i - x i))); [lra|].
          intros i Hi. destruct (Nat.ltb_spec i (nb pb)); [auto|lia].
        * intros i Hi. destruct (Nat.ltb_spec (nb pb + i) (nb pb)); [lia|auto].
    - intros i Hi.
      replace (gradient pb x i) with (- rsum (nc pb) (fun j => p_C pb i j * lam j)
        - (if (i <? nb pb)%nat then lam (nc pb + i)%nat else 0)) by (specialize (KS i Hi); lra).
      rewrite (sum_ext (nc pb) (fun j => - lam j * (p_C pb i j * y i - p_C pb i j * x i))
         (fun j => - (y i - x i) * (p_C pb i j * lam j))) by (intros; ring).
      rewrite sum_scal. destruct (i <? nb pb)%nat; ring. }
  rewrite E. unfold ncb. rewrite sum_app. f_equal; apply sum_ext; intros j Hj; unfold cvec.
  - destruct (Nat.ltb_spec j (nc pb)); [reflexivity|lia].
  - destruct (Nat.ltb_spec (nc pb + j) (nc pb)); [lia|]. replace (nc pb + j - nc pb)%nat with j by lia. rewrite !dot_delta by (fold n; lia). reflexivity.
Qed.
Lemma kkt_tight pb x lam i : (nb pb <= nv pb)%nat -> kkt pb x lam -> (i < ncb pb)%nat ->
  (0 < lam i -> cup pb i = Some (rdot (nv pb) (cvec pb i) x)) /\ (lam i < 0 -> clo pb i = Some (rdot (nv pb) (cvec pb i) x)).
Proof.
  intros Hb [_ _ KC KB] Hi. unfold cup, clo, cvec. destruct (Nat.ltb_spec i (nc pb)); [apply KC; auto|].
  unfold ncb in Hi. specialize (KB (i - nc pb)%nat ltac:(lia)). replace (nc pb + (i - nc pb))%nat with i in KB by lia. rewrite dot_delta by lia. exact KB.
Qed.
Lemma quad_nonneg n G v : posdef n G -> 0 <= quad n G v.
Proof.
  intros HP. destruct (BoxGap.all_zero_dec n v) as [H|H]; [|apply Rlt_le, HP; auto].
  right. symmetry. unfold quad. apply sum_zero. intros i Hi. rewrite H by auto. ring.
Qed.
Lemma nb_le pb : sizes_ok pb = true -> (nb pb <= nv pb)%nat.
Proof.
  unfold sizes_ok, nb, nv. rewrite !andb_true_iff, orb_true_iff, !Nat.eqb_eq. lia.
Qed.
Lemma objective_at pb x y : objective pb y = objective pb x + rsum (nv pb) (fun i => (y i - x i) * gradient pb x i) + / 2 * quad (nv pb) (hess pb) (fun i => y i - x i).
Proof. rewrite <- objective_expand. apply objective_ext. intros; ring. Qed.
Lemma kkt_first pb x lam y : (nb pb <= nv pb)%nat -> kkt pb x lam -> feasible pb y -> 0 <= rsum (nv pb) (fun i => (y i - x i) * gradient pb x i).
Proof.
  intros Hb HK Hy. rewrite (kkt_identity pb x lam y Hb HK). apply sum_nonneg. intros i Hi.
  destruct (kkt_tight pb x lam i Hb HK Hi) as (K1 & K2). destruct (proj1 (feasible_iff pb y Hb) Hy i Hi) as (L1 & L2).
  destruct (Rlt_le_dec 0 (lam i)) as [H|H].
  - rewrite (K1 H) in L2. cbn in L2. assert (0 <= lam i * (rdot (nv pb) (cvec pb i) x - rdot (nv pb) (cvec pb i) y)) by (apply Rmult_le_pos; lra). lra.
  - destruct (Rle_lt_or_eq_dec _ _ H) as [H'|H']; [|rewrite H'; lra].
    rewrite (K2 H') in L1. cbn in L1. assert (0 <= - lam i * (rdot (nv pb) (cvec pb i) y - rdot (nv pb) (cvec pb i) x)) by (apply Rmult_le_pos; lra). lra.
Qed.
Lemma same_cost_obj pb pb' x : same_cost pb pb' -> objective pb' x = objective pb x.
Proof.
  intros (E1 & E2 & E3). unfold objective. rewrite E1. f_equal; [f_equal|].
  - apply sum_ext. intros i Hi. f_equal. apply sum_ext. intros j Hj. rewrite E2 by auto. reflexivity.
  - rewrite !dot_def. apply sum_ext. intros i Hi. rewrite E3 by auto. reflexivity.
Qed.
(** prices, from KKT *)
Lemma kkt_prices pb pb' x lam z : (nb pb <= nv pb)%nat -> posdef (nv pb) (hess pb) -> kkt pb x lam -> same_cost pb pb' -> same_normals pb pb' ->
  priced_finite pb pb' lam -> feasible pb' z ->
  objective pb x - rsum (ncb pb) (fun i => lam i * moved pb pb' lam i) <= objective pb' z.
Proof.
  intros Hb HP HK HC HN HF Hz. rewrite (same_cost_obj pb pb' z HC), (objective_at pb x z).
  pose proof (quad_nonneg (nv pb) (hess pb) (fun i => z i - x i) HP) as HQ.
  assert (K : - rsum (ncb pb) (fun i => lam i * moved pb pb' lam i) <= rsum (nv pb) (fun i => (z i - x i) * gradient pb x i)); [|lra].
  rewrite (kkt_identity pb x lam z Hb HK), <- sum_opp. apply sum_le. intros i Hi.
  destruct HN as (N1 & N2 & N3). destruct HC as (C1 & _ & _).
  assert (Hb' : (nb pb' <= nv pb')%nat) by lia.
  assert (Hi' : (i < ncb pb')%nat) by (unfold ncb in *; lia).
  destruct (proj1 (feasible_iff pb' z Hb') Hz i Hi') as (L1 & L2).
  assert (EV : rdot (nv pb') (cvec pb' i) z = rdot (nv pb) (cvec pb i) z).
  { rewrite C1. rewrite !dot_def. apply sum_ext. intros a Ha. unfold cvec. rewrite N1. destruct (Nat.ltb_spec i (nc pb)); [rewrite N3 by auto|]; reflexivity. }
  rewrite EV in L1, L2. destruct (kkt_tight pb x lam i Hb HK Hi) as (K1 & K2). destruct (HF i Hi) as (F1 & F2).
  unfold moved. destruct (Rlt_dec 0 (lam i)) as [H|H]; [|destruct (Rlt_dec (lam i) 0) as [H'|H']].
  - rewrite (K1 H). cbn [val]. destruct (cup pb' i) as [u|]; [|destruct (F1 H eq_refl)]. cbn in L2 |- *.
    assert (0 <= lam i * (u - rdot (nv pb) (cvec pb i) z)) by (apply Rmult_le_pos; lra). lra.
  - rewrite (K2 H'). cbn [val]. destruct (clo pb' i) as [l|]; [|destruct (F2 H' eq_refl)]. cbn in L1 |- *.
    assert (0 <= - lam i * (rdot (nv pb) (cvec pb i) z - l)) by (apply Rmult_le_pos; lra). lra.
  - assert (lam i = 0) as -> by lra. lra.
Qed.
(** C44, for calls *)
Lemma call_spec pb : suited pb -> exists B, forall st s', call B pb st s' ->
  (st = SUCCESS /\ exists lx ll s'', solution s' = Ok lx /\ multipliers s' = Ok (ll, s'') /\ length lx = nv pb /\
      kkt pb (vec_of lx) (vec_of ll) /\ unique_minimiser pb (vec_of lx) /\ objectiveValue s' = objective pb (vec_of lx))
  \/ (st = INFEASIBLE /\ infeasible pb).
Proof.
  intros (H1 & H2 & H3 & H4 & H5 & H6). destruct (C44_total_correctness pb H1 H2 H3 H4 H5 H6) as (B & HB).
  exists B. intros st s' (junk & o & s & Ho & Hm & HH & E). destruct (HB o junk s Ho Hm HH) as (st2 & s2 & E2 & D). rewrite E in E2. injection E2 as <- <-.
  destruct D as [(-> & lx & ll & s'' & X & M & L1 & _ & K & U & O)|D]; [left|right; auto]. split; [reflexivity|]. exists lx, ll, s''. auto 10.
Qed.

(** ** C70 *)
(** Multipliers are prices: when the bounds of the constraints move, no point
    feasible for the new bounds costs less than the old optimum minus the price
    of the move. *)
Theorem C70_prices : forall pb, suited pb -> exists B, forall s' x lam, call B pb SUCCESS s' -> returned s' x lam ->
  forall pb' z, same_cost pb pb' -> same_normals pb pb' -> priced_finite pb pb' lam -> feasible pb' z ->
  objectiveValue s' - rsum (ncb pb) (fun i => lam i * moved pb pb' lam i) <= objective pb' z.
Proof.
  intros pb HS. destruct (call_spec pb HS) as (B & HB). exists B. intros s' x lam HC (lx & ll & s'' & X & M & -> & ->) pb' z C1 C2 C3 Hz.
  destruct (HB _ _ HC) as [(_ & lx2 & ll2 & s2 & X2 & M2 & _ & K & _ & O)|(D & _)]; [|discriminate D].
  rewrite X in X2. injection X2 as <-. rewrite M in M2. injection M2 as <- _. rewrite O.
  destruct HS as (H1 & H2 & _). apply kkt_prices; auto. apply nb_le; auto.
Qed.
(** ... so that two optimal values differ by at most the two prices of the move. *)
Theorem C70_between_prices : forall pb pb', suited pb -> suited pb' -> same_cost pb pb' -> same_normals pb pb' -> exists B, forall s1 x1 lam1 s2 x2 lam2,
  call B pb SUCCESS s1 -> returned s1 x1 lam1 -> call B pb' SUCCESS s2 -> returned s2 x2 lam2 -> priced_finite pb pb' lam1 -> priced_finite pb' pb lam2 ->
  objectiveValue s1 - rsum (ncb pb) (fun i => lam1 i * moved pb pb' lam1 i) <= objectiveValue s2 <=
  objectiveValue s1 + rsum (ncb pb) (fun i => lam2 i * moved pb' pb lam2 i).
Proof.
  intros pb pb' S1 S2 C1 C2. destruct (call_spec pb S1) as (B1 & H1). destruct (call_spec pb' S2) as (B2 & H2).
  exists (Rmax B1 B2). intros s1 x1 lam1 s2 x2 lam2 K1 (lx1 & ll1 & t1 & X1 & M1 & -> & ->) K2 (lx2 & ll2 & t2 & X2 & M2 & -> & ->) F1 F2.
  assert (call_weak : forall B B' pb st s, B' <= B -> call B pb st s -> call B' pb st s).
  { intros B B' q st s HB (j & o & t & Ho & Hm & HH & E). exists j, o, t. split; [lra|auto]. }
  apply (call_weak _ B1) in K1; [|apply Rmax_l]. apply (call_weak _ B2) in K2; [|apply Rmax_r].
  destruct (H1 _ _ K1) as [(_ & a1 & b1 & c1 & Y1 & N1 & _ & Q1 & (U1 & _) & O1)|(D & _)]; [|discriminate D].
  destruct (H2 _ _ K2) as [(_ & a2 & b2 & c2 & Y2 & N2 & _ & Q2 & (U2 & _) & O2)|(D & _)]; [|discriminate D].
  rewrite X1 in Y1; injection Y1 as <-. rewrite M1 in N1; injection N1 as <- _. rewrite X2 in Y2; injection Y2 as <-. rewrite M2 in N2; injection N2 as <- _.
  rewrite O1, O2. destruct S1 as (Z1 & P1 & _). destruct S2 as (Z2 & P2 & _). apply nb_le in Z1, Z2. split.
  - apply kkt_prices; auto.
  - assert (C1' : same_cost pb' pb).
    { destruct C1 as (A & A2 & A3). split; [auto|]. rewrite A. split; intros; symmetry; auto. }
    assert (C2' : same_normals pb' pb).
    { destruct C2 as (A & A2 & A3), C1 as (A1 & _). split; [auto|]. split; [auto|]. rewrite A, A1. intros; symmetry; auto. }
    pose proof (kkt_prices pb' pb _ _ (vec_of lx1) Z2 P2 Q2 C1' C2' F2 U1) as Hk.
    replace (ncb pb') with (ncb pb) in Hk by (destruct C2 as (A & A2 & _); unfold ncb; lia). lra.
Qed.
(** Changing the linear cost: the optimal value is concave in it, with the
    minimiser as a supergradient, and the minimiser moves by at most
    ||change|| / m when the smallest eigenvalue of the Hessian is at least m. *)
Definition same_but_linear_cost (pb pb' : rproblem) : Prop :=
  nv pb' = nv pb /\ (forall i j, (i < nv pb)%nat -> (j < nv pb)%nat -> hess pb' i j = hess pb i j) /\ (forall x, feasible pb' x <-> feasible pb x).
Lemma linear_cost_obj pb pb' x : same_but_linear_cost pb pb' -> objective pb' x = objective pb x + rdot (nv pb) (fun i => p_a pb' i - p_a pb i) x.
Proof.
  intros (E1 & E2 & _). unfold objective. rewrite E1.
  assert (quad (nv pb) (hess pb') x = quad (nv pb) (hess pb) x) as ->.
  { apply sum_ext. intros i Hi. f_equal. apply sum_ext. intros j Hj. rewrite E2 by auto. reflexivity. }
  rewrite !dot_def. rewrite (sum_ext (nv pb) (fun i => (p_a pb' i - p_a pb i) * x i) (fun i => p_a pb' i * x i - p_a pb i * x i)) by (intros; ring). rewrite sum_minus. ring.
Qed.
Lemma call_weak B B' pb st s : B' <= B -> call B pb st s -> call B' pb st s.
Proof. intros HB (j & o & t & Ho & Hm & HH & E). exists j, o, t. split; [lra|auto]. Qed.
Lemma call_spec2 pb pb' : suited pb -> suited pb' -> exists B, forall s1 x1 lam1 s2 x2 lam2,
  call B pb SUCCESS s1 -> returned s1 x1 lam1 -> call B pb' SUCCESS s2 -> returned s2 x2 lam2 ->
  kkt pb x1 lam1 /\ unique_minimiser pb x1 /\ objectiveValue s1 = objective pb x1 /\ kkt pb' x2 lam2 /\ unique_minimiser pb' x2 /\ objectiveValue s2 = objective pb' x2.
Proof.
  intros S1 S2. destruct (call_spec pb S1) as (B1 & H1). destruct (call_spec pb' S2) as (B2 & H2).
  exists (Rmax B1 B2). intros s1 x1 lam1 s2 x2 lam2 K1 (lx1 & ll1 & t1 & X1 & M1 & -> & ->) K2 (lx2 & ll2 & t2 & X2 & M2 & -> & ->).
  apply (call_weak _ B1) in K1; [|apply Rmax_l]. apply (call_weak _ B2) in K2; [|apply Rmax_r].
  destruct (H1 _ _ K1) as [(_ & a1 & b1 & c1 & Y1 & N1 & _ & Q1 & U1 & O1)|(D & _)]; [|discriminate D].
  destruct (H2 _ _ K2) as [(_ & a2 & b2 & c2 & Y2 & N2 & _ & Q2 & U2 & O2)|(D & _)]; [|discriminate D].
  rewrite X1 in Y1; injection Y1 as <-. rewrite M1 in N1; injection N1 as <- _. rewrite X2 in Y2; injection Y2 as <-. rewrite M2 in N2; injection N2 as <- _. auto 10.
Qed.
Lemma gradient_diff pb pb' x y (e : rvec) : same_but_linear_cost pb pb' -> (forall i, e i = y i - x i) ->
  rsum (nv pb) (fun i => e i * gradient pb x i) + rsum (nv pb) (fun i => - e i * gradient pb' y i) =
  - quad (nv pb) (hess pb) e - rdot (nv pb) (fun i => p_a pb' i - p_a pb i) e.
Proof.
  intros (E1 & E2 & _) He. rewrite <- sum_plus, dot_def. unfold quad. rewrite <- sum_opp, <- sum_minus. apply sum_ext. intros i Hi.
  unfold gradient. rewrite E1. rewrite (sum_ext (nv pb) (fun j => hess pb' i j * y j) (fun j => hess pb i j * x j + hess pb i j * e j)) by (intros j Hj; rewrite E2, He by auto; ring).
  rewrite sum_plus. ring.
Qed.
Theorem C70_linear_cost : forall pb pb', suited pb -> suited pb' -> same_but_linear_cost pb pb' -> exists B, forall s1 x1 lam1 s2 x2 lam2,
  call B pb SUCCESS s1 -> returned s1 x1 lam1 -> call B pb' SUCCESS s2 -> returned s2 x2 lam2 ->
  let n := nv pb in let da := fun i => p_a pb' i - p_a pb i in let dx := fun i => x2 i - x1 i in
  objectiveValue s1 + rdot n da x2 <= objectiveValue s2 <= objectiveValue s1 + rdot n da x1 /\
  quad n (hess pb) dx <= - rdot n da dx /\
  (forall m, 0 < m -> (forall v, m * rdot n v v <= quad n (hess pb) v) -> norm n dx <= norm n da / m).
Proof.
  intros pb pb' S1 S2 HL. destruct (call_spec2 pb pb' S1 S2) as (B & HB). exists B. intros s1 x1 lam1 s2 x2 lam2 K1 R1 K2 R2 n da dx.
  destruct (HB _ _ _ _ _ _ K1 R1 K2 R2) as (Q1 & (F1 & U1) & O1 & Q2 & (F2 & U2) & O2). clear HB.
  pose proof HL as (L1 & L2 & L3). destruct S1 as (Z1 & P1 & _). destruct S2 as (Z2 & P2 & _). apply nb_le in Z1, Z2.
  pose proof (proj1 (L3 x2) F2) as F2'. pose proof (proj2 (L3 x1) F1) as F1'.
  assert (HQ : quad n (hess pb) dx <= - rdot n da dx).
  { pose proof (kkt_first pb x1 lam1 x2 Z1 Q1 F2') as A1. pose proof (kkt_first pb' x2 lam2 x1 Z2 Q2 F1') as A2. rewrite L1 in A2.
    pose proof (gradient_diff pb pb' x1 x2 dx HL (fun _ => eq_refl)) as G. fold n in A1, A2, G.
    change (rsum n (fun i => (x2 i - x1 i) * gradient pb x1 i)) with (rsum n (fun i => dx i * gradient pb x1 i)) in A1.
    rewrite (sum_ext n (fun i => (x1 i - x2 i) * gradient pb' x2 i) (fun i => - dx i * gradient pb' x2 i)) in A2 by (intros; unfold dx; ring). fold da in G. lra. }
  split; [|split; [exact HQ|]].
  - rewrite O1, O2. pose proof (proj1 (U1 x2 F2')) as A1. pose proof (proj1 (U2 x1 F1')) as A2. rewrite !(linear_cost_obj pb pb' _ HL) in *. fold n in A2 |- *. fold da in A2 |- *. lra.
  - intros m Hm Hv. specialize (Hv dx). unfold norm.
    assert (A : m * m * rdot n dx dx <= rdot n da da).
    { assert (0 <= rdot n (fun i => da i + m * dx i) (fun i => da i + m * dx i)) as K by (rewrite dot_def; apply sum_nonneg; intros i Hi; apply Rle_0_sqr).
      rewrite dot_def in K. rewrite (sum_ext n _ (fun i => da i * da i + (2 * m) * (da i * dx i) + (m * m) * (dx i * dx i))) in K by (intros; ring).
      rewrite !sum_plus, !sum_scal, <- !dot_def in K. assert (m * (m * rdot n dx dx) <= m * (- rdot n da dx)) by (apply Rmult_le_compat_l; lra). lra. }
    apply (Rmult_le_reg_l m); [lra|]. replace (m * (sqrt (rdot n da da) / m)) with (sqrt (rdot n da da)) by (field; lra).
    rewrite <- (sqrt_square m) at 1 by lra. rewrite <- sqrt_mult_alt by (apply Rmult_le_pos; lra). apply sqrt_le_1_alt. exact A.
Qed.

(** ** The hypotheses of C70 are met *)
Lemma call_exists pb B z : suited pb -> feasible pb z -> exists s' x lam, call B pb SUCCESS s' /\ returned s' x lam.
Proof.
  intros (H1 & H2 & H3 & H4 & H5 & H6) Hz. destruct (C44_total_correctness pb H1 H2 H3 H4 H5 H6) as (B0 & HB).
  set (o := Opt (S:=Rops) (S ((nc pb + nb pb) + 2 * 3 ^ (nc pb + nb pb))) (Rmax B B0) false false : options Rops).
  destruct (HB o (fun _ => 0) (sol_new Rops)) as (st & s' & E & D); [apply Rmax_r|unfold o; cbn [o_maxIter]; cbv zeta; lia|constructor|].
  destruct D as [(-> & x & lam & s'' & X & M & _)|(_ & D)]; [|destruct (D z Hz)].
  exists s', (vec_of x), (vec_of lam). split; [exists (fun _ => 0), o, (sol_new Rops); split; [apply Rmax_l|]; split; [unfold o; cbn [o_maxIter]; cbv zeta; lia|]; split; [constructor|exact E]|].
  exists x, lam, s''. auto.
Qed.
Lemma ex_suited b : suited (ex_pb b).
Proof. destruct (C44_nonvacuous b) as (A & A2 & A3 & A4 & A5 & A6). repeat (split; [assumption|]). assumption. Qed.
Lemma ex_feas_at b : 0 <= b -> feasible (ex_pb b) (fun i => if (i =? 0)%nat then b else 0).
Proof.
  intros Hb. split.
  - intros j Hj. change (nc (ex_pb b)) with 1%nat in Hj. assert (j = 0%nat) as -> by lia. cbn [ex_pb p_bl p_bu p_C above_lo below_up]. change (nv (ex_pb b)) with 2%nat. rewrite dot_def, !sum_S, sum_0. cbn [Nat.eqb]. split; lra.
  - intros i Hi. cbn in Hi. destruct i as [|[|i]]; cbn; try lia; split; auto; lra.
Qed.
(** 1/2 (x^2 + y^2) - 2 x under x + y = b, x, y >= 0: moving b from 1 to 3 *)
Example C70_nonvacuous : suited (ex_pb 1) /\ suited (ex_pb 3) /\ same_cost (ex_pb 1) (ex_pb 3) /\ same_normals (ex_pb 1) (ex_pb 3) /\
  (forall B, exists s1 x1 lam1 s2 x2 lam2, call B (ex_pb 1) SUCCESS s1 /\ returned s1 x1 lam1 /\ call B (ex_pb 3) SUCCESS s2 /\ returned s2 x2 lam2) /\
  (forall x lam, kkt (ex_pb 1) x lam -> priced_finite (ex_pb 1) (ex_pb 3) lam) /\ feasible (ex_pb 3) (fun i => if (i =? 0)%nat then 3 else 0) /\
  (forall v, 1 * rdot 2 v v <= quad 2 (hess (ex_pb 1)) v).
Proof.
  split; [apply ex_suited|]. split; [apply ex_suited|]. split; [repeat split|]. split; [repeat split|]. split; [|split; [|split]].
  - intros B. destruct (call_exists (ex_pb 1) B _ (ex_suited 1) (ex_feas_at 1 ltac:(lra))) as (s1 & x1 & l1 & A1 & A2).
    destruct (call_exists (ex_pb 3) B _ (ex_suited 3) (ex_feas_at 3 ltac:(lra))) as (s2 & x2 & l2 & A3 & A4). exists s1, x1, l1, s2, x2, l2. auto.
  - intros x lam HK i Hi. destruct (kkt_tight (ex_pb 1) x lam i ltac:(apply nb_le, ex_suited) HK Hi) as (K1 & K2). unfold cup, clo in *.
    change (nc (ex_pb 1)) with 1%nat in *. change (nc (ex_pb 3)) with 1%nat in *. destruct (i <? 1)%nat; cbn in *.
    + split; intros; discriminate.
    + split; [intros H; specialize (K1 H); discriminate K1|intros; discriminate].
  - apply ex_feas_at. lra.
  - intros v. unfold quad, hess, gsym. rewrite dot_def, !sum_S, !sum_0. cbn. lra.
Qed.

(** ** C71: one problem, two descriptions *)
(** the bounds of constraint [j] of [pb'] when it is constraint [i] of [pb], negated or not *)
Definition side_lo (pb : rproblem) (flip : bool) (i : nat) : option R := if flip then option_map Ropp (cup pb i) else clo pb i.
Definition side_up (pb : rproblem) (flip : bool) (i : nat) : option R := if flip then option_map Ropp (clo pb i) else cup pb i.
(** Constraint [j] of [pb'] is constraint [s j] of [pb], negated if [flip j], with
    the same bounds or fewer of them; every finite bound of [pb] is kept by some
    constraint of [pb']; no equality of [pb] becomes two equalities. *)
Record redescribes (pb pb' : rproblem) (s : nat -> nat) (flip : nat -> bool) : Prop := {
  rd_cost : same_cost pb pb';
  rd_range : forall j, (j < ncb pb')%nat -> (s j < ncb pb)%nat;
  rd_normal : forall j a, (j < ncb pb')%nat -> (a < nv pb)%nat -> cvec pb' j a = (if flip j then - 1 else 1) * cvec pb (s j) a;
  rd_lo : forall j, (j < ncb pb')%nat -> clo pb' j = side_lo pb (flip j) (s j) \/ clo pb' j = None;
  rd_up : forall j, (j < ncb pb')%nat -> cup pb' j = side_up pb (flip j) (s j) \/ cup pb' j = None;
  rd_all_lo : forall i, (i < ncb pb)%nat -> clo pb i <> None -> exists j, (j < ncb pb')%nat /\ s j = i /\ (if flip j then cup pb' j <> None else clo pb' j <> None);
  rd_all_up : forall i, (i < ncb pb)%nat -> cup pb i <> None -> exists j, (j < ncb pb')%nat /\ s j = i /\ (if flip j then clo pb' j <> None else cup pb' j <> None);
  rd_eq : forall j k, (j < ncb pb')%nat -> (k < ncb pb')%nat -> is_equality pb' j -> is_equality pb' k -> s j = s k -> j = k }.
(** the two calls have the same outcome *)
Definition same_outcome (st1 : term_status) (s1 : sol Rops) (st2 : term_status) (s2 : sol Rops) : Prop :=
  st1 = st2 /\ (st1 = SUCCESS -> solution s1 = solution s2 /\ objectiveValue s1 = objectiveValue s2).

Section Redescription.
Variables (pb pb' : rproblem) (s : nat -> nat) (flip : nat -> bool).
Hypothesis RD : redescribes pb pb' s flip.
Hypothesis Zb : (nb pb <= nv pb)%nat.
Hypothesis Zb' : (nb pb' <= nv pb')%nat.
Let sg (j : nat) : R := if flip j then -1 else 1.
Lemma rd_dot j z : (j < ncb pb')%nat -> rdot (nv pb') (cvec pb' j) z = sg j * rdot (nv pb) (cvec pb (s j)) z.
Proof.
  intros Hj. destruct (rd_cost _ _ _ _ RD) as (-> & _). rewrite !dot_def, <- sum_scal. apply sum_ext. intros a Ha. rewrite (rd_normal _ _ _ _ RD) by auto. unfold sg. destruct (flip j); ring.
Qed.
Lemma rd_feasible x : feasible pb' x <-> feasible pb x.
Proof.
  rewrite (feasible_iff pb x Zb), (feasible_iff pb' x Zb'). split; intros H i Hi.
  - split.
    + destruct (clo pb i) as [l|] eqn:El; [|exact I]. destruct (rd_all_lo _ _ _ _ RD i Hi ltac:(congruence)) as (j & Hj & <- & Hf).
      destruct (H j Hj) as (H1 & H2). rewrite rd_dot in H1, H2 by auto. unfold sg in *. pose proof (rd_lo _ _ _ _ RD j Hj) as A. pose proof (rd_up _ _ _ _ RD j Hj) as A2.
      unfold side_lo, side_up in *. destruct (flip j).
      * destruct A2 as [A2|A2]; [|congruence]. rewrite A2, El in H2. cbn in *. lra.
      * destruct A as [A|A]; [|congruence]. rewrite A, El in H1. cbn in *. lra.
    + destruct (cup pb i) as [u|] eqn:El; [|exact I]. destruct (rd_all_up _ _ _ _ RD i Hi ltac:(congruence)) as (j & Hj & <- & Hf).
      destruct (H j Hj) as (H1 & H2). rewrite rd_dot in H1, H2 by auto. unfold sg in *. pose proof (rd_lo _ _ _ _ RD j Hj) as A. pose proof (rd_up _ _ _ _ RD j Hj) as A2.
      unfold side_lo, side_up in *. destruct (flip j).
      * destruct A as [A|A]; [|congruence]. rewrite A, El in H1. cbn in *. lra.
      * destruct A2 as [A2|A2]; [|congruence]. rewrite A2, El in H2. cbn in *. lra.
  - rewrite rd_dot by auto. destruct (H (s i) (rd_range _ _ _ _ RD i Hi)) as (H1 & H2).
    pose proof (rd_lo _ _ _ _ RD i Hi) as A. pose proof (rd_up _ _ _ _ RD i Hi) as A2. unfold side_lo, side_up, sg in *. destruct (flip i).
    + split.
      * destruct A as [A|A]; rewrite A; [|exact I]. destruct (cup pb (s i)); cbn in *; [lra|exact I].
      * destruct A2 as [A2|A2]; rewrite A2; [|exact I]. destruct (clo pb (s i)); cbn in *; [lra|exact I].
    + rewrite Rmult_1_l. split.
      * destruct A as [A|A]; rewrite A; [exact H1|exact I].
      * destruct A2 as [A2|A2]; rewrite A2; [exact H2|exact I].
Qed.
(** coefficients on the constraints of [pb'] carried to those of [pb] *)
Definition carry (w : rvec) (i : nat) : R := rsum (ncb pb') (fun j => if (i =? s j)%nat then sg j * w j else 0).
Lemma carry_sum (w : rvec) a : (a < nv pb)%nat -> rsum (ncb pb) (fun i => carry w i * cvec pb i a) = rsum (ncb pb') (fun j => w j * cvec pb' j a).
Proof.
  intros Ha. unfold carry. rewrite (sum_ext (ncb pb) _ (fun i => rsum (ncb pb') (fun j => (if (i =? s j)%nat then sg j * w j else 0) * cvec pb i a))) by (intros; rewrite sum_scal_r; reflexivity).
  rewrite sum_swap. apply sum_ext. intros j Hj.
  rewrite (sum_ext (ncb pb) _ (fun i => if (i =? s j)%nat then sg j * w j * cvec pb i a else 0)) by (intros i Hi; destruct (i =? s j)%nat; ring).
  rewrite sum_delta by (apply (rd_range _ _ _ _ RD); auto). rewrite (rd_normal _ _ _ _ RD) by auto. unfold sg. destruct (flip j); ring.
Qed.
Lemma rd_gap : tolerance_gap pb -> tolerance_gap pb'.
Proof.
  intros HG W i z r Hi [P1 P2 P3]. destruct (rd_cost _ _ _ _ RD) as (En & Eh & _).
  set (W' := fun k => existsb (fun j => (k =? s j)%nat && W j) (seq 0 (ncb pb'))).
  assert (SG : sg i * sg i = 1) by (unfold sg; destruct (flip i); ring).
  destruct (HG W' (s i) (fun a => sg i * z a) (fun k => sg i * carry r k) (rd_range _ _ _ _ RD i Hi)) as [H|H].
  - split.
    + intros k Hk. unfold carry. rewrite sum_zero; [ring|]. intros j Hj. destruct (Nat.eqb_spec k (s j)) as [->|]; [|reflexivity].
      rewrite P1; [ring|]. destruct (W j) eqn:EW; [|reflexivity]. assert (W' (s j) = true); [|congruence].
      unfold W'. apply existsb_exists. exists j. split; [apply in_seq; lia|]. rewrite Nat.eqb_refl, EW. reflexivity.
    + intros a Ha. specialize (P2 a). rewrite En in P2. specialize (P2 Ha).
      rewrite (sum_ext (ncb pb) _ (fun j => sg i * (carry r j * cvec pb j a))) by (intros; ring). rewrite sum_scal, carry_sum by auto.
      rewrite (rd_normal _ _ _ _ RD) in P2 by auto. fold (sg i) in P2.
      rewrite (sum_ext (nv pb) _ (fun b => sg i * (hess pb' a b * z b))) by (intros b Hb; rewrite Eh by auto; ring). rewrite sum_scal, P2.
      rewrite Rmult_minus_distr_l, <- Rmult_assoc, SG. ring.
    + intros k Hk HW. unfold W' in HW. apply existsb_exists in HW as (j & Hj & E). apply in_seq in Hj. apply andb_true_iff in E as (E & EW). apply Nat.eqb_eq in E. subst k.
      specialize (P3 j ltac:(lia) EW). rewrite rd_dot in P3 by lia.
      rewrite dot_def, (sum_ext (nv pb) _ (fun a => sg i * (cvec pb (s j) a * z a))) by (intros; ring). rewrite sum_scal, <- dot_def.
      assert (sg j * sg j = 1) as Sj by (unfold sg; destruct (flip j); ring).
      replace (rdot (nv pb) (cvec pb (s j)) z) with (sg j * (sg j * rdot (nv pb) (cvec pb (s j)) z)) by (rewrite <- Rmult_assoc, Sj; ring). rewrite P3. ring.
  - left. intros a Ha. rewrite En in Ha. specialize (H a Ha). replace (z a) with (sg i * (sg i * z a)) by (rewrite <- Rmult_assoc, SG; ring). rewrite H. ring.
  - right. rewrite En. replace (rdot (nv pb) z z) with (rdot (nv pb) (fun a => sg i * z a) (fun a => sg i * z a)); [exact H|].
    rewrite !dot_def. apply sum_ext. intros a Ha. replace (sg i * z a * (sg i * z a)) with ((sg i * sg i) * (z a * z a)) by ring. rewrite SG. ring.
Qed.
Lemma rd_equality j : (j < ncb pb')%nat -> is_equality pb' j -> is_equality pb (s j).
Proof.
  intros Hj (b & E1 & E2). pose proof (rd_lo _ _ _ _ RD j Hj) as A. pose proof (rd_up _ _ _ _ RD j Hj) as A2. unfold side_lo, side_up in *. rewrite E1 in A. rewrite E2 in A2.
  destruct A as [A|A]; [|discriminate A]. destruct A2 as [A2|A2]; [|discriminate A2]. destruct (flip j).
  - destruct (cup pb (s j)) as [u|] eqn:Eu, (clo pb (s j)) as [l|] eqn:El; try discriminate. cbn in A, A2. injection A as A. injection A2 as A2. exists l. split; [exact El|]. rewrite Eu. f_equal. lra.
  - exists b. auto.
Qed.
Lemma rd_indep : eq_independent pb -> eq_independent pb'.
Proof.
  intros HI w Hw Hs i Hi. destruct (rd_cost _ _ _ _ RD) as (En & _).
  assert (D : forall j, (j < ncb pb')%nat -> is_equality pb' j \/ w j = 0).
  { intros j Hj. destruct (eqb_c_spec pb' j) as [E|E]; [left; exact E|right; apply Hw; auto]. }
  assert (HC : forall k, (k < ncb pb)%nat -> carry w k = 0).
  { intros k Hk. apply HI; auto.
    - intros k' Hk' Hn. unfold carry. apply sum_zero. intros j Hj. destruct (Nat.eqb_spec k' (s j)) as [->|]; [|reflexivity].
      destruct (D j Hj) as [E| ->]; [destruct (Hn (rd_equality j Hj E))|ring].
    - intros a Ha. rewrite carry_sum by auto. apply Hs. lia. }
  destruct (D i Hi) as [E|E]; [|exact E]. specialize (HC (s i) (rd_range _ _ _ _ RD i Hi)). unfold carry in HC.
  rewrite (sum_ext (ncb pb') _ (fun j => if (j =? i)%nat then sg j * w j else 0)) in HC.
  - rewrite sum_delta in HC by auto. unfold sg in HC. destruct (flip i); lra.
  - intros j Hj. destruct (Nat.eqb_spec j i) as [->|N]; [rewrite Nat.eqb_refl; reflexivity|]. destruct (Nat.eqb_spec (s i) (s j)) as [Es|]; [|reflexivity].
    destruct (D j Hj) as [Ej| ->]; [|ring]. destruct N. apply (rd_eq _ _ _ _ RD); auto.
Qed.
Lemma rd_ordered : GIRun.ordered pb -> GIRun.ordered pb'.
Proof.
  intros HO j l u Hj El Eu. pose proof (rd_lo _ _ _ _ RD j Hj) as A. pose proof (rd_up _ _ _ _ RD j Hj) as A2. unfold side_lo, side_up in *. rewrite El in A. rewrite Eu in A2.
  destruct A as [A|A]; [|discriminate A]. destruct A2 as [A2|A2]; [|discriminate A2]. pose proof (rd_range _ _ _ _ RD j Hj) as Hs. destruct (flip j).
  - destruct (cup pb (s j)) as [u'|] eqn:Eu', (clo pb (s j)) as [l'|] eqn:El'; try discriminate. cbn in A, A2. injection A as ->. injection A2 as ->. pose proof (HO _ _ _ Hs El' Eu'). lra.
  - apply (HO (s j) l u Hs); auto.
Qed.
Lemma rd_suited : suited pb -> sizes_ok pb' = true -> equalities_first pb' -> suited pb'.
Proof.
  intros (H1 & H2 & H3 & H4 & H5 & H6) Z1 Z2. destruct (rd_cost _ _ _ _ RD) as (En & Eh & _). split; [exact Z1|]. split.
  { intros v Hv. rewrite En in *. unfold quad. rewrite (sum_ext _ _ (fun i => v i * rsum (nv pb) (fun j => hess pb i j * v j))); [apply (H2 v Hv)|].
    intros i Hi. f_equal. apply sum_ext. intros j Hj. rewrite Eh by auto. reflexivity. }
  split; [apply rd_ordered; auto|]. split; [exact Z2|]. split; [apply rd_indep; auto|apply rd_gap; auto].
Qed.
End Redescription.

Lemma same_problem_outcome pb pb' : suited pb -> suited pb' -> same_cost pb pb' -> (forall x, feasible pb' x <-> feasible pb x) ->
  exists B, forall st1 s1 st2 s2, call B pb st1 s1 -> call B pb' st2 s2 -> same_outcome st1 s1 st2 s2.
Proof.
  intros S1 S2 HC HF. destruct (call_spec pb S1) as (B1 & H1). destruct (call_spec pb' S2) as (B2 & H2).
  exists (Rmax B1 B2). intros st1 s1 st2 s2 K1 K2. apply (call_weak _ B1) in K1; [|apply Rmax_l]. apply (call_weak _ B2) in K2; [|apply Rmax_r].
  destruct (H1 _ _ K1) as [(-> & a1 & b1 & c1 & Y1 & N1 & L1 & Q1 & U1 & O1)|(-> & I1)];
  (destruct (H2 _ _ K2) as [(-> & a2 & b2 & c2 & Y2 & N2 & L2 & Q2 & U2 & O2)|(-> & I2)]).
  - split; [reflexivity|]. intros _. pose proof HC as (En & _).
    assert (U2' : unique_minimiser pb (vec_of a2)).
    { destruct U2 as (F2 & U2). split; [apply HF; auto|]. intros y Hy. apply HF in Hy. specialize (U2 y Hy). rewrite !(same_cost_obj pb pb' _ HC), En in U2. exact U2. }
    assert (a1 = a2) as -> by (apply (minimiser_unique pb); [exact L1|rewrite <- En; exact L2|exact U1|exact U2']). rewrite Y1, Y2, O1, O2, (same_cost_obj pb pb' _ HC). auto.
  - destruct (I2 (vec_of a1)). apply HF, (proj1 U1).
  - destruct (I1 (vec_of a2)). apply HF, (proj1 U2).
  - split; [reflexivity|]. intros D; discriminate D.
Qed.
(** Two descriptions of one problem get the same status and, on SUCCESS, the same
    solution and objective value, whatever the two solver objects did before. *)
Theorem C71_same_answer : forall pb pb' s flip, suited pb -> sizes_ok pb' = true -> equalities_first pb' -> redescribes pb pb' s flip ->
  exists B, forall st1 s1 st2 s2, call B pb st1 s1 -> call B pb' st2 s2 -> same_outcome st1 s1 st2 s2.
Proof.
  intros pb pb' s flip S1 Z1 Z2 RD. pose proof (proj1 S1) as Z. apply nb_le in Z. pose proof (nb_le pb' Z1) as Z'.
  apply same_problem_outcome; auto.
  - eapply rd_suited; eauto.
  - apply (rd_cost _ _ _ _ RD).
  - intros x. eapply rd_feasible; eauto.
Qed.

(** *** Re-descriptions a user makes *)
(** the general constraints in another order: the j-th is the old t(j)-th *)
Definition permute_constraints (t : nat -> nat) (pb : rproblem) : rproblem :=
  Pb (S:=Rops) (p_G pb) (p_Grows pb) (p_Gcols pb) (p_a pb) (p_asize pb) (fun i j => p_C pb i (t j)) (p_Crows pb) (p_Ccols pb)
     (fun j => p_bl pb (t j)) (p_blsize pb) (fun j => p_bu pb (t j)) (p_busize pb) (p_xl pb) (p_xlsize pb) (p_xu pb) (p_xusize pb).
(** some general constraints l <= c'x <= u written -u <= -c'x <= -l *)
Definition negate_constraints (sel : nat -> bool) (pb : rproblem) : rproblem :=
  Pb (S:=Rops) (p_G pb) (p_Grows pb) (p_Gcols pb) (p_a pb) (p_asize pb) (fun i j => if sel j then - p_C pb i j else p_C pb i j) (p_Crows pb) (p_Ccols pb)
     (fun j => if sel j then option_map Ropp (p_bu pb j) else p_bl pb j) (p_blsize pb)
     (fun j => if sel j then option_map Ropp (p_bl pb j) else p_bu pb j) (p_busize pb) (p_xl pb) (p_xlsize pb) (p_xu pb) (p_xusize pb).
(** bounds given as general constraints, rows of the identity matrix *)
Definition bounds_as_constraints (pb : rproblem) : rproblem :=
  Pb (S:=Rops) (p_G pb) (p_Grows pb) (p_Gcols pb) (p_a pb) (p_asize pb)
     (fun i j => if (j <? p_Ccols pb)%nat then p_C pb i j else if (i =? j - p_Ccols pb)%nat then 1 else 0) (p_Crows pb) (p_Ccols pb + p_xlsize pb)
     (fun j => if (j <? p_Ccols pb)%nat then p_bl pb j else p_xl pb (j - p_Ccols pb)%nat) (p_Ccols pb + p_xlsize pb)
     (fun j => if (j <? p_Ccols pb)%nat then p_bu pb j else p_xu pb (j - p_Ccols pb)%nat) (p_Ccols pb + p_xlsize pb)
     (fun _ => None) 0 (fun _ => None) 0.
(** each general constraint given twice: its lower side, then its upper side *)
Definition split_constraints (pb : rproblem) : rproblem :=
  let m := p_Ccols pb in
  Pb (S:=Rops) (p_G pb) (p_Grows pb) (p_Gcols pb) (p_a pb) (p_asize pb) (fun i j => p_C pb i (if (j <? m)%nat then j else j - m)%nat) (p_Crows pb) (m + m)
     (fun j => if (j <? m)%nat then p_bl pb j else None) (m + m) (fun j => if (j <? m)%nat then None else p_bu pb (j - m)%nat) (m + m)
     (p_xl pb) (p_xlsize pb) (p_xu pb) (p_xusize pb).
(** the j-th general constraint multiplied by k(j) *)
Definition scale_constraints (k : nat -> R) (pb : rproblem) : rproblem :=
  Pb (S:=Rops) (p_G pb) (p_Grows pb) (p_Gcols pb) (p_a pb) (p_asize pb) (fun i j => k j * p_C pb i j) (p_Crows pb) (p_Ccols pb)
     (fun j => option_map (Rmult (k j)) (p_bl pb j)) (p_blsize pb) (fun j => option_map (Rmult (k j)) (p_bu pb j)) (p_busize pb)
     (p_xl pb) (p_xlsize pb) (p_xu pb) (p_xusize pb).
(** the cost multiplied by k *)
Definition scale_cost (k : R) (pb : rproblem) : rproblem :=
  Pb (S:=Rops) (fun i j => k * p_G pb i j) (p_Grows pb) (p_Gcols pb) (fun i => k * p_a pb i) (p_asize pb) (p_C pb) (p_Crows pb) (p_Ccols pb)
     (p_bl pb) (p_blsize pb) (p_bu pb) (p_busize pb) (p_xl pb) (p_xlsize pb) (p_xu pb) (p_xusize pb).
Definition permutation_below (n : nat) (t : nat -> nat) : Prop := exists u, forall j, (j < n)%nat -> (t j < n)%nat /\ (u j < n)%nat /\ t (u j) = j /\ u (t j) = j.

Lemma sizes_facts (pb : rproblem) : sizes_ok pb = true <-> p_Gcols pb = p_Grows pb /\ p_asize pb = p_Grows pb /\ p_Crows pb = p_Grows pb /\ p_blsize pb = p_Ccols pb /\
  p_busize pb = p_Ccols pb /\ (p_xlsize pb = p_Grows pb \/ p_xlsize pb = 0%nat) /\ p_xusize pb = p_xlsize pb.
Proof. unfold sizes_ok. rewrite !andb_true_iff, orb_true_iff, !Nat.eqb_eq. tauto. Qed.
Lemma same_cost_refl (pb pb' : rproblem) : p_G pb' = p_G pb -> p_Grows pb' = p_Grows pb -> p_a pb' = p_a pb -> same_cost pb pb'.
Proof. intros E1 E2 E3. unfold same_cost, nv, hess. rewrite E1, E2, E3. auto. Qed.

Theorem C71_permuted : forall pb t, suited pb -> permutation_below (nc pb) t -> equalities_first (permute_constraints t pb) ->
  exists B, forall st1 s1 st2 s2, call B pb st1 s1 -> call B (permute_constraints t pb) st2 s2 -> same_outcome st1 s1 st2 s2.
Proof.
  intros pb t S1 (u & Hu) Hf. set (pb' := permute_constraints t pb) in *.
  apply (C71_same_answer pb pb' (fun j => if (j <? nc pb)%nat then t j else j) (fun _ => false)); auto.
  { apply sizes_facts. apply (proj1 (sizes_facts pb) (proj1 S1)). }
  assert (R1 : forall j, (j < ncb pb)%nat -> ((if (j <? nc pb)%nat then t j else j) < ncb pb)%nat).
  { intros j Hj. destruct (Nat.ltb_spec j (nc pb)); [|exact Hj]. pose proof (proj1 (Hu j H)). unfold ncb. lia. }
  assert (CU : forall j, (j < ncb pb)%nat -> clo pb' j = clo pb (if (j <? nc pb)%nat then t j else j) /\ cup pb' j = cup pb (if (j <? nc pb)%nat then t j else j) /\ cvec pb' j = cvec pb (if (j <? nc pb)%nat then t j else j)).
  { intros j Hj. unfold clo, cup, cvec. change (nc pb') with (nc pb). destruct (Nat.ltb_spec j (nc pb)) as [H|H].
    - destruct (Nat.ltb_spec (t j) (nc pb)) as [H'|H']; [repeat split|]. pose proof (proj1 (Hu j H)). lia.
    - destruct (Nat.ltb_spec j (nc pb)); [lia|]. repeat split. }
  change (ncb pb') with (ncb pb) in *.
  constructor; change (ncb pb') with (ncb pb).
  - apply same_cost_refl; reflexivity.
  - exact R1.
  - intros j a Hj Ha. destruct (CU j Hj) as (_ & _ & ->). ring.
  - intros j Hj. left. apply (CU j Hj).
  - intros j Hj. left. apply (CU j Hj).
  - intros i Hi Hn. exists (if (i <? nc pb)%nat then u i else i). destruct (Nat.ltb_spec i (nc pb)) as [H|H].
    + destruct (Hu i H) as (A1 & A2 & A3 & A4). split; [unfold ncb; lia|]. destruct (CU (u i)) as (-> & _); [unfold ncb; lia|].
      destruct (Nat.ltb_spec (u i) (nc pb)); [|lia]. rewrite A3. auto.
    + split; [auto|]. destruct (CU i Hi) as (-> & _). destruct (Nat.ltb_spec i (nc pb)); [lia|]. auto.
  - intros i Hi Hn. exists (if (i <? nc pb)%nat then u i else i). destruct (Nat.ltb_spec i (nc pb)) as [H|H].
    + destruct (Hu i H) as (A1 & A2 & A3 & A4). split; [unfold ncb; lia|]. destruct (CU (u i)) as (_ & -> & _); [unfold ncb; lia|].
      destruct (Nat.ltb_spec (u i) (nc pb)); [|lia]. rewrite A3. auto.
    + split; [auto|]. destruct (CU i Hi) as (_ & -> & _). destruct (Nat.ltb_spec i (nc pb)); [lia|]. auto.
  - intros j k Hj Hk _ _ E. destruct (Nat.ltb_spec j (nc pb)) as [H|H], (Nat.ltb_spec k (nc pb)) as [H'|H']; auto.
    + destruct (Hu j H) as (_ & _ & _ & A). destruct (Hu k H') as (_ & _ & _ & A'). congruence.
    + pose proof (proj1 (Hu j H)). lia.
    + pose proof (proj1 (Hu k H')). lia.
Qed.
Theorem C71_negated : forall pb sel, suited pb ->
  exists B, forall st1 s1 st2 s2, call B pb st1 s1 -> call B (negate_constraints sel pb) st2 s2 -> same_outcome st1 s1 st2 s2.
Proof.
  intros pb sel S1. set (pb' := negate_constraints sel pb) in *. set (flip := fun j => (j <? nc pb)%nat && sel j).
  assert (CU : forall j, (j < ncb pb)%nat -> clo pb' j = side_lo pb (flip j) j /\ cup pb' j = side_up pb (flip j) j /\ forall a, cvec pb' j a = (if flip j then -1 else 1) * cvec pb j a).
  { intros j Hj. unfold side_lo, side_up, clo, cup, cvec, flip. change (nc pb') with (nc pb). destruct (Nat.ltb_spec j (nc pb)) as [H|H]; cbn.
    - destruct (sel j); (split; [|split]; auto); intros a; generalize (p_C pb a j : R); intros v; [change (- v = -1 * v)|change (v = 1 * v)]; ring.
    - split; [|split]; auto. intros a; ring. }
  assert (EQ : forall j, (j < ncb pb)%nat -> is_equality pb' j -> is_equality pb j).
  { intros j Hj (b & E1 & E2). destruct (CU j Hj) as (C1 & C2 & _). rewrite E1 in C1. rewrite E2 in C2. unfold side_lo, side_up in *. destruct (flip j).
    - destruct (cup pb j) as [u|] eqn:Eu, (clo pb j) as [l|] eqn:El; try discriminate. cbn in C1, C2. injection C1 as C1. injection C2 as C2. exists l. split; [exact El|]. rewrite Eu. f_equal. lra.
    - exists b. auto. }
  assert (QE : forall j, (j < ncb pb)%nat -> is_equality pb j -> is_equality pb' j).
  { intros j Hj (b & E1 & E2). destruct (CU j Hj) as (C1 & C2 & _). unfold side_lo, side_up in *. rewrite E1, E2 in *. destruct (flip j); [exists (- b)|exists b]; cbn in *; auto. }
  change (ncb pb) with (ncb pb') in EQ, QE. apply (C71_same_answer pb pb' (fun j => j) flip); auto.
  { apply sizes_facts. apply (proj1 (sizes_facts pb) (proj1 S1)). }
  { intros i j Hij Hj HE. apply QE; [lia|]. destruct S1 as (_ & _ & _ & S1 & _). apply (S1 i j Hij Hj). apply EQ; auto. }
  constructor; change (ncb pb') with (ncb pb).
  - apply same_cost_refl; reflexivity.
  - auto.
  - intros j a Hj Ha. destruct (CU j Hj) as (_ & _ & ->). reflexivity.
  - intros j Hj. left. apply (CU j Hj).
  - intros j Hj. left. apply (CU j Hj).
  - intros i Hi Hn. exists i. split; [auto|]. split; [auto|]. destruct (CU i Hi) as (-> & -> & _). unfold side_lo, side_up. destruct (flip i); [destruct (clo pb i)|]; cbn; congruence.
  - intros i Hi Hn. exists i. split; [auto|]. split; [auto|]. destruct (CU i Hi) as (-> & -> & _). unfold side_lo, side_up. destruct (flip i); [destruct (cup pb i)|]; cbn; congruence.
  - auto.
Qed.
Lemma bounds_redescribed pb : suited pb -> let pb' := bounds_as_constraints pb in sizes_ok pb' = true /\ equalities_first pb' /\ redescribes pb pb' (fun j => j) (fun _ => false).
Proof.
  intros S1 pb'.
  assert (EN : ncb pb' = ncb pb) by (unfold ncb, nc, nb, pb'; cbn; lia).
  assert (CU : forall j, (j < ncb pb)%nat -> clo pb' j = clo pb j /\ cup pb' j = cup pb j /\ forall a, cvec pb' j a = cvec pb j a).
  { intros j Hj. unfold clo, cup, cvec. change (nc pb') with (nc pb + nb pb)%nat. fold (ncb pb). destruct (Nat.ltb_spec j (ncb pb)) as [_|H]; [|lia].
    change (p_bl pb' j) with (if (j <? nc pb)%nat then p_bl pb j else p_xl pb (j - nc pb)%nat). change (p_bu pb' j) with (if (j <? nc pb)%nat then p_bu pb j else p_xu pb (j - nc pb)%nat). split; [reflexivity|]. split; [reflexivity|]. intros a.
    change (p_C pb' a j) with (if (j <? nc pb)%nat then p_C pb a j else if (a =? j - nc pb)%nat then 1 else 0). destruct (j <? nc pb)%nat; reflexivity. }
  assert (EQ : forall j, (j < ncb pb)%nat -> is_equality pb' j <-> is_equality pb j) by (intros j Hj; unfold is_equality; destruct (CU j Hj) as (-> & -> & _); tauto).
  split; [|split].
  { pose proof (proj1 (sizes_facts pb) (proj1 S1)). apply sizes_facts. cbn. tauto. }
  { intros i j Hij Hj HE. rewrite EN in Hj. apply EQ; [lia|]. destruct S1 as (_ & _ & _ & S1 & _). apply (S1 i j Hij Hj). apply EQ; auto. }
  constructor; rewrite ?EN.
  - apply same_cost_refl; reflexivity.
  - auto.
  - intros j a Hj Ha. destruct (CU j Hj) as (_ & _ & ->). ring.
  - intros j Hj. left. apply (CU j Hj).
  - intros j Hj. left. apply (CU j Hj).
  - intros i Hi Hn. exists i. destruct (CU i Hi) as (-> & _). auto.
  - intros i Hi Hn. exists i. destruct (CU i Hi) as (_ & -> & _). auto.
  - auto.
Qed.
Theorem C71_bounds_as_constraints : forall pb, suited pb ->
  exists B, forall st1 s1 st2 s2, call B pb st1 s1 -> call B (bounds_as_constraints pb) st2 s2 -> same_outcome st1 s1 st2 s2.
Proof. intros pb S1. destruct (bounds_redescribed pb S1) as (A & A2 & A3). apply (C71_same_answer pb _ _ _ S1 A A2 A3). Qed.
Theorem C71_split : forall pb, suited pb -> (forall i l u, (i < nb pb)%nat -> p_xl pb i = Some l -> p_xu pb i = Some u -> l < u) ->
  exists B, forall st1 s1 st2 s2, call B pb st1 s1 -> call B (split_constraints pb) st2 s2 -> same_outcome st1 s1 st2 s2.
Proof.
  intros pb S1 Hnf. set (pb' := split_constraints pb) in *. set (m := nc pb) in *.
  assert (EN : ncb pb' = (m + ncb pb)%nat) by (unfold ncb, nc, nb, pb', m; cbn; unfold nc; lia).
  assert (NE : forall j, (j < ncb pb')%nat -> ~ is_equality pb' j).
  { intros j Hj (b & E1 & E2). unfold clo, cup in *. change (nc pb') with (m + m)%nat in *. destruct (Nat.ltb_spec j (m + m)) as [H|H].
    - change (p_bl pb' j) with (if (j <? m)%nat then p_bl pb j else None) in E1. change (p_bu pb' j) with (if (j <? m)%nat then None else p_bu pb (j - m)%nat) in E2. destruct (Nat.ltb_spec j m); discriminate.
    - cbn in E1, E2. assert (b < b); [|lra]. apply (Hnf (j - (m + m))%nat); auto. rewrite EN in Hj. unfold ncb in Hj. fold m in Hj. lia. }
  apply (C71_same_answer pb pb' (fun j => if (j <? m)%nat then j else (j - m)%nat) (fun _ => false)); auto.
  { pose proof (proj1 (sizes_facts pb) (proj1 S1)). apply sizes_facts. cbn. tauto. }
  { intros i j Hij Hj HE. destruct (NE j Hj HE). }
  assert (CL : forall j, (j < ncb pb')%nat -> clo pb' j = if (j <? m)%nat then clo pb j else if (j <? m + m)%nat then None else clo pb (j - m)%nat).
  { intros j Hj. unfold clo. change (nc pb') with (m + m)%nat. fold m. change (p_bl pb' j) with (if (j <? m)%nat then p_bl pb j else None).
    destruct (Nat.ltb_spec j (m + m)), (Nat.ltb_spec j m), (Nat.ltb_spec (j - m) m); try lia; try reflexivity. change (p_xl pb') with (p_xl pb). f_equal. lia. }
  assert (CU : forall j, (j < ncb pb')%nat -> cup pb' j = if (j <? m)%nat then None else cup pb (j - m)%nat).
  { intros j Hj. unfold cup. change (nc pb') with (m + m)%nat. fold m. change (p_bu pb' j) with (if (j <? m)%nat then None else p_bu pb (j - m)%nat).
    destruct (Nat.ltb_spec j (m + m)), (Nat.ltb_spec j m), (Nat.ltb_spec (j - m) m); try lia; try reflexivity. change (p_xu pb') with (p_xu pb). f_equal. lia. }
  constructor.
  - apply same_cost_refl; reflexivity.
  - intros j Hj. rewrite EN in Hj. assert (ncb pb = (m + nb pb)%nat) by reflexivity. destruct (Nat.ltb_spec j m); lia.
  - intros j a Hj Ha. unfold cvec. change (nc pb') with (m + m)%nat. fold m. change (fun a0 : nat => p_C pb' a0 j) with (fun a0 : nat => p_C pb a0 (if (j <? m)%nat then j else (j - m)%nat)).
    destruct (Nat.ltb_spec j (m + m)), (Nat.ltb_spec j m), (Nat.ltb_spec (j - m) m); try lia; rewrite ?Rmult_1_l; try reflexivity.
    + destruct (Nat.ltb_spec j m); [reflexivity|lia].
    + replace (j - m - m)%nat with (j - (m + m))%nat by lia. reflexivity.
  - intros j Hj. rewrite CL by auto. unfold side_lo. destruct (j <? m)%nat; [auto|]. destruct (j <? m + m)%nat; auto.
  - intros j Hj. rewrite CU by auto. unfold side_up. destruct (j <? m)%nat; auto.
  - intros i Hi Hn. destruct (Nat.ltb_spec i m) as [H|H].
    + exists i. split; [lia|]. rewrite CL by lia. destruct (Nat.ltb_spec i m); [auto|lia].
    + exists (i + m)%nat. split; [lia|]. rewrite CL by lia. destruct (Nat.ltb_spec (i + m) m); [lia|]. destruct (Nat.ltb_spec (i + m) (m + m)); [lia|]. replace (i + m - m)%nat with i by lia. auto.
  - intros i Hi Hn. exists (i + m)%nat. split; [lia|]. rewrite CU by lia. destruct (Nat.ltb_spec (i + m) m); [lia|]. replace (i + m - m)%nat with i by lia. auto.
  - intros j k Hj Hk HE. destruct (NE j Hj HE).
Qed.
(** Scaling changes which directions fall below the tolerance 1e-14, so the scaled problem has to be suited too. *)
Theorem C71_scaled_constraints : forall pb k, suited pb -> suited (scale_constraints k pb) -> (forall j, (j < nc pb)%nat -> 0 < k j) ->
  exists B, forall st1 s1 st2 s2, call B pb st1 s1 -> call B (scale_constraints k pb) st2 s2 -> same_outcome st1 s1 st2 s2.
Proof.
  intros pb k S1 S2 Hk. apply same_problem_outcome; auto; [apply same_cost_refl; reflexivity|].
  intros x. unfold feasible. change (nc (scale_constraints k pb)) with (nc pb). change (nb (scale_constraints k pb)) with (nb pb). change (nv (scale_constraints k pb)) with (nv pb). cbn [scale_constraints p_C p_bl p_bu p_xl p_xu].
  assert (E : forall j, rdot (nv pb) (fun i => k j * p_C pb i j) x = k j * rdot (nv pb) (fun i => p_C pb i j) x) by (intros j; rewrite !dot_def, <- sum_scal; apply sum_ext; intros; ring).
  split; intros (H1 & H2); (split; [|exact H2]); intros j Hj; specialize (H1 j Hj); specialize (Hk j Hj); rewrite E in *; destruct (p_bl pb j) as [l|], (p_bu pb j) as [u|]; cbn in *; destruct H1 as (A1 & A2); split; auto;
  try (apply (Rmult_le_reg_l (k j)); auto; fail); try (apply Rmult_le_compat_l; [lra|assumption]).
Qed.
Theorem C71_scaled_cost : forall pb k, suited pb -> suited (scale_cost k pb) -> 0 < k ->
  exists B, forall st1 s1 st2 s2, call B pb st1 s1 -> call B (scale_cost k pb) st2 s2 ->
  st1 = st2 /\ (st1 = SUCCESS -> solution s1 = solution s2 /\ objectiveValue s2 = k * objectiveValue s1).
Proof.
  intros pb k S1 S2 Hk. set (pb' := scale_cost k pb) in *.
  assert (EO : forall x, objective pb' x = k * objective pb x).
  { intros x. unfold objective. change (nv pb') with (nv pb). unfold quad.
    rewrite (sum_ext (nv pb) _ (fun i => k * (x i * rsum (nv pb) (fun j => hess pb i j * x j)))).
    - rewrite sum_scal. rewrite !dot_def. rewrite (sum_ext (nv pb) (fun i => p_a pb' i * x i) (fun i => k * (p_a pb i * x i))) by (intros; cbn; ring). rewrite sum_scal. ring.
    - intros i Hi. rewrite (sum_ext (nv pb) _ (fun j => k * (hess pb i j * x j))); [rewrite sum_scal; ring|]. intros j Hj. unfold hess, gsym. cbn. destruct (j <=? i)%nat; ring. }
  destruct (call_spec pb S1) as (B1 & H1). destruct (call_spec pb' S2) as (B2 & H2).
  exists (Rmax B1 B2). intros st1 s1 st2 s2 K1 K2. apply (call_weak _ B1) in K1; [|apply Rmax_l]. apply (call_weak _ B2) in K2; [|apply Rmax_r].
  change (forall st s', call B2 pb' st s' -> (st = SUCCESS /\ (exists lx ll s'', solution s' = Ok lx /\ multipliers s' = Ok (ll, s'') /\ length lx = nv pb /\
     kkt pb' (vec_of lx) (vec_of ll) /\ unique_minimiser pb' (vec_of lx) /\ objectiveValue s' = objective pb' (vec_of lx))) \/ (st = INFEASIBLE /\ infeasible pb)) in H2.
  destruct (H1 _ _ K1) as [(-> & a1 & b1 & c1 & Y1 & N1 & L1 & Q1 & U1 & O1)|(-> & I1)];
  (destruct (H2 _ _ K2) as [(-> & a2 & b2 & c2 & Y2 & N2 & L2 & Q2 & U2 & O2)|(-> & I2)]).
  - split; [reflexivity|]. intros _.
    assert (U2' : unique_minimiser pb (vec_of a2)).
    { destruct U2 as (F2 & U2). split; [exact F2|]. intros y Hy. specialize (U2 y Hy). rewrite !EO in U2. destruct U2 as (A & A2). split; [apply (Rmult_le_reg_l k); auto|].
      intros Hle. apply A2. apply Rmult_le_compat_l; lra. }
    assert (a1 = a2) as -> by (apply (minimiser_unique pb); [exact L1|exact L2|exact U1|exact U2']). rewrite Y1, Y2, O1, O2, EO. auto.
  - destruct (I2 (vec_of a1)). apply U1.
  - destruct (I1 (vec_of a2)). apply U2.
  - split; [reflexivity|]. intros D; discriminate D.
Qed.

(** ** The hypotheses of C71 are met *)
Lemma bounds_suited pb : suited pb -> suited (bounds_as_constraints pb).
Proof.
  intros S1. destruct (bounds_redescribed pb S1) as (A & A2 & A3). apply (rd_suited _ _ _ _ A3); auto; apply nb_le; first [exact A|apply S1].
Qed.
Ltac gap_case := intros W i z r Hi [P1 P2 P3];
  pose proof (P2 0%nat) as E0; pose proof (P2 1%nat) as E1;
  specialize (E0 ltac:(exsimp; lia)); specialize (E1 ltac:(exsimp; lia)); clear P2;
  pose proof (P3 0%nat ltac:(exsimp; lia)) as O0; pose proof (P3 1%nat ltac:(exsimp; lia)) as O1; pose proof (P3 2%nat ltac:(exsimp; lia)) as O2; clear P3;
  pose proof (P1 0%nat) as R0; pose proof (P1 1%nat) as R1; pose proof (P1 2%nat) as R2; clear P1; exsimp;
  assert (K : (z 0%nat = 0 /\ z 1%nat = 0) \/ / 100 < 0 + z 0%nat * z 0%nat + z 1%nat * z 1%nat) by
  (destruct (W 0%nat); [specialize (O0 eq_refl)|specialize (R0 eq_refl)];
    (destruct (W 1%nat); [specialize (O1 eq_refl)|specialize (R1 eq_refl)]);
    (destruct (W 2%nat); [specialize (O2 eq_refl)|specialize (R2 eq_refl)]);
    (destruct i as [|[|[|i]]]; [| | |lia]); simpl in *;
    first [left; lra | right; nra]);
  destruct K as [[K0 K1]|K];
  [left; intros a Ha; destruct a as [|[|]]; auto; lia|right; apply sqrt_eps; auto].
Lemma scaled_cost_suited b : suited (scale_cost 2 (ex_pb b)).
Proof.
  split; [reflexivity|]. split.
  { intros x (i & Hi & Hx). unfold quad. exsimp.
    assert (H : x 0%nat <> 0 \/ x 1%nat <> 0) by (destruct i as [|[|]]; [left; auto|right; auto|lia]).
    destruct H as [H|H]; apply Rsqr_pos_lt in H; unfold Rsqr in H; nra. }
  destruct (ex_suited b) as (_ & _ & A & A2 & A3 & _). split; [exact A|]. split; [exact A2|]. split; [exact A3|]. gap_case.
Qed.
Lemma scaled_constraints_suited b : suited (scale_constraints (fun _ => 2) (ex_pb b)).
Proof.
  split; [reflexivity|]. destruct (ex_suited b) as (_ & P & _). split; [exact P|].
  assert (EQ : forall i, (i < 3)%nat -> is_equality (scale_constraints (fun _ => 2) (ex_pb b)) i -> i = 0%nat).
  { intros i Hi (c & H1 & H2). exsimp. destruct i; auto. discriminate. }
  split. { intros i l u Hi Hl Hu. exsimp. destruct i as [|i]; simpl in *; [|discriminate]. injection Hl as <-. injection Hu as <-. lra. }
  split. { intros i j Hij Hj Hq. apply EQ in Hq; auto. lia. }
  split; [|gap_case].
  intros w Hn H i Hi. change (ncb (scale_constraints (fun _ => 2) (ex_pb b))) with 3%nat in *.
  assert (Hne : forall k, (k < 3)%nat -> k <> 0%nat -> w k = 0) by (intros k Hk Hk0; apply Hn; auto).
  pose proof (H 0%nat) as H0. specialize (H0 ltac:(exsimp; lia)).
  pose proof (Hne 1%nat ltac:(lia) ltac:(lia)). pose proof (Hne 2%nat ltac:(lia) ltac:(lia)).
  exsimp. destruct i as [|[|[|]]]; auto; try lia. lra.
Qed.
(** x + y = b and the two bounds as three general constraints, the last two exchanged *)
Definition swap12 (j : nat) : nat := match j with 1 => 2 | 2 => 1 | _ => j end.
Example C71_nonvacuous b : suited (ex_pb b) /\ suited (bounds_as_constraints (ex_pb b)) /\ permutation_below (nc (bounds_as_constraints (ex_pb b))) swap12 /\
  equalities_first (permute_constraints swap12 (bounds_as_constraints (ex_pb b))) /\
  (forall i l u, (i < nb (ex_pb b))%nat -> p_xl (ex_pb b) i = Some l -> p_xu (ex_pb b) i = Some u -> l < u) /\
  suited (scale_cost 2 (ex_pb b)) /\ suited (scale_constraints (fun _ => 2) (ex_pb b)).
Proof.
  split; [apply ex_suited|]. split; [apply bounds_suited, ex_suited|]. split.
  { exists swap12. change (nc (bounds_as_constraints (ex_pb b))) with 3%nat. intros [|[|[|j]]] Hj; cbn; lia. }
  split. { intros i j Hij Hj (c & H1 & H2). change (ncb (permute_constraints swap12 (bounds_as_constraints (ex_pb b)))) with 3%nat in Hj.
    destruct j as [|[|[|j]]]; try lia; exsimp; discriminate. }
  split; [cbn; discriminate|]. split; [apply scaled_cost_suited|apply scaled_constraints_suited].
Qed.

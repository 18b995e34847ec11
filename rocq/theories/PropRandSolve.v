(** C74: the tests "Random problems" and "Multiple uses" of
    tests/GoldfarbIdnaniSolverTest.cpp (lines 75-135) pass for every draw.  Exact arithmetic. *)
From Coq Require Import List Arith ZArith Lia Bool Reals Lra FunctionalExtensionality.
From Verif Require Import Base ActiveSet Num Solver LinAlg QPSpec GIBase GITotal GITerm GIRun GIInit GIMult GIFinal GIHist GISame Limits LimitsEx
  TestPb PropTest Random RandomProofs RandomRank RandomMain PropRandom Adapt PropAdapt
  GISafe Warm WarmAS WarmQR WarmOpt WarmHot WarmHist TwinStart PropTwins PropWarm.
Import ListNotations.
Local Open Scope R_scope.

(** * Specification *)
(** The call solver.solve(qpp.G, qpp.a, qpp.C.transpose(), qpp.l, qpp.u, qpp.xl, qpp.xu)
    (tests/GoldfarbIdnaniSolverTest.cpp:91) *)
Definition test_call (q : qpproblem fcstr) : rproblem :=
  let c := qpF q in
  Pb (S:=Rops) (ma (qpG q)) (mr (qpG q)) (mc (qpG q)) (va (qpa q)) (vn (qpa q)) (fun i j => ma (fC c) j i) (mc (fC c)) (mr (fC c))
     (ba (fl c)) (bn (fl c)) (ba (fu c)) (bn (fu c)) (ba (fxl c)) (bn (fxl c)) (ba (fxu c)) (bn (fxu c)).

(** The columns of the objective's matrix are independent *)
Definition full_column_rank (A : dmat) : Prop :=
  forall v, (forall k, (k < mr A)%nat -> prod A v k = 0) -> forall a, (a < mc A)%nat -> v a = 0.
(** The constraints that the announced solution saturates have independent normals *)
Definition tight_independent (p : rlsproblem) : Prop :=
  forall we wi wb : nat -> R,
  (forall k, (k < mr (pC p))%nat -> wi k <> 0 ->
     ba (pl p) k = Some (prod (pC p) (va (r_x p)) k) \/ ba (pu p) k = Some (prod (pC p) (va (r_x p)) k)) ->
  (forall a, (a < bn (pxl p))%nat -> wb a <> 0 ->
     ba (pxl p) a = Some (va (r_x p) a) \/ ba (pxu p) a = Some (va (r_x p) a)) ->
  (forall a, (a < mc (pA p))%nat ->
     rsum (mr (pE p)) (fun k => ma (pE p) k a * we k) + rsum (mr (pC p)) (fun k => ma (pC p) k a * wi k)
     + (if (a <? bn (pxl p))%nat then wb a else 0) = 0) ->
  (forall k, (k < mr (pE p))%nat -> we k = 0) /\ (forall k, (k < mr (pC p))%nat -> wi k = 0) /\
  (forall a, (a < bn (pxl p))%nat -> wb a = 0).

(** What the test checks after the call, the comparisons being exact *)
Definition checks_hold (p : rlsproblem) (q : qpproblem fcstr) (x lam : list R) : Prop :=
  (forall tp td, 0 <= tp -> 0 <= td ->
     testKKT (DV (length x) (vec_of x)) (DV (length lam) (vec_of lam)) (qpG q) (qpa q) (fC (qpF q))
       (fl (qpF q)) (fu (qpF q)) (fxl (qpF q)) (fxu (qpF q)) false tp td = Ok true) /\
  length x = vn (r_x p) /\ (forall i, (i < vn (r_x p))%nat -> vec_of x i = va (r_x p) i) /\
  length lam = (mr (pE p) + mr (pC p) + bn (pxl p))%nat /\
  (forall i, (i < mr (pE p))%nat -> vec_of lam i = va (r_le p) i) /\
  (forall i, (i < mr (pC p))%nat -> vec_of lam (mr (pE p) + i)%nat = va (r_li p) i) /\
  (forall i, (i < bn (pxl p))%nat -> vec_of lam (mr (pE p) + mr (pC p) + i)%nat = va (r_lb p) i).

(** * Proofs *)
Lemma mult_split (p : rlsproblem) c : dims_as_asked c p -> forall lam a,
  rsum (mr (pE p) + mr (pC p)) (fun j => (if (j <? mr (pE p))%nat then ma (pE p) j a else ma (pC p) (j - mr (pE p))%nat a) * lam j)
  = rsum (mr (pE p)) (fun k => ma (pE p) k a * lam k) + rsum (mr (pC p)) (fun k => ma (pC p) k a * lam (mr (pE p) + k)%nat).
Proof.
  intros _ lam a. rewrite sum_app. f_equal; apply sum_ext; intros k Hk.
  - destruct (Nat.ltb_spec k (mr (pE p))); [reflexivity|lia].
  - destruct (Nat.ltb_spec (mr (pE p) + k) (mr (pE p))); [lia|]. replace (mr (pE p) + k - mr (pE p))%nat with k by lia. reflexivity.
Qed.

Lemma test_call_shape c p q : dims_as_asked c p -> ft (sbase (lsF (r_pb p))) = false -> qp_of_ls joint_of_sep (r_pb p) = Ok q ->
  let t := test_call q in
  nv t = mc (pA p) /\ nc t = (mr (pE p) + mr (pC p))%nat /\ nb t = bn (pxl p) /\
  (forall i j, p_C t i j = if (j <? mr (pE p))%nat then ma (pE p) j i else ma (pC p) (j - mr (pE p))%nat i) /\
  (forall j, p_bl t j = if (j <? mr (pE p))%nat then Some (va (pf p) j) else ba (pl p) (j - mr (pE p))%nat) /\
  (forall j, p_bu t j = if (j <? mr (pE p))%nat then Some (va (pf p) j) else ba (pu p) (j - mr (pE p))%nat) /\
  p_xl t = ba (pxl p) /\ p_xu t = ba (pxu p) /\
  (forall i j, p_G t i j = rsum (mr (pA p)) (fun k => ma (pA p) k i * ma (pA p) k j)) /\
  t = qp_of (qpG q) (qpa q) (fC (qpF q)) (fl (qpF q)) (fu (qpF q)) (fxl (qpF q)) (fxu (qpF q)) false /\
  ft (qpF q) = false /\ mc (qpG q) = mc (pA p) /\ mr (qpG q) = mc (pA p) /\ vn (qpa q) = mc (pA p).
Proof.
  intros D Hft Hq.
  destruct D as [[DA1 [DA2 DA3]] [DE1 [DE2 DE3]] [DC1 [DC2 [DC3 DC4]]] [DB1 DB2] [DX1 [DX2 [DX3 DX4]]]].
  unfold qp_of_ls in Hq. apply bind_ok in Hq as (f & Hf & Hq). apply guard_ok in Hq as [Hg Hq]. injection Hq as <-.
  unfold joint_of_sep in Hf. apply bind_ok in Hf as (wf & Hwf & Hf). apply guard_ok in Hf as [_ Hf]. rewrite Hft in Hf. injection Hf as <-.
  unfold test_call. cbn [qpG qpa qpF fC fl fu fxl fxu ft bn ba mr mc ma va vn].
  change (lsA (r_pb p)) with (pA p) in *. change (lsb (r_pb p)) with (pb_ p) in *. change (sE (lsF (r_pb p))) with (pE p) in *.
  change (sf (lsF (r_pb p))) with (pf p) in *. change (fC (sbase (lsF (r_pb p)))) with (pC p) in *. change (fl (sbase (lsF (r_pb p)))) with (pl p) in *.
  change (fu (sbase (lsF (r_pb p)))) with (pu p) in *. change (fxl (sbase (lsF (r_pb p)))) with (pxl p) in *. change (fxu (sbase (lsF (r_pb p)))) with (pxu p) in *.
  unfold nv, nc, nb. cbn [p_Grows p_Ccols p_xlsize p_C p_bl p_bu p_xl p_xu p_G].
  split; [reflexivity|]. split; [lia|]. split; [reflexivity|].
  split; [reflexivity|]. split; [rewrite DE3, DE1; reflexivity|]. split; [rewrite DE3, DE1; reflexivity|].
  split; [reflexivity|]. split; [reflexivity|]. split; [reflexivity|].
  split; [|auto]. unfold qp_of. cbn [ma mr mc va vn ba bn]. f_equal; [congruence|lia].
Qed.

Lemma gi_pb_test c p q : dims_as_asked c p -> ft (sbase (lsF (r_pb p))) = false -> qp_of_ls joint_of_sep (r_pb p) = Ok q ->
  let A := pA p in
  let q0 := QP (lsF (r_pb p)) (DM (mc A) (mc A) (fun i j => rsum (mr A) (fun k => ma A k i * ma A k j)))
            (DV (mc A) (fun i => rsum (mr A) (fun k => - ma A k i * va (pb_ p) k))) 0 in
  exists g, gi_pb q0 = Ok g /\ call_of g = test_call q /\ qpsep_wf q0 = Ok true.
Proof.
  intros D Hft Hq A q0.
  destruct D as [[DA1 [DA2 DA3]] [DE1 [DE2 DE3]] [DC1 [DC2 [DC3 DC4]]] [DB1 DB2] [DX1 [DX2 [DX3 DX4]]]].
  unfold qp_of_ls in Hq. apply bind_ok in Hq as (f & Hf & Hq). apply guard_ok in Hq as [Hg Hq]. injection Hq as <-.
  assert (W : sc_wellFormed (lsF (r_pb p)) = Ok true).
  { unfold joint_of_sep in Hf. apply bind_ok in Hf as (wf & Hwf & Hf). apply guard_ok in Hf as [-> _]. exact Hwf. }
  assert (Ff : ft f = false).
  { unfold joint_of_sep in Hf. rewrite W in Hf. cbn [bind guard] in Hf. injection Hf as <-. exact Hft. }
  unfold gi_pb, qp_of_qp. cbn [qpF q0]. rewrite Hf. cbn [bind qpF qpG qpa qpcst]. eexists. split; [reflexivity|]. split.
  - unfold call_of, test_call. cbn [qpF qpG qpa fC fl fu fxl fxu ft]. rewrite Ff. reflexivity.
  - unfold qpsep_wf, qp_wellFormed. cbn [q0 qpF qpG qpa]. rewrite W. cbn [bind]. rewrite Hft. cbn [mc vn].
    change (fC (sbase (lsF (r_pb p)))) with (pC p). change (mc A) with (mc (pA p)). rewrite DC2, DA2, !Nat.eqb_refl. reflexivity.
Qed.

Lemma gram_posdef (A : dmat) : full_column_rank A ->
  posdef (mc A) (fun i j => rsum (mr A) (fun k => ma A k i * ma A k j)).
Proof.
  intros H v (a & Ha & Hv). unfold quad.
  assert (E : rsum (mc A) (fun i => v i * rsum (mc A) (fun j => rsum (mr A) (fun k => ma A k i * ma A k j) * v j))
    = rsum (mr A) (fun k => prod A v k * prod A v k)).
  { rewrite (sum_ext (mc A) _ (fun i => rsum (mr A) (fun k => ma A k i * v i * prod A v k))).
    - rewrite sum_swap. apply sum_ext. intros k _. rewrite sum_scal_r. reflexivity.
    - intros i _. rewrite (sum_ext (mc A) _ (fun j => rsum (mr A) (fun k => ma A k i * (ma A k j * v j)))).
      + rewrite sum_swap, <- sum_scal. apply sum_ext. intros k _. rewrite sum_scal. unfold prod. ring.
      + intros j _. rewrite <- sum_scal_r. apply sum_ext. intros k _. ring. }
  assert (P : forall k, (k < mr A)%nat -> 0 <= prod A v k * prod A v k) by (intros; nra).
  destruct (Rle_lt_or_eq_dec 0 (rsum (mr A) (fun k => prod A v k * prod A v k))) as [L|Z]; [apply sum_nonneg; exact P|rewrite E; exact L|].
  exfalso. apply Hv. apply H; auto. intros k Hk. pose proof (sum_nonneg_zero _ _ P (eq_sym Z) k Hk) as K. cbv beta in K. nra.
Qed.

(** Independence of the saturated normals gives that of the equalities *)
Lemma tight_eq_independent c p q : dims_as_asked c p -> ft (sbase (lsF (r_pb p))) = false -> announced p -> qp_of_ls joint_of_sep (r_pb p) = Ok q ->
  tight_independent p -> eq_independent (test_call q).
Proof.
  intros D Hft An Hq TI. destruct (test_call_shape c p q D Hft Hq) as (N1 & N2 & N3 & EC & EL & EU & EXL & EXU & _).
  intros w Hw Hs. set (t := test_call q) in *.
  assert (Fe : satisfies p (va (r_x p))) by apply An. destruct Fe as (_ & FC_ & FB_).
  assert (HQ : forall i, (i < ncb t)%nat -> w i <> 0 -> is_equality t i).
  { intros i Hi Hn. destruct (eqb_c_spec t i) as [Q|Q]; [exact Q|]. exfalso. apply Hn, Hw; auto. }
  assert (HN : ncb t = (mr (pE p) + mr (pC p) + bn (pxl p))%nat) by (unfold ncb; rewrite N2, N3; reflexivity).
  destruct (TI w (fun k => w (mr (pE p) + k)%nat) (fun a => w (mr (pE p) + mr (pC p) + a)%nat)) as (Z1 & Z2 & Z3).
  - intros k Hk Hn. destruct (HQ (mr (pE p) + k)%nat ltac:(lia) Hn) as (b & L_ & U_).
    unfold clo, cup in L_, U_. rewrite N2, (proj2 (Nat.ltb_lt _ _)) in L_, U_ by lia. rewrite EL in L_. rewrite EU in U_.
    rewrite (proj2 (Nat.ltb_ge _ _)) in L_, U_ by lia. replace (mr (pE p) + k - mr (pE p))%nat with k in L_, U_ by lia.
    destruct (FC_ k Hk) as [F1 F2]. specialize (F1 b L_). specialize (F2 b U_). left. rewrite L_. f_equal. lra.
  - intros a Ha Hn. destruct (HQ (mr (pE p) + mr (pC p) + a)%nat ltac:(lia) Hn) as (b & L_ & U_).
    unfold clo, cup in L_, U_. rewrite N2, (proj2 (Nat.ltb_ge _ _)) in L_, U_ by lia. rewrite EXL in L_. rewrite EXU in U_.
    replace (mr (pE p) + mr (pC p) + a - (mr (pE p) + mr (pC p)))%nat with a in L_, U_ by lia.
    destruct (FB_ a Ha) as [F1 F2]. specialize (F1 b L_). specialize (F2 b U_). left. rewrite L_. f_equal. lra.
  - intros a Ha. rewrite <- N1 in Ha. specialize (Hs a Ha). rewrite HN, sum_app in Hs. rewrite <- (mult_split p c D w a).
    eapply eq_trans; [|exact Hs]. f_equal.
    + apply sum_ext. intros k Hk. unfold cvec. rewrite N2, (proj2 (Nat.ltb_lt k (mr (pE p) + mr (pC p)))) by lia. rewrite EC. destruct (k <? mr (pE p))%nat; apply Rmult_comm.
    + rewrite (sum_ext (bn (pxl p)) _ (fun i => if (i =? a)%nat then w (mr (pE p) + mr (pC p) + i)%nat else 0)).
      * destruct (Nat.ltb_spec a (bn (pxl p))).
        -- symmetry. apply (sum_delta _ a (fun i => w (mr (pE p) + mr (pC p) + i)%nat)). auto.
        -- symmetry. apply sum_zero. intros i Hi. destruct (Nat.eqb_spec i a); [lia|reflexivity].
      * intros i Hi. unfold cvec. rewrite N2, (proj2 (Nat.ltb_ge _ _)) by lia.
        replace (mr (pE p) + mr (pC p) + i - (mr (pE p) + mr (pC p)))%nat with i by lia. rewrite Nat.eqb_sym. destruct (i =? a)%nat; ring.
  - intros i Hi. rewrite HN in Hi. destruct (Nat.lt_ge_cases i (mr (pE p))); [auto|].
    destruct (Nat.lt_ge_cases i (mr (pE p) + mr (pC p))).
    + specialize (Z2 (i - mr (pE p))%nat ltac:(lia)). cbv beta in Z2. replace (mr (pE p) + (i - mr (pE p)))%nat with i in Z2 by lia. exact Z2.
    + specialize (Z3 (i - (mr (pE p) + mr (pC p)))%nat ltac:(lia)). cbv beta in Z3.
      replace (mr (pE p) + mr (pC p) + (i - (mr (pE p) + mr (pC p))))%nat with i in Z3 by lia. exact Z3.
Qed.

(** Two sets of multipliers at the announced point are the same *)
Lemma multipliers_unique c p q lam lam' : dims_as_asked c p -> ft (sbase (lsF (r_pb p))) = false -> qp_of_ls joint_of_sep (r_pb p) = Ok q ->
  tight_independent p -> kkt (test_call q) (va (r_x p)) lam -> kkt (test_call q) (va (r_x p)) lam' ->
  forall i, (i < mr (pE p) + mr (pC p) + bn (pxl p))%nat -> lam i = lam' i.
Proof.
  intros D Hft Hq TI [S1 F1 C1 B1] [S2 F2 C2 B2]. destruct (test_call_shape c p q D Hft Hq) as (N1 & N2 & N3 & EC & EL & EU & EXL & EXU & _).
  set (t := test_call q) in *.
  destruct D as [[DA1 [DA2 DA3]] [DE1 [DE2 DE3]] [DC1 [DC2 [DC3 DC4]]] [DB1 DB2] [DX1 [DX2 [DX3 DX4]]]] eqn:ED. clear ED.
  assert (PC : forall k, rdot (nv t) (fun i => p_C t i (mr (pE p) + k)%nat) (va (r_x p)) = prod (pC p) (va (r_x p)) k).
  { intros k. rewrite dot_def. unfold prod. rewrite N1, DA2, DC2. apply sum_ext. intros j _. rewrite EC, (proj2 (Nat.ltb_ge _ _)) by lia.
    replace (mr (pE p) + k - mr (pE p))%nat with k by lia. reflexivity. }
  destruct (TI (fun k => lam k - lam' k) (fun k => lam (mr (pE p) + k)%nat - lam' (mr (pE p) + k)%nat)
     (fun a => lam (mr (pE p) + mr (pC p) + a)%nat - lam' (mr (pE p) + mr (pC p) + a)%nat)) as (Z1 & Z2 & Z3).
  - intros k Hk Hn. specialize (C1 (mr (pE p) + k)%nat ltac:(lia)). specialize (C2 (mr (pE p) + k)%nat ltac:(lia)).
    rewrite PC, EL, EU, (proj2 (Nat.ltb_ge _ _)) in C1, C2 by lia. replace (mr (pE p) + k - mr (pE p))%nat with k in C1, C2 by lia.
    destruct C1 as [C1p C1n], C2 as [C2p C2n].
    destruct (Rtotal_order 0 (lam (mr (pE p) + k)%nat)) as [H|[H|H]]; [right; auto| |left; auto].
    destruct (Rtotal_order 0 (lam' (mr (pE p) + k)%nat)) as [H'|[H'|H']]; [right; auto| |left; auto]. exfalso. apply Hn. lra.
  - intros a Ha Hn. rewrite <- N3 in Ha. specialize (B1 a Ha). specialize (B2 a Ha). rewrite N2, EXL, EXU in B1, B2.
    destruct B1 as [C1p C1n], B2 as [C2p C2n].
    destruct (Rtotal_order 0 (lam (mr (pE p) + mr (pC p) + a)%nat)) as [H|[H|H]]; [right; auto| |left; auto].
    destruct (Rtotal_order 0 (lam' (mr (pE p) + mr (pC p) + a)%nat)) as [H'|[H'|H']]; [right; auto| |left; auto]. exfalso. apply Hn. lra.
  - intros a Ha. rewrite <- N1 in Ha. specialize (S1 a Ha). specialize (S2 a Ha). rewrite N2, N3 in S1, S2.
    assert (K : forall l, rsum (mr (pE p) + mr (pC p)) (fun j => p_C t a j * l j) =
      rsum (mr (pE p)) (fun k => ma (pE p) k a * l k) + rsum (mr (pC p)) (fun k => ma (pC p) k a * l (mr (pE p) + k)%nat)).
    { intros l. rewrite <- (mult_split p c D l a). apply sum_ext. intros j _. rewrite EC. reflexivity. }
    rewrite K in S1, S2.
    rewrite (sum_ext (mr (pE p)) _ (fun k => ma (pE p) k a * lam k - ma (pE p) k a * lam' k)) by (intros; ring). rewrite sum_minus.
    rewrite (sum_ext (mr (pC p)) _ (fun k => ma (pC p) k a * lam (mr (pE p) + k)%nat - ma (pC p) k a * lam' (mr (pE p) + k)%nat)) by (intros; ring). rewrite sum_minus.
    destruct (a <? bn (pxl p))%nat; lra.
  - intros i Hi. destruct (Nat.lt_ge_cases i (mr (pE p))); [specialize (Z1 i ltac:(auto)); cbv beta in Z1; lra|].
    destruct (Nat.lt_ge_cases i (mr (pE p) + mr (pC p))).
    + specialize (Z2 (i - mr (pE p))%nat ltac:(lia)). cbv beta in Z2. replace (mr (pE p) + (i - mr (pE p)))%nat with i in Z2 by lia. lra.
    + specialize (Z3 (i - (mr (pE p) + mr (pC p)))%nat ltac:(lia)). cbv beta in Z3.
      replace (mr (pE p) + mr (pC p) + (i - (mr (pE p) + mr (pC p))))%nat with i in Z3 by lia. lra.
Qed.

Lemma test_passes c p q : dims_as_asked c p -> ft (sbase (lsF (r_pb p))) = false -> announced p -> qp_of_ls joint_of_sep (r_pb p) = Ok q ->
  full_column_rank (pA p) -> tight_independent p -> no_fixed_variable (lsF (r_pb p)) -> tolerance_gap (test_call q) ->
  (exists B, steps_below (test_call q) B) /\
  forall B, steps_below (test_call q) B ->
  forall o junk s, B <= o_bigBnd o -> (let m := mr (pE p) + mr (pC p) + bn (pxl p) in m + 2 * 3 ^ m <= o_maxIter o)%nat -> history Rops s ->
  exists s' x lam s'', gi_solve junk (test_call q) o s = Ok (SUCCESS, s') /\ solution s' = Ok x /\ multipliers s' = Ok (lam, s'') /\
    checks_hold p q x lam.
Proof.
  intros D Hft An Hq FR TI NF Tg.
  pose proof (test_call_shape c p q D Hft Hq) as Sh. cbv zeta in Sh. destruct Sh as (N1 & N2 & N3 & EC & EL & EU & EXL & EXU & EG & EQ & Fq & M1 & M2 & M3).
  destruct (gi_pb_test c p q D Hft Hq) as (g & Eg & Cg & W).
  pose proof (C57_same_problem _ W eq_refl) as Sm. destruct Sm as (g' & Eg' & K1 & K2 & K3 & K4 & K5 & K6).
  rewrite Eg in Eg'. injection Eg' as <-. rewrite Cg in *. specialize (K6 NF).
  pose proof (tight_eq_independent c p q D Hft An Hq TI) as EI.
  assert (Sy : symmetric (vn (qpa q)) (ma (qpG q))).
  { intros i j _ _. change (p_G (test_call q) i j = p_G (test_call q) j i). rewrite !EG. apply sum_ext. intros. ring. }
  assert (Pd : posdef (nv (test_call q)) (hess (test_call q))).
  { intros v Hv. rewrite N1 in *. pose proof (gram_posdef (pA p) FR v Hv) as P. unfold quad in *.
    rewrite (sum_ext (mc (pA p)) _ (fun i => v i * rsum (mc (pA p)) (fun j => rsum (mr (pA p)) (fun k => ma (pA p) k i * ma (pA p) k j) * v j))); auto.
    intros i Hi. f_equal. apply sum_ext. intros j Hj. f_equal. unfold hess, gsym. destruct (j <=? i)%nat; rewrite EG; auto. apply sum_ext. intros. ring. }
  split; [apply limit_exists; exact Pd|]. intros B HB o junk s Ho Hm Hs.
  assert (Hm' : (max_steps (nc (test_call q) + nb (test_call q)) <= o_maxIter o)%nat) by (rewrite N2, N3; exact Hm).
  destruct (total_correct_at (test_call q) B K1 Pd K5 K6 EI Tg HB o junk s Ho Hm' Hs) as (st & s' & E & Hr).
  (* the announced solution satisfies the optimality conditions *)
  assert (HK : kkt (test_call q) (va (r_x p)) (va (all_mult p)) /\ unique_minimiser (test_call q) (va (r_x p))).
  { pose proof (C40_passes_testKKT c p q 0 0 D Hft An (Rle_refl 0) (Rle_refl 0) Hq) as T. rewrite Fq in T.
    rewrite EQ. apply C26_exact_acceptance_is_optimal; auto.
    - intros i l u Hi L_ U_. apply (K5 i l u).
      + unfold ncb. rewrite EQ. unfold nc, nb, qp_of. cbn [p_Ccols]. lia.
      + unfold clo. rewrite EQ. unfold nc, qp_of. cbn [p_Ccols p_bl]. rewrite (proj2 (Nat.ltb_lt _ _) Hi). exact L_.
      + unfold cup. rewrite EQ. unfold nc, qp_of. cbn [p_Ccols p_bu]. rewrite (proj2 (Nat.ltb_lt _ _) Hi). exact U_.
    - intros i l u Hi L_ U_. apply (K5 (bn (fl (qpF q)) + i)%nat l u).
      + unfold ncb. rewrite EQ. unfold nc, nb, qp_of. cbn [p_Ccols p_xlsize]. lia.
      + unfold clo. rewrite EQ. unfold nc, qp_of. cbn [p_Ccols p_xl]. rewrite (proj2 (Nat.ltb_ge _ _)) by lia.
        replace (bn (fl (qpF q)) + i - bn (fl (qpF q)))%nat with i by lia. exact L_.
      + unfold cup. rewrite EQ. unfold nc, qp_of. cbn [p_Ccols p_xu]. rewrite (proj2 (Nat.ltb_ge _ _)) by lia.
        replace (bn (fl (qpF q)) + i - bn (fl (qpF q)))%nat with i by lia. exact U_.
    - rewrite <- EQ, M3, <- N1. exact Pd. }
  destruct HK as [HK HU].
  destruct Hr as [[-> (x & lam & s'' & X1 & X2 & X3 & X4 & X5 & X6 & X7)]|[-> Inf]].
  2:{ exfalso. apply (Inf (va (r_x p))). apply HK. }
  exists s', x, lam, s''. split; auto. split; auto. split; auto.
  assert (Ex : forall i, (i < nv (test_call q))%nat -> vec_of x i = va (r_x p) i).
  { intros i Hi. destruct X6 as [U1 U2], HU as [V1 V2]. apply (proj2 (V2 _ U1)); auto. apply (proj1 (U2 _ V1)). }
  destruct (D) as [[_ [DA2 _]] [DE1 _] [DC1 [_ [DC3 DC4]]] [DB1 DB2] [DX1 [DX2 [DX3 DX4]]]].
  assert (Hnb : (nb (test_call q) <= nv (test_call q))%nat) by (rewrite N1, N3, DB1, DA2; destruct (c_bounds c); lia).
  assert (X4' : length lam = (mr (pE p) + mr (pC p) + bn (pxl p))%nat) by (rewrite X4; unfold ncb; rewrite N2, N3; reflexivity).
  assert (Mu : forall i, (i < mr (pE p) + mr (pC p) + bn (pxl p))%nat -> vec_of lam i = va (all_mult p) i).
  { apply (multipliers_unique c p q); auto. apply (kkt_ext _ (vec_of x) _ (vec_of lam)); auto. }
  split; [|split; [exact (eq_trans X3 (eq_trans N1 (eq_trans DA2 (eq_sym DX1))))|split; [intros i Hi; apply Ex; rewrite N1; congruence|split; [exact X4'|split; [|split]]]]].
  - intros tp td Htp Htd. apply C26_exact_kkt_accepted; auto; [|rewrite <- EQ; exact X5].
    pose proof (C40_passes_testKKT c p q 0 0 D Hft An (Rle_refl 0) (Rle_refl 0) Hq) as T. rewrite Fq in T.
    apply testKKT_unfold in T as [T _]. unfold dims_qp in *. cbn [vn].
    assert (LX : @length R x = vn (r_x p)) by exact (eq_trans X3 (eq_trans N1 (eq_trans DA2 (eq_sym DX1)))).
    assert (LL : @length R lam = vn (all_mult p)) by (apply (eq_trans X4'); unfold all_mult; cbn [vn]; lia).
    rewrite LX, LL. exact T.
  - intros i Hi. rewrite Mu by lia. unfold all_mult. cbn [va]. rewrite (proj2 (Nat.ltb_lt _ _)) by lia. reflexivity.
  - intros i Hi. rewrite Mu by lia. unfold all_mult. cbn [va]. rewrite (proj2 (Nat.ltb_ge _ _)) by lia. rewrite (proj2 (Nat.ltb_lt _ _)) by lia. f_equal. lia.
  - intros i Hi. rewrite Mu by lia. unfold all_mult. cbn [va]. rewrite (proj2 (Nat.ltb_ge _ _)) by lia. rewrite (proj2 (Nat.ltb_ge _ _)) by lia. f_equal. lia.
Qed.

Theorem C74_random_test_passes : forall qr d c, check c = true -> good_draw qr d c ->
  (forall i, (d_ji d i <= i)%nat /\ (d_jb d i <= i)%nat) ->
  (c_strict c = true -> c_nEq c + c_nSI c + c_nSB c = 1)%nat ->
  (c_double c = true -> forall i, (i < c_nIneq c)%nat -> d_rl d i <> 0 /\ d_ru d i <> 0) ->
  (c_double c = true -> forall i, (c_nSI c <= i < c_nSI c + c_nWI c)%nat -> Rabs (d_ru d i) < Rabs (d_rl d i)) ->
  exists p q, randomProblem qr d c = Ok p /\ qp_of_ls joint_of_sep (r_pb p) = Ok q /\
  (full_column_rank (pA p) -> tight_independent p -> no_fixed_variable (lsF (r_pb p)) -> tolerance_gap (test_call q) ->
   (exists B, steps_below (test_call q) B) /\
   forall B, steps_below (test_call q) B ->
   forall o junk s, B <= o_bigBnd o -> (let m := mr (pE p) + mr (pC p) + bn (pxl p) in m + 2 * 3 ^ m <= o_maxIter o)%nat -> history Rops s ->
   exists s' x lam s'', gi_solve junk (test_call q) o s = Ok (SUCCESS, s') /\ solution s' = Ok x /\ multipliers s' = Ok (lam, s'') /\
     checks_hold p q x lam).
Proof.
  intros qr d c Hc Hg Hj Hst Hnz Hdb. destruct (C40_announced_solution qr d c Hc Hg Hj Hst Hdb) as (p & E & D & An).
  destruct (C40_well_formed qr d c p E Hnz Hdb) as (W & q & Q). exists p, q. split; auto. split; auto. intros FR TI NF Tg.
  apply (test_passes c p q); auto. destruct (random_inv _ _ _ _ E) as (? & ? & ? & ? & ? & ? & _ & _ & _ & _ & _ & ->). reflexivity.
Qed.

(** The call meets the hypotheses of the solvers' theorems *)
Lemma test_call_facts c p q : dims_as_asked c p -> ft (sbase (lsF (r_pb p))) = false -> announced p -> qp_of_ls joint_of_sep (r_pb p) = Ok q ->
  full_column_rank (pA p) -> tight_independent p -> no_fixed_variable (lsF (r_pb p)) ->
  sizes_ok (test_call q) = true /\ posdef (nv (test_call q)) (hess (test_call q)) /\ ordered (test_call q) /\ equalities_first (test_call q) /\
  eq_independent (test_call q) /\ one_kind (test_call q) /\ (nc (test_call q) + nb (test_call q) = mr (pE p) + mr (pC p) + bn (pxl p))%nat.
Proof.
  intros D Hft An Hq FR TI NF.
  pose proof (test_call_shape c p q D Hft Hq) as Sh. cbv zeta in Sh. destruct Sh as (N1 & N2 & N3 & EC & EL & EU & EXL & EXU & EG & EQ & Fq & M1 & M2 & M3).
  destruct (gi_pb_test c p q D Hft Hq) as (g & Eg & Cg & W).
  pose proof (C57_same_problem _ W eq_refl) as Sm. destruct Sm as (g' & Eg' & K1 & K2 & K3 & K4 & K5 & K6).
  rewrite Eg in Eg'. injection Eg' as <-. rewrite Cg in *. specialize (K6 NF).
  split; [exact K1|]. split; [|split; [exact K5|split; [exact K6|split; [apply (tight_eq_independent c p q D Hft An Hq TI)|split; [|rewrite N2, N3; reflexivity]]]]].
  - intros v Hv. rewrite N1 in *. pose proof (gram_posdef (pA p) FR v Hv) as P. unfold quad in *.
    rewrite (sum_ext (mc (pA p)) _ (fun i => v i * rsum (mc (pA p)) (fun j => rsum (mr (pA p)) (fun k => ma (pA p) k i * ma (pA p) k j) * v j))); auto.
    intros i Hi. f_equal. apply sum_ext. intros j Hj. f_equal. unfold hess, gsym. destruct (j <=? i)%nat; rewrite EG; auto. apply sum_ext. intros. ring.
  - right. intros i Hi (b & L_ & U_). unfold ncb in Hi. unfold clo in L_. unfold cup in U_.
    rewrite (proj2 (Nat.ltb_ge i (nc (test_call q)))) in L_, U_ by lia. rewrite EXL in L_. rewrite EXU in U_. rewrite N3 in Hi.
    apply (NF (i - nc (test_call q))%nat b b); auto. change (i - nc (test_call q) < bn (pxl p))%nat. lia.
Qed.

(** The experimental solver, cold (the tests of lines 75-125 are templates over both solvers): same checks. *)
Theorem C74_experimental : forall qr d c, check c = true -> good_draw qr d c ->
  (forall i, (d_ji d i <= i)%nat /\ (d_jb d i <= i)%nat) ->
  (c_strict c = true -> c_nEq c + c_nSI c + c_nSB c = 1)%nat ->
  (c_double c = true -> forall i, (i < c_nIneq c)%nat -> d_rl d i <> 0 /\ d_ru d i <> 0) ->
  (c_double c = true -> forall i, (c_nSI c <= i < c_nSI c + c_nWI c)%nat -> Rabs (d_ru d i) < Rabs (d_rl d i)) ->
  exists p q, randomProblem qr d c = Ok p /\ qp_of_ls joint_of_sep (r_pb p) = Ok q /\
  (full_column_rank (pA p) -> tight_independent p -> no_fixed_variable (lsF (r_pb p)) -> tolerance_gap (test_call q) ->
   forall B, steps_below (test_call q) B ->
   forall o junk x0, B <= o_bigBnd o -> (let m := mr (pE p) + mr (pC p) + bn (pxl p) in m + 2 * 3 ^ m <= o_maxIter o)%nat -> o_warm o = false ->
   exact_qr (test_call q) o [] -> xhistory Rops x0 ->
   exists x' x lam s'', xgi_solve junk (test_call q) o [] x0 = Ok (SUCCESS, x') /\ solution (x_s x') = Ok x /\ multipliers (x_s x') = Ok (lam, s'') /\
     checks_hold p q x lam).
Proof.
  intros qr d c Hc Hg Hj Hst Hnz Hdb. destruct (C40_announced_solution qr d c Hc Hg Hj Hst Hdb) as (p & E & D & An).
  destruct (C40_well_formed qr d c p E Hnz Hdb) as (W & q & Q). exists p, q. split; auto. split; auto. intros FR TI NF Tg B HB o junk x0 Ho Hm Hw Hqr HX.
  assert (Hft : ft (sbase (lsF (r_pb p))) = false) by (destruct (random_inv _ _ _ _ E) as (? & ? & ? & ? & ? & ? & _ & _ & _ & _ & _ & ->); reflexivity).
  destruct (test_call_facts c p q D Hft An Q FR TI NF) as (K1 & Pd & K5 & K6 & EI & OK & NN).
  destruct (test_passes c p q D Hft An Q FR TI NF Tg) as [_ TP].
  destruct (TP B HB o junk (sol_new Rops) Ho Hm (h_new Rops)) as (s' & x & lam & s'' & E1 & E2 & E3 & CH).
  destruct (C72_same_steps junk junk (test_call q) o (sol_new Rops) x0 (h_new Rops) HX K1 Hw Pd (gap_separated _ Tg EI) OK Hqr) as (st & t & x' & F1 & F2 & SO).
  rewrite E1 in F1. injection F1 as <- <-. destruct SO as ((v & V1 & V2) & (l & t1 & t2 & L1 & L2) & _).
  rewrite E2 in V1. injection V1 as <-. rewrite E3 in L1. injection L1 as <- _. exists x', x, lam, t2. auto.
Qed.

(** The test "Warm-start" (tests/GoldfarbIdnaniSolverTest.cpp:127-214): the stable solver, then the warm-startable
    solver given its active set, then any number of calls given that active set or nothing.  Every call answers
    SUCCESS without iterating, with the announced point and multipliers. *)
Theorem C74_warm_start : forall qr d c, check c = true -> good_draw qr d c ->
  (forall i, (d_ji d i <= i)%nat /\ (d_jb d i <= i)%nat) ->
  (c_strict c = true -> c_nEq c + c_nSI c + c_nSB c = 1)%nat ->
  (c_double c = true -> forall i, (i < c_nIneq c)%nat -> d_rl d i <> 0 /\ d_ru d i <> 0) ->
  (c_double c = true -> forall i, (c_nSI c <= i < c_nSI c + c_nWI c)%nat -> Rabs (d_ru d i) < Rabs (d_rl d i)) ->
  exists p q, randomProblem qr d c = Ok p /\ qp_of_ls joint_of_sep (r_pb p) = Ok q /\
  (full_column_rank (pA p) -> tight_independent p -> no_fixed_variable (lsF (r_pb p)) -> tolerance_gap (test_call q) ->
   forall B, steps_below (test_call q) B ->
   forall o junk s, B <= o_bigBnd o -> (let m := mr (pE p) + mr (pC p) + bn (pxl p) in m + 2 * 3 ^ m <= o_maxIter o)%nat -> history Rops s ->
   exists s', gi_solve junk (test_call q) o s = Ok (SUCCESS, s') /\
   forall o' junk' x0 cs, o_warm o' = true -> (1 <= o_maxIter o')%nat -> moderate (test_call q) o' -> exact_qr (test_call q) o' (activeSet s') -> xhistory Rops x0 ->
   (forall k, In k cs -> snd (fst k) = activeSet s' \/ snd (fst k) = []) ->
   exists outs, follow_ups (test_call q) o' ((junk', activeSet s', false) :: cs) x0 = Ok outs /\ length outs = S (length cs) /\
     forall r, In r outs -> exists x lam t, fst r = SUCCESS /\ iterations (x_s (snd r)) = 0%nat /\ solution (x_s (snd r)) = Ok x /\
       multipliers (x_s (snd r)) = Ok (lam, t) /\ checks_hold p q x lam).
Proof.
  intros qr d c Hc Hg Hj Hst Hnz Hdb. destruct (C40_announced_solution qr d c Hc Hg Hj Hst Hdb) as (p & E & D & An).
  destruct (C40_well_formed qr d c p E Hnz Hdb) as (W & q & Q). exists p, q. split; auto. split; auto. intros FR TI NF Tg B HB o junk s Ho Hm HH.
  assert (Hft : ft (sbase (lsF (r_pb p))) = false) by (destruct (random_inv _ _ _ _ E) as (? & ? & ? & ? & ? & ? & _ & _ & _ & _ & _ & ->); reflexivity).
  destruct (test_call_facts c p q D Hft An Q FR TI NF) as (K1 & Pd & K5 & K6 & EI & OK & NN).
  destruct (test_passes c p q D Hft An Q FR TI NF Tg) as [_ TP].
  destruct (TP B HB o junk s Ho Hm HH) as (s' & x & lam & s'' & E1 & E2 & E3 & CH). exists s'. split; [exact E1|].
  assert (Hm' : (max_steps (nc (test_call q) + nb (test_call q)) <= o_maxIter o)%nat) by (rewrite NN; exact Hm).
  destruct (total_call_at junk (test_call q) o s B HH K1 Pd K6 EI Tg HB Ho Hm') as [HEx _].
  intros o' junk' x0 cs Hw Hmax Hmod Hqr HX Hcs.
  destruct (C18_for_ever junk (test_call q) o s s' x lam s'' junk' o' x0 cs HH E1 E2 E3 K5 (gap_separated _ Tg EI) K6 HEx HX Hw Hmax Hmod Hqr Hcs) as (outs & Eo & Lo & Ho').
  exists outs. split; [exact Eo|]. split; [exact Lo|]. intros r Hr. destruct (Ho' r Hr) as (R1 & R2 & R3 & _ & t & R4).
  exists x, lam, t. auto.
Qed.

Lemma filter_length_le {X} (g : X -> bool) l : (length (filter g l) <= length l)%nat.
Proof. induction l as [|a l IH]; cbn; auto. destruct (g a); cbn; lia. Qed.
Lemma fwd_unit (G : rmat) (v : rvec) i : (forall a b, (a < 2)%nat -> (b < 2)%nat -> gsym G a b = if (a =? b)%nat then 1 else 0) -> (i < 2)%nat ->
  @fwd Rops 2 (snd (@llt Rops 2 G)) v i = v i.
Proof.
  intros HG Hi.
  assert (P : posdef 2 (gsym G)).
  { intros w (a & Ha & Hw). unfold quad. rewrite !sum_S, !sum_0, !HG by lia. cbn.
    destruct a as [|[|a]]; [| |lia]; pose proof (Rle_0_sqr (w 0%nat)); pose proof (Rle_0_sqr (w 1%nat)); pose proof (Rsqr_pos_lt _ Hw); unfold Rsqr in *; lra. }
  pose proof (proj2 (llt_iff 2 G) P) as Hl.
  pose proof (llt_spec 2 G) as HS. destruct (@llt Rops 2 G) as ([p|] & Lm); simpl in Hl; [discriminate|]. cbn [snd].
  pose proof (llt_diag_pos _ _ _ HS) as HD. pose proof (llt_inv_full _ _ _ HS) as HF0. clear Hl HS.
  pose proof (HD 0%nat ltac:(lia)) as D0. pose proof (HD 1%nat ltac:(lia)) as D1.
  pose proof (HF0 0%nat 0%nat ltac:(lia) ltac:(lia)) as G0. pose proof (HF0 1%nat 0%nat ltac:(lia) ltac:(lia)) as G1. pose proof (HF0 1%nat 1%nat ltac:(lia) ltac:(lia)) as G2.
  rewrite HG in G0, G1, G2 by lia. rewrite !sum_S, !sum_0 in G0, G1, G2. unfold lower in G0, G1, G2. cbn in G0, G1, G2. rops.
  assert (L0 : Lm 0%nat 0%nat = 1) by nra. rewrite L0 in *. assert (L1 : Lm 1%nat 0%nat = 0) by lra. rewrite L1 in *. assert (L2 : Lm 1%nat 1%nat = 1) by nra.
  pose proof (fwd_correct 2 Lm v) as HF. assert (Hnz : forall i, (i < 2)%nat -> Lm i i <> 0) by (intros j Hj; specialize (HD j Hj); lra).
  pose proof (HF Hnz 0%nat ltac:(lia)) as F0. pose proof (HF Hnz 1%nat ltac:(lia)) as F1.
  set (y := @fwd Rops 2 Lm v) in *. clearbody y. rewrite !sum_S, !sum_0 in F0, F1. unfold lower in F0, F1. cbn in F0, F1. rops. rewrite L0, ?L1, ?L2 in *.
  destruct i as [|[|i]]; try lia; lra.
Qed.

(** * The hypotheses are met: min |x - b|^2 in two variables with one equality *)
Example C74_nonvacuous : check good_c = true /\ good_draw ex_qr good_d good_c /\
  (forall i, (d_ji good_d i <= i)%nat /\ (d_jb good_d i <= i)%nat) /\ c_strict good_c = false /\ c_double good_c = false /\
  exists p q, randomProblem ex_qr good_d good_c = Ok p /\ qp_of_ls joint_of_sep (r_pb p) = Ok q /\
    full_column_rank (pA p) /\ tight_independent p /\ no_fixed_variable (lsF (r_pb p)) /\ tolerance_gap (test_call q) /\
    (exists k, (k < mr (pE p))%nat /\ prod (pE p) (fun _ => 0) k <> va (pf p) k) /\
    (forall o ws, exact_qr (test_call q) o ws) /\ (forall o, 1 <= o_bigBnd o -> moderate (test_call q) o).
Proof.
  destruct C40_nonvacuous as (H1 & H2 & H3 & H4 & H5). split; auto. split; auto. split; auto. split; auto. split; auto.
  assert (EX : exists p, randomProblem ex_qr good_d good_c = Ok p).
  { unfold randomProblem. change (check good_c) with true. cbn [guard]. unfold step_one. cbn -[rsum rows_of_C step_five]. unfold rows_of_C. cbn -[rsum step_five]. eexists. reflexivity. }
  destruct EX as [p E].
  destruct (C40_announced_solution ex_qr good_d good_c H1 H2 H3) as (p' & E' & D & An); [rewrite H4; discriminate|rewrite H5; discriminate|].
  rewrite E in E'. injection E' as <-.
  destruct (C40_well_formed ex_qr good_d good_c p E) as (_ & q & Q); [rewrite H5; discriminate|rewrite H5; discriminate|].
  exists p, q. split; auto. split; auto.
  assert (K : (forall i j, (i < 2)%nat -> (j < 2)%nat -> ma (pA p) i j = if (i =? j)%nat then 1 else 0) /\
              (forall j, (j < 2)%nat -> ma (pE p) 0%nat j = if (j =? 0)%nat then 1 else 0) /\ va (pf p) 0%nat = 1 /\ ft (sbase (lsF (r_pb p))) = false).
  { destruct (random_inv _ _ _ _ E) as (A & Ca & red & C & g1 & g2 & _ & S1 & _ & S3 & S4 & ->). cbv zeta.
    unfold pA, pE, pf. cbn [r_pb lsA lsF sE sf ma va].
    unfold step_one in S1. cbn -[rsum] in S1. injection S1 as <- <- <-.
    change (shuffle swap_cstr (d_ji good_d) (c_nIneq good_c - 1)) with (shuffle swap_cstr (d_ji good_d) 0) in S3. cbn [shuffle] in S3. injection S3 as <-.
    change (c_bounds good_c) with false in S4. cbv iota in S4. injection S4 as <-. cbn [step_five g_A g_E g_f].
    split; [intros; reflexivity|]. split; [|split; [|reflexivity]].
    - intros j Hj. unfold step_two_Ca, flip. cbn [c_double c_nEq good_c negb andb Nat.leb]. cbn. reflexivity.
    - change (c_nVar good_c) with 2%nat. rewrite !sum_S, sum_0. unfold step_two_Ca, flip. cbn. lra. }
  destruct K as (KA & KE & Kf & Kt).
  destruct (test_call_shape good_c p q D Kt Q) as (N1 & N2 & N3 & EC & EL & EU & EXL & EXU & EG & _).
  destruct D as [[DA1 [DA2 DA3]] [DE1 [DE2 DE3]] [DC1 [DC2 [DC3 DC4]]] [DB1 DB2] _].
  change (c_nObj good_c) with 2%nat in *. change (c_nVar good_c) with 2%nat in *. change (c_nEq good_c) with 1%nat in *.
  change (c_nIneq good_c) with 0%nat in *. cbn [good_c c_bounds] in DB1.
  assert (CV : forall a, (a < 2)%nat -> cvec (test_call q) 0%nat a = if (a =? 0)%nat then 1 else 0).
  { intros a Ha. unfold cvec. rewrite N2, DE1, DC1. cbn [Nat.ltb Nat.leb Nat.add]. rewrite EC, DE1. cbn [Nat.ltb Nat.leb]. apply KE. auto. }
  assert (HH : forall a b, (a < 2)%nat -> (b < 2)%nat -> hess (test_call q) a b = if (a =? b)%nat then 1 else 0).
  { intros a b Ha Hb. unfold hess, gsym. rewrite !EG, DA1, !sum_S, !sum_0, !KA by lia. destruct a as [|[|a]], b as [|[|b]]; try lia; cbn; lra. }
  assert (BL : clo (test_call q) 0%nat = Some 1 /\ cup (test_call q) 0%nat = Some 1).
  { unfold clo, cup. rewrite N2, DE1, DC1. cbn [Nat.ltb Nat.leb Nat.add]. rewrite EL, EU, DE1. cbn [Nat.ltb Nat.leb]. rewrite Kf. auto. }
  assert (NB : ncb (test_call q) = 1%nat) by (unfold ncb; rewrite N2, N3, DE1, DC1, DB1; reflexivity).
  split; [|split; [|split; [|split; [|split; [|split]]]]].
  - intros v Hv a Ha. rewrite DA2 in Ha. specialize (Hv a ltac:(lia)). unfold prod in Hv. rewrite DA2, !sum_S, sum_0 in Hv.
    rewrite !KA in Hv by lia. destruct a as [|[|a]]; [| |lia]; cbn [Nat.eqb] in Hv; lra.
  - intros we wi wb _ _ Hs. rewrite DC1, DE1, DB1. split; [|split; intros; lia]. intros k Hk. assert (k = 0%nat) by lia. subst k.
    specialize (Hs 0%nat ltac:(lia)). rewrite DE1, DC1, DB1, sum_S, !sum_0, KE in Hs by lia. cbn in Hs. lra.
  - intros i a b Hi. exfalso. change (bn (fxl (sbase (lsF (r_pb p))))) with (bn (pxl p)) in Hi. lia.
  - intros W i z r Hi [P1 P2 P3]. unfold ncb in Hi, P2, P3. rewrite N1, N2, N3, DA2, DE1, DC1, DB1 in *. cbn [Nat.add] in *.
    assert (i = 0%nat) by lia. subst i.
    pose proof (P2 0%nat ltac:(lia)) as Q0. pose proof (P2 1%nat ltac:(lia)) as Q1. rewrite !sum_S, !sum_0, !CV, !HH in Q0, Q1 by lia. cbn in Q0, Q1.
    destruct (W 0%nat) eqn:W0.
    + left. specialize (P3 0%nat ltac:(lia) W0). rewrite dot_def, !sum_S, sum_0, !CV in P3 by lia. cbn in P3.
      intros a Ha. destruct a as [|[|a]]; [lra|lra|lia].
    + right. specialize (P1 0%nat W0). rewrite dot_def, !sum_S, sum_0. replace (0 + z 0%nat * z 0%nat + z 1%nat * z 1%nat) with 1.
      * rewrite sqrt_1. apply Rlt_le_trans with (/ 1); [|lra]. apply Rinv_lt_contravar; [|].
        -- rewrite Rmult_1_l. apply pow_lt. lra.
        -- apply Rlt_pow_R1; [lra|lia].
      * assert (Z0 : z 0%nat = 1) by lra. assert (Z1 : z 1%nat = 0) by lra. rewrite Z0, Z1. ring.
  - exists 0%nat. split; [lia|]. unfold prod. rewrite DE2, !sum_S, sum_0, Kf. lra.
  - intros o ws l Hl. apply start_list_initial in Hl.
    2:{ rewrite N1, DA2. transitivity (length (WarmAS.order Rops (test_call q))); [apply filter_length_le|].
        unfold WarmAS.order. rewrite app_length, !seq_length. change (gb Rops (test_call q)) with (nb (test_call q)). change (gc_ Rops (test_call q)) with (nc (test_call q)).
        unfold ncb in NB. lia. }
    assert (Hin : forall i, In i l -> i = 0%nat).
    { intros i Hi. subst l. apply filter_In in Hi as [Hi _]. apply order_lt in Hi. change (gcb Rops (test_call q)) with (ncb (test_call q)) in Hi. lia. }
    assert (Hlen : (length l <= 1)%nat).
    { subst l. transitivity (length (WarmAS.order Rops (test_call q))); [apply filter_length_le|].
      unfold WarmAS.order. rewrite app_length, !seq_length. change (gb Rops (test_call q)) with (nb (test_call q)). change (gc_ Rops (test_call q)) with (nc (test_call q)).
      unfold ncb in NB. lia. }
    rewrite N1, DA2. destruct l as [|i [|j l]]; cbn [length] in *; [exact I| |lia]. cbn [length qr_calm]. split; [|exact I]. left.
    unfold hh_tail. change (2 - 1 - 0)%nat with 1%nat. rops. rewrite !sum_S, !sum_0. change (0 + 1 + 0)%nat with 1%nat.
    rewrite (fwd_unit (p_G (test_call q))); [|exact HH|lia]. unfold wnormal. cbn [nth]. rewrite (Hin i (or_introl eq_refl)).
    unfold nsign. destruct (rwanted (test_call q) o ws 0); rewrite ?CV by lia; cbn; lra.
  - intros o Ho i b Hi Hb. rewrite NB in Hi. assert (i = 0%nat) by lia. subst i. destruct BL as [B1 B2]. rewrite B1, B2 in Hb.
    destruct Hb as [Hb|Hb]; injection Hb as <-; lra.
Qed.

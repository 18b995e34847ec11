(** C73: problems with integer matrices of moderate size: the absolute tolerance of the code (1e-14) cannot mistake a non-zero
    step, or a multiplier of the wrong sign, for zero, so the solvers are correct without hypotheses on tolerances. *)
From Coq Require Import List Arith ZArith Lia Bool Reals Lra Factorial.
From Verif Require Import Base ActiveSet Num LinAlg Solver QPSpec GIBase GIRun GIInit GITerm GISafe GIHist GIFinal GITotal GICall GIMult GIExample Warm WarmAS WarmSafe WarmQR WarmInit WarmHist WarmOpt WarmHot WarmTotal WarmExample Det IntGap IntMult Limits LimitsEx IntLimit IntScale PropReal PropWarm.
Import ListNotations.
Local Open Scope R_scope.

(** (2n)! M^(2n) < 1e14 *)
Definition fits (n M : nat) : Prop := INR (fact (2 * n)) * INR M ^ (2 * n) < 10 ^ 14.

(** ** C44, C49 with an explicit limit: [steps_below pb B] says that no step of the method on this problem reaches [B] *)
Theorem C44_explicit_limit : forall pb B, sizes_ok pb = true -> posdef (nv pb) (hess pb) -> ordered pb ->
  equalities_first pb -> eq_independent pb -> tolerance_gap pb -> steps_below pb B ->
  forall o junk s, B <= o_bigBnd o -> (let m := nc pb + nb pb in m + 2 * 3 ^ m <= o_maxIter o)%nat -> history Rops s ->
   exists st s', gi_solve junk pb o s = Ok (st, s') /\
    ((st = SUCCESS /\ exists x lam s'', solution s' = Ok x /\ multipliers s' = Ok (lam, s'') /\
        length x = nv pb /\ length lam = (nc pb + nb pb)%nat /\ kkt pb (vec_of x) (vec_of lam) /\ unique_minimiser pb (vec_of x) /\
        objectiveValue s' = objective pb (vec_of x))
     \/ (st = INFEASIBLE /\ infeasible pb)).
Proof. exact total_correct_at. Qed.

(** and every positive definite problem has such a limit *)
Theorem C44_limit_exists : forall pb, posdef (nv pb) (hess pb) -> exists B, steps_below pb B.
Proof. exact limit_exists. Qed.

Theorem C49_explicit_limit : forall junk pb o ws x B, let given := ws_eff Rops junk pb o ws x in
  xhistory Rops x -> args_ok Rops pb o ws = true -> posdef (nv pb) (hess pb) -> ordered pb -> equalities_first pb ->
  (forall i, (i < ncb pb)%nat -> ~ is_equality pb i -> nth i given INACTIVE <> INACTIVE ->
     if (i <? nc pb)%nat then (status_int (nth i given INACTIVE) <= 3)%nat else (4 <= status_int (nth i given INACTIVE))%nat) ->
  (length (filter (geq Rops pb) (seq 0 (ncb pb))) <= nv pb)%nat ->
  warm_ok junk pb o ws x -> bounds_later pb o given -> tolerance_gap pb -> multiplier_gap pb (wanted Rops pb o given) -> steps_below pb B ->
  B <= o_bigBnd o -> (let m := nc pb + nb pb in m + 2 * 3 ^ m + nv pb <= o_maxIter o)%nat ->
    exists st x' v lam s'', xgi_solve junk pb o ws x = Ok (st, x') /\ solution (x_s x') = Ok v /\ multipliers (x_s x') = Ok (lam, s'') /\
      (st = SUCCESS /\ kkt pb (vec_of v) (vec_of lam) /\ unique_minimiser pb (vec_of v) \/ st = INFEASIBLE /\ infeasible pb).
Proof.
  intros junk pb o ws x B given HH Ha HPd Hord Hfirst HK Hn Hwo Hb HG HM HB Ho Hmax.
  destruct (warm_total_at junk pb o ws x B) as (H3 & st & x' & E & Hst); auto; fold given; auto.
  - apply forallb_forall. intros i Hi. apply order_lt in Hi. unfold kind1. destruct (geq_spec pb i) as [|Hq]; auto.
    destruct (warm_on Rops o given); auto. cbn [negb orb]. unfold isact. destruct (status_eqb_spec (nth i given INACTIVE) INACTIVE) as [|Hne]; auto.
    cbn [negb orb]. specialize (HK i Hi Hq Hne). change (gc_ Rops pb) with (nc pb). destruct (i <? nc pb)%nat; apply Nat.leb_le; auto.
  - unfold n_eq, WarmAS.order. rewrite filter_len_perm. change (gc_ Rops pb + gb Rops pb)%nat with (ncb pb).
    rewrite (filter_ext_in' _ (geq Rops pb)); auto. intros i Hi. apply in_seq in Hi.
    destruct (geq_spec pb i) as [Hq|Hq]; [rewrite wanted_equality by auto; unfold eqstat; destruct (i <? nc pb)%nat; auto|].
    destruct (isEq (wanted Rops pb o given i)) eqn:E; auto. exfalso. apply Hq. apply (wanted_eq pb o given); auto. apply (wo_eq _ _ _ _ _ Hwo).
  - pose proof (xhist_wf Rops x' real_safe (xh_solve Rops _ _ _ _ _ _ _ HH (leb_refl_R _) E)) as HW'.
    destruct (gsolution Rops (x_s x') (xw_s _ _ HW')) as (v & Ev & _). destruct (gmult Rops (x_s x') (xw_s _ _ HW')) as (lam & s'' & Em).
    exists st, x', v, lam, s''. split; [exact E|]. split; [exact Ev|]. split; [exact Em|]. destruct Hst as [-> | ->].
    + left. destruct (xfinal_kkt junk pb o ws x x' v lam s'' HH E Ev Em Hwo Hord Hfirst Hb H3) as (_ & _ & K1 & K2). auto.
    + right. split; auto. apply (xfinal_infeasible junk pb o ws x x' HH E Hwo Hfirst Hb H3).
Qed.

(** ** C73 *)
Lemma fits_limit n M : (1 <= M)%nat -> fits n M -> dbound n M * (1 + INR n * INR M * dbound n M) < 10 ^ 43.
Proof.
  intros HM HF. assert (H1 : 1 <= INR M) by (apply (le_INR 1 M) in HM; exact HM). pose proof (dbound_ge1 n M HM) as HD.
  assert (HnM : INR n * INR M <= dbound n M).
  { unfold dbound. destruct n as [|n]; [cbn; lra|]. apply Rmult_le_compat; try apply pos_INR.
    - apply le_INR. replace (2 * S n)%nat with (S (2 * n + 1)) by lia. change (fact (S (2 * n + 1))) with (S (2 * n + 1) * fact (2 * n + 1))%nat.
      pose proof (lt_O_fact (2 * n + 1)). nia.
    - rewrite <- (pow_1 (INR M)) at 1. apply Rle_pow; auto. lia. }
  unfold fits in HF. fold (dbound n M) in HF. set (D := dbound n M) in *.
  assert (INR n * INR M * D <= D * D) by (apply Rmult_le_compat_r; lra).
  apply Rle_lt_trans with (D * (1 + D * D)); [apply Rmult_le_compat_l; lra|].
  assert (D * D <= 10 ^ 14 * 10 ^ 14) by (apply Rmult_le_compat; lra).
  apply Rle_lt_trans with (10 ^ 14 * (1 + 10 ^ 14 * 10 ^ 14)); [|lra]. apply Rmult_le_compat; try lra.
  assert (0 <= D * D) by (apply Rmult_le_pos; lra). lra.
Qed.
Lemma multiples_limit pb D M K B : multiples pb D M -> fits (nv pb) M -> posdef (nv pb) (hess pb) -> sides_within pb K -> 0 < K -> INR D * K * 10 ^ 43 <= B -> steps_below pb B.
Proof.
  intros HI HF HP HS HK HB. assert (HD : 1 <= INR D) by (apply (le_INR 1), HI). apply (sc_steps pb (INR D) HD).
  apply (integer_steps (scaled (INR D) pb) M (INR D * INR D * K)); [apply sc_integer; auto|apply sc_within; auto; lra|apply Rmult_lt_0_compat; auto; nra|apply sc_posdef; auto|].
  change (nv (scaled (INR D) pb)) with (nv pb). pose proof (fits_limit (nv pb) M (mu_M _ _ _ HI) HF) as HL.
  apply Rlt_le_trans with (INR D * INR D * K * 10 ^ 43); [apply Rmult_lt_compat_l; auto; apply Rmult_lt_0_compat; auto; nra|].
  apply Rle_trans with (INR D * (INR D * K * 10 ^ 43)); [right; ring|apply Rmult_le_compat_l; lra].
Qed.

Theorem C73_stable_solver : forall pb D M K, multiples pb D M -> fits (nv pb) M -> sides_within pb K -> 0 < K ->
  sizes_ok pb = true -> posdef (nv pb) (hess pb) -> ordered pb -> equalities_first pb -> eq_independent pb ->
  forall o junk s, INR D * K * 10 ^ 43 <= o_bigBnd o -> (let m := nc pb + nb pb in m + 2 * 3 ^ m <= o_maxIter o)%nat -> history Rops s ->
   exists st s', gi_solve junk pb o s = Ok (st, s') /\
    ((st = SUCCESS /\ exists x lam s'', solution s' = Ok x /\ multipliers s' = Ok (lam, s'') /\
        length x = nv pb /\ length lam = (nc pb + nb pb)%nat /\ kkt pb (vec_of x) (vec_of lam) /\ unique_minimiser pb (vec_of x) /\
        objectiveValue s' = objective pb (vec_of x))
     \/ (st = INFEASIBLE /\ infeasible pb)).
Proof.
  intros pb D M K HI HF HS HK Hs HD Ho He Hq o junk s Hb Hm HH. apply (C44_explicit_limit pb (INR D * K * 10 ^ 43)); auto; [apply (multiples_gap pb D M)|apply (multiples_limit pb D M K)]; auto. lra.
Qed.

(** with the default options (SolverOptions.h: maxIter 500, bigBnd 1e100): at most five constraints and bounds *)
Theorem C73_default_options : forall pb D M K dbg, multiples pb D M -> fits (nv pb) M -> sides_within pb K -> INR D * K <= 10 ^ 57 -> 0 < K ->
  sizes_ok pb = true -> posdef (nv pb) (hess pb) -> ordered pb -> equalities_first pb -> eq_independent pb -> (nc pb + nb pb <= 5)%nat ->
  forall junk s, history Rops s ->
   exists st s', gi_solve junk pb (@Opt Rops 500 (10 ^ 100) false dbg) s = Ok (st, s') /\
    ((st = SUCCESS /\ exists x lam s'', solution s' = Ok x /\ multipliers s' = Ok (lam, s'') /\
        length x = nv pb /\ length lam = (nc pb + nb pb)%nat /\ kkt pb (vec_of x) (vec_of lam) /\ unique_minimiser pb (vec_of x) /\
        objectiveValue s' = objective pb (vec_of x))
     \/ (st = INFEASIBLE /\ infeasible pb)).
Proof.
  intros pb D M K dbg HI HF HS HK1 HK Hs HD Ho He Hq H5 junk s HH. apply (C73_stable_solver pb D M K); auto.
  - cbn [o_bigBnd]. replace (10 ^ 100) with (10 ^ 57 * 10 ^ 43) by (rewrite <- pow_add; reflexivity). apply Rmult_le_compat_r; auto. apply pow_le. lra.
  - cbn [o_maxIter]. assert (H : (3 ^ (nc pb + nb pb) <= 3 ^ 5)%nat) by (apply Nat.pow_le_mono_r; lia). change (3 ^ 5)%nat with 243%nat in H. cbv zeta. lia.
Qed.

(** the warm-startable solver: the linear cost and the bounds are multiples of 1/D as well *)
Theorem C73_warm_solver : forall pb D M K, multiples pb D M -> multiple_sides pb D ->
  INR D * INR D * (INR (fact (2 * nv pb)) * INR M ^ (2 * nv pb)) < 10 ^ 14 -> sides_within pb K -> 0 < K ->
  forall junk o ws x, let given := ws_eff Rops junk pb o ws x in
  xhistory Rops x -> args_ok Rops pb o ws = true -> posdef (nv pb) (hess pb) -> ordered pb -> equalities_first pb ->
  (forall i, (i < ncb pb)%nat -> ~ is_equality pb i -> nth i given INACTIVE <> INACTIVE ->
     if (i <? nc pb)%nat then (status_int (nth i given INACTIVE) <= 3)%nat else (4 <= status_int (nth i given INACTIVE))%nat) ->
  (length (filter (geq Rops pb) (seq 0 (ncb pb))) <= nv pb)%nat ->
  warm_ok junk pb o ws x -> bounds_later pb o given ->
  INR D * K * 10 ^ 43 <= o_bigBnd o -> (let m := nc pb + nb pb in m + 2 * 3 ^ m + nv pb <= o_maxIter o)%nat ->
    exists st x' v lam s'', xgi_solve junk pb o ws x = Ok (st, x') /\ solution (x_s x') = Ok v /\ multipliers (x_s x') = Ok (lam, s'') /\
      (st = SUCCESS /\ kkt pb (vec_of v) (vec_of lam) /\ unique_minimiser pb (vec_of v) \/ st = INFEASIBLE /\ infeasible pb).
Proof.
  intros pb D M K HI HS HF2 HSd HK junk o ws x given HH Ha HD Ho He Hk Hn Hw Hb HB Hm.
  assert (HF : fits (nv pb) M).
  { assert (H1 : 1 <= INR D) by (apply (le_INR 1), HI). unfold fits. set (d := INR (fact (2 * nv pb)) * INR M ^ (2 * nv pb)) in *.
    assert (0 <= d) by (unfold d; apply Rmult_le_pos; [apply pos_INR|apply pow_le, pos_INR]). assert (1 * d <= INR D * INR D * d) by (apply Rmult_le_compat_r; nra). lra. }
  apply (C49_explicit_limit junk pb o ws x (INR D * K * 10 ^ 43)); auto; [apply (multiples_gap pb D M)|apply (multiples_mgap pb D M)|apply (multiples_limit pb D M K)]; auto. lra.
Qed.

(** sizes that fit: entries up to 1000 for 2 variables, 70 for 3, 14 for 4, 5 for 5, 2 for 6 *)
Lemma fits_Z n M : (Z.of_nat (fact (2 * n)) * Z.of_nat M ^ Z.of_nat (2 * n) < 10 ^ 14)%Z -> fits n M.
Proof.
  intros H. unfold fits. rewrite !INR_IZR_INZ. rewrite pow_IZR, <- mult_IZR. change 10 with (IZR 10). rewrite (pow_IZR 10 14). apply IZR_lt. exact H.
Qed.
Lemma fits_below n M M' : fits n M' -> (M <= M')%nat -> fits n M.
Proof.
  intros H HM. unfold fits in *. eapply Rle_lt_trans; [|exact H]. apply Rmult_le_compat_l; [apply pos_INR|]. apply pow_incr. split; [apply pos_INR|apply le_INR; auto].
Qed.
Lemma C73_sizes : fits 2 1000 /\ fits 3 70 /\ fits 4 14 /\ fits 5 5 /\ fits 6 2.
Proof.
  assert (H : forall n M (zf zm : Z), Z.of_nat (fact (2 * n)) = zf -> Z.of_nat M = zm -> (zf * zm ^ Z.of_nat (2 * n) < 10 ^ 14)%Z -> fits n M).
  { intros n M zf zm E1 E2 E3. apply fits_Z. rewrite E1, E2. exact E3. }
  assert (HF : forall n, Z.of_nat (fact (S n)) = (Z.of_nat (S n) * Z.of_nat (fact n))%Z) by (intros n; change (fact (S n)) with (S n * fact n)%nat; apply Nat2Z.inj_mul).
  assert (H0 : Z.of_nat (fact 0) = 1%Z) by reflexivity.
  assert (F4 : Z.of_nat (fact 4) = 24%Z) by (rewrite !HF, H0; reflexivity). assert (F6 : Z.of_nat (fact 6) = 720%Z) by (rewrite !HF, H0; reflexivity).
  assert (F8 : Z.of_nat (fact 8) = 40320%Z) by (rewrite !HF, H0; reflexivity). assert (F10 : Z.of_nat (fact 10) = 3628800%Z) by (rewrite !HF, H0; reflexivity).
  assert (F12 : Z.of_nat (fact 12) = 479001600%Z) by (rewrite !HF, H0; reflexivity).
  split; [apply (H 2%nat _ 24%Z 1000%Z F4); reflexivity|]. split; [apply (H 3%nat _ 720%Z 70%Z F6); reflexivity|]. split; [apply (H 4%nat _ 40320%Z 14%Z F8); reflexivity|].
  split; [apply (H 5%nat _ 3628800%Z 5%Z F10); reflexivity|apply (H 6%nat _ 479001600%Z 2%Z F12); reflexivity].
Qed.

(** The hypotheses are met by a problem with an equality and two bounds, and by the warm-start example *)
Example C73_nonvacuous : multiples (ex_pb 1) 1 1 /\ fits (nv (ex_pb 1)) 1 /\ sizes_ok (ex_pb 1) = true /\ posdef (nv (ex_pb 1)) (hess (ex_pb 1)) /\ ordered (ex_pb 1) /\
  equalities_first (ex_pb 1) /\ eq_independent (ex_pb 1) /\ multiples wex_pb 1 1 /\ multiple_sides wex_pb 1 /\ fits (nv wex_pb) 1.
Proof.
  assert (F2 : fits 2 1) by (apply (fits_below 2 1 1000); [apply C73_sizes|lia]).
  assert (HZ : forall b : bool, integral (if b then 1 else 0) /\ Rabs (if b then 1 else 0) <= INR 1).
  { intros [|]; split; [apply int_1|rewrite Rabs_R1; cbn; lra|apply int_0|rewrite Rabs_R0; cbn; lra]. }
  assert (HI : forall pb : rproblem, nv pb = 2%nat -> (forall a b, p_G pb a b = if (a =? b)%nat then 1 else 0) -> (forall a k, p_C pb a k = 1) -> multiples pb 1 1).
  { intros pb E1 E2 E3. split; auto; [intros a b _ _; rewrite E2; cbn [INR]; rewrite Rmult_1_l; apply HZ|]. intros a k _ _. rewrite E3. cbn [INR]. rewrite Rmult_1_l. apply (HZ true). }
  split; [apply HI; auto|]. split; auto. split; [apply ex_sizes|]. split; [apply ex_posdef|]. split; [apply ex_ordered|]. split; [apply ex_first|]. split; [apply ex_indep|].
  split; [apply HI; auto|]. split; [|exact F2]. split.
  - intros a Ha. cbn [INR]. rewrite Rmult_1_l. cbn. destruct (a =? 0)%nat; [exists (-2)%Z; reflexivity|apply int_0].
  - intros i b Hi Hb. cbn [INR]. rewrite Rmult_1_l. change (ncb wex_pb) with 3%nat in Hi. destruct i as [|[|[|i]]]; try lia; cbn in Hb; destruct Hb as [Hb|Hb]; try discriminate Hb; injection Hb as <-; try apply int_1; apply int_0.
Qed.
Lemma pair_sides pb : nv pb = 2%nat -> ncb pb = 3%nat -> (forall a, p_a pb a = if (a =? 0)%nat then -2 else 0) ->
  (forall i b, (i < 3)%nat -> clo pb i = Some b \/ cup pb i = Some b -> b = 0 \/ b = 1) -> sides_within pb 2.
Proof.
  intros E1 E2 E3 E4. split.
  - intros a _. rewrite E3. destruct (a =? 0)%nat; [rewrite Rabs_left; lra|rewrite Rabs_R0; lra].
  - intros i b Hi Hb. rewrite E2 in Hi. destruct (E4 i b Hi Hb) as [-> | ->]; [rewrite Rabs_R0; lra|rewrite Rabs_R1; lra].
Qed.
Example C73_nonvacuous_limits : sides_within (ex_pb 1) 2 /\ sides_within wex_pb 2 /\ (nc (ex_pb 1) + nb (ex_pb 1) <= 5)%nat /\
  tolerance_gap (ex_pb 1) /\ steps_below (ex_pb 1) (2 * 10 ^ 43) /\ tolerance_gap wex_pb /\ steps_below wex_pb (2 * 10 ^ 43).
Proof.
  assert (H1 : sides_within (ex_pb 1) 2).
  { apply pair_sides; auto. intros i b Hi Hb. destruct i as [|[|[|i]]]; try lia; cbn in Hb; destruct Hb as [Hb|Hb]; try discriminate Hb; injection Hb as <-; auto. }
  assert (H2 : sides_within wex_pb 2).
  { apply pair_sides; auto. intros i b Hi Hb. destruct i as [|[|[|i]]]; try lia; cbn in Hb; destruct Hb as [Hb|Hb]; try discriminate Hb; injection Hb as <-; auto. }
  destruct C73_nonvacuous as (I1 & F1 & _ & D1 & _ & _ & _ & I2 & _ & F2).
  split; auto. split; auto. split; [cbn; lia|]. split; [apply (multiples_gap (ex_pb 1) 1 1); auto|]. split; [apply (multiples_limit (ex_pb 1) 1 1 2); auto; cbn [INR]; lra|].
  split; [apply wex_gap|]. apply (multiples_limit wex_pb 1 1 2); auto; cbn [INR]; lra.
Qed.

(** A problem in tenths: minimise 0.75 x0^2 + 0.3 x0 x1 + 0.35 x1^2 - 0.4 x0 with 0.1 x0 - 2.5 x1 >= -0.4 and 0 <= x *)
Definition tenth_pb : rproblem :=
  @Pb Rops (fun a b => if (a =? b)%nat then (if (a =? 0)%nat then 15 / 10 else 7 / 10) else 3 / 10) 2 2
    (fun a => if (a =? 0)%nat then - (4 / 10) else 0) 2
    (fun a _ => if (a =? 0)%nat then 1 / 10 else - (25 / 10)) 2 1
    (fun _ => Some (- (4 / 10))) 1 (fun _ => None) 1 (fun _ => Some 0) 2 (fun _ => None) 2.
Example C73_nonvacuous_tenths : multiples tenth_pb 10 25 /\ fits (nv tenth_pb) 25 /\ sides_within tenth_pb 1 /\ multiple_sides tenth_pb 10 /\
  sizes_ok tenth_pb = true /\ posdef (nv tenth_pb) (hess tenth_pb) /\ ordered tenth_pb /\ equalities_first tenth_pb /\ eq_independent tenth_pb /\ (nc tenth_pb + nb tenth_pb <= 5)%nat.
Proof.
  assert (E10 : INR 10 = 10) by (rewrite INR_IZR_INZ; reflexivity). assert (E25 : INR 25 = 25) by (rewrite INR_IZR_INZ; reflexivity).
  assert (HQ : forall i, (i < ncb tenth_pb)%nat -> ~ is_equality tenth_pb i).
  { intros i _ (b & _ & Hb). unfold cup in Hb. destruct (i <? nc tenth_pb)%nat; discriminate Hb. }
  split; [split; try lia|].
  { intros a b Hab Ha. rewrite E10, E25. cbn [tenth_pb p_G]. destruct (a =? b)%nat; [destruct (a =? 0)%nat|]; (split; [|rewrite Rabs_right; lra]); [exists 15%Z|exists 7%Z|exists 3%Z]; lra. }
  { intros a k _ _. rewrite E10, E25. cbn [tenth_pb p_C]. destruct (a =? 0)%nat; split; [exists 1%Z; lra|rewrite Rabs_right; lra|exists (-25)%Z; lra|rewrite Rabs_left; lra]. }
  split; [apply (fits_below 2 25 1000); [apply C73_sizes|lia]|].
  split; [split|].
  { intros a _. cbn [tenth_pb p_a]. destruct (a =? 0)%nat; [rewrite Rabs_left; lra|rewrite Rabs_R0; lra]. }
  { intros i b _ Hb. unfold clo, cup in Hb. destruct (i <? nc tenth_pb)%nat; cbn in Hb; destruct Hb as [Hb|Hb]; try discriminate Hb; injection Hb as <-; [rewrite Rabs_left; lra|rewrite Rabs_R0; lra]. }
  split; [split|].
  { intros a _. rewrite E10. cbn [tenth_pb p_a]. destruct (a =? 0)%nat; [exists (-4)%Z; lra|exists 0%Z; lra]. }
  { intros i b _ Hb. rewrite E10. unfold clo, cup in Hb. destruct (i <? nc tenth_pb)%nat; cbn in Hb; destruct Hb as [Hb|Hb]; try discriminate Hb; injection Hb as <-; [exists (-4)%Z; lra|exists 0%Z; lra]. }
  split; [reflexivity|]. split.
  { intros v (a & Ha & Hne). change (nv tenth_pb) with 2%nat in *. unfold quad. rewrite !sum_S, !sum_0. unfold hess, gsym. cbn [tenth_pb p_G Nat.leb Nat.eqb].
    assert (Hp : 0 < v 0%nat * v 0%nat \/ 0 < v 1%nat * v 1%nat).
    { destruct a as [|[|a]]; [left|right|lia]; apply Rlt_0_sqr; auto. }
    pose proof (Rle_0_sqr (v 0%nat)) as Q0. pose proof (Rle_0_sqr (v 1%nat)) as Q1. pose proof (Rle_0_sqr (v 0%nat + v 1%nat)) as Q2. unfold Rsqr in *.
    destruct Hp; lra. }
  split; [intros i l u Hi _ Hu; unfold cup in Hu; destruct (i <? nc tenth_pb)%nat; discriminate Hu|].
  split; [intros i j Hi Hj Hq; exfalso; exact (HQ j ltac:(assumption) Hq)|].
  split; [intros w Hw _ i Hi; apply Hw; auto|]. cbn; lia.
Qed.

(** C64: what SUCCESS guarantees when the solvers run on IEEE-754 doubles.
    The arithmetic is [Dw wo] (DoubleOps.v), for any order [wo] in which the sums are evaluated: every operation of the model is one
    correctly rounded operation on [double], with infinities and NaN.
    Specification: [dfin x], x is finite; [dval x], the real number x stands for. *)
From Coq Require Import List Arith ZArith Lia Bool Reals Lra.
From Flocq Require Import Core IEEE754.BinarySingleNaN.
From Verif Require Import Base ActiveSet ActiveSetProofs Num Solver LinAlg GISafe GICall GIHist Warm WarmSafe WarmHist FloatStd DoubleOps DoubleLaws FloatSolve.
Import ListNotations.
Local Open Scope R_scope.

(** ** Specification *)
Definition not_nan (x : double) : Prop := Bleb x x = true.
(** component [i] of the returned point *)
Definition comp (xs : list double) (i : nat) : R := dval (nth i xs d0).
(** sum_i C(i,j) x_i, and the sum of the magnitudes of its terms, as real numbers *)
Definition lhs {wo} (pb : problem (Dw wo)) (j : nat) (xs : list double) : R := rsum (p_Grows pb) (fun i => dval (p_C pb i j) * comp xs i).
Definition magnitude {wo} (pb : problem (Dw wo)) (j : nat) (xs : list double) : R := rsum (p_Grows pb) (fun i => Rabs (dval (p_C pb i j) * comp xs i)).
(** rounding error of a dot product of length [n] whose terms have total magnitude [w] *)
Definition rounding (n : nat) (w : R) : R := (INR n + 2) * (/ 2 ^ 53) * w + INR n * / 2 ^ 1074.
Definition is_inactive (l : list status) (i : nat) : Prop := nth_error l i = Some INACTIVE.
(** [l <= v] (resp. [v <= u]) up to [e] when the bound is a finite number *)
Definition above_bound (l : option double) (v e : R) : Prop := forall b, l = Some b -> dfin b -> dval b <= v + e.
Definition below_bound (u : option double) (v e : R) : Prop := forall b, u = Some b -> dfin b -> v - e <= dval b.

(** the inactive constraints hold at [xs]: bounds exactly, general constraints up to the rounding of one dot product *)
Definition inactive_hold {wo} (pb : problem (Dw wo)) (act : list status) (xs : list double) : Prop :=
  (forall i, (i < p_xlsize pb)%nat -> is_inactive act (p_Ccols pb + i) -> dfin (nth i xs d0) ->
     above_bound (p_xl pb i) (comp xs i) 0 /\ below_bound (p_xu pb i) (comp xs i) 0) /\
  (forall j, (j < p_Ccols pb)%nat -> is_inactive act j ->
     (forall i, (i < p_Grows pb)%nat -> dfin (p_C pb i j) /\ dfin (nth i xs d0)) -> magnitude pb j xs <= 2 ^ 1000 ->
     let e := rounding (p_Grows pb) (magnitude pb j xs) in
     above_bound (p_bl pb j) (lhs pb j xs) e /\ below_bound (p_bu pb j) (lhs pb j xs) e).

(** ** Proofs *)
Lemma bpow_pos (k : positive) : bpow radix2 (Z.pos k) = 2 ^ Pos.to_nat k.
Proof. rewrite <- (positive_nat_Z k) at 1. rewrite <- IZR_Zpower by lia. rewrite <- pow_IZR. reflexivity. Qed.
Lemma bpow_neg (k : positive) : bpow radix2 (Z.neg k) = / 2 ^ Pos.to_nat k.
Proof. change (Z.neg k) with (- Z.pos k)%Z. rewrite bpow_opp, bpow_pos. reflexivity. Qed.
Lemma du_eq : du = / 2 ^ 53.
Proof. unfold du. rewrite bpow_neg. repeat f_equal. Qed.
Lemma deta_eq : deta = / 2 ^ 1075.
Proof. unfold deta. rewrite bpow_neg. repeat f_equal. Qed.
Lemma dbig_eq : dbig = 2 ^ 1023.
Proof. unfold dbig. rewrite bpow_pos. repeat f_equal. Qed.

Lemma small_n (n : nat) : (n < 2 ^ 26)%nat -> INR n <= 2 ^ 26 - 1.
Proof.
  intros H. assert (H1 : (Z.of_nat n < 2 ^ 26)%Z).
  { apply Nat2Z.inj_lt in H. rewrite (Nat2Z.inj_pow 2 26) in H. exact H. }
  rewrite INR_IZR_INZ. apply Rle_trans with (IZR 67108863); [apply IZR_le; lia|simpl; lra].
Qed.
Lemma gam_small n : (n < 2 ^ 26)%nat -> gam du (n + 1) <= (INR n + 2) * / 2 ^ 53.
Proof.
  intros Hn. apply small_n in Hn. pose proof (pos_INR n) as Hp. rewrite du_eq.
  assert (Hu : 0 < / 2 ^ 53) by (apply Rinv_0_lt_compat, pow_lt; lra).
  assert (Eu : / 2 ^ 53 * 2 ^ 53 = 1) by (apply Rinv_l; apply pow_nonzero; lra).
  set (u := / 2 ^ 53) in *.
  assert (E53 : 2 ^ 53 = 2 * 2 ^ 26 * 2 ^ 26) by ring.
  assert (Q : (INR n + 1) * (INR n + 2) * u <= 1).
  { rewrite <- Eu. rewrite (Rmult_comm u). apply Rmult_le_compat_r; [lra|]. rewrite E53. simpl pow in *. nra. }
  assert (Q1 : (INR n + 1) * u < 1) by nra.
  eapply Rle_trans; [apply gam_bound; [lra|]; rewrite plus_INR; simpl INR; exact Q1|].
  rewrite plus_INR. simpl INR. set (m := INR n) in *.
  apply (Rmult_le_reg_r (1 - (m + 1) * u)); [lra|]. unfold Rdiv. rewrite Rmult_assoc, Rinv_l by lra. nra.
Qed.
Lemma pow_small n : (n < 2 ^ 26)%nat -> (1 + du) ^ n <= 2 /\ (1 + du) ^ (n + 1) <= 2.
Proof.
  intros Hn. pose proof (gam_small n Hn) as H. apply small_n in Hn.
  assert (Hu : 0 < / 2 ^ 53) by (apply Rinv_0_lt_compat, pow_lt; lra).
  assert (B : (INR n + 2) * / 2 ^ 53 <= 1).
  { apply (Rmult_le_reg_r (2 ^ 53)); [apply pow_lt; lra|]. rewrite Rmult_assoc, Rinv_l by (apply pow_nonzero; lra). simpl pow in *. lra. }
  unfold gam in H. assert (0 <= du) by (rewrite du_eq; lra).
  pose proof (Rle_pow (1 + du) n (n + 1) ltac:(lra) ltac:(lia)). lra.
Qed.

Lemma row_error (wo : sumorder) key n (c x : nat -> double) : (n < 2 ^ 26)%nat -> (forall i, (i < n)%nat -> dfin (c i) /\ dfin (x i)) ->
  rsum n (fun i => Rabs (dval (c i) * dval (x i))) <= 2 ^ 1000 ->
  dfin (@dot (Dw wo) key n c x) /\ Rabs (dval (@dot (Dw wo) key n c x) - rsum n (fun i => dval (c i) * dval (x i))) <= rounding n (rsum n (fun i => Rabs (dval (c i) * dval (x i)))).
Proof.
  intros Hn Hf Hw. destruct (pow_small n Hn) as (P0 & P1). pose proof (gam_small n Hn) as Hg. pose proof (small_n n Hn) as Hn'. pose proof (pos_INR n) as Hp.
  set (w := rsum n _) in *.
  assert (W0 : 0 <= w) by (apply sum_nonneg; intros; apply Rabs_pos).
  assert (E0 : 0 < / 2 ^ 1075) by (apply Rinv_0_lt_compat, pow_lt; lra).
  assert (Eh : 2 * / 2 ^ 1075 = / 2 ^ 1074).
  { change 1075%nat with (S 1074). rewrite <- tech_pow_Rmult. field; apply pow_nonzero; lra. }
  assert (P0' : 1 <= (1 + du) ^ n) by (apply pow1_ge; rewrite du_eq; apply Rlt_le, Rinv_0_lt_compat, pow_lt; lra).
  assert (T : INR n * ((1 + du) ^ n * deta) <= INR n * / 2 ^ 1074).
  { apply Rmult_le_compat_l; auto. rewrite deta_eq, <- Eh. apply Rmult_le_compat_r; lra. }
  assert (F : dfin (@dot (Dw wo) key n c x)).
  { apply (dot_fin (Dw wo) dfin dval du deta dbig (double_std wo) key n c x Hf). fold w. rewrite dbig_eq.
    assert (A1 : (1 + du) ^ (n + 1) * w <= 2 * 2 ^ 1000) by (apply Rmult_le_compat; auto; apply pow_le; rewrite du_eq; pose proof (Rinv_0_lt_compat (2 ^ 53) ltac:(apply pow_lt; lra)); lra).
    assert (A2 : INR n * / 2 ^ 1074 <= 2 ^ 26).
    { apply Rle_trans with (2 ^ 26 * 1); [|lra]. apply Rmult_le_compat; try lra. }
    assert (A3 : 2 * 2 ^ 1000 + 2 ^ 26 <= 2 ^ 1023).
    { replace 1023%nat with (1000 + 23)%nat by reflexivity. rewrite pow_add.
      assert (2 ^ 26 <= 2 ^ 1000) by (apply Rle_pow; [lra|lia]).
      assert (3 * 2 ^ 1000 <= 2 ^ 23 * 2 ^ 1000); [|lra]. apply Rmult_le_compat_r; [apply pow_le; lra|simpl; lra]. }
    lra. }
  split; auto. destruct (dot_err (Dw wo) dfin dval du deta dbig (double_std wo) key n c x F) as (_ & H).
  eapply Rle_trans; [exact H|]. fold w. unfold rounding. apply Rplus_le_compat; auto. apply Rmult_le_compat_r; auto.
Qed.

Lemma not_below_le a b : dfin a -> dfin b -> Bltb (Bminus mode_NE a b) d0 = false -> dval b <= dval a.
Proof.
  intros Fa Fb H. destruct (Rle_or_lt (dval b) (dval a)) as [|Hlt]; auto. exfalso.
  apply (sm_sub_lt (double_std left_order) a b Fa Fb) in Hlt. simpl in Hlt. congruence.
Qed.

Lemma tests_hold (wo : sumorder) (pb : problem (Dw wo)) s sc xs : (p_Grows pb < 2 ^ 26)%nat -> gsh (Dw wo) pb s -> selectViolated pb s = Ok sc -> sc_st sc = INACTIVE -> solution s = Ok xs ->
  inactive_hold pb (activeSet s) xs.
Proof.
  intros Hn HS Es Hi Hx. destruct (none_violated (Dw wo) pb s sc xs Es Hi Hx) as (HC & HB).
  rewrite (g_nc _ _ _ HS), (g_nb _ _ _ HS) in *. unfold gc_, gb in *.
  assert (Hx' : forall i, (i < p_Grows pb)%nat -> nth i xs d0 = w_buf (s_x s) i).
  { intros i Hlt. unfold solution in Hx. apply bind_ok in Hx as (xv & Ex & Hx). injection Hx as <-.
    assert (xv = w_buf (s_x s)) as -> by (unfold getV in Ex; destruct (vec_fits _ _); [injection Ex; auto|discriminate]).
    rewrite (g_n _ _ _ HS). unfold gn. rewrite (nth_indep _ d0 (w_buf (s_x s) 0%nat)) by (rewrite map_length, seq_length; auto).
    rewrite map_nth, seq_nth by auto. reflexivity. }
  pose proof (gsizes_nb _ _ (g_sizes _ _ _ HS)) as Hle. unfold gb, gn in Hle.
  assert (Hcr : p_Crows pb = p_Grows pb).
  { pose proof (g_sizes _ _ _ HS) as H. unfold sizes_ok in H. rewrite !andb_true_iff, !Nat.eqb_eq in H. tauto. }
  split.
  - intros i Hlt Ha Hf. destruct (HB i Hlt Ha) as (H1 & H2). unfold comp, above_bound, below_bound. rewrite Hx' in * by lia. split.
    + intros b Eb Fb. unfold not_below in H1. rewrite Eb in H1. pose proof (not_below_le _ _ Hf Fb H1). lra.
    + intros b Eb Fb. unfold not_above in H2. rewrite Eb in H2. pose proof (not_below_le _ _ Fb Hf H2). lra.
  - intros j Hlt Ha Hf Hm e. destruct (HC j Hlt Ha) as (H1 & H2). rewrite Hcr in *.
    assert (Hf' : forall i, (i < p_Grows pb)%nat -> dfin (p_C pb i j) /\ dfin (w_buf (s_x s) i)).
    { intros i Hi'. destruct (Hf i Hi') as (? & Hx1). rewrite Hx' in Hx1 by auto. auto. }
    assert (Em : magnitude pb j xs = rsum (p_Grows pb) (fun i => Rabs (dval (p_C pb i j) * dval (w_buf (s_x s) i)))).
    { apply sum_ext. intros i Hi'. unfold comp. rewrite Hx' by auto. reflexivity. }
    assert (El : lhs pb j xs = rsum (p_Grows pb) (fun i => dval (p_C pb i j) * dval (w_buf (s_x s) i))).
    { apply sum_ext. intros i Hi'. unfold comp. rewrite Hx' by auto. reflexivity. }
    rewrite Em in Hm.
    destruct (row_error wo [14; j]%nat (p_Grows pb) (fun i => p_C pb i j) (w_buf (s_x s)) Hn Hf' Hm) as (F & D). cbv beta in D.
    rewrite <- Em, <- El in D. fold e in D. apply Rabs_le_inv in D. split.
    + intros b Eb Fb. unfold not_below in H1. rewrite Eb in H1. pose proof (not_below_le _ _ F Fb H1) as K. lra.
    + intros b Eb Fb. unfold not_above in H2. rewrite Eb in H2. pose proof (not_below_le _ _ Fb F H2) as K. lra.
Qed.

(** ** C64: the stable dense solver *)
Theorem C64_success_double : forall (wo : sumorder) junk (pb : problem (Dw wo)) (o : options (Dw wo)) s s' xs, history (Dw wo) s -> not_nan (o_bigBnd o) -> (p_Grows pb < 2 ^ 26)%nat ->
  gi_solve junk pb o s = Ok (SUCCESS, s') -> solution s' = Ok xs -> inactive_hold pb (activeSet s') xs.
Proof.
  intros wo junk pb o s s' xs HH HB Hn E Hx. destruct (gi_success_tests (Dw wo) junk pb o s s' (double_safe wo) HB HH E) as (HS & sc & Es & Hi).
  eapply tests_hold; eauto.
Qed.
(** C64: the warm-startable one *)
Theorem C64_success_double_warm : forall (wo : sumorder) junk (pb : problem (Dw wo)) (o : options (Dw wo)) ws x x' xs, xhistory (Dw wo) x -> not_nan (o_bigBnd o) -> (p_Grows pb < 2 ^ 26)%nat ->
  xgi_solve junk pb o ws x = Ok (SUCCESS, x') -> solution (x_s x') = Ok xs -> inactive_hold pb (activeSet (x_s x')) xs.
Proof.
  intros wo junk pb o ws x x' xs HH HB Hn E Hx. destruct (xgi_success_tests (Dw wo) junk pb o ws x x' (double_safe wo) HB HH E) as (HS & sc & Es & Hi).
  eapply tests_hold; eauto.
Qed.

(** C64: in any arithmetic whatsoever, with any data and whatever the status, the multiplier of an inactive
    constraint is exactly zero. *)
Lemma mult_inactive (S : ops) (s : sol S) lam s'' : good (s_A s) -> s_exp s = true -> multipliers s = Ok (lam, s'') ->
  forall i, nth_error (activeSet s) i = Some INACTIVE -> nth_error lam i = Some (zero S).
Proof.
  intros HG He E i Hi. unfold multipliers in E. rewrite He in E. apply bind_ok in E as (s1 & E1 & E).
  apply bind_ok in E1 as (r0 & _ & E1). apply bind_ok in E1 as (u0 & _ & E1). apply bind_ok in E1 as (u1 & _ & E1).
  apply bind_ok in E1 as (w & Ew & E1). injection E1 as <-. apply bind_ok in E as (u & Eu & E). injection E as <- _.
  assert (u = w) as ->.
  { unfold getV in Eu. destruct (vec_fits _ _); [|discriminate]. injection Eu as <-. cbn. rewrite vm_id. reflexivity. }
  destruct HG as (HG & _).
  assert (Hlt : (i < nbAll (s_A s))%nat).
  { unfold nbAll. rewrite <- (coh_len _ HG). apply nth_error_Some. unfold activeSet in Hi. rewrite Hi. discriminate. }
  rewrite (map_nth_error w i (seq 0 (nbAll (s_A s))) (d := i)).
  - f_equal. change (zero S) with ((fun _ : nat => zero S) i). apply (expand_out S _ _ _ _ _ Ew). intros j _ Hj.
    apply nth_error_In in Hj. apply (coh_iff _ HG) in Hj as (st & E1 & Hne). unfold activeSet in Hi. congruence.
  - rewrite (nth_error_nth' (seq 0 (nbAll (s_A s))) 0%nat) by (rewrite seq_length; auto). rewrite seq_nth by auto. reflexivity.
Qed.
Theorem C64_inactive_multiplier : forall (S : ops) junk (pb : problem S) (o : options S) s st s' lam s'' i, safe_ops S -> history S s -> leb S (o_bigBnd o) (o_bigBnd o) = true ->
  gi_solve junk pb o s = Ok (st, s') -> multipliers s' = Ok (lam, s'') -> is_inactive (activeSet s') i -> nth_error lam i = Some (zero S).
Proof.
  intros S junk pb o s st s' lam s'' i HO HH HB E Em Hi. pose proof (hist_wf S s HO HH) as HW.
  pose proof (proj1 (gsolve_ub S junk pb o s HO HB HW)) as HU.
  destruct (gsolve_ub S junk pb o s HO HB HW) as (_ & HU2).
  destruct (sizes_ok pb) eqn:Es; [|rewrite HU2 in E by auto; discriminate].
  assert (Hle : fst (llt (gn S pb) (p_G pb)) = None -> (length (geqs S pb (gcb S pb)) <= gn S pb)%nat).
  { intros En. destruct (Nat.le_gt_cases (length (geqs S pb (gcb S pb))) (gn S pb)); auto. rewrite HU2 in E; [discriminate|]. right. auto. }
  destruct (gsolve_result S junk pb o s HO HB HW Es Hle) as (st1 & s1 & E1 & HD & _). rewrite E in E1. injection E1 as <- <-.
  eapply mult_inactive; eauto; apply HD.
Qed.

(** ** Concrete cases *)
(** m * 2^e as a double *)
Definition dlit (m e : Z) : double := binary_normalize dprec demax _ _ mode_NE m e false.
Definition dv (l : list double) : nat -> double := fun i => nth i l d0.
Definition dm (l : list (list double)) : nat -> nat -> double := fun i j => nth i (nth j l []) d0.   (* by columns *)
Definition dob (l : list double) : nat -> option double := fun i => Some (nth i l d0).
Definition dpb (n m : nat) G a C bl bu xl xu : problem Dops := @Pb Dops (dm G) n n (dv a) n (dm C) n m (dob bl) m (dob bu) m (dob xl) (length xl) (dob xu) (length xu).
Definition dopt : options Dops := @Opt Dops 50 (dlit 1 300) false true.
Definition dnan : double := B754_nan.
Definition junkd : vec Dops := fun _ => dnan.   (* uninitialised memory *)
Definition run_double (pb : problem Dops) : option (term_status * list double * list status) :=
  match gi_solve junkd pb dopt (sol_new Dops) with
  | Ok (st, s) => match solution s with Ok xs => Some (st, xs, activeSet s) | UB => None end
  | UB => None
  end.
(** tests/GoldfarbIdnaniSolverTest.cpp:50-73: minimum of 2x^2+2y^2-2xy+6x with x+y >= 2, x, y >= 0 *)
Definition paper : problem Dops :=
  dpb 2 1 [[dlit 4 0; dlit (-2) 0]; [dlit (-2) 0; dlit 4 0]] [dlit 6 0; d0] [[d1; d1]] [dlit 2 0] [dlit 10 0] [d0; d0] [dlit 10 0; dlit 10 0].
Lemma run_inv pb st xs act : run_double pb = Some (st, xs, act) -> exists s', gi_solve junkd pb dopt (sol_new Dops) = Ok (st, s') /\ solution s' = Ok xs /\ activeSet s' = act.
Proof.
  unfold run_double. destruct (gi_solve _ pb dopt _) as [(st1, s1)|]; [|discriminate]. destruct (solution s1) as [xs1|] eqn:E; [|discriminate].
  intros H. injection H as -> -> <-. exists s1. auto.
Qed.
Definition between (x y z : double) : bool := Bltb x y && Bltb y z.
Lemma between_fin x y z : between x y z = true -> dfin y.
Proof.
  intros H. apply andb_true_iff in H as (H1 & H2). destruct y as [b|b| |b m e Hb]; [reflexivity| | |reflexivity].
  - destruct b; [destruct x as [| [] | | [] ?]|destruct z as [| [] | | [] ?]]; discriminate.
  - destruct z as [| [] | | [] ?]; discriminate.
Qed.
Definition paper_ok (r : option (term_status * list double * list status)) : bool :=
  match r with
  | Some (SUCCESS, [x; y], [LOWER; INACTIVE; INACTIVE]) => between d0 x (dlit 10 0) && between d0 y (dlit 10 0)
  | _ => false end.
Lemma paper_runs : paper_ok (run_double paper) = true.
Proof. vm_compute. reflexivity. Qed.
(** the hypotheses of C64_success_double are met, with two inactive bounds *)
Example C64_nonvacuous : exists s' xs, history Dops (sol_new Dops) /\ not_nan (o_bigBnd dopt) /\ (p_Grows paper < 2 ^ 26)%nat /\
  gi_solve junkd paper dopt (sol_new Dops) = Ok (SUCCESS, s') /\ solution s' = Ok xs /\
  activeSet s' = [LOWER; INACTIVE; INACTIVE] /\ Forall dfin xs /\ length xs = 2%nat.
Proof.
  pose proof paper_runs as H. destruct (run_double paper) as [((st, xs), act)|] eqn:E; [|discriminate H].
  destruct (run_inv _ _ _ _ E) as (s' & E1 & E2 & E3). exists s', xs. unfold paper_ok in H.
  destruct st; try discriminate H. destruct xs as [|x [|y [|]]]; try discriminate H.
  destruct act as [|[] [|[] [|[] [|]]]]; try discriminate H. apply andb_true_iff in H as (H1 & H2).
  split; [constructor|]. split; [vm_compute; reflexivity|]. split; [apply (Nat.pow_lt_mono_r 2 1 26); lia|].
  split; [exact E1|]. split; [exact E2|]. split; [exact E3|]. split; [|reflexivity].
  constructor; [|constructor; [|constructor]]; eapply between_fin; eauto.
Qed.

(** C64: nothing of the sort holds for the active constraints, which are not evaluated again: minimising x^2/2 + 2^60 x over x >= 1/8
    is answered SUCCESS with x = 0. *)
Definition far : problem Dops := dpb 1 0 [[d1]] [dlit 1 60] [] [] [] [dlit 1 (-3)] [dlit 1 3].
Theorem C64_active_not_covered : exists s' x, gi_solve junkd far dopt (sol_new Dops) = Ok (SUCCESS, s') /\ solution s' = Ok [x] /\
  dfin x /\ dval x = 0 /\ p_xl far 0 = Some (dlit 1 (-3)) /\ dval (dlit 1 (-3)) = / 8.
Proof.
  assert (H : match run_double far with Some (SUCCESS, [B754_zero false], _) => true | _ => false end = true) by (vm_compute; reflexivity).
  destruct (run_double far) as [((st, xs), act)|] eqn:E; [|discriminate H]. destruct (run_inv _ _ _ _ E) as (s' & E1 & E2 & _).
  destruct st; try discriminate H. destruct xs as [|[[]| | |] [|]]; try discriminate H.
  exists s', d0. split; [exact E1|]. split; [exact E2|]. split; [reflexivity|]. split; [reflexivity|]. split; [reflexivity|].
  assert (E8 : B2SF (dlit 1 (-3)) = SpecFloat.S754_finite false 4503599627370496 (-55)) by (vm_compute; reflexivity).
  unfold dval. rewrite <- SF2R_B2SF, E8. unfold SF2R, Defs.F2R. cbn [Defs.Fnum Defs.Fexp cond_Zopp]. rewrite bpow_neg. simpl. lra.
Qed.

(** C64: nor when the returned point is not finite: a NaN in the data is answered SUCCESS. *)
Definition nanpb : problem Dops := dpb 1 0 [[d1]] [B754_nan] [] [] [] [d1] [dlit 1 3].
Theorem C64_nan_succeeds : exists s', gi_solve junkd nanpb dopt (sol_new Dops) = Ok (SUCCESS, s') /\ solution s' = Ok [B754_nan].
Proof.
  assert (H : match run_double nanpb with Some (SUCCESS, [B754_nan], _) => true | _ => false end = true) by (vm_compute; reflexivity).
  destruct (run_double nanpb) as [((st, xs), act)|] eqn:E; [|discriminate H]. destruct (run_inv _ _ _ _ E) as (s' & E1 & E2 & _).
  destruct st; try discriminate H. destruct xs as [|[| | |] [|]]; try discriminate H. exists s'. split; [exact E1|exact E2].
Qed.

(** Data that are multiples of 1/D: multiplied by D they are integers, and the thresholds of the method are compared on the two
    problems. *)
From Coq Require Import List Arith ZArith Lia Bool Reals Lra Factorial.
From Verif Require Import Base ActiveSet Num LinAlg Solver QPSpec GIBase GITotal GIFinal Warm WarmAS WarmQR WarmHot WarmTotal Det IntGap IntMult Limits IntLimit.
Import ListNotations.
Local Open Scope R_scope.

(** the entries of G (lower triangle) and C, multiplied by [D], are integers of absolute value at most [M] *)
Record multiples (pb : rproblem) (D M : nat) : Prop := {
  mu_G : forall a b, (b <= a)%nat -> (a < nv pb)%nat -> integral (INR D * p_G pb a b) /\ Rabs (INR D * p_G pb a b) <= INR M;
  mu_C : forall a k, (a < nv pb)%nat -> (k < nc pb)%nat -> integral (INR D * p_C pb a k) /\ Rabs (INR D * p_C pb a k) <= INR M;
  mu_M : (1 <= M)%nat;
  mu_D : (1 <= D)%nat
}.
(** so are the linear cost and the finite bounds *)
Definition multiple_sides (pb : rproblem) (D : nat) : Prop :=
  (forall a, (a < nv pb)%nat -> integral (INR D * p_a pb a)) /\
  (forall i b, (i < ncb pb)%nat -> clo pb i = Some b \/ cup pb i = Some b -> integral (INR D * b)).

(** the problem in the variable D x *)
Definition oscale (t : R) (b : option R) : option R := match b with Some v => Some (t * v) | None => None end.
Definition scaled (D : R) (pb : rproblem) : rproblem :=
  @Pb Rops (fun a b => D * p_G pb a b) (p_Grows pb) (p_Gcols pb) (fun a => D * D * p_a pb a) (p_asize pb)
    (fun a k => D * p_C pb a k) (p_Crows pb) (p_Ccols pb)
    (fun i => oscale (D * D) (p_bl pb i)) (p_blsize pb) (fun i => oscale (D * D) (p_bu pb i)) (p_busize pb)
    (fun i => oscale D (p_xl pb i)) (p_xlsize pb) (fun i => oscale D (p_xu pb i)) (p_xusize pb).

Section Scale.
Variable pb : rproblem.
Variable D : R.
Hypothesis HD : 1 <= D.
Notation n := (nv pb).
Notation m := (ncb pb).
Definition wt (j : nat) : R := if (j <? nc pb)%nat then D else 1.
Lemma wt_range j : 1 <= wt j <= D. Proof. unfold wt. destruct (j <? nc pb)%nat; lra. Qed.

Lemma sc_nv : nv (scaled D pb) = n. Proof. reflexivity. Qed.
Lemma sc_ncb : ncb (scaled D pb) = m. Proof. reflexivity. Qed.
Lemma sc_hess a b : hess (scaled D pb) a b = D * hess pb a b.
Proof. unfold hess, gsym. cbn [scaled p_G]. destruct (b <=? a)%nat; reflexivity. Qed.
Lemma sc_cvec j a : cvec (scaled D pb) j a = wt j * cvec pb j a.
Proof. unfold cvec, wt. change (nc (scaled D pb)) with (nc pb). destruct (j <? nc pb)%nat; cbn [scaled p_C]; [reflexivity|]. lra. Qed.
Lemma sc_clo j : clo (scaled D pb) j = oscale (D * wt j) (clo pb j).
Proof. unfold clo, wt. change (nc (scaled D pb)) with (nc pb). destruct (j <? nc pb)%nat; cbn [scaled p_bl p_xl]; auto. rewrite Rmult_1_r. reflexivity. Qed.
Lemma sc_cup j : cup (scaled D pb) j = oscale (D * wt j) (cup pb j).
Proof. unfold cup, wt. change (nc (scaled D pb)) with (nc pb). destruct (j <? nc pb)%nat; cbn [scaled p_bu p_xu]; auto. rewrite Rmult_1_r. reflexivity. Qed.
Lemma sc_dot j (x : rvec) t : rdot n (cvec (scaled D pb) j) (fun a => t * x a) = wt j * t * rdot n (cvec pb j) x.
Proof. rewrite !dot_def, <- sum_scal. apply sum_ext. intros a _. rewrite sc_cvec. rring. Qed.

Lemma sc_projected W i z r : projected pb W i z r ->
  projected (scaled D pb) W i (fun a => wt i / D * z a) (fun j => wt i / wt j * r j).
Proof.
  pose proof (wt_range i) as Hi. intros [P1 P2 P3]. split.
  - intros j Hj. rewrite P1 by auto. rring.
  - rewrite sc_nv, sc_ncb. intros a Ha.
    rewrite (sum_ext n _ (fun b => wt i * (hess pb a b * z b))) by (intros b _; rewrite sc_hess; rops; field; lra).
    rewrite sum_scal, P2 by auto. rewrite sc_cvec, Rmult_minus_distr_l, <- sum_scal. f_equal.
    apply sum_ext. intros j _. pose proof (wt_range j). rewrite sc_cvec. rops. field. lra.
  - rewrite sc_nv, sc_ncb. intros j Hj HW. rewrite sc_dot, P3 by auto. lra.
Qed.
Lemma sc_stationary w W x lam : stationary_on pb w W x lam ->
  stationary_on (scaled D pb) w W (fun a => D * x a) (fun j => D * D / wt j * lam j).
Proof.
  intros [S1 S2 S3 S4]. split.
  - intros j Hj. rewrite S1 by auto. lra.
  - rewrite sc_nv, sc_ncb. intros a Ha. unfold gradient. rewrite sc_nv. cbn [scaled p_a].
    rewrite (sum_ext n _ (fun b => D * D * (hess pb a b * x b))) by (intros b _; rewrite sc_hess; rring). rewrite sum_scal.
    rewrite (sum_ext m _ (fun j => D * D * (lam j * cvec pb j a))).
    + rewrite sum_scal. specialize (S2 a Ha). unfold gradient in S2.
      transitivity (D * D * (rsum n (fun b => hess pb a b * x b) + p_a pb a + rsum m (fun j => lam j * cvec pb j a))); [rring|]. rewrite S2. lra.
    + intros j _. pose proof (wt_range j). rewrite sc_cvec. rops. field. lra.
  - rewrite sc_ncb. intros j Hj HW. specialize (S3 j Hj HW). rewrite sc_nv, sc_dot, sc_clo, sc_cup.
    destruct (w j); auto; rewrite S3; cbn [oscale]; f_equal; lra.
  - rewrite sc_nv, sc_ncb. intros c Hc Hs j Hj. pose proof (wt_range j) as Hw.
    assert (E : wt j * c j = 0).
    { apply (S4 (fun j => wt j * c j)); auto.
      - intros k Hk. rewrite Hc by auto. lra.
      - intros a Ha. rewrite <- (Hs a Ha). apply sum_ext. intros k _. rewrite sc_cvec. rring. }
    apply Rmult_integral in E as [E|E]; auto. lra.
Qed.

Lemma sc_gap : tolerance_gap (scaled D pb) -> tolerance_gap pb.
Proof.
  intros HG W i z r Hi HJ. pose proof (wt_range i) as Hw.
  destruct (HG W i _ _ Hi (sc_projected _ _ _ _ HJ)) as [Hz|Hz]; rewrite sc_nv in Hz.
  - left. intros a Ha. specialize (Hz a Ha). cbv beta in Hz. apply Rmult_integral in Hz as [Hz|Hz]; auto. exfalso.
    assert (0 < wt i / D) by (apply Rmult_lt_0_compat; [lra|apply Rinv_0_lt_compat; lra]). lra.
  - right. eapply Rlt_le_trans; [exact Hz|]. apply sqrt_le_1_alt.
    rewrite !dot_def. apply sum_le. intros a _.
    assert (Hq : 0 <= wt i / D <= 1).
    { split; [apply Rmult_le_pos; [lra|left; apply Rinv_0_lt_compat; lra]|]. apply (Rmult_le_reg_r D); [lra|]. unfold Rdiv. rewrite Rmult_assoc, Rinv_l by lra. lra. }
    apply Rle_trans with ((wt i / D) * (wt i / D) * (z a * z a)); [right; lra|].
    rewrite <- (Rmult_1_l (z a * z a)) at 2. apply Rmult_le_compat_r; [apply Rle_0_sqr|]. nra.
Qed.

Lemma sc_steps B : steps_below (scaled D pb) (D * B) -> steps_below pb B.
Proof.
  intros HB w W x lam i z r Hi HS HJ. pose proof (wt_range i) as Hw.
  destruct (HB w W _ _ i _ _ Hi (sc_stationary _ _ _ _ HS) (sc_projected _ _ _ _ HJ)) as [H1 H2]. rewrite sc_nv, sc_ncb in *. split.
  - intros j Hj HW Hr. pose proof (wt_range j) as Hwj. specialize (H1 j Hj HW).
    assert (Hp : 0 < wt i / wt j) by (apply Rmult_lt_0_compat; [lra|apply Rinv_0_lt_compat; lra]).
    assert (Hq : 0 < D * D / wt j) by (apply Rmult_lt_0_compat; [nra|apply Rinv_0_lt_compat; lra]).
    cbv beta in H1. rewrite !Rabs_mult, (Rabs_right (wt i / wt j)), (Rabs_right (D * D / wt j)) in H1 by lra.
    assert (Hne : wt i / wt j * r j <> 0) by (intros E; apply Rmult_integral in E; lra). specialize (H1 Hne).
    assert (H3 : D * Rabs (lam j) < wt i * (B * Rabs (r j))).
    { apply (Rmult_lt_reg_l (D / wt j)); [apply Rmult_lt_0_compat; [lra|apply Rinv_0_lt_compat; lra]|].
      replace (D / wt j * (D * Rabs (lam j))) with (D * D / wt j * Rabs (lam j)) by (field; lra).
      replace (D / wt j * (wt i * (B * Rabs (r j)))) with (D * B * (wt i / wt j * Rabs (r j))) by (field; lra). exact H1. }
    pose proof (Rabs_pos (lam j)). assert (0 <= B * Rabs (r j)).
    { apply (Rmult_le_reg_l (wt i)); [lra|]. rewrite Rmult_0_r. assert (0 <= D * Rabs (lam j)) by (apply Rmult_le_pos; lra). lra. }
    apply (Rmult_lt_reg_l D); [lra|]. eapply Rlt_le_trans; [exact H3|]. apply Rmult_le_compat_r; lra.
  - intros b Hb (a & Ha & Hz). assert (Hb' : clo (scaled D pb) i = Some (D * wt i * b) \/ cup (scaled D pb) i = Some (D * wt i * b)).
    { rewrite sc_clo, sc_cup. destruct Hb as [-> | ->]; [left|right]; reflexivity. }
    specialize (H2 _ Hb'). rewrite !sc_dot in H2.
    assert (Hp : 0 < wt i / D) by (apply Rmult_lt_0_compat; [lra|apply Rinv_0_lt_compat; lra]).
    assert (Hne : exists a, (a < n)%nat /\ wt i / D * z a <> 0) by (exists a; split; auto; intros E; apply Rmult_integral in E; lra).
    specialize (H2 Hne). replace (D * wt i * b - wt i * D * rdot n (cvec pb i) x) with (D * wt i * (b - rdot n (cvec pb i) x)) in H2 by ring.
    rewrite Rabs_mult, (Rabs_right (D * wt i)) in H2 by nra.
    replace (D * B * (wt i * (wt i / D) * rdot n (cvec pb i) z)) with (wt i * (wt i * (B * rdot n (cvec pb i) z))) in H2 by (field; lra).
    assert (H3 : D * Rabs (b - rdot n (cvec pb i) x) < wt i * (B * rdot n (cvec pb i) z)) by (apply (Rmult_lt_reg_l (wt i)); lra).
    pose proof (Rabs_pos (b - rdot n (cvec pb i) x)). assert (0 <= B * rdot n (cvec pb i) z).
    { apply (Rmult_le_reg_l (wt i)); [lra|]. rewrite Rmult_0_r. assert (0 <= D * Rabs (b - rdot n (cvec pb i) x)) by (apply Rmult_le_pos; lra). lra. }
    apply (Rmult_lt_reg_l D); [lra|]. eapply Rlt_le_trans; [exact H3|]. apply Rmult_le_compat_r; lra.
Qed.
Lemma sc_posdef : posdef n (hess pb) -> posdef (nv (scaled D pb)) (hess (scaled D pb)).
Proof.
  intros HP v Hv. rewrite sc_nv in *. specialize (HP v Hv). unfold quad in *.
  rewrite (sum_ext n _ (fun a => D * (v a * rsum n (fun b => hess pb a b * v b)))).
  - rewrite sum_scal. apply Rmult_lt_0_compat; lra.
  - intros a _. rewrite (sum_ext n _ (fun b => D * (hess pb a b * v b))) by (intros b _; rewrite sc_hess; rring). rewrite sum_scal. rring.
Qed.
End Scale.

Lemma sc_integer pb D M : multiples pb D M -> integer_data (scaled (INR D) pb) M.
Proof. intros [H1 H2 H3 H4]. split; auto. Qed.
Lemma int_of_nat k : integral (INR k). Proof. exists (Z.of_nat k). rewrite INR_IZR_INZ. reflexivity. Qed.
Lemma mul_int a b : integral a -> integral b -> integral (a * b).
Proof. intros (x & ->) (y & ->). exists (x * y)%Z. rewrite mult_IZR. reflexivity. Qed.
Lemma sc_sides pb D : multiple_sides pb D -> integer_sides (scaled (INR D) pb).
Proof.
  intros [H1 H2]. split.
  - intros a Ha. cbn [scaled p_a]. rewrite Rmult_assoc. apply mul_int; [apply int_of_nat|apply H1; auto].
  - intros i b Hi Hb. rewrite sc_clo, sc_cup in Hb.
    assert (HI : exists v, (clo pb i = Some v \/ cup pb i = Some v) /\ b = INR D * wt pb (INR D) i * v).
    { destruct Hb as [Hb|Hb]; [destruct (clo pb i) as [v|] eqn:E|destruct (cup pb i) as [v|] eqn:E]; try discriminate Hb; injection Hb as <-; exists v; auto. }
    destruct HI as (v & Hv & ->). replace (INR D * wt pb (INR D) i * v) with (wt pb (INR D) i * (INR D * v)) by ring.
    apply mul_int; [|apply (H2 i); auto]. unfold wt. destruct (i <? nc pb)%nat; [apply int_of_nat|apply int_1].
Qed.
Lemma sc_within pb D K : 1 <= D -> 0 <= K -> sides_within pb K -> sides_within (scaled D pb) (D * D * K).
Proof.
  intros HD HK [H1 H2]. assert (1 <= D * D) by nra. split.
  - intros a Ha. cbn [scaled p_a]. rewrite Rabs_mult, (Rabs_right (D * D)) by lra. apply Rmult_le_compat_l; [lra|apply H1; auto].
  - intros i b Hi Hb. rewrite sc_clo, sc_cup in Hb.
    assert (HI : exists v, (clo pb i = Some v \/ cup pb i = Some v) /\ b = D * wt pb D i * v).
    { destruct Hb as [Hb|Hb]; [destruct (clo pb i) as [v|] eqn:E|destruct (cup pb i) as [v|] eqn:E]; try discriminate Hb; injection Hb as <-; exists v; auto. }
    destruct HI as (v & Hv & ->). pose proof (wt_range pb D HD i) as Hw. rewrite Rabs_mult, Rabs_right by nra.
    apply Rmult_le_compat; [nra|apply Rabs_pos|apply Rmult_le_compat_l; lra|apply (H2 i); auto].
Qed.

(** ** Multiples of 1/D *)
Theorem multiples_gap pb D M : multiples pb D M -> posdef (nv pb) (hess pb) -> INR (fact (2 * nv pb)) * INR M ^ (2 * nv pb) < 10 ^ 14 -> tolerance_gap pb.
Proof.
  intros HM HP HF. assert (HD : 1 <= INR D) by (apply (le_INR 1), HM). apply (sc_gap pb (INR D) HD).
  apply (integer_gap _ M); auto; [apply sc_integer; auto|apply sc_posdef; auto].
Qed.
Theorem multiples_mgap pb D M w : multiples pb D M -> multiple_sides pb D -> posdef (nv pb) (hess pb) ->
  INR D * INR D * (INR (fact (2 * nv pb)) * INR M ^ (2 * nv pb)) < 10 ^ 14 -> multiplier_gap pb w.
Proof.
  intros HM HS HP HF W x lam j Hj HSt HW. assert (HD : 1 <= INR D) by (apply (le_INR 1), HM).
  assert (H1 : 1 <= INR M) by (apply (le_INR 1), HM).
  assert (HB : 0 < INR (fact (2 * nv pb)) * INR M ^ (2 * nv pb)) by (apply Rmult_lt_0_compat; [apply lt_0_INR, lt_O_fact|apply pow_lt; lra]).
  assert (HC : lam j = 0 \/ / 10 ^ 14 < Rabs (lam j)).
  { destruct (integer_mult (scaled (INR D) pb) M w (sc_integer _ _ _ HM) (sc_sides _ _ HS) (sc_posdef pb (INR D) HD HP) W _ _ j Hj (sc_stationary pb (INR D) HD _ _ _ _ HSt) HW) as [E|E];
      pose proof (wt_range pb (INR D) HD j) as Hw; assert (Hq : 0 < INR D * INR D / wt pb (INR D) j) by (apply Rmult_lt_0_compat; [nra|apply Rinv_0_lt_compat; lra]).
    - left. apply Rmult_integral in E as [E|E]; auto. lra.
    - right. change (nv (scaled (INR D) pb)) with (nv pb) in E. set (d := INR (fact (2 * nv pb)) * INR M ^ (2 * nv pb)) in *.
      rewrite Rabs_mult, (Rabs_right (INR D * INR D / wt pb (INR D) j)) in E by lra.
      assert (E2 : INR D * INR D / wt pb (INR D) j * Rabs (lam j) <= INR D * INR D * Rabs (lam j)).
      { apply Rmult_le_compat_r; [apply Rabs_pos|]. unfold Rdiv. rewrite <- (Rmult_1_r (INR D * INR D)) at 2. apply Rmult_le_compat_l; [nra|].
        rewrite <- Rinv_1. apply Rinv_le_contravar; lra. }
      assert (Hdd : 0 < INR D * INR D) by nra.
      apply Rlt_le_trans with (/ (INR D * INR D * d)); [apply Rinv_lt_contravar; auto; apply Rmult_lt_0_compat; [apply Rmult_lt_0_compat; auto|apply pow_lt; lra]|].
      rewrite Rinv_mult. apply (Rmult_le_reg_l (INR D * INR D)); auto. rewrite <- Rmult_assoc, Rinv_r by lra. lra. }
  clear -HC. assert (0 < / 10 ^ 14) by (apply Rinv_0_lt_compat, pow_lt; lra).
  destruct HC as [E|HC]; [rewrite E; destruct (w j); auto; left; lra|].
  destruct (w j); auto; unfold Rabs in HC; destruct (Rcase_abs (lam j)); try (left; lra); right; lra.
Qed.

(** C69: the unconstrained minimiser in double arithmetic. *)
From Coq Require Import ZArith List Arith Lia Bool Reals Lra Psatz.
From Flocq Require Import Core IEEE754.BinarySingleNaN.
From Verif Require Import Base ActiveSet ActiveSetProofs Num Solver LinAlg QPSpec GIBase GISafe GICall GIHist FloatStd FloatSolve FloatChol FloatStart FloatTri DoubleOps DoubleLaws PropDouble PropDoubleChol BoxGap.
Import ListNotations.
Local Open Scope R_scope.

(** ** Specification *)
(** |F| with zeros above the diagonal *)
Definition absF (F : nat -> nat -> double) (i t : nat) : R := if (t <=? i)%nat then Rabs (dval (F i t)) else 0.
(** row i of |F| |F|^T |x| *)
Definition weight (n : nat) (F : nat -> nat -> double) (xs : list double) (i : nat) : R :=
  rsum n (fun t => absF F i t * rsum n (fun j => absF F j t * Rabs (comp xs j))).
(** component i of the gradient G x + a, in real numbers *)
Definition gradient {wo} (pb : problem (Dw wo)) (xs : list double) (i : nat) : R :=
  rsum (p_Grows pb) (fun j => sym (fun r c => dval (p_G pb r c)) i j * comp xs j) + dval (p_a pb i).
(** only matters when products or quotients underflow *)
Definition underflow (n : nat) (F : nat -> nat -> double) (xs : list double) (i : nat) : R :=
  (INR n + dval (F i i) + 2 * rsum n (fun t => absF F i t * (INR n + dval (F t t)))
   + rsum n (fun j => (INR n + dval (F (Nat.min i j) (Nat.min i j))) * Rabs (comp xs j))) * / 2 ^ 1074.

(** ** Proofs *)
Lemma half_eta : 2 * deta = / 2 ^ 1074.
Proof. rewrite deta_eq. change 1075%nat with (S 1074). rewrite <- tech_pow_Rmult. field; apply pow_nonzero; lra. Qed.
Lemma tau_le n (l : R) : (n + 4 < 2 ^ 26)%nat -> 0 <= l -> (INR n + l) * (1 + du) ^ (n + 1) * deta <= (INR n + l) * / 2 ^ 1074.
Proof.
  intros Hn Hl. pose proof (chol_const n l 0 ltac:(lia) (Rle_refl 0) Hl) as H. unfold chol_error in H. lra.
Qed.
Lemma g_small n : (n + 4 < 2 ^ 26)%nat -> let g := gam du (n + 3) in 0 <= g /\ g <= (INR n + 4) * / 2 ^ 53 /\ g <= 1 /\ g * g <= / 2 ^ 53.
Proof.
  intros Hn g. assert (G0 : 0 <= g) by (apply gam_ge0; apply Rlt_le, bpow_gt_0).
  pose proof (gam_small (n + 2) ltac:(lia)) as Hg. replace (n + 2 + 1)%nat with (n + 3)%nat in Hg by lia. rewrite plus_INR in Hg. simpl (INR 2) in Hg.
  assert (G1 : g <= (INR n + 4) * / 2 ^ 53) by (unfold g; lra).
  pose proof (small_n (n + 4) Hn) as Hs. rewrite plus_INR in Hs. simpl (INR 4) in Hs. pose proof (pos_INR n) as Hp.
  set (p := / 2 ^ 26). assert (Ep : / 2 ^ 53 = p * p / 2) by (unfold p; change 53%nat with (1 + (26 + 26))%nat; rewrite !pow_add; field; apply pow_nonzero; lra).
  assert (Hp0 : 0 < p) by (apply Rinv_0_lt_compat, pow_lt; lra). assert (Hq : 2 ^ 26 * p = 1) by (apply Rinv_r, pow_nonzero; lra).
  assert (Hp1 : p <= 1) by (assert (1 <= 2 ^ 26) by (apply pow_R1_Rle; lra); nra).
  assert (G2 : g <= p / 2).
  { eapply Rle_trans; [exact G1|]. rewrite Ep. assert ((INR n + 4) * p <= 1) by nra. nra. }
  split; [exact G0|]. split; [exact G1|]. split; [lra|]. rewrite Ep. nra.
Qed.

Lemma sum_swap2 n (f : nat -> nat -> R) : rsum n (fun i => rsum n (fun j => f i j)) = rsum n (fun j => rsum n (fun i => f i j)).
Proof. apply sum_swap. Qed.
Lemma lower_prod (wo : sumorder) n F i j : (i < n)%nat -> (j < n)%nat -> prod F i j (S (Nat.min i j)) = rsum n (fun t => low (Dw wo) dval F i t * low (Dw wo) dval F j t).
Proof.
  intros Hi Hj. unfold prod. replace n with (S (Nat.min i j) + (n - S (Nat.min i j)))%nat by lia. rewrite sum_app, (sum_zero (n - S (Nat.min i j))).
  - rewrite Rplus_0_r. apply sum_ext. intros t Ht. unfold low. destruct (Nat.leb_spec t i); [|lia]. destruct (Nat.leb_spec t j); [|lia]. reflexivity.
  - intros t Ht. unfold low. destruct (Nat.leb_spec (S (Nat.min i j) + t) i), (Nat.leb_spec (S (Nat.min i j) + t) j); try ring. lia.
Qed.
Lemma lower_aprod n F i j : (i < n)%nat -> (j < n)%nat -> aprod F i j (S (Nat.min i j)) = rsum n (fun t => absF F i t * absF F j t).
Proof.
  intros Hi Hj. unfold aprod. replace n with (S (Nat.min i j) + (n - S (Nat.min i j)))%nat by lia. rewrite sum_app, (sum_zero (n - S (Nat.min i j))).
  - rewrite Rplus_0_r. apply sum_ext. intros t Ht. unfold absF. destruct (Nat.leb_spec t i); [|lia]. destruct (Nat.leb_spec t j); [|lia]. apply Rabs_mult.
  - intros t Ht. unfold absF. destruct (Nat.leb_spec (S (Nat.min i j) + t) i), (Nat.leb_spec (S (Nat.min i j) + t) j); try ring. lia.
Qed.
Lemma absF_low (wo : sumorder) F i t : Rabs (low (Dw wo) dval F i t) = absF F i t.
Proof. unfold low, absF. destruct (t <=? i)%nat; [reflexivity|apply Rabs_R0]. Qed.
Lemma prod_sym F i j m : prod F i j m = prod F j i m.
Proof. apply sum_ext. intros. ring. Qed.
Lemma aprod_sym F i j m : aprod F i j m = aprod F j i m.
Proof. apply sum_ext. intros. f_equal. ring. Qed.

(** SUCCESS before any iteration with nothing active: the gradient of the objective at the answer vanishes up to rounding errors. *)
Theorem C69_unconstrained_double : forall (wo : sumorder) junk (pb : problem (Dw wo)) (o : options (Dw wo)) s s' xs, history (Dw wo) s -> not_nan (o_bigBnd o) -> (p_Grows pb + 4 < 2 ^ 26)%nat ->
  gi_solve junk pb o s = Ok (SUCCESS, s') -> iterations s' = 0%nat -> (forall i st, nth_error (activeSet s') i = Some st -> st = INACTIVE) ->
  solution s' = Ok xs -> let n := p_Grows pb in let F := s_G s' in finite_lower n F -> (forall i, (i < n)%nat -> dfin (nth i xs d0)) ->
  forall i, (i < n)%nat -> Rabs (gradient pb xs i) <= (3 * INR n + 13) * / 2 ^ 53 * weight n F xs i + underflow n F xs i.
Proof.
  intros wo junk pb o s s' xs HH HB Hn E Hit Hact Hx n F HF Hfx i Hi.
  destruct (C65_accepted_double wo junk pb o s SUCCESS s' HH HB ltac:(lia) E ltac:(discriminate) HF) as (HP & _ & HE). fold n in HP, HE. fold F in HP, HE.
  destruct (solve_start (Dw wo) junk pb o s s' (double_safe wo) HB HH E Hit Hact) as (_ & Ex & _). fold n in Ex. fold F in Ex. rewrite Hx in Ex. injection Ex as Ex.
  set (w := bwd n n (tr F) (fwd n F (p_a pb))).
  assert (Exi : forall j, (j < n)%nat -> nth j xs d0 = Bopp (w j)).
  { intros j Hj. rewrite Ex. rewrite (nth_indep _ d0 (start_x (Dw wo) n F (p_a pb) 0%nat)) by (rewrite map_length, seq_length; lia). rewrite map_nth, seq_nth by lia. reflexivity. }
  assert (Fw : forall j, (j < n)%nat -> dfin (w j)).
  { intros j Hj. pose proof (Hfx j Hj) as H. rewrite Exi in H by auto. apply (proj1 (sm_opp (double_std wo) (w j))). exact H. }
  assert (Ec : forall j, (j < n)%nat -> comp xs j = - dval (w j)).
  { intros j Hj. unfold comp. rewrite Exi by auto. apply (proj2 (sm_opp (double_std wo) (w j))). }
  pose proof (solve_err (Dw wo) dfin dval du deta dbig (double_std wo) n F HF HP (p_a pb) Fw i Hi) as HS.
  set (g := gam du (n + 3)) in HS. destruct (g_small n Hn) as (G0 & G1 & G2 & G3). fold g in G0, G1, G2, G3.
  assert (HA : absrow (Dw wo) dval n F (p_a pb) i = weight n F xs i).
  { unfold absrow, weight. apply sum_ext. intros t Ht. rewrite absF_low. f_equal. apply sum_ext. intros j Hj. rewrite absF_low, Ec, Rabs_Ropp by auto. reflexivity. }
  rewrite HA in HS. set (wt := weight n F xs i) in *.
  assert (W0 : 0 <= wt).
  { unfold wt, weight. assert (A0 : forall a b, 0 <= absF F a b) by (intros; unfold absF; destruct (_ <=? _)%nat; [apply Rabs_pos|lra]).
    apply sum_nonneg. intros. apply Rmult_le_pos; [apply A0|]. apply sum_nonneg. intros. apply Rmult_le_pos; [apply A0|apply Rabs_pos]. }
  set (P := fun i j => prod F i j (S (Nat.min i j))).
  (* G x + a = (G - P) x + (P x + a) *)
  assert (EG : gradient pb xs i = rsum n (fun j => (sym (fun r c => dval (p_G pb r c)) i j - P i j) * comp xs j) - (rsum n (fun t => low (Dw wo) dval F i t * rsum n (fun j => low (Dw wo) dval F j t * dval (w j))) - dval (p_a pb i))).
  { unfold gradient. fold n. rewrite (sum_ext n (fun j => (sym (fun r c => dval (p_G pb r c)) i j - P i j) * comp xs j) (fun j => sym (fun r c => dval (p_G pb r c)) i j * comp xs j - P i j * comp xs j)) by (intros; ring).
    rewrite sum_minus. rewrite (sum_ext n (fun j => P i j * comp xs j) (fun j => rsum n (fun t => - (low (Dw wo) dval F i t * (low (Dw wo) dval F j t * dval (w j)))))).
    - rewrite (sum_swap n n). rewrite (sum_ext n (fun t => low (Dw wo) dval F i t * rsum n (fun j => low (Dw wo) dval F j t * dval (w j))) (fun t => rsum n (fun j => low (Dw wo) dval F i t * (low (Dw wo) dval F j t * dval (w j))))) by (intros; rewrite sum_scal; reflexivity).
      rewrite (sum_ext n (fun j => rsum n (fun i0 => - (low (Dw wo) dval F i j * (low (Dw wo) dval F i0 j * dval (w i0))))) (fun t => - rsum n (fun j => low (Dw wo) dval F i t * (low (Dw wo) dval F j t * dval (w j))))) by (intros; apply sum_opp).
      rewrite sum_opp. ring.
    - intros j Hj. unfold P. rewrite (lower_prod wo n F i j Hi Hj), Ec by auto. rewrite <- sum_scal_r. apply sum_ext. intros t Ht. ring. }
  rewrite EG. eapply Rle_trans; [apply Rabs_triang|]. rewrite Rabs_Ropp.
  assert (HC : Rabs (rsum n (fun j => (sym (fun r c => dval (p_G pb r c)) i j - P i j) * comp xs j)) <=
     (INR n + 4) * / 2 ^ 53 * wt + rsum n (fun j => (INR n + dval (F (Nat.min i j) (Nat.min i j))) * Rabs (comp xs j)) * / 2 ^ 1074).
  { eapply Rle_trans; [apply sum_abs_le|].
    replace wt with (rsum n (fun j => aprod F i j (S (Nat.min i j)) * Rabs (comp xs j))).
    2:{ unfold wt, weight. rewrite (sum_ext n (fun t => absF F i t * rsum n (fun j => absF F j t * Rabs (comp xs j))) (fun t => rsum n (fun j => absF F i t * (absF F j t * Rabs (comp xs j))))) by (intros; rewrite sum_scal; reflexivity).
        rewrite (sum_swap n n). apply sum_ext. intros j Hj. rewrite (lower_aprod n F i j Hi Hj), <- sum_scal_r. apply sum_ext. intros; ring. }
    rewrite <- sum_scal, <- sum_scal_r, <- sum_plus. apply sum_le. intros j Hj. rewrite Rabs_mult.
    assert (K : Rabs (sym (fun r c => dval (p_G pb r c)) i j - P i j) <= chol_error n (aprod F i j (S (Nat.min i j))) (dval (F (Nat.min i j) (Nat.min i j)))).
    { rewrite Rabs_minus_sym. unfold sym, P. destruct (Nat.leb_spec j i) as [Hji|Hji].
      - rewrite Nat.min_r by lia. apply HE. lia.
      - rewrite Nat.min_l by lia. rewrite prod_sym, aprod_sym. apply HE. lia. }
    unfold chol_error in K. pose proof (Rabs_pos (comp xs j)) as Hc.
    apply (Rmult_le_compat_r _ _ _ Hc) in K. eapply Rle_trans; [exact K|]. right. ring. }
  assert (HT : forall t, (t < n)%nat -> (INR n + dval (F t t)) * (1 + du) ^ (n + 1) * deta <= (INR n + dval (F t t)) * / 2 ^ 1074) by (intros t Ht; apply tau_le; [exact Hn|apply Rlt_le, HP; auto]).
  assert (HQ : rsum n (fun t => Rabs (low (Dw wo) dval F i t) * ((INR n + dval (F t t)) * (1 + du) ^ (n + 1) * deta)) <= rsum n (fun t => absF F i t * (INR n + dval (F t t))) * / 2 ^ 1074).
  { rewrite <- sum_scal_r. apply sum_le. intros t Ht. rewrite absF_low, (Rmult_assoc (absF F i t) (INR n + dval (F t t)) (/ 2 ^ 1074)). apply Rmult_le_compat_l; [unfold absF; destruct (_ <=? _)%nat; [apply Rabs_pos|lra]|auto]. }
  assert (Q0 : 0 <= rsum n (fun t => Rabs (low (Dw wo) dval F i t) * ((INR n + dval (F t t)) * (1 + du) ^ (n + 1) * deta))).
  { apply sum_nonneg. intros t Ht. apply Rmult_le_pos; [apply Rabs_pos|]. apply (proj2 (proj2 (g_facts (Dw wo) dfin dval du deta dbig (double_std wo) n F HP))). exact Ht. }
  set (q := rsum n (fun t => Rabs (low (Dw wo) dval F i t) * ((INR n + dval (F t t)) * (1 + du) ^ (n + 1) * deta))) in *.
  specialize (HT i Hi). set (ti := (INR n + dval (F i i)) * (1 + du) ^ (n + 1) * deta) in *.
  set (q' := rsum n (fun t => absF F i t * (INR n + dval (F t t)))) in *. set (e := / 2 ^ 1074) in *. set (uu := / 2 ^ 53) in *.
  assert (M1 : (2 * g + g * g) * wt <= (2 * ((INR n + 4) * uu) + uu) * wt) by (apply Rmult_le_compat_r; [exact W0|lra]).
  assert (M2 : (1 + g) * q <= 2 * (q' * e)) by nra.
  unfold underflow. fold q'. fold e.
  match goal with |- ?A + ?B <= _ => apply Rle_trans with (((INR n + 4) * uu * wt + rsum n (fun j => (INR n + dval (F (Nat.min i j) (Nat.min i j))) * Rabs (comp xs j)) * e) + ((2 * ((INR n + 4) * uu) + uu) * wt + (INR n + dval (F i i)) * e + 2 * (q' * e))); [|right; ring] end.
  apply Rplus_le_compat; [exact HC|]. eapply Rle_trans; [exact HS|]. lra.
Qed.

(** The cost at a real point, from the lower triangle of G. *)
Definition cost {wo} (pb : problem (Dw wo)) (z : nat -> R) : R := let n := p_Grows pb in
  / 2 * rsum n (fun i => z i * rsum n (fun j => sym (fun r c => dval (p_G pb r c)) i j * z j)) + rsum n (fun i => dval (p_a pb i) * z i).
Lemma cost_expand (wo : sumorder) (pb : problem (Dw wo)) (x z : nat -> R) : let n := p_Grows pb in let G := sym (fun r c => dval (p_G pb r c)) in
  cost pb z = cost pb x + rsum n (fun i => (rsum n (fun j => G i j * x j) + dval (p_a pb i)) * (z i - x i)) + / 2 * rsum n (fun i => (z i - x i) * rsum n (fun j => G i j * (z j - x j))).
Proof.
  intros n G. unfold cost. fold n. fold G.
  assert (GS : forall i j, G i j = G j i) by (intros i j; unfold G, sym; destruct (Nat.leb_spec j i), (Nat.leb_spec i j); try reflexivity; [replace i with j by lia; reflexivity|lia]).
  set (B := fun p q : nat -> R => rsum n (fun i => p i * rsum n (fun j => G i j * q j))).
  assert (BS : forall p q, B p q = B q p).
  { intros p q. unfold B. rewrite (sum_ext n (fun i => p i * rsum n (fun j => G i j * q j)) (fun i => rsum n (fun j => p i * (G i j * q j)))) by (intros; rewrite sum_scal; reflexivity).
    rewrite (sum_swap n n). apply sum_ext. intros j Hj. rewrite <- sum_scal. apply sum_ext. intros i Hi. rewrite (GS i j). ring. }
  assert (BP : forall p q r, B p (fun i => q i - r i) = B p q - B p r).
  { intros p q r. unfold B. rewrite <- sum_minus. apply sum_ext. intros i Hi. rewrite <- Rmult_minus_distr_l. f_equal. rewrite <- sum_minus. apply sum_ext. intros; ring. }
  change (/ 2 * B z z + rsum n (fun i => dval (p_a pb i) * z i) = / 2 * B x x + rsum n (fun i => dval (p_a pb i) * x i) +
    rsum n (fun i => (rsum n (fun j => G i j * x j) + dval (p_a pb i)) * (z i - x i)) + / 2 * B (fun i => z i - x i) (fun i => z i - x i)).
  rewrite (sum_ext n (fun i => (rsum n (fun j => G i j * x j) + dval (p_a pb i)) * (z i - x i)) (fun i => (z i - x i) * rsum n (fun j => G i j * x j) + (dval (p_a pb i) * z i - dval (p_a pb i) * x i))) by (intros; ring).
  rewrite sum_plus, sum_minus. change (rsum n (fun i => (z i - x i) * rsum n (fun j => G i j * x j))) with (B (fun i => z i - x i) x).
  rewrite (BP (fun i => z i - x i) z x), !(BS (fun i => z i - x i)), !BP, (BS z x). lra.
Qed.
(** The answer is nearly as good as any other point z, by at most the rounding error of the gradient times the distance. *)
Theorem C69_near_minimal_double : forall (wo : sumorder) junk (pb : problem (Dw wo)) (o : options (Dw wo)) s s' xs, history (Dw wo) s -> not_nan (o_bigBnd o) -> (p_Grows pb + 4 < 2 ^ 26)%nat ->
  gi_solve junk pb o s = Ok (SUCCESS, s') -> iterations s' = 0%nat -> (forall i st, nth_error (activeSet s') i = Some st -> st = INACTIVE) ->
  solution s' = Ok xs -> let n := p_Grows pb in let F := s_G s' in finite_lower n F -> (forall i, (i < n)%nat -> dfin (nth i xs d0)) ->
  positive_definite n (fun r c => dval (p_G pb r c)) ->
  forall z, cost pb (comp xs) <= cost pb z + rsum n (fun i => ((3 * INR n + 13) * / 2 ^ 53 * weight n F xs i + underflow n F xs i) * Rabs (z i - comp xs i)).
Proof.
  intros wo junk pb o s s' xs HH HB Hn E Hit Hact Hx n F HF Hfx HD z.
  pose proof (C69_unconstrained_double wo junk pb o s s' xs HH HB Hn E Hit Hact Hx HF Hfx) as HG. fold n in HG. fold F in HG.
  rewrite (cost_expand wo pb (comp xs) z). fold n.
  assert (Q : 0 <= rsum n (fun i => (z i - comp xs i) * rsum n (fun j => sym (fun r c => dval (p_G pb r c)) i j * (z j - comp xs j)))).
  { destruct (BoxGap.all_zero_dec n (fun i => z i - comp xs i)) as [Hz|Hz].
    - right. symmetry. apply sum_zero. intros i Hi. rewrite Hz by auto. ring.
    - apply Rlt_le. exact (HD (fun i => z i - comp xs i) Hz). }
  assert (K : - rsum n (fun i => ((3 * INR n + 13) * / 2 ^ 53 * weight n F xs i + underflow n F xs i) * Rabs (z i - comp xs i)) <=
     rsum n (fun i => (rsum n (fun j => sym (fun r c => dval (p_G pb r c)) i j * comp xs j) + dval (p_a pb i)) * (z i - comp xs i))).
  { rewrite <- sum_opp. apply sum_le. intros i Hi. specialize (HG i Hi). unfold gradient in HG. fold n in HG.
    set (gi := rsum n (fun j => sym (fun r c => dval (p_G pb r c)) i j * comp xs j) + dval (p_a pb i)) in *. set (b := _ + underflow n F xs i) in *.
    apply Rle_trans with (- Rabs (gi * (z i - comp xs i))).
    - apply Ropp_le_contravar. rewrite Rabs_mult. apply Rmult_le_compat_r; [apply Rabs_pos|exact HG].
    - pose proof (Rle_abs (- (gi * (z i - comp xs i)))) as A. rewrite Rabs_Ropp in A. lra. }
  lra.
Qed.

Lemma dval_of x sg m e : B2SF x = SpecFloat.S754_finite sg m e -> dval x = F2R (Float radix2 (cond_Zopp sg (Zpos m)) e).
Proof. intros E. unfold dval. rewrite <- SF2R_B2SF, E. reflexivity. Qed.
Lemma dval_half (wo : sumorder) : dval (half (Dw wo)) = / 2.
Proof. rewrite (dval_of _ false 4503599627370496 (-53)) by (vm_compute; reflexivity). unfold F2R. cbn. lra. Qed.
Lemma dval_4 : dval (dlit 4 0) = 4.
Proof. rewrite (dval_of _ false 4503599627370496 (-50)) by (vm_compute; reflexivity). unfold F2R. cbn. lra. Qed.
Lemma dval_m2 : dval (dlit (-2) 0) = -2.
Proof. rewrite (dval_of _ true 4503599627370496 (-51)) by (vm_compute; reflexivity). unfold F2R. cbn. lra. Qed.
(** objectiveValue() is half the inner product of the linear cost and the answer, up to rounding errors *)
Theorem C69_objective_double : forall (wo : sumorder) junk (pb : problem (Dw wo)) (o : options (Dw wo)) s s' xs, history (Dw wo) s -> not_nan (o_bigBnd o) -> (p_Grows pb + 4 < 2 ^ 26)%nat ->
  gi_solve junk pb o s = Ok (SUCCESS, s') -> iterations s' = 0%nat -> (forall i st, nth_error (activeSet s') i = Some st -> st = INACTIVE) ->
  solution s' = Ok xs -> let n := p_Grows pb in dfin (objectiveValue s') ->
  Rabs (dval (objectiveValue s') - / 2 * rsum n (fun i => dval (p_a pb i) * comp xs i)) <=
    (INR n + 3) * / 2 ^ 53 * rsum n (fun i => Rabs (dval (p_a pb i) * comp xs i)) + (INR n + 1) * / 2 ^ 1074.
Proof.
  intros wo junk pb o s s' xs HH HB Hn E Hit Hact Hx n Hf.
  destruct (solve_start (Dw wo) junk pb o s s' (double_safe wo) HB HH E Hit Hact) as (_ & Ex & Ef). fold n in Ex, Ef. set (F := s_G s') in *. rewrite Hx in Ex. injection Ex as Ex.
  assert (Ec : forall j, (j < n)%nat -> dval (start_x (Dw wo) n F (p_a pb) j) = comp xs j).
  { intros j Hj. unfold comp. rewrite Ex. rewrite (nth_indep _ d0 (start_x (Dw wo) n F (p_a pb) 0%nat)) by (rewrite map_length, seq_length; lia). rewrite map_nth, seq_nth by lia. reflexivity. }
  change (objectiveValue s') with (s_f s') in *. rewrite Ef in Hf |- *. destruct (sm_mul (double_std wo) _ _ Hf) as (_ & Fd & d & e & Hd & He & Ev). rewrite Ev.
  rewrite dval_half.
  destruct (dot_err (Dw wo) dfin dval du deta dbig (double_std wo) _ n _ _ Fd) as (_ & HE). set (p := dval (@dot (Dw wo) [23]%nat n (p_a pb) (start_x (Dw wo) n F (p_a pb)))) in *.
  rewrite (sum_ext n (fun i => dval (p_a pb i) * dval (start_x (Dw wo) n F (p_a pb) i)) (fun i => dval (p_a pb i) * comp xs i)) in HE by (intros; rewrite Ec by auto; reflexivity).
  rewrite (sum_ext n (fun i => Rabs (dval (p_a pb i) * dval (start_x (Dw wo) n F (p_a pb) i))) (fun i => Rabs (dval (p_a pb i) * comp xs i))) in HE by (intros; rewrite Ec by auto; reflexivity).
  set (t := rsum n (fun i => dval (p_a pb i) * comp xs i)) in *. set (w := rsum n (fun i => Rabs (dval (p_a pb i) * comp xs i))) in *.
  assert (W0 : 0 <= w) by (apply sum_nonneg; intros; apply Rabs_pos).
  assert (Wt : Rabs t <= w) by apply sum_abs_le.
  destruct (pow_small n ltac:(lia)) as (P0 & _). pose proof (gam_small n ltac:(lia)) as Hg. pose proof (pos_INR n) as Hp. pose proof half_eta as Hh.
  assert (E0 : 0 < deta) by apply bpow_gt_0.
  assert (T : INR n * ((1 + du) ^ n * deta) <= INR n * / 2 ^ 1074) by (apply Rmult_le_compat_l; auto; rewrite <- Hh; apply Rmult_le_compat_r; lra).
  assert (HE2 : Rabs (p - t) <= (INR n + 2) * / 2 ^ 53 * w + INR n * / 2 ^ 1074).
  { eapply Rle_trans; [exact HE|]. apply Rplus_le_compat; [apply Rmult_le_compat_r; auto|exact T]. }
  rewrite du_eq in Hd. set (uu := / 2 ^ 53) in *. set (ee := / 2 ^ 1074) in *.
  assert (U0 : 0 <= uu <= 1) by (unfold uu; split; [apply Rlt_le, Rinv_0_lt_compat, pow_lt; lra|rewrite <- Rinv_1; apply Rinv_le_contravar; [lra|apply pow_R1_Rle; lra]]).
  replace (/ 2 * p * (1 + d) + e - / 2 * t) with (/ 2 * (1 + d) * (p - t) + / 2 * d * t + e) by ring.
  eapply Rle_trans; [apply Rabs_triang|]. apply Rle_trans with (Rabs (/ 2 * (1 + d) * (p - t)) + Rabs (/ 2 * d * t) + Rabs e); [apply Rplus_le_compat_r, Rabs_triang|].
  rewrite !Rabs_mult, (Rabs_pos_eq (/ 2)) by lra. apply abs_both in Hd.
  assert (D1 : Rabs (1 + d) <= 1 + uu) by (apply Rabs_le; lra). assert (D2 : Rabs d <= uu) by (apply Rabs_le; lra).
  assert (A1 : / 2 * Rabs (1 + d) * Rabs (p - t) <= / 2 * 2 * ((INR n + 2) * uu * w + INR n * ee)).
  { apply Rmult_le_compat; [|apply Rabs_pos| |exact HE2]; [apply Rmult_le_pos; [lra|apply Rabs_pos]|lra]. }
  assert (A2 : / 2 * Rabs d * Rabs t <= / 2 * uu * w).
  { apply Rmult_le_compat; [apply Rmult_le_pos; [lra|apply Rabs_pos]|apply Rabs_pos| |exact Wt]. lra. }
  assert (A3 : 0 <= uu * w) by (apply Rmult_le_pos; lra).
  lra.
Qed.

(** ** Concrete case: 2 x^2 + 2 y^2 - 2 x y + 6 x over [-10, 10]^2, whose minimiser (-2, -1) is inside *)
Definition inner : problem Dops := dpb 2 0 [[dlit 4 0; dlit (-2) 0]; [dlit (-2) 0; dlit 4 0]] [dlit 6 0; d0] [] [] [] [dlit (-10) 0; dlit (-10) 0] [dlit 10 0; dlit 10 0].
Definition inner_ok : bool := match gi_solve junkd inner dopt (sol_new Dops) with
  | Ok (SUCCESS, s) => (iterations s =? 0)%nat && match activeSet s with [INACTIVE; INACTIVE] => true | _ => false end &&
     match solution s with Ok [x; y] => between (dlit (-3) 0) x d0 && between (dlit (-3) 0) y d0 | _ => false end &&
     is_finite (s_G s 0%nat 0%nat) && is_finite (s_G s 1%nat 0%nat) && is_finite (s_G s 1%nat 1%nat) && is_finite (objectiveValue s)
  | _ => false end.
Lemma inner_runs : inner_ok = true.
Proof. vm_compute. reflexivity. Qed.
Example C69_nonvacuous : exists s' xs, history Dops (sol_new Dops) /\ not_nan (o_bigBnd dopt) /\ (p_Grows inner + 4 < 2 ^ 26)%nat /\
  gi_solve junkd inner dopt (sol_new Dops) = Ok (SUCCESS, s') /\ iterations s' = 0%nat /\ (forall i st, nth_error (activeSet s') i = Some st -> st = INACTIVE) /\
  solution s' = Ok xs /\ finite_lower (p_Grows inner) (s_G s') /\ (forall i, (i < p_Grows inner)%nat -> dfin (nth i xs d0)) /\ dfin (objectiveValue s') /\
  positive_definite (p_Grows inner) (fun r c => dval (p_G inner r c)).
Proof.
  pose proof inner_runs as H. unfold inner_ok in H. destruct (gi_solve junkd inner dopt (sol_new Dops)) as [(st, s')|] eqn:E; [|discriminate H].
  destruct st; try discriminate H. destruct (solution s') as [xs|] eqn:Ex; [|rewrite !andb_false_r in H; discriminate H].
  rewrite !andb_true_iff in H. destruct H as ((((((H1 & H2) & H3) & H4) & H5) & H6) & H7).
  destruct xs as [|x [|y [|]]]; try discriminate H3. apply andb_true_iff in H3 as (H3 & H3').
  destruct (activeSet s') as [|[] [|[] [|]]] eqn:Ea; try discriminate H2.
  exists s', [x; y]. split; [constructor|]. split; [vm_compute; reflexivity|]. split; [change (p_Grows inner + 4)%nat with 6%nat; apply Nat.lt_trans with (2 ^ 3)%nat; [cbn; lia|apply Nat.pow_lt_mono_r; lia]|].
  split; [reflexivity|]. split; [apply Nat.eqb_eq; exact H1|].
  split; [rewrite Ea; intros [|[|[|i]]] st Hst; cbn in Hst; try discriminate Hst; injection Hst as <-; reflexivity|].
  split; [exact Ex|]. split.
  { intros i j Hij. change (p_Grows inner) with 2%nat in Hij. assert (C : (i = 0 /\ j = 0 \/ i = 1 /\ j = 0 \/ i = 1 /\ j = 1)%nat) by lia.
    destruct C as [(-> & ->)|[(-> & ->)|(-> & ->)]]; assumption. }
  split; [intros [|[|i]] Hi; cbn; [eapply between_fin; exact H3|eapply between_fin; exact H3'|change (p_Grows inner) with 2%nat in Hi; lia]|].
  split; [exact H7|].
  intros w (k & Hk & Hw). change (p_Grows inner) with 2%nat in *.
  rewrite !sum_S, !sum_0. unfold sym. cbn [Nat.leb inner dpb p_G dm nth]. rewrite dval_4, dval_m2.
  assert (C : w 0%nat <> 0 \/ w 1%nat <> 0) by (destruct k as [|[|k]]; auto; lia).
  assert (0 < w 0%nat * w 0%nat + w 1%nat * w 1%nat) by (destruct C; nra). pose proof (Rle_0_sqr (w 0%nat - w 1%nat)) as Q. unfold Rsqr in Q. nra.
Qed.

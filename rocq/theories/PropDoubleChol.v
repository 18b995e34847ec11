(** C65: the Cholesky factorisation of the Hessian in IEEE-754 doubles: the verdict (NON_POS_HESSIAN or not) is the
    exact verdict for a matrix that differs from the given one by a few rounding errors, and the factor left in the
    caller's matrix is the exact factor of such a matrix. *)
From Coq Require Import List Arith ZArith Lia Bool Reals Lra.
From Flocq Require Import Core IEEE754.BinarySingleNaN.
From Verif Require Import Base ActiveSet Num Solver LinAlg GISafe GICall GIHist FloatStd DoubleOps DoubleLaws FloatSolve FloatChol PropDouble.
Import ListNotations.
Local Open Scope R_scope.

(** ** Specification *)
(** [F] is the matrix found in the memory of G after the call; only its lower triangle matters *)
Definition finite_lower (n : nat) (F : nat -> nat -> double) : Prop := forall i j, (j <= i < n)%nat -> dfin (F i j).
(** sum_{t<m} F(i,t) F(j,t), and the sum of the magnitudes *)
Definition prod (F : nat -> nat -> double) (i j m : nat) : R := rsum m (fun t => dval (F i t) * dval (F j t)).
Definition aprod (F : nat -> nat -> double) (i j m : nat) : R := rsum m (fun t => Rabs (dval (F i t) * dval (F j t))).
(** a few rounding errors on the products summed; [l] only matters when a quotient underflows *)
Definition chol_error (n : nat) (w l : R) : R := (INR n + 4) * / 2 ^ 53 * w + (INR n + l) * / 2 ^ 1074.
(** symmetric matrix of the lower triangle *)
Definition sym (G : nat -> nat -> R) (i j : nat) : R := if (j <=? i)%nat then G i j else G j i.
Definition positive_definite (n : nat) (G : nat -> nat -> R) : Prop :=
  forall w : nat -> R, (exists i, (i < n)%nat /\ w i <> 0) -> 0 < rsum n (fun i => w i * rsum n (fun j => sym G i j * w j)).

(** ** Proofs *)
Lemma chol_const n l w : (n + 2 < 2 ^ 26)%nat -> 0 <= w -> 0 <= l ->
  gam du (n + 3) * w + (INR n + l) * (1 + du) ^ (n + 1) * deta <= chol_error n w l.
Proof.
  intros Hn Hw Hl. pose proof (gam_small (n + 2) Hn) as Hg. replace (n + 2 + 1)%nat with (n + 3)%nat in Hg by lia.
  rewrite plus_INR in Hg. simpl (INR 2) in Hg.
  destruct (pow_small n ltac:(lia)) as (_ & P0). pose proof (pos_INR n) as Hp.
  assert (E0 : 0 < deta) by (apply bpow_gt_0).
  assert (Eh : 2 * deta = / 2 ^ 1074).
  { rewrite deta_eq. change 1075%nat with (S 1074). rewrite <- tech_pow_Rmult. field; apply pow_nonzero; lra. }
  unfold chol_error. apply Rplus_le_compat; [apply Rmult_le_compat_r; auto; lra|]. rewrite <- Eh.
  rewrite (Rmult_assoc _ _ deta). apply Rmult_le_compat_l; [lra|]. apply Rmult_le_compat_r; lra.
Qed.
Lemma pow_small2 n : (n + 2 < 2 ^ 26)%nat -> (1 + du) ^ (2 * (n + 1)) <= 2.
Proof.
  intros Hn. pose proof (gam_small n ltac:(lia)) as H. apply small_n in Hn. rewrite plus_INR in Hn. simpl (INR 2) in Hn. pose proof (pos_INR n) as Hp.
  assert (B : (INR n + 2) * / 2 ^ 53 <= / 4).
  { apply (Rmult_le_reg_r (2 ^ 53)); [apply pow_lt; lra|]. rewrite Rmult_assoc, Rinv_l by (apply pow_nonzero; lra). simpl pow in *. lra. }
  unfold gam in H. replace (2 * (n + 1))%nat with ((n + 1) + (n + 1))%nat by lia. rewrite pow_add.
  assert (0 <= (1 + du) ^ (n + 1)) by (apply pow_le; assert (0 < du) by apply bpow_gt_0; lra).
  apply Rle_trans with ((5 / 4) * (5 / 4)); [apply Rmult_le_compat; lra|lra].
Qed.
Lemma sym_posdef n G : positive_definite n G <-> posdef n (gsym G).
Proof. reflexivity. Qed.
Lemma aprod_pos F i j m : 0 <= aprod F i j m.
Proof. apply sum_nonneg. intros. apply Rabs_pos. Qed.

Lemma solve_factor (wo : sumorder) junk (pb : problem (Dw wo)) (o : options (Dw wo)) s st s' : history (Dw wo) s -> not_nan (o_bigBnd o) -> gi_solve junk pb o s = Ok (st, s') ->
  s_G s' = snd (@llt (Dw wo) (p_Grows pb) (p_G pb)) /\ (st = NON_POS_HESSIAN <-> fst (@llt (Dw wo) (p_Grows pb) (p_G pb)) <> None).
Proof.
  intros HH HB E. pose proof (hist_wf (Dw wo) s (double_safe wo) HH) as HW.
  destruct (gsolve_ub (Dw wo) junk pb o s (double_safe wo) HB HW) as (_ & HU2).
  destruct (sizes_ok pb) eqn:Es; [|rewrite HU2 in E by auto; discriminate].
  assert (Hle : fst (llt (gn (Dw wo) pb) (p_G pb)) = None -> (length (geqs (Dw wo) pb (gcb (Dw wo) pb)) <= gn (Dw wo) pb)%nat).
  { intros En. destruct (Nat.le_gt_cases (length (geqs (Dw wo) pb (gcb (Dw wo) pb))) (gn (Dw wo) pb)); auto. rewrite HU2 in E; [discriminate|]. right. auto. }
  destruct (gsolve_result (Dw wo) junk pb o s (double_safe wo) HB HW Es Hle) as (st1 & s1 & E1 & HD & HC). rewrite E in E1. injection E1 as <- <-.
  split; [apply HD|]. change (gn (Dw wo) pb) with (p_Grows pb) in *. split.
  - intros ->. destruct HC as [(_ & H & _)|(_ & _ & _ & [(H & _)|([H|H] & _)])]; auto; discriminate.
  - intros Hn. destruct HC as [(H & _)|(H & _)]; [auto|contradiction].
Qed.

(** What an accepted or refused Hessian means, for the factorisation alone *)
Lemma accepted_factor (wo : sumorder) n (G : nat -> nat -> double) (F : nat -> nat -> double) : (n + 2 < 2 ^ 26)%nat ->
  fst (@llt (Dw wo) n G) = None -> F = snd (@llt (Dw wo) n G) -> finite_lower n F ->
  (forall i, (i < n)%nat -> 0 < dval (F i i)) /\
  positive_definite n (fun i j => prod F i j (S j)) /\
  (forall i j, (j <= i < n)%nat -> Rabs (prod F i j (S j) - dval (G i j)) <= chol_error n (aprod F i j (S j)) (dval (F j j))).
Proof.
  intros Hn Hr EG HF.
  destruct (@llt (Dw wo) n G) as (r, L) eqn:EL. cbn [fst snd] in *. subst r.
  assert (EF : F = L) by (exact EG).
  destruct (llt_accepted (Dw wo) dfin dval du deta dbig (double_std wo) n G L EL ltac:(rewrite <- EF; exact HF)) as (G' & HPD & HP & HG & HE).
  rewrite EF. split; [exact HP|]. split.
  - intros w Hw. specialize (HPD w Hw). unfold quad in HPD. replace (rsum n _) with (rsum n (fun i => w i * rsum n (fun j => gsym G' i j * w j))); [exact HPD|].
    apply sum_ext. intros i Hi. f_equal. apply sum_ext. intros j Hj. f_equal. unfold gsym, sym. destruct (Nat.leb_spec j i); rewrite HG by lia; reflexivity.
  - intros i j Hij. specialize (HE i j Hij). rewrite HG in HE by auto. eapply Rle_trans; [exact HE|].
    apply chol_const; auto; [apply aprod_pos|apply Rlt_le, HP; lia].
Qed.
Lemma rejected_factor (wo : sumorder) n (G : nat -> nat -> double) (F : nat -> nat -> double) : (n + 2 < 2 ^ 26)%nat ->
  fst (@llt (Dw wo) n G) <> None -> F = snd (@llt (Dw wo) n G) -> finite_lower n F ->
  (forall i, (i < n)%nat -> dval (G i i) <= 2 ^ 1000) ->
  exists p (G' : nat -> nat -> R), (p < n)%nat /\ ~ positive_definite n G' /\
    (forall i j, (j <= i < n)%nat -> (j < p)%nat -> Rabs (G' i j - dval (G i j)) <= chol_error n (aprod F i j (S j)) (dval (F j j))) /\
    Rabs (G' p p - dval (G p p)) <= chol_error n (aprod F p p p) 0 /\
    (forall i j, (j <= i < n)%nat -> (p <= j)%nat -> i <> p \/ j <> p -> G' i j = dval (G i j)).
Proof.
  intros Hn Hr EG HF Hbig.
  destruct (@llt (Dw wo) n G) as (r, L) eqn:EL. cbn [fst snd] in *.
  destruct r as [p|]; [|exfalso; apply Hr; reflexivity].
  assert (EF : F = L) by (exact EG). rewrite EF in *.
  destruct (pow_small n ltac:(lia)) as (P0 & P1). pose proof (small_n n ltac:(lia)) as Hn'. pose proof (pos_INR n) as Hp0.
  assert (E2 : 0 < deta <= 1).
  { split; [apply bpow_gt_0|]. unfold deta. change 1 with (bpow radix2 0). apply bpow_le. lia. }
  destruct (llt_rejected (Dw wo) dfin dval du deta dbig (double_std wo) n p G L EL HF) as (Hp & HP & G' & HN & H1 & H2 & H3).
  - intros i Hi. specialize (Hbig i Hi). rewrite dbig_eq. replace 1023%nat with (1000 + 23)%nat by reflexivity. rewrite pow_add.
    apply Rle_trans with (8 * 2 ^ 1000); [lra|]. rewrite Rmult_comm. apply Rmult_le_compat_l; [apply pow_le; lra|]. simpl. lra.
  - apply pow_small2. exact Hn.
  - rewrite dbig_eq. apply Rle_trans with (2 ^ 26 * (2 * 1)).
    + apply Rmult_le_compat; try lra; [apply Rmult_le_pos; [apply pow_le; assert (0 < du) by apply bpow_gt_0; lra|lra]|].
      apply Rmult_le_compat; try lra. apply pow_le; assert (0 < du) by apply bpow_gt_0; lra.
    + assert (2 ^ 29 <= 2 ^ 1023) by (apply Rle_pow; [lra|lia]). simpl in H |- *. lra.
  - exists p, G'. split; [exact Hp|]. split; [rewrite sym_posdef; exact HN|]. split; [|split].
    + intros i j Hij Hj. eapply Rle_trans; [apply H1; auto|]. apply chol_const; auto; [apply aprod_pos|apply Rlt_le, HP; auto].
    + eapply Rle_trans; [exact H2|]. eapply Rle_trans; [|apply (chol_const n 0); auto; [apply aprod_pos|lra]]. apply Rplus_le_compat_l. rewrite Rplus_0_r. apply Rmult_le_compat_r; [lra|]. apply Rmult_le_compat_l; [exact Hp0|]. apply Rle_pow; [assert (0 < du) by apply bpow_gt_0; lra|lia].
    + exact H3.
Qed.

(** ** C65 *)
(** Not NON_POS_HESSIAN: the product F F^T of the factor left in G is positive definite and entrywise close to G. *)
Theorem C65_accepted_double : forall (wo : sumorder) junk (pb : problem (Dw wo)) (o : options (Dw wo)) s st s', history (Dw wo) s -> not_nan (o_bigBnd o) -> (p_Grows pb + 2 < 2 ^ 26)%nat ->
  gi_solve junk pb o s = Ok (st, s') -> st <> NON_POS_HESSIAN -> let n := p_Grows pb in let F := s_G s' in finite_lower n F ->
  (forall i, (i < n)%nat -> 0 < dval (F i i)) /\
  positive_definite n (fun i j => prod F i j (S j)) /\
  (forall i j, (j <= i < n)%nat -> Rabs (prod F i j (S j) - dval (p_G pb i j)) <= chol_error n (aprod F i j (S j)) (dval (F j j))).
Proof.
  intros wo junk pb o s st s' HH HB Hn E Hst n F HF. destruct (solve_factor wo junk pb o s st s' HH HB E) as (EG & Hiff).
  apply (accepted_factor wo n (p_G pb) F Hn); auto.
  destruct (fst (@llt (Dw wo) n (p_G pb))) eqn:Er; auto. exfalso. apply Hst, Hiff. unfold n in Er. rewrite Er. discriminate.
Qed.

(** NON_POS_HESSIAN: some matrix entrywise close to G is not positive definite ([p]: the pivot at which the factorisation stopped). *)
Theorem C65_rejected_double : forall (wo : sumorder) junk (pb : problem (Dw wo)) (o : options (Dw wo)) s s', history (Dw wo) s -> not_nan (o_bigBnd o) -> (p_Grows pb + 2 < 2 ^ 26)%nat ->
  gi_solve junk pb o s = Ok (NON_POS_HESSIAN, s') -> let n := p_Grows pb in let F := s_G s' in finite_lower n F ->
  (forall i, (i < n)%nat -> dval (p_G pb i i) <= 2 ^ 1000) ->
  exists p (G' : nat -> nat -> R), (p < n)%nat /\ ~ positive_definite n G' /\
    (forall i j, (j <= i < n)%nat -> (j < p)%nat -> Rabs (G' i j - dval (p_G pb i j)) <= chol_error n (aprod F i j (S j)) (dval (F j j))) /\
    Rabs (G' p p - dval (p_G pb p p)) <= chol_error n (aprod F p p p) 0 /\
    (forall i j, (j <= i < n)%nat -> (p <= j)%nat -> i <> p \/ j <> p -> G' i j = dval (p_G pb i j)).
Proof.
  intros wo junk pb o s s' HH HB Hn E n F HF Hbig. destruct (solve_factor wo junk pb o s _ s' HH HB E) as (EG & Hiff).
  apply (rejected_factor wo n (p_G pb) F Hn); auto. apply (proj1 Hiff eq_refl).
Qed.

(** ** Concrete cases *)
Definition run_factor (pb : problem Dops) : option (term_status * list (list bool)) :=
  match gi_solve junkd pb dopt (sol_new Dops) with
  | Ok (st, s) => Some (st, map (fun i => map (fun j => is_finite (s_G s i j)) (seq 0 (S i))) (seq 0 (p_Grows pb)))
  | UB => None
  end.
Lemma run_factor_inv pb st l : run_factor pb = Some (st, l) -> exists s', gi_solve junkd pb dopt (sol_new Dops) = Ok (st, s') /\
  map (fun i => map (fun j => is_finite (s_G s' i j)) (seq 0 (S i))) (seq 0 (p_Grows pb)) = l.
Proof. unfold run_factor. destruct (gi_solve _ pb dopt _) as [(st1, s1)|]; [|discriminate]. intros H. injection H as -> <-. exists s1. auto. Qed.
Definition nonpos : problem Dops := dpb 2 0 [[dlit 1 0; dlit 2 0]; [dlit 2 0; dlit 1 0]] [dlit 6 0; d0] [] [] [] [d0; d0] [dlit 10 0; dlit 10 0].
(** an accepted and a rejected Hessian meet the hypotheses *)
Lemma paper_factor : run_factor paper = Some (SUCCESS, [[true]; [true; true]]).
Proof. vm_compute. reflexivity. Qed.
Lemma nonpos_factor : run_factor nonpos = Some (NON_POS_HESSIAN, [[true]; [true; true]]).
Proof. vm_compute. reflexivity. Qed.
Lemma two_lower (F : nat -> nat -> double) : map (fun i => map (fun j => is_finite (F i j)) (seq 0 (S i))) (seq 0 2) = [[true]; [true; true]] -> finite_lower 2 F.
Proof.
  cbn [seq map]. intros H. injection H as H1 H2 H3. intros i j Hij. unfold dfin.
  assert (C : (i = 0 /\ j = 0 \/ i = 1 /\ j = 0 \/ i = 1 /\ j = 1)%nat) by lia.
  destruct C as [(-> & ->)|[(-> & ->)|(-> & ->)]]; assumption.
Qed.
Example C65_nonvacuous_accepted : exists s', history Dops (sol_new Dops) /\ not_nan (o_bigBnd dopt) /\ (p_Grows paper + 2 < 2 ^ 26)%nat /\
  gi_solve junkd paper dopt (sol_new Dops) = Ok (SUCCESS, s') /\ finite_lower (p_Grows paper) (s_G s').
Proof.
  destruct (run_factor_inv _ _ _ paper_factor) as (s' & E & HF). exists s'. split; [constructor|]. split; [vm_compute; reflexivity|].
  split; [apply (Nat.pow_lt_mono_r 2 2 26); lia|]. split; [exact E|]. exact (two_lower _ HF).
Qed.
Lemma dval_lit_1 : dval (dlit 1 0) = 1.
Proof. change (dlit 1 0) with (dlit 1 0). assert (E : B2SF (dlit 1 0) = B2SF d1) by (vm_compute; reflexivity). unfold dval. rewrite <- SF2R_B2SF, E, SF2R_B2SF. apply Bone_correct. Qed.
Example C65_nonvacuous_rejected : exists s', history Dops (sol_new Dops) /\ not_nan (o_bigBnd dopt) /\ (p_Grows nonpos + 2 < 2 ^ 26)%nat /\
  gi_solve junkd nonpos dopt (sol_new Dops) = Ok (NON_POS_HESSIAN, s') /\ finite_lower (p_Grows nonpos) (s_G s') /\
  (forall i, (i < p_Grows nonpos)%nat -> dval (p_G nonpos i i) <= 2 ^ 1000).
Proof.
  destruct (run_factor_inv _ _ _ nonpos_factor) as (s' & E & HF). exists s'. split; [constructor|]. split; [vm_compute; reflexivity|].
  split; [apply (Nat.pow_lt_mono_r 2 2 26); lia|]. split; [exact E|]. split; [exact (two_lower _ HF)|].
  intros i Hi. assert (1 <= 2 ^ 1000) by (apply pow_R1_Rle; lra). change (p_Grows nonpos) with 2%nat in Hi.
  assert (C : (i = 0 \/ i = 1)%nat) by lia. destruct C as [-> | ->].
  - change (p_G nonpos 0 0)%nat with (dlit 1 0). rewrite dval_lit_1. exact H.
  - change (p_G nonpos 1 1)%nat with (dlit 1 0). rewrite dval_lit_1. exact H.
Qed.
(** C65: a Hessian holding a NaN is never refused (a comparison with NaN is false); the factor is then not finite. *)
Definition nanhess : problem Dops := dpb 1 0 [[dnan]] [d1] [] [] [] [d0] [d1].
Theorem C65_nan_hessian_accepted : exists s', gi_solve junkd nanhess dopt (sol_new Dops) = Ok (SUCCESS, s') /\ ~ finite_lower 1 (s_G s').
Proof.
  assert (H : run_factor nanhess = Some (SUCCESS, [[false]])) by (vm_compute; reflexivity).
  destruct (run_factor_inv _ _ _ H) as (s' & E & HF). exists s'. split; [exact E|]. cbn [nanhess dpb p_Grows seq map] in HF. injection HF as HF.
  intros HL. specialize (HL 0%nat 0%nat ltac:(lia)). unfold dfin in HL. rewrite HF in HL. discriminate HL.
Qed.

(** C65 for the experimental solver (warm start): its verdict on the Hessian in IEEE-754 doubles. *)
From Coq Require Import List Arith ZArith Lia Bool Reals Lra.
From Flocq Require Import Core IEEE754.BinarySingleNaN.
From Verif Require Import Base ActiveSet Num Solver LinAlg GISafe GICall GIHist Warm WarmSafe WarmHist XFactor FloatStd DoubleOps DoubleLaws FloatSolve FloatChol PropDouble PropDoubleChol.
Import ListNotations.
Local Open Scope R_scope.

(** The solver factorises G after choosing the starting set: a call that ends with
    OVERCONSTRAINED_PROBLEM does not look at G, every other call is judged as in C65,
    whatever the starting set, the options and the calls made before. *)
Theorem C65_accepted_experimental : forall (wo : sumorder) junk (pb : problem (Dw wo)) (o : options (Dw wo)) ws x st x', xhistory (Dw wo) x -> not_nan (o_bigBnd o) -> (p_Grows pb + 2 < 2 ^ 26)%nat ->
  xgi_solve junk pb o ws x = Ok (st, x') -> st <> NON_POS_HESSIAN -> st <> OVERCONSTRAINED_PROBLEM ->
  let n := p_Grows pb in let F := s_G (x_s x') in finite_lower n F ->
  (forall i, (i < n)%nat -> 0 < dval (F i i)) /\
  positive_definite n (fun i j => prod F i j (S j)) /\
  (forall i j, (j <= i < n)%nat -> Rabs (prod F i j (S j) - dval (p_G pb i j)) <= chol_error n (aprod F i j (S j)) (dval (F j j))).
Proof.
  intros wo junk pb o ws x st x' HH HB Hn E Hst Hst2 n F HF.
  destruct (xsolve_factor (Dw wo) junk pb o ws x st x' (double_safe wo) HB HH E Hst2) as (EG & Hiff).
  apply (accepted_factor wo n (p_G pb) F Hn); auto.
  destruct (fst (@llt (Dw wo) n (p_G pb))) eqn:Er; auto. exfalso. apply Hst, Hiff. unfold n in Er. rewrite Er. discriminate.
Qed.
Theorem C65_rejected_experimental : forall (wo : sumorder) junk (pb : problem (Dw wo)) (o : options (Dw wo)) ws x x', xhistory (Dw wo) x -> not_nan (o_bigBnd o) -> (p_Grows pb + 2 < 2 ^ 26)%nat ->
  xgi_solve junk pb o ws x = Ok (NON_POS_HESSIAN, x') -> let n := p_Grows pb in let F := s_G (x_s x') in finite_lower n F ->
  (forall i, (i < n)%nat -> dval (p_G pb i i) <= 2 ^ 1000) ->
  exists p (G' : nat -> nat -> R), (p < n)%nat /\ ~ positive_definite n G' /\
    (forall i j, (j <= i < n)%nat -> (j < p)%nat -> Rabs (G' i j - dval (p_G pb i j)) <= chol_error n (aprod F i j (S j)) (dval (F j j))) /\
    Rabs (G' p p - dval (p_G pb p p)) <= chol_error n (aprod F p p p) 0 /\
    (forall i j, (j <= i < n)%nat -> (p <= j)%nat -> i <> p \/ j <> p -> G' i j = dval (p_G pb i j)).
Proof.
  intros wo junk pb o ws x x' HH HB Hn E n F HF Hbig.
  destruct (xsolve_factor (Dw wo) junk pb o ws x _ x' (double_safe wo) HB HH E ltac:(discriminate)) as (EG & Hiff).
  apply (rejected_factor wo n (p_G pb) F Hn); auto. apply (proj1 Hiff eq_refl).
Qed.
(** The two solvers give the same verdict on the same Hessian, for any arithmetic:
    one answers NON_POS_HESSIAN exactly when the other one does, unless the
    experimental one stopped before looking at it; and they leave the same factor. *)
Theorem C65_same_verdict : forall (S : ops) junk junk' (pb pb' : problem S) o o' ws s x st s' st' x', safe_ops S ->
  leb S (o_bigBnd o) (o_bigBnd o) = true -> leb S (o_bigBnd o') (o_bigBnd o') = true ->
  history S s -> xhistory S x -> p_Grows pb = p_Grows pb' -> p_G pb = p_G pb' ->
  gi_solve junk pb o s = Ok (st, s') -> xgi_solve junk' pb' o' ws x = Ok (st', x') -> st' <> OVERCONSTRAINED_PROBLEM ->
  (st = NON_POS_HESSIAN <-> st' = NON_POS_HESSIAN) /\ s_G s' = s_G (x_s x').
Proof.
  intros S junk junk' pb pb' o o' ws s x st s' st' x' HO HB HB' HH HX En EGG E E' Hst.
  destruct (xsolve_factor S junk' pb' o' ws x st' x' HO HB' HX E' Hst) as (E1 & I1).
  destruct (gsolve_factor S junk pb o s st s' HO HB HH E) as (E2 & I2).
  rewrite En, EGG in *. rewrite I1, I2, E1, E2. split; [tauto|reflexivity].
Qed.

(** ** Concrete cases *)
Definition xrun_factor (pb : problem Dops) : option (term_status * list (list bool)) :=
  match xgi_solve junkd pb dopt [] (xsol_new Dops) with
  | Ok (st, x') => Some (st, map (fun i => map (fun j => is_finite (s_G (x_s x') i j)) (seq 0 (S i))) (seq 0 (p_Grows pb)))
  | UB => None
  end.
Lemma xrun_factor_inv pb st l : xrun_factor pb = Some (st, l) -> exists x', xgi_solve junkd pb dopt [] (xsol_new Dops) = Ok (st, x') /\
  map (fun i => map (fun j => is_finite (s_G (x_s x') i j)) (seq 0 (S i))) (seq 0 (p_Grows pb)) = l.
Proof. unfold xrun_factor. destruct (xgi_solve _ pb dopt _ _) as [(st1, s1)|]; [|discriminate]. intros H. injection H as -> <-. exists s1. auto. Qed.
Lemma xpaper_factor : xrun_factor paper = Some (SUCCESS, [[true]; [true; true]]).
Proof. vm_compute. reflexivity. Qed.
Lemma xnonpos_factor : xrun_factor nonpos = Some (NON_POS_HESSIAN, [[true]; [true; true]]).
Proof. vm_compute. reflexivity. Qed.
Example C65_nonvacuous_experimental : 
  (exists x', xhistory Dops (xsol_new Dops) /\ xgi_solve junkd paper dopt [] (xsol_new Dops) = Ok (SUCCESS, x') /\ finite_lower (p_Grows paper) (s_G (x_s x'))) /\
  (exists x', xhistory Dops (xsol_new Dops) /\ xgi_solve junkd nonpos dopt [] (xsol_new Dops) = Ok (NON_POS_HESSIAN, x') /\ finite_lower (p_Grows nonpos) (s_G (x_s x'))).
Proof.
  split.
  - destruct (xrun_factor_inv _ _ _ xpaper_factor) as (x' & E & HF). exists x'. split; [constructor|]. split; [exact E|]. exact (two_lower _ HF).
  - destruct (xrun_factor_inv _ _ _ xnonpos_factor) as (x' & E & HF). exists x'. split; [constructor|]. split; [exact E|]. exact (two_lower _ HF).
Qed.

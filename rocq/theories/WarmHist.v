(** Histories of calls on one object of the warm-startable solver, for any scalar arithmetic. *)
From Coq Require Import List Arith ZArith Lia Bool.
From Verif Require Import Base ActiveSet ActiveSetProofs Num Solver LinAlg GIBase GIInv GISafe GICall GIHist Warm WarmAS WarmSafe.
Import ListNotations.

Section Hist.
Variable S : ops.
Notation problem := (problem S).
Notation xsol := (xsol S).

(** Every object a user can hold: constructed, then any sequence of public calls
    (include/jrl-qp/DualSolver.h:28-92, experimental/GoldfarbIdnaniSolver.h:16-33). *)
Inductive xhistory : xsol -> Prop :=
| xh_new : xhistory (xsol_new S)
| xh_resize junk x n m ub : xhistory x -> xhistory (xresize junk x n m ub)
| xh_reset x : xhistory x -> xhistory (xset_s x (resetActiveSet (x_s x)))
| xh_mult x l s' : xhistory x -> multipliers (x_s x) = Ok (l, s') -> xhistory (xset_s x s')
| xh_solve junk pb o ws x st x' : xhistory x -> leb S (o_bigBnd o) (o_bigBnd o) = true ->
    xgi_solve junk pb o ws x = Ok (st, x') -> xhistory x'.

Lemma xgi_args junk pb o ws (x : xsol) r : xgi_solve junk pb o ws x = Ok r -> args_ok S pb o ws = true.
Proof.
  unfold xgi_solve, args_ok. intros E. apply guard_ok in E as [-> E]. apply guard_ok in E as [-> E]. apply guard_ok in E as [-> E]. auto.
Qed.

(** What a call that returns looks like *)
Lemma xsolve_ok junk pb o ws x st x' : safe_ops S -> leb S (o_bigBnd o) (o_bigBnd o) = true -> xwf S x ->
  xgi_solve junk pb o ws x = Ok (st, x') ->
  let ws' := ws_eff S junk pb o ws x in
  xsh S pb x' /\ s_exp (x_s x') = true /\ forallb (kind1 S pb o ws') (order S pb) = true /\
  (st = OVERCONSTRAINED_PROBLEM /\ (gn S pb < n_eq S pb o ws')%nat \/
   st = NON_POS_HESSIAN /\ (n_eq S pb o ws' <= gn S pb)%nat /\ fst (llt (gn S pb) (p_G pb)) <> None \/
   (n_eq S pb o ws' <= gn S pb)%nat /\ fst (llt (gn S pb) (p_G pb)) = None /\
   exists x4 x5 x6 x0, xinits S pb o ws' x4 x5 x6 x0 /\ xbegins S junk pb o ws x x0 /\
     loop pb o (o_maxIter o - s_it (x_s x0)) (L (x_s x0) false (SC 0 INACTIVE)) = Ok (st, x_s x') /\ x' = xset_s x0 (x_s x') /\
     (nact (s_A (x_s x')) <= gn S pb)%nat /\ (st = SUCCESS \/ st = MAX_ITER_REACHED \/ st = INFEASIBLE)).
Proof.
  intros HO HB HW E ws'. pose proof (xgi_args _ _ _ _ _ _ E) as Ha.
  pose proof (xsolve S junk pb o ws x HO HB HW Ha) as HX. cbv zeta in HX. fold ws' in HX.
  assert (Hne : xgi_solve junk pb o ws x <> UB) by (rewrite E; discriminate). specialize (HX (or_intror Hne)).
  destruct (forallb (kind1 S pb o ws') (order S pb)); cbn [negb] in HX; [|congruence].
  destruct (Nat.ltb_spec (gn S pb) (n_eq S pb o ws')) as [Hn|Hn].
  - destruct HX as (x1 & H1 & H2 & H3 & E1). destruct (o_debug o); [congruence|].
    rewrite E in E1. injection E1 as -> ->. split; [exact H1|]. split; [exact H3|]. split; [reflexivity|]. left. auto.
  - destruct (fst (llt (gn S pb) (p_G pb))) as [p|] eqn:El.
    + destruct HX as (x1 & E1 & H1 & H2 & H3). rewrite E in E1. injection E1 as -> ->.
      split; [exact H1|]. split; [exact H3|]. split; [reflexivity|]. right. left. split; auto. split; auto. congruence.
    + destruct HX as (x4 & x5 & x6 & x0 & HXI & Hbeg & E1).
      destruct (xi_start _ _ _ _ _ _ _ _ HXI) as [H1 H2 H3 H4 H5 H6 H7].
      destruct (gloop_inv S pb o (fun _ => True) HO HB) with (fuel := (o_maxIter o - s_it (x_s x0))%nat) (l := L (x_s x0) false (SC 0 INACTIVE))
        as (st1 & s1 & Elp & R1 & _ & R2 & R3 & R4 & Hst); auto.
      { split; simpl; auto; [apply H1|discriminate]. }
      rewrite Elp in E1. cbn [bind fst snd] in E1. rewrite E in E1. injection E1 as -> ->. cbn [x_s xset_s].
      split; [destruct H1; split; auto|]. split; [cbn in *; congruence|]. split; [reflexivity|].
      right. right. split; [exact Hn|]. split; [reflexivity|]. exists x4, x5, x6, x0.
      split; [exact HXI|]. split; [exact Hbeg|]. split; [exact Elp|]. split; [reflexivity|]. split; [exact R2|]. tauto.
Qed.

Lemma xhist_wf x : safe_ops S -> xhistory x -> xwf S x.
Proof.
  intros HO. induction 1 as [|junk x n m ub H IH|x H IH|x l s' H IH E|junk pb o ws x st x' H IH HB E].
  - apply xwf_new.
  - destruct IH as [W T1 T2 T3]. pose proof (gresize_wf S junk (x_s x) n m ub W) as W'.
    destruct (gresize S junk (x_s x) n m ub W) as (En & _).
    assert (HR : forall w, (s_n (x_s x) <= w_size w)%nat -> (n <= w_size (if (n =? s_n (x_s x))%nat then w else w_resize junk w n))%nat).
    { intros w Hw. destruct (Nat.eqb_spec n (s_n (x_s x))); [lia|apply gw_resize]. }
    split; cbn [xresize x_s x_tmp x_h x_b]; auto; rewrite En; auto.
  - destruct IH. split; cbn; auto. apply gwf_reset. auto.
  - destruct IH as [W T1 T2 T3]. pose proof (gwf_mult S _ _ _ W E). apply mult_frame in E as (_ & En & _).
    split; cbn; auto; rewrite En; auto.
  - destruct (xsolve_ok junk pb o ws x st x' HO HB IH E) as (HX & _). eapply xsh_wf. eauto.
Qed.
End Hist.

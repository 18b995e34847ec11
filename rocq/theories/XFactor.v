(** The factor the experimental solver leaves in G. *)
From Coq Require Import List Arith ZArith Lia Bool.
From Verif Require Import Base ActiveSet ActiveSetProofs Num Solver GIBase GIInv GISafe GICall GIHist Warm WarmAS WarmSafe WarmHist.
Import ListNotations.

Section XFactor.
Variable S : ops.
Lemma pia_status pb o ws n A st A' : @processInitialActiveSet S pb o ws n A = Ok (st, A') -> st = SUCCESS \/ st = OVERCONSTRAINED_PROBLEM.
Proof.
  unfold processInitialActiveSet. intros E. apply bind_ok in E as (A1 & _ & E). apply bind_ok in E as (A2 & _ & E).
  destruct (n <? nact A2); [|injection E as <- _; auto].
  destruct (_ <? _)%Z; [injection E as <- _; auto|]. apply bind_ok in E as (A3 & _ & E). injection E as <- _. auto.
Qed.
Lemma terminate_same o st (s : sol S) st' s' : terminate o st s = Ok (st', s') -> st' = st /\ s' = s.
Proof. unfold terminate. destruct st; try (intros E; injection E as <- <-; auto; fail); destruct (o_debug o); intros E; try discriminate; injection E as <- <-; auto. Qed.

Lemma xsolve_factor junk (pb : problem S) o ws x st x' : safe_ops S -> leb S (o_bigBnd o) (o_bigBnd o) = true -> xhistory S x ->
  xgi_solve junk pb o ws x = Ok (st, x') -> st <> OVERCONSTRAINED_PROBLEM ->
  s_G (x_s x') = snd (llt (p_Grows pb) (p_G pb)) /\ (st = NON_POS_HESSIAN <-> fst (llt (p_Grows pb) (p_G pb)) <> None).
Proof.
  intros HO HB HH E Hst. pose proof (xhist_wf S x HO HH) as HW.
  destruct (xsolve_ok S junk pb o ws x st x' HO HB HW E) as (HX & _ & _ & HC). change (gn S pb) with (p_Grows pb) in *.
  destruct HC as [(H & _)|[(H & _ & Hl)|(_ & Hl & x4 & x5 & x6 & x0 & HXI & _ & Elp & Ex & _ & Hs)]]; [contradiction| |].
  - split; [|tauto]. subst st. clear HX.
    unfold xgi_solve in E. apply guard_ok in E as [_ E]. apply guard_ok in E as [_ E]. apply guard_ok in E as [_ E].
    apply bind_ok in E as ((st1 & x1) & E1 & E). unfold xinit in E1. apply bind_ok in E1 as ((st2 & A2) & E2 & E1). cbn [fst snd] in E1.
    assert (En : s_n (x_s (xset_s (xresize junk x (p_Grows pb) (p_Ccols pb) (0 <? p_xlsize pb)%nat)
        (set_it (if o_warm o then set_exp (x_s (xresize junk x (p_Grows pb) (p_Ccols pb) (0 <? p_xlsize pb)%nat)) true
                 else set_A (set_exp (x_s (xresize junk x (p_Grows pb) (p_Ccols pb) (0 <? p_xlsize pb)%nat)) true)
                     (as_reset (s_A (set_exp (x_s (xresize junk x (p_Grows pb) (p_Ccols pb) (0 <? p_xlsize pb)%nat)) true)))) 0))) = p_Grows pb).
    { destruct HW as [W _ _ _]. destruct (gresize S junk (x_s x) (p_Grows pb) (p_Ccols pb) (0 <? p_xlsize pb)%nat W) as (En & _).
      destruct (o_warm o); exact En. }
    destruct (pia_status _ _ _ _ _ _ _ E2) as [-> | ->].
    2:{ injection E1 as <- <-. apply bind_ok in E as ((st3 & s3) & Et & E). apply terminate_same in Et as [-> ->]. discriminate E. }
    destruct (llt _ (p_G pb)) as (ret, Lm) eqn:El in E1.
    assert (El' : llt (p_Grows pb) (p_G pb) = (ret, Lm)) by (rewrite <- El; f_equal; symmetry; exact En).
    rewrite El' in *. cbn [fst snd] in *. destruct ret as [p|]; [|congruence].
    injection E1 as <- <-. apply bind_ok in E as ((st3 & s3) & Et & E). apply terminate_same in Et as [-> ->]. cbn [fst snd] in E.
    injection E as <-. reflexivity.
  - destruct (xi_start _ _ _ _ _ _ _ _ HXI) as [H1 H2 H3 H4 H5 H6 H7].
    destruct (gloop_inv S pb o (fun _ => True) HO HB) with (fuel := (o_maxIter o - s_it (x_s x0))%nat) (l := L (x_s x0) false (SC 0 INACTIVE))
      as (st1 & s1 & Elp1 & R1 & _ & R2 & R3 & R4 & _); auto.
    { split; simpl; auto; [apply H1|discriminate]. }
    rewrite Elp in Elp1. injection Elp1 as <- <-. cbn [l_s] in R4. split; [rewrite R4; exact H7|].
    split; [intros ->; intuition discriminate|]. rewrite Hl. congruence.
Qed.

(** The same for the stable solver *)
Lemma gsolve_factor junk (pb : problem S) o s st s' : safe_ops S -> leb S (o_bigBnd o) (o_bigBnd o) = true -> history S s ->
  gi_solve junk pb o s = Ok (st, s') ->
  s_G s' = snd (llt (p_Grows pb) (p_G pb)) /\ (st = NON_POS_HESSIAN <-> fst (llt (p_Grows pb) (p_G pb)) <> None).
Proof.
  intros HO HB HH E. pose proof (hist_wf S s HO HH) as HW.
  destruct (gsolve_ub S junk pb o s HO HB HW) as (_ & HU2).
  destruct (sizes_ok pb) eqn:Es; [|rewrite HU2 in E by auto; discriminate].
  assert (Hle : fst (llt (gn S pb) (p_G pb)) = None -> (length (geqs S pb (gcb S pb)) <= gn S pb)%nat).
  { intros En. destruct (Nat.le_gt_cases (length (geqs S pb (gcb S pb))) (gn S pb)); auto. rewrite HU2 in E; [discriminate|]. right. auto. }
  destruct (gsolve_result S junk pb o s HO HB HW Es Hle) as (st1 & s1 & E1 & HD & HC). rewrite E in E1. injection E1 as <- <-.
  split; [apply HD|]. change (gn S pb) with (p_Grows pb) in *. split.
  - intros ->. destruct HC as [(_ & H & _)|(_ & _ & _ & [(H & _)|([H|H] & _)])]; auto; discriminate.
  - intros Hn. destruct HC as [(H & _)|(H & _)]; [auto|contradiction].
Qed.
End XFactor.

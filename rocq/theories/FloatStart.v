(** The starting point of the stable dense solver, in any arithmetic (GoldfarbIdnaniSolver.cpp:56-86): when a call ends before the
    first iteration with nothing active, the answer is the solution of the two triangular systems of the factor left in G. *)
From Coq Require Import List Arith Lia Bool.
From Verif Require Import Base ActiveSet ActiveSetProofs Num Solver LinAlg GIBase GISafe GICall GIHist GISame FloatSolve.
Import ListNotations.

Section Start.
Variable S : ops.
Notation problem := (problem S).

Lemma step2_it (pb : problem) o l l' : step2 pb o l = Ok (Continue l') -> s_it (l_s l') = s_it (l_s l).
Proof.
  assert (HR : forall (s s' : sol S) k, removeConstraint s k = Ok s' -> s_it s' = s_it s).
  { intros s s' k E. unfold removeConstraint in E. apply guard_ok in E as (_ & E). apply bind_ok in E as (A & _ & E). unfold removeConstraint_ in E.
    apply bind_ok in E as (? & _ & E). apply bind_ok in E as (? & _ & E). destruct (rem_loop _ _ _ _ _) as (R', J'). injection E as <-. reflexivity. }
  assert (HA : forall (s s' : sol S) sc, addConstraint s sc = Ok s' -> s_it s' = s_it s).
  { intros s s' k E. unfold addConstraint in E. apply bind_ok in E as (A & _ & E). unfold addConstraint_ in E.
    apply bind_ok in E as (? & _ & E). apply bind_ok in E as (? & _ & E). destruct (add_loop _ _ _ _ _) as (R', J').
    apply bind_ok in E as (? & _ & E). apply guard_ok in E as (_ & E). injection E as <-. reflexivity. }
  unfold step2. intros E. apply bind_ok in E as (s1 & E1 & E).
  assert (H1 : s_it s1 = s_it (l_s l)).
  { unfold computeStep in E1. repeat (apply bind_ok in E1 as (? & _ & E1) || apply guard_ok in E1 as (_ & E1)). injection E1 as <-. reflexivity. }
  apply bind_ok in E as (((t1, t2), li) & _ & E).
  destruct (leb S (o_bigBnd o) _); [discriminate|]. destruct (leb S (o_bigBnd o) t2).
  - apply bind_ok in E as (s2 & E2 & E). apply bind_ok in E as (? & _ & E). apply bind_ok in E as (? & _ & E). injection E as <-. cbn [l_s]. apply HR in E2. rewrite E2. exact H1.
  - apply bind_ok in E as (? & _ & E). destruct (eqb S _ t2).
    + apply bind_ok in E as (s2 & E2 & E). injection E as <-. cbn [l_s]. apply HA in E2. rewrite E2. exact H1.
    + apply bind_ok in E as (s2 & E2 & E). apply bind_ok in E as (? & _ & E). apply bind_ok in E as (? & _ & E). injection E as <-. cbn [l_s]. apply HR in E2. rewrite E2. exact H1.
Qed.
Lemma iter_it (pb : problem) o l l' : iter pb o l = Ok (Continue l') -> s_it (l_s l') = s_it (l_s l).
Proof.
  unfold iter. intros E. apply bind_ok in E as ([l1|] & E1 & E); [|discriminate]. rewrite (step2_it _ _ _ _ E).
  unfold step1 in E1. destruct (l_skip l); [injection E1 as <-; reflexivity|]. apply bind_ok in E1 as (sc & _ & E1).
  destruct (sc_st sc); [discriminate|..]; apply bind_ok in E1 as (? & _ & E1); apply bind_ok in E1 as (? & _ & E1); injection E1 as <-; reflexivity.
Qed.
Lemma iter_stop_it (pb : problem) o l st s : iter pb o l = Ok (Stop st s) -> s_it s = s_it (l_s l).
Proof.
  unfold iter. intros E. apply bind_ok in E as ([l1|] & E1 & E).
  - assert (H1 : s_it (l_s l1) = s_it (l_s l)).
    { unfold step1 in E1. destruct (l_skip l); [injection E1 as <-; reflexivity|]. apply bind_ok in E1 as (sc & _ & E1).
      destruct (sc_st sc); [discriminate|..]; apply bind_ok in E1 as (? & _ & E1); apply bind_ok in E1 as (? & _ & E1); injection E1 as <-; reflexivity. }
    unfold step2 in E. apply bind_ok in E as (s1 & E2 & E).
    assert (H2 : s_it s1 = s_it (l_s l1)).
    { unfold computeStep in E2. repeat (apply bind_ok in E2 as (? & _ & E2) || apply guard_ok in E2 as (_ & E2)). injection E2 as <-. reflexivity. }
    apply bind_ok in E as (((t1, t2), li) & _ & E).
    destruct (leb S (o_bigBnd o) _); [injection E as <- <-; congruence|]. destruct (leb S (o_bigBnd o) t2).
    + apply bind_ok in E as (? & _ & E). apply bind_ok in E as (? & _ & E). apply bind_ok in E as (? & _ & E). discriminate.
    + apply bind_ok in E as (? & _ & E). destruct (eqb S _ t2).
      * apply bind_ok in E as (? & _ & E). discriminate.
      * apply bind_ok in E as (? & _ & E). apply bind_ok in E as (? & _ & E). apply bind_ok in E as (? & _ & E). discriminate.
  - injection E as <- <-. reflexivity.
Qed.
Lemma loop_it_ge (pb : problem) o fuel : forall l st s, loop pb o fuel l = Ok (st, s) -> (s_it (l_s l) <= s_it s)%nat.
Proof.
  induction fuel as [|f IH]; intros l st s; cbn [loop]; [intros E; injection E as _ <-; lia|].
  intros E. apply bind_ok in E as ([l'|st' s'] & E1 & E).
  - apply IH in E. cbn [l_s] in E. rewrite <- (iter_it _ _ _ _ E1). cbn in E. lia.
  - injection E as <- <-. rewrite (iter_stop_it _ _ _ _ _ E1). lia.
Qed.
(** SUCCESS without any iteration: nothing was done *)
Lemma loop_start (pb : problem) o fuel l s : loop pb o fuel l = Ok (SUCCESS, s) -> s_it s = s_it (l_s l) -> s = l_s l.
Proof.
  destruct fuel as [|f]; cbn [loop]; [discriminate|]. intros E Hi. apply bind_ok in E as ([l'|st' s'] & E1 & E).
  - apply loop_it_ge in E. cbn [l_s] in E. rewrite Hi, <- (iter_it _ _ _ _ E1) in E. cbn in E. lia.
  - injection E as -> ->. unfold iter in E1. apply bind_ok in E1 as ([l1|] & E1 & E2); [|injection E2 as <-; reflexivity].
    apply step2_not_success in E2. discriminate.
Qed.

(** the two triangular solves *)
Definition start_x (n : nat) (F : mat S) (a : vec S) : vec S := fun i => opp S (bwd n n (tr F) (fwd n F a) i).

Lemma init_none (pb : problem) s : ginv S pb 0 s -> geqs S pb (gcb S pb) = [] -> initActiveSet pb s = Ok s.
Proof.
  intros H0 HE. assert (HQ : forall i, (i < gcb S pb)%nat -> geq S pb i = false).
  { intros i Hi. destruct (geq S pb i) eqn:E; [|reflexivity]. exfalso. assert (In i (geqs S pb (gcb S pb))) by (apply filter_In; split; [apply in_seq; lia|exact E]). rewrite HE in H. destruct H. }
  pose proof (gi_sh _ _ _ _ H0) as HS. unfold initActiveSet. rewrite (g_nc _ _ _ HS).
  assert (A1 : forall k, (k <= gc_ S pb)%nat -> init_cstr pb k s = Ok s).
  { induction k as [|k IH]; intros Hk; cbn [init_cstr]; [reflexivity|]. rewrite IH by lia. cbn [bind].
    specialize (HQ k ltac:(unfold gcb; lia)). unfold geq, glo, gup in HQ. destruct (Nat.ltb_spec k (gc_ S pb)); [|lia]. rewrite HQ. reflexivity. }
  rewrite A1 by lia. cbn [bind]. rewrite (g_nb _ _ _ HS).
  assert (A2 : forall k, (k <= gb S pb)%nat -> init_bnd pb k s = Ok s).
  { induction k as [|k IH]; intros Hk; cbn [init_bnd]; [reflexivity|]. rewrite IH by lia. cbn [bind].
    specialize (HQ (gc_ S pb + k)%nat ltac:(unfold gcb; lia)). unfold geq, glo, gup in HQ. destruct (Nat.ltb_spec (gc_ S pb + k) (gc_ S pb)); [lia|].
    replace (gc_ S pb + k - gc_ S pb)%nat with k in HQ by lia. rewrite HQ. reflexivity. }
  apply A2. lia.
Qed.

Lemma solve_start junk (pb : problem) o s s' : safe_ops S -> leb S (o_bigBnd o) (o_bigBnd o) = true -> history S s ->
  gi_solve junk pb o s = Ok (SUCCESS, s') -> iterations s' = 0 -> (forall i st, nth_error (activeSet s') i = Some st -> st = INACTIVE) ->
  let n := p_Grows pb in let F := s_G s' in llt n (p_G pb) = (None, F) /\ solution s' = Ok (map (start_x n F (p_a pb)) (seq 0 n)) /\
    s_f s' = mul S (half S) (dot [23]%nat n (p_a pb) (start_x n F (p_a pb))).
Proof.
  intros HO HB HH E Hit Hact. pose proof (hist_wf S s HO HH) as HW. unfold gi_solve in E.
  apply guard_ok in E as (Hsz & E). pose proof (gresize_sh S junk pb s HW Hsz) as HS.
  set (s1 := resize junk s _ _ _) in *. unfold dual_solve, dual_init in E.
  set (s2 := set_it (if o_warm o then set_exp s1 true else set_A (set_exp s1 true) (as_reset (s_A (set_exp s1 true)))) 0) in *.
  assert (HS2 : gsh S pb s2).
  { unfold s2. destruct (o_warm o); eapply gsh_trans; eauto; try reflexivity; simpl; [apply HS|apply good_reset, HS]. }
  assert (Eit : s_it s2 = 0%nat) by (unfold s2; destruct (o_warm o); auto).
  clearbody s2. apply bind_ok in E as ((st0, s4) & E0 & E).
  pose proof (g_n _ _ _ HS2) as Hn. change (gn S pb) with (p_Grows pb) in Hn.
  unfold gi_init in E0. rewrite Hn in E0. destruct (llt (p_Grows pb) (p_G pb)) as ([p|], L) eqn:EL.
  { injection E0 as <- <-. apply terminate_eq in E as (E & _). discriminate. }
  rewrite ggetM in E0; [|rewrite <- Hn; pose proof (g_J _ _ _ HS2); rewrite Hn; assumption|lia]. cbn [bind] in E0.
  rewrite ggetV in E0 by (exact (g_x _ _ _ HS2)). cbn [bind] in E0.
  rewrite !vm_id in E0. match type of E0 with (bind (initActiveSet pb ?t) _ = _) => set (s3 := t) in * end.
  assert (H0 : ginv S pb 0 s3).
  { unfold s3. split.
    - eapply gsh_trans; eauto; try reflexivity. simpl. apply good_reset. apply HS2.
    - reflexivity.
    - intros i. simpl. rewrite gstt_reset. reflexivity. }
  assert (X3 : s_x s3 = wset (s_x s2) (vhead (p_Grows pb) (start_x (p_Grows pb) L (p_a pb)) (w_buf (s_x s2))) /\ s_G s3 = L /\ s_n s3 = p_Grows pb /\ s_it s3 = 0 /\
     s_f s3 = mul S (half S) (dot [23]%nat (p_Grows pb) (p_a pb) (vhead (p_Grows pb) (start_x (p_Grows pb) L (p_a pb)) (w_buf (s_x s2))))).
  { unfold s3. split; [reflexivity|]. split; [reflexivity|]. split; [exact Hn|]. split; [exact Eit|reflexivity]. }
  clearbody s3. destruct X3 as (X3 & G3 & N3 & I3 & F3).
  apply bind_ok in E0 as (s5 & E5 & E0). injection E0 as <- <-.
  pose proof (ginitActiveSet S pb s3 H0) as HA. destruct (_ <=? _)%nat; [|congruence]. destruct HA as (s6 & E6 & H6 & [K1 K2 K3]). rewrite E5 in E6. injection E6 as <-.
  apply bind_ok in E as (? & _ & E). apply bind_ok in E as (? & _ & E). apply bind_ok in E as (? & _ & E). apply bind_ok in E as ((st1, s7) & E7 & E).
  apply terminate_eq in E as (<- & <-). apply loop_start in E7; [|cbn [l_s]; unfold iterations in Hit; congruence]. cbn [l_s] in E7. subst s'.
  assert (HE : geqs S pb (gcb S pb) = []).
  { destruct (geqs S pb (gcb S pb)) as [|i r] eqn:EQ; [reflexivity|]. exfalso.
    assert (Hi : In i (geqs S pb (gcb S pb))) by (rewrite EQ; left; reflexivity). apply filter_In in Hi as (Hi & He). apply in_seq in Hi.
    pose proof (gi_stt _ _ _ _ H6 i) as Hs. destruct (Nat.ltb_spec i (gcb S pb)); [|lia]. rewrite He in Hs. cbn [andb] in Hs.
    unfold stt in Hs. destruct (nth_error (a_status (s_A s5)) i) as [st|] eqn:En.
    - rewrite (nth_error_nth _ _ _ En) in Hs. rewrite (Hact i st En) in Hs. unfold gstat in Hs. destruct (i <? gc_ S pb); discriminate.
    - apply nth_error_None in En. rewrite nth_overflow in Hs by exact En. unfold gstat in Hs. destruct (i <? gc_ S pb); discriminate. }
  rewrite (init_none pb s3 H0 HE) in E5. injection E5 as <-. cbv zeta. rewrite G3. split; [exact EL|]. split.
  - unfold solution. rewrite N3, X3. rewrite ggetV by (cbn; exact (g_x _ _ _ HS2)). cbn [bind w_buf wset]. f_equal. apply map_ext_in. intros i Hi. apply in_seq in Hi.
    unfold vhead. destruct (Nat.ltb_spec i (p_Grows pb)); [reflexivity|lia].
  - rewrite F3. f_equal. unfold dot. apply gsum_ext. intros i Hi. unfold vhead. destruct (Nat.ltb_spec i (p_Grows pb)); [reflexivity|lia].
Qed.
End Start.

(** Histories of calls on one solver object, for any scalar arithmetic. *)
From Coq Require Import List Arith ZArith Lia Bool.
From Verif Require Import Base ActiveSet ActiveSetProofs Num Solver LinAlg GIBase GIInv GISafe GICall.
Import ListNotations.

Section Hist.
Variable S : ops.
Notation problem := (problem S).
Notation sol := (sol S).

(** Every object a user can hold: constructed, then any sequence of public
    calls (include/jrl-qp/DualSolver.h:28-92, GoldfarbIdnaniSolver.h:15-45).
    [junk] is the unspecified content of freshly allocated memory. *)
Inductive history : sol -> Prop :=
| h_new : history (sol_new S)
| h_resize junk s n m ub : history s -> history (resize junk s n m ub)
| h_reset s : history s -> history (resetActiveSet s)
| h_mult s l s' : history s -> multipliers s = Ok (l, s') -> history s'
| h_solve junk pb o s st s' : history s -> leb S (o_bigBnd o) (o_bigBnd o) = true ->
    gi_solve junk pb o s = Ok (st, s') -> history s'.

Lemma gwf_reset s : gwf S s -> gwf S (resetActiveSet s).
Proof.
  intros [H1 H2 H3 H4 H5 H6 H7 H8]. split; auto. simpl. apply good_reset. apply H1.
Qed.

Lemma mult_frame (s : sol) l s' : multipliers s = Ok (l, s') ->
  s_A s' = s_A s /\ s_n s' = s_n s /\ s_x s' = s_x s /\ s_f s' = s_f s /\ s_it s' = s_it s /\ s_d s' = s_d s /\ s_J s' = s_J s /\
  s_R s' = s_R s /\ s_z s' = s_z s /\ w_size (s_u s') = w_size (s_u s) /\ w_size (s_r s') = w_size (s_r s) /\ s_exp s' = false /\ s_G s' = s_G s /\
  length l = nbAll (s_A s).
Proof.
  unfold multipliers. intros H. apply bind_ok in H as (s1 & E1 & H). apply bind_ok in H as (u & E2 & H).
  injection H as <- <-. rewrite map_length, seq_length. destruct (s_exp s) eqn:Ex.
  - apply bind_ok in E1 as (r0 & _ & E1). apply bind_ok in E1 as (u0 & _ & E1).
    apply bind_ok in E1 as (u1 & _ & E1). apply bind_ok in E1 as (u2 & _ & E1). injection E1 as <-. simpl. repeat split; auto.
  - injection E1 as <-. repeat split; auto.
Qed.
Lemma gwf_mult s l s' : gwf S s -> multipliers s = Ok (l, s') -> gwf S s'.
Proof.
  intros [H1 H2 H3 H4 H5 H6 H7 H8] H. apply mult_frame in H as (E1 & E2 & E3 & E4 & E5 & E6 & E7 & E8 & E9 & E10 & E11 & E12 & E13 & _).
  split; rewrite ?E1, ?E2, ?E3, ?E6, ?E7, ?E8, ?E9, ?E10, ?E11; auto.
Qed.

(** multipliers() is always defined *)
Lemma gexpand A (r : vec S) : good A -> forall k, (k <= nact A)%nat -> exists v, expand A r k (fun _ => zero S) = Ok v.
Proof.
  intros HG. induction k as [|k IH]; intros Hk; [eexists; reflexivity|].
  destruct IH as (v & E); [lia|]. cbn [expand]. rewrite E. cbn [bind].
  rewrite (nact_length _ HG) in Hk. unfold as_get.
  destruct (nth_error (a_active A) k) as [i|] eqn:Ei; [|apply nth_error_None in Ei; lia].
  cbn [bind]. pose proof (proj1 HG) as [CL CN CI CK].
  assert (HI : In i (a_active A)) by (eapply nth_error_In; eauto). apply CI in HI as (st & Est & Hne).
  assert (Hlt : (i < nbAll A)%nat). { unfold nbAll. rewrite <- CL. apply nth_error_Some. congruence. }
  unfold as_stat. apply Nat.ltb_lt in Hlt. rewrite Hlt, Est. cbn [guard bind]. eexists. reflexivity.
Qed.
Lemma gmult s : gwf S s -> exists l s', multipliers s = Ok (l, s').
Proof.
  intros [H1 H2 H3 H4 H5 H6 H7 H8]. unfold multipliers.
  assert (Hq : (nact (s_A s) <= nbAll (s_A s))%nat).
  { pose proof (good_nbActive_le _ H1). unfold nact, nbAll in *. lia. }
  destruct (s_exp s).
  - cbn [s_A s_r s_u set_exp]. rewrite ggetV by lia. cbn [bind]. rewrite ggetV by lia. cbn [bind].
    rewrite ggetV by lia. cbn [bind]. destruct (gexpand (s_A s) (vm (nact (s_A s)) (vhead (nact (s_A s)) (w_buf (s_u s)) (w_buf (s_r s)))) H1 _ (le_n _)) as (v & E).
    rewrite E. cbn [bind]. rewrite ggetV by (simpl; lia). cbn [bind]. eexists _, _. reflexivity.
  - cbn [bind]. rewrite ggetV by lia. cbn [bind]. eexists _, _. reflexivity.
Qed.
Lemma gsolution s : gwf S s -> exists l, solution s = Ok l /\ length l = s_n s.
Proof.
  intros H. unfold solution. rewrite ggetV by apply H. cbn [bind]. eexists. split; [reflexivity|]. rewrite map_length, seq_length. auto.
Qed.

Lemma hist_wf s : safe_ops S -> history s -> gwf S s.
Proof.
  intros HO. induction 1 as [|junk s n m ub H IH|s H IH|s l s' H IH E|junk pb o s st s' H IH HB E].
  - apply gwf_new.
  - apply gresize_wf. auto.
  - apply gwf_reset. auto.
  - eapply gwf_mult; eauto.
  - pose proof (gsolve S junk pb o s HO HB IH) as HG. destruct (sizes_ok pb) eqn:Es; cbn [negb] in HG; [|congruence].
    assert (Hle : fst (llt (gn S pb) (p_G pb)) = None -> (length (geqs S pb (gcb S pb)) <= gn S pb)%nat).
    { intros El. rewrite El in HG. destruct (Nat.leb_spec (length (geqs S pb (gcb S pb))) (gn S pb)); auto. congruence. }
    destruct (gsolve_result S junk pb o s HO HB IH Es Hle) as (st1 & s1 & E1 & HD & _).
    rewrite E in E1. injection E1 as <- <-. eapply gsh_wf. apply HD.
Qed.

(** solve() is defined exactly when the sizes are consistent and, if G is
    accepted by the factorisation, there are at most nbVar equalities. *)
Lemma gsolve_ub junk pb o s : safe_ops S -> leb S (o_bigBnd o) (o_bigBnd o) = true -> gwf S s ->
  gi_solve junk pb o s = UB <->
  sizes_ok pb = false \/ (fst (llt (gn S pb) (p_G pb)) = None /\ (gn S pb < length (geqs S pb (gcb S pb)))%nat).
Proof.
  intros HO HB HW. pose proof (gsolve S junk pb o s HO HB HW) as HG. destruct (sizes_ok pb) eqn:Es; cbn [negb] in HG.
  - destruct (fst (llt (gn S pb) (p_G pb))) eqn:El.
    + destruct HG as (s' & E & _). split; [intros E1; congruence|]. intros [H|[H _]]; discriminate.
    + destruct (Nat.leb_spec (length (geqs S pb (gcb S pb))) (gn S pb)) as [Hle|Hgt].
      * split.
        -- intros E. destruct (gsolve_result S junk pb o s HO HB HW Es (fun _ => Hle)) as (st1 & s1 & E1 & _). congruence.
        -- intros [H|[_ H]]; [discriminate|lia].
      * split; auto.
  - split; auto.
Qed.
End Hist.

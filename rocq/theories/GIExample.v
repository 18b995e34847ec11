(** A concrete problem meeting all the hypotheses of the solver theorems:
    two variables, G = I, an equality x0 + x1 = b, the bounds x0 >= 0, x1 >= 0.
    For b = 1 it is feasible, for b = -1 it is not. *)
From Coq Require Import List Arith ZArith Lia Bool Reals Lra Psatz.
From Verif Require Import Base ActiveSet ActiveSetProofs Num Solver LinAlg QRUpdate QPSpec GIMath GIBase GIInv GIDual GIRun GIOpt GIMult GIInit GISafe GICall GIHist GIFinal GITerm GITotal GISame GIMore.
Import ListNotations.
Local Open Scope R_scope.

Definition ex_pb (b : R) : rproblem :=
  Pb (S:=Rops) (fun i j => if (i =? j)%nat then 1 else 0) 2 2 (fun i => if (i =? 0)%nat then -2 else 0) 2
     (fun _ _ => 1) 2 1 (fun _ => Some b) 1 (fun _ => Some b) 1
     (fun _ => Some 0) 2 (fun _ => None) 2.

Lemma ex_sizes b : sizes_ok (ex_pb b) = true.
Proof. reflexivity. Qed.

Ltac exsimp := unfold hess, gsym, cvec, nv, nc, nb, ncb, rdot, rsum, dot, sumn, subn, clo, cup in *; simpl in *.

Lemma ex_posdef b : posdef (nv (ex_pb b)) (hess (ex_pb b)).
Proof.
  intros x (i & Hi & Hx). unfold quad. exsimp.
  assert (H : x 0%nat <> 0 \/ x 1%nat <> 0) by (destruct i as [|[|]]; [left; auto|right; auto|lia]).
  destruct H as [H|H]; apply Rsqr_pos_lt in H; unfold Rsqr in H; nra.
Qed.

Lemma ex_ordered b : ordered (ex_pb b).
Proof.
  intros i l u Hi Hl Hu. exsimp. destruct i as [|i]; simpl in *; [|discriminate].
  injection Hl as <-. injection Hu as <-. lra.
Qed.

Lemma ex_eq0 b i : (i < 3)%nat -> is_equality (ex_pb b) i -> i = 0%nat.
Proof. intros Hi (c & H1 & H2). exsimp. destruct i; auto. discriminate. Qed.
Lemma ex_first b : equalities_first (ex_pb b).
Proof. intros i j Hij Hj Hq. apply ex_eq0 in Hq; auto. lia. Qed.
Lemma ex_indep b : eq_independent (ex_pb b).
Proof.
  intros w Hn H i Hi. change (ncb (ex_pb b)) with 3%nat in *.
  assert (Hne : forall k, (k < 3)%nat -> k <> 0%nat -> w k = 0).
  { intros k Hk Hk0. apply Hn; auto. intros Hq. apply Hk0. apply (ex_eq0 b); auto. }
  pose proof (H 0%nat) as H0. specialize (H0 ltac:(exsimp; lia)).
  pose proof (Hne 1%nat ltac:(lia) ltac:(lia)). pose proof (Hne 2%nat ltac:(lia) ltac:(lia)).
  exsimp. destruct i as [|[|[|]]]; auto; try lia. lra.
Qed.
Lemma sqrt_eps y : / 100 < y -> / 10 ^ 14 < sqrt y.
Proof.
  intros H. apply Rlt_trans with (/ 10).
  - apply Rinv_lt_contravar; lra.
  - rewrite <- (sqrt_square (/ 10)) by lra. apply sqrt_lt_1_alt. lra.
Qed.
Lemma ex_gap b : tolerance_gap (ex_pb b).
Proof.
  intros W i z r Hi [P1 P2 P3].
  pose proof (P2 0%nat) as E0. pose proof (P2 1%nat) as E1.
  specialize (E0 ltac:(exsimp; lia)). specialize (E1 ltac:(exsimp; lia)). clear P2.
  pose proof (P3 0%nat ltac:(exsimp; lia)) as O0. pose proof (P3 1%nat ltac:(exsimp; lia)) as O1. pose proof (P3 2%nat ltac:(exsimp; lia)) as O2. clear P3.
  pose proof (P1 0%nat) as R0. pose proof (P1 1%nat) as R1. pose proof (P1 2%nat) as R2. clear P1.
  exsimp.
  assert (K : (z 0%nat = 0 /\ z 1%nat = 0) \/ / 100 < 0 + z 0%nat * z 0%nat + z 1%nat * z 1%nat).
  { destruct (W 0%nat); [specialize (O0 eq_refl)|specialize (R0 eq_refl)];
    (destruct (W 1%nat); [specialize (O1 eq_refl)|specialize (R1 eq_refl)]);
    (destruct (W 2%nat); [specialize (O2 eq_refl)|specialize (R2 eq_refl)]);
    (destruct i as [|[|[|i]]]; [| | |lia]); simpl in *;
    first [left; lra | right; nra]. }
  destruct K as [[K0 K1]|K].
  - left. intros a Ha. destruct a as [|[|]]; auto. lia.
  - right. apply sqrt_eps. auto.
Qed.

Lemma ex_feasible : feasible (ex_pb 1) (fun i => if (i =? 0)%nat then 1 else 0).
Proof.
  split; intros j Hj; exsimp.
  - lra.
  - destruct j as [|[|]]; simpl; try lia; split; auto; lra.
Qed.
Lemma ex_infeasible : infeasible (ex_pb (-1)).
Proof.
  intros y [H1 H2]. exsimp. specialize (H1 0%nat ltac:(lia)). pose proof (H2 0%nat ltac:(lia)). pose proof (H2 1%nat ltac:(lia)). simpl in *. lra.
Qed.

Lemma ex_run b : exists (o : ropt) st s', exact_tests (fun _ => 0) (ex_pb b) o (sol_new Rops) /\
  gi_solve (fun _ => 0) (ex_pb b) o (sol_new Rops) = Ok (st, s') /\ (st = SUCCESS \/ st = INFEASIBLE).
Proof.
  destruct (total_call (fun _ => 0) (ex_pb b) (sol_new Rops) (h_new Rops) (ex_sizes b) (ex_posdef b) (ex_first b) (ex_indep b) (ex_gap b)) as (B & HB).
  destruct (HB (@Opt Rops (S (max_steps (nc (ex_pb b) + nb (ex_pb b)))) B false false)) as (H1 & st & s' & H2 & H3); simpl; [lra|lia|].
  eexists _, st, s'. split; [exact H1|]. split; auto.
Qed.
Lemma ex_separated b : eq_separated (ex_pb b).
Proof. apply gap_separated; [apply ex_gap|apply ex_indep]. Qed.

Lemma ex_success : exists (o : ropt) s', exact_tests (fun _ => 0) (ex_pb 1) o (sol_new Rops) /\
  gi_solve (fun _ => 0) (ex_pb 1) o (sol_new Rops) = Ok (SUCCESS, s').
Proof.
  destruct (ex_run 1) as (o & st & s' & Hex & E & [-> | ->]); [eauto|]. exfalso.
  apply (final_infeasible _ _ _ _ _ (h_new Rops) E (ex_separated 1) (ex_first 1) Hex _ ex_feasible).
Qed.
Lemma ex_infeas : exists (o : ropt) s', exact_tests (fun _ => 0) (ex_pb (-1)) o (sol_new Rops) /\
  gi_solve (fun _ => 0) (ex_pb (-1)) o (sol_new Rops) = Ok (INFEASIBLE, s').
Proof.
  destruct (ex_run (-1)) as (o & st & s' & Hex & E & [-> | ->]); [|eauto]. exfalso.
  destruct (gsolution Rops s') as (x & Ex & _).
  { eapply hist_wf; [apply real_safe|]. eapply h_solve; [apply h_new| |exact E]. apply leb_refl_R. }
  destruct (final_feasible _ _ _ _ _ _ (h_new Rops) E Ex (ex_ordered _) (ex_separated _)) as [_ HF].
  apply (ex_infeasible _ HF).
Qed.

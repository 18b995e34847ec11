(** C78, for the solver itself: what the calls of a user do to the buffers of a stable dense solver, for every arithmetic. *)
From Coq Require Import List Arith ZArith Lia Bool.
From Verif Require Import Base Num ActiveSet ActiveSetProofs Solver Alloc PropAlloc AllocSolve.
Import ListNotations.

Section P.
Variable S : ops.

(** ** Specification: an object after some public calls that returned (no assert failed); the list has the sizes (variables,
    general constraints, bounds or not) of the problems given to [resize] and [solve], with any options.  [junk] is the content
    of uninitialised memory. *)
Inductive after : list (nat * nat * bool) -> sol S -> Prop :=
| after_new : after [] (sol_new S)
| after_resize l s junk n nc b : after l s -> after (l ++ [(n, nc, b)]) (resize junk s n nc b)
| after_solve l s junk pb o st s' : after l s -> gi_solve junk pb o s = Ok (st, s') -> after (l ++ [(p_Grows pb, p_Ccols pb, 0 <? p_xlsize pb)]) s'
| after_multipliers l s u s' : after l s -> multipliers s = Ok (u, s') -> after l s'
| after_reset l s : after l s -> after l (resetActiveSet s).
Definition max_vars (l : list (nat * nat * bool)) : nat := fold_right (fun p m => Nat.max (fst (fst p)) m) 0 l.
Definition total (p : nat * nat * bool) : nat := let '(n, nc, b) := p in nc + (if b then n else 0).
Definition max_cstrs (l : list (nat * nat * bool)) : nat := fold_right (fun p m => Nat.max (total p) m) 0 l.

(** ** Proofs *)
Fixpoint resizes (l : list event) : list (nat * nat * bool) :=
  match l with [] => [] | Resize n nc b :: l => (n, nc, b) :: resizes l | _ :: l => resizes l end.
Lemma resizes_app l m : resizes (l ++ m) = resizes l ++ resizes m.
Proof. induction l as [|[] l IH]; cbn; rewrite ?IH; reflexivity. Qed.
Lemma resizes_none l : Forall not_resize l -> resizes l = [].
Proof. induction 1 as [|v l H F IH]; [reflexivity|]. destruct v; cbn in *; tauto || auto. Qed.
Lemma seen_vars l : vars_seen l = max_vars (resizes l).
Proof. induction l as [|[] l IH]; cbn; rewrite ?IH; reflexivity. Qed.
Lemma seen_cstrs l : cstrs_seen l = max_cstrs (resizes l).
Proof. induction l as [|[] l IH]; cbn; rewrite ?IH; reflexivity. Qed.

(** ** Theorems *)
(** The memory model covers the solver: every history of public calls is a history of events with the same problem sizes that
    ends with the same active set, sizes and capacities. *)
Theorem C78_refinement : forall grow l s, after l s ->
  exists ev o, o_run grow false o_new ev = Ok o /\ resizes ev = l /\ agree S s o.
Proof.
  intros grow l s H. induction H as [|l s junk n nc b H (ev & o & E & R1 & A)|l s junk pb opt st s' H (ev & o & E & R1 & A) HS|l s u s' H (ev & o & E & R1 & A) HM|l s H (ev & o & E & R1 & A)].
  - exists [], o_new. split; [reflexivity|]. split; [reflexivity|apply agree_new].
  - exists (ev ++ [Resize n nc b]), (o_resize grow false o n nc b). split; [|split].
    + rewrite (o_run_app grow false ev _ _ _ E). reflexivity.
    + rewrite resizes_app, R1. reflexivity.
    + apply agree_resize. exact A.
  - unfold gi_solve in HS. apply guard_ok in HS as (_ & HS). cbv zeta in HS. apply dual_solve_mv in HS.
    pose proof (agree_resize S grow junk s o (p_Grows pb) (p_Ccols pb) (0 <? p_xlsize pb) A) as A1.
    destruct (mv_events S grow _ _ _ HS A1) as (ev2 & o2 & F & E2 & A2).
    exists (ev ++ Resize (p_Grows pb) (p_Ccols pb) (0 <? p_xlsize pb) :: ev2), o2. split; [|split; [|exact A2]].
    + rewrite (o_run_app grow false ev _ _ _ E). cbn [o_run o_step bind]. exact E2.
    + rewrite resizes_app, R1. cbn [resizes]. rewrite (resizes_none ev2 F). reflexivity.
  - apply multipliers_mv in HM. destruct (mv_events S grow _ _ _ HM A) as (ev2 & o2 & F & E2 & A2). exists (ev ++ ev2), o2. split; [|split; [|exact A2]].
    + rewrite (o_run_app grow false ev _ _ _ E). exact E2.
    + rewrite resizes_app, R1, (resizes_none ev2 F), app_nil_r. reflexivity.
  - assert (M : mv S s (resetActiveSet s)) by (repeat split; apply path_reset). destruct (mv_events S grow _ _ _ M A) as (ev2 & o2 & F & E2 & A2). exists (ev ++ ev2), o2. split; [|split; [|exact A2]].
    + rewrite (o_run_app grow false ev _ _ _ E). exact E2.
    + rewrite resizes_app, R1, (resizes_none ev2 F), app_nil_r. reflexivity.
Qed.
(** So the buffers always have exactly the size of the largest problem met, and the active set never exceeds it. *)
Theorem C78_solver : forall l s, after l s ->
  let N := max_vars l in let M := max_cstrs l in
  w_size (s_x s) = N /\ w_size (s_z s) = N /\ w_size (s_d s) = N /\ w_size (s_J s) = N * N /\ w_size (s_R s) = N * N /\
  w_size (s_u s) = M /\ w_size (s_r s) = M /\ s_n s <= N /\ length (a_status (s_A s)) <= M /\ length (a_active (s_A s)) <= M.
Proof.
  intros l s H. destruct (C78_refinement Nat.max l s H) as (ev & o & E & <- & A). assert (HG : grows Nat.max) by (intros c w; lia).
  pose proof (C78_memory Nat.max false ev o HG E) as K. cbv zeta in *. rewrite seen_vars, seen_cstrs in K.
  destruct (held_run Nat.max false ev HG 0 0 o_new o (held_new false) E) as (HH & _). destruct (h_good _ _ _ _ HH) as (HC & _). destruct HC as [C1 _ _ _].
  destruct A as (a1 & a2 & a3 & a4 & a5 & a6 & a7 & a8 & a9), K as (k1 & k2 & k3 & k4 & k5 & k6 & k7 & k8 & k9 & k10 & k11 & k12).
  rewrite a2 in *. unfold nbAll in k11. repeat split; try congruence; try lia.
Qed.
(** A solve of a problem that is not larger than the largest one keeps every buffer, whatever its options, its outcome and the
    history. *)
Theorem C78_keeps_buffers : forall l s junk pb o st s', after l s -> gi_solve junk pb o s = Ok (st, s') ->
  (forall p, p = (p_Grows pb, p_Ccols pb, 0 <? p_xlsize pb) -> fst (fst p) <= max_vars l /\ total p <= max_cstrs l) ->
  w_size (s_x s') = w_size (s_x s) /\ w_size (s_z s') = w_size (s_z s) /\ w_size (s_d s') = w_size (s_d s) /\ w_size (s_J s') = w_size (s_J s) /\
  w_size (s_R s') = w_size (s_R s) /\ w_size (s_u s') = w_size (s_u s) /\ w_size (s_r s') = w_size (s_r s).
Proof.
  intros l s junk pb o st s' H HS HP. destruct (HP _ eq_refl) as [P1 P2]. pose proof (C78_solver _ _ H) as K. pose proof (C78_solver _ _ (after_solve _ _ _ _ _ _ _ H HS)) as K'. cbv zeta in K, K'.
  assert (E1 : forall (f : nat * nat * bool -> nat) (m : list (nat * nat * bool)) q, f q <= fold_right (fun p a => Nat.max (f p) a) 0 m -> fold_right (fun p a => Nat.max (f p) a) 0 (m ++ [q]) = fold_right (fun p a => Nat.max (f p) a) 0 m).
  { intros f m q. enough (X : fold_right (fun p a => Nat.max (f p) a) 0 (m ++ [q]) = Nat.max (f q) (fold_right (fun p a => Nat.max (f p) a) 0 m)) by (intros; lia).
    induction m as [|p m IH]; cbn; [lia|]. rewrite IH. lia. }
  unfold max_vars in *. rewrite (E1 (fun p => fst (fst p))) in K' by exact P1. unfold max_cstrs in *. rewrite (E1 total) in K' by exact P2.
  destruct K as (a1 & a2 & a3 & a4 & a5 & a6 & a7 & _), K' as (b1 & b2 & b3 & b4 & b5 & b6 & b7 & _). repeat split; congruence.
Qed.
End P.
(** the example of the other properties: a solver constructed for larger sizes, then solving it twice *)
From Verif Require Import GIExample.
Local Open Scope nat_scope.
Example C78_solver_example : exists s, after Rops [(5, 8, true); (p_Grows (ex_pb Rdefinitions.R1), p_Ccols (ex_pb Rdefinitions.R1), false)] s /\ w_size (s_x s) = 5 /\ w_size (s_J s) = 25 /\ w_size (s_u s) = 13.
Proof.
  pose proof (after_resize Rops _ _ (fun _ => Rdefinitions.R0) 5 8 true (after_new Rops)) as H.
  exists (resize (fun _ => Rdefinitions.R0) (resize (fun _ => Rdefinitions.R0) (sol_new Rops) 5 8 true) (p_Grows (ex_pb Rdefinitions.R1)) (p_Ccols (ex_pb Rdefinitions.R1)) false).
  pose proof (after_resize Rops _ _ (fun _ => Rdefinitions.R0) (p_Grows (ex_pb Rdefinitions.R1)) (p_Ccols (ex_pb Rdefinitions.R1)) false H) as H2. split; [exact H2|].
  pose proof (C78_solver Rops _ _ H2) as (K1 & _ & _ & K4 & _ & K6 & _). rewrite K1, K4, K6. split; [reflexivity|split; reflexivity].
Qed.
Example C78_solver_solve : exists s o s', after Rops [(p_Grows (ex_pb Rdefinitions.R1), p_Ccols (ex_pb Rdefinitions.R1), 0 <? p_xlsize (ex_pb Rdefinitions.R1))] s' /\ gi_solve (fun _ => Rdefinitions.R0) (ex_pb Rdefinitions.R1) o s = Ok (SUCCESS, s').
Proof.
  destruct ex_success as (o & s' & _ & E). exists (sol_new Rops), o, s'. split; [|exact E]. exact (after_solve Rops _ _ _ _ _ _ _ (after_new Rops) E).
Qed.

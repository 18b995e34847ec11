(** Why the hypotheses of the solver theorems are needed: concrete runs of the
    model on IEEE doubles (all the numbers below are exact in binary), and what
    multipliers() returns after resetActiveSet() (C41). *)
From Coq Require Import PrimFloat.
From Coq Require Import List Arith ZArith Lia Bool.
From Verif Require Import Base ActiveSet ActiveSetProofs Num Solver GIBase GIInv GISafe GICall GIHist RunFloat FloatLaws PropSolver.
From Verif Require LinAlg.
Import ListNotations.

Definition solve0 (pb : problem Fops) := gi_solve (S:=Fops) (fun _ => nan) pb defopt (sol_new Fops).
Definition I2 : list (list float) := [[1;0];[0;1]]%float.

(** Value of constraint [j] at [x], computed in doubles *)
Definition cval (pb : problem Fops) (j : nat) (x : list float) : float :=
  @dot Fops [14; j] (p_Grows pb) (fun i => p_C pb i j) (vf x).
Definition within (lo up : option float) (v : float) : bool :=
  (match lo with Some l => PrimFloat.leb l v | None => true end) && (match up with Some u => PrimFloat.leb v u | None => true end).
Definition satisfied (pb : problem Fops) (x : list float) : bool :=
  forallb (fun j => within (p_bl pb j) (p_bu pb j) (cval pb j x)) (seq 0 (p_Ccols pb)) &&
  forallb (fun i => within (p_xl pb i) (p_xu pb i) (vf x i)) (seq 0 (p_xlsize pb)).

Lemma sol_ex (pb : problem Fops) st (x : list float) : obs (fun s : sol Fops => match solution s with Ok l => closeL l x | UB => false end) (solve0 pb) = Some (st, true) ->
  exists s' l, solve0 pb = Ok (st, s') /\ solution s' = Ok l /\ closeL l x = true.
Proof.
  intros E. destruct (obs_ex _ _ _ _ E) as (s' & E1 & E2). exists s'. destruct (solution s') as [l|]; [|discriminate]. eauto.
Qed.

(** C09 without independence of the equalities: x0 = 0 and x0 = 1, answer
    SUCCESS at (0,0), although no point is feasible. *)
Definition dependent_pb := mkpb 2 2 I2 [0;0]%float [[1;0];[1;0]]%float [0;1]%float [0;1]%float [] [].
Theorem C09_independence_needed : exists s' l, solve0 dependent_pb = Ok (SUCCESS, s') /\ solution s' = Ok l /\ closeL l [0;0]%float = true /\
  satisfied dependent_pb [0;0]%float = false.
Proof.
  destruct (sol_ex dependent_pb SUCCESS [0;0]%float) as (s' & l & H1 & H2 & H3); [vm_compute; reflexivity|].
  exists s', l. split; [exact H1|]. split; [exact H2|]. split; [exact H3|vm_compute; reflexivity].
Qed.
(** C09 with crossed bounds 2 <= x0 <= 1: SUCCESS at (2,0). *)
Definition crossed_pb := mkpb 2 1 I2 [0;0]%float [[1;0]]%float [2]%float [1]%float [] [].
Theorem C09_order_needed : exists s' l, solve0 crossed_pb = Ok (SUCCESS, s') /\ solution s' = Ok l /\ closeL l [2;0]%float = true /\
  satisfied crossed_pb [2;0]%float = false.
Proof.
  destruct (sol_ex crossed_pb SUCCESS [2;0]%float) as (s' & l & H1 & H2 & H3); [vm_compute; reflexivity|].
  exists s', l. split; [exact H1|]. split; [exact H2|]. split; [exact H3|vm_compute; reflexivity].
Qed.
(** C13 when the equality is not numbered first: 10 x0 >= 10, x1 = 0, x0 >= 2 is
    declared INFEASIBLE although (2,0) is feasible; with the equality first the
    answer is SUCCESS at (2,0). *)
Definition late_eq_pb := mkpb 2 3 I2 [0;0]%float [[10;0];[0;1];[1;0]]%float [10;0;2]%float [1000;0;1000]%float [] [].
Definition first_eq_pb := mkpb 2 3 I2 [0;0]%float [[0;1];[10;0];[1;0]]%float [0;10;2]%float [0;1000;1000]%float [] [].
Theorem C13_ordering_needed : (exists s', solve0 late_eq_pb = Ok (INFEASIBLE, s')) /\ satisfied late_eq_pb [2;0]%float = true.
Proof.
  split; [|vm_compute; reflexivity].
  destruct (obs_ex (fun _ => tt) (solve0 late_eq_pb) INFEASIBLE tt) as (s' & E & _); [vm_compute; reflexivity|]. eauto.
Qed.

(** C10 and C14 when the equality is not numbered first: minimise
    1/2 |x|^2 + 3 x0 with 2x0 - x1 - x2 in [-3,-1], -x1 - x2 = 2 and x0 - x1 in
    [-1,0].  The answer is SUCCESS at (-2.5,-1.5,-0.5), feasible, with objective
    -3.125 and constraint 0 kept at its lower bound with a positive multiplier;
    (-2.375,-1.375,-0.625) is feasible too and its objective is smaller.  With
    the equality numbered first the answer is the minimum (-7/3,-4/3,-2/3).  All
    the numbers compared here are exact in doubles. *)
Definition I3 : list (list float) := [[1;0;0];[0;1;0];[0;0;1]]%float.
Definition objI (a x : list float) : float :=   (* 1/2 |x|^2 + a.x *)
  fold_left (fun s p => (s + (0.5 * (snd p * snd p) + fst p * snd p))%float) (combine a x) 0%float.
Definition late3_pb := mkpb 3 3 I3 [3;0;0]%float [[2;(-1);(-1)];[0;(-1);(-1)];[1;(-1);0]]%float [(-3);2;(-1)]%float [(-1);2;0]%float [] [].
Definition first3_pb := mkpb 3 3 I3 [3;0;0]%float [[0;(-1);(-1)];[2;(-1);(-1)];[1;(-1);0]]%float [2;(-3);(-1)]%float [2;(-1);0]%float [] [].
Definition worse (x y : list float) : bool := PrimFloat.ltb (objI [3;0;0]%float y) (objI [3;0;0]%float x).
Theorem C10_ordering_needed : 
  (exists s' l, solve0 late3_pb = Ok (SUCCESS, s') /\ solution s' = Ok l /\ closeL l [-2.5;-1.5;-0.5]%float = true /\
     satisfied late3_pb [-2.5;-1.5;-0.5]%float = true) /\
  satisfied late3_pb [-2.375;-1.375;-0.625]%float = true /\
  worse [-2.5;-1.5;-0.5]%float [-2.375;-1.375;-0.625]%float = true /\
  (exists s' l, solve0 first3_pb = Ok (SUCCESS, s') /\ solution s' = Ok l /\ closeL l [-7/3;-4/3;-2/3]%float = true).
Proof.
  destruct (sol_ex late3_pb SUCCESS [-2.5;-1.5;-0.5]%float) as (s1 & l1 & A1 & A2 & A3); [vm_compute; reflexivity|].
  destruct (sol_ex first3_pb SUCCESS [-7/3;-4/3;-2/3]%float) as (s2 & l2 & B1 & B2 & B3); [vm_compute; reflexivity|].
  split; [|split; [|split]].
  - exists s1, l1. split; [exact A1|]. split; [exact A2|]. split; [exact A3|vm_compute; reflexivity].
  - vm_compute. reflexivity.
  - vm_compute. reflexivity.
  - exists s2, l2. split; [exact B1|]. split; [exact B2|exact B3].
Qed.
Definition sign_bad (s : sol Fops) : bool :=
  match multipliers s, activeSet s with
  | Ok (u0 :: _, _), LOWER :: _ => PrimFloat.ltb 0.2 u0
  | _, _ => false
  end.
Lemma sign_bad_spec (s : sol Fops) : sign_bad s = true ->
  exists u0 us s'' st, multipliers s = Ok (u0 :: us, s'') /\ activeSet s = LOWER :: st /\ PrimFloat.ltb 0.2 u0 = true.
Proof.
  unfold sign_bad. destruct (multipliers s) as [[[|u0 us] s'']|]; try discriminate.
  destruct (activeSet s) as [|[] st]; try discriminate. intros K. exists u0, us, s'', st. auto.
Qed.
Theorem C14_ordering_needed : exists s' u0 us s'' st,
  solve0 late3_pb = Ok (SUCCESS, s') /\ multipliers s' = Ok (u0 :: us, s'') /\ activeSet s' = LOWER :: st /\ PrimFloat.ltb 0.2 u0 = true.
Proof.
  assert (K : exists s', solve0 late3_pb = Ok (SUCCESS, s') /\ sign_bad s' = true).
  { apply (obs_ex sign_bad _ SUCCESS true). vm_compute. reflexivity. }
  destruct K as (s' & E & K). destruct (sign_bad_spec s' K) as (u0 & us & s'' & st & K1 & K2 & K3).
  exists s', u0, us, s'', st. split; [exact E|]. split; [exact K1|]. split; [exact K2|exact K3].
Qed.
Example C13_same_problem_reordered : exists s' l, solve0 first_eq_pb = Ok (SUCCESS, s') /\ solution s' = Ok l /\ closeL l [2;0]%float = true.
Proof. apply sol_ex. vm_compute. reflexivity. Qed.

(** ** C41: multipliers() after resetActiveSet() *)
Lemma C41_zero (S : ops) junk pb o s st s' : safe_ops S -> history S s -> leb S (o_bigBnd o) (o_bigBnd o) = true ->
  gi_solve junk pb o s = Ok (st, s') ->
  exists u, multipliers (resetActiveSet s') = Ok (repeat (zero S) (p_Ccols pb + p_xlsize pb), u).
Proof.
  intros HO HH HB E. destruct (result_of S junk pb o s st s' HO HH HB E) as [[D1 D2 _] _].
  pose proof (hist_wf S _ HO (h_reset S _ (h_solve S junk pb o s st s' HH HB E))) as W.
  destruct (gmult S (resetActiveSet s') W) as (l & u & Em). exists u. rewrite Em. f_equal. f_equal.
  assert (Hn : nbAll (s_A s') = (p_Ccols pb + p_xlsize pb)%nat) by (unfold nbAll; rewrite (g_nc _ _ _ D1), (g_nb _ _ _ D1); auto).
  unfold multipliers in Em. cbn [resetActiveSet set_A s_exp s_A] in Em. rewrite D2 in Em.
  assert (Ha : nact (as_reset (s_A s')) = 0%nat).
  { rewrite nact_length by (apply good_reset; apply D1). reflexivity. }
  cbn [s_A set_exp] in Em. cbn [resetActiveSet set_A set_exp s_A s_r s_u] in Em. rewrite Ha in Em. cbn [expand] in Em.
  apply bind_ok in Em as (s1 & E1 & Em). apply bind_ok in E1 as (r0 & _ & E1). apply bind_ok in E1 as (u0 & _ & E1).
  apply bind_ok in E1 as (u1 & _ & E1). cbn [bind] in E1. injection E1 as <-.
  apply bind_ok in Em as (u2 & E2 & Em). unfold getV in E2. apply guard_ok in E2 as [_ E2]. injection E2 as <-. injection Em as <- _.
  cbn [s_u set_u set_r wset w_buf].
  assert (Hr : nbAll (as_reset (s_A s')) = nbAll (s_A s')) by reflexivity. rewrite Hr, Hn.
  rewrite (map_ext _ (fun _ => zero S)) by (intros i; exact (LinAlg.vm_at _ _ i)). clear.
  generalize 0%nat. induction (p_Ccols pb + p_xlsize pb)%nat as [|k IH]; intros a; auto. simpl. f_equal. apply IH.
Qed.
(** If multipliers() was not called since solve(), it returns zeros after
    resetActiveSet(); if it was, it returns the multipliers of that solve(). *)
Theorem C41_multipliers_after_reset : forall (S : ops) junk pb o s st s' lam s'', safe_ops S -> history S s -> leb S (o_bigBnd o) (o_bigBnd o) = true ->
  gi_solve junk pb o s = Ok (st, s') -> multipliers s' = Ok (lam, s'') ->
  (exists u, multipliers (resetActiveSet s') = Ok (repeat (zero S) (p_Ccols pb + p_xlsize pb), u)) /\
  (exists u, multipliers (resetActiveSet s'') = Ok (lam, u)).
Proof.
  intros S junk pb o s st s' lam s'' HO HH HB E Em. split; [eapply C41_zero; eauto|].
  pose proof (mult_frame S s' lam s'' Em) as (FA & _ & _ & _ & _ & _ & _ & _ & _ & _ & _ & Fe & _ & Fl).
  unfold multipliers in *. cbn [resetActiveSet set_A s_exp s_A s_u]. rewrite Fe. cbn [bind].
  assert (Hr : nbAll (as_reset (s_A s'')) = nbAll (s_A s')) by (rewrite FA; reflexivity). cbn [s_A s_u set_A]. rewrite Hr.
  apply bind_ok in Em as (s1 & E1 & Em). apply bind_ok in Em as (u2 & E2 & Em). injection Em as <- <-. unfold resetActiveSet, set_A. cbn [s_A s_u]. rewrite E2. eexists. reflexivity.
Qed.
(** Hence the answer depends on an earlier call of an accessor. *)
Definition head_nz (s : sol Fops) : bool :=
  match multipliers s with Ok (x :: _, _) => negb (PrimFloat.eqb x 0) | _ => false end.
Lemma C41_ex : exists s', gi_solve (S:=Fops) (fun _ => nan) paper defopt (sol_new Fops) = Ok (SUCCESS, s') /\ head_nz s' = true.
Proof. apply (obs_ex head_nz _ SUCCESS true). vm_compute. reflexivity. Qed.
Lemma head_nz_spec s' lam s'' : head_nz s' = true -> multipliers s' = Ok (lam, s'') -> exists x l, lam = x :: l /\ PrimFloat.eqb x 0 = false.
Proof.
  unfold head_nz. intros K Em. rewrite Em in K. destruct lam as [|x l]; [discriminate|]. exists x, l. split; auto.
  destruct (PrimFloat.eqb x 0); [discriminate|reflexivity].
Qed.
Theorem C41_history_dependent : exists s' lam s'', gi_solve (S:=Fops) (fun _ => nan) paper defopt (sol_new Fops) = Ok (SUCCESS, s') /\ multipliers s' = Ok (lam, s'') /\
  exists l1 u1 l2 u2, multipliers (resetActiveSet s') = Ok (l1, u1) /\ multipliers (resetActiveSet s'') = Ok (l2, u2) /\ l1 <> l2.
Proof.
  destruct C41_ex as (s' & E & K).
  destruct (multipliers s') as [[lam s'']|] eqn:Em; [|unfold head_nz in K; rewrite Em in K; discriminate].
  exists s', lam, s''. split; [exact E|]. split; [exact Em|].
  destruct (C41_multipliers_after_reset Fops (fun _ => nan) paper defopt (sol_new Fops) SUCCESS s' lam s'' float_safe (h_new Fops) big_refl E Em) as ((u1 & E1) & (u2 & E2)).
  exists (repeat (zero Fops) (p_Ccols paper + p_xlsize paper)), u1, lam, u2. split; [exact E1|]. split; [exact E2|].
  destruct (head_nz_spec s' lam s'' K Em) as (x & l & -> & Hx). intros He.
  assert (Hz : x = zero Fops).
  { assert (Hc : (p_Ccols paper + p_xlsize paper)%nat = Datatypes.S (pred (p_Ccols paper + p_xlsize paper))) by reflexivity.
    rewrite Hc in He. cbn [repeat] in He. injection He. auto. }
  rewrite Hz in Hx. vm_compute in Hx. discriminate.
Qed.

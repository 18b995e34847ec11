(** C72: the two dense solvers of the library (the stable one and the experimental, warm-startable one), started cold on the same
    problem, go through the same steps: same status, same solution, multipliers, objective value, active set and number of
    iterations, for every iteration limit (hence the same iterates at every iteration), over the exact reals. *)
From Coq Require Import PrimFloat List Arith ZArith Lia Bool Reals Lra.
From Verif Require Import Base ActiveSet ActiveSetProofs Num Solver QPSpec LinAlg QRUpdate GIMath GIBase GIInv GIDual GIRun GISame GIInit GIOpt GIMult GICall GISafe GIHist GIFinal GITerm GITotal GIExample
  Warm WarmAS WarmQR WarmSafe WarmHist WarmInit WarmOpt WarmHot WarmTotal WarmExample Twins TwinStart.
Import ListNotations.
From Verif Require Import RunFloat.
Local Open Scope R_scope.

(** all that can be read from the two objects after the calls *)
Definition same_outputs (s : rsol) (x : rxsol) : Prop :=
  (exists v, solution s = Ok v /\ solution (x_s x) = Ok v) /\
  (exists lam t t', multipliers s = Ok (lam, t) /\ multipliers (x_s x) = Ok (lam, t')) /\
  objectiveValue s = objectiveValue (x_s x) /\ activeSet s = activeSet (x_s x) /\ iterations s = iterations (x_s x).

Lemma obs_outputs pb s x : obs 0 s (x_s x) -> shape pb s -> shape pb (x_s x) -> s_exp s = true -> same_outputs s x.
Proof.
  intros [H1 H2 H3 H4 H5 H6 H7 H8] HS HS' Hx. rewrite Nat.add_0_r in H8. split; [|split; [|split; [|split]]].
  - unfold solution. rewrite !getV_ok by (rewrite ?(sh_n _ _ HS), ?(sh_n _ _ HS'); first [apply HS|apply HS']). cbn [bind]. eexists. split; [reflexivity|].
    f_equal. rewrite <- H1. symmetry. apply map_seq_agr. exact H7.
  - destruct (multipliers_fresh pb s HS Hx) as (v & t & E & [M1 M2] & _).
    destruct (multipliers_fresh pb (x_s x) HS') as (v' & t' & E' & [M1' M2'] & _); [congruence|].
    exists (map v (seq 0 (ncb pb))), t, t'. split; auto. rewrite E'. f_equal. f_equal. apply map_ext_in. intros i Hi.
    destruct (status_eq_dec (stt (s_A s) i) INACTIVE) as [Ei|Ei]; [rewrite M2, M2' by (rewrite <- ?H2; auto); reflexivity|].
    assert (HI : In i (a_active (s_A s))) by (apply (coh_iff _ (proj1 H3)); exists (stt (s_A s) i); split; auto; apply in_seq in Hi; apply nth_error_nth'; rewrite (coh_len _ (proj1 H3)), (sh_nc _ _ HS), (sh_nb _ _ HS); unfold ncb in Hi; lia).
    apply (In_nth _ _ 0%nat) in HI as (k & Hk & <-). rewrite <- nact_length in Hk by auto.
    pose proof (M1 k Hk) as A1. unfold act in A1. rewrite A1. rewrite H2 in Hk |- *. pose proof (M1' k Hk) as A2. unfold act in A2. rewrite A2. f_equal.
    symmetry. apply H8. rewrite H2. auto.
  - exact H5.
  - unfold activeSet. rewrite H2. reflexivity.
  - exact H4.
Qed.

Theorem C72_same_steps : forall junk junk' pb o s x, history Rops s -> xhistory Rops x -> sizes_ok pb = true -> o_warm o = false ->
  posdef (nv pb) (hess pb) -> eq_separated pb -> one_kind pb -> exact_qr pb o [] ->
  exists st s' x', gi_solve junk pb o s = Ok (st, s') /\ xgi_solve junk' pb o [] x = Ok (st, x') /\ same_outputs s' x'.
Proof.
  intros junk junk' pb o s x HH HX Hsz Hw HD HSep HK HQ.
  destruct (twin_calls junk junk' pb o s x (hist_wf_sol s HH) (xhist_wf Rops x real_safe HX) Hsz Hw HD HSep HK HQ) as (st & s' & x' & E1 & E2 & Ho & S1 & S2 & He).
  exists st, s', x'. split; auto. split; auto. eapply obs_outputs; eauto.
Qed.

(** without equality constraints no further hypothesis is needed *)
Theorem C72_no_equalities : forall junk junk' pb o s x, history Rops s -> xhistory Rops x -> sizes_ok pb = true -> o_warm o = false ->
  (forall i, (i < ncb pb)%nat -> ~ is_equality pb i) ->
  exists st s' x', gi_solve junk pb o s = Ok (st, s') /\ xgi_solve junk' pb o [] x = Ok (st, x') /\
    (posdef (nv pb) (hess pb) -> same_outputs s' x') /\ (st = NON_POS_HESSIAN <-> ~ posdef (nv pb) (hess pb)).
Proof.
  intros junk junk' pb o s x HH HX Hsz Hw HN.
  assert (HK : one_kind pb) by (left; intros i Hi; apply HN; unfold ncb; lia).
  assert (HI : rinitial pb o [] = []).
  { rewrite cold_initial by auto. apply filter_nil. intros i Hi. apply in_seq in Hi. destruct (eqb_c_spec pb i) as [He|]; auto. exfalso. apply (HN i); auto; lia. }
  assert (HP : posdef (nv pb) (hess pb) \/ ~ posdef (nv pb) (hess pb)).
  { destruct (fst (@llt Rops (nv pb) (p_G pb))) eqn:El; [right|left]; [intros H; apply (llt_iff (nv pb) (p_G pb)) in H; congruence|apply (llt_iff (nv pb) (p_G pb)); exact El]. }
  destruct HP as [HP|HP].
  - destruct (C72_same_steps junk junk' pb o s x HH HX Hsz Hw HP) as (st & s' & x' & E1 & E2 & HO); auto.
    { intros i z r Hi He. exfalso. apply (HN i); auto. }
    { intros l Hl. apply start_list_initial in Hl; [|rewrite HI; simpl; lia]. rewrite HI in Hl. subst l. exact I. }
    exists st, s', x'. split; auto. split; auto. split; auto. split; [|contradiction]. intros ->. exfalso.
    destruct (solve_spec junk pb o s (hist_wf_sol s HH) Hsz) as [(HNP & _)|(_ & HS)]; [contradiction|].
    destruct HS as (s0 & _ & E & HE & _). { intros i z r Hi He. exfalso. apply (HN i); auto. }
    assert (HL : linv pb (start s0)). { split; simpl; [apply HE|discriminate]. }
    destruct (loop_total pb o (o_maxIter o) _ HL) as (st & s2 & El & Hst & _). rewrite E, El in E1. injection E1 as -> _. destruct Hst as [|[|]]; discriminate.
  - destruct (solve_spec junk pb o s (hist_wf_sol s HH) Hsz) as [(_ & s' & E1 & _)|(H & _)]; [|contradiction].
    assert (Hargs : args_ok Rops pb o [] = true) by (unfold args_ok; rewrite Hsz, orb_true_r, orb_true_r; reflexivity).
    pose proof (xsolve Rops junk' pb o [] x real_safe (leb_refl_R _) (xhist_wf Rops x real_safe HX) Hargs) as HC. cbv zeta in HC.
    assert (Ews : ws_eff Rops junk' pb o [] x = []) by (unfold ws_eff; rewrite Hw; auto). rewrite Ews in HC.
    specialize (HC (or_introl (eq_lo_honest pb [] ltac:(intros i Hi; destruct i; discriminate)))).
    replace (forallb (kind1 Rops pb o []) (order Rops pb)) with true in HC.
    2:{ symmetry. apply forallb_forall. intros i _. unfold kind1, warm_on. rewrite Hw. rewrite andb_false_l. cbn [negb]. rewrite orb_true_r. reflexivity. }
    cbn [negb] in HC. assert (Hneq : n_eq Rops pb o [] = 0%nat).
    { unfold n_eq. rewrite filter_nil; auto. intros i Hi. apply order_lt in Hi. change (wanted Rops pb o [] i) with (rwanted pb o [] i). rewrite cold_wanted by auto.
      destruct (eqb_c_spec pb i) as [He|]; auto. exfalso. apply (HN i); auto. }
    rewrite Hneq in HC. cbn [Nat.ltb Nat.leb] in HC. destruct (fst (@llt Rops (gn Rops pb) (p_G pb))) eqn:El.
    + destruct HC as (x' & E2 & _). exists NON_POS_HESSIAN, s', x'. split; auto. split; auto. split; [contradiction|tauto].
    + exfalso. apply HP. apply (llt_iff (nv pb) (p_G pb)). exact El.
Qed.

(** The hypotheses are met: two variables, one general equality, two bounds *)
Example C72_nonvacuous : forall b n B, posdef (nv (ex_pb b)) (hess (ex_pb b)) /\ eq_separated (ex_pb b) /\ one_kind (ex_pb b) /\
  exact_qr (ex_pb b) (@Opt Rops n B false false) [] /\ is_equality (ex_pb b) 0 /\ sizes_ok (ex_pb b) = true.
Proof.
  intros b n B. split; [apply ex_posdef|]. split; [apply ex_separated|].
  assert (HK : one_kind (ex_pb b)). { right. intros i Hi He. change (nc (ex_pb b)) with 1%nat in Hi. apply (ex_eq0 b) in He; [lia|]. apply Hi. }
  split; auto. split; [|split; [exists b; split; reflexivity|reflexivity]].
  assert (HI : rinitial (ex_pb b) (@Opt Rops n B false false) [] = [0]%nat).
  { rewrite cold_initial by auto. change (ncb (ex_pb b)) with 3%nat. cbn [seq filter].
    destruct (eqb_c_spec (ex_pb b) 0) as [_|H]; [|exfalso; apply H; exists b; split; reflexivity].
    destruct (eqb_c_spec (ex_pb b) 1) as [H|_]; [apply (ex_eq0 b) in H; lia|].
    destruct (eqb_c_spec (ex_pb b) 2) as [H|_]; [apply (ex_eq0 b) in H; lia|]. reflexivity. }
  intros l Hl. apply start_list_initial in Hl; [|rewrite HI; unfold nv; simpl; lia]. rewrite HI in Hl. subst l. change (nv (ex_pb b)) with 2%nat. cbn [length qr_calm].
  split; [|exact Logic.I]. right. unfold hh_tail. change (2 - 1 - 0)%nat with 1%nat. rops. rewrite !sum_S, !sum_0. change (0 + 1 + 0)%nat with 1%nat.
  change (p_G (ex_pb b)) with (p_G wex_pb). rewrite wex_fwd by lia. unfold wnormal. cbn [nth]. rewrite cold_wanted by auto.
  destruct (eqb_c_spec (ex_pb b) 0) as [_|H]; [|exfalso; apply H; exists b; split; reflexivity].
  unfold nsign, cvec, eqstat. simpl. pose proof dblmin_lt1. lra.
Qed.

(** [one_kind] cannot be dropped: with a general equality (x1 + x2 = -3) and a fixed variable (x0 = -3) the two solvers start with
    their equalities in different orders, and part: on this problem (1/2|x|^2 + (2,-4,6).x, -2 <= x2 - x1 <= 1, -3 <= x1 <= -2,
    -1 <= x2 <= 3), feasible at (-3,-2,-1), in doubles, one answers INFEASIBLE and the other finds that point. *)
Definition twopb : problem Fops := mkpb 3 2 [[1;0;0];[0;1;0];[0;0;1]]%float [2;-4;6]%float [[0;1;1];[0;-1;1]]%float [-3;-2]%float [-3;1]%float [-3;-3;-1]%float [-3;-2;3]%float.
Theorem C72_both_kinds_differ : exists s' x', gi_solve (S:=Fops) (fun _ => nan) twopb defopt (sol_new Fops) = Ok (INFEASIBLE, s') /\
  (xgi_solve (S:=Fops) (fun _ => nan) twopb defopt [] (xsol_new Fops) = Ok (SUCCESS, x')) /\ solution (x_s x') = Ok [(-3)%float; (-2)%float; (-1)%float].
Proof.
  destruct (gi_solve (S:=Fops) (fun _ => nan) twopb defopt (sol_new Fops)) as [[st s']|] eqn:E1.
  2:{ exfalso. assert (H : (match gi_solve (S:=Fops) (fun _ => nan) twopb defopt (sol_new Fops) with UB => false | Ok _ => true end) = true) by (vm_compute; reflexivity). rewrite E1 in H. discriminate H. }
  destruct (xgi_solve (S:=Fops) (fun _ => nan) twopb defopt [] (xsol_new Fops)) as [[st' x']|] eqn:E2.
  2:{ exfalso. assert (H : (match xgi_solve (S:=Fops) (fun _ => nan) twopb defopt [] (xsol_new Fops) with UB => false | _ => true end) = true) by (vm_compute; reflexivity). rewrite E2 in H. discriminate H. }
  exists s', x'.
  assert (H1 : (match gi_solve (S:=Fops) (fun _ => nan) twopb defopt (sol_new Fops) with Ok (st, _) => Some st | UB => None end) = Some INFEASIBLE) by (vm_compute; reflexivity).
  assert (H2 : (match xgi_solve (S:=Fops) (fun _ => nan) twopb defopt [] (xsol_new Fops) with Ok (st, x) => Some (st, solution (x_s x)) | UB => None end) = Some (SUCCESS, Ok [(-3)%float; (-2)%float; (-1)%float])) by (vm_compute; reflexivity).
  rewrite E1 in H1. rewrite E2 in H2. injection H1 as ->. injection H2 as -> H2. split; auto.
Qed.

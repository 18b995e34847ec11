(** Theorems about the dense solver in exact real arithmetic.  The notions of
    feasibility, KKT point, minimiser are those of QPSpec.v; [vec_of] turns the
    list returned by an accessor into a vector.

    Hypotheses used (all are properties of the problem data except [exact_tests]):
    - [ordered pb]: lower bounds are not above upper bounds;
    - [equalities_first pb]: equality constraints are numbered before the others;
    - [eq_separated pb]: the normals of the equality constraints are independent
      beyond the tolerance 1e-14 used by the code;
    - [tolerance_gap pb]: no projected constraint normal is non-zero and shorter
      than 1e-14;
    - [exact_tests junk pb o s]: during this call the tests [||z|| > 1e-14] and
      [t >= bigBnd] answer as their exact counterparts ([z <> 0], "unbounded");
      for every problem with [tolerance_gap] this holds when [bigBnd] is large
      enough, which [C44_total_correctness] makes explicit. *)
From Coq Require Import List Arith ZArith Lia Bool Reals Lra.
From Verif Require Import Base ActiveSet ActiveSetProofs Num Solver LinAlg QRUpdate QPSpec GIMath GIBase GIInv GIDual GIRun GIOpt GIMult GIInit GISafe GICall GIHist GIFinal GITerm GITotal GISame GIMore GIExample.
Import ListNotations.
Local Open Scope R_scope.

(** ** C09 *)
Theorem C09_success_feasible : forall junk pb o s s' x, history Rops s -> gi_solve junk pb o s = Ok (SUCCESS, s') -> solution s' = Ok x ->
  ordered pb -> eq_separated pb -> length x = nv pb /\ feasible pb (vec_of x).
Proof. exact final_feasible. Qed.
Example C09_nonvacuous : exists o s', gi_solve (S:=Rops) (fun _ => 0) (ex_pb 1) o (sol_new Rops) = Ok (SUCCESS, s') /\ ordered (ex_pb 1) /\ eq_separated (ex_pb 1).
Proof. destruct ex_success as (o & s' & _ & E). exists o, s'. split; auto. split; [apply ex_ordered|apply ex_separated]. Qed.

(** ** C10 *)
Theorem C10_success_optimal : forall junk pb o s s' x lam s'', history Rops s -> gi_solve junk pb o s = Ok (SUCCESS, s') ->
  solution s' = Ok x -> multipliers s' = Ok (lam, s'') ->
  ordered pb -> eq_separated pb -> equalities_first pb -> exact_tests junk pb o s ->
  length x = nv pb /\ length lam = (nc pb + nb pb)%nat /\ kkt pb (vec_of x) (vec_of lam) /\ unique_minimiser pb (vec_of x).
Proof. exact final_kkt. Qed.
Example C10_nonvacuous : exists o s', gi_solve (S:=Rops) (fun _ => 0) (ex_pb 1) o (sol_new Rops) = Ok (SUCCESS, s') /\
  ordered (ex_pb 1) /\ eq_separated (ex_pb 1) /\ equalities_first (ex_pb 1) /\ exact_tests (fun _ => 0) (ex_pb 1) o (sol_new Rops) /\
  is_equality (ex_pb 1) 0.
Proof.
  destruct ex_success as (o & s' & H & E). exists o, s'. split; auto. split; [apply ex_ordered|]. split; [apply ex_separated|].
  split; [apply ex_first|]. split; auto. exists 1. auto.
Qed.

(** ** C11 *)
Theorem C11_objective_value : forall junk pb o s st s' x, history Rops s -> gi_solve junk pb o s = Ok (st, s') -> solution s' = Ok x ->
  st = SUCCESS \/ st = MAX_ITER_REACHED -> eq_separated pb -> exact_tests junk pb o s ->
  objectiveValue s' = objective pb (vec_of x).
Proof. exact final_objective. Qed.

(** ** C13 *)
Theorem C13_infeasible_correct : forall junk pb o s s', history Rops s -> gi_solve junk pb o s = Ok (INFEASIBLE, s') ->
  eq_separated pb -> equalities_first pb -> exact_tests junk pb o s -> infeasible pb.
Proof. exact final_infeasible. Qed.
Example C13_nonvacuous : exists o s', gi_solve (S:=Rops) (fun _ => 0) (ex_pb (-1)) o (sol_new Rops) = Ok (INFEASIBLE, s') /\
  eq_separated (ex_pb (-1)) /\ equalities_first (ex_pb (-1)) /\ exact_tests (fun _ => 0) (ex_pb (-1)) o (sol_new Rops).
Proof.
  destruct ex_infeas as (o & s' & H & E). exists o, s'. split; auto. split; [apply ex_separated|]. split; [apply ex_first|auto].
Qed.

(** ** C14 *)
Theorem C14_multipliers_shape : forall junk pb o s st s' lam s'', history Rops s -> gi_solve junk pb o s = Ok (st, s') ->
  multipliers s' = Ok (lam, s'') ->
  length lam = (nc pb + nb pb)%nat /\
  (forall i, nth i (activeSet s') INACTIVE = INACTIVE -> vec_of lam i = 0) /\
  multipliers s'' = Ok (lam, s'') /\
  solution s'' = solution s' /\ activeSet s'' = activeSet s' /\ objectiveValue s'' = objectiveValue s' /\ iterations s'' = iterations s'.
Proof. exact final_multipliers. Qed.
Theorem C14_multipliers_sign : forall junk pb o s st s' lam s'' i, history Rops s -> gi_solve junk pb o s = Ok (st, s') ->
  st = SUCCESS \/ st = MAX_ITER_REACHED ->
  multipliers s' = Ok (lam, s'') -> eq_separated pb -> equalities_first pb -> exact_tests junk pb o s ->
  match nth i (activeSet s') INACTIVE with
  | UPPER | UPPER_BOUND => 0 <= vec_of lam i
  | LOWER | LOWER_BOUND => vec_of lam i <= 0
  | INACTIVE => vec_of lam i = 0
  | EQUALITY | FIXED => is_equality pb i
  end.
Proof. exact final_sign. Qed.

(** ** C15 *)
Theorem C15_nonpos_iff : forall junk pb o s st s', history Rops s -> gi_solve junk pb o s = Ok (st, s') ->
  (st = NON_POS_HESSIAN <-> ~ posdef (nv pb) (hess pb)).
Proof. exact final_nonpos. Qed.
Example C15_nonvacuous : exists s', gi_solve (S:=Rops) (fun _ => 0)
    (Pb (S:=Rops) (fun _ _ => -1) 2 2 (fun _ => 0) 2 (fun _ _ => 1) 2 0 (fun _ => None) 0 (fun _ => None) 0 (fun _ => None) 0 (fun _ => None) 0)
    (Opt (S:=Rops) 10 1 false false) (sol_new Rops) = Ok (NON_POS_HESSIAN, s').
Proof.
  destruct (gi_solve (S:=Rops) (fun _ => 0) _ _ _) as [[st s']|] eqn:E.
  - exists s'. f_equal. f_equal. eapply (C15_nonpos_iff _ _ _ _ _ _ (h_new Rops) E). intros H.
    specialize (H (fun i => if (i =? 0)%nat then 1 else 0)). unfold quad, hess, gsym in H. simpl in H.
    assert (0 < 0 + 1 * (0 + -1 * 1 + -1 * 0) + 0 * (0 + -1 * 1 + -1 * 0)); [apply H; exists 0%nat; simpl; split; [lia|lra]|lra].
  - exfalso. apply (gsolve_ub Rops) in E; [|apply real_safe|apply leb_refl_R|apply hist_wf; [apply real_safe|apply h_new]].
    destruct E as [E|[_ E]]; [discriminate|]. simpl in E. lia.
Qed.

(** ** C25 *)
(** The matrices held by the solver object: column-major, leading dimension nbVar *)
Definition Jmat (s : rsol) (i k : nat) : R := w_buf (s_J s) (i + s_n s * k)%nat.
Definition Rmat (s : rsol) (i k : nat) : R := w_buf (s_R s) (i + s_n s * k)%nat.
(** Inward normal of the [k]-th active constraint *)
Definition active_normal (pb : rproblem) (s : rsol) (k : nat) (a : nat) : R :=
  let i := nth k (a_active (s_A s)) 0%nat in
  match nth i (activeSet s) INACTIVE with
  | UPPER | UPPER_BOUND => - cvec pb i a
  | _ => cvec pb i a
  end.
Theorem C25_factorisation_exact : forall junk pb o s st s', history Rops s -> gi_solve junk pb o s = Ok (st, s') ->
  st = SUCCESS \/ st = MAX_ITER_REACHED -> eq_separated pb ->
  let n := nv pb in let q := length (a_active (s_A s')) in
  (q <= n)%nat /\
  (* J J^T is the inverse of the Hessian *)
  (forall a c, (a < n)%nat -> (c < n)%nat ->
     rsum n (fun b => hess pb a b * rsum n (fun k => Jmat s' b k * Jmat s' c k)) = if (a =? c)%nat then 1 else 0) /\
  (* J^T N = [R; 0], R upper triangular with non-zero diagonal *)
  (forall k i, (k < q)%nat -> (i < n)%nat ->
     rsum n (fun a => Jmat s' a i * active_normal pb s' k a) = if (i <=? k)%nat then Rmat s' i k else 0) /\
  (forall k, (k < q)%nat -> Rmat s' k k <> 0).
Proof.
  intros junk pb o s st s' HH E Hst Hsep n q. pose proof (solve_ended _ _ _ _ _ _ HH E Hsep) as HE.
  pose proof (ended_pinv _ _ _ _ _ _ HE Hst) as HP. pose proof (pi_qr _ _ HP) as [Q1 Q2 Q3 Q4].
  pose proof (shape_nact _ _ (pi_shape _ _ HP)) as En. fold q in En. rewrite En in *.
  split; [exact Q1|]. split; [|split].
  - intros a c Ha Hc. exact (pi_G _ _ HP a c Ha Hc).
  - intros k i Hk Hi.
    assert (EN : rsum n (fun a => Jmat s' a i * active_normal pb s' k a) = tdot (nv pb) (Jof s') i (Nact pb (s_A s') k)).
    { unfold tdot. apply sum_ext. intros a Ha. unfold Jmat, Jof, view, active_normal, Nact, nsign, activeSet, act, stt. f_equal.
      destruct (nth (nth k (a_active (s_A s')) 0%nat) (a_status (s_A s')) INACTIVE); auto. }
    rewrite EN. destruct (Nat.leb_spec i k).
    + rewrite Q2 by auto. reflexivity.
    + apply Q3; auto.
  - intros k Hk. apply Q4. auto.
Qed.

(** ** C32 *)
Definition cvalue (pb : rproblem) (i : nat) (x : rvec) : R := rdot (nv pb) (cvec pb i) x.
Definition inactive (s : rsol) (i : nat) : Prop := nth i (activeSet s) INACTIVE = INACTIVE.
(** [v] is at least the violation of every inactive constraint, at both ends *)
Definition dominates (pb : rproblem) (s : rsol) (x : rvec) (v : R) : Prop :=
  forall j, (j < nc pb + nb pb)%nat -> inactive s j ->
    (forall l, clo pb j = Some l -> l - cvalue pb j x <= v) /\ (forall u, cup pb j = Some u -> cvalue pb j x - u <= v).

Lemma select_spec pb s : shape pb s -> ordered pb -> exists sc, selectViolated pb s = Ok sc /\
  let x := w_buf (s_x s) in let i := sc_idx sc in
  match sc_st sc with
  | INACTIVE => dominates pb s x 0
  | LOWER | LOWER_BOUND => inactive s i /\ (i < nc pb + nb pb)%nat /\
      exists l, clo pb i = Some l /\ cvalue pb i x < l /\ dominates pb s x (l - cvalue pb i x)
  | UPPER | UPPER_BOUND => inactive s i /\ (i < nc pb + nb pb)%nat /\
      exists u, cup pb i = Some u /\ u < cvalue pb i x /\ dominates pb s x (cvalue pb i x - u)
  | EQUALITY | FIXED => False
  end.
Proof.
  intros HS Hord. destruct (selectViolated_spec pb s HS) as (sc & smin & E & HI). exists sc. split; auto. intros x i.
  destruct HI as [I1 I2 I3 I4]. cbn [fst snd] in *.
  assert (HD : dominates pb s x (- smin)).
  { intros j Hj Hin. destruct (I4 j Hj Hin) as (K1 & K2 & K3). unfold slack_ge, slack_le, cvalue in *. fold (xof s) in x. split.
    - intros l El. rewrite El in K1. unfold x, xof in *. lra.
    - intros u Eu. rewrite Eu in K2. unfold x, xof in *.
      assert (Hlu : match clo pb j with Some l => l <= u | None => True end).
      { destruct (clo pb j) as [l|] eqn:El; auto. apply (Hord j l u); auto. }
      specialize (K2 Hlu). lra. }
  destruct (status_eqb_spec (sc_st sc) INACTIVE) as [En|Hn].
  - rewrite En. rewrite (I2 En), Ropp_0 in HD. auto.
  - destruct (I3 Hn) as (V1 & V2 & V3 & V4 & V5 & b & Vb & V6).
    assert (Hcv : match sc_st sc with LOWER | LOWER_BOUND => clo pb i = Some b /\ smin = cvalue pb i x - b
                  | UPPER | UPPER_BOUND => exists u, cup pb i = Some u /\ smin = u - cvalue pb i x | _ => False end).
    { unfold scb, nrhs, scn, nsign in *. fold i in Vb, V6. unfold isEq in V5. destruct (sc_st sc); try discriminate; try congruence.
      - split; auto.
      - destruct (cup pb i) as [u|]; [|discriminate]. injection Vb as <-. exists u. split; auto. rewrite V6. rewrite rdot_opp. unfold cvalue, x, xof. lra.
      - split; auto.
      - destruct (cup pb i) as [u|]; [|discriminate]. injection Vb as <-. exists u. split; auto. rewrite V6. rewrite rdot_opp. unfold cvalue, x, xof. lra. }
    destruct (sc_st sc); try contradiction.
    + split; auto. split; auto. exists b. destruct Hcv as [C1 C2]. split; auto. split; [lra|]. replace (b - cvalue pb i x) with (- smin) by lra. auto.
    + split; auto. split; auto. destruct Hcv as (u & C1 & C2). exists u. split; auto. split; [lra|]. replace (cvalue pb i x - u) with (- smin) by lra. auto.
    + split; auto. split; auto. exists b. destruct Hcv as [C1 C2]. split; auto. split; [lra|]. replace (b - cvalue pb i x) with (- smin) by lra. auto.
    + split; auto. split; auto. destruct Hcv as (u & C1 & C2). exists u. split; auto. split; [lra|]. replace (cvalue pb i x - u) with (- smin) by lra. auto.
Qed.
Lemma result_shape junk pb o s st s' : history Rops s -> gi_solve junk pb o s = Ok (st, s') -> shape pb s'.
Proof.
  intros HH E. pose proof (hist_wf _ _ real_safe HH) as HW.
  assert (Hsz : sizes_ok pb = true) by (unfold gi_solve in E; apply guard_ok in E; apply E).
  pose proof (gsolve_ub Rops junk pb o s real_safe (leb_refl_R _) HW) as HU.
  destruct (gsolve_result Rops junk pb o s real_safe (leb_refl_R _) HW Hsz) as (st1 & s1 & E1 & [D1 D2 D3] & _).
  { intros El. destruct (Nat.le_gt_cases (length (geqs Rops pb (gcb Rops pb))) (gn Rops pb)); auto.
    exfalso. assert (gi_solve junk pb o s = UB) by (apply HU; auto). congruence. }
  rewrite E in E1. injection E1 as <- <-. destruct D1; split; auto.
Qed.
(** In the state reached after any number of iterations (a call with that
    budget), the selection picks a most violated inactive constraint, or none
    when none is violated. *)
Theorem C32_most_violated_selected : forall junk pb o s st s', history Rops s -> gi_solve junk pb o s = Ok (st, s') -> ordered pb ->
  exists sc, selectViolated pb s' = Ok sc /\
  let x := w_buf (s_x s') in let i := sc_idx sc in
  match sc_st sc with
  | INACTIVE => dominates pb s' x 0
  | LOWER | LOWER_BOUND => inactive s' i /\ (i < nc pb + nb pb)%nat /\
      exists l, clo pb i = Some l /\ cvalue pb i x < l /\ dominates pb s' x (l - cvalue pb i x)
  | UPPER | UPPER_BOUND => inactive s' i /\ (i < nc pb + nb pb)%nat /\
      exists u, cup pb i = Some u /\ u < cvalue pb i x /\ dominates pb s' x (cvalue pb i x - u)
  | EQUALITY | FIXED => False
  end.
Proof. intros. apply select_spec; auto. eapply result_shape; eauto. Qed.
(** An iteration without a pending constraint stops with SUCCESS exactly when
    no inactive constraint is violated. *)
Theorem C32_success_iff_none_violated : forall pb o l, linv pb l -> ordered pb -> l_skip l = false ->
  ((exists s', iter pb o l = Ok (Stop SUCCESS s')) <-> dominates pb (l_s l) (w_buf (s_x (l_s l))) 0).
Proof.
  intros pb o l HL Hord Hsk. destruct (select_spec pb (l_s l) (pi_shape _ _ (proj1 HL)) Hord) as (sc & Es & HI).
  destruct (iter_spec pb o l HL) as (out & Eo & HC). split.
  - intros (s' & E). rewrite Eo in E. injection E as ->.
    assert (E1 : step1 pb l = Ok None).
    { destruct (step1_spec pb l HL) as [(_ & E1 & _)|(sc1 & E1 & Hsel & _)]; auto. exfalso.
      inversion HC as [smin sc2 Hs2 HI2 Hst2|sc2 b s1 t1 i out' Es2 Ec2 Hsel2 Hb2 Hs2 HS2 HL2 HC2]; subst.
      - unfold step1 in E1. rewrite Hsk in E1. destruct (selectViolated_spec pb (l_s l) (pi_shape _ _ (proj1 HL))) as (sc3 & smin3 & E3 & HI3).
        unfold iter in Eo. rewrite Es in E1, E3. injection E3 as <-. cbn [bind] in E1.
        destruct HI2 as [J1 J2 J3 J4]. destruct HI3 as [K1 K2 K3 K4]. cbn [fst snd] in *.
        assert (Hn : sc_st sc <> INACTIVE) by (intros Hn; rewrite Hn in E1; discriminate).
        destruct (K3 Hn) as (V1 & V2 & V3 & V4 & V5 & b & Vb & V6).
        rewrite (J2 Hst2) in J4. destruct (J4 _ V2 V3) as (P1 & _ & P3). specialize (P3 eq_refl).
        unfold scb, nrhs, scn, nsign, slack_ge, slack_le in *. unfold isEq in V5. destruct (sc_st sc); try discriminate; try congruence.
        + rewrite Vb in P1. lra.
        + destruct (cup pb (sc_idx sc)) as [u|]; [|discriminate]. injection Vb as <-. rewrite rdot_opp in V6. lra.
        + rewrite Vb in P1. lra.
        + destruct (cup pb (sc_idx sc)) as [u|]; [|discriminate]. injection Vb as <-. rewrite rdot_opp in V6. lra.
      - inversion HC2. }
    unfold step1 in E1. rewrite Hsk, Es in E1. cbn [bind] in E1. destruct (sc_st sc); auto; exfalso;
      apply bind_ok in E1 as (r0 & _ & E1); apply bind_ok in E1 as (u0 & _ & E1); discriminate.
  - intros HD. exists (l_s l). unfold iter, step1. rewrite Hsk, Es. cbn [bind].
    assert (En : sc_st sc = INACTIVE); [|rewrite En; reflexivity].
    cbv zeta in HI. destruct (sc_st sc); auto; try contradiction; exfalso; destruct HI as (Hi & Hlt & b & Hb & Hv & _);
      destruct (HD _ Hlt Hi) as [D1 D2]; try (specialize (D1 b Hb); lra); try (specialize (D2 b Hb); lra).
Qed.

(** ** C33: dual feasibility at every iteration *)
(** After [k] iterations (a call with that budget that does not finish before)
    every active inequality has a multiplier of the right sign and every active
    constraint is satisfied with equality at the corresponding end. *)
Theorem C33_dual_feasible_every_iteration : forall junk pb o k s s' x lam s'' i, history Rops s ->
  gi_solve junk pb (with_max o k) s = Ok (MAX_ITER_REACHED, s') -> solution s' = Ok x -> multipliers s' = Ok (lam, s'') ->
  eq_separated pb -> equalities_first pb -> exact_tests junk pb (with_max o k) s ->
  match nth i (activeSet s') INACTIVE with
  | UPPER | UPPER_BOUND => 0 <= vec_of lam i /\ cup pb i = Some (cvalue pb i (vec_of x))
  | LOWER | LOWER_BOUND => vec_of lam i <= 0 /\ clo pb i = Some (cvalue pb i (vec_of x))
  | INACTIVE => vec_of lam i = 0
  | EQUALITY | FIXED => is_equality pb i /\ clo pb i = Some (cvalue pb i (vec_of x))
  end.
Proof.
  intros junk pb o k s s' x lam s'' i HH E Ex Em Hsep Hfirst Hcalm.
  pose proof (final_sign junk pb _ s _ s' lam s'' i HH E (or_intror eq_refl) Em Hsep Hfirst Hcalm) as HS.
  pose proof (solve_ended _ _ _ _ _ _ HH E Hsep) as HE.
  pose proof (ended_pinv _ _ _ _ _ _ HE (or_intror eq_refl)) as HP. pose proof (pi_shape _ _ HP) as HSh.
  destruct (solution_spec pb s' x HSh Ex) as [_ Hx].
  destruct (status_eqb_spec (nth i (activeSet s') INACTIVE) INACTIVE) as [En|Hn]; [rewrite En in *; auto|].
  destruct (act_surj pb s' i HSh Hn) as (j & Hj & Ej).
  pose proof (tight_value pb s' j HP Hj) as HT. cbv zeta in HT. rewrite Ej in HT.
  assert (Ev : cvalue pb i (vec_of x) = rdot (nv pb) (cvec pb i) (xof s')) by (apply dot_ext; auto).
  rewrite Ev. change (nth i (activeSet s') INACTIVE) with (stt (s_A s') i) in *.
  destruct (stt (s_A s') i); auto. all: split; auto; apply HT.
Qed.

(** ** C34 *)
(** The constraint [(i, st)] as a dense vector *)
Definition dense_normal (pb : rproblem) (i : nat) (st : status) : rvec :=
  match st with
  | EQUALITY | LOWER => fun a => p_C pb a i
  | UPPER => fun a => - p_C pb a i
  | FIXED | LOWER_BOUND => fun a => if (a =? i - nc pb)%nat then 1 else 0
  | UPPER_BOUND => fun a => - (if (a =? i - nc pb)%nat then 1 else 0)
  | INACTIVE => fun _ => 0
  end.
Lemma dense_scn pb i st : (i < nc pb + nb pb)%nat -> kind_ok (nc pb) i st = true -> forall a, dense_normal pb i st a = scn pb (SC i st) a.
Proof.
  intros Hi HK a. apply kind_lt in HK. unfold scn, nsign, cvec, dense_normal. simpl.
  destruct st; try contradiction; destruct (Nat.ltb_spec i (nc pb)); try lia; auto.
Qed.
Theorem C34_constraint_normal_dense : forall pb i st, sizes_ok pb = true -> (i < nc pb + nb pb)%nat ->
  (if (i <? nc pb)%nat then In st [LOWER; UPPER; EQUALITY] else In st [LOWER_BOUND; UPPER_BOUND; FIXED]) ->
  (forall v : rvec, cn_dot pb (SC i st) (nv pb) v = Ok (rdot (nv pb) (dense_normal pb i st) v)) /\
  (forall M : rmat, exists d, cn_preMt pb (SC i st) (nv pb) M = Ok d /\
     forall k, d k = rsum (nv pb) (fun a => M a k * dense_normal pb i st a)).
Proof.
  intros pb i st Hsz Hi Hst.
  assert (HK : kind_ok (nc pb) i st = true).
  { destruct (Nat.ltb_spec i (nc pb)) as [Hl|Hl]; simpl in Hst.
    - apply Nat.ltb_lt in Hl. destruct Hst as [<-|[<-|[<-|[]]]]; simpl; auto.
    - apply Nat.ltb_ge in Hl. destruct Hst as [<-|[<-|[<-|[]]]]; simpl; rewrite Hl; auto. }
  assert (HV : sel_valid pb (SC i st)) by (split; auto). split.
  - intros v. rewrite (cn_dot_spec pb (SC i st) v Hsz HV). f_equal. apply dot_ext; auto. intros a _. symmetry. apply dense_scn; auto.
  - intros M. destruct (cn_preMt_spec pb (SC i st) M Hsz HV) as (d & E & Hd). exists d. split; auto. intros k. rewrite Hd.
    unfold tdot. apply sum_ext. intros a _. f_equal. symmetry. apply dense_scn; auto.
Qed.
Example C34_nonvacuous : sizes_ok (ex_pb 1) = true /\ (2 < nc (ex_pb 1) + nb (ex_pb 1))%nat /\ In UPPER_BOUND [LOWER_BOUND; UPPER_BOUND; FIXED].
Proof. split; [reflexivity|]. split; [unfold nc, nb; simpl; lia|simpl; auto]. Qed.

(** ** C36 *)
Theorem C36_terminates : forall junk pb o s st s', history Rops s -> gi_solve junk pb o s = Ok (st, s') ->
  eq_separated pb -> equalities_first pb -> exact_tests junk pb o s ->
  (let m := nc pb + nb pb in m + 2 * 3 ^ m <= o_maxIter o)%nat -> st <> MAX_ITER_REACHED.
Proof. exact final_terminates. Qed.
Theorem C36_objective_monotone : forall junk pb o j k s st1 s1 st2 s2, history Rops s -> (j <= k)%nat ->
  gi_solve junk pb (with_max o j) s = Ok (st1, s1) -> st1 = SUCCESS \/ st1 = MAX_ITER_REACHED ->
  gi_solve junk pb (with_max o k) s = Ok (st2, s2) -> st2 = SUCCESS \/ st2 = MAX_ITER_REACHED ->
  eq_separated pb -> equalities_first pb -> exact_tests junk pb (with_max o k) s ->
  objectiveValue s1 <= objectiveValue s2.
Proof. exact final_monotone. Qed.
Theorem C36_objective_strict : forall junk pb o k s s1 s2, history Rops s ->
  gi_solve junk pb (with_max o k) s = Ok (MAX_ITER_REACHED, s1) ->
  gi_solve junk pb (with_max o (S k)) s = Ok (MAX_ITER_REACHED, s2) ->
  eq_separated pb -> equalities_first pb -> exact_tests junk pb (with_max o (S k)) s ->
  (length (a_active (s_A s1)) < length (a_active (s_A s2)))%nat ->
  objectiveValue s1 < objectiveValue s2.
Proof. exact final_strict. Qed.

(** ** C43: the value returned at any stop is a lower bound of the optimum *)
Theorem C43_objective_lower_bound : forall junk pb o s st s' y, history Rops s -> gi_solve junk pb o s = Ok (st, s') ->
  st = SUCCESS \/ st = MAX_ITER_REACHED ->
  eq_separated pb -> equalities_first pb -> exact_tests junk pb o s -> feasible pb y -> objectiveValue s' <= objective pb y.
Proof. exact final_lower_bound. Qed.

(** ** C42 *)
Theorem C42_hessian_overwritten : forall junk pb o s st s', history Rops s -> gi_solve junk pb o s = Ok (st, s') ->
  (forall i j, (i < j)%nat -> s_G s' i j = p_G pb i j) /\
  (st <> NON_POS_HESSIAN -> forall i j, (i < nv pb)%nat -> (j < nv pb)%nat ->
     let L := fun a t => if (t <=? a)%nat then s_G s' a t else 0 in
     rsum (nv pb) (fun t => L i t * L j t) = hess pb i j).
Proof.
  intros junk pb o s st s' HH E. pose proof (hist_wf _ _ real_safe HH) as HW.
  assert (Hsz : sizes_ok pb = true) by (unfold gi_solve in E; apply guard_ok in E; apply E).
  pose proof (gsolve_ub Rops junk pb o s real_safe (leb_refl_R _) HW) as HU.
  destruct (gsolve_result Rops junk pb o s real_safe (leb_refl_R _) HW Hsz) as (st1 & s1 & E1 & [D1 D2 D3] & D4).
  { intros El. destruct (Nat.le_gt_cases (length (geqs Rops pb (gcb Rops pb))) (gn Rops pb)); auto.
    exfalso. assert (gi_solve junk pb o s = UB) by (apply HU; auto). congruence. }
  rewrite E in E1. injection E1 as <- <-. rewrite D3. change (gn Rops pb) with (nv pb) in *.
  pose proof (llt_spec (nv pb) (p_G pb)) as HL. destruct (llt (nv pb) (p_G pb)) as ([p|] & Lf); simpl in *.
  - destruct HL as (Hp & (_ & _ & I3) & _). split.
    + intros i j Hij. apply I3. auto.
    + intros Hn. exfalso. destruct D4 as [(-> & _)|(D4 & _)]; [congruence|discriminate].
  - split.
    + intros i j Hij. apply HL. auto.
    + intros _ i j Hi Hj. exact (llt_inv_full (nv pb) (p_G pb) Lf HL i j Hi Hj).
Qed.

(** ** C44: total correctness *)
Theorem C44_total_correctness : forall pb, sizes_ok pb = true -> posdef (nv pb) (hess pb) -> ordered pb ->
  equalities_first pb -> eq_independent pb -> tolerance_gap pb ->
  exists B, forall o junk s, B <= o_bigBnd o -> (let m := nc pb + nb pb in m + 2 * 3 ^ m < o_maxIter o)%nat -> history Rops s ->
   exists st s', gi_solve junk pb o s = Ok (st, s') /\
    ((st = SUCCESS /\ exists x lam s'', solution s' = Ok x /\ multipliers s' = Ok (lam, s'') /\
        length x = nv pb /\ length lam = (nc pb + nb pb)%nat /\ kkt pb (vec_of x) (vec_of lam) /\ unique_minimiser pb (vec_of x) /\
        objectiveValue s' = objective pb (vec_of x))
     \/ (st = INFEASIBLE /\ infeasible pb)).
Proof. exact total_correct. Qed.
Example C44_nonvacuous b : sizes_ok (ex_pb b) = true /\ posdef (nv (ex_pb b)) (hess (ex_pb b)) /\ ordered (ex_pb b) /\
  equalities_first (ex_pb b) /\ eq_independent (ex_pb b) /\ tolerance_gap (ex_pb b).
Proof. split; [apply ex_sizes|]. split; [apply ex_posdef|]. split; [apply ex_ordered|]. split; [apply ex_first|]. split; [apply ex_indep|apply ex_gap]. Qed.

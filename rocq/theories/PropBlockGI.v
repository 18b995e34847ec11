(** C50: BlockGISolver (block-structured Hessian and constraints) against GoldfarbIdnaniSolver (dense matrices),
    in exact real arithmetic.

    - [isz] is the test for zero of the block triangular solves, [tiny] the threshold under which Eigen's
      makeHouseholder takes a tail for zero ((std::numeric_limits<double>::min)() in Eigen; 0 is the exact test);
    - [hessian_of G H]: the blocks of [G] are the lower half of the symmetric matrix [H] (StructGProofs.v, BlockDense.v);
    - [block_diagonal Cs Cd]: [Cd] is block diagonal with blocks [Cs] (PropStructC.v);
    - [tip_fits]: for an arrow pointing up, first and last diagonal blocks have the same size (finding 6: other arrows
      pointing up are outside the domain of the block triangular solve);
    - [dense_of bp H Cd] is the problem [bp] with its matrices replaced by the dense ones. *)
From Coq Require Import List Arith ZArith Lia Bool Reals Lra.
From Verif Require Import Base ActiveSet ActiveSetProofs Num Solver QPSpec LinAlg QRUpdate GIMath GIBase GIInv GISafe GICall GIHist GIDual GIRun GIInit GIMult GIFinal GITerm GITotal GISame PropSolver PropReal Limits LimitsEx Warm WarmAS WarmQR WarmHot Util
  Block BlockElim BlockSpec BlockLLT BlockSolve BlockDense PropBlock Ortho OrthoProofs PropOrtho StructC PropStructC StructG StructGProofs StructQRProofs BlockGI BlockGIProofs BlockGIInit.
Import ListNotations.
Local Open Scope R_scope.

(** Every solver object a user can hold *)
Inductive bhistory (isz : R -> bool) (tiny : R) : rbsol -> Prop :=
| bhi_new : bhistory isz tiny bsol_new
| bhi_resize junk b n c ub : bhistory isz tiny b -> bhistory isz tiny (bresize junk b n c ub)
| bhi_reset b : bhistory isz tiny b -> bhistory isz tiny (bset_s b (resetActiveSet (b_s b)))
| bhi_mult b l s' : bhistory isz tiny b -> multipliers (b_s b) = Ok (l, s') -> bhistory isz tiny (bset_s b s')
| bhi_solve junk bp o ws b st b' : bhistory isz tiny b -> bgi_solve isz tiny junk bp o ws b = Ok (st, b') -> bhistory isz tiny b'.

Lemma bhistory_wf isz tiny b : bhistory isz tiny b -> bwf b.
Proof.
  induction 1 as [|junk b n c ub _ IH|b _ IH|b l s' _ IH E|junk bp o ws b st b' _ IH E].
  - apply bwf_new.
  - apply (bshape_wf _ _ _ _ (bresize_spec junk b n c ub IH)).
  - destruct IH as [H1 H2 H3 H4 H5 H6 H7 H8 H9 H10 H11 H12]. unfold bwf. split; cbn; auto. apply good_reset. apply H2.
  - apply mult_frame in E as (E1 & E2 & E3 & E4 & E5 & E6 & E7 & E8 & E9 & E10 & E11 & _). destruct IH as [H1 H2 H3 H4 H5 H6 H7 H8 H9 H10 H11 H12]. unfold bwf.
    split; cbn [bset_s b_s b_Jn b_QR b_cx]; rewrite ?E1, ?E2, ?E3, ?E6, ?E9, ?E10, ?E11; auto.
  - apply (bsolve_keep _ _ _ _ _ _ _ _ _ IH E).
Qed.

(** The two solvers give the same answer through every accessor *)
Definition same_answer (s : rsol) (b : rbsol) : Prop :=
  (exists x, solution s = Ok x /\ solution (b_s b) = Ok x) /\
  (exists u s1 s2, multipliers s = Ok (u, s1) /\ multipliers (b_s b) = Ok (u, s2)) /\
  objectiveValue (b_s b) = objectiveValue s /\ iterations (b_s b) = iterations s /\ activeSet (b_s b) = activeSet s.

(** No constraint is announced active: no warm start, or a list of statuses that are all INACTIVE *)
Definition cold (bp : rbp) (o : ropt) (ws : list status) : Prop :=
  (o_warm o = false /\ ws = []) \/ (o_warm o = true /\ ws <> [] /\ length ws = (c_nbCstr (bp_C bp) + bp_xlsize bp)%nat /\ forall st, In st ws -> st = INACTIVE).

Record block_problem (bp : rbp) (H Cd : rmat) : Prop := {
  bk_sizes : sizes_ok (dense_of bp H Cd) = true;
  bk_C : exists Cs, bp_C bp = stc_new Cs /\ block_diagonal Cs Cd;
  bk_G : hessian_of (bp_G bp) H;
  bk_tip : tip_fits (up_of (g_type (bp_G bp))) (g_diag (bp_G bp))
}.

Lemma geq_is pb i : (i < ncb pb)%nat -> reflect (is_equality pb i) (geq Rops pb i).
Proof. intros Hi. exact (eqb_c_spec pb i). Qed.
Lemma cold_facts junk bp o ws b H Cd : cold bp o ws -> (forall i, (i < ncb (dense_of bp H Cd))%nat -> ~ is_equality (dense_of bp H Cd) i) ->
  empty_start junk bp o ws b /\ forallb (kind1 Rops (bounds_only bp) o (eff_ws junk bp o ws b)) (order Rops (bounds_only bp)) = true /\
  ((length ws =? c_nbCstr (bp_C bp) + bp_xlsize bp)%nat || is_nil ws = true) /\ o_warm o || is_nil ws = true.
Proof.
  intros HC HN.
  assert (HW : forall i, (i < gcb Rops (bounds_only bp))%nat -> wanted Rops (bounds_only bp) o (eff_ws junk bp o ws b) i = INACTIVE /\ kind1 Rops (bounds_only bp) o (eff_ws junk bp o ws b) i = true).
  { intros i Hi. assert (HE : geq Rops (bounds_only bp) i = false). { destruct (geq_is (dense_of bp H Cd) i Hi) as [HE|HE]; [exfalso; exact (HN i Hi HE)|]. destruct (geq Rops (bounds_only bp) i) eqn:Eg; auto. exfalso. apply HE.
      destruct (geq_is (bounds_only bp) i Hi) as [HE'|]; [exact HE'|discriminate]. }
    unfold wanted, kind1, warm_on, eff_ws. rewrite HE. destruct HC as [(Ho & ->)|(Ho & Hn & Hl & HA)]; rewrite Ho; cbn [andb negb orb]; [auto|].
    destruct ws as [|w0 ws0]; [congruence|]. cbn [is_nil negb andb]. set (l := w0 :: ws0) in *. rewrite (HA (nth i l INACTIVE)) by (apply nth_In; rewrite Hl; exact Hi). auto. }
  split; [|split; [|split]].
  - unfold empty_start, initial. assert (HO : forall i, In i (order Rops (bounds_only bp)) -> (i < gcb Rops (bounds_only bp))%nat) by (intros i; apply order_lt).
    induction (order Rops (bounds_only bp)) as [|i l IH]; [reflexivity|]. cbn [filter]. rewrite (proj1 (HW i (HO i (or_introl eq_refl)))). cbn. apply IH. intros j Hj. apply HO. right. auto.
  - apply forallb_forall. intros i Hi. apply HW. apply order_lt. exact Hi.
  - destruct HC as [(_ & ->)|(_ & _ & Hl & _)]; [apply orb_true_r|]. rewrite (proj2 (Nat.eqb_eq _ _) Hl). reflexivity.
  - destruct HC as [(_ & ->)|(Ho & _)]; [apply orb_true_r|]. rewrite Ho. reflexivity.
Qed.

Lemma expand_total A (r : rvec) : good A -> exists v, expand A r (nact A) (fun _ => 0) = Ok v.
Proof. intros H. destruct (gexpand Rops A r H (nact A) (le_n _)) as (v & E). exists v. exact E. Qed.
Lemma bsim_answer isz junk bp H Cd Mi s b : shape (dense_of bp H Cd) s -> s_exp s = true -> bsim isz junk bp H Cd Mi 0 s b -> same_answer s b.
Proof.
  intros Hsh Hx HS. pose proof HS as [H1 H2 H3 H4 H5 H6 H7 H8 _ _ H11 H12 _ _ _ _ _ _ _ _]. pose proof (shape_nact_le _ _ Hsh) as Hq. pose proof (nbAll_ncb _ _ Hsh) as Em.
  split; [|split; [|split; [exact H4|split; [exact H3|unfold activeSet; rewrite H2; reflexivity]]]].
  - exists (map (w_buf (s_x s)) (seq 0 (nv (dense_of bp H Cd)))). unfold solution. rewrite (sh_n _ _ Hsh), H1. rewrite !getV_ok by (auto; apply Hsh). cbn [bind]. split; [reflexivity|]. f_equal.
    apply map_ext_in. intros i Hi. apply in_seq in Hi. symmetry. apply H6. cbn in Hi. apply Hi.
  - unfold multipliers. rewrite H2, H5, Hx. cbn [s_A s_r s_u set_exp]. rewrite H2, Em.
    rewrite !getV_ok by (try lia; pose proof (sh_u _ _ Hsh); pose proof (sh_r _ _ Hsh); lia). cbn [bind]. rewrite !vm_id.
    set (ra := @vhead Rops _ (w_buf (s_u s)) _). set (rb := @vhead Rops _ (w_buf (s_u (b_s b))) _).
    destruct (expand_total (s_A s) ra (sh_good _ _ Hsh)) as (v & Ev). change (zero Rops) with 0.
    assert (Ev2 : expand (s_A s) rb (nact (s_A s)) (fun _ => 0) = Ok v).
    { rewrite <- Ev. symmetry. apply expand_agr. intros i Hi. unfold ra, rb, vhead. rewrite (proj2 (Nat.ltb_lt _ _) Hi). apply H7. lia. }
    rewrite Ev, Ev2. cbn [bind]. cbn [s_u set_u set_r set_exp wset]. rewrite !getV_ok by first [exact (sh_u _ _ Hsh) | exact H11]. cbn [bind w_buf]. eexists _, _, _. split; reflexivity.
Qed.

(** ** C50 *)
Theorem C50_block_agrees : forall isz tiny junk junk' bp H Cd o ws b s,
  isz 0 = true -> 0 <= tiny -> bhistory isz tiny b -> history Rops s ->
  block_problem bp H Cd -> posdef (g_n (bp_G bp)) H -> cold bp o ws ->
  (forall i, (i < ncb (dense_of bp H Cd))%nat -> ~ is_equality (dense_of bp H Cd) i) ->
  exists st s', gi_solve junk' (dense_of bp H Cd) o s = Ok (st, s') /\
    ((exists b', bgi_solve isz tiny junk bp o ws b = Ok (st, b') /\ same_answer s' b') \/
     (tiny <> 0 /\ forall st' b', bgi_solve isz tiny junk bp o ws b = Ok (st', b') -> b_tiny b' = true)).
Proof.
  intros isz tiny junk junk' bp H Cd o ws b s Hz Ht HBH HHs [Hsz (Cs & HC & HB) HG Htip] HP Hcold Hne.
  destruct (cold_facts junk bp o ws b H Cd Hcold Hne) as (C1 & C2 & C3 & C4).
  destruct (bsolve_sim isz tiny junk bp Cs H Cd o HC HB Hsz HG HP Hz Htip Ht Hne junk' ws b s C1 C2 C3 C4 (bhistory_wf _ _ _ HBH) (hist_wf_sol s HHs)) as (st & s' & Mi & E & Hst & Hsh & HD).
  exists st, s'. split; [exact E|]. destruct HD as [(b' & Eb & HS)|(Hn & HF)].
  - left. exists b'. split; [exact Eb|]. refine (bsim_answer _ _ _ _ _ _ _ _ Hsh _ HS).
    destruct (result_of Rops junk' _ o s st s' real_safe HHs (leb_refl_R _) E) as [HD _]. apply HD.
  - right. split; [exact Hn|]. intros st' b' Eb. exact (HF _ Eb).
Qed.

(** With an exact test in makeHouseholder the call always returns, with the answer of the dense solver *)
Theorem C50_block_exact : forall isz junk junk' bp H Cd o ws b s,
  isz 0 = true -> bhistory isz 0 b -> history Rops s ->
  block_problem bp H Cd -> posdef (g_n (bp_G bp)) H -> cold bp o ws ->
  (forall i, (i < ncb (dense_of bp H Cd))%nat -> ~ is_equality (dense_of bp H Cd) i) ->
  exists st s' b', gi_solve junk' (dense_of bp H Cd) o s = Ok (st, s') /\ bgi_solve isz 0 junk bp o ws b = Ok (st, b') /\ same_answer s' b'.
Proof.
  intros isz junk junk' bp H Cd o ws b s Hz HBH HHs HBP HP Hcold Hne.
  destruct (C50_block_agrees isz 0 junk junk' bp H Cd o ws b s Hz (Rle_refl 0) HBH HHs HBP HP Hcold Hne) as (st & s' & E & [(b' & Eb & HS)|(Hn & _)]); [|exfalso; apply Hn; reflexivity].
  exists st, s', b'. auto.
Qed.

(** Total correctness of the block solver *)
Theorem C50_block_total_correctness : forall isz bp H Cd, isz 0 = true ->
  block_problem bp H Cd -> posdef (g_n (bp_G bp)) H ->
  let pb := dense_of bp H Cd in
  (forall i, (i < ncb pb)%nat -> ~ is_equality pb i) -> GIRun.ordered pb -> tolerance_gap pb ->
  (exists B, steps_below pb B) /\
  forall B, steps_below pb B ->
  forall o junk ws b, B <= o_bigBnd o -> (let m := nc pb + nb pb in m + 2 * 3 ^ m <= o_maxIter o)%nat -> bhistory isz 0 b -> cold bp o ws ->
   exists st b', bgi_solve isz 0 junk bp o ws b = Ok (st, b') /\
    ((st = SUCCESS /\ exists x lam s'', solution (b_s b') = Ok x /\ multipliers (b_s b') = Ok (lam, s'') /\
        length x = nv pb /\ length lam = (nc pb + nb pb)%nat /\ kkt pb (vec_of x) (vec_of lam) /\ unique_minimiser pb (vec_of x) /\
        objectiveValue (b_s b') = objective pb (vec_of x))
     \/ (st = INFEASIBLE /\ infeasible pb)).
Proof.
  intros isz bp H Cd Hz HBP HP pb Hne HO HT.
  assert (HP1 : posdef (nv pb) (hess pb)) by (apply (HP' bp H Cd (bk_G _ _ _ HBP) HP)).
  split; [apply limit_exists; exact HP1|]. intros Bb HBb o junk ws b H1 H2 HB Hc.
  destruct (total_correct_at pb Bb (bk_sizes _ _ _ HBP) HP1 HO) with (o := o) (junk := junk) (s := sol_new Rops) as (st & s' & E & HR); auto; [| |constructor|].
  { intros i j _ Hj Hq. exfalso. exact (Hne j Hj Hq). }
  { intros w Hw _ i Hi. apply Hw; auto. }
  destruct (C50_block_exact isz junk junk bp H Cd o ws b (sol_new Rops) Hz HB (h_new Rops) HBP HP Hc Hne) as (st' & s1 & b' & E1 & Eb & ((x0 & X1 & X2) & (u0 & s2 & s3 & U1 & U2) & EF & _)).
  fold pb in E1. rewrite E in E1. injection E1 as <- <-. exists st, b'. split; [exact Eb|].
  destruct HR as [(-> & x & lam & s'' & R1 & R2 & R3 & R4 & R5 & R6 & R7)|HR]; [left|right; exact HR]. split; [reflexivity|].
  exists x, lam, s3. split; [congruence|]. split; [congruence|]. repeat (split; [assumption|]). congruence.
Qed.

(** An equality constraint, and generally any constraint active at the start (warm start), is not supported: the call gives a
    result only if it reports that the problem is over-constrained or the Hessian not positive-definite; otherwise it
    runs into an assertion (finding 11). *)
Lemma wanted_eq pb o ws i : geq Rops pb i = true -> isact (wanted Rops pb o ws i) = true.
Proof. intros H. unfold wanted. rewrite H. unfold gstat. destruct (i <? gc_ Rops pb)%nat; reflexivity. Qed.
Lemma never_solved isz tiny junk bp o ws b st b' i : bhistory isz tiny b -> (0 < g_n (bp_G bp))%nat ->
  In i (initial Rops (bounds_only bp) o (eff_ws junk bp o ws b)) ->
  bgi_solve isz tiny junk bp o ws b = Ok (st, b') -> st = OVERCONSTRAINED_PROBLEM \/ st = NON_POS_HESSIAN.
Proof.
  intros HBH Hn HI E. pose proof (bhistory_wf _ _ _ HBH) as HW.
  assert (Hsz : sizes_ok (bounds_only bp) = true) by (unfold bgi_solve in E; apply guard_ok in E; apply E).
  destruct (bprep junk bp o b HW Hsz) as (b1 & HB1 & _ & _ & _ & _ & Es). rewrite Es in E. apply guard_ok in E as [Hl E]. apply guard_ok in E as [_ E]. apply bind_ok in E as ((st1 & b2) & E1 & E).
  destruct (binit_keep _ _ _ _ _ _ _ _ _ _ HB1 eq_refl eq_refl eq_refl (eff_size _ _ _ _ _ HW Hsz Hl) E1) as [_ H2].
  assert (Hst : st1 = SUCCESS \/ st1 = OVERCONSTRAINED_PROBLEM \/ st1 = NON_POS_HESSIAN).
  { clear - E1. unfold binit in E1. apply bind_ok in E1 as ((s0 & A) & EP & E1). cbn [fst snd] in E1.
    assert (Hs0 : s0 = SUCCESS \/ s0 = OVERCONSTRAINED_PROBLEM).
    { unfold processInitialActiveSet in EP. apply bind_ok in EP as (A1 & _ & EP). apply bind_ok in EP as (A2 & _ & EP). destruct (_ <? _)%nat; [|injection EP as <- _; auto].
      destruct (_ <? _)%Z; [injection EP as <- _; auto|]. apply bind_ok in EP as (A3 & _ & EP). injection EP as <- _. auto. }
    destruct Hs0 as [-> | ->]; [|injection E1 as <- _; auto]. apply bind_ok in E1 as (dG & _ & E1). destruct (fst dG); cbn [negb] in E1; [|injection E1 as <- _; auto].
    apply guard_ok in E1 as [_ E1]. apply guard_ok in E1 as [_ E1]. repeat (apply bind_ok in E1 as (? & _ & E1)). injection E1 as <- _. auto. }
  destruct Hst as [-> | [-> | ->]].
  - exfalso. destruct (H2 eq_refl) as [(_ & HE)|HE]; [|lia].
    rewrite HE in HI. exact HI.
  - left. unfold bterminate in E. destruct (o_debug o); [discriminate|]. injection E as <- _. reflexivity.
  - right. injection E as <- _. reflexivity.
Qed.

Theorem C50_equality_never_solved : forall isz tiny junk bp H Cd o ws b st b' i, bhistory isz tiny b -> (0 < g_n (bp_G bp))%nat ->
  (i < ncb (dense_of bp H Cd))%nat -> is_equality (dense_of bp H Cd) i ->
  bgi_solve isz tiny junk bp o ws b = Ok (st, b') -> st = OVERCONSTRAINED_PROBLEM \/ st = NON_POS_HESSIAN.
Proof.
  intros isz tiny junk bp H Cd o ws b st b' i HBH Hn Hi He. apply (never_solved _ _ _ _ _ _ _ _ _ i HBH Hn).
  apply initial_in. split; [exact Hi|]. intros EW. assert (HA := wanted_eq (bounds_only bp) o (eff_ws junk bp o ws b) i). rewrite EW in HA.
  destruct (geq_is (bounds_only bp) i Hi) as [_|Hc]; [discriminate (HA eq_refl)|apply Hc; exact He].
Qed.
(** The status given to constraint [i] by a warm start: the argument of solve, or, when it is empty, the active set of the
    object if the sizes are those of the previous problem *)
Definition announced (bp : rbp) (ws : list status) (b : rbsol) (i : nat) (st : status) : Prop :=
  (ws <> [] /\ nth_error ws i = Some st) \/
  (ws = [] /\ s_n (b_s b) = g_n (bp_G bp) /\ a_nc (s_A (b_s b)) = c_nbCstr (bp_C bp) /\ a_nb (s_A (b_s b)) = bp_xlsize bp /\ nth_error (activeSet (b_s b)) i = Some st).
(** the side named by [st] has a finite bound, for the option bigBnd *)
Definition usable (pb : rproblem) (o : ropt) (i : nat) (st : status) : Prop :=
  match st with
  | LOWER | LOWER_BOUND => exists l, clo pb i = Some l /\ - o_bigBnd o <= l
  | UPPER | UPPER_BOUND => exists u, cup pb i = Some u /\ u <= o_bigBnd o
  | EQUALITY => True
  | _ => False
  end.
Lemma bresize_keepA junk (b : rbsol) n c m : s_n (b_s b) = n -> a_nc (s_A (b_s b)) = c -> a_nb (s_A (b_s b)) = m -> (m = 0 \/ m = n)%nat ->
  s_A (b_s (bresize junk b n c (0 <? m)%nat)) = s_A (b_s b).
Proof.
  intros E1 E2 E3 Hm. unfold bresize. rewrite E1, E2, !Nat.eqb_refl. cbn [bset_s b_s]. unfold resize_p. rewrite E1, Nat.eqb_refl.
  assert (Eb : (if (0 <? m)%nat then n else 0%nat) = m) by (destruct Hm as [-> | ->]; [reflexivity|destruct n; reflexivity]). rewrite Eb. unfold nbAll. rewrite E2, E3, !Nat.eqb_refl. cbn [andb]. rewrite E2, E3, !Nat.eqb_refl. reflexivity.
Qed.
Theorem C50_warm_start_never_solved : forall isz tiny junk bp H Cd o ws b st b' i si, bhistory isz tiny b -> (0 < g_n (bp_G bp))%nat ->
  o_warm o = true -> (i < ncb (dense_of bp H Cd))%nat -> announced bp ws b i si -> usable (dense_of bp H Cd) o i si ->
  bgi_solve isz tiny junk bp o ws b = Ok (st, b') -> st = OVERCONSTRAINED_PROBLEM \/ st = NON_POS_HESSIAN.
Proof.
  intros isz tiny junk bp H Cd o ws b st b' i si HBH Hn Ho Hi HA HU E.
  assert (Hsz : sizes_ok (bounds_only bp) = true) by (unfold bgi_solve in E; apply guard_ok in E; apply E).
  revert E. apply (never_solved _ _ _ _ _ _ _ _ _ i HBH Hn). apply initial_in. split; [exact Hi|].
  unfold wanted. destruct (geq Rops (bounds_only bp) i); [unfold gstat; destruct (i <? gc_ Rops (bounds_only bp))%nat; discriminate|].
  assert (K : nth_error (eff_ws junk bp o ws b) i = Some si).
  { unfold eff_ws. rewrite Ho. destruct HA as [(Hw & HA)|(-> & A1 & A2 & A3 & HA)]; [destruct ws; [congruence|exact HA]|]. cbn [is_nil].
    rewrite bresize_keepA; auto. apply sizes_ok_spec in Hsz. destruct Hsz as (_ & _ & _ & _ & _ & [Hm|Hm] & _); [right|left]; exact Hm. }
  unfold warm_on. rewrite Ho. destruct (eff_ws junk bp o ws b) as [|w0 l] eqn:El; [destruct i; discriminate|]. cbn [is_nil negb andb].
  rewrite (nth_error_nth _ _ INACTIVE K). unfold usable in HU.
  destruct si; try contradiction; unfold beyond.
  - destruct HU as (l0 & E0 & Hl). unfold lo_inf. change (glo Rops (bounds_only bp) i) with (clo (dense_of bp H Cd) i). rewrite E0. rops. destruct (Rltb_spec l0 (- o_bigBnd o)); [lra|discriminate].
  - destruct HU as (l0 & E0 & Hl). unfold up_inf. change (gup Rops (bounds_only bp) i) with (cup (dense_of bp H Cd) i). rewrite E0. rops. destruct (Rltb_spec (o_bigBnd o) l0); [lra|discriminate].
  - discriminate.
  - destruct HU as (l0 & E0 & Hl). unfold lo_inf. change (glo Rops (bounds_only bp) i) with (clo (dense_of bp H Cd) i). rewrite E0. rops. destruct (Rltb_spec l0 (- o_bigBnd o)); [lra|discriminate].
  - destruct HU as (l0 & E0 & Hl). unfold up_inf. change (gup Rops (bounds_only bp) i) with (cup (dense_of bp H Cd) i). rewrite E0. rops. destruct (Rltb_spec (o_bigBnd o) l0); [lra|discriminate].
Qed.

Lemma filter_seq_shift (f : nat -> bool) c m : length (filter f (seq c m)) = length (filter (fun i => f (c + i)%nat) (seq 0 m)).
Proof.
  induction m as [|m IH]; [reflexivity|]. rewrite !seq_snoc, !filter_app, !app_length, IH. f_equal. cbn [filter length Nat.add]. destruct (f (c + m)%nat); reflexivity.
Qed.
Lemma cold_order junk bp o ws b : cold bp o ws -> forall i, (i < gcb Rops (bounds_only bp))%nat ->
  wanted Rops (bounds_only bp) o (eff_ws junk bp o ws b) i = (if geq Rops (bounds_only bp) i then gstat Rops (bounds_only bp) i else INACTIVE) /\
  kind1 Rops (bounds_only bp) o (eff_ws junk bp o ws b) i = true.
Proof.
  intros HC i Hi. unfold wanted, kind1, warm_on, eff_ws. destruct (geq Rops (bounds_only bp) i) eqn:HE; [auto|]. cbn [orb].
  destruct HC as [(Ho & ->)|(Ho & Hn & Hl & HA)]; rewrite Ho; cbn [andb negb orb]; [auto|].
  destruct ws as [|w0 ws0]; [congruence|]. cbn [is_nil negb andb]. set (l := w0 :: ws0) in *. rewrite (HA (nth i l INACTIVE)) by (apply nth_In; rewrite Hl; exact Hi). auto.
Qed.
Lemma cold_neq junk bp o ws b H Cd : cold bp o ws -> n_eq Rops (bounds_only bp) o (eff_ws junk bp o ws b) = nb_equalities (dense_of bp H Cd).
Proof.
  intros HC. unfold n_eq, order, nb_equalities. rewrite filter_app, app_length, filter_seq_shift, Nat.add_comm.
  assert (HF : forall (f g : nat -> bool) (l : list nat), (forall i, In i l -> f i = g i) -> length (filter f l) = length (filter g l)).
  { clear. intros f g l Hl. rewrite (filter_ext_in f g); auto. }
  assert (HE : forall i, (i < gcb Rops (bounds_only bp))%nat -> isEq (wanted Rops (bounds_only bp) o (eff_ws junk bp o ws b) i) = geq Rops (bounds_only bp) i).
  { intros i Hi. rewrite (proj1 (cold_order junk bp o ws b HC i Hi)). destruct (geq Rops (bounds_only bp) i); [|reflexivity]. unfold gstat. destruct (i <? gc_ Rops (bounds_only bp))%nat; reflexivity. }
  f_equal.
  - apply HF. intros i Hi. apply in_seq in Hi. destruct Hi as [_ Hi]. change (i < gc_ Rops (bounds_only bp))%nat in Hi. rewrite HE by (unfold gcb; lia). unfold geq, glo, gup. rewrite (proj2 (Nat.ltb_lt i (gc_ Rops (bounds_only bp)))) by lia. reflexivity.
  - apply HF. intros i Hi. apply in_seq in Hi. destruct Hi as [_ Hi]. change (i < gb Rops (bounds_only bp))%nat in Hi. rewrite HE by (unfold gcb; lia). unfold geq, glo, gup. rewrite (proj2 (Nat.ltb_ge (gc_ Rops (bounds_only bp) + i) (gc_ Rops (bounds_only bp)))) by lia.
    replace (gc_ Rops (bounds_only bp) + i - gc_ Rops (bounds_only bp))%nat with i by lia. reflexivity.
Qed.
Theorem C50_equality_asserts : forall isz tiny junk bp H Cd o ws b i, isz 0 = true -> bhistory isz tiny b -> (0 < g_n (bp_G bp))%nat ->
  block_problem bp H Cd -> posdef (g_n (bp_G bp)) H -> cold bp o ws ->
  (i < ncb (dense_of bp H Cd))%nat -> is_equality (dense_of bp H Cd) i -> (nb_equalities (dense_of bp H Cd) <= g_n (bp_G bp))%nat ->
  bgi_solve isz tiny junk bp o ws b = UB.
Proof.
  intros isz tiny junk bp H Cd o ws b i Hz HBH Hn [Hsz HCC HG Htip] HP Hc Hi He Hm. pose proof (bhistory_wf _ _ _ HBH) as HW.
  destruct (bprep junk bp o b HW Hsz) as (b1 & HB1 & EG & _ & _ & _ & Es). rewrite Es. clear Es.
  assert (C3 : ((length ws =? c_nbCstr (bp_C bp) + bp_xlsize bp)%nat || is_nil ws = true) /\ o_warm o || is_nil ws = true).
  { destruct Hc as [(_ & ->)|(Ho & _ & Hl & _)]; [rewrite !orb_true_r; auto|]. rewrite (proj2 (Nat.eqb_eq _ _) Hl), Ho. auto. }
  destruct C3 as [C3 C4]. rewrite C3, C4. cbn [guard]. set (ws' := eff_ws junk bp o ws b).
  pose proof (processInitialActiveSet_spec Rops (bounds_only bp) o ws' (s_A (b_s b1))) as HS. change (gn Rops (bounds_only bp)) with (g_n (bp_G bp)) in HS.
  replace (forallb _ _) with true in HS by (symmetry; apply forallb_forall; intros k Hk; apply (cold_order junk bp o ws b Hc); apply order_lt; exact Hk).
  destruct HS as (st & A' & E & K1 & K2 & K3 & K4).
  { rewrite (coh_len _ (proj1 (bh_good _ _ _ _ HB1))), (bh_c _ _ _ _ HB1), (bh_m _ _ _ _ HB1). reflexivity. }
  { exact (bh_c _ _ _ _ HB1). } { exact (bh_m _ _ _ _ HB1). } { exact (eff_size junk bp o ws b HW Hsz C3). }
  unfold ws' in K4. rewrite (cold_neq junk bp o ws b H Cd Hc) in K4. rewrite (proj2 (Nat.ltb_ge _ _)) in K4 by exact Hm. destruct K4 as (-> & [P1 P2 P3 P4 P5 P6 P7]).
  unfold binit. rewrite (bh_n _ _ _ _ HB1), E. cbn [bind fst snd]. rewrite EG.
  destruct (factorised isz (bp_G bp) H Hz HG HP Htip) as (G' & Mi & EL & HSo & _). rewrite EL. cbn [bind fst snd negb]. cbn [b_G bset_QR bset_G bset_s]. rewrite (so_dec _ _ _ _ HSo). cbn [guard].
  cbn [s_A set_A].
  assert (Hq : nact A' <> 0%nat).
  { rewrite (nact_length _ P1), P7. change (gn Rops (bounds_only bp)) with (g_n (bp_G bp)). fold ws'.
    assert (HI : In i (initial Rops (bounds_only bp) o ws')).
    { apply initial_in. split; [exact Hi|]. intros EW. assert (HA := wanted_eq (bounds_only bp) o ws' i). rewrite EW in HA. 
      destruct (geq_is (bounds_only bp) i Hi) as [_|Hx]; [discriminate (HA eq_refl)|apply Hx; exact He]. }
    destruct (initial Rops (bounds_only bp) o ws'); [contradiction|]. cbn [length]. lia. }
  apply Nat.eqb_neq in Hq. rewrite Hq. reflexivity.
Qed.

(** ** A concrete problem: G = [[2,1],[1,2]] in blocks of size 1, x0 >= 1, x1 >= 1 as two blocks of constraints *)
Definition b1 (v : R) : rblk := @Bk Rops 1 1 (fun _ _ => v).
Definition exG : structG Rops := StG TriBlockDiagonal [b1 2; b1 2] [b1 1] 2 false.
Definition exb (up0 : option R) : rbp := BP exG (fun _ => 0) 2 (stc_new [b1 1; b1 1]) (fun _ => Some 1) 2 (fun i => if (i =? 0)%nat then up0 else None) 2 (fun _ => None) 0 (fun _ => None) 0.
Definition exH : rmat := fun i j => if (i =? j)%nat then 2 else 1.
Definition exC : rmat := fun i j => if (i =? j)%nat then 1 else 0.
Ltac two k := let H := fresh in destruct k as [|[|k]]; cbn [nth_error] in *; [| |destruct k; discriminate].
Lemma exb_problem u : block_problem (exb u) exH exC.
Proof.
  split.
  - reflexivity.
  - exists [b1 1; b1 1]. split; [reflexivity|]. split.
    + intros k D i j E Hi Hj. two k; injection E as <-; cbn [brow bcol b1] in Hi, Hj; destruct i, j; try lia; reflexivity.
    + intros k k' D D' i j E E' Hne Hi Hj. two k; two k'; injection E as <-; injection E' as <-; cbn [brow bcol b1] in Hi, Hj; destruct i, j; try lia; reflexivity.
  - split; [reflexivity|]. split.
    + intros i j _ _. unfold exH. rewrite Nat.eqb_sym. reflexivity.
    + split; [split; [reflexivity|]; split|].
      * repeat constructor.
      * intros k B D D1 E E1 E2. destruct k as [|k]; [|destruct k; discriminate]. injection E as <-. injection E1 as <-. injection E2 as <-. auto.
      * split; [|split].
        -- intros k D i j E Hi Hj. two k; injection E as <-; cbn [brow b1] in Hi; destruct i, j; try lia; reflexivity.
        -- intros k B i j E Hi Hj. destruct k as [|k]; [|destruct k; discriminate]. injection E as <-. cbn [brow bcol b1] in Hi, Hj. destruct i, j; try lia; reflexivity.
        -- intros k k' D D' i j E E' Hk _ _. two k; lia.
  - intros Hu. discriminate.
Qed.
Lemma exb_posdef u : posdef (g_n (bp_G (exb u))) exH.
Proof.
  intros v (i & Hi & Hv). change (g_n (bp_G (exb u))) with 2%nat in *. unfold quad, exH. rewrite !sum_S, !sum_0. cbn [Nat.eqb].
  assert (H : v 0%nat <> 0 \/ v 1%nat <> 0) by (destruct i as [|[|i]]; auto; lia).
  replace (0 + v 0%nat * (0 + 2 * v 0%nat + 1 * v 1%nat) + v 1%nat * (0 + 1 * v 0%nat + 2 * v 1%nat)) with ((v 0%nat + v 1%nat) * (v 0%nat + v 1%nat) + v 0%nat * v 0%nat + v 1%nat * v 1%nat) by ring.
  assert (Hs : forall a : R, 0 <= a * a) by (intros a; apply Rle_0_sqr).
  assert (Hp : forall a : R, a <> 0 -> 0 < a * a) by (intros a Ha; apply Rlt_0_sqr; auto).
  pose proof (Hs (v 0%nat + v 1%nat)). pose proof (Hs (v 0%nat)). pose proof (Hs (v 1%nat)). destruct H as [H|H]; apply Hp in H; lra.
Qed.
Lemma exb_eq u i : (i < ncb (dense_of (exb u) exH exC))%nat -> is_equality (dense_of (exb u) exH exC) i -> i = 0%nat /\ u = Some 1.
Proof. intros Hi (c & H1 & H2). unfold clo, cup in *. cbn in *. destruct i as [|[|i]]; cbn in *; [split; [auto|congruence]|discriminate|lia]. Qed.
Lemma exb_gap : tolerance_gap (dense_of (exb None) exH exC).
Proof.
  intros W i z r Hi [P1 P2 P3]. change (nv (dense_of (exb None) exH exC)) with 2%nat in *. change (ncb (dense_of (exb None) exH exC)) with 2%nat in *.
  pose proof (P2 0%nat ltac:(lia)) as E0. pose proof (P2 1%nat ltac:(lia)) as E1. pose proof (P3 0%nat ltac:(lia)) as O0. pose proof (P3 1%nat ltac:(lia)) as O1. pose proof (P1 0%nat) as R0. pose proof (P1 1%nat) as R1. clear P1 P2 P3.
  rewrite !dot_def in *. rewrite !sum_S, !sum_0 in *.
  change (hess (dense_of (exb None) exH exC) 0 0) with 2 in *. change (hess (dense_of (exb None) exH exC) 0 1) with 1 in *. change (hess (dense_of (exb None) exH exC) 1 0) with 1 in *. change (hess (dense_of (exb None) exH exC) 1 1) with 2 in *.
  assert (Hc : forall k a, (k < 2)%nat -> cvec (dense_of (exb None) exH exC) k a = exC a k) by (intros k a Hk; unfold cvec; change (nc (dense_of (exb None) exH exC)) with 2%nat; rewrite (proj2 (Nat.ltb_lt _ _) Hk); reflexivity).
  rewrite !Hc in * by lia. unfold exC in *. cbn [Nat.eqb] in *.
  assert (K : (z 0%nat = 0 /\ z 1%nat = 0) \/ / 100 < 0 + z 0%nat * z 0%nat + z 1%nat * z 1%nat).
  { destruct (W 0%nat); [specialize (O0 eq_refl)|specialize (R0 eq_refl)]; (destruct (W 1%nat); [specialize (O1 eq_refl)|specialize (R1 eq_refl)]); (destruct i as [|[|i]]; [| |lia]); cbn [Nat.eqb] in *.
    - left. lra.
    - left. lra.
    - assert (Z0 : z 0%nat = 0) by lra. rewrite Z0, R1 in *. left. lra.
    - assert (Z0 : z 0%nat = 0) by lra. rewrite Z0, R1 in *. assert (Z1 : z 1%nat = / 2) by lra. rewrite Z1. right. lra.
    - assert (Z0 : z 1%nat = 0) by lra. rewrite Z0, R0 in *. assert (Z1 : z 0%nat = / 2) by lra. rewrite Z1. right. lra.
    - assert (Z0 : z 1%nat = 0) by lra. rewrite Z0, R0 in *. left. lra.
    - rewrite R0, R1 in *. assert (Z1 : z 0%nat = 2 / 3) by lra. assert (Z2 : z 1%nat = - / 3) by lra. rewrite Z1, Z2. right. lra.
    - rewrite R0, R1 in *. assert (Z1 : z 1%nat = 2 / 3) by lra. assert (Z2 : z 0%nat = - / 3) by lra. rewrite Z1, Z2. right. lra. }
  destruct K as [[K0 K1]|K].
  - left. intros a Ha. destruct a as [|[|]]; auto. lia.
  - right. apply GIExample.sqrt_eps. auto.
Qed.
Example C50_nonvacuous : let pb := dense_of (exb None) exH exC in
  block_problem (exb None) exH exC /\ posdef (g_n (bp_G (exb None))) exH /\ (forall i, (i < ncb pb)%nat -> ~ is_equality pb i) /\ GIRun.ordered pb /\ tolerance_gap pb /\
  bhistory (fun x => Reqb x 0) 0 bsol_new /\ (forall B, cold (exb None) (@Opt Rops 1000 B false false) []) /\
  exists B b' x, bgi_solve (fun x => Reqb x 0) 0 (fun _ => 0) (exb None) (@Opt Rops 1000 B false false) [] bsol_new = Ok (SUCCESS, b') /\ solution (b_s b') = Ok x /\ vec_of x 0 = 1 /\ vec_of x 1 = 1.
Proof.
  cbv zeta. assert (HN : forall i, (i < ncb (dense_of (exb None) exH exC))%nat -> ~ is_equality (dense_of (exb None) exH exC) i) by (intros i Hi He; apply exb_eq in He as [_ He]; [discriminate|auto]).
  assert (HO : GIRun.ordered (dense_of (exb None) exH exC)).
  { intros i l u Hi El Eu. exfalso. unfold cup in Eu. cbn in Eu, Hi. destruct i as [|[|i]]; try discriminate; lia. }
  assert (HC : forall B, cold (exb None) (@Opt Rops 1000 B false false) []) by (intros B; left; auto).
  split; [apply exb_problem|]. split; [apply exb_posdef|]. split; [exact HN|]. split; [exact HO|]. split; [apply exb_gap|]. split; [constructor|]. split; [exact HC|].
  assert (Hz : Reqb 0 0 = true) by (destruct (Reqb_spec 0 0); auto; lra).
  destruct (C50_block_total_correctness (fun x => Reqb x 0) (exb None) exH exC Hz (exb_problem None) (exb_posdef None) HN HO exb_gap) as ((B & HL) & HB).
  destruct (HB B HL (@Opt Rops 1000 B false false) (fun _ => 0) [] bsol_new) as (st & b' & E & HR); cbn [o_bigBnd o_maxIter]; [lra|cbn; lia|constructor|apply HC|].
  assert (HF : feasible (dense_of (exb None) exH exC) (fun _ => 1)).
  { split.
    - intros j Hj. cbn in Hj. destruct j as [|[|j]]; [| |lia]; (split; [unfold above_lo; cbn [p_bl p_C dense_of bp_bl exb]; change (nv _) with 2%nat; rewrite dot_def, !sum_S, sum_0; unfold exC; cbn [Nat.eqb]; lra|exact I]).
    - intros j Hj. cbn in Hj. lia. }
  destruct HR as [(-> & x & lam & s'' & X1 & _ & _ & _ & _ & (F1 & F2) & _)|(_ & HI)]; [|exfalso; exact (HI _ HF)].
  exists B, b', x. split; [exact E|]. split; [exact X1|].
  destruct (F2 _ HF) as [G1 _]. destruct F1 as [F1 _]. pose proof (F1 0%nat ltac:(cbn; lia)) as [K0 _]. pose proof (F1 1%nat ltac:(cbn; lia)) as [K1 _].
  revert K0 K1 G1. set (v := vec_of x). unfold objective, quad. change (nv (dense_of (exb None) exH exC)) with 2%nat. rewrite !dot_def. rewrite !sum_S, !sum_0. 
  change (hess (dense_of (exb None) exH exC) 0 0) with 2. change (hess (dense_of (exb None) exH exC) 0 1) with 1. change (hess (dense_of (exb None) exH exC) 1 0) with 1. change (hess (dense_of (exb None) exH exC) 1 1) with 2.
  cbn [p_a p_bl p_C dense_of bp_a bp_bl exb above_lo]. unfold exC. cbn [Nat.eqb]. intros K0 K1 G1.
  assert (V0 : 1 <= v 0%nat) by lra. assert (V1 : 1 <= v 1%nat) by lra. split; nra.
Qed.
Example C50_nonvacuous_equality : let pb := dense_of (exb (Some 1)) exH exC in
  is_equality pb 0 /\ nb_equalities pb = 1%nat /\ block_problem (exb (Some 1)) exH exC /\ posdef (g_n (bp_G (exb (Some 1)))) exH.
Proof.
  cbv zeta. split; [exists 1; split; reflexivity|]. split; [|split; [apply exb_problem|apply exb_posdef]].
  unfold nb_equalities. cbn [p_bl p_bu p_Ccols p_xlsize p_xl p_xu dense_of exb bp_bl bp_bu bp_C c_nbCstr stc_new bp_xlsize]. cbn. destruct (Reqb_spec 1 1); [reflexivity|lra].
Qed.
Example C50_nonvacuous_warm_start : announced (exb None) [LOWER; INACTIVE] bsol_new 0 LOWER /\ usable (dense_of (exb None) exH exC) (@Opt Rops 1000 100 true false) 0 LOWER /\ (0 < ncb (dense_of (exb None) exH exC))%nat.
Proof. split; [left; split; [discriminate|reflexivity]|]. split; [exists 1; cbn; split; [reflexivity|lra]|cbn; lia]. Qed.

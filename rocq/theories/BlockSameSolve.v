(** Non-interference for the block solver: one whole call of solve. *)
From Coq Require Import List Arith ZArith Lia Bool.
From Verif Require Import Base ActiveSet ActiveSetProofs Num Solver LinAlg GIBase GIInv GISafe GICall GIHist GISame Util PropUtil Warm WarmAS Block BlockSpec BlockDense
  Ortho StructC PropStructC StructG BlockGI BlockGen BlockGenQR BlockGenGI AliasProofs BlockSame BlockSameGI BlockSameRun.
Import ListNotations.

(** The same problem with another cost matrix *)
Definition with_cost {S : ops} (bp : bproblem S) (G' : structG S) : bproblem S :=
  @BP S G' (bp_a bp) (bp_asize bp) (bp_C bp) (bp_bl bp) (bp_blsize bp) (bp_bu bp) (bp_busize bp) (bp_xl bp) (bp_xlsize bp) (bp_xu bp) (bp_xusize bp).

Section Same.
Variable S : ops.
Variable isz : carrier S -> bool.
Variable tiny : carrier S.
Notation vec := (vec S).
Notation blk := (blk S).
Notation vagr := (vagr S).
Notation bsol := (bsol S).
Notation bsim := (bsim S).

Lemma wc_bounds (bp : bproblem S) G' : g_n (bp_G bp) = g_n G' -> bounds_only (with_cost bp G') = bounds_only bp.
Proof. intros E. unfold bounds_only, dense_of. cbn [with_cost bp_G bp_a bp_asize bp_C bp_bl bp_blsize bp_bu bp_busize bp_xl bp_xlsize bp_xu bp_xusize]. rewrite E. reflexivity. Qed.
Lemma wc_sel (bp : bproblem S) G' A cx k acc : bsel_cstr (with_cost bp G') A cx k acc = bsel_cstr bp A cx k acc.
Proof. induction k as [|k IH]; [reflexivity|]. cbn [bsel_cstr]. rewrite IH. reflexivity. Qed.
Lemma wc_iter junk (bp : bproblem S) G' o l : g_n (bp_G bp) = g_n G' -> biter isz tiny junk (with_cost bp G') o l = biter isz tiny junk bp o l.
Proof.
  intros E. unfold biter. f_equal. unfold bstep1. destruct (bl_skip l); [reflexivity|]. f_equal. unfold bselect. rewrite (wc_bounds bp G' E). cbn [with_cost bp_C].
  destruct (getV _ _); [|reflexivity]. cbn [bind]. destruct (getV _ _); [|reflexivity]. cbn [bind]. destruct (stc_transposeMult _ _ _ _ _); [|reflexivity]. cbn [bind]. rewrite wc_sel. reflexivity.
Qed.
Lemma wc_loop junk (bp : bproblem S) G' o (E : g_n (bp_G bp) = g_n G') f : forall l, bloop isz tiny junk (with_cost bp G') o f l = bloop isz tiny junk bp o f l.
Proof. induction f as [|f IH]; intros l; [reflexivity|]. cbn [bloop]. rewrite (wc_iter junk bp G' o l E). destruct (biter _ _ _ _ _ _) as [[|]|]; cbn [bind]; auto. Qed.

Definition bisim (a b : term_status * bsol) : Prop :=
  fst a = fst b /\ s_it (b_s (snd a)) = s_it (b_s (snd b)) /\ s_A (b_s (snd a)) = s_A (b_s (snd b)) /\
  (fst a <> NON_POS_HESSIAN -> fst a <> OVERCONSTRAINED_PROBLEM -> bsim 0 (snd a) (snd b)).

Lemma binit_sim (bp : bproblem S) G' o ws n c m b b' : gagr S (bp_G bp) G' -> gbsh S n c m b -> gbsh S n c m b' -> n = g_n (bp_G bp) -> c = c_nbCstr (bp_C bp) -> m = bp_xlsize bp ->
  ws_size S (bounds_only bp) o ws -> b_G b = bp_G bp -> b_G b' = G' -> b_tiny b = b_tiny b' -> s_it (b_s b) = s_it (b_s b') -> s_exp (b_s b) = s_exp (b_s b') ->
  pr bisim (binit isz bp o ws b) (binit isz (with_cost bp G') o ws b').
Proof.
  intros HG HB HB' En Ec Em HW EG EG' Et Ei Ex.
  unfold binit. rewrite (wc_bounds bp G' (ga_n _ _ _ HG)).
  assert (EP : processInitialActiveSet (bounds_only bp) o ws (s_n (b_s b')) (s_A (b_s b')) = processInitialActiveSet (bounds_only bp) o ws (s_n (b_s b)) (s_A (b_s b))).
  { rewrite (bh_n _ _ _ _ _ HB), (bh_n _ _ _ _ _ HB'). unfold processInitialActiveSet.
    rewrite (reset_eq (s_A (b_s b')) (s_A (b_s b))); [reflexivity|apply HB'|apply HB| |].
    - rewrite (bh_c _ _ _ _ _ HB), (bh_c _ _ _ _ _ HB'). reflexivity.
    - rewrite (bh_m _ _ _ _ _ HB), (bh_m _ _ _ _ _ HB'). reflexivity. }
  rewrite EP. clear EP.
  eapply (pr_bind (fun r r' => r = r' /\ good (snd r) /\ (fst r = SUCCESS \/ fst r = OVERCONSTRAINED_PROBLEM))).
  { apply pr_same. intros (st & A) EA. split; [reflexivity|]. split; [|exact (pia_status S _ _ _ _ _ _ _ EA)].
    pose proof HB as [H1 H2 H3 H4 H5 H6 H7 H8 H9 H10 H11 H12].
    pose proof (processInitialActiveSet_spec S (bounds_only bp) o ws (s_A (b_s b))) as HS. change (gn S (bounds_only bp)) with (g_n (bp_G bp)) in HS. rewrite H1, En in EA.
    destruct (forallb _ _); [|rewrite HS in EA; [discriminate|rewrite (coh_len _ (proj1 H2)), H3, H4, Ec, Em; reflexivity|exact (eq_trans H3 Ec)|exact (eq_trans H4 Em)|auto]].
    destruct HS as (st1 & A1 & E1 & G1 & _); [rewrite (coh_len _ (proj1 H2)), H3, H4, Ec, Em; reflexivity|exact (eq_trans H3 Ec)|exact (eq_trans H4 Em)|auto|].
    rewrite EA in E1. injection E1 as _ <-. exact G1. }
  intros (st & A) r' (<- & HA & Hst). cbn [fst snd] in *.
  destruct Hst as [-> | ->].
  2:{ apply pr_ok. split; [reflexivity|]. split; [exact Ei|]. split; [reflexivity|]. cbn [fst]. congruence. }
  rewrite EG, EG'. eapply pr_bind; [apply stg_llt_agr; exact HG|]. intros (ok & GL) (ok' & GL') (Eok & HGL). cbn [fst snd] in *. subst ok'.
  destruct ok; cbn [negb]; [|apply pr_ok; split; [reflexivity|split; [exact Ei|split; [reflexivity|cbn [fst]; congruence]]]].
  cbn [bset_QR bset_G bset_s b_G b_s b_QR b_bact set_A s_A s_x s_n].
  rewrite (bh_n _ _ _ _ _ HB), (bh_n _ _ _ _ _ HB').
  apply pr_guard. intros _ _. apply pr_guard. intros Hq _. apply Nat.eqb_eq in Hq.
  eapply pr_bind; [apply pr_getV|]. intros x0 x0' (-> & ->).
  cbn [with_cost bp_asize bp_a]. eapply pr_bind; [apply solveL_agr; [exact HGL|intros i Hi; reflexivity]|]. intros x1 x1' Hx1.
  eapply pr_bind; [apply solveLt_agr; [exact HGL|exact Hx1]|]. intros x2 x2' Hx2.
  eapply pr_bind; [apply pr_getV|]. intros ? ? _. eapply pr_bind; [apply pr_getV|]. intros ? ? _.
  apply pr_ok. rewrite !vm_id.
  assert (Hx : vagr n (vhead n (fun i => opp S (x2 i)) (w_buf (s_x (b_s b)))) (vhead n (fun i => opp S (x2' i)) (w_buf (s_x (b_s b'))))).
  { intros i Hi. unfold vhead. apply Nat.ltb_lt in Hi as Hi'. rewrite Hi'. f_equal. auto. }
  split; [reflexivity|]. split; [exact Ei|]. split; [reflexivity|]. intros _ _. cbn [snd].
  pose proof (bh_n _ _ _ _ _ HB) as En1. pose proof (bh_n _ _ _ _ _ HB') as En1'.
  split; cbn [bset_QR bset_G bset_s b_G b_s b_QR b_Jn b_tiny set_A set_x set_f s_n]; auto.
  - split; cbn [set_A set_x set_f s_n s_A s_it s_f s_exp s_x s_u w_buf wset]; auto; try congruence.
    + f_equal. apply gdot_ext; auto. intros i Hi. reflexivity.
    + rewrite En1. exact Hx.
    + rewrite Hq. intros i Hi. lia.
  - rewrite (bh_J _ _ _ _ _ HB), (bh_J _ _ _ _ _ HB'). reflexivity.
  - rewrite En1. split.
    + apply qready_reset. apply HB.
    + apply qready_reset. apply HB'.
    + reflexivity.
    + intros i j Hij Hj. cbn in Hj. lia.
    + split; [|constructor]. cbn [sqr_reset r_Q os_clear q_n].
      destruct (bh_Q _ _ _ _ _ HB), (bh_Q _ _ _ _ _ HB'). congruence.
Qed.

Lemma bsolve_same junk junk' (bp : bproblem S) Cs G' o ws ws2 b b' : gbwf S b -> gbwf S b' -> bp_C bp = stc_new Cs -> gagr S (bp_G bp) G' ->
  eff_ws S junk bp o ws b = eff_ws S junk' (with_cost bp G') o ws2 b' ->
  pr bisim (bgi_solve isz tiny junk bp o ws b) (bgi_solve isz tiny junk' (with_cost bp G') o ws2 b').
Proof.
  intros HW HW' HC HG Ews (st, y) (st', y') E E'.
  assert (Hsz : sizes_ok (bounds_only bp) = true) by (unfold bgi_solve in E; apply guard_ok in E; apply E).
  assert (Hsz' : sizes_ok (bounds_only (with_cost bp G')) = true) by (unfold bgi_solve in E'; apply guard_ok in E'; apply E').
  destruct (bprep S junk bp o b HW Hsz) as (b1 & HB1 & EG1 & Et1 & Ei1 & Ex1 & Es). rewrite Es in E.
  destruct (bprep S junk' (with_cost bp G') o b' HW' Hsz') as (b1' & HB1' & EG1' & Et1' & Ei1' & Ex1' & Es'). rewrite Es' in E'. clear Es Es'.
  apply guard_ok in E as [Hl E]. apply guard_ok in E as [_ E]. apply guard_ok in E' as [_ E']. apply guard_ok in E' as [_ E'].
  pose proof (eff_size S junk bp o ws b HW Hsz Hl) as Hsize. rewrite <- Ews in E'. set (w := eff_ws S junk bp o ws b) in *. clearbody w. clear Ews.
  cbn [with_cost bp_G bp_C bp_xlsize] in HB1', EG1'. rewrite <- (ga_n _ _ _ HG) in HB1'.
  apply bind_ok in E as ((sa & y1) & Ia & E). apply bind_ok in E' as ((sb & y1') & Ib & E').
  destruct (binit_sim bp G' o w _ _ _ b1 b1' HG HB1 HB1' eq_refl eq_refl eq_refl Hsize EG1 EG1' (eq_trans Et1 (eq_sym Et1')) (eq_trans Ei1 (eq_sym Ei1')) (eq_trans Ex1 (eq_sym Ex1')) _ _ Ia Ib) as (E1 & E2 & E3 & E4).
  cbn [fst snd] in *. subst sb.
  destruct (binit_keep S isz bp o w _ _ _ b1 sa y1 HB1 eq_refl eq_refl eq_refl Hsize Ia) as [HK _].
  assert (HT : forall st b r, @bterminate S o st b = Ok r -> r = (st, b)).
  { intros s0 s1 r. unfold bterminate. destruct s0; try (intros K; injection K as <-; auto); destruct (o_debug o); try discriminate; intros K; injection K as <-; auto. }
  assert (Hm : (bp_xlsize bp <= g_n (bp_G bp))%nat) by (apply gsizes_spec in Hsz as (_ & _ & _ & _ & [H|H] & _); lia).
  destruct sa; try (apply HT in E, E'; injection E as -> ->; injection E' as -> ->; split; [reflexivity|]; split; [exact E2|]; split; [exact E3|]; exact E4).
  specialize (E4 ltac:(discriminate) ltac:(discriminate)). cbv zeta in E, E'.
  do 3 apply bind_ok in E as (? & _ & E). do 3 apply bind_ok in E' as (? & _ & E').
  apply bind_ok in E as ((st3 & s3) & E5 & E). apply bind_ok in E' as ((st3' & s3') & E5' & E').
  rewrite (wc_loop junk' bp G' o (ga_n _ _ _ HG)), <- E2 in E5'. apply HT in E, E'. injection E as -> ->. injection E' as -> ->.
  assert (HLS : blsim S (BL y1 false (SC 0 INACTIVE)) (BL y1' false (SC 0 INACTIVE))) by (split; [reflexivity|split; [reflexivity|exact E4]]).
  assert (HL : gbsh S (g_n (bp_G bp)) (c_nbCstr (bp_C bp)) (bp_xlsize bp) (bl_s (BL y1 false (SC 0 INACTIVE)))) by exact HK.
  destruct (bloop_sim S isz tiny bp Cs HC junk junk' o _ _ Hm _ _ _ HL HLS (st3, s3) (st3', s3') E5 E5') as [F1 F2].
  cbn [fst snd] in *. split; [exact F1|]. split; [apply (bm_s _ _ _ _ F2)|]. split; [apply (bm_s _ _ _ _ F2)|]. intros _ _. exact F2.
Qed.

(** the flag saying that the multipliers have not been expanded yet *)
Definition xof (b : bsol) : bool := s_exp (b_s b).
Lemma iter_exp junk (bp : bproblem S) o l out : biter isz tiny junk bp o l = Ok out -> match out with BContinue l' => xof (bl_s l') | BStop _ b => xof b end = xof (bl_s l).
Proof.
  intros E. unfold biter in E. apply bind_ok in E as ((m0 & b0) & E1 & E). cbn [fst snd] in E.
  assert (K : match m0 with Some l => xof (bl_s l) | None => xof b0 end = xof (bl_s l)).
  { unfold bstep1 in E1. destruct (bl_skip l). { injection E1 as <- <-. reflexivity. }
    apply bind_ok in E1 as ((sc & b) & Es & E1).
    assert (Hb : xof b = xof (bl_s l)).
    { unfold bselect in Es. repeat (apply bind_ok in Es as (? & _ & Es)). injection Es as _ <-. reflexivity. }
    destruct (sc_st sc); try (injection E1 as <- <-; exact Hb);
      apply bind_ok in E1 as (r0 & _ & E1); apply bind_ok in E1 as (u & _ & E1); injection E1 as <- <-; exact Hb. }
  destruct m0 as [l1|]; [|injection E as <-; exact K]. clear E1. unfold bstep2 in E. apply bind_ok in E as (b & Eb & E).
  assert (Hb : xof b = xof (bl_s l)).
  { rewrite <- K. unfold bcomputeStep in Eb. do 4 apply bind_ok in Eb as (? & _ & Eb). apply guard_ok in Eb as [_ Eb]. do 2 apply bind_ok in Eb as (? & _ & Eb). injection Eb as <-. reflexivity. }
  apply bind_ok in E as (((t1 & t2) & lidx) & _ & E).
  assert (Hrem : forall b1 b2, bremoveConstraint junk b1 lidx = Ok b2 -> xof b2 = xof b1).
  { intros b1 b2 Er. unfold bremoveConstraint in Er. apply guard_ok in Er as [_ Er]. do 2 apply bind_ok in Er as (? & _ & Er). injection Er as <-. reflexivity. }
  assert (Hadd : forall b1 b2, baddConstraint tiny junk b1 (bl_sc l1) = Ok b2 -> xof b2 = xof b1).
  { intros b1 b2 Er. unfold baddConstraint in Er. do 3 apply bind_ok in Er as (? & _ & Er). injection Er as <-. reflexivity. }
  destruct (leb _ _ _). { injection E as <-. exact Hb. }
  destruct (leb _ _ _).
  - apply bind_ok in E as (b2 & E2 & E). apply bind_ok in E as (? & _ & E). apply bind_ok in E as (? & _ & E). injection E as <-. cbn [bl_s]. rewrite (Hrem _ _ E2). exact Hb.
  - apply bind_ok in E as (nz & _ & E). destruct (eqb _ _ _).
    + apply bind_ok in E as (b2 & E2 & E). injection E as <-. cbn [bl_s]. rewrite (Hadd _ _ E2). exact Hb.
    + apply bind_ok in E as (b2 & E2 & E). apply bind_ok in E as (? & _ & E). apply bind_ok in E as (? & _ & E). injection E as <-. cbn [bl_s]. rewrite (Hrem _ _ E2). exact Hb.
Qed.
Lemma loop_exp junk (bp : bproblem S) o fuel : forall l r, bloop isz tiny junk bp o fuel l = Ok r -> xof (snd r) = xof (bl_s l).
Proof.
  induction fuel as [|fuel IH]; intros l r E; cbn [bloop] in E; [injection E as <-; reflexivity|].
  apply bind_ok in E as (out & Eo & E). pose proof (iter_exp _ _ _ _ _ Eo) as K. destruct out as [l2|st b]; [|injection E as <-; exact K].
  apply IH in E. rewrite E, <- K. reflexivity.
Qed.
Lemma binit_exp (bp : bproblem S) o ws b st b' : binit isz bp o ws b = Ok (st, b') -> xof b' = xof b.
Proof.
  intros E. unfold binit in E. apply bind_ok in E as ((st0 & A) & _ & E). cbn [fst snd] in E. destruct st0; try (injection E as _ <-; reflexivity).
  apply bind_ok in E as ((ok & GL) & _ & E). cbn [fst snd] in E. destruct (negb ok); [injection E as _ <-; reflexivity|].
  apply guard_ok in E as [_ E]. apply guard_ok in E as [_ E]. do 5 apply bind_ok in E as (? & _ & E). injection E as _ <-. reflexivity.
Qed.
Lemma bsolve_exp junk (bp : bproblem S) o ws b st b' : gbwf S b -> bgi_solve isz tiny junk bp o ws b = Ok (st, b') -> s_exp (b_s b') = true.
Proof.
  intros HW E. assert (Hsz : sizes_ok (bounds_only bp) = true) by (unfold bgi_solve in E; apply guard_ok in E; apply E).
  destruct (bprep S junk bp o b HW Hsz) as (b1 & _ & _ & _ & _ & Ex & Es). rewrite Es in E. apply guard_ok in E as [_ E]. apply guard_ok in E as [_ E]. apply bind_ok in E as ((st1 & b2) & E1 & E).
  apply binit_exp in E1. unfold xof in E1. rewrite Ex in E1.
  assert (HT : forall st b r, bterminate o st b = Ok r -> snd r = b :> bsol). { intros st0 b0 r Er. unfold bterminate in Er. destruct st0; try (injection Er as <-; reflexivity); destruct (o_debug o); try discriminate; injection Er as <-; reflexivity. }
  destruct st1; try (apply HT in E; cbn [snd] in E; subst b2; exact E1).
  cbv zeta in E. do 3 apply bind_ok in E as (? & _ & E). apply bind_ok in E as (rs & El & E). apply HT in E. cbn [snd] in E. subst b'. apply loop_exp in El. rewrite <- E1. exact El.
Qed.

(** What can be read *)
Lemma csolution_sim e s s' : csim S e s s' -> pr eq (solution s) (solution s').
Proof.
  intros H. unfold solution. rewrite <- (cm_n _ _ _ _ H). eapply pr_bind; [apply pr_getV|]. intros x x' (-> & ->). apply pr_ok.
  apply map_seq_agr. apply H.
Qed.
Lemma cmult_sim s s' : csim S 0 s s' -> s_exp s = true -> pr (fun a b => fst a = fst b) (multipliers s) (multipliers s').
Proof.
  intros H Hx. pose proof H as [H1 H2 H3 H4 H5 H6 H7 H10]. unfold multipliers. rewrite <- H6, <- H2, Hx. rewrite Nat.add_0_r in H10.
  cbn [s_A s_r s_u set_exp]. rewrite <- H2.
  eapply (pr_bind (fun a b => w_buf (s_u a) = w_buf (s_u b))).
  - eapply pr_bind; [apply pr_getV|]. intros r r' (-> & ->). eapply pr_bind; [apply pr_getV|]. intros u u' (-> & ->).
    eapply pr_bind; [apply pr_getV|]. intros u1 u1' _.
    eapply (pr_bind eq); [|intros v ? <-; apply pr_ok; reflexivity].
    apply pr_eq. apply expand_agr. rewrite !vm_id. intros i Hi. unfold vhead. apply Nat.ltb_lt in Hi as Hi'. rewrite Hi'. auto.
  - intros a b Eu. eapply pr_bind; [apply pr_getV|]. intros v v' (-> & ->). rewrite Eu. apply pr_ok. auto.
Qed.
End Same.

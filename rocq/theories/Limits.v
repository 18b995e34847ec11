(** An explicit limit for bigBnd.  If no step the method can take on the problem reaches [B] ([steps_below], a statement about
    the data only), every option bigBnd >= B gives the exact run. *)
From Coq Require Import List Arith ZArith Lia Bool Reals Lra.
From Verif Require Import Base ActiveSet ActiveSetProofs Num Solver LinAlg QRUpdate QPSpec GIMath GIBase GIInv GIDual GIRun GIOpt GIMult GIInit GISafe GICall GIHist GIFinal GITerm GITotal GIMore Warm WarmAS WarmSafe WarmHist WarmOpt WarmInit WarmHot WarmTotal.
Import ListNotations.
Local Open Scope R_scope.

(** [x] minimises on the face [W] with multipliers [lam], and [z] is the direction of constraint [i] on that face, with
    coefficients [r]: the steps that bring a multiplier to zero, or constraint [i] to its side, are shorter than [B]. *)
Definition steps_below (pb : rproblem) (B : R) : Prop :=
  forall w W x lam i z r, (i < ncb pb)%nat -> stationary_on pb w W x lam -> projected pb W i z r ->
  (forall j, (j < ncb pb)%nat -> W j = true -> r j <> 0 -> Rabs (lam j) < B * Rabs (r j)) /\
  (forall b, clo pb i = Some b \/ cup pb i = Some b -> (exists a, (a < nv pb)%nat /\ z a <> 0) ->
     Rabs (b - rdot (nv pb) (cvec pb i) x) < B * rdot (nv pb) (cvec pb i) z).

Lemma ssign_abs st x : Rabs (ssign st * x) = Rabs x.
Proof. unfold ssign. destruct st; rewrite Rabs_mult, ?Rabs_R1, ?Rabs_m1; try lra; replace (-1) with (Ropp 1) by lra; rewrite Rabs_Ropp, Rabs_R1; lra. Qed.

Lemma gradient_shift pb (x z : rvec) t a : gradient pb (fun b => x b - t * z b) a = gradient pb x a - t * rsum (nv pb) (fun b => hess pb a b * z b).
Proof.
  unfold gradient. rewrite (sum_ext _ (fun b => hess pb a b * (x b - t * z b)) (fun b => hess pb a b * x b - t * (hess pb a b * z b))) by (intros; rring).
  rewrite sum_minus, sum_scal. lra.
Qed.

(** the multiplier of the constraint being processed *)
Lemma enter_grad pb l sc : pinv pb (l_s l) -> dinv pb (l_s l) (if l_skip l then Some (l_sc l) else None) -> (l_skip l = true -> sc = l_sc l) ->
  let s := enter l sc in let q := nact (s_A s) in
  0 <= uof s q /\ forall a, (a < nv pb)%nat -> gradient pb (xof s) a = rsum q (fun k => uof s k * Nact pb (s_A s) k a) + uof s q * scn pb sc a.
Proof.
  intros HP [[HD _] _ HL] Hsk. cbv zeta. unfold enter. destruct (l_skip l) eqn:E.
  - rewrite (Hsk eq_refl). split; [apply HL; discriminate|exact HD].
  - cbn [s_A set_u]. set (q := nact (s_A (l_s l))) in *. set (s := set_u (l_s l) (wset (s_u (l_s l)) (upd (uof (l_s l)) q 0))).
    assert (Eq : uof s q = 0) by (unfold uof, s; cbn; unfold upd; rewrite Nat.eqb_refl; reflexivity). rewrite Eq. split; [lra|].
    intros a Ha. change (xof s) with (xof (l_s l)). rewrite (HD a Ha).
    rewrite (sum_ext q (fun k => uof s k * Nact pb (s_A (l_s l)) k a) (fun k => uof (l_s l) k * Nact pb (s_A (l_s l)) k a)); [lra|].
    intros k Hk. f_equal. unfold s, uof. cbn. unfold upd. destruct (Nat.eqb_spec k q); [lia|reflexivity].
Qed.

(** The point of the face reached by undoing the current dual step *)
Section Face.
Variables (pb : rproblem) (s : rsol) (sc : selcstr) (s1 : rsol) (t : R).
Hypothesis HP : pinv pb s.
Hypothesis HS : stepped pb s sc s1.
Hypothesis HD : forall a, (a < nv pb)%nat -> gradient pb (xof s) a = rsum (nact (s_A s)) (fun k => uof s k * Nact pb (s_A s) k a) + t * scn pb sc a.
Let g k := msign (stt (s_A s) (act (s_A s) k)) (uof s k + t * rof s1 k).
Definition fx : rvec := fun b => xof s b - t * zof s1 b.
Definition flam : rvec := fun i => rsum (nact (s_A s)) (fun k => if (i =? act (s_A s) k)%nat then g k else 0).

Lemma flam_at k : (k < nact (s_A s))%nat -> flam (act (s_A s) k) = g k.
Proof.
  intros Hk. unfold flam. rewrite (sum_ext _ _ (fun j => if (j =? k)%nat then g j else 0)); [apply sum_delta; auto|].
  intros j Hj. destruct (Nat.eqb_spec j k) as [->|Hne]; [rewrite Nat.eqb_refl; auto|].
  destruct (Nat.eqb_spec (act (s_A s) k) (act (s_A s) j)) as [Ea|]; auto. apply (act_inj pb s) in Ea; auto; [congruence|apply HP].
Qed.
Lemma face : stationary_on pb (stt (s_A s)) (fun j => negb (status_eqb (stt (s_A s) j) INACTIVE)) fx flam.
Proof.
  pose proof (pi_shape _ _ HP) as HSh. split.
  - intros j Hj. unfold flam. apply sum_zero. intros k Hk. destruct (Nat.eqb_spec j (act (s_A s) k)) as [->|]; auto.
    destruct (act_props pb s k HSh Hk) as (_ & Hn & _). destruct (status_eqb_spec (stt (s_A s) (act (s_A s) k)) INACTIVE); [contradiction|discriminate].
  - intros a Ha. unfold flam. rewrite (sum_act pb s g (fun i => cvec pb i a) HSh). unfold fx. rewrite gradient_shift, (HD a Ha), (st_Gz pb s sc s1) by auto.
    rewrite (sum_ext _ (fun k => g k * cvec pb (act (s_A s) k) a) (fun k => - (uof s k * Nact pb (s_A s) k a) - t * (rof s1 k * Nact pb (s_A s) k a))).
    + rewrite sum_minus, sum_opp, sum_scal. lra.
    + intros k Hk. destruct (act_props pb s k HSh Hk) as (_ & Hn & _). unfold g.
      transitivity (- ((uof s k + t * rof s1 k) * Nact pb (s_A s) k a)); [|lra]. unfold Nact. rewrite nsign_m by auto. rring.
  - intros j Hj Hj2. assert (Hn : stt (s_A s) j <> INACTIVE) by (intros E; rewrite E in Hj2; discriminate).
    destruct (act_surj pb s j HSh Hn) as (k & Hk & Ek). pose proof (tight_value pb s k HP Hk) as HT. cbv zeta in HT.
    assert (Eo : rdot (nv pb) (cvec pb j) fx = rdot (nv pb) (cvec pb j) (xof s)).
    { pose proof (st_orth pb s sc s1 k HP HS Hk) as Ho. unfold Nact in Ho. rewrite Ek in Ho. rewrite dot_def in Ho. rewrite !dot_def. unfold fx.
      rewrite (sum_ext _ (fun b => nsign pb j (stt (s_A s) j) b * zof s1 b) (fun b => ssign (stt (s_A s) j) * (cvec pb j b * zof s1 b))) in Ho by (intros; rewrite nsign_ssign; rring).
      rewrite sum_scal in Ho. rewrite (sum_ext _ _ (fun b => cvec pb j b * xof s b - t * (cvec pb j b * zof s1 b))) by (intros; rring).
      rewrite sum_minus, sum_scal. assert (Ez : rsum (nv pb) (fun b => cvec pb j b * zof s1 b) = 0); [|rewrite Ez; lra].
      apply Rmult_integral in Ho as [Ho|Ho]; auto. exfalso. pose proof (ssign_sq (stt (s_A s) j)). rewrite Ho in *. lra. }
    rewrite Eo. rewrite Ek in HT. destruct (stt (s_A s) j); auto; apply HT.
  - intros c Hc1 Hc2 j Hj. destruct (status_eq_dec (stt (s_A s) j) INACTIVE) as [E|E]; [apply Hc1; rewrite E; reflexivity|].
    apply (active_indep pb s HP c); auto. intros a Ha. etransitivity; [|exact (Hc2 a Ha)]. apply sum_ext. intros i Hi'.
    unfold isact. destruct (negb (status_eqb (stt (s_A s) i) INACTIVE)) eqn:Ei; auto. rewrite Hc1 by auto. lra.
Qed.
End Face.

Lemma calm_limits pb e B o l : finv pb e l -> tolerance_gap pb -> steps_below pb B -> B <= o_bigBnd o -> calm_at pb o l.
Proof.
  intros [HL HDi _] HG HB Ho l1 s1 E1 E2. destruct (step1_spec pb l HL) as [(_ & E & _)|(sc & E & Hsel & Hsk)]; [congruence|].
  rewrite E in E1. injection E1 as <-. cbn [l_s l_sc] in *. set (s := enter l sc) in *.
  assert (HP : pinv pb s) by (apply enter_pinv, HL).
  destruct (computeStep_pinv pb s sc HP (se_valid _ _ _ Hsel)) as (s1' & E' & HR & Hr). assert (s1' = s1) by congruence. subst s1'.
  assert (HS : stepped pb s sc s1) by (split; auto). pose proof (proj1 (se_valid _ _ _ Hsel)) as Hi.
  destruct (enter_grad pb l sc (proj1 HL) HDi Hsk) as [Ht HD]. fold s in Ht, HD.
  set (t := uof s (nact (s_A s))) in *.
  pose proof (face pb s sc s1 t HP HS HD) as HF. pose proof (stepped_projected pb s sc s1 HP HS Hi) as HJ.
  destruct (HB _ _ _ _ _ _ _ Hi HF HJ) as [H1 H2].
  pose proof (st_rel _ _ _ _ HS) as [R1 R2 R3 R4 R5 R6 R7 R8 R9 R10 R11 R12 R13 R14].
  assert (Ex : xof s1 = xof s) by (unfold xof; rewrite R6; auto). assert (Eu : uof s1 = uof s) by (unfold uof; rewrite R7; auto).
  split.
  - destruct (stepped_gap pb s sc s1 HG HP HS Hi) as [Hz|Hz]; [left; exact Hz|right]. split; auto.
    destruct (se_viol _ _ _ Hsel) as (b & Hb & Hv). pose proof (nz_pos pb _ sc s1 HP HR Hz) as Hp.
    intros t2 Et. destruct (len2_spec pb (xof s1) (zof s1) sc b (sh_sizes _ _ (pi_shape _ _ HP)) (se_valid _ _ _ Hsel) (se_neq _ _ _ Hsel) Hb) as (t2' & Et' & Ett).
    { unfold nz in Hp. apply Rgt_not_eq. exact Hp. }
    rewrite Et' in Et. injection Et as Et. rewrite <- Et, Ett, Ex. unfold nz in Hp. set (p := rdot (nv pb) (scn pb sc) (zof s1)) in *.
    apply Rmult_lt_reg_r with p; [exact Hp|]. unfold Rdiv. rewrite Rmult_assoc, Rinv_l, Rmult_1_r by lra.
    set (sg := ssign (sc_st sc)). assert (Hsg : sg * sg = 1) by apply ssign_sq.
    assert (Ez : rdot (nv pb) (cvec pb (sc_idx sc)) (pz sc s1) = p).
    { unfold p. rewrite !dot_def. apply sum_ext. intros a Ha. unfold pz, scn. rewrite nsign_ssign. rring. }
    assert (Exx : rdot (nv pb) (scn pb sc) (xof s) = sg * rdot (nv pb) (cvec pb (sc_idx sc)) (fx s s1 t) + t * p).
    { unfold p. rewrite !dot_def. rewrite <- !sum_scal, <- sum_plus. apply sum_ext. intros a Ha. unfold fx, scn. rewrite nsign_ssign. fold sg. rring. }
    assert (Hne : exists a, (a < nv pb)%nat /\ pz sc s1 a <> 0).
    { destruct (classic_zero (nv pb) (pz sc s1)) as [Hz0|Hz0]; auto. exfalso.
      assert (p = 0); [|lra]. rewrite <- Ez, dot_def. apply sum_zero. intros a Ha. rewrite Hz0 by auto. rring. }
    assert (Hc : exists b0, (clo pb (sc_idx sc) = Some b0 \/ cup pb (sc_idx sc) = Some b0) /\ b = sg * b0).
    { unfold scb, nrhs in Hb. unfold sg, ssign. destruct (sc_st sc); try (exists b; split; [auto|lra]);
        destruct (cup pb (sc_idx sc)) as [v|]; try discriminate; injection Hb as <-; exists v; (split; [auto|lra]). }
    destruct Hc as (b0 & Hb0 & Eb). specialize (H2 b0 Hb0 Hne). rewrite Ez in H2. rewrite Exx, Eb.
    pose proof (Rle_abs (sg * (b0 - rdot (nv pb) (cvec pb (sc_idx sc)) (fx s s1 t)))) as HA. unfold sg in HA. rewrite ssign_abs in HA. fold sg in HA.
    assert (0 <= t * p) by (apply Rmult_le_pos; lra). assert (B * p <= o_bigBnd o * p) by (apply Rmult_le_compat_r; lra). lra.
  - intros k Hk Hc. rewrite Eu. rewrite R4 in Hk, Hc. destruct Hc as [_ Hr0]. destruct (act_props pb s k (pi_shape _ _ HP) Hk) as (Hai & Han & _).
    specialize (H1 _ Hai). rewrite (prr_at pb) in H1 by (auto; apply HP). rewrite (flam_at pb s s1 t HP k Hk) in H1.
    assert (HW : negb (status_eqb (stt (s_A s) (act (s_A s) k)) INACTIVE) = true) by (destruct (status_eqb_spec (stt (s_A s) (act (s_A s) k)) INACTIVE); [contradiction|auto]).
    specialize (H1 HW). rewrite Rmult_assoc, !ssign_abs, (Rabs_right (rof s1 k)) in H1 by lra.
    assert (Hm : Rabs (msign (stt (s_A s) (act (s_A s) k)) (uof s k + t * rof s1 k)) = Rabs (uof s k + t * rof s1 k)) by (unfold msign; destruct (stt (s_A s) (act (s_A s) k)); auto; apply Rabs_Ropp).
    rewrite Hm in H1. assert (Hn0 : ssign (sc_st sc) * (ssign (stt (s_A s) (act (s_A s) k)) * rof s1 k) <> 0).
    { intros E0. pose proof (ssign_abs (sc_st sc) (ssign (stt (s_A s) (act (s_A s) k)) * rof s1 k)) as E3. rewrite E0, ssign_abs, Rabs_R0, Rabs_right in E3; lra. }
    specialize (H1 Hn0). pose proof (Rle_abs (uof s k + t * rof s1 k)). assert (0 <= t * rof s1 k) by (apply Rmult_le_pos; lra).
    assert (B * rof s1 k <= o_bigBnd o * rof s1 k) by (apply Rmult_le_compat_r; lra).
    apply Rmult_lt_reg_r with (rof s1 k); [exact Hr0|]. unfold Rdiv. rewrite Rmult_assoc, Rinv_l, Rmult_1_r by lra. lra.
Qed.

Lemma calm_always pb e B o l0 : finv pb e l0 -> tolerance_gap pb -> steps_below pb B -> B <= o_bigBnd o ->
  forall k l, reach pb o k l0 l -> calm_at pb o l.
Proof.
  intros HF HG HB Ho k. induction k as [k IH] using lt_wf_ind. intros l HR.
  apply (calm_limits pb e B); auto. apply (reach_finv pb o e k l0); auto.
  intros j l1 Hj HR1. exact (IH j Hj l1 HR1).
Qed.

(** The run of the loop from such a state *)
Lemma loop_at pb e B o M s0 : finv pb e (start s0) -> posdef (nv pb) (hess pb) -> tolerance_gap pb -> steps_below pb B -> B <= o_bigBnd o ->
  (max_steps (ncb pb) <= M)%nat ->
  exists st s', loop pb o M (start s0) = Ok (st, s') /\ (st = SUCCESS \/ st = INFEASIBLE).
Proof.
  intros HF HPd HG HB Ho HM. destruct (loop_total pb o M (start s0) (fi_linv _ _ _ HF)) as (st & s' & El & Hst & _).
  exists st, s'. split; auto. destruct Hst as [-> | [-> | ->]]; auto. exfalso.
  destruct (loop_reach pb o _ _ _ _ El) as [(_ & l1 & HR1 & _)|(k & l1 & Hk & HR1 & Ei1)].
  - assert ((M < max_steps (ncb pb))%nat); [|lia]. apply (reach_bounded' pb o e M s0 l1); auto.
    intros j l2 _ HR2. apply (calm_always pb e B o (start s0)  HF HG HB Ho j); auto.
  - pose proof (reach_linv _ _ _ _ _ (fi_linv _ _ _ HF) HR1) as HL1. destruct (iter_spec pb o l1 HL1) as (out & Eo & HC1).
    rewrite Ei1 in Eo. injection Eo as <-. pose proof (iter_linv pb o l1 _ HL1 HC1) as HX.
    simpl in HX. destruct HX as [(HX & _)|(HX & _)]; discriminate.
Qed.

Lemma total_call_at junk pb o s B : history Rops s -> sizes_ok pb = true -> posdef (nv pb) (hess pb) ->
  equalities_first pb -> eq_independent pb -> tolerance_gap pb -> steps_below pb B -> B <= o_bigBnd o -> (max_steps (nc pb + nb pb) <= o_maxIter o)%nat ->
  exact_tests junk pb o s /\ exists st s', gi_solve junk pb o s = Ok (st, s') /\ (st = SUCCESS \/ st = INFEASIBLE).
Proof.
  intros HH Hsz Hpd Hfirst Hind HG HB Ho HM. pose proof (gap_separated pb HG Hind) as Hsep.
  destruct (equalities_first_ex pb Hfirst) as (e & Hle & He).
  destruct (solve_spec junk pb o s (hist_wf_sol s HH) Hsz) as [(Hn & _)|(_ & H0)]; [contradiction|].
  destruct (H0 Hsep) as (s0 & Hbeg & El & HE & Hit & Hex). assert (HF : finv pb e (start s0)) by (apply start_finv; auto).
  split.
  - intros s2 Hb2 k l Hk HR. unfold begins in *. assert (s2 = s0) by congruence. subst s2. apply (calm_always pb e B o (start s0) HF HG HB Ho k); auto.
  - rewrite El. apply (loop_at pb e B); auto.
Qed.

(** Total correctness with an explicit limit *)
Lemma total_correct_at pb B : sizes_ok pb = true -> posdef (nv pb) (hess pb) -> ordered pb ->
  equalities_first pb -> eq_independent pb -> tolerance_gap pb -> steps_below pb B ->
  forall o junk s, B <= o_bigBnd o -> (max_steps (nc pb + nb pb) <= o_maxIter o)%nat -> history Rops s ->
   exists st s', gi_solve junk pb o s = Ok (st, s') /\
    ((st = SUCCESS /\ exists x lam s'', solution s' = Ok x /\ multipliers s' = Ok (lam, s'') /\
        length x = nv pb /\ length lam = ncb pb /\ kkt pb (vec_of x) (vec_of lam) /\ unique_minimiser pb (vec_of x) /\
        objectiveValue s' = objective pb (vec_of x))
     \/ (st = INFEASIBLE /\ infeasible pb)).
Proof.
  intros Hsz Hpd Hord Hfirst Hind HG HB o junk s Ho HM HH. apply total_correct_from; auto; [apply gap_separated; auto|].
  apply (total_call_at _ pb o _ B); auto. constructor.
Qed.

(** The same for a call of the warm-startable solver *)
Lemma warm_total_at junk pb o ws x B : let ws' := ws_eff Rops junk pb o ws x in
  xhistory Rops x -> args_ok Rops pb o ws = true -> posdef (nv pb) (hess pb) -> equalities_first pb ->
  forallb (kind1 Rops pb o ws') (WarmAS.order Rops pb) = true -> (n_eq Rops pb o ws' <= nv pb)%nat ->
  warm_ok junk pb o ws x -> bounds_later pb o ws' -> tolerance_gap pb -> multiplier_gap pb (rwanted pb o ws') ->
  steps_below pb B -> B <= o_bigBnd o -> (max_steps (ncb pb) + nv pb <= o_maxIter o)%nat ->
  xexact_tests junk pb o ws x /\ exists st x', xgi_solve junk pb o ws x = Ok (st, x') /\ (st = SUCCESS \/ st = INFEASIBLE).
Proof.
  intros ws' HH Ha HPd Hfirst HK Hn Hwo Hb HG HM HB Ho Hmax.
  pose proof (xhist_wf Rops x real_safe HH) as HW. destruct (equalities_first_ex pb Hfirst) as (e & Hle & He).
  assert (Hs : sizes_ok pb = true) by (unfold args_ok in Ha; rewrite !andb_true_iff in Ha; tauto).
  assert (Hl : fst (@llt Rops (nv pb) (p_G pb)) = None) by (apply (llt_iff (nv pb) (p_G pb)); exact HPd).
  pose proof Hwo as [Hp Hq Hh]. fold ws' in Hp, Hq, Hh. pose proof (eq_lo_honest pb ws' Hh) as HE.
  pose proof (xsolve Rops junk pb o ws x real_safe (leb_refl_R _) HW Ha) as HX. cbv zeta in HX. fold ws' in HX. specialize (HX (or_introl HE)).
  rewrite HK in HX. cbn [negb] in HX. change (gn Rops pb) with (nv pb) in HX. apply Nat.ltb_ge in Hn as Hn'. rewrite Hn', Hl in HX.
  destruct HX as (x4 & x5 & x6 & x0 & HXI & Hbeg & Eq).
  pose proof (xinits_started _ _ _ _ _ _ _ HXI Hl Hp Hq Hh) as HSt. pose proof (started_linv _ _ HSt) as HL0.
  pose proof (xi_start _ _ _ _ _ _ _ _ HXI) as HXS.
  pose proof (started_gap pb (rwanted pb o ws') x0 HSt HM (xs_st _ _ _ _ _ HXS)) as HGp.
  assert (HF : finv pb e (start (x_s x0))).
  { split; simpl; auto.
    - split; [apply HSt| |congruence]. intros k Hk Hq'. destruct (Rle_lt_dec 0 (uof (x_s x0) k)) as [|Hlt]; auto. exfalso.
      specialize (HGp k Hk Hq' Hlt). pose proof (sd_u _ _ HSt k Hk Hq'). lra.
    - eapply xinits_ali; eauto. }
  assert (Hit : (s_it (x_s x0) <= nv pb)%nat) by (pose proof (xs_it _ _ _ _ _ HXS) as H1; change (gn Rops pb) with (nv pb) in H1; lia).
  split.
  - intros x1 Hb1. unfold xbegins in *. assert (x1 = x0) by congruence. subst x1. split; [exact HGp|].
    intros k l1 Hk HR1. apply (calm_always pb e B o (start (x_s x0)) HF HG HB Ho k); auto.
  - destruct (loop_at pb e B o (o_maxIter o - s_it (x_s x0)) (x_s x0)) as (st1 & s2 & El2 & Hst); auto; [lia|].
    exists st1, (xset_s x0 s2). change (L (x_s x0) false (SC 0 INACTIVE)) with (start (x_s x0)) in Eq. rewrite Eq, El2. split; [|exact Hst].
    destruct Hst as [-> | ->]; reflexivity.
Qed.

(** Whole-call results for the dense solver over exact reals. *)
From Coq Require Import List Arith ZArith Lia Bool Reals Lra.
From Verif Require Import Base ActiveSet ActiveSetProofs Num Solver LinAlg QRUpdate QPSpec GIMath GIBase GIInv GIDual GIRun GIOpt GIMult GIInit GISafe GICall GIHist.
Import ListNotations.
Local Open Scope R_scope.

Lemma real_safe : safe_ops Rops.
Proof.
  split.
  - intros a b _. rops. destruct (Reqb_spec a a); auto; congruence.
  - intros key n. rops. apply Rltb_false.
    replace (rsum n (fun _ => 0 * 0)) with 0 by (symmetry; apply sum_zero; intros; rring).
    rewrite sqrt_0. pose proof eps_gt0. unfold eps in *. lra.
Qed.
Lemma leb_refl_R (b : R) : leb Rops b b = true.
Proof. rops. apply Rleb_true. lra. Qed.

Lemma gwf_wf s : gwf Rops s -> wf_sol s.
Proof. intros []. split; auto. Qed.
Lemma hist_wf_sol s : history Rops s -> wf_sol s.
Proof. intros H. apply gwf_wf. apply hist_wf; auto. apply real_safe. Qed.

(** A list as a vector *)
Definition vec_of (l : list R) : rvec := fun i => nth i l 0.

Lemma nth_map_seq (f : nat -> R) n i : (i < n)%nat -> nth i (map f (seq 0 n)) 0 = f i.
Proof.
  intros H. rewrite (nth_indep _ 0 (f 0%nat)) by (rewrite map_length, seq_length; auto).
  rewrite map_nth, seq_nth by auto. auto.
Qed.
Lemma solution_spec pb s x : shape pb s -> solution s = Ok x ->
  length x = nv pb /\ forall i, (i < nv pb)%nat -> vec_of x i = xof s i.
Proof.
  intros HS. unfold solution. rewrite (sh_n _ _ HS). rewrite getV_ok by apply HS. cbn [bind].
  intros E. injection E as <-. rewrite map_length, seq_length. split; auto. intros i Hi. unfold vec_of, xof. apply nth_map_seq. auto.
Qed.

Lemma start_linv pb k s0 : einv pb k s0 -> linv pb (start s0).
Proof. intros HE. split; simpl; [apply HE|discriminate]. Qed.

(** Possible ends of a call *)
Inductive ended (junk : vec Rops) (pb : rproblem) (o : ropt) (s : rsol) : term_status -> rsol -> Prop :=
| en_nonpos s' : ~ posdef (nv pb) (hess pb) -> shape pb s' -> ended junk pb o s NON_POS_HESSIAN s'
| en_max s0 l : begins junk pb o s s0 -> einv pb (ncb pb) s0 -> reach pb o (o_maxIter o) (start s0) l -> linv pb l -> s_exp (l_s l) = true ->
    ended junk pb o s MAX_ITER_REACHED (l_s l)
| en_success s0 k l : begins junk pb o s s0 -> einv pb (ncb pb) s0 -> (k < o_maxIter o)%nat -> reach pb o k (start s0) l -> linv pb l -> s_exp (l_s l) = true ->
    iter_case pb o l (Stop SUCCESS (l_s l)) -> ended junk pb o s SUCCESS (l_s l)
| en_infeas s0 k l s' : begins junk pb o s s0 -> einv pb (ncb pb) s0 -> (k < o_maxIter o)%nat -> reach pb o k (start s0) l -> linv pb l ->
    iter_case pb o l (Stop INFEASIBLE s') -> shape pb s' -> ended junk pb o s INFEASIBLE s'.

Lemma iter_exp pb o l l' : linv pb l -> iter pb o l = Ok (Continue l') -> s_exp (l_s l') = s_exp (l_s l).
Proof.
  intros HL E. destruct (iter_spec pb o l HL) as (out & E' & HC). assert (out = Continue l') by congruence. subst out.
  remember (Continue l') as out eqn:Eo.
  destruct HC as [smin sc Hsk HI Hst|sc b s1 t1 i out' Es Ec Hsel Hb Hs HS HL1 HC]; [discriminate|]. subst out'.
  assert (E0 : s_exp (enter l sc) = s_exp (l_s l)) by (unfold enter; destruct (l_skip l); auto).
  inversion HC as [|s2 s' Ht1 Hbl Hl M Hrm|s2 s' Hz' Ht2 Ht12 M Had|s2 s' Hz' Ht2 Ht12 Hl M Hrm]; subst l'; simpl.
  - rewrite (rm_exp _ _ _ _ Hrm), (mv_exp _ _ _ _ _ _ _ M). auto.
  - rewrite (ad_exp _ _ _ _ Had), (mv_exp _ _ _ _ _ _ _ M). auto.
  - rewrite (rm_exp _ _ _ _ Hrm), (mv_exp _ _ _ _ _ _ _ M). auto.
Qed.
Lemma reach_exp pb o k l l' : linv pb l -> reach pb o k l l' -> s_exp (l_s l') = s_exp (l_s l).
Proof.
  intros HL H. induction H as [l|k l l1 l2 H IH E]; auto. simpl. rewrite (iter_exp pb o l1); auto.
  eapply reach_linv; eauto.
Qed.

Lemma solve_ended junk pb o s st s' : history Rops s -> gi_solve junk pb o s = Ok (st, s') -> eq_separated pb ->
  ended junk pb o s st s'.
Proof.
  intros HH E Hsep. assert (Hsz : sizes_ok pb = true) by (unfold gi_solve in E; apply guard_ok in E; apply E).
  destruct (solve_spec junk pb o s (hist_wf_sol s HH) Hsz) as [(Hn & s1 & E1 & HS)|(Hp & H)].
  - rewrite E in E1. injection E1 as -> ->. apply en_nonpos; auto.
  - destruct (H Hsep) as (s0 & Hbeg & El & HE & Hit & Hex). rewrite El in E.
    pose proof (start_linv pb _ s0 HE) as HL0.
    destruct (loop_reach pb o _ _ _ _ E) as [(-> & l & HR & ->)|(k & l & Hk & HR & Ei)].
    + apply (en_max junk pb o s s0); auto. { eapply reach_linv; eauto. } rewrite (reach_exp pb o _ _ _ HL0 HR). auto.
    + assert (HL : linv pb l) by (eapply reach_linv; eauto).
      destruct (iter_spec pb o l HL) as (out & Eo & HC). assert (out = Stop st s') by congruence. subst out.
      pose proof (iter_linv pb o l _ HL HC) as HX. simpl in HX. destruct HX as [(-> & ->)|(-> & HS)].
      * apply (en_success junk pb o s s0 k l); auto. rewrite (reach_exp pb o _ _ _ HL0 HR). auto.
      * apply (en_infeas junk pb o s s0 k l); auto.
Qed.

Lemma ended_shape junk pb o s st s' : ended junk pb o s st s' -> shape pb s'.
Proof. intros [| | |]; auto; eapply pi_shape; match goal with H : linv _ _ |- _ => apply H end. Qed.

(** ** SUCCESS implies feasible *)
Lemma feasible_ext pb x y : (nb pb <= nv pb)%nat -> (forall i, (i < nv pb)%nat -> x i = y i) -> feasible pb x -> feasible pb y.
Proof.
  intros Hb H. rewrite !feasible_iff by auto. intros HF i Hi.
  replace (rdot (nv pb) (cvec pb i) y) with (rdot (nv pb) (cvec pb i) x); [apply HF; auto|].
  apply dot_ext; auto.
Qed.
Lemma final_feasible junk pb o s s' x : history Rops s -> gi_solve junk pb o s = Ok (SUCCESS, s') -> solution s' = Ok x ->
  ordered pb -> eq_separated pb -> length x = nv pb /\ feasible pb (vec_of x).
Proof.
  intros HH E Ex Hord Hsep. pose proof (solve_ended _ _ _ _ _ _ HH E Hsep) as HE.
  destruct (solution_spec pb s' x (ended_shape _ _ _ _ _ _ HE) Ex) as [Hlen Hx]. split; auto.
  inversion HE as [| |s0 k l Hb H0 Hk HR HL Hexp HC|]; subst.
  apply (feasible_ext pb (xof (l_s l))); [apply sizes_nb, HL|intros; symmetry; apply Hx; auto|].
  eapply success_feasible; eauto.
Qed.

(** ** Objective value *)
Lemma removed_dstat pb s sc l s' : pinv pb s -> (l < nact (s_A s))%nat -> removed pb s l s' ->
  uof s l = 0 -> dstat pb s (Some sc) -> dstat pb s' (Some sc).
Proof.
  intros HP Hl HR Hu [D1 D2]. pose proof (rm_A _ _ _ _ HR) as HA. pose proof (ar_nact _ _ _ HA) as EN.
  pose proof (pi_shape _ _ HP) as Hsh.
  assert (Ex : xof s' = xof s) by (unfold xof; rewrite (rm_x _ _ _ _ HR); auto).
  assert (Eu : forall k, (k < nact (s_A s'))%nat -> uof s' k = if (k <? l)%nat then uof s k else uof s (S k)).
  { intros k Hk. rewrite (rm_u _ _ _ _ HR). destruct (Nat.leb_spec l k), (Nat.ltb_spec k l), (Nat.ltb_spec k (nact (s_A s))); try lia; auto. }
  assert (Eq : uof s' (nact (s_A s')) = uof s (nact (s_A s))).
  { rewrite (rm_u _ _ _ _ HR). rewrite EN. destruct (Nat.leb_spec l (nact (s_A s'))), (Nat.ltb_spec (nact (s_A s')) (S (nact (s_A s')))); try lia; auto. }
  split.
  - intros a Ha. rewrite Ex, D1 by auto. rewrite Eq. f_equal.
    rewrite EN, (sum_drop _ l) by lia. rewrite Hu.
    rewrite Rmult_0_l, Rplus_0_r. apply sum_ext. intros k Hk. rewrite Eu by auto.
    destruct (Nact_removed pb s l (s_A s') k Hsh HA Hl Hk) as (-> & _). unfold shiftN. destruct (k <? l)%nat; auto.
  - rewrite (rm_f _ _ _ _ HR), Ex. auto.
Qed.

Definition lstat (pb : rproblem) (l : rlst) : Prop := dstat pb (l_s l) (if l_skip l then Some (l_sc l) else None).

Lemma enter_dstat pb l sc : pinv pb (l_s l) -> (l_skip l = true -> sc = l_sc l) -> lstat pb l -> dstat pb (enter l sc) (Some sc).
Proof.
  intros HP Hs HD. unfold lstat in HD. unfold enter. destruct (l_skip l).
  - rewrite (Hs eq_refl). auto.
  - apply dstat_zeroed. auto.
Qed.

Lemma iter_lstat pb o l l' : linv pb l -> lstat pb l -> calm_at pb o l -> iter_case pb o l (Continue l') -> lstat pb l'.
Proof.
  intros HL HD Hcalm HC. remember (Continue l') as out eqn:Eo.
  destruct HC as [smin sc Hsk HI Hst|sc b s1 t1 i out' Es Ec Hsel Hb Hs HS HL1 HC]; [discriminate|]. subst out'.
  destruct (calm_use pb o l sc s1 b HL Hcalm Es Ec Hsel Hb HS) as (Hz & Hcb).
  set (s0 := enter l sc) in *.
  assert (HP0 : pinv pb s0) by (apply enter_pinv; apply HL).
  assert (HD0 : dstat pb s0 (Some sc)) by (apply enter_dstat; auto; apply HL).
  assert (EA : s_A s0 = s_A (l_s l)) by apply enter_A. rewrite <- EA in *.
  pose proof Hsel as [V1 V2 V3 _]. destruct HL1 as [L1 L2 L3].
  assert (Hrem : forall tau s2 s', moved pb s0 sc s1 tau t1 s2 -> removed pb s2 i s' -> t1 < o_bigBnd o ->
     (tau = t1 \/ forall i, (i < nv pb)%nat -> zof s1 i = 0) -> dstat pb s' (Some sc)).
  { intros tau s2 s' M Hrm Hlt Htau. destruct L3 as [L3|(K1 & K2 & K3)]; [lra|].
    assert (EA2 : s_A s2 = s_A s0) by apply M.
    apply (removed_dstat pb s2 sc i); auto.
    - eapply moved_pinv; eauto.
    - rewrite EA2; auto.
    - rewrite (mv_u _ _ _ _ _ _ _ M). apply Nat.ltb_lt in K1 as K1'. rewrite K1'.
      rewrite K3. destruct K2 as [_ K2]. field. lra.
    - apply (moved_dstat pb s0 sc s1 tau t1 s2); auto. }
  inversion HC as [|s2 s' Ht1 Hbl Hl M Hrm|s2 s' Hz' Ht2 Ht12 M Had|s2 s' Hz' Ht2 Ht12 Hl M Hrm]; subst l'; unfold lstat; simpl.
  - apply (Hrem 0 s2); auto. right. destruct Hz as [Hz|(Hz1 & Hz2)]; auto. exfalso.
    destruct Hbl as [Hbl|Hbl]; [lra|]. unfold t2of in Hz2. lra.
  - assert (EA2 : s_A s2 = s_A s0) by apply M.
    apply (added_dstat pb s2 sc); auto; [eapply moved_pinv; eauto|rewrite EA2; auto|].
    apply (moved_dstat pb s0 sc s1 (t2of pb sc s0 s1 b) (t2of pb sc s0 s1 b) s2); auto.
  - apply (Hrem t1 s2); auto. lra.
Qed.
Lemma reach_lstat pb o k l l' : linv pb l -> lstat pb l ->
  (forall j l1, (j < k)%nat -> reach pb o j l l1 -> calm_at pb o l1) -> reach pb o k l l' -> lstat pb l'.
Proof.
  intros HL HF Hcalm H. induction H as [l|k l l1 l2 H IH E]; auto.
  assert (HF1 : lstat pb l1) by (apply IH; auto; intros j l3 Hj; apply Hcalm; lia).
  assert (HL1 : linv pb l1) by (eapply reach_linv; eauto).
  destruct (iter_spec pb o l1 HL1) as (out & E' & HC).
  assert (out = Continue l2) by congruence. subst out.
  assert (H2 : lstat pb l2) by (eapply iter_lstat; eauto).
  unfold lstat in *. simpl. destruct (l_skip l2); destruct H2; split; auto.
Qed.

(** During this call every tolerance test gives the exact answer *)
Definition exact_tests (junk : vec Rops) (pb : rproblem) (o : ropt) (s : rsol) : Prop :=
  forall s0, begins junk pb o s s0 -> calm_run pb o (o_maxIter o) (start s0).

Lemma start_lstat pb s0 : einv pb (ncb pb) s0 -> lstat pb (start s0).
Proof. intros H. unfold lstat. simpl. apply H. Qed.

Lemma final_objective junk pb o s st s' x : history Rops s -> gi_solve junk pb o s = Ok (st, s') -> solution s' = Ok x ->
  st = SUCCESS \/ st = MAX_ITER_REACHED ->
  eq_separated pb -> exact_tests junk pb o s -> objectiveValue s' = objective pb (vec_of x).
Proof.
  intros HH E Ex Hst Hsep Hcalm. pose proof (solve_ended _ _ _ _ _ _ HH E Hsep) as HE.
  destruct (solution_spec pb s' x (ended_shape _ _ _ _ _ _ HE) Ex) as [Hlen Hx].
  rewrite (objective_ext pb (vec_of x) (xof s')) by auto. unfold objectiveValue.
  assert (H : forall s0 k l, begins junk pb o s s0 -> einv pb (ncb pb) s0 -> (k <= o_maxIter o)%nat -> reach pb o k (start s0) l -> s_f (l_s l) = objective pb (xof (l_s l))).
  { intros s0 k l Hb H0 Hk HR. eapply ds_f. eapply (reach_lstat pb o k (start s0) l); eauto.
    - eapply start_linv; eauto. - apply start_lstat. auto.
    - intros j l1 Hj HR1. eapply (Hcalm s0 Hb j); eauto. lia. }
  destruct Hst as [-> | ->].
  - inversion HE as [| |s0 k l Hb H0 Hk HR HL Hexp HC|]; subst. apply (H s0 k l); auto; lia.
  - inversion HE as [|s0 l Hb H0 HR HL Hexp| |]; subst. eapply H; eauto.
Qed.

(** ** Optimality *)
Lemma mult_vec pb s lam s' : shape pb s -> s_exp s = true -> multipliers s = Ok (lam, s') ->
  exists v, is_mult pb s (uof s) v /\ length lam = ncb pb /\ (forall i, (i < ncb pb)%nat -> vec_of lam i = v i) /\
    (forall i, (ncb pb <= i)%nat -> vec_of lam i = 0) /\
    multipliers s' = Ok (lam, s').
Proof.
  intros HS He E. destruct (multipliers_fresh pb s HS He) as (v & s1 & E1 & HM & K1 & K2 & K3 & K4 & K5 & K6 & K7 & K8).
  rewrite E in E1. injection E1 as -> ->. exists v. split; auto. rewrite map_length, seq_length. split; auto.
  split; [intros; unfold vec_of; apply nth_map_seq; auto|].
  split; [intros; unfold vec_of; apply nth_overflow; rewrite map_length, seq_length; auto|].
  rewrite (multipliers_again pb s1) by auto. rewrite K7. auto.
Qed.

(** equalities before inequalities, in the numbering "general constraints then bounds" *)
Definition equalities_first (pb : rproblem) : Prop :=
  forall i j, (i < j)%nat -> (j < ncb pb)%nat -> is_equality pb j -> is_equality pb i.
Lemma equalities_first_ex pb : equalities_first pb -> exists e, (e <= ncb pb)%nat /\ eq_first pb e.
Proof.
  intros H. unfold eq_first.
  assert (K : forall k, (k <= ncb pb)%nat -> exists e, (e <= k)%nat /\ forall i, (i < k)%nat -> (is_equality pb i <-> (i < e)%nat)).
  { induction k as [|k IH]; intros Hk; [exists 0%nat; split; auto; intros; lia|].
    destruct IH as (e & He & Hi); [lia|]. destruct (eqb_c_spec pb k) as [Hq|Hq].
    - exists (S k). split; auto. intros i Hik. split; [lia|]. intros _. destruct (Nat.eq_dec i k) as [->|]; auto. apply (H i k); auto; lia.
    - exists e. split; [lia|]. intros i Hik. destruct (Nat.eq_dec i k) as [->|]; [|apply Hi; lia].
      split; [contradiction|lia]. }
  apply (K (ncb pb)). auto.
Qed.

Lemma start_finv pb e s0 : einv pb (ncb pb) s0 -> eq_first pb e -> (e <= ncb pb)%nat -> finv pb e (start s0).
Proof.
  intros HE He Hle. split; simpl.
  - eapply start_linv; eauto.
  - pose proof (ei_dstat _ _ _ HE) as HD. split; auto; [|congruence].
    intros k Hk HQ. exfalso. destruct (einv_act pb (ncb pb) s0 k HE Hk) as [Ha Hq].
    rewrite (ei_stt _ _ _ HE) in HQ. apply Nat.ltb_lt in Ha. rewrite Ha in HQ.
    destruct (eqb_c_spec pb (act (s_A s0) k)); [|contradiction]. simpl in HQ. rewrite eqstat_eq in HQ. discriminate.
  - apply einv_ali; auto.
Qed.

Lemma final_kkt junk pb o s s' x lam s'' : history Rops s -> gi_solve junk pb o s = Ok (SUCCESS, s') -> solution s' = Ok x ->
  multipliers s' = Ok (lam, s'') -> ordered pb -> eq_separated pb -> equalities_first pb -> exact_tests junk pb o s ->
  length x = nv pb /\ length lam = ncb pb /\ kkt pb (vec_of x) (vec_of lam) /\ unique_minimiser pb (vec_of x).
Proof.
  intros HH E Ex Em Hord Hsep Hfirst Hcalm. destruct (equalities_first_ex pb Hfirst) as (e & Hle & He).
  pose proof (solve_ended _ _ _ _ _ _ HH E Hsep) as HE.
  destruct (final_feasible _ _ _ _ _ _ HH E Ex Hord Hsep) as [Hlen HF].
  destruct (solution_spec pb s' x (ended_shape _ _ _ _ _ _ HE) Ex) as [_ Hx].
  inversion HE as [| |s0 k l Hb H0 Hk HR HL Hexp HC|]; subst.
  destruct (mult_vec pb (l_s l) lam s'') as (v & HM & Hlam & Hv & _ & _); auto; [apply HL|].
  assert (HK : kkt pb (vec_of x) (vec_of lam)).
  { assert (Hnb : (nb pb <= nv pb)%nat) by apply sizes_nb, HL.
    apply (kkt_ext pb (xof (l_s l)) (vec_of x) v (vec_of lam)); auto; [intros; symmetry; apply Hx; auto|intros; symmetry; auto|].
    assert (HFi : finv pb e l).
    { eapply (reach_finv pb o e k (start s0)); eauto; [apply start_finv; auto|].
      intros j l1 Hj HR1. eapply (Hcalm s0 Hb j); eauto. lia. }
    apply dinv_kkt; auto; [apply HL| |].
    - pose proof (fi_dinv _ _ _ HFi) as HD. inversion HC as [smin sc Hsk _ _|]; subst; [rewrite Hsk in HD; auto|].
      exfalso. match goal with H : step2_case _ _ _ _ _ _ _ _ _ |- _ => inversion H end.
    - eapply success_feasible; eauto. }
  split; auto. split; auto. split; auto.
  apply (kkt_unique_minimiser pb _ (vec_of lam)); auto; [apply sizes_nb, HL|].
  destruct (solve_spec junk pb o s (hist_wf_sol s HH)) as [(_ & s1 & E1 & _)|(Hp & _)]; auto; [apply HL|congruence].
Qed.

(** ** INFEASIBLE *)
Lemma final_infeasible junk pb o s s' : history Rops s -> gi_solve junk pb o s = Ok (INFEASIBLE, s') ->
  eq_separated pb -> equalities_first pb -> exact_tests junk pb o s -> infeasible pb.
Proof.
  intros HH E Hsep Hfirst Hcalm. destruct (equalities_first_ex pb Hfirst) as (e & Hle & He).
  pose proof (solve_ended _ _ _ _ _ _ HH E Hsep) as HE.
  inversion HE as [| | |s0 k l s1 Hb H0 Hk HR HL HC HS]; subst.
  assert (HFi : finv pb e l).
  { eapply (reach_finv pb o e k (start s0)); eauto; [apply start_finv; auto|].
    intros j l1 Hj HR1. eapply (Hcalm s0 Hb j); eauto. lia. }
  eapply infeasible_correct; eauto; [apply HFi|]. eapply (Hcalm s0 Hb k); eauto.
Qed.

(** ** multipliers() *)
Lemma final_multipliers junk pb o s st s' lam s'' : history Rops s -> gi_solve junk pb o s = Ok (st, s') ->
  multipliers s' = Ok (lam, s'') ->
  length lam = (nc pb + nb pb)%nat /\
  (forall i, nth i (activeSet s') INACTIVE = INACTIVE -> vec_of lam i = 0) /\
  multipliers s'' = Ok (lam, s'') /\
  solution s'' = solution s' /\ activeSet s'' = activeSet s' /\ objectiveValue s'' = objectiveValue s' /\ iterations s'' = iterations s'.
Proof.
  intros HH E Em. pose proof (hist_wf _ _ real_safe HH) as HW.
  assert (Hsz : sizes_ok pb = true) by (unfold gi_solve in E; apply guard_ok in E; apply E).
  pose proof (gsolve_ub Rops junk pb o s real_safe (leb_refl_R _) HW) as HU.
  destruct (gsolve_result Rops junk pb o s real_safe (leb_refl_R _) HW Hsz) as (st1 & s1 & E1 & [D1 D2 D3] & _).
  { intros El. destruct (Nat.le_gt_cases (length (geqs Rops pb (gcb Rops pb))) (gn Rops pb)); auto.
    exfalso. assert (gi_solve junk pb o s = UB) by (apply HU; auto). congruence. }
  rewrite E in E1. injection E1 as <- <-.
  assert (HS : shape pb s') by (destruct D1; split; auto).
  destruct (mult_vec pb s' lam s'') as (v & HM & Hlam & Hv & Hv0 & Hagain); auto.
  split; auto. split; [|split; auto].
  - intros i Hi. change (nth i (activeSet s') INACTIVE) with (stt (s_A s') i) in Hi.
    destruct (Nat.lt_ge_cases i (ncb pb)) as [Hlt|Hge]; auto.
    rewrite Hv by auto. apply HM. auto.
  - apply mult_frame in Em as (F1 & F2 & F3 & F4 & F5 & _).
    unfold solution, activeSet, objectiveValue, iterations. rewrite F1, F2, F3, F4, F5. auto.
Qed.

Lemma final_mult_sign junk pb o s s' lam s'' i : history Rops s -> gi_solve junk pb o s = Ok (SUCCESS, s') ->
  multipliers s' = Ok (lam, s'') -> eq_separated pb -> equalities_first pb -> exact_tests junk pb o s ->
  match nth i (activeSet s') INACTIVE with
  | UPPER | UPPER_BOUND => 0 <= vec_of lam i
  | LOWER | LOWER_BOUND => vec_of lam i <= 0
  | INACTIVE => vec_of lam i = 0
  | EQUALITY | FIXED => is_equality pb i
  end.
Proof.
  intros HH E Em Hsep Hfirst Hcalm. destruct (equalities_first_ex pb Hfirst) as (e & Hle & He).
  pose proof (solve_ended _ _ _ _ _ _ HH E Hsep) as HE.
  inversion HE as [| |s0 k l Hb H0 Hk HR HL Hexp HC|]; subst.
  assert (HFi : finv pb e l).
  { eapply (reach_finv pb o e k (start s0)); eauto; [apply start_finv; auto|].
    intros j l1 Hj HR1. eapply (Hcalm s0 Hb j); eauto. lia. }
  pose proof (pi_shape _ _ (proj1 HL)) as HS.
  destruct (mult_vec pb (l_s l) lam s'') as (v & HM & Hlam & Hv & Hv0 & Hagain); auto.
  change (nth i (activeSet (l_s l)) INACTIVE) with (stt (s_A (l_s l)) i).
  destruct (status_eqb_spec (stt (s_A (l_s l)) i) INACTIVE) as [Ei|Ei].
  - rewrite Ei. destruct (Nat.lt_ge_cases i (ncb pb)); auto. rewrite Hv by auto. apply HM. auto.
  - destruct (act_surj pb (l_s l) i HS Ei) as (j & Hj & Ej).
    destruct (act_props pb (l_s l) j HS Hj) as (Hi & _). rewrite Ej in Hi.
    assert (Hlam_i : vec_of lam i = msign (stt (s_A (l_s l)) i) (uof (l_s l) j)).
    { rewrite Hv by auto. rewrite <- Ej at 1. rewrite (im_act _ _ _ _ HM) by auto. rewrite Ej. auto. }
    rewrite Hlam_i. pose proof (di_pos _ _ _ (fi_dinv _ _ _ HFi) j Hj) as HP. rewrite Ej in HP.
    pose proof (pi_eqst _ _ (proj1 HL) i Hi) as HQ.
    destruct (stt (s_A (l_s l)) i); simpl in *; try congruence; auto; specialize (HP eq_refl); lra.
Qed.

(** ** NON_POS_HESSIAN *)
Lemma llt_iff n (G : rmat) : fst (@llt Rops n G) = None <-> posdef n (gsym G).
Proof.
  pose proof (llt_spec n G) as HL. destruct (llt n G) as ([p|] & L); simpl.
  - destruct HL as (Hp & HI & Hle). split; [discriminate|]. intros HPd.
    destruct (llt_failure_witness n p G L Hp HI Hle) as (v & Hv & Hq). specialize (HPd v Hv). lra.
  - split; auto. intros _. apply (llt_success_posdef n _ L). auto.
Qed.
Lemma final_nonpos junk pb o s st s' : history Rops s -> gi_solve junk pb o s = Ok (st, s') ->
  (st = NON_POS_HESSIAN <-> ~ posdef (nv pb) (hess pb)).
Proof.
  intros HH E. pose proof (hist_wf _ _ real_safe HH) as HW.
  assert (Hsz : sizes_ok pb = true) by (unfold gi_solve in E; apply guard_ok in E; apply E).
  pose proof (gsolve_ub Rops junk pb o s real_safe (leb_refl_R _) HW) as HU.
  destruct (gsolve_result Rops junk pb o s real_safe (leb_refl_R _) HW Hsz) as (st1 & s1 & E1 & _ & H).
  { intros El. destruct (Nat.le_gt_cases (length (geqs Rops pb (gcb Rops pb))) (gn Rops pb)); auto.
    exfalso. assert (gi_solve junk pb o s = UB) by (apply HU; auto). congruence. }
  rewrite E in E1. injection E1 as <- <-. unfold hess. rewrite <- llt_iff. change (nv pb) with (gn Rops pb).
  destruct H as [(-> & H & _)|(H & _ & _ & H2)].
  - split; auto.
  - split; [|contradiction]. intros ->. destruct H2 as [(H2 & _)|([H2|H2] & _)]; discriminate.
Qed.

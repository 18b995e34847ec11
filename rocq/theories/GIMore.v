(** More whole-call results over exact reals: multiplier signs and lower bound
    at any stop, factorisation at the end of a call, monotone objective,
    total correctness independently of the solver's history. *)
From Coq Require Import List Arith ZArith Lia Bool Reals Lra.
From Verif Require Import Base ActiveSet ActiveSetProofs Num Solver LinAlg QRUpdate QPSpec GIMath GIBase GIInv GIDual GIRun GIOpt GIMult GIInit GISafe GICall GIHist GIFinal GITerm GITotal GISame.
Import ListNotations.
Local Open Scope R_scope.

Definition stopped (st : term_status) : Prop := st = SUCCESS \/ st = MAX_ITER_REACHED.

(** The state at the end of such a call is a state of the loop *)
Lemma ended_finv junk pb o s st s' e : ended junk pb o s st s' -> stopped st -> eq_first pb e -> (e <= ncb pb)%nat ->
  exact_tests junk pb o s -> exists s0 k l, begins junk pb o s s0 /\ einv pb (ncb pb) s0 /\ (k <= o_maxIter o)%nat /\ reach pb o k (start s0) l /\
    s' = l_s l /\ finv pb e l /\ s_exp s' = true /\ (st = MAX_ITER_REACHED -> k = o_maxIter o) /\ (st = SUCCESS -> (k < o_maxIter o)%nat /\ l_skip l = false).
Proof.
  intros HE Hst He Hle Hcalm. destruct HE as [s' Hn HS|s0 l Hb H0 HR HL Hexp|s0 k l Hb H0 Hk HR HL Hexp HC|s0 k l s' Hb H0 Hk HR HL HC HS].
  - destruct Hst; discriminate.
  - exists s0, (o_maxIter o), l. split; auto. split; auto. split; auto. split; auto. split; auto. split.
    + apply (reach_finv pb o e (o_maxIter o) (start s0)); auto; [apply start_finv; auto|]. exact (Hcalm s0 Hb).
    + split; auto. split; auto. discriminate.
  - exists s0, k, l. split; auto. split; auto. split; [lia|]. split; auto. split; auto. split.
    + eapply (reach_finv pb o e k (start s0)); eauto; [apply start_finv; auto|].
      intros j l1 Hj HR1. eapply (Hcalm s0 Hb j); eauto. lia.
    + split; auto. split; [discriminate|]. intros _. split; auto.
      inversion HC as [smin sc Hsk _ _|]; subst; auto.
      exfalso. match goal with H : step2_case _ _ _ _ _ _ _ _ _ |- _ => inversion H end.
  - destruct Hst; discriminate.
Qed.

(** ** Signs *)
Lemma finv_sign pb e l lam s'' i : finv pb e l -> s_exp (l_s l) = true -> multipliers (l_s l) = Ok (lam, s'') ->
  match nth i (activeSet (l_s l)) INACTIVE with
  | UPPER | UPPER_BOUND => 0 <= vec_of lam i
  | LOWER | LOWER_BOUND => vec_of lam i <= 0
  | INACTIVE => vec_of lam i = 0
  | EQUALITY | FIXED => is_equality pb i
  end.
Proof.
  intros HFi Hexp Em. pose proof (fi_linv _ _ _ HFi) as HL.
  pose proof (pi_shape _ _ (proj1 HL)) as HS.
  destruct (mult_vec pb (l_s l) lam s'') as (v & HM & Hlam & Hv & Hv0 & Hagain); auto.
  change (nth i (activeSet (l_s l)) INACTIVE) with (stt (s_A (l_s l)) i).
  destruct (status_eqb_spec (stt (s_A (l_s l)) i) INACTIVE) as [Ei|Ei].
  - rewrite Ei. destruct (Nat.lt_ge_cases i (ncb pb)); auto. rewrite Hv by auto. apply HM. auto.
  - destruct (act_surj pb (l_s l) i HS Ei) as (j & Hj & Ej).
    destruct (act_props pb (l_s l) j HS Hj) as (Hi & _). rewrite Ej in Hi.
    assert (Hlam_i : vec_of lam i = msign (stt (s_A (l_s l)) i) (uof (l_s l) j)).
    { rewrite Hv by auto. rewrite <- Ej at 1. rewrite (im_act _ _ _ _ HM) by auto. rewrite Ej. auto. }
    rewrite Hlam_i. pose proof (di_pos _ _ _ (fi_dinv _ _ _ HFi) j Hj) as HP. rewrite Ej in HP.
    pose proof (pi_eqst _ _ (proj1 HL) i Hi) as HQ.
    destruct (stt (s_A (l_s l)) i); simpl in *; try congruence; auto; specialize (HP eq_refl); lra.
Qed.
Lemma final_sign junk pb o s st s' lam s'' i : history Rops s -> gi_solve junk pb o s = Ok (st, s') -> stopped st ->
  multipliers s' = Ok (lam, s'') -> eq_separated pb -> equalities_first pb -> exact_tests junk pb o s ->
  match nth i (activeSet s') INACTIVE with
  | UPPER | UPPER_BOUND => 0 <= vec_of lam i
  | LOWER | LOWER_BOUND => vec_of lam i <= 0
  | INACTIVE => vec_of lam i = 0
  | EQUALITY | FIXED => is_equality pb i
  end.
Proof.
  intros HH E Hst Em Hsep Hfirst Hcalm. destruct (equalities_first_ex pb Hfirst) as (e & Hle & He).
  pose proof (solve_ended _ _ _ _ _ _ HH E Hsep) as HE.
  destruct (ended_finv _ _ _ _ _ _ e HE Hst He Hle Hcalm) as (s0 & k & l & _ & _ & _ & _ & -> & HF & Hexp & _).
  eapply finv_sign; eauto.
Qed.

(** ** The objective value bounds the optimum from below *)
Lemma finv_lower pb e l y : finv pb e l -> posdef (nv pb) (hess pb) -> feasible pb y -> s_f (l_s l) <= objective pb y.
Proof.
  intros HF Hpd HY. pose proof (fi_linv _ _ _ HF) as [HP Hsel]. pose proof (fi_dinv _ _ _ HF) as [[D1 D2] D3 D4].
  rewrite D2. apply (first_order pb (xof (l_s l)) y); auto. apply Rle_ge.
  assert (Hnb : (nb pb <= nv pb)%nat) by apply sizes_nb, HP.
  set (s := l_s l) in *. set (e0 := fun i => y i - xof s i).
  set (last := match (if l_skip l then Some (l_sc l) else None) with Some sc => uof s (nact (s_A s)) * rdot (nv pb) (scn pb sc) e0 | None => 0 end).
  assert (E : rsum (nv pb) (fun i => e0 i * gradient pb (xof s) i) = rsum (nact (s_A s)) (fun k => uof s k * rdot (nv pb) (Nact pb (s_A s) k) e0) + last).
  { rewrite (sum_ext _ _ (fun a => rsum (nact (s_A s)) (fun k => uof s k * (Nact pb (s_A s) k a * e0 a))
        + match (if l_skip l then Some (l_sc l) else None) with Some sc => uof s (nact (s_A s)) * (scn pb sc a * e0 a) | None => 0 end)).
    - rewrite sum_plus. f_equal.
      + rewrite sum_swap. apply sum_ext. intros k Hk. rewrite sum_scal, <- dot_def. auto.
      + unfold last. destruct (l_skip l); [rewrite sum_scal, <- dot_def; auto|apply sum_zero; auto].
    - intros a Ha. rewrite D1 by auto. rewrite Rmult_plus_distr_l. f_equal.
      + rewrite <- sum_scal. apply sum_ext; intros; rring.
      + destruct (l_skip l); rring. }
  unfold e0 in E at 1. rewrite E.
  assert (Hdot : forall w, rdot (nv pb) w e0 = rdot (nv pb) w y - rdot (nv pb) w (xof s)).
  { intros w. rewrite !dot_def. rewrite <- sum_minus. apply sum_ext. intros; unfold e0; rring. }
  apply Rplus_le_le_0_compat.
  - apply sum_nonneg. intros k Hk. rewrite Hdot.
    destruct (act_props pb s k (pi_shape _ _ HP) Hk) as (Hi & Hne & _).
    pose proof (pi_tight _ _ HP k Hk) as HT. fold s in HT. unfold Bact in HT. fold s in HT.
    destruct (isEq (stt (s_A s) (act (s_A s) k))) eqn:Eq.
    + destruct (pi_eqst _ _ HP _ Hi Eq) as (b & Q1 & Q2). pose proof HY as HY'. rewrite feasible_iff in HY' by auto.
      destruct (HY' _ Hi) as [F1 F2]. rewrite Q1 in F1. rewrite Q2 in F2. simpl in F1, F2.
      assert (rdot (nv pb) (Nact pb (s_A s) k) y - rdot (nv pb) (Nact pb (s_A s) k) (xof s) = 0); [|rewrite H; lra].
      unfold Nact, nrhs, nsign in *. destruct (stt (s_A s) (act (s_A s) k)); try discriminate Eq; rewrite Q1 in HT; injection HT as HT; rewrite <- HT; lra.
    + apply Rmult_le_pos; [apply D3; auto|].
      pose proof (signed_feasible pb _ _ _ y Hi Hnb HY HT) as K. unfold Nact in *. lra.
  - unfold last. destruct (l_skip l); [|lra]. specialize (Hsel eq_refl). destruct Hsel as [V1 V2 V3 (b & Vb & V4)].
    rewrite Hdot. apply Rmult_le_pos; [apply D4; discriminate|].
    pose proof (signed_feasible pb (sc_idx (l_sc l)) (sc_st (l_sc l)) b y (proj1 V1) Hnb HY Vb) as K.
    change (nsign pb (sc_idx (l_sc l)) (sc_st (l_sc l))) with (scn pb (l_sc l)) in K. fold s in V4. lra.
Qed.
Lemma solve_posdef junk pb o s st s' : history Rops s -> gi_solve junk pb o s = Ok (st, s') -> st <> NON_POS_HESSIAN -> posdef (nv pb) (hess pb).
Proof.
  intros HH E Hst. assert (Hsz : sizes_ok pb = true) by (unfold gi_solve in E; apply guard_ok in E; apply E).
  destruct (solve_spec junk pb o s (hist_wf_sol s HH) Hsz) as [(_ & s1 & E1 & _)|(Hp & _)]; auto. congruence.
Qed.
Lemma final_lower_bound junk pb o s st s' y : history Rops s -> gi_solve junk pb o s = Ok (st, s') -> stopped st ->
  eq_separated pb -> equalities_first pb -> exact_tests junk pb o s -> feasible pb y -> objectiveValue s' <= objective pb y.
Proof.
  intros HH E Hst Hsep Hfirst Hcalm HY. destruct (equalities_first_ex pb Hfirst) as (e & Hle & He).
  pose proof (solve_ended _ _ _ _ _ _ HH E Hsep) as HE.
  assert (Hpd : posdef (nv pb) (hess pb)) by (apply (solve_posdef junk pb o s st s'); auto; destruct Hst as [-> | ->]; discriminate).
  destruct (ended_finv _ _ _ _ _ _ e HE Hst He Hle Hcalm) as (s0 & k & l & _ & _ & _ & _ & -> & HF & _).
  unfold objectiveValue. eapply finv_lower; eauto.
Qed.

(** ** Factorisation *)
Lemma ended_pinv junk pb o s st s' : ended junk pb o s st s' -> stopped st -> pinv pb s'.
Proof. intros [] [|]; try discriminate; match goal with H : linv _ _ |- _ => apply H end. Qed.

(** ** A larger budget never lowers the objective *)
Definition with_max (o : ropt) (k : nat) : ropt := @Opt Rops k (o_bigBnd o) (o_warm o) (o_debug o).
Lemma iter_with pb o k l : iter pb (with_max o k) l = iter pb o l.
Proof. reflexivity. Qed.
Lemma reach_with pb o k j l l' : reach pb (with_max o k) j l l' <-> reach pb o j l l'.
Proof. split; induction 1; econstructor; eauto. Qed.
Lemma calm_with pb o k l : calm_at pb (with_max o k) l <-> calm_at pb o l.
Proof. reflexivity. Qed.
Lemma begins_with junk pb o k s s0 : begins junk pb (with_max o k) s s0 <-> begins junk pb o s s0.
Proof. reflexivity. Qed.

Lemma reach_trans pb o j k l l1 l2 : reach pb o j l l1 -> reach pb o k l l2 -> (j <= k)%nat -> reach pb o (k - j) l1 l2.
Proof.
  intros H1 H2. revert j l1 H1. induction H2 as [l|k l l2 l3 H2 IH E2]; intros j l1 H1 Hjk.
  - assert (j = 0%nat) by lia. subst. inversion H1. subst. constructor.
  - destruct (Nat.eq_dec j (S k)) as [->|].
    + assert (l1 = bump l3) by (apply (reach_fun pb o (S k) l); auto; econstructor; eauto). subst. rewrite Nat.sub_diag. constructor.
    + replace (S k - j)%nat with (S (k - j)) by lia. econstructor; [apply IH; auto; lia|auto].
Qed.
Lemma reach_app pb o j k l l1 l2 : reach pb o j l l1 -> reach pb o k l1 l2 -> reach pb o (j + k) l l2.
Proof.
  intros H1 H2. revert j l H1. induction H2 as [l1|k l1 l2 l3 H2 IH E2]; intros j l H1; [rewrite Nat.add_0_r; auto|].
  rewrite Nat.add_succ_r. econstructor; eauto.
Qed.
Lemma reach_mono pb o e k l l' : finv pb e l ->
  (forall j l1, (j < k)%nat -> reach pb o j l l1 -> calm_at pb o l1) -> reach pb o k l l' -> s_f (l_s l) <= s_f (l_s l').
Proof.
  intros HF Hcalm H. induction H as [l|k l l1 l2 H IH E]; [lra|].
  assert (HF1 : finv pb e l1) by (apply (reach_finv pb o e k l); auto; intros j l3 Hj; apply Hcalm; lia).
  assert (K : s_f (l_s l) <= s_f (l_s l1)) by (apply IH; auto; intros j l3 Hj; apply Hcalm; lia).
  destruct (iter_spec pb o l1 (fi_linv _ _ _ HF1)) as (out & E' & HC). assert (out = Continue l2) by congruence. subst out.
  destruct (iter_finv pb o e l1 l2 HF1 (Hcalm k l1 (Nat.lt_succ_diag_r k) H) HC) as [_ [P _ _]]. simpl. lra.
Qed.
Lemma solve_run junk pb o s st s' : history Rops s -> gi_solve junk pb o s = Ok (st, s') -> eq_separated pb -> stopped st ->
  exists s0, begins junk pb o s s0 /\ einv pb (ncb pb) s0 /\
    exists k l, (k <= o_maxIter o)%nat /\ reach pb o k (start s0) l /\ s_f s' = s_f (l_s l) /\
      (k = o_maxIter o \/ iter pb o l = Ok (Stop st s')).
Proof.
  intros HH E Hsep Hst. assert (Hsz : sizes_ok pb = true) by (unfold gi_solve in E; apply guard_ok in E; apply E).
  destruct (solve_spec junk pb o s (hist_wf_sol s HH) Hsz) as [(Hn & s1 & E1 & HS)|(Hp & H)].
  - rewrite E in E1. injection E1 as -> ->. destruct Hst; discriminate.
  - destruct (H Hsep) as (s0 & Hbeg & El & HE & Hit & Hex). rewrite El in E. exists s0. split; auto. split; auto.
    pose proof (start_linv pb _ s0 HE) as HL0.
    destruct (loop_reach pb o _ _ _ _ E) as [(-> & l & HR & ->)|(k & l & Hk & HR & Ei)].
    + exists (o_maxIter o), l. auto.
    + exists k, l. split; [lia|]. split; auto. split; auto.
      assert (HL : linv pb l) by (eapply reach_linv; eauto).
      destruct (iter_spec pb o l HL) as (out & Eo & HC). assert (out = Stop st s') by congruence. subst out.
      pose proof (iter_linv pb o l _ HL HC) as HX. simpl in HX. destruct HX as [(-> & ->)|(-> & HS)]; auto.
      destruct Hst; discriminate.
Qed.

Lemma final_monotone junk pb o j k s st1 s1 st2 s2 : history Rops s -> (j <= k)%nat ->
  gi_solve junk pb (with_max o j) s = Ok (st1, s1) -> stopped st1 ->
  gi_solve junk pb (with_max o k) s = Ok (st2, s2) -> stopped st2 ->
  eq_separated pb -> equalities_first pb -> exact_tests junk pb (with_max o k) s ->
  objectiveValue s1 <= objectiveValue s2.
Proof.
  intros HH Hjk E1 Hst1 E2 Hst2 Hsep Hfirst Hcalm. destruct (equalities_first_ex pb Hfirst) as (e & Hle & He).
  destruct (solve_run _ _ _ _ _ _ HH E1 Hsep Hst1) as (s01 & Hb1 & H01 & k1 & l1 & Hk1 & HR1 & Ef1 & Hor1).
  destruct (solve_run _ _ _ _ _ _ HH E2 Hsep Hst2) as (s02 & Hb2 & H02 & k2 & l2 & Hk2 & HR2 & Ef2 & Hor2).
  pose proof (Hcalm s02 Hb2) as Hc.
  rewrite begins_with in Hb1, Hb2. unfold begins in Hb1, Hb2. assert (s02 = s01) by congruence. subst s02. clear Hb1 Hb2 H02.
  rewrite reach_with in HR1, HR2. rewrite iter_with in Hor1, Hor2. simpl in Hk1, Hk2, Hor1, Hor2.
  assert (Hk : (k1 <= k2)%nat).
  { destruct (Nat.le_gt_cases k1 k2) as [|Hgt]; auto. exfalso. destruct Hor2 as [->|Ei]; [lia|].
    apply (reach_none pb o k2 k1 (start s01) l2 l1 st2 s2); auto. }
  pose proof (reach_trans pb o k1 k2 _ _ _ HR1 HR2 Hk) as HR.
  assert (HF0 : finv pb e (start s01)) by (apply start_finv; auto).
  assert (Hcalm' : forall i l3, (i < k)%nat -> reach pb o i (start s01) l3 -> calm_at pb o l3).
  { intros i l3 Hi HR3. apply (calm_with pb o k). apply (Hc i l3); auto. apply reach_with. auto. }
  unfold objectiveValue. rewrite Ef1, Ef2. apply (reach_mono pb o e (k2 - k1) l1 l2); auto.
  - apply (reach_finv pb o e k1 (start s01)); auto. intros i l3 Hi. apply Hcalm'. lia.
  - intros i l3 Hi HR3. apply (Hcalm' (k1 + i)%nat); [lia|]. eapply reach_app; eauto.
Qed.

(** One more iteration that activates a constraint strictly increases it *)
Lemma final_strict junk pb o k s s1 s2 : history Rops s ->
  gi_solve junk pb (with_max o k) s = Ok (MAX_ITER_REACHED, s1) ->
  gi_solve junk pb (with_max o (S k)) s = Ok (MAX_ITER_REACHED, s2) ->
  eq_separated pb -> equalities_first pb -> exact_tests junk pb (with_max o (S k)) s ->
  (length (a_active (s_A s1)) < length (a_active (s_A s2)))%nat ->
  objectiveValue s1 < objectiveValue s2.
Proof.
  intros HH E1 E2 Hsep Hfirst Hcalm Hlt. destruct (equalities_first_ex pb Hfirst) as (e & Hle & He).
  pose proof (solve_ended _ _ _ _ _ _ HH E1 Hsep) as HE1. pose proof (solve_ended _ _ _ _ _ _ HH E2 Hsep) as HE2.
  inversion HE1 as [|s01 l1 Hb1 H01 HR1 HL1 Hx1 Est1 Es1| |]. inversion HE2 as [|s02 l2 Hb2 H02 HR2 HL2 Hx2 Est2 Es2| |]. subst.
  pose proof (Hcalm s02 Hb2) as Hc. rewrite begins_with in Hb1, Hb2. unfold begins in Hb1, Hb2. assert (s02 = s01) by congruence. subst s02.
  rewrite reach_with in HR1, HR2. simpl in HR1, HR2.
  assert (HR : reach pb o (S k - k) l1 l2) by (apply (reach_trans pb o k (S k) (start s01)); auto).
  replace (S k - k)%nat with 1%nat in HR by lia. inversion HR as [|k0 la lb lc HRb Ei]; subst. inversion HRb; subst.
  assert (HF1 : finv pb e lb).
  { apply (reach_finv pb o e k (start s01)); auto; [apply start_finv; auto|]. intros j l3 Hj HR3. apply (calm_with pb o (S k)). apply (Hc j l3); [simpl; lia|apply reach_with; auto]. }
  destruct (iter_spec pb o lb (fi_linv _ _ _ HF1)) as (out & E' & HC). assert (out = Continue lc) by congruence. subst out.
  assert (Hcl : calm_at pb o lb) by (apply (calm_with pb o (S k)); apply (Hc k lb); [simpl; lia|apply reach_with; auto]).
  destruct (iter_finv pb o e lb lc HF1 Hcl HC) as [_ [P1 P2 P3]]. unfold objectiveValue. simpl in *.
  pose proof (shape_nact pb (l_s lb) (pi_shape _ _ (proj1 HL1))) as N1. pose proof (shape_nact pb _ (pi_shape _ _ (proj1 HL2))) as N2. simpl in N2.
  destruct (l_skip lc); [specialize (P3 eq_refl); lia|]. destruct (P2 eq_refl). auto.
Qed.

(** ** Total correctness, uniformly in the history of the solver object *)
Lemma sim_solution_R junk junk' pb o s s' st st' t t' : history Rops s -> history Rops s' ->
  gi_solve junk pb o s = Ok (st, t) -> gi_solve junk' pb o s' = Ok (st', t') ->
  st = st' /\ (st <> NON_POS_HESSIAN -> sim Rops 0 t t').
Proof.
  intros HH HH' E E'. pose proof (solve_same Rops junk junk' pb (p_G pb) o s s' real_safe (leb_refl_R _) (hist_wf _ _ real_safe HH) (hist_wf _ _ real_safe HH')) as H.
  specialize (H (fun i j _ _ => eq_refl) (st, t) (st', t') E).
  replace (regraph Rops pb (p_G pb)) with pb in H by (destruct pb; reflexivity). apply H in E'. exact E'.
Qed.

Lemma total_correct_from pb o : sizes_ok pb = true -> posdef (nv pb) (hess pb) -> ordered pb ->
  equalities_first pb -> eq_separated pb ->
  (exact_tests (fun _ => 0) pb o (sol_new Rops) /\ exists st s', gi_solve (fun _ => 0) pb o (sol_new Rops) = Ok (st, s') /\ (st = SUCCESS \/ st = INFEASIBLE)) ->
  forall junk s, history Rops s ->
   exists st s', gi_solve junk pb o s = Ok (st, s') /\
    ((st = SUCCESS /\ exists x lam s'', solution s' = Ok x /\ multipliers s' = Ok (lam, s'') /\
        length x = nv pb /\ length lam = ncb pb /\ kkt pb (vec_of x) (vec_of lam) /\ unique_minimiser pb (vec_of x) /\
        objectiveValue s' = objective pb (vec_of x))
     \/ (st = INFEASIBLE /\ infeasible pb)).
Proof.
  intros Hsz Hpd Hord Hfirst Hsep (Hex & st0 & t0 & E0 & Hst0) junk s HH.
  assert (H0 : history Rops (sol_new Rops)) by constructor.
  set (j0 := (fun _ => 0) : vec Rops) in *.
  assert (Es : exists st s', gi_solve junk pb o s = Ok (st, s')).
  { destruct (solve_spec junk pb o s (hist_wf_sol s HH) Hsz) as [(_ & s1 & E1 & _)|(_ & H)]; [eauto|].
    destruct (H Hsep) as (s1 & Hb1 & El & HE & _).
    destruct (loop_total pb o (o_maxIter o) (start s1) (start_linv _ _ _ HE)) as (st1 & s2 & El2 & _). rewrite El, El2. eauto. }
  destruct Es as (st & s' & E). exists st, s'. split; auto.
  destruct (sim_solution_R junk j0 pb o s (sol_new Rops) st st0 s' t0 HH H0 E E0) as [<- Hsim].
  destruct Hst0 as [-> | ->].
  - left. split; auto. specialize (Hsim ltac:(discriminate)).
    pose proof (solve_ended _ _ _ _ _ _ HH E Hsep) as HE. pose proof (solve_ended _ _ _ _ _ _ H0 E0 Hsep) as HE0.
    pose proof (ended_pinv _ _ _ _ _ _ HE (or_introl eq_refl)) as HP. pose proof (ended_pinv _ _ _ _ _ _ HE0 (or_introl eq_refl)) as HP0.
    assert (Hx : exists x, solution s' = Ok x).
    { unfold solution. rewrite (sh_n _ _ (pi_shape _ _ HP)). rewrite getV_ok by apply HP. eexists. reflexivity. }
    assert (Hx0 : exists x, solution t0 = Ok x).
    { unfold solution. rewrite (sh_n _ _ (pi_shape _ _ HP0)). rewrite getV_ok by apply HP0. eexists. reflexivity. }
    destruct Hx as (x & Ex), Hx0 as (x0 & Ex0).
    pose proof (solution_sim Rops _ _ _ Hsim _ _ Ex Ex0). subst x0.
    assert (Hexp : s_exp s' = true) by (inversion HE; auto).
    assert (Hexp0 : s_exp t0 = true) by (inversion HE0; auto).
    destruct (multipliers_fresh pb s' (pi_shape _ _ HP) Hexp) as (v & s1 & Em & _).
    destruct (multipliers_fresh pb t0 (pi_shape _ _ HP0) Hexp0) as (v0 & s10 & Em0 & _).
    set (lam := map v (seq 0 (ncb pb))) in *. set (lam0 := map v0 (seq 0 (ncb pb))) in *.
    pose proof (mult_sim Rops _ _ Hsim Hexp _ _ Em Em0) as El. simpl in El.
    exists x, lam, s1. split; auto. split; auto. rewrite El.
    destruct (final_kkt j0 pb o (sol_new Rops) t0 x lam0 s10 H0 E0 Ex0 Em0 Hord Hsep Hfirst Hex) as (L1 & L2 & L3 & L4).
    split; auto. split; auto. split; auto. split; auto.
    unfold objectiveValue. rewrite (sm_f _ _ _ _ Hsim).
    apply (final_objective j0 pb o (sol_new Rops) SUCCESS t0 x); auto.
  - right. split; auto. eapply (final_infeasible j0 pb o (sol_new Rops) t0); eauto.
Qed.

Lemma total_correct pb : sizes_ok pb = true -> posdef (nv pb) (hess pb) -> ordered pb ->
  equalities_first pb -> eq_independent pb -> tolerance_gap pb ->
  exists B, forall o junk s, B <= o_bigBnd o -> (max_steps (nc pb + nb pb) < o_maxIter o)%nat -> history Rops s ->
   exists st s', gi_solve junk pb o s = Ok (st, s') /\
    ((st = SUCCESS /\ exists x lam s'', solution s' = Ok x /\ multipliers s' = Ok (lam, s'') /\
        length x = nv pb /\ length lam = ncb pb /\ kkt pb (vec_of x) (vec_of lam) /\ unique_minimiser pb (vec_of x) /\
        objectiveValue s' = objective pb (vec_of x))
     \/ (st = INFEASIBLE /\ infeasible pb)).
Proof.
  intros Hsz Hpd Hord Hfirst Hind HG. pose proof (gap_separated pb HG Hind) as Hsep.
  assert (H0 : history Rops (sol_new Rops)) by constructor.
  destruct (total_call (fun _ => 0) pb (sol_new Rops) H0 Hsz Hpd Hfirst Hind HG) as (B & HB).
  exists B. intros o junk s HBo Hmax HH. apply total_correct_from; auto.
Qed.

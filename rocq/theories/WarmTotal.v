(** Total correctness of the warm-startable solver: hypotheses on the problem and
    the given statuses only. *)
From Coq Require Import List Arith ZArith Lia Bool Reals Lra.
From Verif Require Import Base ActiveSet ActiveSetProofs Num Solver LinAlg QRUpdate QPSpec GIMath GIBase GIInv GIDual GIRun GIOpt GIMult GIInit GISafe GICall GIHist GIFinal GITerm GITotal Warm WarmAS WarmSafe WarmQR WarmInit WarmHist WarmOpt WarmHot.
Import ListNotations.
Local Open Scope R_scope.

(** [x] minimises the objective on the face where the constraints in [W], of independent normals, hold with
    equality, on the side given by [w]; [lam] are its multipliers. *)
Record stationary_on (pb : rproblem) (w : nat -> status) (W : nat -> bool) (x lam : rvec) : Prop := {
  so_supp : forall j, W j = false -> lam j = 0;
  so_grad : forall a, (a < nv pb)%nat -> gradient pb x a + rsum (ncb pb) (fun j => lam j * cvec pb j a) = 0;
  so_tight : forall j, (j < ncb pb)%nat -> W j = true ->
    match w j with
    | UPPER | UPPER_BOUND => cup pb j = Some (rdot (nv pb) (cvec pb j) x)
    | INACTIVE => False
    | _ => clo pb j = Some (rdot (nv pb) (cvec pb j) x)
    end;
  so_indep : forall c : rvec, (forall j, W j = false -> c j = 0) -> (forall a, (a < nv pb)%nat -> rsum (ncb pb) (fun j => c j * cvec pb j a) = 0) ->
    forall j, (j < ncb pb)%nat -> c j = 0
}.
(** No such multiplier has the wrong sign by 1e-14 or less. *)
Definition multiplier_gap (pb : rproblem) (w : nat -> status) : Prop :=
  forall W x lam j, (j < ncb pb)%nat -> stationary_on pb w W x lam -> W j = true ->
  match w j with
  | LOWER | LOWER_BOUND => lam j <= 0 \/ / 10 ^ 14 < lam j
  | UPPER | UPPER_BOUND => 0 <= lam j \/ lam j < - / 10 ^ 14
  | _ => True
  end.

Lemma started_gap pb (w : nat -> status) x0 : started pb x0 -> multiplier_gap pb w ->
  (forall i, stt (s_A (x_s x0)) i = w i \/ stt (s_A (x_s x0)) i = INACTIVE) ->
  forall k, (k < nact (s_A (x_s x0)))%nat -> isEq (stt (s_A (x_s x0)) (act (s_A (x_s x0)) k)) = false -> uof (x_s x0) k < 0 -> uof (x_s x0) k < - eps.
Proof.
  intros [HP [HD _] _] HG Hw k Hk Hq Hu. set (s := x_s x0) in *. pose proof (pi_shape _ _ HP) as HS.
  set (g := fun k => msign (stt (s_A s) (act (s_A s) k)) (uof s k)).
  set (lam := fun i => rsum (nact (s_A s)) (fun k => if (i =? act (s_A s) k)%nat then g k else 0)).
  assert (Hlam : forall k, (k < nact (s_A s))%nat -> lam (act (s_A s) k) = g k).
  { intros k0 Hk0. unfold lam. rewrite (sum_ext _ _ (fun j => if (j =? k0)%nat then g j else 0)); [apply sum_delta; auto|].
    intros j Hj. destruct (Nat.eqb_spec j k0) as [->|Hne]; [rewrite Nat.eqb_refl; auto|].
    destruct (Nat.eqb_spec (act (s_A s) k0) (act (s_A s) j)) as [Ea|]; auto. apply (act_inj pb s) in Ea; auto. congruence. }
  destruct (act_props pb s k HS Hk) as (Hi & Hn & _).
  pose proof (HG (fun i => isact (stt (s_A s) i)) (xof s) lam (act (s_A s) k)) as HX.
  assert (Hact : isact (stt (s_A s) (act (s_A s) k)) = true) by (unfold isact; destruct (status_eqb_spec (stt (s_A s) (act (s_A s) k)) INACTIVE); [contradiction|reflexivity]).
  assert (HSt : stationary_on pb w (fun i => isact (stt (s_A s) i)) (xof s) lam).
  { split.
    - intros j Hj. unfold lam. apply sum_zero. intros k0 Hk0. destruct (Nat.eqb_spec j (act (s_A s) k0)) as [->|]; auto.
      destruct (act_props pb s k0 HS Hk0) as (_ & Hn0 & _). unfold isact in Hj. destruct (status_eqb_spec (stt (s_A s) (act (s_A s) k0)) INACTIVE); [contradiction|discriminate].
    - intros a Ha. unfold lam. rewrite (sum_act pb s g (fun i => cvec pb i a) HS), (HD a Ha).
      rewrite (sum_ext _ (fun k => uof s k * Nact pb (s_A s) k a) (fun k => - (g k * cvec pb (act (s_A s) k) a))).
      + rewrite sum_opp. lra.
      + intros k0 Hk0. destruct (act_props pb s k0 HS Hk0) as (_ & Hn0 & _). unfold Nact, g. apply nsign_m. auto.
    - intros j Hj Hj2. assert (Hnj : stt (s_A s) j <> INACTIVE) by (intros E; rewrite E in Hj2; discriminate).
      destruct (Hw j) as [Ej|]; [|contradiction]. rewrite <- Ej. destruct (act_surj pb s j HS Hnj) as (k0 & Hk0 & Ek).
      pose proof (tight_value pb s k0 HP Hk0) as HT. cbv zeta in HT. rewrite Ek in HT. destruct (stt (s_A s) j); auto; apply HT.
    - intros c Hc1 Hc2 j Hj. destruct (status_eq_dec (stt (s_A s) j) INACTIVE) as [E|E]; [apply Hc1; rewrite E; reflexivity|].
      apply (active_indep pb s HP c); auto. intros a Ha. etransitivity; [|exact (Hc2 a Ha)]. apply sum_ext. intros i Hi'. destruct (isact (stt (s_A s) i)) eqn:Ei; auto. rewrite Hc1 by auto. lra. }
  specialize (HX Hi HSt Hact). destruct (Hw (act (s_A s) k)) as [Ej|]; [|contradiction]. rewrite <- Ej in HX.
  rewrite (Hlam k Hk) in HX. unfold g in HX. unfold eps. rops.
  destruct (stt (s_A s) (act (s_A s) k)); simpl in *; try discriminate; lra.
Qed.

(** ** A run of the loop is bounded *)
Lemma reach_bounded' pb o e k s0 l : posdef (nv pb) (hess pb) -> finv pb e (start s0) ->
  (forall j l1, (j < k)%nat -> reach pb o j (start s0) l1 -> calm_at pb o l1) -> reach pb o k (start s0) l ->
  (k < max_steps (ncb pb))%nat.
Proof.
  intros Hpd HF0 Hcalm HR.
  assert (HP : pinv pb s0) by apply (fi_linv _ _ _ HF0). assert (HD : dstat pb s0 None) by apply (di_stat _ _ _ (fi_dinv _ _ _ HF0)).
  assert (H : exists vs, visited pb e (nact (s_A s0)) k l vs).
  { remember (start s0) as l0 eqn:E0. induction HR as [l|k l l1 l2 HR IH Ei]; subst.
    - eexists. apply visited_start; auto.
    - assert (HX : exists vs, visited pb e (nact (s_A s0)) k l1 vs) by (apply IH; auto; intros j l3 Hj HR3; apply (Hcalm j); auto; lia). destruct HX as (vs & HV).
      assert (HF : finv pb e l1).
      { apply (reach_finv pb o e k (start s0)); auto; intros j l3 Hj HR3; apply (Hcalm j); auto; lia. }
      destruct (iter_spec pb o l1 (fi_linv _ _ _ HF)) as (out & E' & HC). assert (out = Continue l2) by congruence. subst out.
      eapply visited_step; eauto. }
  destruct H as (vs & [V1 V2 V3 V4]).
  assert (Hlen : (length vs <= 3 ^ ncb pb)%nat).
  { eapply Nat.le_trans; [|apply (all_statuses_length pb e)]. apply NoDup_incl_length; auto. }
  pose proof (shape_nact_le _ _ (pi_shape _ _ HP)). unfold max_steps. lia.
Qed.

(** ** The initialisation does not depend on a large enough bigBnd *)
Section Same.
Variables (pb : rproblem) (o o' : ropt) (ws : list status).
Hypothesis Hm : moderate pb o.
Hypothesis Hm' : moderate pb o'.
Hypothesis Hw : o_warm o' = o_warm o.

Lemma lo_same i : (i < ncb pb)%nat -> lo_inf (S:=Rops) (o_bigBnd o) (clo pb i) = lo_inf (S:=Rops) (o_bigBnd o') (clo pb i).
Proof.
  intros Hi. destruct (clo pb i) as [v|] eqn:E; auto. unfold lo_inf. rops.
  destruct (Hm i v Hi (or_introl E)). destruct (Hm' i v Hi (or_introl E)). rewrite !Rltb_false by lra. reflexivity.
Qed.
Lemma up_same i : (i < ncb pb)%nat -> up_inf (S:=Rops) (o_bigBnd o) (cup pb i) = up_inf (S:=Rops) (o_bigBnd o') (cup pb i).
Proof.
  intros Hi. destruct (cup pb i) as [v|] eqn:E; auto. unfold up_inf. rops.
  destruct (Hm i v Hi (or_intror E)). destruct (Hm' i v Hi (or_intror E)). rewrite !Rltb_false by lra. reflexivity.
Qed.
Lemma wanted_same i : (i < ncb pb)%nat -> rwanted pb o' ws i = rwanted pb o ws i.
Proof.
  intros Hi. unfold wanted, warm_on, beyond. rewrite Hw. change (glo Rops pb i) with (clo pb i). change (gup Rops pb i) with (cup pb i).
  rewrite (lo_same i Hi), (up_same i Hi). reflexivity.
Qed.
Lemma clo_bnd i : clo pb (nc pb + i) = p_xl pb i.
Proof. unfold clo. destruct (Nat.ltb_spec (nc pb + i) (nc pb)); [lia|]. f_equal. lia. Qed.
Lemma cup_bnd i : cup pb (nc pb + i) = p_xu pb i.
Proof. unfold cup. destruct (Nat.ltb_spec (nc pb + i) (nc pb)); [lia|]. f_equal. lia. Qed.
Lemma clo_gen i : (i < nc pb)%nat -> clo pb i = p_bl pb i.
Proof. intros H. unfold clo. apply Nat.ltb_lt in H. rewrite H. reflexivity. Qed.
Lemma cup_gen i : (i < nc pb)%nat -> cup pb i = p_bu pb i.
Proof. intros H. unfold cup. apply Nat.ltb_lt in H. rewrite H. reflexivity. Qed.

Lemma pia_bnd_same k A : (k <= nb pb)%nat -> pia_bnd pb o ws k A = pia_bnd pb o' ws k A.
Proof.
  induction k as [|k IH]; intros Hk; auto. cbn [pia_bnd]. rewrite IH by lia. destruct (pia_bnd pb o' ws k A) as [A'|]; auto. cbn [bind].
  rewrite Hw. pose proof (lo_same (nc pb + k) ltac:(unfold ncb; lia)) as E1. pose proof (up_same (nc pb + k) ltac:(unfold ncb; lia)) as E2.
  rewrite clo_bnd in E1. rewrite cup_bnd in E2. rewrite E1, E2. reflexivity.
Qed.
Lemma pia_cstr_same k A : (k <= nc pb)%nat -> pia_cstr pb o ws k A = pia_cstr pb o' ws k A.
Proof.
  induction k as [|k IH]; intros Hk; auto. cbn [pia_cstr]. rewrite IH by lia. destruct (pia_cstr pb o' ws k A) as [A'|]; auto. cbn [bind].
  rewrite Hw. pose proof (lo_same k ltac:(unfold ncb; lia)) as E1. pose proof (up_same k ltac:(unfold ncb; lia)) as E2.
  rewrite clo_gen in E1 by lia. rewrite cup_gen in E2 by lia. rewrite E1, E2. reflexivity.
Qed.
Lemma pia_bnd_nc k A A' : pia_bnd pb o' ws k A = Ok A' -> a_nc A' = a_nc A.
Proof.
  revert A'. induction k as [|k IH]; intros A' E; cbn [pia_bnd] in E; [injection E as <-; auto|].
  apply bind_ok in E as (A1 & E1 & E). rewrite <- (IH _ E1). clear IH E1.
  assert (HA : forall i st, as_activate A1 i st = Ok A' -> a_nc A' = a_nc A1) by (intros i st H; apply activate_inv in H; tauto).
  destruct (bounds_eq _ _); [eauto|]. destruct (_ && _)%bool; [|injection E as <-; auto].
  apply bind_ok in E as (st & _ & E). destruct (status_eqb st INACTIVE); [injection E as <-; auto|].
  apply guard_ok in E as [_ E]. destruct (status_eqb st FIXED); [injection E as <-; auto|].
  destruct (_ || _)%bool; [injection E as <-; auto|eauto].
Qed.
Lemma pia_same n A : a_nc A = nc pb -> a_nb A = nb pb -> processInitialActiveSet pb o ws n A = processInitialActiveSet pb o' ws n A.
Proof.
  intros H1 H2. unfold processInitialActiveSet. assert (E1 : a_nb (as_reset A) = nb pb) by auto. rewrite E1.
  rewrite (pia_bnd_same (nb pb)) by auto. destruct (pia_bnd pb o' ws (nb pb) (as_reset A)) as [A1|] eqn:EB; auto. cbn [bind].
  apply pia_bnd_nc in EB. change (a_nc (as_reset A)) with (a_nc A) in EB. rewrite EB, H1, pia_cstr_same by auto. reflexivity.
Qed.
End Same.

Lemma xbegins_same junk pb o o' ws x x0 : xhistory Rops x -> sizes_ok pb = true -> moderate pb o -> moderate pb o' -> o_warm o' = o_warm o ->
  xbegins Rops junk pb o ws x x0 -> xbegins Rops junk pb o' ws x x0.
Proof.
  intros HH Hs Hm Hm' Hw. unfold xbegins.
  assert (E1 : ws_eff Rops junk pb o' ws x = ws_eff Rops junk pb o ws x) by (unfold ws_eff; rewrite Hw; auto).
  assert (E2 : xprep Rops junk pb o' x = xprep Rops junk pb o x) by (unfold xprep; rewrite Hw; auto).
  rewrite E1, E2. unfold xinit.
  pose proof (xh_s _ _ _ (xresize_sh Rops junk pb x (xhist_wf Rops x real_safe HH) Hs)) as HS.
  rewrite (pia_same pb o o' (ws_eff Rops junk pb o ws x) Hm Hm' Hw); auto.
  - unfold xprep. cbn [x_s xset_s set_it s_A]. destruct (o_warm o); apply HS.
  - unfold xprep. cbn [x_s xset_s set_it s_A]. destruct (o_warm o); apply HS.
Qed.

(** The hypotheses on the data do not depend on bigBnd either *)
Lemma order_in pb i : In i (order Rops pb) -> (i < ncb pb)%nat.
Proof. intros H. apply order_lt in H. exact H. Qed.
Lemma initial_same pb o o' ws : moderate pb o -> moderate pb o' -> o_warm o' = o_warm o -> rinitial pb o' ws = rinitial pb o ws.
Proof.
  intros Hm Hm' Hw. unfold initial. apply filter_ext_in'. intros i Hi. rewrite (wanted_same pb o o' ws Hm Hm' Hw i (order_in pb i Hi)). reflexivity.
Qed.
Lemma kept_same pb o o' ws k : moderate pb o -> moderate pb o' -> o_warm o' = o_warm o -> kept Rops pb o' ws k = kept Rops pb o ws k.
Proof.
  intros Hm Hm' Hw. unfold kept. rewrite (initial_same pb o o' ws Hm Hm' Hw). f_equal. apply filter_ext_in'. intros i Hi.
  apply In_skipn, initial_in in Hi as [Hi _]. rewrite (wanted_same pb o o' ws Hm Hm' Hw i Hi). reflexivity.
Qed.
Lemma start_list_same pb o o' ws l : moderate pb o -> moderate pb o' -> o_warm o' = o_warm o -> start_list pb o' ws l -> start_list pb o ws l /\ forall i, In i l -> (i < ncb pb)%nat.
Proof.
  intros Hm Hm' Hw ((k & E) & Hl). rewrite (kept_same pb o o' ws k Hm Hm' Hw) in E. rewrite (initial_same pb o o' ws Hm Hm' Hw) in Hl.
  split; [split; eauto|]. intros i Hi. rewrite E in Hi. unfold kept in Hi.
  assert (In i (rinitial pb o ws)) as Hin.
  { apply in_app_or in Hi as [Hi|Hi]; [eapply In_firstn; eauto|]. apply filter_In in Hi as [Hi _]. eapply In_skipn; eauto. }
  apply initial_in in Hin. apply Hin.
Qed.
Lemma wnormal_same pb o o' ws l j a : moderate pb o -> moderate pb o' -> o_warm o' = o_warm o -> (forall i, In i l -> (i < ncb pb)%nat) -> (j < length l)%nat ->
  wnormal pb o' ws l j a = wnormal pb o ws l j a.
Proof.
  intros Hm Hm' Hw Hl Hj. unfold wnormal. rewrite (wanted_same pb o o' ws Hm Hm' Hw); auto. apply Hl, nth_In. auto.
Qed.
Lemma warm_ok_same junk pb o o' ws x : moderate pb o -> moderate pb o' -> o_warm o' = o_warm o -> warm_ok junk pb o ws x -> warm_ok junk pb o' ws x.
Proof.
  intros Hm Hm' Hw [H1 H2 H3].
  assert (E1 : ws_eff Rops junk pb o' ws x = ws_eff Rops junk pb o ws x) by (unfold ws_eff; rewrite Hw; auto).
  split; rewrite E1; auto; set (ws' := ws_eff Rops junk pb o ws x) in *.
  - intros l Hl. destruct (start_list_same pb o o' ws' l Hm Hm' Hw Hl) as [Hl' Hin].
    eapply independent_ext; [|apply (H1 l Hl')]. intros k a Hk Ha. symmetry. apply wnormal_same; auto.
  - intros l Hl. destruct (start_list_same pb o o' ws' l Hm Hm' Hw Hl) as [Hl' Hin].
    assert (Hlen : (length l <= nv pb)%nat) by (destruct Hl' as [_ ->]; lia).
    eapply qr_calm_ext; [| | |apply (H2 l Hl')]; try lia.
    intros i j Hi Hj. apply (fwd_ext (nv pb)); auto. intros r Hr. symmetry. apply wnormal_same; auto.
Qed.
Lemma bounds_later_same pb o o' ws : moderate pb o -> moderate pb o' -> o_warm o' = o_warm o -> bounds_later pb o ws -> bounds_later pb o' ws.
Proof.
  intros Hm Hm' Hw H i j Hi Hq Hj1 Hj2 Hn. apply (H i j); auto. rewrite <- (wanted_same pb o o' ws Hm Hm' Hw j Hj2). auto.
Qed.
Lemma kind1_same pb o o' ws i : o_warm o' = o_warm o -> kind1 Rops pb o' ws i = kind1 Rops pb o ws i.
Proof. intros Hw. unfold kind1, warm_on. rewrite Hw. reflexivity. Qed.
Lemma n_eq_same pb o o' ws : moderate pb o -> moderate pb o' -> o_warm o' = o_warm o -> n_eq Rops pb o' ws = n_eq Rops pb o ws.
Proof.
  intros Hm Hm' Hw. unfold n_eq. f_equal. apply filter_ext_in'. intros i Hi. rewrite (wanted_same pb o o' ws Hm Hm' Hw i (order_in pb i Hi)). reflexivity.
Qed.

(** A call, for all large enough [bigBnd] and [maxIter] *)
Lemma warm_total junk pb o0 ws x : let ws' := ws_eff Rops junk pb o0 ws x in
  xhistory Rops x -> args_ok Rops pb o0 ws = true -> posdef (nv pb) (hess pb) -> equalities_first pb ->
  forallb (kind1 Rops pb o0 ws') (order Rops pb) = true -> (n_eq Rops pb o0 ws' <= nv pb)%nat ->
  moderate pb o0 -> warm_ok junk pb o0 ws x -> bounds_later pb o0 ws' -> tolerance_gap pb -> multiplier_gap pb (rwanted pb o0 ws') ->
  exists B, forall o, o_warm o = o_warm o0 -> B <= o_bigBnd o -> (max_steps (ncb pb) + nv pb < o_maxIter o)%nat ->
    warm_ok junk pb o ws x /\ bounds_later pb o (ws_eff Rops junk pb o ws x) /\ xexact_tests junk pb o ws x /\
    exists st x', xgi_solve junk pb o ws x = Ok (st, x') /\ (st = SUCCESS \/ st = INFEASIBLE).
Proof.
  intros ws' HH Ha HPd Hfirst HK Hn Hm Hwo Hb HG HM.
  pose proof (xhist_wf Rops x real_safe HH) as HW. destruct (equalities_first_ex pb Hfirst) as (e & Hle & He).
  assert (Hs : sizes_ok pb = true) by (unfold args_ok in Ha; rewrite !andb_true_iff in Ha; tauto).
  assert (Hl : fst (@llt Rops (nv pb) (p_G pb)) = None) by (apply (llt_iff (nv pb) (p_G pb)); exact HPd).
  pose proof Hwo as [Hp Hq Hh]. fold ws' in Hp, Hq, Hh. pose proof (eq_lo_honest pb ws' Hh) as HE.
  pose proof (xsolve Rops junk pb o0 ws x real_safe (leb_refl_R _) HW Ha) as HX. cbv zeta in HX. fold ws' in HX. specialize (HX (or_introl HE)).
  rewrite HK in HX. cbn [negb] in HX. change (gn Rops pb) with (nv pb) in HX. apply Nat.ltb_ge in Hn as Hn'. rewrite Hn', Hl in HX.
  destruct HX as (x4 & x5 & x6 & x0 & HXI & Hbeg & _).
  pose proof (xinits_started _ _ _ _ _ _ _ HXI Hl Hp Hq Hh) as HSt. pose proof (started_linv _ _ HSt) as HL0.
  pose proof (xi_start _ _ _ _ _ _ _ _ HXI) as HXS.
  pose proof (started_gap pb (rwanted pb o0 ws') x0 HSt HM (xs_st _ _ _ _ _ HXS)) as HGp.
  assert (HF : finv pb e (start (x_s x0))).
  { split; simpl; auto.
    - split; [apply HSt| |congruence]. intros k Hk Hq'. destruct (Rle_lt_dec 0 (uof (x_s x0) k)) as [|Hlt]; auto. exfalso.
      specialize (HGp k Hk Hq' Hlt). pose proof (sd_u _ _ HSt k Hk Hq'). lra.
    - eapply xinits_ali; eauto. }
  set (N := S (max_steps (ncb pb))).
  destruct (run_indep pb (start (x_s x0)) HL0 HG N) as (B & HB).
  exists (Rmax B (o_bigBnd o0)). intros o Ew Ho Hmax. pose proof (Rmax_l B (o_bigBnd o0)). pose proof (Rmax_r B (o_bigBnd o0)).
  assert (Hm' : moderate pb o) by (intros i b Hi Hbi; specialize (Hm i b Hi Hbi); lra).
  assert (Ews : ws_eff Rops junk pb o ws x = ws') by (unfold ws', ws_eff; rewrite Ew; auto).
  assert (Hwo' : warm_ok junk pb o ws x) by (apply (warm_ok_same junk pb o0); auto).
  assert (Hbeg' : xbegins Rops junk pb o ws x x0) by (apply (xbegins_same junk pb o0 o); auto).
  assert (Hit : (s_it (x_s x0) <= nv pb)%nat) by (pose proof (xs_it _ _ _ _ _ HXS) as H1; change (gn Rops pb) with (nv pb) in H1; lia).
  split; [exact Hwo'|]. split; [rewrite Ews; apply (bounds_later_same pb o0); auto|].
  destruct HB as [(l & HB)|(j & l & st & s' & Hj & HB)].
  { exfalso. destruct (HB o) as [HR HC]; [lra|]. assert ((N < max_steps (ncb pb))%nat) by (apply (reach_bounded' pb o e N (x_s x0) l); auto).
    unfold N in *. lia. }
  destruct (HB o) as (HR & Ei & HC); [lra|]. assert (HLl : linv pb l) by (eapply reach_linv; eauto).
  split.
  - intros x1 Hb1. unfold xbegins in *. assert (x1 = x0) by congruence. subst x1. split; [exact HGp|].
    intros k l1 Hk HR1. destruct (Nat.le_gt_cases k j) as [Hkj|Hkj]; [apply (HC k); auto; lia|].
    exfalso. apply (reach_none pb o j k (start (x_s x0)) l l1 st s'); auto.
  - assert (Ha' : args_ok Rops pb o ws = true) by (unfold args_ok in *; rewrite Ew; auto).
    pose proof (xsolve Rops junk pb o ws x real_safe (leb_refl_R _) HW Ha') as HX. cbv zeta in HX. rewrite Ews in HX. specialize (HX (or_introl HE)).
    replace (forallb (kind1 Rops pb o ws') (order Rops pb)) with true in HX.
    2:{ symmetry. rewrite <- HK. clear -Ew. induction (order Rops pb) as [|a la IH]; auto. simpl. rewrite IH, (kind1_same pb o0 o) by auto. reflexivity. }
    cbn [negb] in HX. rewrite (n_eq_same pb o0 o ws' Hm Hm' Ew) in HX. change (gn Rops pb) with (nv pb) in HX. rewrite Hn', Hl in HX.
    destruct HX as (y4 & y5 & y6 & y0 & _ & Hb1 & Eq). unfold xbegins in *. assert (y0 = x0) by congruence. subst y0.
    destruct (loop_total pb o (o_maxIter o - s_it (x_s x0)) (start (x_s x0)) HL0) as (st1 & s2 & El2 & Hst & _).
    exists st1, (xset_s x0 s2). change (L (x_s x0) false (SC 0 INACTIVE)) with (start (x_s x0)) in Eq. rewrite Eq, El2. split; [reflexivity|].
    destruct Hst as [-> | [-> | ->]]; auto. exfalso.
    destruct (loop_reach pb o _ _ _ _ El2) as [(_ & l1 & HR1 & _)|(k & l1 & Hk & HR1 & Ei1)].
    + unfold N in Hj. apply (reach_none pb o j (o_maxIter o - s_it (x_s x0)) (start (x_s x0)) l l1 st s'); auto. lia.
    + destruct (iter_spec pb o l1 (reach_linv _ _ _ _ _ HL0 HR1)) as (out & Eo & HC1).
      rewrite Ei1 in Eo. injection Eo as <-. pose proof (iter_linv pb o l1 _ (reach_linv _ _ _ _ _ HL0 HR1) HC1) as HX2.
      simpl in HX2. destruct HX2 as [(HX2 & _)|(HX2 & _)]; discriminate.
Qed.

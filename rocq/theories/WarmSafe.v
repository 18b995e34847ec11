(** Memory safety and control flow of the warm-startable solver, for any scalar
    arithmetic satisfying [safe_ops] (reals and IEEE doubles do). *)
From Coq Require Import List Arith ZArith Lia Bool.
From Verif Require Import Base ActiveSet ActiveSetProofs Num Solver LinAlg GIBase GIInv GISafe GICall Warm WarmAS.
Import ListNotations.

Section WarmSafe.
Variable S : ops.
Notation problem := (problem S).
Notation options := (options S).
Notation sol := (sol S).
Notation xsol := (xsol S).

Record xsh (pb : problem) (x : xsol) : Prop := {
  xh_s : gsh S pb (x_s x); xh_t : (gn S pb <= w_size (x_tmp x))%nat; xh_h : (gn S pb <= w_size (x_h x))%nat; xh_b : (gn S pb <= w_size (x_b x))%nat
}.
(** the side of every active constraint used as right-hand side is finite *)
Definition rhs_ok (pb : problem) (A : aset) : Prop := forall i, In i (a_active A) -> gsome S pb (SC i (stt A i)).
Record keeps (s s' : sol) : Prop := { kp_A : s_A s' = s_A s; kp_it : s_it s' = s_it s; kp_exp : s_exp s' = s_exp s; kp_G : s_G s' = s_G s }.
Lemma keeps_trans s1 s2 s3 : keeps s1 s2 -> keeps s2 s3 -> keeps s1 s3.
Proof. intros [] []. split; congruence. Qed.

Lemma good_get A k : good A -> (k < nact A)%nat -> as_get A k = Ok (act A k) /\ In (act A k) (a_active A) /\ (act A k < nbAll A)%nat.
Proof.
  intros HG Hk. rewrite nact_length in Hk by auto.
  assert (HI : In (act A k) (a_active A)) by (apply nth_In; auto).
  split; [|split; auto].
  - unfold as_get. rewrite (nth_error_nth' _ 0%nat); auto.
  - apply good_in in HI; tauto.
Qed.
Lemma good_kind A i : good A -> In i (a_active A) -> kind_ok (a_nc A) i (stt A i) = true.
Proof.
  intros HG HI. apply good_in in HI as [Hi Hs]; auto. pose proof HG as ([HL _ _ HK] & _). unfold nbAll in Hi.
  destruct (HK i (stt A i)) as [K1 K2]; auto. { apply nth_error_nth'. lia. }
  apply kind_ok_spec. destruct (Nat.lt_ge_cases i (a_nc A)); auto.
Qed.

Lemma fill_ok pb A n k N b : good A -> a_nc A = gc_ S pb -> a_nb A = gb S pb -> (gb S pb <= n)%nat -> rhs_ok pb A -> (k <= nact A)%nat ->
  exists Nb, fill pb n A k N b = Ok Nb.
Proof.
  intros HG Hc Hb Hn HR Hk. induction k as [|k IH]; cbn [fill].
  - eexists; reflexivity.
  - destruct IH as (Nb & E); [lia|]. rewrite E. cbn [bind].
    destruct (good_get A k HG) as (Eg & HI & Hlt); [lia|]. rewrite Eg. cbn [bind].
    rewrite good_as_stat by auto. cbn [bind]. set (i := act A k) in *. set (st := stt A i).
    assert (Hf : exists c, fill_col pb n (a_nc A) i st = Ok c).
    { pose proof (good_kind A i HG HI) as HK. pose proof (HR i HI) as Hso. fold st in HK, Hso.
      unfold nbAll in Hlt. rewrite Hc, Hb in *. apply kind_lt in HK.
      unfold fill_col, gsome in *. cbn [sc_st sc_idx] in Hso. unfold glo, gup in Hso.
      destruct st; try contradiction;
        try (destruct (Nat.ltb_spec i (gc_ S pb)); [|lia]); try (destruct (Nat.ltb_spec i (gc_ S pb)); [lia|]);
        try (destruct (Nat.ltb_spec (i - gc_ S pb) n); [|lia]); cbn [guard];
        match goal with |- context[match ?b with Some _ => _ | None => _ end] => destruct b; [eexists; reflexivity|congruence] end. }
    destruct Hf as (c & Ef). rewrite Ef. cbn [bind]. eexists. reflexivity.
Qed.

Lemma xinitComp pb Lm x : xsh pb x -> rhs_ok pb (s_A (x_s x)) -> (nact (s_A (x_s x)) <= gn S pb)%nat ->
  exists x', initComputationData pb Lm x = Ok x' /\ xsh pb x' /\ keeps (x_s x) (x_s x').
Proof.
  intros [HS H1 H2 H3] HR Hq. pose proof HS as [K1 K2 K3 K4 K5 K6 K7 K8 K9 K10 K11 K12].
  unfold initComputationData. rewrite K5. set (n := gn S pb) in *. set (q := nact (s_A (x_s x))) in *.
  rewrite ggetM; [|nia|auto]. cbn [bind]. rewrite ggetV by lia. cbn [bind].
  destruct (fill_ok pb (s_A (x_s x)) n q (view n (w_buf (s_R (x_s x)))) (w_buf (x_b x))) as (Nb & E); auto.
  { apply gsizes_nb; auto. }
  rewrite E. cbn [bind]. rewrite ggetM by auto. cbn [bind]. rewrite ggetV by lia. cbn [bind]. rewrite ggetV by lia. cbn [bind].
  destruct (qr_loop _ _ _ _ _ _) as (B & h). eexists. split; [reflexivity|]. split.
  - split; cbn [x_s x_tmp x_h x_b]; auto. eapply gsh_trans; eauto; reflexivity.
  - split; reflexivity.
Qed.
Lemma xinitComp_frame pb Lm x x' : xsh pb x -> initComputationData pb Lm x = Ok x' -> xsh pb x' /\ keeps (x_s x) (x_s x').
Proof.
  intros [HS H1 H2 H3] E. unfold initComputationData in E.
  apply bind_ok in E as (a1 & _ & E). apply bind_ok in E as (a2 & _ & E). apply bind_ok in E as (a3 & _ & E).
  apply bind_ok in E as (a4 & _ & E). apply bind_ok in E as (a5 & _ & E). apply bind_ok in E as (a6 & _ & E).
  destruct (qr_loop _ _ _ _ _ _) as (B & h). injection E as <-. split.
  - split; cbn [x_s x_tmp x_h x_b]; auto. eapply gsh_trans; [exact HS|..]; try reflexivity; apply HS.
  - split; reflexivity.
Qed.
Lemma xinitPD pb x : xsh pb x -> (nact (s_A (x_s x)) <= gn S pb)%nat ->
  exists x', initPrimalDual pb x = Ok x' /\ xsh pb x' /\ keeps (x_s x) (x_s x').
Proof.
  intros [HS H1 H2 H3] Hq. pose proof HS as [K1 K2 K3 K4 K5 K6 K7 K8 K9 K10 K11 K12].
  pose proof (gnact_le _ _ _ HS) as Hqm.
  unfold initPrimalDual. rewrite K5. set (n := gn S pb) in *. set (q := nact (s_A (x_s x))) in *.
  rewrite ggetM by auto. cbn [bind]. rewrite ggetM; [|nia|auto]. cbn [bind].
  rewrite ggetV by lia. cbn [bind]. rewrite ggetV by lia. cbn [bind]. rewrite ggetV by lia. cbn [bind]. rewrite ggetV by lia. cbn [bind].
  rewrite ggetV by lia. cbn [bind].
  apply Nat.leb_le in Hq as Hq'. rewrite Hq'. cbn [guard]. eexists. split; [reflexivity|]. split.
  - split; cbn [x_s x_tmp x_h x_b]; auto. eapply gsh_trans; eauto; reflexivity.
  - split; reflexivity.
Qed.

Lemma gremove_ pb s l A' : gsh S pb s -> (nact (s_A s) <= gn S pb)%nat -> act_removed (s_A s) l A' ->
  exists s', removeConstraint_ (set_A s A') l = Ok s' /\ gsh S pb s' /\ s_A s' = A' /\ s_it s' = s_it s /\ s_exp s' = s_exp s /\ s_G s' = s_G s.
Proof.
  intros HS Hq HA. unfold removeConstraint_. cbn [s_n s_A s_d s_J s_R s_u set_A].
  pose proof HS as [H1 H2 H3 H4 H5 H6 H7 H8 H9 H10 H11 H12]. pose proof (ar_nact _ _ _ HA) as EN.
  rewrite H5. set (n := gn S pb) in *. set (q := nact A') in *.
  rewrite ggetM by auto. cbn [bind]. rewrite ggetM; [|nia|lia]. cbn [bind].
  destruct (rem_loop n q (q - l) l (view n (w_buf (s_R s)), view n (w_buf (s_J s)))) as (R', J').
  eexists. split; [reflexivity|]. split; [|repeat (split; [reflexivity|]); reflexivity].
  eapply gsh_trans; eauto; apply HA.
Qed.

Lemma neg_min_ok pb s (u : vec S) k : gsh S pb s -> (k <= nact (s_A s))%nat ->
  exists m, neg_min (s_A s) u k = Ok m /\
    match snd m with Some l => (l < k)%nat /\ isEq (stt (s_A s) (act (s_A s) l)) = false | None => True end.
Proof.
  intros HS Hk. induction k as [|k IH]; cbn [neg_min].
  - eexists. split; [reflexivity|]. simpl. auto.
  - destruct IH as (m & E & Hm); [lia|]. rewrite E. cbn [bind].
    destruct (good_get (s_A s) k (g_good _ _ _ HS)) as (Eg & HI & Hlt); [lia|]. rewrite Eg. cbn [bind].
    rewrite good_as_stat by (auto; apply HS). cbn [bind].
    eexists. split; [reflexivity|].
    destruct (ltb S (u k) (fst m) && negb (isEq (stt (s_A s) (act (s_A s) k)))) eqn:EB; cbn [snd].
    + apply andb_true_iff in EB as [_ EB]. apply negb_true_iff in EB. split; [lia|auto].
    + destruct (snd m); auto. destruct Hm. split; auto.
Qed.

(** Dropping turns: an invariant of the active set preserved by the removal of a non-equality *)
Lemma xdrop pb (I : aset -> Prop) :
  (forall A l A', I A -> good A -> (l < nact A)%nat -> isEq (stt A (act A l)) = false -> act_removed A l A' -> I A') ->
  forall fuel x, xsh pb x -> (nact (s_A (x_s x)) <= gn S pb)%nat -> (nact (s_A (x_s x)) < fuel)%nat -> I (s_A (x_s x)) ->
  exists x', drop_loop pb fuel x = Ok x' /\ xsh pb x' /\ I (s_A (x_s x')) /\ s_exp (x_s x') = s_exp (x_s x) /\ s_G (x_s x') = s_G (x_s x) /\
    (s_it (x_s x') + nact (s_A (x_s x')) = s_it (x_s x) + nact (s_A (x_s x)))%nat /\ (nact (s_A (x_s x')) <= nact (s_A (x_s x)))%nat.
Proof.
  intros HI. induction fuel as [|f IH]; intros x HX Hq Hf Hx; [lia|]. cbn [drop_loop].
  pose proof HX as [HS H1 H2 H3]. pose proof (gnact_le _ _ _ HS) as Hqm. pose proof (g_u _ _ _ HS) as Hu.
  rewrite ggetV by lia. cbn [bind]. rewrite ggetV by lia. cbn [bind].
  destruct (neg_min_ok pb (x_s x) (w_buf (s_u (x_s x))) (nact (s_A (x_s x))) HS (le_n _)) as (m & E & Hm). rewrite E. cbn [bind].
  destruct (snd m) as [l|].
  - destruct Hm as [Hl He]. cbn [s_A set_it].
    destruct (deactivate_removed (s_A (x_s x)) l) as (A' & EA & HA); [apply HS|auto|]. rewrite EA. cbn [bind].
    destruct (gremove_ pb (set_it (x_s x) (Datatypes.S (s_it (x_s x)))) l A') as (s1 & E1 & HS1 & A1 & I1 & P1 & G1); auto.
    { apply gsh_set_it; auto. }
    rewrite E1. cbn [bind]. pose proof (ar_nact _ _ _ HA) as EN.
    match goal with |- context[initPrimalDual pb ?y] => set (x1 := y) end.
    assert (HX1 : xsh pb x1) by (split; auto).
    destruct (xinitPD pb x1 HX1) as (x2 & E2 & HX2 & K2). { unfold x1. cbn [x_s]. rewrite A1. lia. }
    rewrite E2. cbn [bind]. destruct K2 as [KA KI KE KG]. unfold x1 in KA, KI, KE, KG. cbn [x_s] in *. rewrite A1 in KA.
    destruct (IH x2 HX2) as (x' & E' & HX' & HI' & R1 & R2 & R3 & R4); try (rewrite KA; lia).
    { rewrite KA. eapply HI; eauto. apply HS. }
    exists x'. split; [exact E'|]. split; [exact HX'|]. split; [exact HI'|].
    split; [rewrite R1, KE, P1; reflexivity|]. split; [rewrite R2, KG, G1; reflexivity|].
    rewrite KI, I1, KA in R3. cbn [s_it set_it] in R3. rewrite KA in R4. lia.
  - exists x. split; [reflexivity|]. split; [exact HX|]. split; [exact Hx|]. split; [reflexivity|]. split; [reflexivity|]. split; lia.
Qed.

(** ** Between calls *)
Record xwf (x : xsol) : Prop := {
  xw_s : gwf S (x_s x); xw_t : (s_n (x_s x) <= w_size (x_tmp x))%nat; xw_h : (s_n (x_s x) <= w_size (x_h x))%nat; xw_b : (s_n (x_s x) <= w_size (x_b x))%nat
}.
Lemma xwf_new : xwf (xsol_new S).
Proof. split; simpl; auto. apply gwf_new. Qed.
Lemma xsh_wf pb x : xsh pb x -> xwf x.
Proof. intros [HS H1 H2 H3]. split; [eapply gsh_wf; eauto| | |]; rewrite (g_n _ _ _ HS); auto. Qed.
Lemma xresize_sh junk pb x : xwf x -> sizes_ok pb = true ->
  xsh pb (xresize junk x (p_Grows pb) (p_Ccols pb) (0 <? p_xlsize pb)%nat).
Proof.
  intros [HW H1 H2 H3] Hs. pose proof (gresize_sh S junk pb (x_s x) HW Hs) as HS.
  assert (HR : forall w, (s_n (x_s x) <= w_size w)%nat ->
    (gn S pb <= w_size (if (p_Grows pb =? s_n (x_s x))%nat then w else w_resize junk w (p_Grows pb)))%nat).
  { intros w Hw. destruct (Nat.eqb_spec (p_Grows pb) (s_n (x_s x))) as [E|E]; [unfold gn; lia|apply gw_resize]. }
  split; cbn [xresize x_s x_tmp x_h x_b]; auto.
Qed.

(** the initial active set the call really uses *)
Definition ws_eff (junk : vec S) (pb : problem) (o : options) (ws : list status) (x : xsol) : list status :=
  if o_warm o then (if is_nil ws then activeSet (x_s (xresize junk x (p_Grows pb) (p_Ccols pb) (0 <? p_xlsize pb)%nat)) else ws) else [].
(** arguments accepted by the asserts *)
Definition args_ok (pb : problem) (o : options) (ws : list status) : bool :=
  sizes_ok pb && ((length ws =? p_Ccols pb + p_xlsize pb)%nat || is_nil ws) && (o_warm o || is_nil ws).
(** (model restriction) no given EQUALITY on a constraint without lower side *)
Definition eq_lo (pb : problem) (ws : list status) : Prop :=
  forall i, nth i ws INACTIVE = EQUALITY -> glo S pb i <> None.

Lemma ws_eff_size junk pb o ws x : xwf x -> args_ok pb o ws = true -> ws_size S pb o (ws_eff junk pb o ws x).
Proof.
  intros HW HA Hon. unfold args_ok in HA. rewrite !andb_true_iff in HA. destruct HA as [[Hs Hl] _].
  unfold warm_on, ws_eff in *. destruct (o_warm o); [|discriminate]. destruct (is_nil ws) eqn:En.
  - unfold activeSet. apply gstat_len with (pb := pb). apply (xh_s _ _ (xresize_sh junk pb x HW Hs)).
  - rewrite orb_false_r in Hl. apply Nat.eqb_eq in Hl. exact Hl.
Qed.

Lemma wanted_some pb o ws i : eq_lo pb ws -> wanted S pb o ws i <> INACTIVE -> gsome S pb (SC i (wanted S pb o ws i)).
Proof.
  intros HE. unfold wanted, gsome. cbn [sc_st sc_idx].
  destruct (geq S pb i) eqn:Eq.
  - intros _. pose proof (geq_lo S pb i Eq). unfold gstat. destruct (i <? gc_ S pb)%nat; auto.
  - destruct (warm_on S o ws); [|congruence]. destruct (nth i ws INACTIVE) eqn:En; try congruence; cbn [beyond];
      try (unfold lo_inf; destruct (glo S pb i) as [v|]; [destruct (ltb S v _); cbn; congruence|congruence]);
      try (unfold up_inf; destruct (gup S pb i) as [v|]; [destruct (ltb S _ v); cbn; congruence|congruence]).
    all: intros H; try (exfalso; apply H; reflexivity). apply HE. auto.
Qed.

(** The state in which the loop starts *)
Record xstart (pb : problem) (o : options) (ws : list status) (x : xsol) : Prop := {
  xs_sh : xsh pb x; xs_q : (nact (s_A (x_s x)) <= gn S pb)%nat;
  xs_st : forall i, stt (s_A (x_s x)) i = wanted S pb o ws i \/ stt (s_A (x_s x)) i = INACTIVE;
  xs_eq : forall i, (i < gcb S pb)%nat -> isEq (wanted S pb o ws i) = true -> stt (s_A (x_s x)) i = wanted S pb o ws i;
  xs_it : (s_it (x_s x) + nact (s_A (x_s x)) <= gn S pb)%nat;
  xs_exp : s_exp (x_s x) = true; xs_G : s_G (x_s x) = snd (llt (gn S pb) (p_G pb))
}.

(** The steps of the initialisation, from a valid state [x4] whose active set is the processed one *)
Record xinits (pb : problem) (o : options) (ws : list status) (x4 x5 x6 x0 : xsol) : Prop := {
  xi_sh4 : xsh pb x4; xi_A : pia_ok S pb o ws (s_A (x_s x4)); xi_it : s_it (x_s x4) = 0%nat;
  xi_5 : initComputationData pb (snd (llt (gn S pb) (p_G pb))) x4 = Ok x5; xi_sh5 : xsh pb x5; xi_k5 : keeps (x_s x4) (x_s x5);
  xi_6 : initPrimalDual pb x5 = Ok x6; xi_sh6 : xsh pb x6; xi_k6 : keeps (x_s x5) (x_s x6);
  xi_0 : drop_loop pb (Datatypes.S (nact (s_A (x_s x6)))) x6 = Ok x0; xi_start : xstart pb o ws x0
}.
(** [x0] is the state in which the loop of the call is entered *)
Definition xprep (junk : vec S) (pb : problem) (o : options) (x : xsol) : xsol :=
  let x1 := xresize junk x (p_Grows pb) (p_Ccols pb) (0 <? p_xlsize pb)%nat in
  xset_s x1 (set_it (if o_warm o then set_exp (x_s x1) true else set_A (set_exp (x_s x1) true) (as_reset (s_A (set_exp (x_s x1) true)))) 0).
Definition xbegins (junk : vec S) (pb : problem) (o : options) (ws : list status) (x x0 : xsol) : Prop :=
  xinit pb o (ws_eff junk pb o ws x) (xprep junk pb o x) = Ok (SUCCESS, x0).

Lemma xsolve junk pb o ws x : safe_ops S -> leb S (o_bigBnd o) (o_bigBnd o) = true -> xwf x -> args_ok pb o ws = true ->
  let ws' := ws_eff junk pb o ws x in
  eq_lo pb ws' \/ xgi_solve junk pb o ws x <> UB ->
  if negb (forallb (kind1 S pb o ws') (order S pb)) then xgi_solve junk pb o ws x = UB
  else if (gn S pb <? n_eq S pb o ws')%nat then
    exists x', xsh pb x' /\ s_it (x_s x') = 0%nat /\ s_exp (x_s x') = true /\
      xgi_solve junk pb o ws x = if o_debug o then UB else Ok (OVERCONSTRAINED_PROBLEM, x')
  else match fst (llt (gn S pb) (p_G pb)) with
  | Some _ => exists x', xgi_solve junk pb o ws x = Ok (NON_POS_HESSIAN, x') /\ xsh pb x' /\ s_it (x_s x') = 0%nat /\ s_exp (x_s x') = true
  | None => exists x4 x5 x6 x0, xinits pb o ws' x4 x5 x6 x0 /\ xbegins junk pb o ws x x0 /\
      xgi_solve junk pb o ws x = (do r <- loop pb o (o_maxIter o - s_it (x_s x0)) (L (x_s x0) false (SC 0 INACTIVE)); Ok (fst r, xset_s x0 (snd r)))
  end.
Proof.
  intros HO HB HW Hargs ws'. pose proof (ws_eff_size junk pb o ws x HW Hargs) as Hsize. fold ws' in Hsize.
  unfold args_ok in Hargs. rewrite !andb_true_iff in Hargs. destruct Hargs as [[Hs Hl] Hw].
  unfold xbegins, xprep. fold ws'. unfold xgi_solve. rewrite Hs, Hl, Hw. cbn [guard].
  pose proof (xresize_sh junk pb x HW Hs) as HX.
  assert (Ews : ws' = ws_eff junk pb o ws x) by reflexivity. unfold ws_eff, activeSet in Ews.
  set (x1 := xresize junk x _ _ _) in *. clearbody x1. rewrite <- Ews. clear Ews.
  set (s2 := set_it (if o_warm o then set_exp (x_s x1) true else set_A (set_exp (x_s x1) true) (as_reset (s_A (set_exp (x_s x1) true)))) 0).
  assert (HS2 : gsh S pb s2).
  { pose proof (xh_s _ _ HX) as HS1. unfold s2. destruct (o_warm o); eapply gsh_trans; eauto; try reflexivity; simpl; [apply HS1|apply good_reset, HS1]. }
  assert (Eit : s_it s2 = 0%nat) by (unfold s2; destruct (o_warm o); auto).
  assert (Eex : s_exp s2 = true) by (unfold s2; destruct (o_warm o); auto).
  set (x2 := xset_s x1 s2). assert (HX2 : xsh pb x2) by (split; cbn; auto; apply HX).
  assert (Ex2 : x_s x2 = s2) by reflexivity. clearbody x2 s2.
  unfold xinit. rewrite Ex2, (g_n _ _ _ HS2).
  pose proof (processInitialActiveSet_spec S pb o ws' (s_A s2) (gstat_len _ _ _ HS2) (g_nc _ _ _ HS2) (g_nb _ _ _ HS2) Hsize) as HP.
  destruct (forallb (kind1 S pb o ws') (order S pb)); cbn [negb]; [|intros _; rewrite HP; reflexivity].
  destruct HP as (st & A' & EP & HG' & HC' & HB' & HP). rewrite EP. cbn [bind fst snd].
  assert (HS3 : gsh S pb (set_A s2 A')).
  { eapply gsh_trans; eauto; try reflexivity; simpl; [rewrite HC', (g_nc _ _ _ HS2)|rewrite HB', (g_nb _ _ _ HS2)]; auto. }
  assert (Hxs : forall s, gsh S pb s -> xsh pb (xset_s x2 s)) by (intros s Hss; destruct HX2; split; auto).
  destruct (gn S pb <? n_eq S pb o ws')%nat.
  - subst st. cbn [bind]. intros _.
    exists (xset_s x2 (set_A s2 A')). split; [apply Hxs; auto|]. split; [exact Eit|]. split; [exact Eex|].
    unfold terminate. destruct (o_debug o); reflexivity.
  - destruct HP as [-> HP]. cbn [s_n set_A]. rewrite (g_n _ _ _ HS2).
    destruct (llt (gn S pb) (p_G pb)) as (ret, Lm) eqn:El. cbn [fst].
    destruct ret as [p|]; cbn [bind].
    + intros _. eexists. split; [reflexivity|]. split; [apply Hxs; eapply gsh_trans; eauto; reflexivity|]. split; [exact Eit|exact Eex].
    + assert (HS4 : gsh S pb (set_G (set_A s2 A') Lm)) by (eapply gsh_trans; eauto; reflexivity).
      set (s4 := set_G (set_A s2 A') Lm) in *.
      assert (E4 : s_A s4 = A' /\ s_it s4 = 0%nat /\ s_exp s4 = true /\ s_G s4 = Lm) by (unfold s4; auto).
      clearbody s4. destruct E4 as (A4 & I4 & P4 & G4).
      assert (Hq : (nact A' <= gn S pb)%nat).
      { rewrite nact_length by auto. apply (pk_le _ _ _ _ _ HP). }
      intros HE.
      assert (H5 : exists x5, initComputationData pb Lm (xset_s x2 s4) = Ok x5).
      { destruct (initComputationData pb Lm (xset_s x2 s4)) as [x5|] eqn:E5; [eauto|]. exfalso.
        destruct HE as [HE|HE]; [|apply HE; reflexivity].
        assert (HR : rhs_ok pb A').
        { intros i Hi. rewrite (pk_stt _ _ _ _ _ HP).
          replace (existsb (Nat.eqb i) (a_active A')) with true by (symmetry; apply existsb_exists; exists i; split; auto; apply Nat.eqb_refl).
          apply wanted_some; auto. intros E. apply good_in in Hi as [_ Hi]; auto.
          rewrite (pk_stt _ _ _ _ _ HP) in Hi. destruct (existsb _ _); congruence. }
        destruct (xinitComp pb Lm (xset_s x2 s4)) as (x5 & E5' & _); [apply Hxs; auto|cbn; rewrite A4; auto|cbn; rewrite A4; auto|congruence]. }
      destruct H5 as (x5 & E5). destruct (xinitComp_frame pb Lm (xset_s x2 s4) x5 (Hxs _ HS4) E5) as (HX5 & [K5a K5b K5c K5d]). clear HE.
      cbn [x_s xset_s] in *. rewrite E5. cbn [bind].
      destruct (xinitPD pb x5) as (x6 & E6 & HX6 & [K6a K6b K6c K6d]); [auto|rewrite K5a, A4; auto|].
      rewrite E6. cbn [bind].
      set (I := fun A : aset => (forall i, stt A i = wanted S pb o ws' i \/ stt A i = INACTIVE) /\
         (forall i, (i < gcb S pb)%nat -> isEq (wanted S pb o ws' i) = true -> stt A i = wanted S pb o ws' i)).
      destruct (xdrop pb I) with (fuel := Datatypes.S (nact (s_A (x_s x6)))) (x := x6) as (x7 & E7 & HX7 & [I7 I7'] & P7 & G7 & N7 & L7); auto.
      { intros A l A1 [IA IA'] HGA Hll He HRm. split.
        - intros i. rewrite (ar_stt _ _ _ HRm). destruct (i =? act A l)%nat; auto.
        - intros i Hi Hei. rewrite (ar_stt _ _ _ HRm). destruct (Nat.eqb_spec i (act A l)) as [->|]; auto.
          rewrite IA' in He by auto. congruence. }
      { rewrite K6a, K5a, A4. auto. }
      { rewrite K6a, K5a, A4. split.
        - intros i. rewrite (pk_stt _ _ _ _ _ HP). destruct (existsb _ _); auto.
        - intros i Hi He. eapply pia_ok_eq; eauto. }
      rewrite E7. cbn [bind].
      assert (EA6 : s_A (x_s x6) = A') by congruence. rewrite EA6 in N7, L7.
      assert (EI6 : s_it (x_s x6) = 0%nat) by congruence. rewrite EI6 in N7.
      assert (HST : xstart pb o ws' x7).
      { split; auto; [lia|lia|congruence|]. rewrite G7, K6d, K5d, G4, El. reflexivity. }
      exists (xset_s x2 s4), x5, x6, x7. split.
      { split; [apply Hxs; exact HS4|cbn [x_s xset_s]; rewrite A4; exact HP|exact I4|rewrite El; exact E5|exact HX5|split; assumption|
          exact E6|exact HX6|split; assumption|exact E7|exact HST]. }
      split; [reflexivity|].
      pose proof (xs_sh _ _ _ _ HST) as HX7'. pose proof (xh_s _ _ HX7') as HS7. pose proof (gnact_le _ _ _ HS7) as Hq7.
      rewrite (g_n _ _ _ HS7). rewrite ggetV by apply HS7. cbn [bind]. rewrite ggetV by apply HS7. cbn [bind].
      rewrite ggetV by (pose proof (g_u _ _ _ HS7); lia). cbn [bind].
      destruct (gloop_inv S pb o (fun _ => True) HO HB) with (fuel := (o_maxIter o - s_it (x_s x7))%nat) (l := L (x_s x7) false (SC 0 INACTIVE))
        as (st & s' & Elp & _ & _ & _ & _ & _ & Hst); auto.
      { split; simpl; auto; [lia|discriminate]. }
      rewrite Elp. cbn [bind fst snd]. unfold terminate. destruct Hst as [[-> _]|[[-> | ->] _]]; reflexivity.
Qed.

(** Result of a call *)
Lemma xsolve_result junk pb o ws x : safe_ops S -> leb S (o_bigBnd o) (o_bigBnd o) = true -> xwf x -> args_ok pb o ws = true ->
  let ws' := ws_eff junk pb o ws x in
  eq_lo pb ws' -> forallb (kind1 S pb o ws') (order S pb) = true -> (o_debug o = true -> (n_eq S pb o ws' <= gn S pb)%nat) ->
  exists st x', xgi_solve junk pb o ws x = Ok (st, x') /\ xsh pb x' /\ s_exp (x_s x') = true /\
    (st = OVERCONSTRAINED_PROBLEM <-> (gn S pb < n_eq S pb o ws')%nat) /\
    (st = NON_POS_HESSIAN <-> (n_eq S pb o ws' <= gn S pb)%nat /\ fst (llt (gn S pb) (p_G pb)) <> None) /\
    (st = OVERCONSTRAINED_PROBLEM \/ st = NON_POS_HESSIAN \/
       (nact (s_A (x_s x')) <= gn S pb)%nat /\
       ((st = MAX_ITER_REACHED /\ (o_maxIter o <= s_it (x_s x') <= Nat.max (o_maxIter o) (gn S pb))%nat) \/
        (st = SUCCESS \/ st = INFEASIBLE) /\ (s_it (x_s x') < o_maxIter o)%nat)).
Proof.
  intros HO HB HW Hargs ws' HE HK HD. pose proof (xsolve junk pb o ws x HO HB HW Hargs (or_introl HE)) as HX. cbv zeta in HX. fold ws' in HX.
  rewrite HK in HX. cbn [negb] in HX.
  destruct (Nat.ltb_spec (gn S pb) (n_eq S pb o ws')) as [Hn|Hn].
  - destruct HX as (x' & H1 & H2 & H3 & E). destruct (o_debug o); [specialize (HD eq_refl); lia|].
    exists OVERCONSTRAINED_PROBLEM, x'. split; auto. split; auto. split; auto. split; [tauto|]. split; [split; [discriminate|lia]|]. auto.
  - destruct (fst (llt (gn S pb) (p_G pb))) as [p|] eqn:El.
    + destruct HX as (x' & E & H1 & H2 & H3). exists NON_POS_HESSIAN, x'. split; auto. split; auto. split; auto.
      split; [split; [discriminate|lia]|]. split; [split; auto; split; auto; congruence|]. auto.
    + destruct HX as (x4 & x5 & x6 & x0 & HXI & _ & E). rewrite E. destruct (xi_start _ _ _ _ _ _ _ HXI) as [H1 H2 H3 H4 H5 H6 H7].
      destruct (gloop_inv S pb o (fun _ => True) HO HB) with (fuel := (o_maxIter o - s_it (x_s x0))%nat) (l := L (x_s x0) false (SC 0 INACTIVE))
        as (st & s' & Elp & R1 & _ & R2 & R3 & R4 & Hst); auto.
      { split; simpl; auto; [apply H1|discriminate]. }
      rewrite Elp. cbn [bind fst snd]. exists st, (xset_s x0 s'). split; auto.
      split; [destruct H1; split; auto|]. split; [cbn in *; congruence|].
      cbn [l_s] in Hst. cbn [x_s xset_s].
      destruct Hst as [[-> Hi]|[Hst Hi]].
      * split; [split; [discriminate|lia]|]. split; [split; [discriminate|intros [_ ?]; congruence]|].
        right. right. split; auto. left. split; auto. lia.
      * split; [split; [intros ->; destruct Hst; discriminate|lia]|].
        split; [split; [intros ->; destruct Hst; discriminate|intros [_ ?]; congruence]|].
        right. right. split; auto. right. split; auto. lia.
Qed.
End WarmSafe.

(** The warm-startable solver over exact reals: whole calls. *)
From Coq Require Import List Arith ZArith Lia Bool Reals Lra.
From Verif Require Import Base ActiveSet ActiveSetProofs Num Solver LinAlg QRUpdate QPSpec GIMath GIBase GIInv GIDual GIRun GIOpt GIMult GIInit GISafe GICall GIHist GIFinal Warm WarmAS WarmSafe WarmQR WarmInit WarmHist.
Import ListNotations.
Local Open Scope R_scope.

(** ** Hypotheses on the starting set, in terms of the statuses wanted *)
Notation rwanted := (wanted Rops).
Notation rinitial := (initial Rops).
(** the lists of constraints the call can start with (only one, unless more than
    nbVar constraints are wanted and some are set aside) *)
Definition start_list (pb : rproblem) (o : ropt) (ws : list status) (l : list nat) : Prop :=
  (exists k, l = kept Rops pb o ws k) /\ length l = Nat.min (nv pb) (length (rinitial pb o ws)).
Definition wnormal (pb : rproblem) (o : ropt) (ws : list status) (l : list nat) (j : nat) : rvec :=
  nsign pb (nth j l 0%nat) (rwanted pb o ws (nth j l 0%nat)).
(** linearly independent normals *)
Definition well_posed (pb : rproblem) (o : ropt) (ws : list status) : Prop :=
  forall l, start_list pb o ws l -> independent (nv pb) (length l) (wnormal pb o ws l).
(** (exactness) no squared norm met by the Householder QR falls in the range (0, DBL_MIN] Eigen treats as zero *)
Definition exact_qr (pb : rproblem) (o : ropt) (ws : list status) : Prop :=
  forall l, start_list pb o ws l ->
  qr_calm (nv pb) (length l) (length l) 0 (fun i j => @fwd Rops (nv pb) (snd (@llt Rops (nv pb) (p_G pb))) (wnormal pb o ws l j) i).
(** no EQUALITY is claimed for a constraint that is not an equality *)
Definition honest_eq (pb : rproblem) (ws : list status) : Prop :=
  forall i, nth i ws INACTIVE = EQUALITY -> is_equality pb i.

Lemma independent_ext n q N N' : (forall k a, (k < q)%nat -> (a < n)%nat -> N k a = N' k a) -> independent n q N -> independent n q N'.
Proof.
  intros E H c Hc. apply H. intros a Ha. rewrite <- (Hc a Ha). apply sum_ext. intros k Hk. rewrite E; auto.
Qed.

Lemma geq_c pb i : geq Rops pb i = eqb_c pb i.
Proof. reflexivity. Qed.
Lemma geq_spec pb i : reflect (is_equality pb i) (geq Rops pb i).
Proof. rewrite geq_c. apply eqb_c_spec. Qed.

Lemma wanted_eq pb o ws i : honest_eq pb ws -> isEq (rwanted pb o ws i) = true -> is_equality pb i.
Proof.
  intros HH. unfold wanted. destruct (geq_spec pb i) as [Hq|Hq]; auto.
  destruct (warm_on Rops o ws); [|discriminate]. specialize (HH i).
  destruct (nth i ws INACTIVE); try discriminate; auto; destruct (beyond _ _ _ _ _); discriminate.
Qed.
Lemma wanted_equality pb o ws i : is_equality pb i -> rwanted pb o ws i = eqstat pb i.
Proof. intros H. unfold wanted. destruct (geq_spec pb i); [reflexivity|contradiction]. Qed.

Lemma pia_start_list pb o ws A : pia_ok Rops pb o ws A -> start_list pb o ws (a_active A).
Proof.
  intros HP. split; [|apply (pk_eq _ _ _ _ _ HP)]. destruct (pk_list _ _ _ _ _ HP) as (k & E & _). eauto.
Qed.
Lemma pia_Nact pb o ws A j : pia_ok Rops pb o ws A -> (j < nact A)%nat -> Nact pb A j = wnormal pb o ws (a_active A) j.
Proof.
  intros HP Hj. unfold Nact, wnormal. fold (act A j). f_equal.
  rewrite (pk_stt _ _ _ _ _ HP). rewrite nact_length in Hj by apply HP.
  replace (existsb (Nat.eqb (act A j)) (a_active A)) with true; auto.
  symmetry. apply existsb_exists. exists (act A j). split; [apply nth_In; auto|apply Nat.eqb_refl].
Qed.

Record started (pb : rproblem) (x0 : rxsol) : Prop := {
  sd_pinv : pinv pb (x_s x0); sd_stat : dstat pb (x_s x0) None;
  sd_u : forall k, (k < nact (s_A (x_s x0)))%nat -> isEq (stt (s_A (x_s x0)) (act (s_A (x_s x0)) k)) = false -> - eps <= uof (x_s x0) k
}.

Lemma xinits_pointed pb o ws x4 x5 x6 x0 : xinits Rops pb o ws x4 x5 x6 x0 -> fst (@llt Rops (nv pb) (p_G pb)) = None ->
  well_posed pb o ws -> exact_qr pb o ws -> pointed pb x6 /\ s_A (x_s x6) = s_A (x_s x4).
Proof.
  intros [S4 HA It E5 S5 K5 E6 S6 K6 E0 HS] Hl Hw Hq.
  pose proof (pia_start_list _ _ _ _ HA) as HSL.
  assert (Hn : nact (s_A (x_s x4)) = length (a_active (s_A (x_s x4)))) by (apply nact_length, HA).
  assert (HF : facd pb x5).
  { apply (initComp_facd pb x4 x5); auto.
    - rewrite Hn. apply (pk_le _ _ _ _ _ HA).
    - rewrite Hn. eapply independent_ext; [|apply (Hw _ HSL)]. intros k a Hk Ha.
      rewrite (pia_Nact pb o ws) by (auto; lia). auto.
    - rewrite Hn. assert (Hle : (length (a_active (s_A (x_s x4))) <= nv pb)%nat) by apply (pk_le _ _ _ _ _ HA).
      eapply qr_calm_ext; [| | |apply (Hq _ HSL)]; try lia.
      intros i j Hi Hj. unfold qr_input. rewrite (pia_Nact pb o ws) by (auto; lia). auto. }
  split; [eapply initPD_pointed; eauto|]. rewrite (kp_A _ _ _ K6), (kp_A _ _ _ K5). auto.
Qed.

Lemma xstart_eqst pb o ws x0 : honest_eq pb ws -> xstart Rops pb o ws x0 ->
  forall i, (i < ncb pb)%nat -> isEq (stt (s_A (x_s x0)) i) = true -> is_equality pb i.
Proof.
  intros HH HS i Hi He. destruct (xs_st _ _ _ _ _ HS i) as [E|E]; rewrite E in He; [|discriminate]. eapply wanted_eq; eauto.
Qed.

Lemma pointed_pinv pb x : pointed pb x -> (forall i, (i < ncb pb)%nat -> isEq (stt (s_A (x_s x)) i) = true -> is_equality pb i) -> pinv pb (x_s x).
Proof.
  intros [[S0 Q0 G0 B0] T0 D0] H. split; auto. apply gsh_shape, S0.
Qed.

Lemma xinits_started pb o ws x4 x5 x6 x0 : xinits Rops pb o ws x4 x5 x6 x0 -> fst (@llt Rops (nv pb) (p_G pb)) = None ->
  well_posed pb o ws -> exact_qr pb o ws -> honest_eq pb ws -> started pb x0.
Proof.
  intros HX Hl Hw Hq Hh. destruct (xinits_pointed _ _ _ _ _ _ _ HX Hl Hw Hq) as [HP _].
  destruct (drop_pointed pb _ x6 x0 HP (xi_0 _ _ _ _ _ _ _ _ HX)) as (HP0 & Hu & _).
  split; auto; [|apply HP0]. apply pointed_pinv; auto. eapply xstart_eqst; eauto. apply HX.
Qed.

(** ** Alignment of the equalities *)
(** equalities first; and if some general constraint is an equality, no other kind of bound is in the starting set *)
Definition bounds_later (pb : rproblem) (o : ropt) (ws : list status) : Prop :=
  forall i j, (i < nc pb)%nat -> is_equality pb i -> (nc pb <= j)%nat -> (j < ncb pb)%nat -> rwanted pb o ws j <> INACTIVE -> is_equality pb j.

Lemma filter_none {X} (p : X -> bool) l : (forall x, In x l -> p x = false) -> filter p l = [].
Proof. induction l as [|a l IH]; simpl; auto. intros H. rewrite (H a) by auto. apply IH. auto. Qed.

(** the starting list: all the equalities, then others *)
Lemma initial_split pb o ws e : (e <= ncb pb)%nat -> eq_first pb e -> bounds_later pb o ws ->
  exists E I, rinitial pb o ws = E ++ I /\ length E = e /\ (forall i, In i E -> (i < e)%nat) /\ (forall i, In i I -> (e <= i)%nat).
Proof.
  intros Hle He Hb. unfold initial, order. rewrite filter_app.
  change (gc_ Rops pb) with (nc pb). change (gb Rops pb) with (nb pb).
  assert (Hin : forall i, (i < e)%nat -> isact (rwanted pb o ws i) = true).
  { intros i Hi. rewrite wanted_equality; [|apply He; lia]. unfold eqstat. destruct (i <? nc pb)%nat; auto. }
  assert (HF : forall a k, (a + k <= e)%nat -> filter (fun i => isact (rwanted pb o ws i)) (seq a k) = seq a k).
  { intros a k Hk. apply filter_all. intros i Hi. apply in_seq in Hi. apply Hin. lia. }
  destruct (Nat.eq_dec e 0) as [->|Hne].
  { exists [], (filter (fun i => isact (rwanted pb o ws i)) (seq (nc pb) (nb pb)) ++ filter (fun i => isact (rwanted pb o ws i)) (seq 0 (nc pb))).
    split; auto. split; auto. split; [intros i []|lia]. }
  destruct (Nat.eq_dec (nc pb) 0) as [Hc|Hc].
  { rewrite Hc. cbn [seq filter]. rewrite app_nil_r. unfold ncb in Hle. 
    replace (nb pb) with (e + (nb pb - e))%nat by lia. rewrite seq_app, filter_app, HF by lia.
    exists (seq 0 e), (filter (fun i => isact (rwanted pb o ws i)) (seq (0 + e) (nb pb - e))).
    split; auto. split; [apply seq_length|]. split; [intros i Hi; apply in_seq in Hi; lia|].
    intros i Hi. apply filter_In in Hi as [Hi _]. apply in_seq in Hi. lia. }
  assert (H0 : is_equality pb 0) by (apply He; unfold ncb; lia).
  assert (HB : forall j, (nc pb <= j)%nat -> (j < ncb pb)%nat -> (e <= j)%nat -> isact (rwanted pb o ws j) = false).
  { intros j Hj Hj' Hej. destruct (isact (rwanted pb o ws j)) eqn:E; auto. exfalso.
    assert (is_equality pb j) as Hq; [|apply He in Hq; auto; lia].
    apply (Hb 0%nat j); auto; [lia|]. intros E'. rewrite E' in E. discriminate. }
  destruct (Nat.le_gt_cases e (nc pb)) as [Hen|Hen].
  - rewrite (filter_none _ (seq (nc pb) (nb pb))).
    2:{ intros j Hj. apply in_seq in Hj. apply HB; unfold ncb; lia. }
    cbn [app]. replace (nc pb) with (e + (nc pb - e))%nat by lia. rewrite seq_app, filter_app, HF by lia.
    exists (seq 0 e), (filter (fun i => isact (rwanted pb o ws i)) (seq (0 + e) (nc pb - e))).
    split; auto. split; [apply seq_length|]. split; [intros i Hi; apply in_seq in Hi; lia|].
    intros i Hi. apply filter_In in Hi as [Hi _]. apply in_seq in Hi. lia.
  - unfold ncb in Hle. replace (nb pb) with ((e - nc pb) + (nb pb - (e - nc pb)))%nat by lia.
    rewrite seq_app, filter_app, (HF (nc pb) (e - nc pb)%nat), (HF 0%nat (nc pb)) by lia. rewrite (filter_none _ (seq (nc pb + (e - nc pb)) _)).
    2:{ intros j Hj. apply in_seq in Hj. apply HB; unfold ncb; lia. }
    rewrite app_nil_r. exists (seq (nc pb) (e - nc pb) ++ seq 0 (nc pb)), [].
    split; [rewrite app_nil_r; auto|]. split; [rewrite app_length, !seq_length; lia|].
    split; [|intros i []]. intros i Hi. apply in_app_or in Hi as [Hi|Hi]; apply in_seq in Hi; lia.
Qed.

Lemma kept_split pb o ws e E I k : honest_eq pb ws -> eq_first pb e -> rinitial pb o ws = E ++ I -> length E = e ->
  (forall i, In i E -> (i < e)%nat) -> (forall i, In i I -> (e <= i)%nat) -> kept Rops pb o ws k = E ++ firstn (k - e) I.
Proof.
  intros Hh He EI LE HE HI.
  assert (Hlt : forall i, In i (E ++ I) -> (i < ncb pb)%nat).
  { intros i Hi. rewrite <- EI in Hi. apply initial_in in Hi. apply Hi. }
  assert (FE : forall l, (forall i, In i l -> In i E) -> filter (fun i => isEq (rwanted pb o ws i)) l = l).
  { intros l Hl. apply filter_all. intros i Hi. rewrite wanted_equality; [apply eqstat_eq|]. apply He; [apply Hlt, in_or_app; auto|auto]. }
  assert (FI : forall l, (forall i, In i l -> In i I) -> filter (fun i => isEq (rwanted pb o ws i)) l = []).
  { intros l Hl. apply filter_none. intros i Hi. destruct (isEq (rwanted pb o ws i)) eqn:Ei; auto. exfalso.
    apply wanted_eq in Ei; auto. apply He in Ei; [|apply Hlt, in_or_app; auto]. apply Hl, HI in Hi. lia. }
  unfold kept. rewrite EI, firstn_app, skipn_app, filter_app, LE.
  rewrite (FE (skipn k E)) by (intros i; apply In_skipn). rewrite (FI (skipn (k - e) I)) by (intros i; apply In_skipn).
  rewrite app_nil_r. destruct (Nat.le_gt_cases k e) as [Hk|Hk].
  - replace (k - e)%nat with 0%nat by lia. cbn [firstn]. rewrite !app_nil_r. apply firstn_skipn.
  - rewrite (firstn_all2 E), (skipn_all2 E) by lia. rewrite app_nil_r. auto.
Qed.

Lemma pia_ali pb o ws e A : pia_ok Rops pb o ws A -> honest_eq pb ws -> (e <= ncb pb)%nat -> eq_first pb e -> bounds_later pb o ws -> ali pb e A.
Proof.
  intros HP Hh Hle He Hb. destruct (initial_split pb o ws e Hle He Hb) as (E & I & EI & LE & HE & HI).
  destruct (pk_list _ _ _ _ _ HP) as (k & EK & _). rewrite (kept_split pb o ws e E I k) in EK by auto.
  split.
  - rewrite nact_length by apply HP. rewrite EK, app_length. lia.
  - intros j Hj. split.
    + apply HE. unfold act. rewrite EK, app_nth1 by lia. apply nth_In. lia.
    + rewrite (pia_ok_eq Rops pb o ws A j HP); [rewrite wanted_equality; [apply eqstat_eq|apply He; lia]|change (gcb Rops pb) with (ncb pb); lia|].
      rewrite wanted_equality; [apply eqstat_eq|apply He; lia].
  - intros j Hj Hn. rewrite nact_length in Hn by apply HP. rewrite EK, app_length in Hn.
    unfold act. rewrite EK, app_nth2 by lia. apply HI. eapply In_firstn. apply nth_In. lia.
  - intros i Hi. rewrite (pk_stt _ _ _ _ _ HP) in Hi. destruct (existsb (Nat.eqb i) (a_active A)) eqn:Ex; [|discriminate].
    apply existsb_exists in Ex as (x & Hx & Ei). apply Nat.eqb_eq in Ei. subst x. rewrite EK in Hx. apply in_app_or in Hx as [Hx|Hx]; [apply HE; exact Hx|].
    apply He; [|apply (wanted_eq pb o ws i Hh Hi)]. apply In_firstn in Hx. apply (initial_in Rops pb o ws i). rewrite EI. apply in_or_app. right. exact Hx.
Qed.

(** the drop loop only removes non-equalities *)
Lemma drop_ali pb e : forall fuel x x', pointed pb x -> drop_loop pb fuel x = Ok x' -> ali pb e (s_A (x_s x)) ->
  eq_first pb e -> (e <= ncb pb)%nat ->
  (forall i, (i < ncb pb)%nat -> is_equality pb i -> isEq (stt (s_A (x_s x)) i) = true) -> ali pb e (s_A (x_s x')).
Proof.
  induction fuel as [|f IH]; intros x x' HP E HA He Hle Heq; [discriminate|]. cbn [drop_loop] in E.
  pose proof HP as [HF HT HD]. pose proof (fd_sh _ _ HF) as HX. pose proof HX as [HS H1 H2 H3].
  apply bind_ok in E as (u & Eu & E). apply bind_ok in E as (b & Eb & E). apply bind_ok in E as (m & Em & E).
  apply getV_inv in Eu as [_ ->]. apply getV_inv in Eb as [_ ->].
  destruct (snd m) as [l|] eqn:El.
  - destruct (neg_min_some pb (x_s x) _ _ m l HS (le_n _) Em El) as (F1 & F2 & Hl & Hq).
    destruct (deactivate_removed (s_A (x_s x)) l) as (A' & EA & HR); [apply HS|auto|].
    cbn [s_A set_it] in E. rewrite EA in E. cbn [bind] in E.
    pose proof (qr_le _ _ _ _ _ (fd_qr _ _ HF)) as Hn. pose proof (ar_nact _ _ _ HR) as EN.
    destruct (gremove_ Rops pb (set_it (x_s x) (S (s_it (x_s x)))) l A') as (s1 & E1 & HS1 & A1 & _); auto.
    { apply gsh_set_it; auto. }
    rewrite E1 in E. cbn [bind] in E.
    pose proof (remove_facd pb x l A' s1 HF Hl HR E1 HS1 A1) as HF1.
    match type of E with bind (initPrimalDual pb ?y) _ = _ => set (x1 := y) in * end.
    destruct (xinitPD Rops pb x1) as (x2 & E2 & HX2 & K2).
    { apply HF1. } { unfold x1. cbn [x_s]. rewrite A1. change (gn Rops pb) with (nv pb). lia. }
    rewrite E2 in E. cbn [bind] in E. pose proof (initPD_pointed pb x1 x2 HF1 E2 HX2 K2) as HP2.
    assert (EA2 : s_A (x_s x2) = A') by (rewrite (kp_A _ _ _ K2); exact A1).
    apply (IH x2 x'); auto; rewrite EA2.
    + apply (ali_act_removed pb e (s_A (x_s x)) l); auto.
      destruct (Nat.lt_ge_cases l e) as [Hlt|]; auto. exfalso. destruct (al_pre _ _ _ HA l Hlt) as [Ha _].
      rewrite Heq in Hq; [discriminate|lia|apply He; lia].
    + intros i Hi Hie. rewrite (ar_stt _ _ _ HR). destruct (Nat.eqb_spec i (act (s_A (x_s x)) l)) as [->|]; auto.
      rewrite Heq in Hq by auto. discriminate.
  - injection E as <-. auto.
Qed.

Lemma xinits_ali pb o ws e x4 x5 x6 x0 : xinits Rops pb o ws x4 x5 x6 x0 -> fst (@llt Rops (nv pb) (p_G pb)) = None ->
  well_posed pb o ws -> exact_qr pb o ws -> honest_eq pb ws -> (e <= ncb pb)%nat -> eq_first pb e -> bounds_later pb o ws ->
  ali pb e (s_A (x_s x0)).
Proof.
  intros HX Hl Hw Hq Hh Hle He Hb. destruct (xinits_pointed _ _ _ _ _ _ _ HX Hl Hw Hq) as [HP EA].
  pose proof (xi_A _ _ _ _ _ _ _ _ HX) as HA.
  apply (drop_ali pb e _ x6 x0 HP (xi_0 _ _ _ _ _ _ _ _ HX)); auto; rewrite EA.
  - apply (pia_ali pb o ws); auto.
  - intros i Hi Hie. rewrite (pia_ok_eq Rops pb o ws _ i HA Hi); rewrite wanted_equality by auto; apply eqstat_eq.
Qed.

(** ** Whole calls *)
Lemma eq_lo_honest pb ws : honest_eq pb ws -> eq_lo Rops pb ws.
Proof. intros H i Hi. destruct (H i Hi) as (b & E & _). change (glo Rops pb i) with (clo pb i). congruence. Qed.

(** The hypotheses under which a warm started call is analysed *)
Record warm_ok (junk : vec Rops) (pb : rproblem) (o : ropt) (ws : list status) (x : rxsol) : Prop := {
  wo_posed : well_posed pb o (ws_eff Rops junk pb o ws x);
  wo_qr : exact_qr pb o (ws_eff Rops junk pb o ws x);
  wo_eq : honest_eq pb (ws_eff Rops junk pb o ws x)
}.

(** Possible ends of a call *)
Inductive xended (junk : vec Rops) (pb : rproblem) (o : ropt) (ws : list status) (x : rxsol) : term_status -> rsol -> Prop :=
| xe_over s' : (nv pb < n_eq Rops pb o (ws_eff Rops junk pb o ws x))%nat -> shape pb s' -> xended junk pb o ws x OVERCONSTRAINED_PROBLEM s'
| xe_nonpos s' : ~ posdef (nv pb) (hess pb) -> shape pb s' -> xended junk pb o ws x NON_POS_HESSIAN s'
| xe_loop st s' x4 x5 x6 x0 : posdef (nv pb) (hess pb) -> xinits Rops pb o (ws_eff Rops junk pb o ws x) x4 x5 x6 x0 -> xbegins Rops junk pb o ws x x0 ->
    started pb x0 -> s_exp s' = true -> shape pb s' ->
    (st = MAX_ITER_REACHED /\ (exists l, reach pb o (o_maxIter o - s_it (x_s x0)) (start (x_s x0)) l /\ linv pb l /\ s' = l_s l) \/
     exists k l, (k < o_maxIter o - s_it (x_s x0))%nat /\ reach pb o k (start (x_s x0)) l /\ linv pb l /\
       (st = SUCCESS /\ s' = l_s l /\ iter_case pb o l (Stop SUCCESS (l_s l)) \/ st = INFEASIBLE /\ iter_case pb o l (Stop INFEASIBLE s'))) ->
    xended junk pb o ws x st s'.

Lemma started_linv pb x0 : started pb x0 -> linv pb (start (x_s x0)).
Proof. intros H. split; simpl; [apply H|discriminate]. Qed.

Lemma xsolve_ended junk pb o ws x st x' : xhistory Rops x -> xgi_solve junk pb o ws x = Ok (st, x') -> warm_ok junk pb o ws x ->
  xended junk pb o ws x st (x_s x').
Proof.
  intros HH E [Hw Hq Hh]. pose proof (xhist_wf Rops x real_safe HH) as HW.
  destruct (xsolve_ok Rops junk pb o ws x st x' real_safe (leb_refl_R _) HW E) as (HX & Hexp & _ & HC).
  pose proof (gsh_shape _ _ (xh_s _ _ _ HX)) as HS.
  change (gn Rops pb) with (nv pb) in HC.
  destruct HC as [(-> & Hn)|[(-> & Hn & Hl)|(Hn & Hl & x4 & x5 & x6 & x0 & HXI & Hbeg & Elp & _ & _ & Hst)]].
  - apply xe_over; auto.
  - apply xe_nonpos; auto. intros HPd. apply Hl. apply (llt_iff (nv pb) (p_G pb)). exact HPd.
  - pose proof (xinits_started _ _ _ _ _ _ _ HXI Hl Hw Hq Hh) as HSt. pose proof (started_linv _ _ HSt) as HL0.
    apply (xe_loop junk pb o ws x st (x_s x') x4 x5 x6 x0); auto. { apply (llt_iff (nv pb) (p_G pb)). exact Hl. }
    destruct (loop_reach pb o _ _ _ _ Elp) as [(-> & l & HR & El)|(k & l & Hk & HR & Ei)].
    + left. split; auto. exists l. split; [exact HR|]. split; auto. eapply reach_linv; eauto.
    + right. exists k, l. split; [exact Hk|]. split; [exact HR|].
      assert (HL : linv pb l) by (eapply reach_linv; eauto). split; auto.
      destruct (iter_spec pb o l HL) as (out & Eo & HC). assert (out = Stop st (x_s x')) by congruence. subst out.
      pose proof (iter_linv pb o l _ HL HC) as HX'. simpl in HX'. destruct HX' as [(-> & Es)|(-> & _)].
      * left. split; auto. split; auto. rewrite Es in HC. exact HC.
      * right. auto.
Qed.

Lemma xfinal_feasible junk pb o ws x x' v : xhistory Rops x -> xgi_solve junk pb o ws x = Ok (SUCCESS, x') -> solution (x_s x') = Ok v ->
  warm_ok junk pb o ws x -> ordered pb -> length v = nv pb /\ feasible pb (vec_of v).
Proof.
  intros HH E Ev Hw Hord. pose proof (xsolve_ended _ _ _ _ _ _ _ HH E Hw) as HE.
  inversion HE as [| |st s' x4 x5 x6 x0 HPd HXI Hbeg HSt Hexp HS HC]; subst st s'.
  destruct (solution_spec pb (x_s x') v HS Ev) as [Hlen Hx]. split; auto.
  destruct HC as [(H & _)|(k & l & Hk & HR & HL & [(_ & Es & HC)|(H & _)])]; try discriminate.
  apply (feasible_ext pb (xof (x_s x'))); [apply sizes_nb, HL|intros; symmetry; apply Hx; auto|].
  rewrite Es. eapply success_feasible; eauto.
Qed.

(** (exactness) no multiplier of the starting point falls in [-1e-14, 0), and no other tolerance test misfires *)
Definition xexact_tests (junk : vec Rops) (pb : rproblem) (o : ropt) (ws : list status) (x : rxsol) : Prop :=
  forall x0, xbegins Rops junk pb o ws x x0 ->
    (forall k, (k < nact (s_A (x_s x0)))%nat -> isEq (stt (s_A (x_s x0)) (act (s_A (x_s x0)) k)) = false -> uof (x_s x0) k < 0 -> uof (x_s x0) k < - eps) /\
    calm_run pb o (o_maxIter o) (start (x_s x0)).

Lemma xstart_finv junk pb o ws x e x4 x5 x6 x0 : let ws' := ws_eff Rops junk pb o ws x in
  xinits Rops pb o ws' x4 x5 x6 x0 -> xbegins Rops junk pb o ws x x0 -> posdef (nv pb) (hess pb) -> started pb x0 -> warm_ok junk pb o ws x ->
  (e <= ncb pb)%nat -> eq_first pb e -> bounds_later pb o ws' -> xexact_tests junk pb o ws x -> finv pb e (start (x_s x0)).
Proof.
  intros ws' HXI Hbeg HPd HSt [Hw Hq Hh] Hle He Hb Hex. split; simpl.
  - apply started_linv. auto.
  - destruct (Hex x0 Hbeg) as [Hu _]. split; [apply HSt| |congruence].
    intros k Hk Hq'. destruct (Rle_lt_dec 0 (uof (x_s x0) k)) as [|Hlt]; auto. exfalso.
    specialize (Hu k Hk Hq' Hlt). pose proof (sd_u _ _ HSt k Hk Hq'). lra.
  - eapply xinits_ali; eauto. apply (llt_iff (nv pb) (p_G pb)). exact HPd.
Qed.

Lemma xreach_finv junk pb o ws x e x4 x5 x6 x0 k l : let ws' := ws_eff Rops junk pb o ws x in
  xinits Rops pb o ws' x4 x5 x6 x0 -> xbegins Rops junk pb o ws x x0 -> posdef (nv pb) (hess pb) -> started pb x0 -> warm_ok junk pb o ws x ->
  (e <= ncb pb)%nat -> eq_first pb e -> bounds_later pb o ws' -> xexact_tests junk pb o ws x ->
  (k <= o_maxIter o - s_it (x_s x0))%nat -> reach pb o k (start (x_s x0)) l -> finv pb e l.
Proof.
  intros ws' HXI Hbeg HPd HSt Hw Hle He Hb Hex Hk HR.
  eapply (reach_finv pb o e k (start (x_s x0))); eauto; [eapply xstart_finv; eauto|].
  intros j l1 Hj HR1. destruct (Hex x0 Hbeg) as [_ Hc]. apply (Hc j l1); auto. lia.
Qed.

Lemma xfinal_kkt junk pb o ws x x' v lam s'' : xhistory Rops x -> xgi_solve junk pb o ws x = Ok (SUCCESS, x') -> solution (x_s x') = Ok v ->
  multipliers (x_s x') = Ok (lam, s'') -> warm_ok junk pb o ws x -> ordered pb -> equalities_first pb ->
  bounds_later pb o (ws_eff Rops junk pb o ws x) -> xexact_tests junk pb o ws x ->
  length v = nv pb /\ length lam = ncb pb /\ kkt pb (vec_of v) (vec_of lam) /\ unique_minimiser pb (vec_of v).
Proof.
  intros HH E Ev Em Hw Hord Hfirst Hb Hex. destruct (equalities_first_ex pb Hfirst) as (e & Hle & He).
  destruct (xfinal_feasible _ _ _ _ _ _ _ HH E Ev Hw Hord) as [Hlen HF].
  pose proof (xsolve_ended _ _ _ _ _ _ _ HH E Hw) as HE.
  inversion HE as [| |st s' x4 x5 x6 x0 HPd HXI Hbeg HSt Hexp HS HC]; subst st s'.
  destruct (solution_spec pb (x_s x') v HS Ev) as [_ Hx].
  destruct HC as [(H & _)|(k & l & Hk & HR & HL & [(_ & Es & HC)|(H & _)])]; try discriminate.
  destruct (mult_vec pb (x_s x') lam s'') as (w & HM & Hlam & Hv & _ & _); auto.
  assert (Hnb : (nb pb <= nv pb)%nat) by apply sizes_nb, HL.
  assert (HK : kkt pb (vec_of v) (vec_of lam)).
  { apply (kkt_ext pb (xof (x_s x')) (vec_of v) w (vec_of lam)); auto; [intros; symmetry; apply Hx; auto|intros; symmetry; auto|].
    assert (HFi : finv pb e l) by (apply (xreach_finv junk pb o ws x e x4 x5 x6 x0 k l); auto; lia).
    rewrite Es in HM |- *. apply dinv_kkt; auto; [apply HL| |eapply success_feasible; eauto].
    pose proof (fi_dinv _ _ _ HFi) as HD. inversion HC as [smin sc Hsk _ _|]; subst; [rewrite Hsk in HD; auto|].
    exfalso. match goal with H : step2_case _ _ _ _ _ _ _ _ _ |- _ => inversion H end. }
  split; auto. split; auto. split; auto. apply (kkt_unique_minimiser pb _ (vec_of lam)); auto.
Qed.

Lemma xfinal_infeasible junk pb o ws x x' : xhistory Rops x -> xgi_solve junk pb o ws x = Ok (INFEASIBLE, x') ->
  warm_ok junk pb o ws x -> equalities_first pb ->
  bounds_later pb o (ws_eff Rops junk pb o ws x) -> xexact_tests junk pb o ws x -> infeasible pb.
Proof.
  intros HH E Hw Hfirst Hb Hex. destruct (equalities_first_ex pb Hfirst) as (e & Hle & He).
  pose proof (xsolve_ended _ _ _ _ _ _ _ HH E Hw) as HE.
  inversion HE as [| |st s' x4 x5 x6 x0 HPd HXI Hbeg HSt Hexp HS HC]; subst st s'.
  destruct HC as [(H & _)|(k & l & Hk & HR & HL & [(H & _)|(_ & HC)])]; try discriminate.
  assert (HFi : finv pb e l) by (apply (xreach_finv junk pb o ws x e x4 x5 x6 x0 k l); auto; lia).
  eapply infeasible_correct; eauto; [apply HFi|]. destruct (Hex x0 Hbeg) as [_ Hc]. apply (Hc k l); auto. lia.
Qed.

(** Over the exact reals, a run of the solver is determined by the active set, the point and the multipliers: two states that
    agree on those, whatever the factorisations they hold (as long as each is a factorisation of the active normals), run
    through the same steps.  Used to compare the stable solver (constraints added one by one with Givens rotations) to the
    warm-startable one (Householder factorisation of the starting set). *)
From Coq Require Import List Arith ZArith Lia Bool Reals Lra.
From Verif Require Import Base ActiveSet ActiveSetProofs Num Solver QPSpec LinAlg QRUpdate GIBase GIInv GIDual GIRun GISame GIInit GIOpt Warm WarmQR WarmHot.
Import ListNotations.
Local Open Scope R_scope.

(** [e]: how many multipliers beyond the active ones agree *)
Record obs (e : nat) (s s' : rsol) : Prop := {
  ob_n : s_n s = s_n s'; ob_A : s_A s = s_A s'; ob_good : good (s_A s);
  ob_it : s_it s = s_it s'; ob_f : s_f s = s_f s'; ob_exp : s_exp s = s_exp s';
  ob_x : vagr Rops (s_n s) (w_buf (s_x s)) (w_buf (s_x s'));
  ob_u : vagr Rops (nact (s_A s) + e) (w_buf (s_u s)) (w_buf (s_u s'))
}.
Lemma obs_weak e s s' : obs e s s' -> obs 0 s s'.
Proof. intros [H1 H2 H3 H4 H5 H6 H7 H8]. split; auto. intros i Hi. apply H8. lia. Qed.

(** ** The step is determined by the active set *)
Lemma qr_independent n q J Rm N : qr n q J Rm N -> independent n q N.
Proof.
  intros [Q1 Q2 Q3 Q4] c Hc.
  assert (E : forall i, (i < n)%nat -> rsum q (fun k => c k * tdot n J i (N k)) = 0).
  { intros i Hi. rewrite <- tdot_comb. unfold tdot. apply sum_zero. intros a Ha. rewrite Hc by auto. lra. }
  assert (K : forall m k, (q - m <= k)%nat -> (k < q)%nat -> c k = 0).
  { induction m as [|m IH]; intros k Hk1 Hk2; [lia|]. destruct (Nat.le_gt_cases (q - m) k) as [H|H]; [apply IH; auto|].
    assert (k = q - S m)%nat by lia. pose proof (E k ltac:(lia)) as HE.
    rewrite (sum_ext q _ (fun j => if (j =? k)%nat then c j * Rm j j else 0)) in HE.
    - rewrite (sum_delta q k) in HE by auto. specialize (Q4 k Hk2). apply Rmult_integral in HE as [|]; [auto|contradiction].
    - intros j Hj. destruct (Nat.eqb_spec j k) as [->|Hne]; [rewrite Q2 by lia; reflexivity|].
      destruct (Nat.lt_ge_cases j k); [rewrite Q3 by lia; lra|]. rewrite (IH j) by lia. lra. }
  intros k Hk. apply (K q); lia.
Qed.
Definition with_a (pb : rproblem) (a : rvec) : rproblem :=
  @Pb Rops (p_G pb) (p_Grows pb) (p_Gcols pb) a (p_asize pb) (p_C pb) (p_Crows pb) (p_Ccols pb) (p_bl pb) (p_blsize pb) (p_bu pb) (p_busize pb)
    (p_xl pb) (p_xlsize pb) (p_xu pb) (p_xusize pb).
Lemma step_twin pb s s' sc s1 s1' : posdef (nv pb) (hess pb) -> pinv pb s -> pinv pb s' -> s_A s = s_A s' -> stepped pb s sc s1 -> stepped pb s' sc s1' ->
  (forall i, (i < nv pb)%nat -> zof s1 i = zof s1' i) /\ (forall k, (k < nact (s_A s))%nat -> rof s1 k = rof s1' k).
Proof.
  intros HD HP HP' EA HS HS'. set (pz := with_a pb (fun a => - scn pb sc a)).
  destruct (point_unique pz (nact (s_A s)) (Nact pb (s_A s)) (zof s1) (zof s1') (fun k => - rof s1 k) (fun k => - rof s1' k)) as (H1 & H2).
  - exact HD.
  - exact (qr_independent _ _ _ _ _ (pi_qr _ _ HP)).
  - intros k Hk. change (nv pz) with (nv pb). rewrite (st_orth pb s sc s1 k HP HS Hk). rewrite EA in *. rewrite (st_orth pb s' sc s1' k HP' HS' Hk). reflexivity.
  - intros a Ha. unfold gradient. change (nv pz) with (nv pb) in *. change (hess pz) with (hess pb). change (p_a pz a) with (- scn pb sc a).
    rewrite (st_Gz pb s sc s1 a HP HS Ha). rewrite (sum_ext _ (fun k => - rof s1 k * _) (fun k => - (rof s1 k * Nact pb (s_A s) k a))) by (intros; lra). rewrite sum_opp. lra.
  - intros a Ha. unfold gradient. change (nv pz) with (nv pb) in *. change (hess pz) with (hess pb). change (p_a pz a) with (- scn pb sc a).
    rewrite EA. rewrite (st_Gz pb s' sc s1' a HP' HS' Ha). rewrite (sum_ext _ (fun k => - rof s1' k * _) (fun k => - (rof s1' k * Nact pb (s_A s') k a))) by (intros; lra). rewrite sum_opp. lra.
  - split; [exact H1|]. intros k Hk. specialize (H2 k Hk). cbv beta in H2. lra.
Qed.

(** ** One iteration *)
Definition lobs (l l' : lst Rops) : Prop :=
  l_skip l = l_skip l' /\ (l_skip l = true -> l_sc l = l_sc l') /\ obs (if l_skip l then 1 else 0) (l_s l) (l_s l').
Definition oobs (a b : iter_out Rops) : Prop :=
  match a, b with
  | Continue l, Continue l' => lobs l l'
  | Stop st s, Stop st' s' => st = st' /\ obs 0 s s'
  | _, _ => False
  end.

Lemma select_obs pb e s s' : shape pb s -> obs e s s' -> pr eq (selectViolated pb s) (selectViolated pb s').
Proof.
  intros HS [H1 H2 H3 H4 H5 H6 H7 H8]. unfold selectViolated. rewrite <- H1, <- H2.
  assert (HC : p_Crows pb = s_n s) by (pose proof (sh_sizes _ _ HS) as Hsz; rewrite (sh_n _ _ HS); unfold sizes_ok in Hsz; rewrite !andb_true_iff, !Nat.eqb_eq in Hsz; apply Hsz).
  assert (HB : (p_xlsize pb <= s_n s)%nat) by (rewrite (sh_n _ _ HS); exact (sizes_nb pb (sh_sizes _ _ HS))).
  assert (Enb : a_nb (s_A s) = p_xlsize pb) by apply HS.
  eapply pr_bind; [apply pr_getV|]. intros x x' (-> & ->). apply pr_eq.
  rewrite (sel_cstr_agr Rops pb (s_A s) _ (w_buf (s_x s'))) by (rewrite HC; auto).
  destruct (sel_cstr pb (s_A s) (w_buf (s_x s')) (a_nc (s_A s)) (zero Rops, SC 0 INACTIVE)); auto. cbn [bind].
  rewrite (sel_bnd_agr Rops pb (s_A s) _ (w_buf (s_x s'))); auto. intros i Hi. apply H7. lia.
Qed.
Lemma step1_obs pb l l' : shape pb (l_s l) -> lobs l l' ->
  pr (fun a b => match a, b with None, None => True | Some m, Some m' => l_sc m = l_sc m' /\ obs 1 (l_s m) (l_s m') | _, _ => False end)
     (step1 pb l) (step1 pb l').
Proof.
  intros HS (H1 & H2 & H3). unfold step1. rewrite <- H1. destruct (l_skip l) eqn:Esk.
  - apply pr_ok. auto.
  - eapply pr_bind; [eapply select_obs; eauto|]. intros sc ? <-.
    pose proof H3 as [K1 K2 K3 K4 K5 K6 K7 K8].
    destruct (sc_st sc); [apply pr_ok; auto|..].
    all: eapply pr_bind; [apply pr_getV|]; intros r0 r0' (-> & ->);
      eapply pr_bind; [apply pr_getV|]; intros u0 u0' (-> & ->); apply pr_ok; simpl; split; auto;
      split; simpl; auto; rewrite <- K2; intros i Hi; unfold upd; destruct (Nat.eqb_spec i (nact (s_A (l_s l)))); auto; apply K8; lia.
Qed.
Lemma add_obs s s' sc : obs 1 s s' -> pr (obs 0) (addConstraint s sc) (addConstraint s' sc).
Proof.
  intros [H1 H2 H3 H4 H5 H6 H7 H8]. unfold addConstraint. rewrite <- H2.
  eapply (pr_bind (fun A A' => A = A' /\ good A /\ nact A = Datatypes.S (nact (s_A s)))).
  { apply pr_same. intros A E. split; auto. pose proof (good_activate _ _ _ _ H3 E) as HG. split; auto.
    apply activate_inv in E as (_ & _ & _ & _ & EA & _). rewrite !nact_length, EA, app_length by auto. simpl. lia. }
  intros A A' (<- & HG & EN). unfold addConstraint_. cbn [s_n s_A s_d s_J s_R set_A].
  eapply pr_bind; [apply pr_getV|]. intros d0 d0' (-> & ->).
  eapply pr_bind; [apply pr_getM|]. intros J J' (-> & -> & _).
  destruct (add_loop _ _ _ _ (view (s_n s) (w_buf (s_J s)))) as (d1, J1). destruct (add_loop _ _ _ _ (view (s_n s') (w_buf (s_J s')))) as (d1', J1').
  eapply pr_bind; [apply pr_getM|]. intros R R' (-> & -> & Hq).
  apply pr_guard. intros _ _. apply pr_ok. split; simpl; auto.
  intros i Hi. apply H8. lia.
Qed.
Lemma remove_obs s s' l : obs 1 s s' -> pr (obs 1) (removeConstraint s l) (removeConstraint s' l).
Proof.
  intros [H1 H2 H3 H4 H5 H6 H7 H8]. unfold removeConstraint. rewrite <- H2.
  apply pr_guard. intros _ _. cbn [s_A set_u]. rewrite <- H2.
  eapply (pr_bind (fun A A' => A = A' /\ good A /\ nact (s_A s) = Datatypes.S (nact A))).
  { apply pr_same. intros A E. split; auto. pose proof (good_deactivate _ _ _ H3 E) as HG. split; auto.
    assert (Hl : (l < nact (s_A s))%nat) by (rewrite nact_length by auto; apply (deactivate_legal _ l H3); eauto).
    destruct (deactivate_removed (s_A s) l H3 Hl) as (A2 & E2 & HA2). assert (A2 = A) by congruence. subst A2.
    pose proof (ar_nact _ _ _ HA2). lia. }
  intros A A' (<- & HG & EN). unfold removeConstraint_. cbn [s_n s_A s_d s_J s_R s_u set_A set_u].
  eapply pr_bind; [apply pr_getM|]. intros J J' (-> & -> & _).
  eapply pr_bind; [apply pr_getM|]. intros R R' (-> & -> & Hq).
  destruct (rem_loop _ _ _ _ (view (s_n s) _, _)) as (R1, J1). destruct (rem_loop _ _ _ _ (view (s_n s') _, _)) as (R1', J1').
  apply pr_ok. split; simpl; auto.
  intros i Hi. rewrite !vm_at. rewrite EN in H8 |- *.
  destruct ((l <=? i)%nat && (i <? Datatypes.S (nact A))%nat); apply H8; lia.
Qed.

Lemma computeStep_stepped pb s sc : pinv pb s -> sel_valid pb sc -> exists s1, computeStep pb s sc = Ok s1 /\ stepped pb s sc s1.
Proof. intros HP HV. destruct (computeStep_pinv pb s sc HP HV) as (s1 & E & H1 & H2). exists s1. split; auto. split; auto. Qed.

Lemma step2_obs pb o m m' : posdef (nv pb) (hess pb) -> pinv pb (l_s m) -> pinv pb (l_s m') -> sel_valid pb (l_sc m) -> l_sc m = l_sc m' -> obs 1 (l_s m) (l_s m') ->
  pr oobs (step2 pb o m) (step2 pb o m').
Proof.
  intros HD HP HP' HV Esc Hs. unfold step2. rewrite <- Esc. set (sc := l_sc m) in *. rewrite <- (ob_A _ _ _ Hs), <- (ob_n _ _ _ Hs).
  destruct (computeStep_stepped pb _ sc HP HV) as (s1 & E1 & S1). destruct (computeStep_stepped pb _ sc HP' HV) as (s1' & E1' & S1').
  rewrite E1, E1'. cbn [bind].
  destruct (step_twin pb _ _ sc s1 s1' HD HP HP' (ob_A _ _ _ Hs) S1 S1') as (Fz & Fr).
  pose proof Hs as [H1 H2 H3 H4 H5 H6 H7 H8].
  destruct S1 as [[R1 R2 R3 R4 R5 R6 R7 R8 R9 R10 R11 R12 R13 R14] _], S1' as [[Q1 Q2 Q3 Q4 Q5 Q6 Q7 Q8 Q9 Q10 Q11 Q12 Q13 Q14] _].
  assert (En : s_n (l_s m) = nv pb) by apply HP.
  assert (Hz : vagr Rops (s_n (l_s m)) (w_buf (s_z s1)) (w_buf (s_z s1'))) by (rewrite En; exact Fz).
  assert (Hr : vagr Rops (nact (s_A (l_s m))) (w_buf (s_r s1)) (w_buf (s_r s1'))) by exact Fr.
  assert (O1 : obs 1 s1 s1').
  { split; [congruence|congruence|rewrite R4; auto|congruence|congruence|congruence|rewrite R6, Q6, R3; auto|rewrite R7, Q7, R4; auto]. }
  assert (EL : computeStepLength pb o s1 sc = computeStepLength pb o s1' sc).
  { unfold computeStepLength. rewrite R3, Q3, R4, Q4, <- H1, <- H2, R6, Q6, R7, Q7.
    rewrite (len1_agr Rops _ _ (w_buf (s_u (l_s m'))) _ (w_buf (s_r s1'))); [|intros i Hi; apply H8; lia|exact Hr].
    f_equal. f_equal.
    rewrite (len2_agr Rops pb (s_n (l_s m)) _ (w_buf (s_x (l_s m'))) _ (w_buf (s_z s1'))) by auto.
    unfold norm. rewrite (gdot_ext Rops (s_n (l_s m)) (w_buf (s_z s1)) (w_buf (s_z s1)) (w_buf (s_z s1')) (w_buf (s_z s1'))) by auto. auto. }
  eapply pr_bind; [apply pr_eq; exact EL|]. intros ((t1, t2), i) ? <-.
  set (t := if ltb Rops t2 t1 then t2 else t1). set (n := s_n (l_s m)) in *. set (q := nact (s_A (l_s m))) in *.
  destruct (leb Rops (o_bigBnd o) t). { apply pr_ok. split; auto. eapply obs_weak; eauto. }
  pose proof O1 as [K1 K2 K3 K4 K5 K6 K7 K8]. rewrite R4 in K8. fold q in K8. rewrite R3 in K7. fold n in K7.
  assert (Hu : vagr Rops (q + 1) (dual_step q t (w_buf (s_u s1)) (w_buf (s_r s1))) (dual_step q t (w_buf (s_u s1')) (w_buf (s_r s1')))) by (apply dual_step_agr; auto).
  assert (Hrem : forall s2 s2', obs 1 s2 s2' -> pr oobs
     (do s <- removeConstraint s2 i; do r0 <- getV (s_r s) (q - 1); do u0 <- getV (s_u s) q; Ok (Continue (L s true sc)))
     (do s <- removeConstraint s2' i; do r0 <- getV (s_r s) (q - 1); do u0 <- getV (s_u s) q; Ok (Continue (L s true sc)))).
  { intros s2 s2' S2. eapply pr_bind; [apply remove_obs; eauto|]. intros s3 s3' S3.
    eapply pr_bind; [apply pr_getV|]. intros _ _ _. eapply pr_bind; [apply pr_getV|]. intros _ _ _. apply pr_ok. split; auto. }
  destruct (leb Rops (o_bigBnd o) t2).
  { apply Hrem. split; simpl; auto; [rewrite R3|rewrite R4]; auto. }
  eapply pr_bind; [apply (cn_dot_agr Rops pb sc n); exact Hz|]. intros nz ? <-.
  cbn [s_u s_r s_f set_x set_f set_u].
  set (s2 := set_u (set_f (set_x s1 _) _) _). set (s2' := set_u (set_f (set_x s1' _) _) _).
  assert (S2 : obs 1 s2 s2').
  { split; simpl; auto.
    - rewrite K5, (K8 q) by lia. auto.
    - rewrite R3. fold n. rewrite !vm_id. intros j Hj. unfold vhead. apply Nat.ltb_lt in Hj as Hj'. rewrite Hj', K7, Hz by auto. auto.
    - rewrite R4. auto. }
  destruct (eqb Rops t t2); [|apply Hrem; auto].
  eapply pr_bind; [eapply add_obs; eauto|]. intros s3 s3' S3. apply pr_ok. split; auto.
Qed.
Lemma iter_obs pb o l l' : posdef (nv pb) (hess pb) -> linv pb l -> linv pb l' -> lobs l l' -> pr oobs (iter pb o l) (iter pb o l').
Proof.
  intros HD HL HL' HO. unfold iter. pose proof (step1_obs pb l l' (pi_shape _ _ (proj1 HL)) HO) as HS.
  destruct (step1_spec pb l HL) as [(Hsk & E & _)|(sc & E & Hsel & Hs)]; destruct (step1_spec pb l' HL') as [(Hsk' & E' & _)|(sc' & E' & Hsel' & Hs')];
    specialize (HS _ _ E E'); try contradiction; rewrite E, E'; cbn [bind].
  - apply pr_ok. split; auto. destruct HO as (_ & _ & HO). eapply obs_weak; eauto.
  - destruct HS as (S1 & S2). apply step2_obs; auto; cbn [l_s l_sc]; [apply enter_pinv, HL|apply enter_pinv, HL'|apply Hsel].
Qed.
Lemma loop_obs pb o fuel : posdef (nv pb) (hess pb) -> forall l l', linv pb l -> linv pb l' -> lobs l l' ->
  pr (fun a b => fst a = fst b /\ obs 0 (snd a) (snd b)) (loop pb o fuel l) (loop pb o fuel l').
Proof.
  intros HD. induction fuel as [|f IH]; intros l l' HL HL' HO; cbn [loop].
  - apply pr_ok. split; auto. simpl. destruct HO as (_ & _ & HO). eapply obs_weak; eauto.
  - intros a b Ea Eb. apply bind_ok in Ea as (r & Er & Ea). apply bind_ok in Eb as (r' & Er' & Eb).
    pose proof (iter_obs pb o l l' HD HL HL' HO r r' Er Er') as Ho.
    destruct (iter_spec pb o l HL) as (out & Eo & HC). assert (out = r) by congruence. subst out.
    destruct (iter_spec pb o l' HL') as (out & Eo' & HC'). assert (out = r') by congruence. subst out.
    pose proof (iter_linv pb o l r HL HC) as HN. pose proof (iter_linv pb o l' r' HL' HC') as HN'.
    destruct r as [m|st s], r' as [m'|st' s']; try contradiction.
    + destruct Ho as (O1 & O2 & O3).
      eapply (IH (bump m) (bump m')); eauto; try (apply linv_bump; auto).
      split; simpl; auto. split; auto. destruct O3. split; simpl; auto.
    + injection Ea as <-. injection Eb as <-. exact Ho.
Qed.

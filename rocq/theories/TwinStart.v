(** The two dense solvers, started cold on the same problem: same starting set, point and multipliers, hence (Twins.loop_obs)
    the same run. *)
From Coq Require Import List Arith ZArith Lia Bool Reals Lra.
From Verif Require Import Base ActiveSet ActiveSetProofs Num Solver QPSpec LinAlg QRUpdate GIBase GIInv GIDual GIRun GISame GIInit GIOpt GIMult GICall GISafe GIHist GIFinal
  Warm WarmAS WarmQR WarmSafe WarmHist WarmInit WarmOpt WarmHot Twins.
Import ListNotations.
Local Open Scope R_scope.

(** the equality constraints are all general constraints, or all bounds *)
Definition one_kind (pb : rproblem) : Prop :=
  (forall i, (i < nc pb)%nat -> ~ is_equality pb i) \/ (forall i, (nc pb <= i < ncb pb)%nat -> ~ is_equality pb i).

(** a sound active set is determined by its sizes, list and statuses *)
Lemma good_ext A A' : good A -> good A' -> a_nc A = a_nc A' -> a_nb A = a_nb A' -> a_active A = a_active A' -> (forall i, stt A i = stt A' i) -> A = A'.
Proof.
  intros (HC & HN & _) (HC' & HN' & _) E1 E2 E3 E4.
  assert (Es : a_status A = a_status A').
  { apply (nth_ext _ _ INACTIVE INACTIVE); [rewrite (coh_len _ HC), (coh_len _ HC'); congruence|]. intros i _. apply E4. }
  destruct HN as [N1 N2 N3 N4 N5 N6 N7 N8], HN' as [M1 M2 M3 M4 M5 M6 M7 M8]. unfold cnt in *. rewrite Es in *.
  destruct A, A'. cbn in *. congruence.
Qed.

Lemma cold_wanted pb o i : o_warm o = false -> rwanted pb o [] i = if eqb_c pb i then eqstat pb i else INACTIVE.
Proof. intros Hw. unfold rwanted, wanted, warm_on. rewrite Hw, geq_c. reflexivity. Qed.
Lemma filter_nil {X} (p : X -> bool) l : (forall x, In x l -> p x = false) -> filter p l = [].
Proof. induction l as [|a l IH]; intros H; auto. cbn. rewrite H by (left; auto). apply IH. intros x Hx. apply H. right. auto. Qed.
Lemma cold_initial pb o : o_warm o = false -> one_kind pb -> rinitial pb o [] = filter (eqb_c pb) (seq 0 (ncb pb)).
Proof.
  intros Hw HK. unfold rinitial, initial, order. change (gc_ Rops pb) with (nc pb). change (gb Rops pb) with (nb pb).
  rewrite (filter_ext _ (eqb_c pb)).
  2:{ intros i. change (wanted Rops pb o [] i) with (rwanted pb o [] i). rewrite cold_wanted by auto. unfold isact, eqstat. destruct (eqb_c pb i); auto. destruct (i <? nc pb)%nat; auto. }
  unfold ncb. rewrite seq_app, !filter_app, Nat.add_0_l.
  destruct HK as [HK|HK].
  - rewrite (filter_nil _ (seq 0 (nc pb))), app_nil_r; [reflexivity|]. intros i Hi. apply in_seq in Hi. destruct (eqb_c_spec pb i) as [He|]; auto. exfalso. apply (HK i); auto; lia.
  - rewrite (filter_nil _ (seq (nc pb) (nb pb))), app_nil_r; [reflexivity|]. intros i Hi. apply in_seq in Hi. destruct (eqb_c_spec pb i) as [He|]; auto.
    exfalso. apply (HK i); auto.
Qed.

Lemma einv_nact pb s : einv pb (ncb pb) s -> nact (s_A s) = length (filter (eqb_c pb) (seq 0 (ncb pb))).
Proof. intros [E1 E2 E3 E4]. rewrite nact_length, E3; auto. apply E1. Qed.
Lemma einv_le pb s : einv pb (ncb pb) s -> (length (filter (eqb_c pb) (seq 0 (ncb pb))) <= nv pb)%nat.
Proof. intros H. rewrite <- (einv_nact pb s H). apply (pi_qr _ _ (ei_pinv _ _ _ H)). Qed.

(** the equalities the stable solver managed to put in its active set are independent *)
Lemma einv_posed pb o s : o_warm o = false -> one_kind pb -> einv pb (ncb pb) s -> well_posed pb o [].
Proof.
  intros Hw HK HE l Hl. pose proof (einv_le _ _ HE) as Hle.
  assert (El : l = filter (eqb_c pb) (seq 0 (ncb pb))).
  { rewrite <- (cold_initial pb o Hw HK). apply start_list_initial; auto. rewrite (cold_initial pb o Hw HK). auto. }
  pose proof (qr_independent _ _ _ _ _ (pi_qr _ _ (ei_pinv _ _ _ HE))) as HI.
  rewrite (einv_nact pb s HE), <- El in HI. eapply independent_ext; [|exact HI].
  intros k a Hk _. unfold Nact, wnormal. unfold act. rewrite (ei_list _ _ _ HE), <- El. f_equal. rewrite cold_wanted, (ei_stt _ _ _ HE) by auto.
  assert (HIn : In (nth k l 0%nat) (filter (eqb_c pb) (seq 0 (ncb pb)))) by (rewrite <- El; apply nth_In; auto).
  apply filter_In in HIn as (HIn & Hq). apply in_seq in HIn. rewrite Hq. replace (nth k l 0 <? ncb pb)%nat with true; auto. symmetry. apply Nat.ltb_lt. lia.
Qed.

Lemma twin_calls junk junk' pb o s x : wf_sol s -> xwf Rops x -> sizes_ok pb = true -> o_warm o = false ->
  posdef (nv pb) (hess pb) -> eq_separated pb -> one_kind pb -> exact_qr pb o [] ->
  exists st s' x', gi_solve junk pb o s = Ok (st, s') /\ xgi_solve junk' pb o [] x = Ok (st, x') /\ obs 0 s' (x_s x') /\
    shape pb s' /\ shape pb (x_s x') /\ s_exp s' = true.
Proof.
  intros HW HX Hsz Hw HD HSep HK HQ.
  destruct (solve_spec junk pb o s HW Hsz) as [(HN & _)|(_ & HS)]; [contradiction|].
  destruct (HS HSep) as (s0 & _ & Es & HE & It & Ex).
  assert (Hargs : args_ok Rops pb o [] = true) by (unfold args_ok; rewrite Hsz, orb_true_r, orb_true_r; reflexivity).
  pose proof (xsolve Rops junk' pb o [] x real_safe (leb_refl_R _) HX Hargs) as HC. cbv zeta in HC.
  assert (Ews : ws_eff Rops junk' pb o [] x = []) by (unfold ws_eff; rewrite Hw; auto). rewrite Ews in HC.
  specialize (HC (or_introl (eq_lo_honest pb [] ltac:(intros i Hi; destruct i; discriminate)))).
  replace (forallb (kind1 Rops pb o []) (order Rops pb)) with true in HC.
  2:{ symmetry. apply forallb_forall. intros i _. unfold kind1, warm_on. rewrite Hw. rewrite andb_false_l. cbn [negb]. rewrite orb_true_r. reflexivity. }
  cbn [negb] in HC. pose proof (einv_le _ _ HE) as Hle.
  assert (Hneq : (n_eq Rops pb o [] <= nv pb)%nat).
  { eapply Nat.le_trans; [|exact Hle]. rewrite <- (cold_initial pb o Hw HK). unfold n_eq, rinitial, initial.
    assert (HF : forall l, (length (filter (fun i => isEq (wanted Rops pb o [] i)) l) <= length (filter (fun i => isact (wanted Rops pb o [] i)) l))%nat).
    { induction l as [|a l IH]; auto. cbn. destruct (wanted Rops pb o [] a); cbn; lia. }
    apply HF. }
  change (gn Rops pb) with (nv pb) in HC. replace (nv pb <? n_eq Rops pb o [])%nat with false in HC by (symmetry; apply Nat.ltb_ge; auto).
  assert (Hl : fst (@llt Rops (nv pb) (p_G pb)) = None) by (apply (llt_iff (nv pb) (p_G pb)); exact HD).
  rewrite Hl in HC. destruct HC as (x4 & x5 & x6 & x0 & HXI & _ & Exs).
  pose proof (einv_posed pb o s0 Hw HK HE) as HWP.
  destruct (xinits_pointed _ _ _ _ _ _ _ HXI Hl HWP HQ) as (HP6 & EA6).
  assert (HPA : pia_ok Rops pb o [] (s_A (x_s x4))) by apply HXI.
  assert (El4 : a_active (s_A (x_s x4)) = filter (eqb_c pb) (seq 0 (ncb pb))).
  { rewrite <- (cold_initial pb o Hw HK). apply start_list_initial; [rewrite (cold_initial pb o Hw HK); auto|]. apply pia_start_list; auto. }
  assert (Hst4 : forall i, stt (s_A (x_s x4)) i = if existsb (Nat.eqb i) (filter (eqb_c pb) (seq 0 (ncb pb))) then rwanted pb o [] i else INACTIVE).
  { intros i. rewrite (pk_stt _ _ _ _ _ HPA i), El4. reflexivity. }
  assert (Hst : forall i, stt (s_A (x_s x4)) i = stt (s_A s0) i).
  { intros i. rewrite Hst4, (ei_stt _ _ _ HE), cold_wanted by auto.
    destruct (existsb (Nat.eqb i) (filter (eqb_c pb) (seq 0 (ncb pb)))) eqn:Ei.
    - apply existsb_exists in Ei as (j & Hj & Eij). apply Nat.eqb_eq in Eij. subst j. apply filter_In in Hj as (Hj & Hq). apply in_seq in Hj. rewrite Hq.
      replace (i <? ncb pb)%nat with true by (symmetry; apply Nat.ltb_lt; lia). reflexivity.
    - destruct (Nat.ltb_spec i (ncb pb)) as [Hi|Hi]; auto. destruct (eqb_c pb i) eqn:Eq; auto. exfalso.
      assert (existsb (Nat.eqb i) (filter (eqb_c pb) (seq 0 (ncb pb))) = true); [|congruence]. apply existsb_exists. exists i. split; [|apply Nat.eqb_refl].
      apply filter_In. split; auto. apply in_seq. lia. }
  assert (EA : s_A s0 = s_A (x_s x4)).
  { pose proof (pi_shape _ _ (ei_pinv _ _ _ HE)) as HS0. apply good_ext; [apply HS0|apply HPA| | | |]; auto.
    - rewrite (sh_nc _ _ HS0). symmetry. apply HPA.
    - rewrite (sh_nb _ _ HS0). symmetry. apply HPA.
    - rewrite (ei_list _ _ _ HE). auto. }
  assert (Hall : forall k, (k < nact (s_A s0))%nat -> isEq (stt (s_A s0) (act (s_A s0) k)) = true).
  { intros k Hk. destruct (einv_act pb _ s0 k HE Hk) as (H1 & H2). rewrite (ei_stt _ _ _ HE). destruct (eqb_c_spec pb (act (s_A s0) k)); [|contradiction].
    replace (act (s_A s0) k <? ncb pb)%nat with true by (symmetry; apply Nat.ltb_lt; auto). apply eqstat_eq. }
  assert (E06 : x0 = x6).
  { apply (drop_pointed pb _ x6 x0 HP6 (xi_0 _ _ _ _ _ _ _ _ HXI)). intros k Hk. rewrite EA6, <- EA in *. rewrite Hall by auto. discriminate. }
  pose proof (xinits_started _ _ _ _ _ _ _ HXI Hl HWP HQ ltac:(intros i Hi; destruct i; discriminate)) as HSt.
  subst x6. assert (EA0 : s_A s0 = s_A (x_s x0)) by congruence.
  assert (It0 : s_it (x_s x0) = 0%nat) by (rewrite (kp_it _ _ _ (xi_k6 _ _ _ _ _ _ _ _ HXI)), (kp_it _ _ _ (xi_k5 _ _ _ _ _ _ _ _ HXI)); apply HXI).
  destruct (point_unique pb (nact (s_A s0)) (Nact pb (s_A s0)) (xof s0) (xof (x_s x0)) (uof s0) (uof (x_s x0))) as (Fx & Fu); auto.
  { exact (qr_independent _ _ _ _ _ (pi_qr _ _ (ei_pinv _ _ _ HE))). }
  { intros k Hk. pose proof (pi_tight _ _ (ei_pinv _ _ _ HE) k Hk) as T1. rewrite EA0 in *. pose proof (pi_tight _ _ (sd_pinv _ _ HSt) k Hk) as T2. congruence. }
  { intros a Ha. rewrite (ds_grad _ _ _ (ei_dstat _ _ _ HE) a Ha). lra. }
  { intros a Ha. rewrite (ds_grad _ _ _ (sd_stat _ _ HSt) a Ha). rewrite EA0. lra. }
  assert (HS0 : shape pb s0) by apply HE. assert (HS0' : shape pb (x_s x0)) by apply HSt.
  assert (HL : linv pb (start s0)). { split; simpl; [apply HE|discriminate]. }
  assert (HL' : linv pb (start (x_s x0))) by (apply started_linv; auto).
  assert (HO : lobs (start s0) (start (x_s x0))).
  { split; auto. split; [discriminate|]. cbn [l_s l_skip start]. split; auto.
    - rewrite (sh_n _ _ HS0), (sh_n _ _ HS0'). auto.
    - apply HS0.
    - congruence.
    - rewrite (ds_f _ _ _ (ei_dstat _ _ _ HE)), (ds_f _ _ _ (sd_stat _ _ HSt)). apply objective_ext. exact Fx.
    - rewrite Ex. symmetry. apply (xi_start _ _ _ _ _ _ _ _ HXI).
    - rewrite (sh_n _ _ HS0). exact Fx.
    - rewrite Nat.add_0_r. exact Fu. }
  destruct (loop_total pb o (o_maxIter o) _ HL) as (st & s' & E1 & _ & Sh1).
  destruct (loop_total pb o (o_maxIter o) _ HL') as (st' & s'' & E2 & _ & Sh2).
  destruct (loop_obs pb o (o_maxIter o) HD _ _ HL HL' HO _ _ E1 E2) as (Est & Ho). cbn [fst snd] in *. subst st'.
  exists st, s', (xset_s x0 s''). split; [congruence|]. split.
  { rewrite Exs, It0, Nat.sub_0_r. change (L (x_s x0) false (SC 0 INACTIVE)) with (start (x_s x0)). rewrite E2. reflexivity. }
  split; auto. split; auto. split; auto.
  assert (Exx : xgi_solve junk' pb o [] x = Ok (st, xset_s x0 s'')).
  { rewrite Exs, It0, Nat.sub_0_r. change (L (x_s x0) false (SC 0 INACTIVE)) with (start (x_s x0)). rewrite E2. reflexivity. }
  rewrite (ob_exp _ _ _ Ho). destruct (xsolve_ok Rops junk' pb o [] x st _ real_safe (leb_refl_R _) HX Exx) as (_ & Hexp & _). exact Hexp.
Qed.

(** Total correctness: hypotheses on the problem only.  For a problem whose
    projected constraint directions are never in the blind spot (0, 1e-14] of
    the tolerance, there are thresholds for [bigBnd] and [maxIter] above which
    solve() answers correctly. *)
From Coq Require Import List Arith ZArith Lia Bool Reals Lra.
From Verif Require Import Base ActiveSet ActiveSetProofs Num Solver LinAlg QRUpdate QPSpec GIMath GIBase GIInv GIDual GIRun GIOpt GIMult GIInit GISafe GICall GIHist GIFinal GITerm.
Import ListNotations.
Local Open Scope R_scope.

(** [z] is the projection (in the metric of G) of the normal of constraint [i]
    on the directions orthogonal to the constraints in [W]. *)
Record projected (pb : rproblem) (W : nat -> bool) (i : nat) (z r : rvec) : Prop := {
  pj_supp : forall j, W j = false -> r j = 0;
  pj_eq : forall a, (a < nv pb)%nat ->
     rsum (nv pb) (fun b => hess pb a b * z b) = cvec pb i a - rsum (ncb pb) (fun j => r j * cvec pb j a);
  pj_orth : forall j, (j < ncb pb)%nat -> W j = true -> rdot (nv pb) (cvec pb j) z = 0
}.

(** No such direction is non-zero and shorter than 1e-14. *)
Definition tolerance_gap (pb : rproblem) : Prop :=
  forall W i z r, (i < ncb pb)%nat -> projected pb W i z r ->
  (forall a, (a < nv pb)%nat -> z a = 0) \/ / 10 ^ 14 < sqrt (rdot (nv pb) z z).

(** The normals of the equality constraints are linearly independent. *)
Definition eq_independent (pb : rproblem) : Prop :=
  forall w : rvec, (forall i, (i < ncb pb)%nat -> ~ is_equality pb i -> w i = 0) ->
  (forall a, (a < nv pb)%nat -> rsum (ncb pb) (fun i => w i * cvec pb i a) = 0) ->
  forall i, (i < ncb pb)%nat -> w i = 0.

Lemma gap_separated pb : tolerance_gap pb -> eq_independent pb -> eq_separated pb.
Proof.
  intros HG HI i z r Hi Hq Hr Hz Ho.
  destruct (HG (fun j => (j <? i)%nat && eqb_c pb j) i z r Hi) as [H0|H]; auto.
  - split; auto.
    + intros j Hj. apply Hr. intros [H1 H2]. apply Nat.ltb_lt in H1. rewrite H1 in Hj. destruct (eqb_c_spec pb j); [discriminate|contradiction].
    + intros j Hj HW. apply andb_true_iff in HW as [H1 H2]. apply Nat.ltb_lt in H1. destruct (eqb_c_spec pb j); [|discriminate]. apply Ho; auto.
  - exfalso. set (w := fun j => if (j =? i)%nat then 1 else - r j).
    assert (Hw : w i = 0).
    { apply HI; auto.
      - intros j Hj Hn. unfold w. destruct (Nat.eqb_spec j i) as [->|]; [contradiction|]. rewrite Hr; [lra|tauto].
      - intros a Ha. specialize (Hz a Ha).
        rewrite (sum_zero (nv pb)) in Hz by (intros; rewrite H0 by auto; rring).
        assert (Eri : r i = 0) by (apply Hr; lia).
        rewrite (sum_ext (ncb pb) _ (fun j => (if (j =? i)%nat then cvec pb j a else 0) - r j * cvec pb j a)).
        + rewrite sum_minus, sum_delta by auto. lra.
        + intros j Hj. unfold w. destruct (Nat.eqb_spec j i) as [->|]; rewrite ?Eri; rring. }
    unfold w in Hw. rewrite Nat.eqb_refl in Hw. lra.
Qed.

(** ** The direction computed by the code is such a projection *)
Definition ssign (st : status) : R := match st with UPPER | UPPER_BOUND => -1 | _ => 1 end.
Lemma nsign_ssign pb i st a : nsign pb i st a = ssign st * cvec pb i a.
Proof. unfold nsign, ssign. destruct st; rring. Qed.
Lemma ssign_sq st : ssign st * ssign st = 1.
Proof. unfold ssign. destruct st; lra. Qed.

(** direction and coefficients of the code, for the unsigned normal *)
Definition pz (sc : selcstr) (s1 : rsol) : rvec := fun a => ssign (sc_st sc) * zof s1 a.
Definition prr (s : rsol) (sc : selcstr) (s1 : rsol) : rvec :=
  fun j => rsum (nact (s_A s)) (fun k => if (j =? act (s_A s) k)%nat then ssign (sc_st sc) * ssign (stt (s_A s) (act (s_A s) k)) * rof s1 k else 0).
Lemma stepped_projected pb s sc s1 : pinv pb s -> stepped pb s sc s1 -> (sc_idx sc < ncb pb)%nat ->
  projected pb (fun j => negb (status_eqb (stt (s_A s) j) INACTIVE)) (sc_idx sc) (pz sc s1) (prr s sc s1).
Proof.
  intros HP HS Hi. unfold pz, prr. set (sg := ssign (sc_st sc)). assert (Hsg : sg * sg = 1) by apply ssign_sq. split.
  - intros j Hj. apply sum_zero. intros k Hk. destruct (Nat.eqb_spec j (act (s_A s) k)) as [->|]; auto.
    exfalso. destruct (act_props pb s k (pi_shape _ _ HP) Hk) as (_ & Hne & _).
    destruct (status_eqb_spec (stt (s_A s) (act (s_A s) k)) INACTIVE); [contradiction|discriminate].
  - intros a Ha. rewrite (sum_ext _ _ (fun b => sg * (hess pb a b * zof s1 b))) by (intros; rring).
    rewrite sum_scal, (st_Gz pb s sc s1) by auto.
    rewrite (sum_act pb s (fun k => sg * ssign (stt (s_A s) (act (s_A s) k)) * rof s1 k) (fun j => cvec pb j a)) by apply HP.
    rewrite Rmult_minus_distr_l. f_equal.
    + unfold scn. rewrite nsign_ssign. fold sg. rewrite <- Rmult_assoc, Hsg. rring.
    + rewrite <- sum_scal. apply sum_ext. intros k Hk. unfold Nact. rewrite nsign_ssign. rring.
  - intros j Hj HW. destruct (status_eqb_spec (stt (s_A s) j) INACTIVE) as [|Hne]; [discriminate|].
    destruct (act_surj pb s j (pi_shape _ _ HP) Hne) as (k & Hk & Ek).
    pose proof (st_orth pb s sc s1 k HP HS Hk) as Ho. unfold Nact in Ho. rewrite Ek in Ho.
    rewrite dot_def in Ho |- *.
    rewrite (sum_ext _ _ (fun a => sg * ssign (stt (s_A s) j) * (nsign pb j (stt (s_A s) j) a * zof s1 a))).
    + rewrite sum_scal, Ho. rring.
    + intros a Ha. rewrite nsign_ssign. pose proof (ssign_sq (stt (s_A s) j)) as H1.
      transitivity (sg * (ssign (stt (s_A s) j) * ssign (stt (s_A s) j)) * (cvec pb j a * zof s1 a)); [rewrite H1; rring|rring].
Qed.
Lemma prr_at pb s sc s1 k : shape pb s -> (k < nact (s_A s))%nat ->
  prr s sc s1 (act (s_A s) k) = ssign (sc_st sc) * ssign (stt (s_A s) (act (s_A s) k)) * rof s1 k.
Proof.
  intros HS Hk. unfold prr. rewrite (sum_ext _ _ (fun j => if (j =? k)%nat then ssign (sc_st sc) * ssign (stt (s_A s) (act (s_A s) j)) * rof s1 j else 0)).
  - exact (sum_delta (nact (s_A s)) k (fun j => ssign (sc_st sc) * ssign (stt (s_A s) (act (s_A s) j)) * rof s1 j) Hk).
  - intros j Hj. destruct (Nat.eqb_spec j k) as [->|Hne]; [rewrite Nat.eqb_refl; auto|].
    destruct (Nat.eqb_spec (act (s_A s) k) (act (s_A s) j)) as [Ea|]; auto. apply (act_inj pb s) in Ea; auto. congruence.
Qed.

Lemma stepped_gap pb s sc s1 : tolerance_gap pb -> pinv pb s -> stepped pb s sc s1 -> (sc_idx sc < ncb pb)%nat ->
  (forall i, (i < nv pb)%nat -> zof s1 i = 0) \/ eps < znorm pb s1.
Proof.
  intros HG HP HS Hi. set (sg := ssign (sc_st sc)). assert (Hsg : sg * sg = 1) by apply ssign_sq.
  destruct (HG _ (sc_idx sc) _ _ Hi (stepped_projected pb s sc s1 HP HS Hi)) as [H0|H].
  - unfold pz in H0. fold sg in H0. left. intros a Ha. specialize (H0 a Ha). cbv beta in H0.
    assert (H1 : sg * (sg * zof s1 a) = 0) by (rewrite H0; rring). rewrite <- Rmult_assoc, Hsg in H1. lra.
  - unfold pz in H. fold sg in H. right. unfold znorm, norm, eps. rops.
    replace (rdot (nv pb) (zof s1) (zof s1)) with (rdot (nv pb) (fun a => sg * zof s1 a) (fun a => sg * zof s1 a)); auto.
    rewrite !dot_def. apply sum_ext. intros a Ha. transitivity (sg * sg * (zof s1 a * zof s1 a)); [rring|rewrite Hsg; rring].
Qed.

Lemma finite_bound (f : nat -> R) q : exists B, forall k, (k < q)%nat -> f k < B.
Proof.
  induction q as [|q (B & HB)]; [exists 0; intros; lia|]. exists (Rmax B (f q + 1)). intros k Hk.
  destruct (Nat.eq_dec k q) as [->|]; [pose proof (Rmax_r B (f q + 1)); lra|].
  pose proof (Rmax_l B (f q + 1)). assert (f k < B) by (apply HB; lia). lra.
Qed.

(** ** Above a threshold the iteration does not depend on bigBnd *)
Lemma len1_indep A (u r : rvec) b1 b2 q :
  (forall k, (k < q)%nat -> cand A r k -> u k / r k < b1 /\ u k / r k < b2) ->
  (@len1 Rops A u r b1 q = UB /\ @len1 Rops A u r b2 q = UB) \/
  (exists t i, @len1 Rops A u r b1 q = Ok (t, i) /\ @len1 Rops A u r b2 q = Ok (t, i) /\ t < b1 /\ t < b2) \/
  (@len1 Rops A u r b1 q = Ok (b1, 0%nat) /\ @len1 Rops A u r b2 q = Ok (b2, 0%nat)).
Proof.
  induction q as [|q IH]; intros H; [right; right; auto|].
  destruct IH as [[E1 E2]|[(t & i & E1 & E2 & L1 & L2)|[E1 E2]]]; [intros; apply H; auto|..];
    cbn [len1]; rewrite E1, E2; cbn [bind]; auto; destruct (as_stat A q) as [st|] eqn:Es; cbn [bind fst]; auto.
  - destruct (negb (isEq st) && ltb Rops (zero Rops) (r q)) eqn:Ec.
    + right. left. destruct (ltb Rops (div Rops (u q) (r q)) t) eqn:El; [|exists t, i; auto].
      exists (u q / r q), q. rops. destruct (Rltb_spec (u q / r q) t); [|discriminate]. repeat split; auto; lra.
    + right. left. exists t, i. auto.
  - destruct (negb (isEq st) && ltb Rops (zero Rops) (r q)) eqn:Ec.
    + right. left. apply andb_true_iff in Ec as [Ec1 Ec2]. rops. destruct (Rltb_spec 0 (r q)); [|discriminate].
      assert (Hc : cand A r q).
      { split; auto. unfold as_stat in Es. apply guard_ok in Es as [_ Es]. unfold stt.
        destruct (nth_error (a_status A) q) as [st'|] eqn:En; [|discriminate]. injection Es as ->.
        rewrite (nth_error_nth _ _ INACTIVE En). destruct (isEq st); auto; discriminate. }
      destruct (H q (Nat.lt_succ_diag_r q) Hc) as [K1 K2]. exists (u q / r q), q.
      assert (R1 : Rltb (u q / r q) b1 = true) by (apply Rltb_true; auto).
      assert (R2 : Rltb (u q / r q) b2 = true) by (apply Rltb_true; auto).
      rewrite R1, R2. auto.
    + right. right. auto.
Qed.

Lemma iter_indep pb l : linv pb l -> tolerance_gap pb ->
  exists B, forall o, B <= o_bigBnd o -> calm_at pb o l /\ forall o', B <= o_bigBnd o' -> iter pb o l = iter pb o' l.
Proof.
  intros HL HG. destruct (step1_spec pb l HL) as [(Hsk & E & _)|(sc & E & Hsel & Hs)].
  { exists 0. intros o Ho. split.
    - intros l1 s1 E1. congruence.
    - intros o' Ho'. unfold iter. rewrite E. reflexivity. }
  set (s0 := enter l sc) in *. assert (HP0 : pinv pb s0) by (apply enter_pinv, HL).
  destruct (computeStep_pinv pb s0 sc HP0 (se_valid _ _ _ Hsel)) as (s1 & E1 & HR1 & Hr).
  assert (HS : stepped pb s0 sc s1) by (split; auto).
  pose proof (stepped_gap pb s0 sc s1 HG HP0 HS (proj1 (se_valid _ _ _ Hsel))) as Hgap.
  set (q := nact (s_A s1)).
  destruct (finite_bound (fun k => uof s1 k / rof s1 k) q) as (B1 & HB1).
  assert (H2 : exists B2, forall t2, len2 pb (nv pb) (xof s1) (zof s1) sc = Ok t2 -> t2 < B2).
  { destruct (len2 pb (nv pb) (xof s1) (zof s1) sc) as [t|]; [exists (t + 1)|exists 0]; intros t2 Et; [injection Et as <-; lra|discriminate]. }
  destruct H2 as (B2 & HB2).
  exists (Rmax B1 B2). pose proof (Rmax_l B1 B2). pose proof (Rmax_r B1 B2).
  assert (Hcalm : forall o, Rmax B1 B2 <= o_bigBnd o -> calm_at pb o l).
  { intros o Ho l1 s1' El1 Es1. rewrite E in El1. injection El1 as <-. simpl in Es1. rewrite E1 in Es1. injection Es1 as <-. simpl.
    split.
    - destruct Hgap as [Hz|Hz]; [left; auto|right]. split; auto. intros t2 Et. specialize (HB2 t2 Et). lra.
    - intros k Hk _. specialize (HB1 k Hk). simpl in HB1. lra. }
  intros o Ho. split; [apply Hcalm; auto|]. intros o' Ho'.
  unfold iter. rewrite E. cbn [bind]. unfold step2. cbn [l_s l_sc]. rewrite E1. cbn [bind].
  unfold computeStepLength.
  destruct (len1_indep (s_A s1) (w_buf (s_u s1)) (w_buf (s_r s1)) (o_bigBnd o) (o_bigBnd o') (nact (s_A s1)))
    as [[Ea Eb]|[(t1 & i & Ea & Eb & K1 & K2)|[Ea Eb]]].
  { intros k Hk _. specialize (HB1 k Hk). unfold uof, rof in HB1. split; lra. }
  { rewrite Ea, Eb. reflexivity. }
  - rewrite Ea, Eb. cbn [bind fst snd]. destruct (cn_ok pb sc); [cbn [guard]|reflexivity].
    assert (En : s_n s1 = nv pb) by (apply (sh_n pb), HR1). rewrite En.
    destruct (ltb Rops (eps14 Rops) (norm (nv pb) (w_buf (s_z s1)))).
    + destruct (len2 pb (nv pb) (w_buf (s_x s1)) (w_buf (s_z s1)) sc) as [t2|] eqn:E2; [cbn [bind]|reflexivity].
      assert (t2 < B2) by (apply HB2; exact E2).
      set (t := if ltb Rops t2 t1 then t2 else t1).
      assert (Ht : t < o_bigBnd o /\ t < o_bigBnd o') by (unfold t; destruct (ltb Rops t2 t1); split; lra).
      replace (leb Rops (o_bigBnd o) t) with false by (symmetry; apply Rleb_false; lra).
      replace (leb Rops (o_bigBnd o') t) with false by (symmetry; apply Rleb_false; lra).
      replace (leb Rops (o_bigBnd o) t2) with false by (symmetry; apply Rleb_false; lra).
      replace (leb Rops (o_bigBnd o') t2) with false by (symmetry; apply Rleb_false; lra).
      reflexivity.
    + cbn [bind].
      replace (ltb Rops (o_bigBnd o) t1) with false by (symmetry; apply Rltb_false; lra).
      replace (ltb Rops (o_bigBnd o') t1) with false by (symmetry; apply Rltb_false; lra).
      replace (leb Rops (o_bigBnd o) t1) with false by (symmetry; apply Rleb_false; lra).
      replace (leb Rops (o_bigBnd o') t1) with false by (symmetry; apply Rleb_false; lra).
      rewrite !leb_refl_R. reflexivity.
  - rewrite Ea, Eb. cbn [bind fst snd]. destruct (cn_ok pb sc); [cbn [guard]|reflexivity].
    assert (En : s_n s1 = nv pb) by (apply (sh_n pb), HR1). rewrite En.
    destruct (ltb Rops (eps14 Rops) (norm (nv pb) (w_buf (s_z s1)))).
    + destruct (len2 pb (nv pb) (w_buf (s_x s1)) (w_buf (s_z s1)) sc) as [t2|] eqn:E2; [cbn [bind]|reflexivity].
      assert (t2 < B2) by (apply HB2; exact E2).
      replace (ltb Rops t2 (o_bigBnd o)) with true by (symmetry; apply Rltb_true; lra).
      replace (ltb Rops t2 (o_bigBnd o')) with true by (symmetry; apply Rltb_true; lra).
      replace (leb Rops (o_bigBnd o) t2) with false by (symmetry; apply Rleb_false; lra).
      replace (leb Rops (o_bigBnd o') t2) with false by (symmetry; apply Rleb_false; lra).
      replace (eqb Rops t2 t2) with true by (symmetry; rops; destruct (Reqb_spec t2 t2); congruence).
      reflexivity.
    + cbn [bind].
      replace (ltb Rops (o_bigBnd o) (o_bigBnd o)) with false by (symmetry; apply Rltb_false; lra).
      replace (ltb Rops (o_bigBnd o') (o_bigBnd o')) with false by (symmetry; apply Rltb_false; lra).
      rewrite !leb_refl_R. reflexivity.
Qed.

(** ** Runs *)
Lemma reach_fun pb o k l l1 : reach pb o k l l1 -> forall l2, reach pb o k l l2 -> l1 = l2.
Proof.
  induction 1 as [l|k l l1 l2 H IH E]; intros l3 H3; inversion H3; subst; auto.
  match goal with H' : reach pb o k l ?x, E' : iter pb o ?x = _ |- _ => specialize (IH _ H'); subst; congruence end.
Qed.
Lemma reach_none pb o j k l l1 l2 st s : reach pb o j l l1 -> iter pb o l1 = Ok (Stop st s) -> (j < k)%nat -> reach pb o k l l2 -> False.
Proof.
  intros H1 E Hjk H2. revert j l1 st s H1 E Hjk. induction H2 as [l|k l l2 l3 H2 IH E2]; intros; [lia|].
  destruct (Nat.eq_dec j k) as [->|]; [|eapply IH; eauto; lia].
  pose proof (reach_fun _ _ _ _ _ H1 _ H2). subst. congruence.
Qed.

Definition calm_upto (pb : rproblem) (o : ropt) (k : nat) (l0 : rlst) : Prop :=
  forall j l, (j < k)%nat -> reach pb o j l0 l -> calm_at pb o l.

Lemma run_indep pb l0 : linv pb l0 -> tolerance_gap pb -> forall k, exists B,
  (exists l, forall o, B <= o_bigBnd o -> reach pb o k l0 l /\ calm_upto pb o k l0) \/
  (exists j l st s, (j < k)%nat /\ forall o, B <= o_bigBnd o -> reach pb o j l0 l /\ iter pb o l = Ok (Stop st s) /\ calm_upto pb o k l0).
Proof.
  intros HL HG. induction k as [|k (B & IH)].
  - exists 0. left. exists l0. intros o Ho. split; [constructor|]. intros j l Hj. lia.
  - destruct IH as [(l & IH)|(j & l & st & s & Hj & IH)].
    + set (o0 := @Opt Rops 0 B false false).
      assert (HLl : linv pb l) by (eapply reach_linv; [exact HL|apply (IH o0); simpl; lra]).
      destruct (iter_indep pb l HLl HG) as (B' & HB').
      exists (Rmax B B'). pose proof (Rmax_l B B'). pose proof (Rmax_r B B').
      assert (Hcalm : forall o, Rmax B B' <= o_bigBnd o -> calm_upto pb o (S k) l0).
      { intros o Ho j l1 Hj HR. destruct (IH o) as [HR0 HC0]; [lra|]. destruct (Nat.eq_dec j k) as [->|].
        - rewrite (reach_fun _ _ _ _ _ HR _ HR0). apply HB'. lra.
        - apply (HC0 j); auto. lia. }
      set (o1 := @Opt Rops 0 (Rmax B B') false false).
      assert (Hind : forall o, Rmax B B' <= o_bigBnd o -> iter pb o l = iter pb o1 l) by (intros o Ho; apply HB'; simpl; lra).
      destruct (iter_spec pb o1 l HLl) as (out & Eo & _). destruct out as [l2|st s].
      * left. exists (bump l2). intros o Ho. split; auto. destruct (IH o) as [HR0 _]; [lra|].
        econstructor; eauto. rewrite Hind; auto.
      * right. exists k, l, st, s. split; auto. intros o Ho. destruct (IH o) as [HR0 _]; [lra|]. split; auto. split; auto. rewrite Hind; auto.
    + exists B. right. exists j, l, st, s. split; [lia|]. intros o Ho. destruct (IH o Ho) as (H1 & H2 & H3). split; auto. split; auto.
      intros j' l1 Hj' HR. destruct (Nat.eq_dec j' k) as [->|]; [|apply (H3 j'); auto; lia].
      exfalso. apply (reach_none pb o j k l0 l l1 st s); auto.
Qed.

Lemma begins_warm junk pb o o' s s0 : o_warm o = o_warm o' -> begins junk pb o s s0 -> begins junk pb o' s s0.
Proof. unfold begins, dual_init, gi_init. intros ->. auto. Qed.

(** A call, for all large enough [bigBnd] and [maxIter] *)
Lemma total_call junk pb s : history Rops s -> sizes_ok pb = true -> posdef (nv pb) (hess pb) ->
  equalities_first pb -> eq_independent pb -> tolerance_gap pb ->
  exists B, forall o, B <= o_bigBnd o -> (max_steps (nc pb + nb pb) < o_maxIter o)%nat ->
    exact_tests junk pb o s /\ exists st s', gi_solve junk pb o s = Ok (st, s') /\ (st = SUCCESS \/ st = INFEASIBLE).
Proof.
  intros HH Hsz Hpd Hfirst Hind HG. pose proof (gap_separated pb HG Hind) as Hsep.
  destruct (equalities_first_ex pb Hfirst) as (e & Hle & He).
  assert (Hw : forall w, exists B, forall o, o_warm o = w -> B <= o_bigBnd o -> (max_steps (ncb pb) < o_maxIter o)%nat ->
    exact_tests junk pb o s /\ exists st s', gi_solve junk pb o s = Ok (st, s') /\ (st = SUCCESS \/ st = INFEASIBLE)).
  { intros w. set (ow := @Opt Rops 0 0 w false).
    destruct (solve_spec junk pb ow s (hist_wf_sol s HH) Hsz) as [(Hn & _)|(_ & H0)]; [contradiction|].
    destruct (H0 Hsep) as (s0 & Hbeg & _ & HE & Hit & Hex). clear H0.
    set (N := S (max_steps (ncb pb))).
    assert (HL0 : linv pb (start s0)) by (eapply start_linv; eauto).
    destruct (run_indep pb (start s0) HL0 HG N) as (B & HB).
    exists B. intros o Ew Ho Hmax.
    assert (Hb : begins junk pb o s s0) by (eapply begins_warm; [|exact Hbeg]; simpl; auto).
    destruct HB as [(l & HB)|(j & l & st & s' & Hj & HB)].
    - exfalso. destruct (HB o Ho) as [HR HC]. assert ((N < max_steps (ncb pb))%nat) by (eapply (reach_bounded pb o e); eauto).
      unfold N in *. lia.
    - destruct (HB o Ho) as (HR & Ei & HC). assert (HLl : linv pb l) by (eapply reach_linv; eauto).
      split.
      + intros s1 Hb1 k l1 Hk HR1. unfold begins in *. assert (s1 = s0) by congruence. subst s1.
        destruct (Nat.le_gt_cases k j) as [Hkj|Hkj]; [apply (HC k); auto; lia|]. exfalso. apply (reach_none pb o j k (start s0) l l1 st s'); auto.
      + destruct (solve_spec junk pb o s (hist_wf_sol s HH) Hsz) as [(Hn & _)|(_ & H0)]; [contradiction|].
        destruct (H0 Hsep) as (s1 & Hb1 & El & _). unfold begins in *. assert (s1 = s0) by congruence. subst s1.
        destruct (loop_total pb o (o_maxIter o) (start s0) HL0) as (st1 & s2 & El2 & Hst & _).
        exists st1, s2. rewrite El, El2. split; auto. destruct Hst as [-> | [-> | ->]]; auto. exfalso.
        destruct (loop_reach pb o _ _ _ _ El2) as [(_ & l1 & HR1 & _)|(k & l1 & Hk & HR1 & Ei1)].
        * unfold N in Hj. apply (reach_none pb o j (o_maxIter o) (start s0) l l1 st s'); auto. lia.
        * destruct (iter_spec pb o l1 (reach_linv _ _ _ _ _ HL0 HR1)) as (out & Eo & HC1).
          rewrite Ei1 in Eo. injection Eo as <-. pose proof (iter_linv pb o l1 _ (reach_linv _ _ _ _ _ HL0 HR1) HC1) as HX.
          simpl in HX. destruct HX as [(HX & _)|(HX & _)]; discriminate. }
  destruct (Hw true) as (B1 & H1). destruct (Hw false) as (B2 & H2).
  exists (Rmax B1 B2). intros o Ho Hmax. pose proof (Rmax_l B1 B2). pose proof (Rmax_r B1 B2).
  destruct (o_warm o) eqn:Ew; [apply H1|apply H2]; auto; lra.
Qed.

(** Total correctness of the box solver over the reals. *)
From Coq Require Import List Arith ZArith Lia Bool Reals Lra.
From Verif Require Import Base ActiveSet ActiveSetProofs Num Solver LinAlg QRUpdate QPSpec GIMath GIBase GIInv GIDual GIRun GIOpt GIMult GIInit GISafe GICall GIHist GIFinal GISame GITerm GITotal GIMore StructGProofs WarmTotal Box BoxSafe BoxExt BoxProofs Limits BoxGap BoxSteps BoxLimit BoxSame.
Import ListNotations.
Local Open Scope R_scope.

(** What the loop answers when no step reaches [bigBnd] *)
Record answered (pb : rproblem) (st : term_status) (s : rsol) (M bd : nat) : Prop := {
  an_shape : shape pb s;
  an_case : (st = SUCCESS /\ s_f s = objective pb (xof s) /\ feasible pb (xof s) /\ dinv pb s None /\ pinv pb s) \/
            (st = INFEASIBLE /\ infeasible pb) \/
            (st = MAX_ITER_REACHED /\ (M <= bd)%nat)
}.

Lemma loop_answers pb e o s1 M bd : finv pb e (start s1) -> ordered pb ->
  (forall k l, reach pb o k (start s1) l -> calm_at pb o l) -> (forall k l, reach pb o k (start s1) l -> (k <= bd)%nat) ->
  exists st t, loop pb o M (start s1) = Ok (st, t) /\ answered pb st t M bd.
Proof.
  intros HF Hord HC HB. pose proof (fi_linv _ _ _ HF) as HL0.
  destruct (loop_total pb o M (start s1) HL0) as (st & t & El & Hst & HS). exists st, t. split; auto.
  split; [exact HS|].
  destruct (loop_reach pb o _ _ _ _ El) as [(-> & l1 & HR1 & _)|(k & l1 & Hk & HR1 & Ei1)].
  - right. right. split; auto. apply (HB M l1 HR1).
  - assert (HL1 : linv pb l1) by exact (reach_linv _ _ _ _ _ HL0 HR1).
    assert (HF1 : finv pb e l1) by (apply (reach_finv pb o e k (start s1)); auto; intros i l2 _ HR2; apply (HC i); auto).
    destruct (iter_spec pb o l1 HL1) as (out & Eo & HC1). rewrite Ei1 in Eo. injection Eo as <-.
    pose proof (iter_linv pb o l1 _ HL1 HC1) as HX. simpl in HX. destruct HX as [(-> & Es)|(-> & _)].
    + left. split; auto. rewrite Es in HC1. pose proof (success_feasible pb o l1 HL1 Hord HC1) as HFe. rewrite Es.
      pose proof (fi_dinv _ _ _ HF1) as HD.
      assert (Hsk : l_skip l1 = false).
      { inversion HC1 as [smin sc Hsk _ _|]; subst; auto. exfalso. match goal with H : step2_case _ _ _ _ _ _ _ _ _ |- _ => inversion H end. }
      rewrite Hsk in HD. split; [apply HD|]. split; auto. split; auto. apply HL1.
    + right. left. split; auto. apply (infeasible_correct pb o e l1 t HL1 (fi_ali _ _ _ HF1)); auto. apply (HC k); auto.
Qed.

(** ** The call *)
Definition box_ordered (a : rbox) : Prop := forall i l u, (i < ba_n a)%nat -> ba_xl a i = Some l -> ba_xu a i = Some u -> l <= u.
Lemma proj_ordered a : box_sizes a = true -> box_ordered a -> ordered (proj_pb a).
Proof.
  intros Hsz H i l u Hi. unfold box_sizes in Hsz. rewrite !andb_true_iff, !Nat.eqb_eq in Hsz. destruct Hsz as ((Z1 & Z2) & Z3).
  unfold ncb, nc, nb in Hi. cbn [p_Ccols p_xlsize proj_pb] in Hi.
  unfold clo, cup. change (nc (proj_pb a)) with 1%nat. destruct (Nat.ltb_spec i 1).
  - cbn [p_bu proj_pb]. discriminate.
  - cbn [p_xl p_xu proj_pb]. apply H. lia.
Qed.

Record box_answer (a : rbox) (o : ropt) (st : term_status) (s' : rsol) : Prop := {
  bn_case : (st = SUCCESS /\ exists x lam s'', solution s' = Ok x /\ multipliers s' = Ok (lam, s'') /\
      length x = ba_n a /\ length lam = S (ba_n a) /\ kkt (proj_pb a) (vec_of x) (vec_of lam) /\ unique_minimiser (proj_pb a) (vec_of x) /\
      objectiveValue s' = / 2 * dist2 (ba_n a) (vec_of x) (ba_x0 a)) \/
    (st = INFEASIBLE /\ infeasible (proj_pb a)) \/
    (st = MAX_ITER_REACHED /\ (o_maxIter o <= 2 * ba_n a + 1)%nat)
}.

Lemma box_total a K : box_sizes a = true -> box_ordered a -> box_gap a -> 0 < K -> data_within a K ->
  forall o junk s, step_limit a K <= o_bigBnd o -> box_history Rops s ->
  exists st s', box_solve junk a o s = Ok (st, s') /\ box_answer a o st s'.
Proof.
  intros Hsz Hord HG HK0 HKd o junk s Ho HH.
  assert (H0 : gwf Rops (sol_new Rops)) by apply gwf_new.
  set (j0 := (fun _ => 0) : vec Rops). set (oo := Opt 0 0 false false : ropt).
  pose proof (box_solve_spec Rops j0 a oo (sol_new Rops) real_safe (leb_refl_R _) H0) as HS. rewrite Hsz in HS.
  destruct HS as (s2 & s0 & _ & X2 & _ & HB0 & HD & _).
  pose proof (bstart_finv a s2 s0 HB0) as HF. set (s1 := addf (off a) s0) in *.
  pose proof (box_hist_wf Rops s real_safe HH) as HW.
  assert (HCalm : forall k l, reach (proj_pb a) o k (start s1) l -> calm_at (proj_pb a) o l).
  { apply (calm_always (proj_pb a) 0 (step_limit a K)); auto; [apply box_tolerance; auto|apply box_steps_below; auto]. }
  destruct (loop_answers (proj_pb a) 0 o s1 (o_maxIter o) (2 * ba_n a + 1) HF (proj_ordered a Hsz Hord) HCalm) as (st & t1 & E1 & HA).
  { intros k l HR. apply (box_linear a Hsz o s2 s0 k l HB0); auto. intros j l1 _. apply HCalm. }
  pose proof (box_solve_spec Rops junk a o s real_safe (leb_refl_R _) HW) as HS. rewrite Hsz in HS.
  destruct HS as (s2' & s0' & _ & X2' & _ & HB0' & HD' & EL).
  (* back to the problem and the objective offset of the code *)
  change (start s1) with (laddf (off a) (start s0)) in E1. rewrite addf_loop in E1. rewrite <- (ext_loop (box_pb a)) in E1 by apply proj_same.
  destruct (loop (box_pb a) o (o_maxIter o) (start s0)) as [(st' & t)|] eqn:Et; [|discriminate].
  cbn [rmap fst snd] in E1. injection E1 as -> <-.
  destruct (box_solve_result Rops junk a o s real_safe (leb_refl_R _) HW Hsz) as (st2 & s' & E2 & HS' & Hexp & _).
  exists st2, s'. split; auto. rewrite EL in E2.
  assert (Hsim : st2 = st /\ sim Rops 0 s' t).
  { refine (loop_sim Rops (box_pb a) o real_safe (leb_refl_R _) _ (L s0' false (SC 0 INACTIVE)) (start s0) _ _ (st2, s') (st, t) E2 Et).
    - split; simpl; [apply HB0'|exact (bstart_q _ _ _ _ HB0')|discriminate].
    - split; auto. split; [discriminate|]. exact (box_dual_sim Rops junk j0 a o oo s (sol_new Rops) s0' s0 HW H0 Hsz HD' HD). }
  destruct Hsim as [-> Hsim]. destruct HA as [HSh HA].
  assert (Hnb : nb (proj_pb a) = ba_n a) by (unfold box_sizes in Hsz; rewrite !andb_true_iff, !Nat.eqb_eq in Hsz; apply Hsz).
  assert (Hncb : ncb (proj_pb a) = S (ba_n a)) by (unfold ncb; rewrite Hnb; reflexivity).
  assert (HShs : shape (proj_pb a) s').
  { destruct HS' as [Q1 Q2 Q3 Q4 Q5 Q6 Q7 Q8 Q9 Q10 Q11 Q12]. split; assumption. }
  split. destruct HA as [(-> & Hf & HFe & HDi & HP)|[(-> & HI)|(-> & HM)]]; [left|right; left; auto|right; right; auto].
  split; auto.
  assert (Hx : exists x, solution s' = Ok x).
  { unfold solution. rewrite (sh_n _ _ HShs). rewrite getV_ok by apply HShs. eexists. reflexivity. }
  destruct Hx as (x & Ex).
  destruct (multipliers_fresh (proj_pb a) s' HShs Hexp) as (v & s3 & Em & _).
  set (lam := map v (seq 0 (ncb (proj_pb a)))) in *. exists x, lam, s3. split; auto. split; auto.
  destruct (solution_spec (proj_pb a) s' x HShs Ex) as [Hlen Hxv]. change (nv (proj_pb a)) with (ba_n a) in *.
  destruct (mult_vec (proj_pb a) s' lam s3 HShs Hexp Em) as (w & HM & Hlam & Hv & _ & _). rewrite Hncb in *.
  split; auto. split; auto.
  assert (Exx : forall i, (i < ba_n a)%nat -> xof (addf (off a) t) i = vec_of x i).
  { intros i Hi. rewrite Hxv by auto. unfold xof. change (s_x (addf (off a) t)) with (s_x t). symmetry. apply (sm_x _ _ _ _ Hsim).
    rewrite (sh_n _ _ HShs). auto. }
  assert (HK : kkt (proj_pb a) (vec_of x) (vec_of lam)).
  { apply (kkt_ext (proj_pb a) (xof (addf (off a) t)) _ w); auto.
    - intros i Hi. rewrite Hncb in Hi. symmetry. apply Hv. auto.
    - rewrite Hnb. change (nv (proj_pb a)) with (ba_n a). lia.
    - apply dinv_kkt; auto. destruct HM as [HM1 HM2].
      pose proof (sm_A _ _ _ _ Hsim) as EA. pose proof (sm_u _ _ _ _ Hsim) as EU. rewrite Nat.add_0_r in EU.
      split; change (s_A (addf (off a) t)) with (s_A t); rewrite <- EA; auto.
      intros k Hk. rewrite HM1 by auto. unfold uof. change (s_u (addf (off a) t)) with (s_u t). rewrite EU by auto. reflexivity. }
  split; auto. split.
  { apply (kkt_unique_minimiser (proj_pb a) _ (vec_of lam)); auto; [rewrite Hnb; change (nv (proj_pb a)) with (ba_n a); lia|apply proj_posdef]. }
  unfold objectiveValue. rewrite (sm_f _ _ _ _ Hsim). rewrite proj_objective in Hf. unfold addf in Hf at 1. cbn [s_f set_f] in Hf.
  assert (Hd : dist2 (ba_n a) (xof (addf (off a) t)) (ba_x0 a) = dist2 (ba_n a) (vec_of x) (ba_x0 a)).
  { unfold dist2. apply sum_ext. intros i Hi. rewrite Exx by auto. reflexivity. }
  rewrite Hd in Hf. apply Rplus_eq_reg_r in Hf. exact Hf.
Qed.

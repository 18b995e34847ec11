(** The result of a call of the box solver depends neither on the history of the
    object nor on the content of freshly allocated memory. *)
From Coq Require Import List Arith ZArith Lia Bool.
From Verif Require Import Base ActiveSet ActiveSetProofs Num Solver LinAlg GIBase GIInv GISafe GICall GIHist GISame Box BoxSafe.
Import ListNotations.

Section BoxSame.
Variable S : ops.
Notation sol := (sol S).

Record bagr (k : nat) (b b' : box_st S) : Prop := {
  ba_A : bs_A b = bs_A b'; ba_q : bs_q b = bs_q b'; ba_f : bs_f b = bs_f b'; ba_J : bs_J b = bs_J b';
  ba_x : vagr S k (bs_x b) (bs_x b'); ba_u : vagr S (bs_q b) (bs_u b) (bs_u b'); ba_R : uagr S (bs_q b) (bs_R b) (bs_R b')
}.

Lemma bagr_act k n b b' A v uk sg J : bagr k b b' ->
  bagr (Datatypes.S k)
    (BS A (bs_q b + 1)%nat (add S (bs_f b) (mul S (mul S (half S) uk) uk)) (vm n (upd (bs_x b) k v)) (vm n (upd (bs_u b) (bs_q b) uk)) (mm n (box_R (bs_R b) (bs_q b) sg)) J)
    (BS A (bs_q b' + 1)%nat (add S (bs_f b') (mul S (mul S (half S) uk) uk)) (vm n (upd (bs_x b') k v)) (vm n (upd (bs_u b') (bs_q b') uk)) (mm n (box_R (bs_R b') (bs_q b') sg)) J).
Proof.
  intros [H1 H2 H3 H4 H5 H6 H7]. rewrite <- H2, <- H3. split; cbn [bs_A bs_q bs_f bs_x bs_u bs_R bs_J]; rewrite ?vm_id, ?mm_id; auto.
  - intros i Hi. unfold upd. destruct (Nat.eqb_spec i k); auto. apply H5. lia.
  - intros i Hi. unfold upd. destruct (Nat.eqb_spec i (bs_q b)); auto. apply H6. lia.
  - intros i j Hij Hj. unfold box_R. destruct (Nat.eqb_spec j (bs_q b)).
    + destruct (Nat.eqb_spec i (bs_q b)); auto. destruct (Nat.ltb_spec i (bs_q b)); auto. lia.
    + apply H7; lia.
Qed.

Lemma box_step_agr pb n k b b' : bagr k b b' -> pr (bagr (Datatypes.S k)) (box_step pb n k b) (box_step pb n k b').
Proof.
  intros H. pose proof H as [H1 H2 H3 H4 H5 H6 H7]. unfold box_step. apply pr_guard. intros _ _.
  destruct (lt_lo _ _).
  - destruct (p_xl pb k) as [l|]; [|intros x y E; discriminate]. rewrite <- H2, <- H1, <- H4. apply pr_guard. intros _ _.
    eapply (pr_bind eq); [apply pr_eq; reflexivity|]. intros A ? <-. apply pr_ok. pose proof (bagr_act k n b b' A l (sub S l (p_a pb k)) (one S) (mm n (mupd (bs_J b) k (bs_q b) (one S))) H) as HH.
    rewrite <- H2 in HH. exact HH.
  - destruct (gt_up _ _).
    + destruct (p_xu pb k) as [l|]; [|intros x y E; discriminate]. rewrite <- H2, <- H1, <- H4. apply pr_guard. intros _ _.
      eapply (pr_bind eq); [apply pr_eq; reflexivity|]. intros A ? <-. apply pr_ok. pose proof (bagr_act k n b b' A l (sub S (p_a pb k) l) (opp S (one S)) (mm n (mupd (bs_J b) k (bs_q b) (one S))) H) as HH.
      rewrite <- H2 in HH. exact HH.
    + rewrite <- H2. apply pr_guard. intros _ _. apply pr_ok. split; cbn [bs_A bs_q bs_f bs_x bs_u bs_R bs_J]; rewrite ?vm_id, <- ?H4, <- ?H2; auto.
      intros i Hi. unfold upd. destruct (Nat.eqb_spec i k); auto. apply H5. lia.
Qed.
Lemma box_loop_agr pb n k b b' : bagr 0 b b' -> pr (bagr k) (box_loop pb n k b) (box_loop pb n k b').
Proof.
  intros H. induction k as [|k IH]; cbn [box_loop]; [apply pr_ok; auto|].
  eapply pr_bind; [exact IH|]. intros b1 b1' H1. apply box_step_agr. auto.
Qed.

Lemma box_init_sim a o o' s s' r r' : box_sizes a = true -> gsh S (box_pb a) s -> gsh S (box_pb a) s' -> s_it s = s_it s' -> s_exp s = s_exp s' ->
  box_init (box_pb a) o s = Ok r -> box_init (box_pb a) o' s' = Ok r' -> fst r = fst r' /\ sim S 0 (snd r) (snd r').
Proof.
  intros Hsz HS HS' Eit Eex E E'.
  destruct (box_init_spec S a o s Hsz HS) as (s0 & E0 & H0). assert (r = (SUCCESS, s0)) by congruence. subst r.
  destruct (box_init_spec S a o' s' Hsz HS') as (s0' & E0' & H0'). assert (r' = (SUCCESS, s0')) by congruence. subst r'. split; auto.
  clear E0 E0'. pose proof HS as [Q1 Q2 Q3 Q4 Q5 Q6 Q7 Q8 Q9 Q10 Q11 Q12]. pose proof HS' as [Q1' Q2' Q3' Q4' Q5' Q6' Q7' Q8' Q9' Q10' Q11' Q12'].
  unfold box_init in E, E'. cbn [s_J s_R s_x s_u s_A s_n set_A] in E, E'. rewrite Q5' in E'. rewrite Q5 in E. set (n := gn S (box_pb a)) in *.
  apply bind_ok in E as (J1 & _ & E). apply bind_ok in E as (R1 & ER & E). apply bind_ok in E as (x1 & EX & E). apply bind_ok in E as (u1 & EU & E).
  apply bind_ok in E as (b & Eb & E). injection E as <-.
  apply bind_ok in E' as (J1' & _ & E'). apply bind_ok in E' as (R1' & ER' & E'). apply bind_ok in E' as (x1' & EX' & E'). apply bind_ok in E' as (u1' & EU' & E').
  apply bind_ok in E' as (b' & Eb' & E'). injection E' as <-.
  assert (HB : bagr n b b').
  { eapply box_loop_agr; [|exact Eb|exact Eb']. split; cbn [bs_A bs_q bs_f bs_x bs_u bs_R bs_J]; auto; try (intros ? ?; lia); try (intros ? ? ? ?; lia).
    apply reset_eq; auto; congruence. }
  destruct HB as [K1 K2 K3 K4 K5 K6 K7].
  pose proof (bt_sh _ _ _ _ H0) as HS0. destruct (bt_b _ _ _ _ H0) as (b1 & HB1 & EA1 & _).
  assert (Hq : nact (bs_A b) = bs_q b).
  { assert (En : forall k b0 b2, box_loop (box_pb a) n k b0 = Ok b2 -> binv S (box_pb a) n 0 b0 -> (k <= n)%nat -> binv S (box_pb a) n k b2).
    { intros k b0 b2 E HB Hk. unfold box_sizes in Hsz. rewrite !andb_true_iff, !Nat.eqb_eq in Hsz. destruct Hsz as ((Z1 & Z2) & Z3).
      assert (Z4 : ba_xusize a = ba_n a) by congruence.
      destruct (box_loop_spec S (box_pb a) n b0 HB eq_refl Z2 Z4 k Hk) as (b3 & E3 & HB3 & _). congruence. }
    apply (bv_q S (box_pb a) n n b). eapply En; eauto.
    split; cbn [bs_A bs_q bs_f bs_x bs_u bs_R bs_J]; auto; try (intros; lia).
    - apply good_reset, Q2.
    - simpl. rewrite Q4. unfold box_sizes in Hsz. rewrite !andb_true_iff, !Nat.eqb_eq in Hsz. apply Hsz.
    - intros i. rewrite gstt_reset. destruct (1 <=? i)%nat; simpl; auto.
    - exists (fun i => i). split; [auto|]. split; [intros; lia|]. split; intros; lia. }
  cbn [snd]. split; cbn [s_n s_A s_it s_f s_exp s_x s_J s_R s_u set_R set_J set_u set_x set_f set_A wset w_buf]; auto.
  - congruence.
  - exact (g_good _ _ _ HS0).
  - rewrite Q5. exact K5.
  - rewrite Q5. fold n. intros i j Hi Hj. rewrite !view_unview by auto. rewrite K4. reflexivity.
  - rewrite Q5. fold n. intros Hn i j Hi Hj. rewrite Hq in *. rewrite !view_unview by lia. apply K7; auto.
  - rewrite Hq, Nat.add_0_r. exact K6.
Qed.

Lemma box_dual_sim junk junk' a o o' s s' s0 s0' : gwf S s -> gwf S s' -> box_sizes a = true ->
  dual_init box_init (box_pb a) o (resize junk s (ba_n a) 1 (0 <? ba_xlsize a)%nat) = Ok (SUCCESS, s0) ->
  dual_init box_init (box_pb a) o' (resize junk' s' (ba_n a) 1 (0 <? ba_xlsize a)%nat) = Ok (SUCCESS, s0') -> sim S 0 s0 s0'.
Proof.
  intros HW HW' Hsz E E'. unfold dual_init in E, E'.
  pose proof (gresize_sh S junk (box_pb a) s HW (box_sizes_ok S a Hsz)) as HS.
  pose proof (gresize_sh S junk' (box_pb a) s' HW' (box_sizes_ok S a Hsz)) as HS'.
  change (p_Grows (box_pb a)) with (ba_n a) in HS, HS'. change (p_Ccols (box_pb a)) with 1%nat in HS, HS'. change (p_xlsize (box_pb a)) with (ba_xlsize a) in HS, HS'.
  set (s1 := resize junk s _ _ _) in *. set (s1' := resize junk' s' _ _ _) in *.
  refine (proj2 (box_init_sim a o o' _ _ _ _ Hsz _ _ _ _ E E')).
  - destruct (o_warm o); apply (gsh_trans S _ s1); auto; simpl; [apply HS|apply good_reset, HS].
  - destruct (o_warm o'); apply (gsh_trans S _ s1'); auto; simpl; [apply HS'|apply good_reset, HS'].
  - destruct (o_warm o), (o_warm o'); reflexivity.
  - destruct (o_warm o), (o_warm o'); reflexivity.
Qed.

Lemma box_same junk junk' a o s s' r r' : safe_ops S -> leb S (o_bigBnd o) (o_bigBnd o) = true -> gwf S s -> gwf S s' ->
  box_solve junk a o s = Ok r -> box_solve junk' a o s' = Ok r' -> fst r = fst r' /\ sim S 0 (snd r) (snd r').
Proof.
  intros HO HB HW HW' E E'.
  pose proof (box_solve_spec S junk a o s HO HB HW) as H1. pose proof (box_solve_spec S junk' a o s' HO HB HW') as H1'.
  destruct (box_sizes a) eqn:Hsz; [|congruence].
  destruct H1 as (s2 & s0 & _ & _ & _ & H0 & HD & EL). destruct H1' as (s2' & s0' & _ & _ & _ & H0' & HD' & EL').
  rewrite E in EL. rewrite E' in EL'.
  refine (loop_sim S (box_pb a) o HO HB _ (L s0 false (SC 0 INACTIVE)) (L s0' false (SC 0 INACTIVE)) _ _ r r' (eq_sym EL) (eq_sym EL')).
  - split; simpl; [apply H0|exact (bstart_q _ _ _ _ H0)|discriminate].
  - split; auto. split; [discriminate|]. exact (box_dual_sim junk junk' a o o s s' s0 s0' HW HW' Hsz HD HD').
Qed.
End BoxSame.

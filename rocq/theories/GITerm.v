(** Termination: along runs whose tolerance tests are exact, no active set is
    visited twice, so the number of iterations is bounded by the dimensions. *)
From Coq Require Import List Arith ZArith Lia Bool Reals Lra.
From Verif Require Import Base ActiveSet ActiveSetProofs Num Solver LinAlg QRUpdate QPSpec GIMath GIBase GIInv GIDual GIRun GIOpt GIMult GIInit GISafe GICall GIHist GIFinal.
Import ListNotations.
Local Open Scope R_scope.

Lemma classic_zero n (e : rvec) : (forall i, (i < n)%nat -> e i = 0) \/ (exists i, (i < n)%nat /\ e i <> 0).
Proof.
  induction n as [|n IH]; [left; intros; lia|]. destruct IH as [IH|(i & Hi & He)]; [|right; exists i; split; auto].
  destruct (Req_dec (e n) 0) as [E|E]; [left|right; exists n; auto].
  intros i Hi. destruct (Nat.eq_dec i n) as [->|]; auto. apply IH; lia.
Qed.

(** Between two full steps the objective value is a function of the statuses *)
Lemma f_le pb s s' : posdef (nv pb) (hess pb) -> pinv pb s -> dstat pb s None -> pinv pb s' -> dstat pb s' None ->
  (forall i, stt (s_A s') i = stt (s_A s) i) -> s_f s <= s_f s'.
Proof.
  intros Hpd HP [D1 D2] HP' [D1' D2'] Hst. rewrite D2, D2'.
  set (e := fun i => xof s' i - xof s i).
  rewrite (objective_ext pb (xof s') (fun i => xof s i + e i)) by (intros; unfold e; rring).
  rewrite objective_expand.
  assert (E0 : rsum (nv pb) (fun i => e i * gradient pb (xof s) i) = 0).
  { rewrite (sum_ext _ _ (fun a => rsum (nact (s_A s)) (fun k => uof s k * (Nact pb (s_A s) k a * e a)))).
    - rewrite sum_swap. apply sum_zero. intros k Hk. rewrite sum_scal, <- dot_def.
      assert (EN : rdot (nv pb) (Nact pb (s_A s) k) e = 0).
      { destruct (act_props pb s k (pi_shape _ _ HP) Hk) as (Hi & Hne & _).
        destruct (act_surj pb s' (act (s_A s) k) (pi_shape _ _ HP')) as (k' & Hk' & Ek'); [rewrite Hst; auto|].
        pose proof (pi_tight _ _ HP k Hk) as T1. pose proof (pi_tight _ _ HP' k' Hk') as T2.
        unfold Bact, Nact in T1, T2. rewrite Ek', Hst in T2. rewrite T1 in T2. injection T2 as T2.
        fold (Nact pb (s_A s) k) in T2. rewrite (dot_ext (nv pb) (Nact pb (s_A s) k) (Nact pb (s_A s) k) (xof s') (fun i => xof s i + 1 * e i)) in T2; auto.
        - rewrite (rdot_axpy (nv pb) (Nact pb (s_A s) k) (xof s) e (fun i => xof s i + 1 * e i) 1) in T2 by auto. lra.
        - intros; unfold e; rring. }
      rewrite EN. rring.
    - intros a Ha. rewrite D1 by auto. rewrite Rplus_0_r, <- sum_scal. apply sum_ext; intros; rring. }
  rewrite E0. assert (0 <= quad (nv pb) (hess pb) e); [|lra].
  destruct (classic_zero (nv pb) e) as [Hz|Hz].
  - right. unfold quad. symmetry. apply sum_zero. intros i Hi. rewrite Hz by auto. rring.
  - left. apply Hpd. auto.
Qed.

Lemma f_det pb s s' : posdef (nv pb) (hess pb) -> pinv pb s -> dstat pb s None -> pinv pb s' -> dstat pb s' None ->
  a_status (s_A s') = a_status (s_A s) -> s_f s = s_f s'.
Proof.
  intros Hpd HP HD HP' HD' E. apply Rle_antisym; apply (f_le pb); auto; intros i; unfold stt; rewrite E; auto.
Qed.

(** The statuses constraint [i] can have: an equality (they are the first [e]) keeps its own, the others are inactive or at
    one of their two sides *)
Definition choices (pb : rproblem) (e i : nat) : list status :=
  if (i <? e)%nat then [eqstat pb i]
  else if (i <? nc pb)%nat then [INACTIVE; LOWER; UPPER] else [INACTIVE; LOWER_BOUND; UPPER_BOUND].
Fixpoint product (ls : list (list status)) : list (list status) :=
  match ls with
  | [] => [[]]
  | l :: ls => flat_map (fun v => map (fun st => st :: v) l) (product ls)
  end.
Definition all_statuses (pb : rproblem) (e : nat) : list (list status) := product (map (choices pb e) (seq 0 (ncb pb))).
Lemma product_length ls : (forall l, In l ls -> (length l <= 3)%nat) -> (length (product ls) <= 3 ^ length ls)%nat.
Proof.
  induction ls as [|l ls IH]; intros H; auto. cbn [product length Nat.pow].
  assert (HF : forall vs : list (list status), length (flat_map (fun v => map (fun st => st :: v) l) vs) = (length l * length vs)%nat).
  { induction vs as [|v vs IHv]; [cbn; lia|]. cbn [flat_map]. rewrite app_length, IHv, map_length. cbn [length]. lia. }
  rewrite HF. apply Nat.mul_le_mono; [apply H; left; auto|]. apply IH. intros l' Hl'. apply H. right. auto.
Qed.
Lemma all_statuses_length pb e : (length (all_statuses pb e) <= 3 ^ ncb pb)%nat.
Proof.
  assert (E : length (map (choices pb e) (seq 0 (ncb pb))) = ncb pb) by (rewrite map_length, seq_length; auto).
  assert (HP : (length (all_statuses pb e) <= 3 ^ length (map (choices pb e) (seq 0 (ncb pb))))%nat); [|rewrite E in HP; exact HP].
  apply product_length. intros l Hl. apply in_map_iff in Hl as (i & <- & _). unfold choices.
  destruct (i <? e)%nat; [cbn; lia|]. destruct (i <? nc pb)%nat; cbn; lia.
Qed.
Lemma product_in ls v : Forall2 (fun st l => In st l) v ls -> In v (product ls).
Proof.
  induction 1 as [|st l v ls H _ IH]; [left; auto|]. cbn [product]. apply in_flat_map. exists v. split; auto. apply (in_map (fun st => st :: v)). auto.
Qed.
Lemma all_statuses_in pb e v : length v = ncb pb -> (forall i, (i < ncb pb)%nat -> In (nth i v INACTIVE) (choices pb e i)) -> In v (all_statuses pb e).
Proof.
  intros E H. apply product_in.
  assert (HG : forall m b v, length v = m -> (forall i, (i < m)%nat -> In (nth i v INACTIVE) (choices pb e (b + i))) ->
    Forall2 (fun st l => In st l) v (map (choices pb e) (seq b m))).
  { clear. induction m as [|m IH]; intros b [|st v] E H; try discriminate; cbn [seq map]; constructor.
    - specialize (H 0%nat ltac:(lia)). rewrite Nat.add_0_r in H. exact H.
    - apply IH; [cbn in E; lia|]. intros i Hi. specialize (H (S i) ltac:(lia)). cbn [nth] in H. rewrite Nat.add_succ_r in H. exact H. }
  apply HG; auto.
Qed.
Lemma finv_choices pb e l : finv pb e l -> In (a_status (s_A (l_s l))) (all_statuses pb e).
Proof.
  intros [HL _ [A1 A2 A3 A4]]. set (s := l_s l) in *. assert (HS : shape pb s) by apply HL.
  assert (El : length (a_status (s_A s)) = ncb pb) by (apply shape_status_len; auto).
  apply all_statuses_in; auto. intros i Hi. fold (stt (s_A s) i).
  assert (HK : stt (s_A s) i <> INACTIVE -> (i < nc pb -> general_status (stt (s_A s) i))%nat /\ (nc pb <= i -> bound_status (stt (s_A s) i))%nat).
  { intros Hn. rewrite <- (sh_nc _ _ HS). apply (coh_kind _ (proj1 (sh_good _ _ HS))); auto. unfold stt. apply nth_error_nth'. lia. }
  unfold choices, eqstat. destruct (Nat.ltb_spec i e) as [Hie|Hie].
  - destruct (A2 i Hie) as [_ E]. destruct HK as [K1 K2]; [intros K; rewrite K in E; discriminate|].
    destruct (Nat.ltb_spec i (nc pb)) as [Hn|Hn]; [specialize (K1 Hn)|specialize (K2 Hn)]; destruct (stt (s_A s) i); try discriminate; unfold general_status, bound_status in *; cbn; intuition congruence.
  - assert (E : isEq (stt (s_A s) i) = false) by (destruct (isEq (stt (s_A s) i)) eqn:E; auto; apply A4 in E; lia).
    destruct (status_eqb_spec (stt (s_A s) i) INACTIVE) as [->|Hn]; [destruct (i <? nc pb)%nat; left; auto|]. destruct (HK Hn) as [K1 K2].
    destruct (Nat.ltb_spec i (nc pb)) as [Hlt|Hge]; [specialize (K1 Hlt)|specialize (K2 Hge)]; destruct (stt (s_A s) i); try discriminate; unfold general_status, bound_status in *; cbn; intuition congruence.
Qed.

(** Bookkeeping along a run: [vs] are the active sets at the full steps *)
Record visited (pb : rproblem) (e q0 k : nat) (l : rlst) (vs : list (list status)) : Prop := {
  vi_nodup : NoDup vs;
  vi_kind : forall v, In v vs -> In v (all_statuses pb e);
  vi_past : forall v, In v vs -> exists s, pinv pb s /\ dstat pb s None /\ a_status (s_A s) = v /\ s_f s <= s_f (l_s l);
  vi_count : (k + nact (s_A (l_s l)) + 2 = q0 + 2 * length vs)%nat
}.

Definition max_steps (m : nat) : nat := (m + 2 * 3 ^ m)%nat.

Lemma visited_start pb e s0 : finv pb e (start s0) -> visited pb e (nact (s_A s0)) 0 (start s0) [a_status (s_A s0)].
Proof.
  intros HF. assert (HP : pinv pb s0) by apply (fi_linv _ _ _ HF). split; simpl.
  - constructor; auto. constructor.
  - intros v [<-|[]]. apply (finv_choices pb e _ HF).
  - intros v [<-|[]]. exists s0. split; auto. split; [apply (di_stat _ _ _ (fi_dinv _ _ _ HF))|]. split; auto. lra.
  - lia.
Qed.

Lemma visited_step pb o e q0 k l l' vs : posdef (nv pb) (hess pb) -> finv pb e l -> calm_at pb o l ->
  iter_case pb o l (Continue l') -> visited pb e q0 k l vs -> exists vs', visited pb e q0 (S k) (bump l') vs'.
Proof.
  intros Hpd HF Hc HC [V1 V2 V3 V4]. destruct (iter_finv pb o e l l' HF Hc HC) as [HF' [P1 P2 P3]].
  destruct (l_skip l') eqn:Esk.
  - exists vs. specialize (P3 eq_refl). split; auto; simpl; [|lia].
    intros v Hv. destruct (V3 v Hv) as (s & K1 & K2 & K3 & K4). exists s. repeat (split; auto). lra.
  - destruct (P2 eq_refl) as [Pf Pn]. exists (a_status (s_A (l_s l')) :: vs).
    assert (HP' : pinv pb (l_s l')) by apply HF'.
    assert (HD' : dstat pb (l_s l') None). { pose proof (fi_dinv _ _ _ HF') as HD. rewrite Esk in HD. apply HD. }
    split; simpl.
    + constructor; auto. intros HIn. destruct (V3 _ HIn) as (s & K1 & K2 & K3 & K4).
      assert (s_f (l_s l') = s_f s) by (apply (f_det pb); auto). lra.
    + intros v [<-|Hv]; auto. apply (finv_choices pb e _ HF').
    + intros v [<-|Hv].
      * exists (l_s l'). repeat (split; auto). lra.
      * destruct (V3 v Hv) as (s & K1 & K2 & K3 & K4). exists s. repeat (split; auto). lra.
    + lia.
Qed.

Lemma reach_bounded pb o e k s0 l : posdef (nv pb) (hess pb) -> einv pb (ncb pb) s0 -> eq_first pb e -> (e <= ncb pb)%nat ->
  (forall j l1, (j < k)%nat -> reach pb o j (start s0) l1 -> calm_at pb o l1) -> reach pb o k (start s0) l ->
  (k < max_steps (ncb pb))%nat.
Proof.
  intros Hpd HE He Hle Hcalm HR.
  assert (H : exists vs, visited pb e (nact (s_A s0)) k l vs).
  { remember (start s0) as l0 eqn:E0. induction HR as [l|k l l1 l2 HR IH Ei]; subst.
    - eexists. apply visited_start; auto. apply start_finv; auto.
    - assert (HX : exists vs, visited pb e (nact (s_A s0)) k l1 vs) by (apply IH; auto; intros j l3 Hj HR3; apply (Hcalm j); auto; lia). destruct HX as (vs & HV).
      assert (HF : finv pb e l1).
      { apply (reach_finv pb o e k (start s0)); auto; try (apply start_finv; auto); intros j l3 Hj HR3; apply (Hcalm j); auto; lia. }
      destruct (iter_spec pb o l1 (fi_linv _ _ _ HF)) as (out & E' & HC). assert (out = Continue l2) by congruence. subst out.
      eapply visited_step; eauto. }
  destruct H as (vs & [V1 V2 V3 V4]).
  assert (Hlen : (length vs <= 3 ^ ncb pb)%nat).
  { eapply Nat.le_trans; [|apply (all_statuses_length pb e)]. apply NoDup_incl_length; auto. }
  pose proof (shape_nact_le _ _ (pi_shape _ _ (ei_pinv _ _ _ HE))). unfold max_steps. lia.
Qed.

(** A call with a large enough budget does not stop for lack of iterations *)
Lemma final_terminates junk pb o s st s' : history Rops s -> gi_solve junk pb o s = Ok (st, s') ->
  eq_separated pb -> equalities_first pb -> exact_tests junk pb o s ->
  (max_steps (nc pb + nb pb) <= o_maxIter o)%nat -> st <> MAX_ITER_REACHED.
Proof.
  intros HH E Hsep Hfirst Hcalm Hmax ->. destruct (equalities_first_ex pb Hfirst) as (e & Hle & He).
  pose proof (solve_ended _ _ _ _ _ _ HH E Hsep) as HE.
  inversion HE as [|s0 l Hb H0 HR HL Hexp| |]; subst.
  destruct (solve_spec junk pb o s (hist_wf_sol s HH)) as [(_ & s1 & E1 & _)|(Hp & _)]; auto; [apply HL|congruence|].
  assert ((o_maxIter o < max_steps (ncb pb))%nat); [|unfold ncb in *; lia].
  eapply (reach_bounded pb o e); eauto. exact (Hcalm s0 Hb).
Qed.

(** Runs on which the tolerance tests do not misfire: optimality, infeasibility
    certificates, monotonicity. *)
From Coq Require Import List Arith ZArith Lia Bool Reals Lra.
From Verif Require Import Base ActiveSet ActiveSetProofs Num Solver LinAlg QRUpdate QPSpec GIMath GIBase GIInv GIDual GIRun.
Import ListNotations.
Local Open Scope R_scope.

(** At this iteration (if a violated constraint is selected) the two tests
    against tolerances give the exact answer: [z.norm() > 1e-14] is false only
    for [z = 0], and no finite step length reaches [bigBnd]. *)
Definition calm_at (pb : rproblem) (o : ropt) (l : rlst) : Prop :=
  forall l1 s1, step1 pb l = Ok (Some l1) -> computeStep pb (l_s l1) (l_sc l1) = Ok s1 ->
  ((forall i, (i < nv pb)%nat -> zof s1 i = 0) \/
   (eps < znorm pb s1 /\ forall t2, len2 pb (nv pb) (xof s1) (zof s1) (l_sc l1) = Ok t2 -> t2 < o_bigBnd o)) /\
  (forall k, (k < nact (s_A s1))%nat -> cand (s_A s1) (rof s1) k -> uof s1 k / rof s1 k < o_bigBnd o).

Definition calm_run (pb : rproblem) (o : ropt) (fuel : nat) (l : rlst) : Prop :=
  forall k l', (k < fuel)%nat -> reach pb o k l l' -> calm_at pb o l'.

(** The equality constraints come first *)
Definition eq_first (pb : rproblem) (e : nat) : Prop :=
  forall i, (i < ncb pb)%nat -> (is_equality pb i <-> (i < e)%nat).

(** ... and are also the first active constraints (in any order) *)
Record ali (pb : rproblem) (e : nat) (A : aset) : Prop := {
  al_le : (e <= nact A)%nat;
  al_pre : forall k, (k < e)%nat -> (act A k < e)%nat /\ isEq (stt A k) = true;
  al_post : forall k, (e <= k)%nat -> (k < nact A)%nat -> (e <= act A k)%nat;
  al_st : forall i, isEq (stt A i) = true -> (i < e)%nat
}.

Lemma isEq_inactive pb s i : shape pb s -> isEq (stt (s_A s) i) = true -> (i < ncb pb)%nat.
Proof.
  intros HS H. destruct (Nat.lt_ge_cases i (ncb pb)) as [|Hge]; auto.
  unfold stt in H. rewrite nth_overflow in H; [discriminate|]. rewrite (shape_status_len _ _ HS). auto.
Qed.

Lemma ali_aligned pb e (s : rsol) : ali pb e (s_A s) -> aligned (s_A s).
Proof.
  intros [A1 A2 A3 A4] k Hk. destruct (Nat.lt_ge_cases k e) as [Hke|Hke].
  - destruct (A2 k Hke) as [Hlt ->]. destruct (A2 _ Hlt) as [_ ->]. auto.
  - assert (H : forall i, (e <= i)%nat -> isEq (stt (s_A s) i) = false).
    { intros i Hi. destruct (isEq (stt (s_A s) i)) eqn:E; auto. apply A4 in E. lia. }
    rewrite !H; auto.
Qed.

Lemma ali_act_removed pb e A l A' : ali pb e A -> act_removed A l A' -> (l < nact A)%nat -> (e <= l)%nat -> ali pb e A'.
Proof.
  intros [A1 A2 A3 A4] HA Hl Hel. pose proof (ar_nact _ _ _ HA) as EN. split.
  - lia.
  - intros k Hk. destruct (A2 k Hk) as [E1 E2].
    rewrite (ar_act _ _ _ HA), (ar_stt _ _ _ HA). destruct (Nat.ltb_spec k l); [|lia]. split; auto.
    destruct (Nat.eqb_spec k (act A l)) as [E|]; auto. exfalso. specialize (A3 l Hel Hl). lia.
  - intros k Hk Hkn. rewrite (ar_act _ _ _ HA). destruct (Nat.ltb_spec k l); apply A3; lia.
  - intros i Hi. rewrite (ar_stt _ _ _ HA) in Hi. destruct (i =? act A l)%nat; [discriminate|apply A4; auto].
Qed.
Lemma ali_removed pb e s l s' : ali pb e (s_A s) -> removed pb s l s' -> (l < nact (s_A s))%nat -> (e <= l)%nat ->
  shape pb s -> ali pb e (s_A s').
Proof. intros H HR Hl Hel _. apply (ali_act_removed pb e (s_A s) l); auto. apply HR. Qed.
Lemma ali_added pb e s sc s' : ali pb e (s_A s) -> added pb s sc s' -> stt (s_A s) (sc_idx sc) = INACTIVE -> isEq (sc_st sc) = false ->
  ali pb e (s_A s').
Proof.
  intros [A1 A2 A3 A4] HR Hst Hne. pose proof (ad_A _ _ _ _ HR) as HA. pose proof (aa_nact _ _ _ HA) as EN.
  assert (Hge : (e <= sc_idx sc)%nat).
  { destruct (Nat.lt_ge_cases (sc_idx sc) e) as [Hlt|]; auto. destruct (A2 _ Hlt) as [_ E]. rewrite Hst in E. discriminate. }
  split.
  - lia.
  - intros k Hk. destruct (A2 k Hk) as [E1 E2]. rewrite (aa_act _ _ _ HA) by lia. split; auto.
    rewrite (aa_stt _ _ _ HA). destruct (Nat.eqb_spec k (sc_idx sc)) as [E|]; auto. lia.
  - intros k Hk Hkn. destruct (Nat.eq_dec k (nact (s_A s))) as [->|].
    + rewrite (aa_last _ _ _ HA). auto.
    + rewrite (aa_act _ _ _ HA) by lia. apply A3; lia.
  - intros i Hi. rewrite (aa_stt _ _ _ HA) in Hi. destruct (i =? sc_idx sc)%nat; [congruence|apply A4; auto].
Qed.

(** ** Full invariant along calm runs *)
Record finv (pb : rproblem) (e : nat) (l : rlst) : Prop := {
  fi_linv : linv pb l;
  fi_dinv : dinv pb (l_s l) (if l_skip l then Some (l_sc l) else None);
  fi_ali : ali pb e (s_A (l_s l))
}.

(** Consequences of [calm_at] for the case analysis of an iteration *)
Lemma calm_use pb o l sc s1 b : linv pb l -> calm_at pb o l ->
  step1 pb l = Ok (Some (L (enter l sc) (l_skip l) sc)) -> computeStep pb (enter l sc) sc = Ok s1 ->
  selected pb (enter l sc) sc -> scb pb sc = Some b -> stepped pb (enter l sc) sc s1 ->
  ((forall i, (i < nv pb)%nat -> zof s1 i = 0) \/ (eps < znorm pb s1 /\ t2of pb sc (enter l sc) s1 b < o_bigBnd o)) /\
  (forall k, (k < nact (s_A (l_s l)))%nat -> cand (s_A (l_s l)) (rof s1) k -> uof (enter l sc) k / rof s1 k < o_bigBnd o).
Proof.
  intros HL HC E1 E2 Hsel Hb HS. destruct (HC _ _ E1 E2) as [H1 H2]. simpl in H1.
  pose proof (st_rel _ _ _ _ HS) as [R1 R2 R3 R4 R5 R6 R7 R8 R9 R10 R11 R12 R13 R14].
  assert (Ex : xof s1 = xof (enter l sc)) by (unfold xof; rewrite R6; auto).
  assert (Eu : uof s1 = uof (enter l sc)) by (unfold uof; rewrite R7; auto).
  split.
  - destruct H1 as [H1|(H1 & H1')]; [left; auto|right]. split; auto.
    assert (HP : pinv pb (enter l sc)) by (apply enter_pinv; apply HL).
    destruct (len2_spec pb (xof s1) (zof s1) sc b) as (t2 & Et & Ett).
    + apply HP. + apply Hsel. + apply Hsel. + auto.
    + pose proof (nz_pos pb _ sc s1 HP (st_rel _ _ _ _ HS) H1) as Hp. unfold nz in Hp. apply Rgt_not_eq. exact Hp.
    + specialize (H1' _ Et). rewrite Ett, Ex in H1'. exact H1'.
  - intros k Hk Hc. rewrite <- Eu. rewrite R4, enter_A in H2. apply H2; auto.
Qed.

Lemma znorm_zero pb s1 : (forall i, (i < nv pb)%nat -> zof s1 i = 0) -> znorm pb s1 = 0.
Proof.
  intros H. unfold znorm, norm. rops. replace (rdot (nv pb) (zof s1) (zof s1)) with 0; [apply sqrt_0|].
  symmetry. rewrite dot_def. apply sum_zero. intros; rewrite H by auto. rring.
Qed.
Lemma eps_gt0 : 0 < eps.
Proof. apply eps_pos. Qed.

Lemma dinv_set_it pb s sc k : dinv pb s sc -> dinv pb (set_it s k) sc.
Proof. intros [[]]. split; [split|..]; auto. Qed.
Lemma finv_bump pb e l : finv pb e l -> finv pb e (bump l).
Proof. intros [H1 H2 H3]. split; simpl; auto. - apply linv_bump; auto. - apply dinv_set_it; auto. Qed.

(** What one calm iteration does to the objective *)
Record progress (pb : rproblem) (l l' : rlst) : Prop := {
  pg_mono : s_f (l_s l) <= s_f (l_s l');
  pg_full : l_skip l' = false -> s_f (l_s l) < s_f (l_s l') /\ nact (s_A (l_s l')) = S (nact (s_A (l_s l)));
  pg_drop : l_skip l' = true -> S (nact (s_A (l_s l'))) = nact (s_A (l_s l))
}.

Lemma iter_finv pb o e l l' : finv pb e l -> calm_at pb o l -> iter_case pb o l (Continue l') ->
  finv pb e l' /\ progress pb l l'.
Proof.
  intros [HL HD HA] Hcalm HC. remember (Continue l') as out eqn:Eo.
  pose proof HC as HC0.
  destruct HC as [smin sc Hsk HI Hst|sc b s1 t1 i out' Es Ec Hsel Hb Hs HS HL1 HC]; [discriminate|].
  subst out'. pose proof (iter_linv pb o l _ HL HC0) as HL'. simpl in HL'. clear HC0.
  destruct (calm_use pb o l sc s1 b HL Hcalm Es Ec Hsel Hb HS) as (Hz & Hcb).
  set (s0 := enter l sc) in *.
  assert (HP0 : pinv pb s0) by (apply enter_pinv; apply HL).
  assert (HD0 : dinv pb s0 (Some sc)) by (apply enter_dinv; auto; apply HL).
  assert (EA : s_A s0 = s_A (l_s l)) by apply enter_A.
  assert (Ef : s_f s0 = s_f (l_s l)) by (unfold s0, enter; destruct (l_skip l); auto).
  rewrite <- EA in *.
  assert (Hal : aligned (s_A s0)) by (eapply ali_aligned; eauto).
  pose proof Hsel as [V1 V2 V3 (b' & Vb & V4)]. assert (b' = b) by congruence. subst b'.
  destruct HL1 as [L1 L2 L3].
  assert (Hatt : t1 < o_bigBnd o -> (i < nact (s_A s0))%nat /\ cand (s_A s0) (rof s1) i /\ t1 = uof s0 i / rof s1 i).
  { intros Hlt. destruct L3 as [L3|L3]; [lra|auto]. }
  assert (Hpos : t1 < o_bigBnd o -> 0 <= t1).
  { intros Hlt. destruct (Hatt Hlt) as (K1 & [K2 K3] & ->).
    assert (0 <= uof s0 i) by (apply (di_pos _ _ _ HD0); auto; rewrite <- Hal; auto).
    apply Rmult_le_pos; auto. apply Rlt_le, Rinv_0_lt_compat. auto. }
  assert (Hnz0 : (forall i, (i < nv pb)%nat -> zof s1 i = 0) -> nz pb sc s1 = 0).
  { intros H. unfold nz. rewrite dot_def. apply sum_zero. intros; rewrite H by auto. rring. }
  assert (Huq : 0 <= uof s0 (nact (s_A s0))) by (apply (di_last _ _ _ HD0); discriminate).
  assert (Hblk : blocked pb (o_bigBnd o) sc s0 s1 b -> forall i, (i < nv pb)%nat -> zof s1 i = 0).
  { intros Hbl. destruct Hz as [Hz|(Hz1 & Hz2)]; auto. exfalso.
    destruct Hbl as [Hbl|Hbl]; [lra|]. unfold t2of in Hz2. lra. }
  assert (Hrem : forall tau s2 s', moved pb s0 sc s1 tau t1 s2 -> removed pb s2 i s' -> t1 < o_bigBnd o ->
     (tau = t1 \/ forall i, (i < nv pb)%nat -> zof s1 i = 0) ->
     dinv pb s' (Some sc) /\ ali pb e (s_A s') /\ s_f (l_s l) <= s_f s' /\ S (nact (s_A s')) = nact (s_A s0)).
  { intros tau s2 s' M Hrm Hlt Htau. destruct (Hatt Hlt) as (K1 & K2 & K3). pose proof (Hpos Hlt) as Hp.
    assert (HP2 : pinv pb s2) by (eapply moved_pinv; eauto).
    assert (HD2 : dinv pb s2 (Some sc)) by (apply (moved_dinv pb s0 sc s1 tau t1 s2); auto).
    assert (EA2 : s_A s2 = s_A s0) by apply M.
    assert (Hei : (e <= i)%nat).
    { destruct (Nat.lt_ge_cases i e) as [Hlt'|]; auto. exfalso. destruct (al_pre _ _ _ HA i Hlt') as [_ E].
      destruct K2 as [K2 _]. congruence. }
    split; [|split; [|split]].
    - apply (removed_dinv pb s2 sc i); auto; [rewrite EA2; auto|].
      rewrite (mv_u _ _ _ _ _ _ _ M). apply Nat.ltb_lt in K1 as K1'. rewrite K1'.
      rewrite K3. destruct K2 as [_ K2]. field. lra.
    - apply (ali_removed pb e s2 i); auto; try (rewrite EA2; auto). apply HP2.
    - rewrite (rm_f _ _ _ _ Hrm), (mv_f _ _ _ _ _ _ _ M), Ef.
      assert (0 <= tau * nz pb sc s1 * (/ 2 * t1 + uof s0 (nact (s_A s0)))); [|lra].
      destruct Htau as [->|Hzz]; [|rewrite Hnz0 by auto; lra].
      pose proof (st_nz_nonneg pb s0 sc s1 HP0 HS). apply Rmult_le_pos; [apply Rmult_le_pos; auto|]. lra.
    - pose proof (ar_nact _ _ _ (rm_A _ _ _ _ Hrm)). rewrite EA2 in *. lia. }
  inversion HC as [Ht1 Hbl|s2 s' Ht1 Hbl Hl M Hrm|s2 s' Hz' Ht2 Ht12 M Had|s2 s' Hz' Ht2 Ht12 Hl M Hrm]; subst l'.
  - (* dual step *)
    destruct (Hrem 0 s2 s' M Hrm Ht1 (or_intror (Hblk Hbl))) as (K1 & K2 & K3 & K4).
    split; [split; simpl; auto|split; simpl; auto; try discriminate]. intros _. rewrite <- EA. auto.
  - (* full step *)
    assert (Hnz : 0 < nz pb sc s1) by (apply (nz_pos pb s0); auto; apply HS).
    assert (Ht2pos : 0 < t2of pb sc s0 s1 b).
    { unfold t2of. apply Rmult_lt_0_compat; [lra|]. apply Rinv_0_lt_compat; auto. }
    assert (HP2 : pinv pb s2) by (eapply moved_pinv; eauto).
    assert (EA2 : s_A s2 = s_A s0) by apply M.
    assert (HD2 : dinv pb s2 (Some sc)).
    { apply (moved_dinv pb s0 sc s1 (t2of pb sc s0 s1 b) (t2of pb sc s0 s1 b) s2); auto; [lra|]. intros k Hk Hck. specialize (L2 k Hk Hck). lra. }
    split; [split; simpl; auto|split; simpl; try discriminate].
    + apply (added_dinv pb s2 sc); auto. rewrite EA2. auto.
    + apply (ali_added pb e s2 sc); auto; rewrite EA2; auto.
    + rewrite (ad_f _ _ _ _ Had), (mv_f _ _ _ _ _ _ _ M), Ef.
      assert (0 < t2of pb sc s0 s1 b * nz pb sc s1 * (/ 2 * t2of pb sc s0 s1 b + uof s0 (nact (s_A s0)))); [|lra].
      apply Rmult_lt_0_compat; [apply Rmult_lt_0_compat; auto|lra].
    + intros _. split.
      * rewrite (ad_f _ _ _ _ Had), (mv_f _ _ _ _ _ _ _ M), Ef.
        assert (0 < t2of pb sc s0 s1 b * nz pb sc s1 * (/ 2 * t2of pb sc s0 s1 b + uof s0 (nact (s_A s0)))); [|lra].
        apply Rmult_lt_0_compat; [apply Rmult_lt_0_compat; auto|lra].
      * rewrite (aa_nact _ _ _ (ad_A _ _ _ _ Had)), EA2, EA. auto.
  - (* partial step *)
    assert (Hlt : t1 < o_bigBnd o) by lra.
    destruct (Hrem t1 s2 s' M Hrm Hlt (or_introl eq_refl)) as (K1 & K2 & K3 & K4).
    split; [split; simpl; auto|split; simpl; auto; try discriminate]. intros _. rewrite <- EA. auto.
Qed.

Lemma reach_finv pb o e k l l' : finv pb e l ->
  (forall j l1, (j < k)%nat -> reach pb o j l l1 -> calm_at pb o l1) -> reach pb o k l l' -> finv pb e l'.
Proof.
  intros HF Hcalm H. induction H as [l|k l l1 l2 H IH E]; auto.
  assert (HF1 : finv pb e l1) by (apply IH; auto; intros j l3 Hj; apply Hcalm; lia).
  destruct (iter_spec pb o l1 (fi_linv _ _ _ HF1)) as (out & E' & HC).
  assert (out = Continue l2) by congruence. subst out.
  apply finv_bump. eapply iter_finv; eauto.
Qed.

(** ** INFEASIBLE is right *)
Lemma signed_feasible pb i st b y : (i < ncb pb)%nat -> (nb pb <= nv pb)%nat -> feasible pb y -> nrhs pb i st = Some b ->
  b <= rdot (nv pb) (nsign pb i st) y.
Proof.
  intros Hi Hb HF HR. rewrite feasible_iff in HF by auto. destruct (HF i Hi) as [F1 F2].
  unfold nrhs, nsign in *. destruct st; try (rewrite HR in F1; exact F1).
  - destruct (cup pb i) as [u|]; [|discriminate]. simpl in *. injection HR as <-. rewrite rdot_opp. lra.
  - destruct (cup pb i) as [u|]; [|discriminate]. simpl in *. injection HR as <-. rewrite rdot_opp. lra.
Qed.
Lemma rdot_sum n q (c : nat -> R) (N : nat -> rvec) (w y : rvec) :
  (forall a, (a < n)%nat -> w a = rsum q (fun k => c k * N k a)) -> rdot n w y = rsum q (fun k => c k * rdot n (N k) y).
Proof.
  intros H. rewrite dot_def.
  rewrite (sum_ext n _ (fun a => rsum q (fun k => c k * (N k a * y a)))).
  - rewrite sum_swap. apply sum_ext. intros k Hk. rewrite sum_scal, dot_def. auto.
  - intros a Ha. rewrite H by auto. rewrite <- sum_scal_r. apply sum_ext. intros; rring.
Qed.

Lemma infeasible_correct pb o e l s : linv pb l -> ali pb e (s_A (l_s l)) -> calm_at pb o l ->
  iter_case pb o l (Stop INFEASIBLE s) -> infeasible pb.
Proof.
  intros HL HA Hcalm HC. remember (Stop INFEASIBLE s) as out eqn:Eo.
  destruct HC as [smin sc Hsk HI Hst|sc b s1 t1 i out' Es Ec Hsel Hb Hs HS HL1 HC]; [discriminate|]. subst out'.
  destruct (calm_use pb o l sc s1 b HL Hcalm Es Ec Hsel Hb HS) as (Hz & Hcb).
  set (s0 := enter l sc) in *.
  assert (HP0 : pinv pb s0) by (apply enter_pinv; apply HL).
  assert (EA : s_A s0 = s_A (l_s l)) by apply enter_A. rewrite <- EA in *.
  assert (Hal : aligned (s_A s0)) by (eapply ali_aligned; eauto).
  inversion HC as [Ht1 Hbl| | |]; subst s. destruct HL1 as [L1 L2 L3].
  assert (Hz0 : forall i, (i < nv pb)%nat -> zof s1 i = 0).
  { destruct Hz as [Hz|(Hz1 & Hz2)]; auto. exfalso. destruct Hbl as [Hbl|Hbl]; [lra|]. unfold t2of in Hz2. lra. }
  assert (Hnc : forall k, (k < nact (s_A s0))%nat -> isEq (stt (s_A s0) (act (s_A s0) k)) = false -> rof s1 k <= 0).
  { intros k Hk HE. destruct (Rle_lt_dec (rof s1 k) 0) as [|Hr]; auto. exfalso.
    assert (Hc : cand (s_A s0) (rof s1) k) by (split; auto; rewrite Hal; auto).
    specialize (Hcb k Hk Hc). specialize (L2 k Hk Hc). lra. }
  intros y Hy. pose proof Hsel as [V1 V2 V3 (b' & Vb & V4)]. assert (b' = b) by congruence. subst b'.
  assert (Hnb : (nb pb <= nv pb)%nat) by apply sizes_nb, HP0.
  assert (Hb1 : b <= rdot (nv pb) (scn pb sc) y) by (eapply signed_feasible; eauto; apply V1).
  pose proof (st_dep pb s0 sc s1 HP0 HS Hz0) as Hdep.
  rewrite (rdot_sum _ _ _ _ _ y Hdep) in Hb1. rewrite (rdot_sum _ _ _ _ _ _ Hdep) in V4.
  assert (rsum (nact (s_A s0)) (fun k => rof s1 k * rdot (nv pb) (Nact pb (s_A s0) k) y)
       <= rsum (nact (s_A s0)) (fun k => rof s1 k * rdot (nv pb) (Nact pb (s_A s0) k) (xof s0))); [|lra].
  apply sum_le. intros k Hk.
  destruct (act_props pb s0 k (pi_shape _ _ HP0) Hk) as (Hi & Hst & _).
  pose proof (pi_tight _ _ HP0 k Hk) as HT. unfold Bact in HT.
  assert (Hge : rdot (nv pb) (Nact pb (s_A s0) k) (xof s0) <= rdot (nv pb) (Nact pb (s_A s0) k) y) by (eapply signed_feasible; eauto).
  destruct (isEq (stt (s_A s0) (act (s_A s0) k))) eqn:HE.
  - apply (pi_eqst _ _ HP0) in HE as HE'; auto. destruct HE' as (c & C1 & C2).
    assert (HFy := proj1 (feasible_iff pb y Hnb) Hy _ Hi). rewrite C1, C2 in HFy. simpl in HFy.
    assert (EN : Nact pb (s_A s0) k = cvec pb (act (s_A s0) k)).
    { unfold Nact, nsign. destruct (stt (s_A s0) (act (s_A s0) k)); auto; discriminate. }
    assert (ET : c = rdot (nv pb) (Nact pb (s_A s0) k) (xof s0)).
    { unfold nrhs in HT. destruct (stt (s_A s0) (act (s_A s0) k)); try discriminate; rewrite C1 in HT; injection HT as HT; exact HT. }
    rewrite <- ET, EN. right. f_equal. lra.
  - specialize (Hnc k Hk HE). nra.
Qed.

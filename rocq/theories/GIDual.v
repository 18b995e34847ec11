(** Preservation of the primal invariant and the dual invariant. *)
From Coq Require Import List Arith ZArith Lia Bool Reals Lra.
From Verif Require Import Base ActiveSet ActiveSetProofs Num Solver LinAlg QRUpdate QPSpec GIMath GIBase GIInv.
Import ListNotations.
Local Open Scope R_scope.

Lemma shape_set_u pb s w : shape pb s -> (ncb pb <= w_size w)%nat -> shape pb (set_u s w).
Proof. intros [] H. split; auto. Qed.
Lemma pinv_set_u pb s w : pinv pb s -> (ncb pb <= w_size w)%nat -> pinv pb (set_u s w).
Proof. intros [] H. split; auto. apply shape_set_u; auto. Qed.
Lemma shape_set_it pb s k : shape pb s -> shape pb (set_it s k).
Proof. intros []. split; auto. Qed.
Lemma pinv_set_it pb s k : pinv pb s -> pinv pb (set_it s k).
Proof. intros []. split; auto. apply shape_set_it; auto. Qed.
Lemma selected_set_it pb s sc k : selected pb s sc -> selected pb (set_it s k) sc.
Proof. intros []. split; auto. Qed.

(** Facts about one step *)
Record stepped (pb : rproblem) (s : rsol) (sc : selcstr) (s1 : rsol) : Prop := {
  st_rel : step_rel pb s sc s1;
  st_r : forall i, (i < nact (s_A s))%nat -> rsum (nact (s_A s)) (fun k => upper (Rof s) i k * rof s1 k) = dof s1 i
}.

Lemma st_orth pb s sc s1 k : pinv pb s -> stepped pb s sc s1 -> (k < nact (s_A s))%nat ->
  rdot (nv pb) (Nact pb (s_A s) k) (zof s1) = 0.
Proof. intros HP HS Hk. eapply step_orth; eauto; try apply HP; try apply HS. Qed.
Lemma st_nz_nonneg pb s sc s1 : pinv pb s -> stepped pb s sc s1 -> 0 <= nz pb sc s1.
Proof. intros HP HS. unfold nz. eapply step_nz_nonneg; eauto; try apply HP; try apply HS. Qed.
Lemma st_nz_pos pb s sc s1 : pinv pb s -> stepped pb s sc s1 -> (exists i, (i < nv pb)%nat /\ zof s1 i <> 0) -> 0 < nz pb sc s1.
Proof. intros HP HS. unfold nz. eapply step_nz_pos; eauto; try apply HP; try apply HS. Qed.
Lemma st_Gz pb s sc s1 a : pinv pb s -> stepped pb s sc s1 -> (a < nv pb)%nat ->
  rsum (nv pb) (fun b => hess pb a b * zof s1 b) = scn pb sc a - rsum (nact (s_A s)) (fun k => rof s1 k * Nact pb (s_A s) k a).
Proof.
  intros HP HS Ha.
  exact (step_Gz _ _ _ _ _ _ _ _ _ (pi_qr _ _ HP) (sr_dof _ _ _ _ (st_rel _ _ _ _ HS))
    (sr_zof _ _ _ _ (st_rel _ _ _ _ HS)) (st_r _ _ _ _ HS) _ (pi_G _ _ HP) a Ha).
Qed.
Lemma st_dep pb s sc s1 : pinv pb s -> stepped pb s sc s1 -> (forall i, (i < nv pb)%nat -> zof s1 i = 0) ->
  forall a, (a < nv pb)%nat -> scn pb sc a = rsum (nact (s_A s)) (fun k => rof s1 k * Nact pb (s_A s) k a).
Proof.
  intros HP HS Hz.
  exact (step_dep _ _ _ _ _ _ _ _ _ (pi_qr _ _ HP) (sr_dof _ _ _ _ (st_rel _ _ _ _ HS))
    (sr_zof _ _ _ _ (st_rel _ _ _ _ HS)) (st_r _ _ _ _ HS) _ (pi_G _ _ HP) Hz).
Qed.

Lemma rdot_axpy n (w x z x2 : rvec) tau : (forall i, (i < n)%nat -> x2 i = x i + tau * z i) ->
  rdot n w x2 = rdot n w x + tau * rdot n w z.
Proof.
  intros H. rewrite !dot_def, <- sum_scal, <- sum_plus. apply sum_ext. intros i Hi. rewrite H by auto. rring.
Qed.

(** *** Primal invariant *)
Lemma moved_pinv pb s sc s1 tau t s2 : pinv pb s -> stepped pb s sc s1 -> moved pb s sc s1 tau t s2 -> pinv pb s2.
Proof.
  intros HP HS [M1 M2 M3 M4 M5 M6 M7 M7' M8 M9 M10]. pose proof HP as [P1 P2 P3 P4 P5].
  split; rewrite ?M2, ?M3, ?M4; auto.
  intros k Hk. rewrite P4 by auto. f_equal. rewrite (rdot_axpy _ _ _ _ _ _ M8).
  rewrite (st_orth pb s sc s1) by auto. lra.
Qed.

Lemma removed_pinv pb s l s' : pinv pb s -> (l < nact (s_A s))%nat -> removed pb s l s' -> pinv pb s'.
Proof.
  intros [P1 P2 P3 P4 P5] Hl [M1 M2 M3 M4 M5 M6 M7 M8 M9 M10 M11].
  destruct (M11 P2) as [Q HG].
  split; auto.
  - intros a c Ha Hc. rewrite <- P3 by auto. apply sum_ext. intros b Hb. rewrite HG by auto. auto.
  - intros k Hk. destruct (Nact_removed pb s l (s_A s') k P1 M2 Hl Hk) as (-> & -> & _).
    pose proof (ar_nact _ _ _ M2) as EN. replace (xof s') with (xof s) by (unfold xof; rewrite M5; auto).
    unfold shiftN. destruct (Nat.ltb_spec k l); apply P4; lia.
  - intros i Hi HE. apply P5; auto. rewrite (ar_stt _ _ _ M2) in HE. destruct (i =? act (s_A s) l)%nat; auto. discriminate.
Qed.

Lemma added_pinv pb s sc s' : pinv pb s -> stt (s_A s) (sc_idx sc) = INACTIVE -> added pb s sc s' ->
  (forall j, (j < nv pb)%nat -> dof s j = tdot (nv pb) (Jof s) j (scn pb sc)) ->
  (exists j, (nact (s_A s) <= j)%nat /\ (j < nv pb)%nat /\ dof s j <> 0) ->
  scb pb sc = Some (rdot (nv pb) (scn pb sc) (xof s)) ->
  (isEq (sc_st sc) = true -> is_equality pb (sc_idx sc)) ->
  pinv pb s'.
Proof.
  intros [P1 P2 P3 P4 P5] Hst [M1 M2 M3 M4 M5 M6 M7 M8 M9 M10] Hd Hroom Hb HE.
  destruct (M10 P2 Hd Hroom) as [Q HG].
  split; auto.
  - intros a c Ha Hc. rewrite <- P3 by auto. apply sum_ext. intros b Hb'. rewrite HG by auto. auto.
  - intros k Hk. rewrite (aa_nact _ _ _ M2) in Hk.
    destruct (Nact_added pb s sc (s_A s') k P1 M2 Hst ltac:(lia)) as (-> & -> & _).
    replace (xof s') with (xof s) by (unfold xof; rewrite M5; auto).
    destruct (Nat.eqb_spec k (nact (s_A s))) as [->|]; auto. apply P4. lia.
  - intros i Hi H. rewrite (aa_stt _ _ _ M2) in H. destruct (Nat.eqb_spec i (sc_idx sc)) as [->|]; auto.
Qed.

Lemma moved_dof pb s sc s1 tau t s2 : stepped pb s sc s1 -> moved pb s sc s1 tau t s2 ->
  forall j, (j < nv pb)%nat -> dof s2 j = tdot (nv pb) (Jof s2) j (scn pb sc).
Proof. intros HS HM j Hj. rewrite (mv_d _ _ _ _ _ _ _ HM), (mv_J _ _ _ _ _ _ _ HM). apply HS; auto. Qed.

(** Loop-level invariant *)
Definition linv (pb : rproblem) (l : rlst) : Prop :=
  pinv pb (l_s l) /\ (l_skip l = true -> selected pb (l_s l) (l_sc l)).

Lemma step2_linv pb big s sc s1 b t1 l out : pinv pb s -> selected pb s sc -> scb pb sc = Some b ->
  stepped pb s sc s1 -> step2_case pb big s sc s1 b t1 l out ->
  match out with
  | Continue l' => linv pb l'
  | Stop st s' => st = INFEASIBLE /\ shape pb s' /\ s_A s' = s_A s /\ s_x s' = s_x s
  end.
Proof.
  intros HP [V1 V2 V3 (b' & Vb & V4)] Hb HS HC.
  assert (b' = b) by congruence. subst b'.
  assert (Hsel : forall s2 s' tau t, moved pb s sc s1 tau t s2 -> removed pb s2 l s' ->
     rdot (nv pb) (scn pb sc) (xof s) + tau * nz pb sc s1 < b -> selected pb s' sc).
  { intros s2 s' tau t M Hrm Hlt. split; auto.
    - rewrite (ar_stt _ _ _ (rm_A _ _ _ _ Hrm)). rewrite (mv_A _ _ _ _ _ _ _ M).
      destruct (sc_idx sc =? act (s_A s) l)%nat; auto.
    - exists b. split; auto. replace (xof s') with (xof s2) by (unfold xof; rewrite (rm_x _ _ _ _ Hrm); auto).
      rewrite (rdot_axpy _ _ _ _ _ _ (mv_x _ _ _ _ _ _ _ M)). exact Hlt. }
  destruct HC as [Ht1 Hbl|s2 s' Ht1 Hbl Hl M Hrm|s2 s' Hz Ht2 Ht12 M Had|s2 s' Hz Ht2 Ht12 Hl M Hrm].
  - pose proof (st_rel _ _ _ _ HS) as [R1 R2 R3 R4 R5 R6 R7 R8 R9 R10 R11 R12 R13 R14].
    split; [auto|]. split; [exact R1|]. split; [exact R4|exact R6].
  - assert (HP2 : pinv pb s2) by (eapply moved_pinv; eauto).
    split; simpl.
    + apply (removed_pinv pb s2 l); auto. rewrite (mv_A _ _ _ _ _ _ _ M). auto.
    + intros _. eapply Hsel; eauto. rewrite Rmult_0_l, Rplus_0_r. auto.
  - assert (HP2 : pinv pb s2) by (eapply moved_pinv; eauto).
    assert (Hnz : 0 < nz pb sc s1) by (apply (nz_pos pb s sc s1); auto; apply HS).
    split; simpl; [|discriminate].
    apply (added_pinv pb s2 sc); auto.
    + rewrite (mv_A _ _ _ _ _ _ _ M). auto.
    + eapply moved_dof; eauto.
    + rewrite (mv_d _ _ _ _ _ _ _ M), (mv_A _ _ _ _ _ _ _ M). apply (full_room pb s sc s1); auto. apply HS.
    + rewrite Hb. f_equal. rewrite (rdot_axpy _ _ _ _ _ _ (mv_x _ _ _ _ _ _ _ M)).
      fold (nz pb sc s1). unfold t2of. field. lra.
    + congruence.
  - assert (HP2 : pinv pb s2) by (eapply moved_pinv; eauto).
    assert (Hnz : 0 < nz pb sc s1) by (apply (nz_pos pb s sc s1); auto; apply HS).
    split; simpl.
    + apply (removed_pinv pb s2 l); auto. rewrite (mv_A _ _ _ _ _ _ _ M). auto.
    + intros _. eapply Hsel; eauto.
      assert (t1 * nz pb sc s1 < t2of pb sc s s1 b * nz pb sc s1) by nra.
      assert (t2of pb sc s s1 b * nz pb sc s1 = b - rdot (nv pb) (scn pb sc) (xof s)) by (unfold t2of; field; lra). lra.
Qed.

(** Step 1, described: either nothing is violated, or a constraint is entered. *)
Definition enter (l : rlst) (sc : selcstr) : rsol :=
  if l_skip l then l_s l
  else set_u (l_s l) (wset (s_u (l_s l)) (upd (uof (l_s l)) (nact (s_A (l_s l))) 0)).

Lemma enter_pinv pb l sc : pinv pb (l_s l) -> pinv pb (enter l sc).
Proof. intros H. unfold enter. destruct (l_skip l); auto. apply pinv_set_u; auto. simpl. apply H. Qed.
Lemma enter_A l sc : s_A (enter l sc) = s_A (l_s l).
Proof. unfold enter. destruct (l_skip l); auto. Qed.
Lemma enter_x l sc : xof (enter l sc) = xof (l_s l).
Proof. unfold enter. destruct (l_skip l); auto. Qed.

Lemma step1_spec pb l : linv pb l ->
  (l_skip l = false /\ step1 pb l = Ok None /\
     exists smin sc, sel_inv pb (s_A (l_s l)) (xof (l_s l)) (ncb pb) (smin, sc) /\ sc_st sc = INACTIVE) \/
  (exists sc, step1 pb l = Ok (Some (L (enter l sc) (l_skip l) sc)) /\ selected pb (enter l sc) sc /\
     (l_skip l = true -> sc = l_sc l)).
Proof.
  intros [HP Hsk]. unfold step1, enter. destruct (l_skip l) eqn:Esk.
  - right. exists (l_sc l). split; [|split; auto]. destruct l; simpl in *. subst. auto.
  - destruct (selectViolated_spec pb (l_s l)) as (sc & smin & E & HI); [apply HP|].
    rewrite E. cbn [bind]. destruct (status_eqb_spec (sc_st sc) INACTIVE) as [Est|Est].
    + left. rewrite Est. split; auto. split; auto. exists smin, sc. auto.
    + right. exists sc. destruct (si_some _ _ _ _ _ HI Est) as (K1 & K2 & K3 & K4 & K5 & b & K6 & K7). simpl in *.
      assert (Hlt : (nact (s_A (l_s l)) < ncb pb)%nat) by (eapply inactive_lt; eauto; apply HP).
      rewrite getV_ok by (pose proof (sh_r _ _ (pi_shape _ _ HP)); lia). cbn [bind].
      rewrite getV_ok by (pose proof (sh_u _ _ (pi_shape _ _ HP)); lia). cbn [bind].
      split; [destruct (sc_st sc); auto; congruence|]. split; [|congruence].
      split; auto. exists b. split; auto. unfold xof in *. simpl in *. lra.
Qed.

(** One iteration: total, and preserves the invariant. *)
Inductive iter_case (pb : rproblem) (o : ropt) (l : rlst) : iter_out Rops -> Prop :=
| it_success smin sc : l_skip l = false -> sel_inv pb (s_A (l_s l)) (xof (l_s l)) (ncb pb) (smin, sc) -> sc_st sc = INACTIVE ->
    iter_case pb o l (Stop SUCCESS (l_s l))
| it_step sc b s1 t1 i out :
    step1 pb l = Ok (Some (L (enter l sc) (l_skip l) sc)) -> computeStep pb (enter l sc) sc = Ok s1 ->
    selected pb (enter l sc) sc -> scb pb sc = Some b ->
    (l_skip l = true -> sc = l_sc l) ->
    stepped pb (enter l sc) sc s1 ->
    len1_ok (s_A (l_s l)) (uof (enter l sc)) (rof s1) (o_bigBnd o) (nact (s_A (l_s l))) t1 i ->
    step2_case pb (o_bigBnd o) (enter l sc) sc s1 b t1 i out ->
    iter_case pb o l out.

Lemma iter_spec pb o l : linv pb l -> exists out, iter pb o l = Ok out /\ iter_case pb o l out.
Proof.
  intros HL. unfold iter. destruct (step1_spec pb l HL) as [(Hsk & E & smin & sc & HI & Hst)|(sc & E & Hsel & Hs)].
  - rewrite E. cbn [bind]. eexists. split; [reflexivity|]. eapply it_success; eauto.
  - rewrite E. cbn [bind]. pose proof Hsel as [_ _ _ (b & Hb & _)].
    destruct (step2_spec pb o (enter l sc) (l_skip l) sc b) as (s1 & t1 & i & out & E2 & EC & HS & Hr & HL1 & HC); auto.
    { apply enter_pinv. apply HL. }
    exists out. split; auto. rewrite enter_A in HL1. eapply it_step; eauto. split; auto.
Qed.

Lemma iter_linv pb o l out : linv pb l -> iter_case pb o l out ->
  match out with
  | Continue l' => linv pb l'
  | Stop st s' => (st = SUCCESS /\ s' = l_s l) \/ (st = INFEASIBLE /\ shape pb s')
  end.
Proof.
  intros HL [smin sc Hsk HI Hst|sc b s1 t1 i out' Es Ec Hsel Hb Hs HS HL1 HC]; [left; auto|].
  eapply step2_linv in HC; eauto; [|apply enter_pinv, HL].
  destruct out'; auto. right. split; apply HC.
Qed.

(** *** Dual invariant *)
Record dstat (pb : rproblem) (s : rsol) (sc : option selcstr) : Prop := {
  ds_grad : forall a, (a < nv pb)%nat -> gradient pb (xof s) a =
     rsum (nact (s_A s)) (fun k => uof s k * Nact pb (s_A s) k a)
     + match sc with Some sc => uof s (nact (s_A s)) * scn pb sc a | None => 0 end;
  ds_f : s_f s = objective pb (xof s)
}.
Record dinv (pb : rproblem) (s : rsol) (sc : option selcstr) : Prop := {
  di_stat : dstat pb s sc;
  di_pos : forall k, (k < nact (s_A s))%nat -> isEq (stt (s_A s) (act (s_A s) k)) = false -> 0 <= uof s k;
  di_last : sc <> None -> 0 <= uof s (nact (s_A s))
}.

(** The ratio test looks at the right statuses *)
Definition aligned (A : aset) : Prop :=
  forall k, (k < nact A)%nat -> isEq (stt A k) = isEq (stt A (act A k)).

Lemma gradient_axpy pb (x z x2 : rvec) t a : (forall i, (i < nv pb)%nat -> x2 i = x i + t * z i) ->
  gradient pb x2 a = gradient pb x a + t * rsum (nv pb) (fun b => hess pb a b * z b).
Proof.
  intros H. unfold gradient. rewrite <- sum_scal.
  rewrite (sum_ext _ (fun j => hess pb a j * x2 j) (fun j => hess pb a j * x j + t * (hess pb a j * z j))).
  - rewrite sum_plus. rring.
  - intros j Hj. rewrite H by auto. rring.
Qed.

(** zᵀ ∇f(x) = u_p n·z *)
Lemma st_zgrad pb s sc s1 : pinv pb s -> stepped pb s sc s1 -> dstat pb s (Some sc) ->
  rsum (nv pb) (fun a => zof s1 a * gradient pb (xof s) a) = uof s (nact (s_A s)) * nz pb sc s1.
Proof.
  intros HP HS [D1 D2].
  rewrite (sum_ext _ _ (fun a => rsum (nact (s_A s)) (fun k => uof s k * (Nact pb (s_A s) k a * zof s1 a))
     + uof s (nact (s_A s)) * (scn pb sc a * zof s1 a))).
  - rewrite sum_plus, sum_swap, sum_scal. rewrite sum_zero.
    + unfold nz. rewrite dot_def. rring.
    + intros k Hk. rewrite sum_scal. rewrite <- dot_def. rewrite (st_orth pb s sc s1) by auto. rring.
  - intros a Ha. rewrite D1 by auto. rewrite Rmult_plus_distr_l, <- sum_scal. f_equal; [apply sum_ext; intros; rring|rring].
Qed.
Lemma st_zGz pb s sc s1 : pinv pb s -> stepped pb s sc s1 ->
  quad (nv pb) (hess pb) (zof s1) = nz pb sc s1.
Proof.
  intros HP HS. unfold quad.
  rewrite (sum_ext _ _ (fun a => scn pb sc a * zof s1 a - rsum (nact (s_A s)) (fun k => rof s1 k * (Nact pb (s_A s) k a * zof s1 a)))).
  - rewrite sum_minus, sum_swap. rewrite (sum_zero (nact (s_A s))).
    + unfold nz. rewrite dot_def. rring.
    + intros k Hk. rewrite sum_scal, <- dot_def. rewrite (st_orth pb s sc s1) by auto. rring.
  - intros a Ha. rewrite (st_Gz pb s sc s1) by auto.
    rewrite Rmult_minus_distr_l, <- sum_scal. f_equal; [rring|]. apply sum_ext; intros; rring.
Qed.

Lemma moved_dstat pb s sc s1 tau t s2 : pinv pb s -> stepped pb s sc s1 -> moved pb s sc s1 tau t s2 ->
  (tau = t \/ forall i, (i < nv pb)%nat -> zof s1 i = 0) ->
  dstat pb s (Some sc) -> dstat pb s2 (Some sc).
Proof.
  intros HP HS M Htau HD.
  pose proof M as [M1 M2 M3 M4 M5 M6 M7 M7' M8 M9 M10]. pose proof HD as [D1 D2].
  assert (M8' : forall i, (i < nv pb)%nat -> xof s2 i = xof s i + t * zof s1 i).
  { intros i Hi. rewrite M8 by auto. destruct Htau as [->|Hz]; auto. rewrite Hz by auto. rring. }
  assert (M9' : s_f s2 = s_f s + t * nz pb sc s1 * (/ 2 * t + uof s (nact (s_A s)))).
  { rewrite M9. destruct Htau as [->|Hz]; auto.
    assert (E : nz pb sc s1 = 0) by (unfold nz; rewrite dot_def; apply sum_zero; intros; rewrite Hz by auto; rring).
    rewrite E. rring. }
  split.
  - intros a Ha. rewrite (gradient_axpy _ _ _ _ _ _ M8'), D1, (st_Gz pb s sc s1) by auto.
    rewrite M2. rewrite (M10 (nact (s_A s))), Nat.ltb_irrefl, Nat.eqb_refl.
    rewrite (sum_ext _ (fun k => uof s2 k * Nact pb (s_A s) k a)
       (fun k => uof s k * Nact pb (s_A s) k a - t * (rof s1 k * Nact pb (s_A s) k a))).
    + rewrite sum_minus, sum_scal. rring.
    + intros k Hk. rewrite M10. apply Nat.ltb_lt in Hk. rewrite Hk. rring.
  - rewrite M9', D2. rewrite (objective_ext pb (xof s2) (fun i => xof s i + t * zof s1 i)) by auto.
    rewrite objective_expand.
    rewrite (sum_ext _ (fun i => t * zof s1 i * gradient pb (xof s) i) (fun i => t * (zof s1 i * gradient pb (xof s) i))) by (intros; rring).
    rewrite sum_scal, (st_zgrad pb s sc s1) by auto.
    assert (E : quad (nv pb) (hess pb) (fun i => t * zof s1 i) = t * t * quad (nv pb) (hess pb) (zof s1)).
    { unfold quad. rewrite <- sum_scal. apply sum_ext. intros i Hi.
      rewrite (sum_ext _ (fun j => hess pb i j * (t * zof s1 j)) (fun j => t * (hess pb i j * zof s1 j))) by (intros; rring).
      rewrite sum_scal. rring. }
    rewrite E, (st_zGz pb s sc s1) by auto. rring.
Qed.

Lemma moved_dinv pb s sc s1 tau t s2 : pinv pb s -> stepped pb s sc s1 -> moved pb s sc s1 tau t s2 ->
  (tau = t \/ forall i, (i < nv pb)%nat -> zof s1 i = 0) ->
  dinv pb s (Some sc) -> aligned (s_A s) -> 0 <= t ->
  (forall k, (k < nact (s_A s))%nat -> cand (s_A s) (rof s1) k -> t <= uof s k / rof s1 k) ->
  dinv pb s2 (Some sc).
Proof.
  intros HP HS M Htau HD Hal Ht Hmin. pose proof HD as [D1 D3 D4].
  pose proof M as [M1 M2 M3 M4 M5 M6 M7 M7' M8 M9 M10].
  split; [eapply moved_dstat; eauto| |].
  - intros k Hk HE. rewrite M2 in Hk, HE. rewrite M10. apply Nat.ltb_lt in Hk as Hk'. rewrite Hk'.
    specialize (D3 k Hk HE). destruct (Rlt_le_dec 0 (rof s1 k)) as [Hr|Hr].
    + assert (Hc : cand (s_A s) (rof s1) k) by (split; auto; rewrite Hal; auto).
      specialize (Hmin k Hk Hc).
      assert (t * rof s1 k <= uof s k); [|lra].
      apply (Rmult_le_compat_r (rof s1 k)) in Hmin; [|lra]. unfold Rdiv in Hmin. rewrite Rmult_assoc, Rinv_l, Rmult_1_r in Hmin by lra. auto.
    + nra.
  - intros _. rewrite M2, M10, Nat.ltb_irrefl, Nat.eqb_refl. assert (0 <= uof s (nact (s_A s))) by (apply D4; discriminate). lra.
Qed.

(** Dropping a constraint whose multiplier is zero *)
Lemma sum_drop q l (f : nat -> R) : (l <= q)%nat ->
  rsum (S q) f = rsum q (fun k => if (k <? l)%nat then f k else f (S k)) + f l.
Proof.
  intros Hl. induction q as [|q IH].
  - assert (l = 0%nat) by lia. subst. rewrite sum_S, !sum_0. auto.
  - destruct (Nat.eq_dec l (S q)) as [->|].
    + rewrite sum_S. f_equal. apply sum_ext. intros i Hi. apply Nat.ltb_lt in Hi. rewrite Hi. auto.
    + rewrite sum_S, IH by lia. rewrite (sum_S q). destruct (Nat.ltb_spec q l); [lia|]. rring.
Qed.

Lemma removed_dinv pb s sc l s' : pinv pb s -> (l < nact (s_A s))%nat -> removed pb s l s' ->
  uof s l = 0 -> dinv pb s (Some sc) -> dinv pb s' (Some sc).
Proof.
  intros HP Hl HR Hu [[D1 D2] D3 D4]. pose proof (rm_A _ _ _ _ HR) as HA. pose proof (ar_nact _ _ _ HA) as EN.
  pose proof (pi_shape _ _ HP) as Hsh.
  assert (Ex : xof s' = xof s) by (unfold xof; rewrite (rm_x _ _ _ _ HR); auto).
  assert (Eu : forall k, (k < nact (s_A s'))%nat -> uof s' k = if (k <? l)%nat then uof s k else uof s (S k)).
  { intros k Hk. rewrite (rm_u _ _ _ _ HR). destruct (Nat.leb_spec l k), (Nat.ltb_spec k l), (Nat.ltb_spec k (nact (s_A s))); try lia; auto. }
  assert (Eq : uof s' (nact (s_A s')) = uof s (nact (s_A s))).
  { rewrite (rm_u _ _ _ _ HR). rewrite EN. destruct (Nat.leb_spec l (nact (s_A s'))), (Nat.ltb_spec (nact (s_A s')) (S (nact (s_A s')))); try lia; auto. }
  split; [split|..].
  - intros a Ha. rewrite Ex, D1 by auto. rewrite Eq. f_equal.
    rewrite EN, (sum_drop _ l) by lia. rewrite Hu.
    rewrite Rmult_0_l, Rplus_0_r. apply sum_ext. intros k Hk. rewrite Eu by auto.
    destruct (Nact_removed pb s l (s_A s') k Hsh HA Hl Hk) as (-> & _). unfold shiftN. destruct (k <? l)%nat; auto.
  - rewrite (rm_f _ _ _ _ HR), Ex. auto.
  - intros k Hk HE. rewrite Eu by auto. destruct (Nact_removed pb s l (s_A s') k Hsh HA Hl Hk) as (_ & _ & E). rewrite E in HE.
    destruct (Nat.ltb_spec k l); apply D3; auto; lia.
  - intros _. rewrite Eq. apply D4. discriminate.
Qed.

Lemma added_dstat pb s sc s' : pinv pb s -> stt (s_A s) (sc_idx sc) = INACTIVE -> added pb s sc s' ->
  dstat pb s (Some sc) -> dstat pb s' None.
Proof.
  intros HP Hst HR [D1 D2]. pose proof (ad_A _ _ _ _ HR) as HA. pose proof (aa_nact _ _ _ HA) as EN.
  pose proof (pi_shape _ _ HP) as Hsh.
  assert (Ex : xof s' = xof s) by (unfold xof; rewrite (ad_x _ _ _ _ HR); auto).
  assert (Eu : uof s' = uof s) by (unfold uof; rewrite (ad_u _ _ _ _ HR); auto).
  split.
  - intros a Ha. rewrite Ex, D1 by auto. rewrite Rplus_0_r. rewrite EN, sum_S, Eu. f_equal.
    + apply sum_ext. intros k Hk. destruct (Nact_added pb s sc (s_A s') k Hsh HA Hst ltac:(lia)) as (-> & _).
      destruct (Nat.eqb_spec k (nact (s_A s))); [lia|auto].
    + destruct (Nact_added pb s sc (s_A s') (nact (s_A s)) Hsh HA Hst ltac:(lia)) as (-> & _). rewrite Nat.eqb_refl. auto.
  - rewrite (ad_f _ _ _ _ HR), Ex. auto.
Qed.
Lemma added_dinv pb s sc s' : pinv pb s -> stt (s_A s) (sc_idx sc) = INACTIVE -> added pb s sc s' ->
  dinv pb s (Some sc) -> dinv pb s' None.
Proof.
  intros HP Hst HR [D1 D3 D4]. pose proof (ad_A _ _ _ _ HR) as HA. pose proof (aa_nact _ _ _ HA) as EN.
  pose proof (pi_shape _ _ HP) as Hsh.
  assert (Eu : uof s' = uof s) by (unfold uof; rewrite (ad_u _ _ _ _ HR); auto).
  split; [eapply added_dstat; eauto| |congruence].
  intros k Hk HE. rewrite EN in Hk. rewrite Eu. destruct (Nat.eq_dec k (nact (s_A s))) as [->|Hne].
  - apply D4. discriminate.
  - destruct (Nact_added pb s sc (s_A s') k Hsh HA Hst ltac:(lia)) as (_ & _ & E). rewrite E in HE.
    destruct (Nat.eqb_spec k (nact (s_A s))); [lia|]. apply D3; auto; lia.
Qed.

Lemma enter_dinv pb l sc : pinv pb (l_s l) -> (l_skip l = true -> sc = l_sc l) ->
  dinv pb (l_s l) (if l_skip l then Some (l_sc l) else None) -> dinv pb (enter l sc) (Some sc).
Proof.
  intros HP Hs HD. unfold enter. destruct (l_skip l).
  - rewrite (Hs eq_refl). auto.
  - destruct HD as [[D1 D2] D3 D4]. set (q := nact (s_A (l_s l))) in *.
    split; [split|..]; cbn [s_A s_f set_u].
    + intros a Ha. change (xof (set_u (l_s l) (wset (s_u (l_s l)) (upd (uof (l_s l)) q 0)))) with (xof (l_s l)).
      rewrite D1 by auto. f_equal.
      * apply sum_ext. intros k Hk. unfold uof at 2. simpl. unfold upd. destruct (Nat.eqb_spec k q); [fold q in Hk; lia|auto].
      * unfold uof. simpl. unfold upd. rewrite Nat.eqb_refl. rring.
    + auto.
    + intros k Hk HE. fold q in Hk. unfold uof. simpl. unfold upd. destruct (Nat.eqb_spec k q); [lia|]. apply D3; auto.
    + intros _. fold q. unfold uof. simpl. unfold upd. rewrite Nat.eqb_refl. rops. lra.
Qed.

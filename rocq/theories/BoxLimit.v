(** How long the steps of the box solver can be, in terms of the size of the data: an explicit sufficient value of bigBnd. *)
From Coq Require Import List Arith ZArith Lia Bool Reals Lra Psatz.
From Verif Require Import Base ActiveSet ActiveSetProofs Num Solver LinAlg QRUpdate QPSpec GIMath GIBase GIInv GIDual GIRun GIOpt GIMult GITotal StructGProofs WarmTotal Limits Box BoxProofs BoxGap BoxSteps.
Import ListNotations.
Local Open Scope R_scope.

(** the finite data are bounded by K *)
Definition data_within (a : rbox) (K : R) : Prop :=
  (forall i, (i < ba_n a)%nat -> Rabs (ba_x0 a i) <= K) /\
  (forall i v, (i < ba_n a)%nat -> ba_xl a i = Some v \/ ba_xu a i = Some v -> Rabs v <= K) /\
  (forall v, ba_bl a = Some v -> Rabs v <= K).

Lemma sum_abs_le n (f : rvec) M : (forall i, (i < n)%nat -> Rabs (f i) <= M) -> Rabs (rsum n f) <= INR n * M.
Proof.
  intros H. induction n as [|n IH]; [rewrite sum_0, Rabs_R0; simpl; lra|].
  rewrite sum_S, S_INR. pose proof (Rabs_triang (rsum n f) (f n)). specialize (IH ltac:(intros; apply H; lia)). specialize (H n ltac:(lia)). lra.
Qed.
Lemma Rabs_sq x : Rabs x * Rabs x = x * x.
Proof. rewrite <- Rabs_mult. apply Rabs_pos_eq. nra. Qed.

Section BoxLimit.
Variables (a : rbox) (K : R).
Hypothesis Hsz : box_sizes a = true.
Hypothesis HG : box_gap a.
Hypothesis HK : 0 < K.
Hypothesis HD : data_within a K.
Notation pb := (proj_pb a).
Notation n := (ba_n a).
Notation c := (ba_c a).
Let e := / 10 ^ 14.
Let nn := INR n.
Let nrm := sqrt (rdot n c c).

Lemma e_bounds : 0 < e /\ e < 1.
Proof. apply BoxGap.eps_pos. Qed.
Lemma nn_pos : 0 <= nn.
Proof. apply pos_INR. Qed.
Lemma nrm_pos : 0 <= nrm.
Proof. apply sqrt_pos. Qed.
Lemma nrm_sq : nrm * nrm = rdot n c c.
Proof. apply sqrt_sqrt, dot_self_nonneg. Qed.
Lemma c_le b : (b < n)%nat -> Rabs (c b) <= nrm.
Proof.
  intros Hb. apply Rsqr_incr_0_var; [|apply nrm_pos]. unfold Rsqr. rewrite Rabs_sq, nrm_sq. apply entry_sq. auto.
Qed.

(** ** A face *)
Section OnFace.
Variables (w : nat -> status) (W : nat -> bool) (x lam : rvec).
Hypothesis HS : stationary_on pb w W x lam.
Let qf b := if W (S b) then 0 else c b * c b.
Let Q := rsum n qf.
Let y b := if W (S b) then x b else ba_x0 a b.

Lemma qf_nn b : 0 <= qf b.
Proof. unfold qf. destruct (W (S b)); nra. Qed.
Lemma Q_le : Q <= nrm * nrm.
Proof. rewrite nrm_sq, dot_def. apply sum_le. intros b Hb. unfold qf. destruct (W (S b)); nra. Qed.
Lemma lf_grad b : (b < n)%nat -> x b - ba_x0 a b + (lam 0%nat * c b + lam (S b)) = 0.
Proof.
  intros Hb. pose proof (so_grad _ _ _ _ _ HS b Hb) as H. rewrite proj_gradient in H by auto. etransitivity; [|exact H]. apply f_equal.
  rewrite bx_ncb by auto. change (S n) with (1 + n)%nat. rewrite sum_app, sum_S, sum_0, Rplus_0_l. f_equal.
  rewrite (sum_one n b); auto.
  - simpl (1 + b)%nat. rewrite bx_cS, Nat.eqb_refl. ring.
  - intros k Hk Hne. simpl (1 + k)%nat. rewrite bx_cS. destruct (Nat.eqb_spec b k); [lia|]. ring.
Qed.
Lemma lf_act b : (b < n)%nat -> W (S b) = true -> Rabs (x b) <= K.
Proof.
  intros Hb HW. pose proof (so_tight _ _ _ _ _ HS (S b)) as H. rewrite bx_ncb in H by auto. specialize (H ltac:(lia) HW).
  change (nv pb) with n in H. rewrite bx_dotS, bx_cloS, bx_cupS in H by auto. destruct HD as (_ & H1 & _).
  apply (H1 b); auto. destruct (w (S b)); auto. contradiction.
Qed.
Lemma lf_free b : (b < n)%nat -> W (S b) = false -> x b = ba_x0 a b - lam 0%nat * c b.
Proof. intros Hb HW. pose proof (lf_grad b Hb). rewrite (so_supp _ _ _ _ _ HS _ HW) in H. lra. Qed.
Lemma y_le b : (b < n)%nat -> Rabs (y b) <= K.
Proof. intros Hb. unfold y. destruct (W (S b)) eqn:E; [apply lf_act; auto|destruct HD as (H1 & _ & _); apply H1; auto]. Qed.
Lemma cy_le : Rabs (rsum n (fun b => c b * y b)) <= nn * (nrm * K).
Proof.
  apply sum_abs_le. intros b Hb. rewrite Rabs_mult. apply Rmult_le_compat; try apply Rabs_pos; [apply c_le|apply y_le]; auto.
Qed.
Lemma cx_eq : rdot n c x = rsum n (fun b => c b * y b) - lam 0%nat * Q.
Proof.
  rewrite dot_def. unfold Q. rewrite <- sum_scal, <- sum_minus. apply sum_ext. intros b Hb. unfold y, qf.
  destruct (W (S b)) eqn:E; [ring|]. rewrite (lf_free b Hb E). ring.
Qed.
Lemma Q_cases : Q = 0 /\ (forall b, (b < n)%nat -> W (S b) = false -> c b = 0) \/
  e * e < Q /\ e * e * (nrm * nrm) <= Q /\ e * e * nrm <= Q.
Proof.
  destruct (all_zero_dec n qf) as [H|(b & Hb & Hn)].
  - left. split; [apply sum_zero; auto|]. intros b Hb HW. specialize (H b Hb). unfold qf in H. rewrite HW in H. nra.
  - right. assert (HQ : qf b <= Q).
    { unfold Q. rewrite (sum_extract n b) by auto. match goal with |- _ <= _ + ?t => assert (0 <= t); [|lra] end.
      apply sum_nonneg. intros i Hi. destruct (i =? b)%nat; [lra|apply qf_nn]. }
    unfold qf in HQ, Hn. destruct (W (S b)) eqn:E; [lra|]. assert (Hc : c b <> 0) by (intros E0; apply Hn; rewrite E0; ring).
    destruct (HG b Hb Hc) as [G1 G2]. fold e nrm in G1, G2. destruct e_bounds as [E0 E1]. pose proof nrm_pos as N0'. pose proof (Rabs_sq (c b)) as HA.
    set (ab := Rabs (c b)) in *. rewrite <- HA in HQ. assert (e * nrm >= 0) by nra. assert (H1 : e * e < ab * ab) by nra.
    assert (H2 : (e * nrm) * (e * nrm) <= ab * ab) by nra. assert (H3 : e * (e * nrm) <= ab * ab) by nra. split; [lra|]. split; nra.
Qed.
Lemma Q_pos : W 0%nat = true -> e * e < Q /\ e * e * (nrm * nrm) <= Q /\ e * e * nrm <= Q.
Proof.
  intros H0. destruct Q_cases as [[_ H]|H]; auto. exfalso.
  set (d := fun j => match j with O => 1 | S b => if W (S b) then - c b else 0 end).
  assert (d 0%nat = 0); [|simpl in *; lra].
  apply (so_indep _ _ _ _ _ HS d).
  - intros j Hj. unfold d. destruct j as [|b]; [congruence|]. rewrite Hj. reflexivity.
  - intros b Hb. change (nv pb) with n in Hb. rewrite bx_ncb by auto. change (S n) with (1 + n)%nat. rewrite sum_app, sum_S, sum_0, Rplus_0_l.
    rewrite (sum_one n b); auto.
    + simpl (1 + b)%nat. rewrite bx_cS, Nat.eqb_refl, bx_c0. simpl. destruct (W (S b)) eqn:E; [ring|]. rewrite (H b Hb E). ring.
    + intros k Hk Hne. simpl (1 + k)%nat. rewrite bx_cS. destruct (Nat.eqb_spec b k); [lia|]. ring.
  - rewrite bx_ncb by auto. lia.
Qed.
Lemma lam0_Q : Rabs (lam 0%nat) * Q <= K * (nn * nrm + 1).
Proof.
  pose proof cy_le as HC. destruct (W 0%nat) eqn:E0.
  - pose proof (so_tight _ _ _ _ _ HS 0%nat) as H. rewrite bx_ncb in H by auto. specialize (H ltac:(lia) E0). change (nv pb) with n in H.
    assert (Hb : ba_bl a = Some (rdot n c x)).
    { rewrite bx_cup0 in H. change (clo pb 0) with (ba_bl a) in H. change (cvec pb 0) with (fun b => c b) in H.
      destruct (w 0%nat); auto; try discriminate; contradiction. }
    destruct HD as (_ & _ & H3). specialize (H3 _ Hb). rewrite cx_eq in H3. destruct (Q_pos E0) as (Q1 & _). destruct e_bounds.
    assert (0 < Q) by nra. rewrite <- (Rabs_pos_eq Q) by lra. rewrite <- Rabs_mult.
    set (cy := rsum n (fun b => c b * y b)) in *. pose proof (Rabs_triang cy (- (cy - lam 0%nat * Q))) as HT. rewrite Rabs_Ropp in HT.
    replace (cy + - (cy - lam 0%nat * Q)) with (lam 0%nat * Q) in HT by ring. lra.
  - rewrite (so_supp _ _ _ _ _ HS _ E0), Rabs_R0. pose proof nn_pos. pose proof nrm_pos. assert (0 <= nn * nrm) by nra. nra.
Qed.
Lemma lam0_le : Rabs (lam 0%nat) * (e * e) <= K * (nn + 1) /\ Rabs (lam 0%nat) * nrm * (e * e) <= K * (nn + 1).
Proof.
  pose proof nn_pos as Hn. pose proof nrm_pos as Hm. destruct e_bounds as [E0 E1]. destruct (W 0%nat) eqn:EW.
  - destruct (Q_pos EW) as (Q1 & Q2 & Q3). pose proof lam0_Q as HL. set (al := Rabs (lam 0%nat)) in *.
    assert (Hq : 0 < Q) by nra. pose proof (Rabs_pos (lam 0%nat)) as Ha. fold al in Ha.
    assert (Hee : 0 < e * e) by nra.
    split; apply (Rmult_le_reg_r Q); auto.
    + replace (al * (e * e) * Q) with ((al * Q) * (e * e)) by ring.
      apply Rle_trans with (K * (nn * nrm + 1) * (e * e)); [apply Rmult_le_compat_r; lra|].
      replace (K * (nn * nrm + 1) * (e * e)) with (K * (nn * (e * e * nrm) + e * e)) by ring. rewrite (Rmult_assoc K (nn + 1) Q).
      apply Rmult_le_compat_l; [lra|]. assert (nn * (e * e * nrm) <= nn * Q) by (apply Rmult_le_compat_l; auto). lra.
    + replace (al * nrm * (e * e) * Q) with ((al * Q) * (nrm * (e * e))) by ring.
      apply Rle_trans with (K * (nn * nrm + 1) * (nrm * (e * e))); [apply Rmult_le_compat_r; nra|].
      replace (K * (nn * nrm + 1) * (nrm * (e * e))) with (K * (nn * (e * e * (nrm * nrm)) + e * e * nrm)) by ring. rewrite (Rmult_assoc K (nn + 1) Q).
      apply Rmult_le_compat_l; [lra|]. assert (nn * (e * e * (nrm * nrm)) <= nn * Q) by (apply Rmult_le_compat_l; auto). lra.
  - rewrite (so_supp _ _ _ _ _ HS _ EW), Rabs_R0. split; nra.
Qed.
Lemma lam0c_le b : (b < n)%nat -> Rabs (lam 0%nat * c b) * (e * e) <= K * (nn + 1).
Proof.
  intros Hb. destruct lam0_le as [_ H]. eapply Rle_trans; [|exact H]. destruct e_bounds. apply Rmult_le_compat_r; [nra|].
  rewrite Rabs_mult. apply Rmult_le_compat_l; [apply Rabs_pos|apply c_le; auto].
Qed.
Lemma x_le b : (b < n)%nat -> Rabs (x b) * (e * e) <= K * (nn + 2).
Proof.
  intros Hb. destruct e_bounds as [E0 E1]. assert (Hee : 0 < e * e <= 1) by nra. pose proof nn_pos. destruct (W (S b)) eqn:E.
  - pose proof (lf_act b Hb E). apply Rle_trans with (K * 1); [|nra]. apply Rmult_le_compat; try lra. apply Rabs_pos.
  - rewrite (lf_free b Hb E). pose proof (Rabs_triang (ba_x0 a b) (- (lam 0%nat * c b))) as HT. rewrite Rabs_Ropp in HT.
    pose proof (lam0c_le b Hb). destruct HD as (H1 & _). specialize (H1 b Hb).
    apply Rle_trans with ((Rabs (ba_x0 a b) + Rabs (lam 0%nat * c b)) * (e * e)); [apply Rmult_le_compat_r; [lra|exact HT]|].
    rewrite Rmult_plus_distr_r. assert (Rabs (ba_x0 a b) * (e * e) <= K * 1) by (apply Rmult_le_compat; try lra; apply Rabs_pos). lra.
Qed.
Lemma lam_le j : (j < S n)%nat -> Rabs (lam j) * (e * e) <= K * (nn + 3).
Proof.
  intros Hj. destruct e_bounds as [E0 E1]. assert (Hee : 0 < e * e <= 1) by nra. pose proof nn_pos. destruct j as [|b].
  - destruct lam0_le. nra.
  - assert (Hb : (b < n)%nat) by lia. destruct (W (S b)) eqn:E.
    + pose proof (lf_grad b Hb) as Hgr. replace (lam (S b)) with (ba_x0 a b + (- x b + - (lam 0%nat * c b))) by lra.
      pose proof (Rabs_triang (ba_x0 a b) (- x b + - (lam 0%nat * c b))) as HT. pose proof (Rabs_triang (- x b) (- (lam 0%nat * c b))) as HT2.
      rewrite !Rabs_Ropp in HT2. pose proof (lam0c_le b Hb). destruct HD as (H1 & _). specialize (H1 b Hb). pose proof (lf_act b Hb E) as H2.
      apply Rle_trans with ((K + K + Rabs (lam 0%nat * c b)) * (e * e)); [apply Rmult_le_compat_r; lra|].
      rewrite Rmult_plus_distr_r. assert ((K + K) * (e * e) <= (K + K) * 1) by (apply Rmult_le_compat_l; lra). lra.
    + rewrite (so_supp _ _ _ _ _ HS _ E), Rabs_R0. nra.
Qed.

(** ** The direction of a constraint on that face *)
Section Direction.
Variables (i : nat) (z r : rvec).
Hypothesis Hi : (i < S n)%nat.
Hypothesis HJ : projected pb W i z r.

Lemma dz b : (b < n)%nat -> z b = cvec pb i b - (r 0%nat * c b + r (S b)).
Proof. intros Hb. apply (proj_z a Hsz W); auto. Qed.
Lemma dr0cz : r 0%nat * rsum n (fun b => c b * z b) = 0.
Proof.
  destruct (W 0%nat) eqn:E.
  - pose proof (pj_orth _ _ _ _ _ HJ 0%nat) as H. rewrite bx_ncb in H by auto. specialize (H ltac:(lia) E). rewrite dot_def in H.
    change (rsum n (fun b => c b * z b) = 0) in H. rewrite H. ring.
  - rewrite (pj_supp _ _ _ _ _ HJ _ E). ring.
Qed.
Lemma dzz : rdot n z z = rdot n (cvec pb i) z.
Proof.
  rewrite !dot_def. rewrite (sum_ext n _ (fun b => cvec pb i b * z b - r 0%nat * (c b * z b))).
  - rewrite sum_minus, sum_scal, dr0cz. rring.
  - intros b Hb. rewrite (dz b Hb) at 1. destruct (W (S b)) eqn:E.
    + rewrite (proj_z0 a Hsz W i z r b HJ Hb E). rring.
    + rewrite (pj_supp _ _ _ _ _ HJ _ E). rring.
Qed.
Lemma d_active : W i = true -> (forall b, (b < n)%nat -> z b = 0) /\ forall j, (j < S n)%nat -> r j = if (j =? i)%nat then 1 else 0.
Proof.
  intros E. assert (Hz : forall b, (b < n)%nat -> z b = 0).
  { apply (dot_self_zero n z). rewrite dzz. pose proof (pj_orth _ _ _ _ _ HJ i) as H. rewrite bx_ncb in H by auto. apply H; auto. }
  split; auto. intros j Hj. set (d := fun j => r j - if (j =? i)%nat then 1 else 0).
  assert (Hd : d j = 0).
  { apply (so_indep _ _ _ _ _ HS d).
    - intros k Hk. unfold d. rewrite (pj_supp _ _ _ _ _ HJ _ Hk). destruct (Nat.eqb_spec k i) as [->|]; [congruence|]. lra.
    - intros b Hb. pose proof (pj_eq _ _ _ _ _ HJ b Hb) as H. change (nv pb) with n in *. rewrite proj_hmul, (Hz b Hb) in H by auto.
      rewrite (sum_ext _ _ (fun j0 => r j0 * cvec pb j0 b - (if (j0 =? i)%nat then cvec pb j0 b else 0))).
      + rewrite sum_minus, (sum_delta (ncb pb) i (fun j0 => cvec pb j0 b)) by (rewrite bx_ncb; auto). lra.
      + intros k Hk. unfold d. destruct (k =? i)%nat; rring.
    - rewrite bx_ncb by auto. auto. }
  unfold d in Hd. lra.
Qed.
End Direction.
End OnFace.

Definition step_limit : R := K * (nn + 3) * 10 ^ 56.
Lemma limit_e : step_limit * (e * e * (e * e)) = K * (nn + 3).
Proof.
  unfold step_limit, e. rewrite Rmult_assoc. rewrite <- (Rmult_1_r (K * (nn + 3))) at 2. f_equal.
  replace (10 ^ 56) with (10 ^ 14 * 10 ^ 14 * (10 ^ 14 * 10 ^ 14)) by (rewrite <- !pow_add; reflexivity).
  assert (10 ^ 14 <> 0) by (apply pow_nonzero; lra). set (t := 10 ^ 14) in *. field. auto.
Qed.
Lemma below_limit v p : 0 < p -> v * (e * e) <= K * (nn + 3) -> e * e < p -> v < step_limit * p.
Proof.
  intros Hp Hv He. destruct e_bounds as [E0 E1]. assert (Hee : 0 < e * e) by nra. pose proof nn_pos.
  apply (Rmult_lt_reg_r (e * e)); auto. eapply Rle_lt_trans; [exact Hv|]. rewrite <- limit_e.
  replace (step_limit * p * (e * e)) with (step_limit * (e * e) * p) by ring. rewrite <- Rmult_assoc.
  apply Rmult_lt_compat_l; auto. pose proof limit_e as HL. apply Rmult_lt_0_compat; auto. unfold step_limit.
  apply Rmult_lt_0_compat; [nra|]. apply pow_lt. lra.
Qed.

Lemma box_steps_below : steps_below pb step_limit.
Proof.
  intros w W x lam i z r Hi HS HJ. rewrite bx_ncb in * by auto. change (nv pb) with n.
  destruct e_bounds as [E0 E1]. assert (Hee : 0 < e * e < 1) by nra. pose proof nn_pos as Hn. pose proof nrm_pos as Hm.
  assert (Hlam : forall j, (j < S n)%nat -> Rabs (lam j) * (e * e) <= K * (nn + 3)) by (intros j Hj; apply (lam_le w W x lam HS); auto).
  pose proof (dz W i z r HJ) as Hz. pose proof (pj_supp _ _ _ _ _ HJ) as P1.
  destruct (W i) eqn:EWi.
  { destruct (d_active w W x lam HS i z r Hi HJ EWi) as [Hz0 Hr]. split.
    - intros j Hj HWj Hrj. rewrite (Hr j Hj) in *. destruct (Nat.eqb_spec j i); [|lra]. rewrite Rabs_R1. apply below_limit; auto; lra.
    - intros b _ (b0 & Hb0 & Hn0). exfalso. apply Hn0. auto. }
  set (Q := rsum n (fun b => if W (S b) then 0 else c b * c b)).
  assert (Hz0 : forall b, (b < n)%nat -> W (S b) = true -> z b = 0) by (intros b Hb HW; apply (proj_z0 a Hsz W i z r); auto).
  assert (Hgap : (exists b, (b < n)%nat /\ z b <> 0) -> e * e < rdot n z z).
  { intros (b0 & Hb0 & Hn0). destruct (box_tolerance a Hsz HG W i z r) as [H|H]; auto; [rewrite bx_ncb; auto|exfalso; apply Hn0; auto|].
    change (nv pb) with n in H. fold e in H. pose proof (dot_self_nonneg n z) as Hnn. pose proof (sqrt_sqrt _ Hnn) as Hs. nra. }
  assert (Hbig : forall b, (b < n)%nat -> c b <> 0 -> e < Rabs (c b) /\ e * nrm < Rabs (c b)) by (intros b Hb Hc; apply (HG b Hb Hc)).
  destruct i as [|k].
  - (* the general constraint *)
    assert (Er0 : r 0%nat = 0) by (apply P1; auto). assert (El0 : lam 0%nat = 0) by (apply (so_supp _ _ _ _ _ HS); auto). split.
    + intros j Hj HWj Hrj. destruct j as [|b]; [congruence|]. assert (Hb : (b < n)%nat) by lia.
      assert (Er : r (S b) = c b) by (pose proof (Hz b Hb) as H; rewrite (Hz0 b Hb HWj), Er0, bx_c0 in H; lra).
      rewrite Er in *. destruct (Hbig b Hb Hrj) as [G1 G2]. apply below_limit; auto; nra.
    + intros b Hb Hne. assert (Ez : rdot n (cvec pb 0) z = Q).
      { rewrite dot_def. apply sum_ext. intros b0 Hb0. rewrite bx_c0. destruct (W (S b0)) eqn:E; [rewrite (Hz0 b0 Hb0 E); rring|].
        rewrite (Hz b0 Hb0), Er0, (P1 _ E), bx_c0. rring. }
      assert (HQ : 0 < Q).
      { rewrite <- Ez, <- (dzz W 0%nat z r Hi HJ). specialize (Hgap Hne). lra. }
      rewrite Ez. destruct (Q_cases W) as [[H _]|(Q1 & Q2 & Q3)]; [fold Q in H; lra|fold Q in Q1, Q2, Q3].
      assert (Hbl : ba_bl a = Some b) by (destruct Hb as [Hb|Hb]; [exact Hb|rewrite bx_cup0 in Hb; discriminate]).
      assert (HbK : Rabs b <= K) by (destruct HD as (_ & _ & H1); apply H1; auto).
      pose proof (cx_eq w W x lam HS) as Ex. rewrite El0, Rmult_0_l, Rminus_0_r in Ex. pose proof (cy_le w W x lam HS) as HC.
      change (rdot n (cvec pb 0) x) with (rdot n c x). rewrite Ex. match type of Ex with _ = ?t => set (cy := t) in * end.
      pose proof (Rabs_triang b (- cy)) as HT. rewrite Rabs_Ropp in HT.
      assert (HV : Rabs (b - cy) <= K * (nn * nrm + 1)) by (unfold Rminus; lra).
      apply Rle_lt_trans with (K * (nn * nrm + 1)); auto. apply (Rmult_lt_reg_r (e * e)); [lra|].
      replace (step_limit * Q * (e * e)) with (step_limit * (e * e) * Q) by ring.
      apply Rle_lt_trans with (K * (nn + 1) * Q).
      * replace (K * (nn * nrm + 1) * (e * e)) with (K * (nn * (e * e * nrm) + e * e)) by ring. rewrite (Rmult_assoc K (nn + 1) Q). apply Rmult_le_compat_l; [lra|].
        assert (nn * (e * e * nrm) <= nn * Q) by (apply Rmult_le_compat_l; auto). lra.
      * apply Rmult_lt_compat_r; auto. apply (Rmult_lt_reg_r (e * e)); [lra|]. rewrite (Rmult_assoc step_limit (e * e) (e * e)), limit_e.
        assert (K * (nn + 1) * (e * e) <= K * (nn + 1) * 1) by (apply Rmult_le_compat_l; nra). lra.
  - assert (Hk : (k < n)%nat) by lia. split.
    + intros j Hj HWj Hrj. destruct (W 0%nat) eqn:EW0.
      2:{ exfalso. apply Hrj. destruct j as [|b]; [congruence|]. assert (Hb : (b < n)%nat) by lia.
          pose proof (Hz b Hb) as H. rewrite (Hz0 b Hb HWj), (P1 _ EW0), bx_cS in H. destruct (Nat.eqb_spec b k) as [->|]; [congruence|lra]. }
      destruct (Q_pos w W x lam HS EW0) as (Q1 & Q2 & Q3). fold Q in Q1, Q2, Q3.
      assert (EQ : r 0%nat * Q = c k).
      { pose proof (pj_orth _ _ _ _ _ HJ 0%nat) as Ho. rewrite bx_ncb in Ho by auto. specialize (Ho ltac:(lia) EW0). rewrite dot_def in Ho.
        change (rsum n (fun b => c b * z b) = 0) in Ho. unfold Q.
        rewrite (sum_ext n _ (fun b => (if (b =? k)%nat then c k else 0) - r 0%nat * (if W (S b) then 0 else c b * c b))) in Ho.
        - rewrite sum_minus, sum_scal, (sum_delta n k (fun _ => c k)) in Ho by auto. lra.
        - intros b Hb. destruct (W (S b)) eqn:E.
          + rewrite (Hz0 b Hb E). destruct (Nat.eqb_spec b k) as [->|]; [congruence|]. ring.
          + rewrite (Hz b Hb), bx_cS, (P1 _ E). destruct (Nat.eqb_spec b k) as [->|]; ring. }
      assert (HQ : 0 < Q) by nra. assert (HQn : Q <= nrm * nrm) by apply (Q_le W).
      assert (EQa : Rabs (r 0%nat) * Q = Rabs (c k)) by (rewrite <- EQ, Rabs_mult, (Rabs_pos_eq Q) by lra; auto).
      assert (Hck : c k <> 0).
      { intros E. rewrite E in EQ. assert (r 0%nat = 0) by (apply Rmult_integral in EQ as [|]; auto; lra).
        apply Hrj. destruct j as [|b]; auto. assert (Hb : (b < n)%nat) by lia.
        pose proof (Hz b Hb) as H1. rewrite (Hz0 b Hb HWj), H, bx_cS in H1. destruct (Nat.eqb_spec b k) as [->|]; [congruence|lra]. }
      destruct (Hbig k Hk Hck) as [G1 G2]. destruct j as [|b].
      * pose proof (lam0_Q w W x lam HS) as HL. fold Q in HL. apply (Rmult_lt_reg_r Q); auto. rewrite Rmult_assoc, EQa.
        eapply Rle_lt_trans; [exact HL|]. apply (Rmult_lt_reg_r (e * e)); [lra|]. replace (step_limit * Rabs (c k) * (e * e)) with (step_limit * (e * e) * Rabs (c k)) by ring.
        apply Rle_lt_trans with (K * (nn + 1) * Rabs (c k)).
        -- replace (K * (nn * nrm + 1) * (e * e)) with (K * (nn * (e * nrm) * e + e * e)) by ring. rewrite (Rmult_assoc K (nn + 1) (Rabs (c k))). apply Rmult_le_compat_l; [lra|].
           assert (nn * (e * nrm) * e <= nn * Rabs (c k) * 1).
           { apply Rmult_le_compat; try lra; [apply Rmult_le_pos; nra|]. apply Rmult_le_compat_l; lra. }
           assert (e * e <= Rabs (c k)) by nra. lra.
        -- apply Rmult_lt_compat_r; [lra|]. apply (Rmult_lt_reg_r (e * e)); [lra|]. rewrite (Rmult_assoc step_limit (e * e) (e * e)), limit_e.
           assert (K * (nn + 1) * (e * e) <= K * (nn + 1) * 1) by (apply Rmult_le_compat_l; nra). lra.
      * assert (Hb : (b < n)%nat) by lia.
        assert (Er : r (S b) = - (r 0%nat * c b)).
        { pose proof (Hz b Hb) as H1. rewrite (Hz0 b Hb HWj), bx_cS in H1. destruct (Nat.eqb_spec b k) as [->|]; [congruence|lra]. }
        assert (Hcb : c b <> 0) by (intros E; apply Hrj; rewrite Er, E; ring). destruct (Hbig b Hb Hcb) as [G3 G4].
        rewrite Er, Rabs_Ropp, Rabs_mult. set (p := Rabs (r 0%nat) * Rabs (c b)).
        assert (Hp : e * e < p).
        { apply (Rmult_lt_reg_r Q); auto. replace (p * Q) with (Rabs (c k) * Rabs (c b)) by (unfold p; rewrite <- EQa; ring).
          apply Rle_lt_trans with ((e * nrm) * (e * nrm)); [replace (e * nrm * (e * nrm)) with (e * e * (nrm * nrm)) by ring; apply Rmult_le_compat_l; lra|].
          apply Rmult_le_0_lt_compat; auto; apply Rmult_le_pos; lra. }
        apply below_limit; auto. lra.
    + intros b Hb Hne. assert (Ez : rdot n (cvec pb (S k)) z = z k) by (apply bx_dotS; auto). pose proof (Hgap Hne) as Hg.
      rewrite (dzz W (S k) z r Hi HJ), Ez in Hg. rewrite Ez, bx_dotS by auto. apply below_limit; auto; [lra|].
      assert (HbK : Rabs b <= K). { destruct HD as (_ & H & _). rewrite bx_cloS, bx_cupS in Hb. apply (H k); auto. }
      pose proof (x_le w W x lam HS k Hk) as Hx. pose proof (Rabs_triang b (- x k)) as HT. rewrite Rabs_Ropp in HT. fold (b - x k) in HT.
      apply Rle_trans with ((Rabs b + Rabs (x k)) * (e * e)); [apply Rmult_le_compat_r; lra|]. rewrite Rmult_plus_distr_r.
      assert (Rabs b * (e * e) <= K * 1) by (apply Rmult_le_compat; try lra; apply Rabs_pos). lra.
Qed.
End BoxLimit.

(** For the box problem, the tolerance test of the solver is exact as soon as
    the non-zero coefficients of c are neither tiny nor tiny compared to ||c||. *)
From Coq Require Import List Arith ZArith Lia Bool Reals Lra Psatz.
From Verif Require Import Base ActiveSet ActiveSetProofs Num Solver LinAlg QRUpdate QPSpec GITotal StructGProofs Box BoxProofs.
Import ListNotations.
Local Open Scope R_scope.

Definition box_gap (a : rbox) : Prop := forall k, (k < ba_n a)%nat -> ba_c a k <> 0 ->
  / 10 ^ 14 < Rabs (ba_c a k) /\ / 10 ^ 14 * sqrt (rdot (ba_n a) (ba_c a) (ba_c a)) < Rabs (ba_c a k).

Lemma entry_sq n (z : rvec) k : (k < n)%nat -> z k * z k <= rdot n z z.
Proof.
  intros Hk. rewrite dot_def, (sum_extract n k) by auto.
  assert (0 <= rsum n (fun i => if (i =? k)%nat then 0 else z i * z i)).
  { apply sum_nonneg. intros i Hi. destruct (i =? k)%nat; [lra|]. nra. }
  lra.
Qed.
Lemma norm_gt n (z : rvec) e : 0 <= e -> e * e < rdot n z z -> e < sqrt (rdot n z z).
Proof. intros He H. rewrite <- (sqrt_square e) by auto. apply sqrt_lt_1; nra. Qed.
Lemma norm_entry n (z : rvec) k e : (k < n)%nat -> 0 <= e -> e < Rabs (z k) -> e < sqrt (rdot n z z).
Proof.
  intros Hk He H. apply norm_gt; auto. pose proof (entry_sq n z k Hk). pose proof (Rabs_pos (z k)).
  assert (Rabs (z k) * Rabs (z k) = z k * z k) by (rewrite <- Rabs_mult; apply Rabs_pos_eq; nra). nra.
Qed.
Lemma all_zero_dec n (z : rvec) : (forall a, (a < n)%nat -> z a = 0) \/ exists a, (a < n)%nat /\ z a <> 0.
Proof.
  induction n as [|n [IH|(a & Ha & Hz)]].
  - left. intros; lia.
  - destruct (Req_dec (z n) 0) as [E|E].
    + left. intros a Ha. destruct (Nat.eq_dec a n) as [->|]; auto. apply IH. lia.
    + right. exists n. auto.
  - right. exists a. auto.
Qed.
Lemma eps_pos : 0 < / 10 ^ 14 /\ / 10 ^ 14 < 1.
Proof.
  assert (1 < 10 ^ 14) by (apply Rlt_pow_R1; [lra|lia]). split; [apply Rinv_0_lt_compat; lra|].
  rewrite <- Rinv_1. apply Rinv_lt_contravar; lra.
Qed.

Lemma box_tolerance a : box_sizes a = true -> box_gap a -> tolerance_gap (proj_pb a).
Proof.
  intros Hsz HG W i z r Hi [P1 P2 P3]. unfold box_sizes in Hsz. rewrite !andb_true_iff, !Nat.eqb_eq in Hsz. destruct Hsz as ((Z1 & Z2) & Z3).
  assert (Encb : ncb (proj_pb a) = S (ba_n a)) by (unfold ncb, nc, nb; simpl; lia). rewrite Encb in *. clear Encb.
  change (nv (proj_pb a)) with (ba_n a) in *. set (n := ba_n a) in *. set (c := ba_c a) in *. destruct eps_pos as [He0 He1].
  set (e := / 10 ^ 14) in *.
  assert (Hc0 : forall b, cvec (proj_pb a) 0 b = c b) by reflexivity.
  assert (HcS : forall j b, cvec (proj_pb a) (S j) b = if (b =? j)%nat then 1 else 0).
  { intros j b. unfold cvec. simpl. rewrite Nat.sub_0_r. reflexivity. }
  assert (Hz : forall b, (b < n)%nat -> z b = cvec (proj_pb a) i b - (r 0%nat * c b + r (S b))).
  { intros b Hb. rewrite <- (proj_hmul a z b Hb). rewrite P2 by auto. f_equal.
    change (S n) with (1 + n)%nat. rewrite sum_app, sum_S, sum_0, Rplus_0_l. f_equal.
    rewrite (sum_one n b); auto.
    - simpl (1 + b)%nat. rewrite HcS, Nat.eqb_refl. ring.
    - intros k Hk Hne. simpl (1 + k)%nat. rewrite HcS. destruct (Nat.eqb_spec b k); [lia|]. ring. }
  assert (Ho : forall b, (b < n)%nat -> W (S b) = true -> z b = 0).
  { intros b Hb HW. specialize (P3 (S b) ltac:(lia) HW). rewrite (dot_ext n _ (fun a0 => if (a0 =? b)%nat then 1 else 0) z z) in P3.
    - rewrite dot_delta in P3; auto.
    - intros k Hk. apply HcS.
    - auto. }
  destruct (all_zero_dec n z) as [H0|(b0 & Hb0 & Hz0)]; [left; auto|right].
  assert (HW0 : W (S b0) = false) by (destruct (W (S b0)) eqn:E; auto; exfalso; apply Hz0; auto).
  destruct (W 0%nat) eqn:E0.
  2:{ assert (E : z b0 = cvec (proj_pb a) i b0).
      { rewrite Hz by auto. rewrite (P1 0%nat E0), (P1 _ HW0). ring. }
      apply (norm_entry n z b0); auto; [lra|]. rewrite E in *. destruct i as [|j].
      - rewrite Hc0 in *. apply (HG b0); auto.
      - rewrite HcS in *. destruct (b0 =? j)%nat; [rewrite Rabs_R1; lra|contradiction]. }
  assert (Hoc : rsum n (fun b => c b * z b) = 0).
  { rewrite <- dot_def. rewrite <- (P3 0%nat ltac:(lia) E0). reflexivity. }
  assert (Hzz : rdot n z z = rsum n (fun b => cvec (proj_pb a) i b * z b)).
  { rewrite dot_def. rewrite (sum_ext n _ (fun b => cvec (proj_pb a) i b * z b - r 0%nat * (c b * z b))).
    - rewrite sum_minus, sum_scal, Hoc. ring.
    - intros b Hb. rewrite (Hz b Hb) at 1. destruct (W (S b)) eqn:EW.
      + rewrite (Ho b Hb EW). ring.
      + rewrite (P1 _ EW). ring. }
  pose proof (dot_self_nonneg n z) as Hnn.
  assert (Hpos : 0 < rdot n z z).
  { destruct Hnn as [|Hnn]; auto. exfalso. apply Hz0. apply (dot_self_zero n z); auto. }
  destruct i as [|k].
  { exfalso. rewrite (sum_ext n _ (fun b => c b * z b)) in Hzz by (intros; rewrite Hc0; auto). lra. }
  assert (Hk : (k < n)%nat) by lia.
  assert (Ezk : rdot n z z = z k).
  { rewrite Hzz. rewrite (sum_one n k); auto; [rewrite HcS, Nat.eqb_refl; ring|].
    intros b Hb Hne. rewrite HcS. destruct (Nat.eqb_spec b k); [lia|]. ring. }
  assert (HWk : W (S k) = false) by (destruct (W (S k)) eqn:E; auto; exfalso; rewrite (Ho k Hk E) in Ezk; lra).
  assert (Ek : z k = 1 - r 0%nat * c k).
  { rewrite Hz by auto. rewrite HcS, Nat.eqb_refl, (P1 _ HWk). ring. }
  set (Q := rsum n (fun b => if (b =? k)%nat then 0 else if W (S b) then 0 else c b * c b)).
  assert (HQ : c k * z k = r 0%nat * Q).
  { rewrite (sum_extract n k) in Hoc by auto.
    rewrite (sum_ext n _ (fun b => - r 0%nat * (if (b =? k)%nat then 0 else if W (S b) then 0 else c b * c b))) in Hoc.
    - rewrite sum_scal in Hoc. fold Q in Hoc. lra.
    - intros b Hb. destruct (Nat.eqb_spec b k) as [->|Hne]; [ring|]. destruct (W (S b)) eqn:EW.
      + rewrite (Ho b Hb EW). ring.
      + rewrite (Hz b Hb). rewrite HcS. destruct (Nat.eqb_spec b k); [lia|]. rewrite (P1 _ EW). ring. }
  assert (HQ2 : z k * (Q + c k * c k) = Q).
  { replace (z k * (Q + c k * c k)) with (z k * Q + c k * (c k * z k)) by ring. rewrite HQ, Ek. ring. }
  assert (HQnn : forall b, (b < n)%nat -> 0 <= (if (b =? k)%nat then 0 else if W (S b) then 0 else c b * c b)).
  { intros b Hb. destruct (b =? k)%nat; [lra|]. destruct (W (S b)); [lra|]. nra. }
  assert (HQle : Q + c k * c k <= rdot n c c).
  { rewrite dot_def, (sum_extract n k) by auto. assert (Q <= rsum n (fun i => if (i =? k)%nat then 0 else c i * c i)); [|lra].
    apply sum_le. intros b Hb. destruct (b =? k)%nat; [lra|]. destruct (W (S b)); [nra|lra]. }
  destruct (all_zero_dec n (fun b => if (b =? k)%nat then 0 else if W (S b) then 0 else c b * c b)) as [HQ0|(b1 & Hb1 & Hn1)].
  - assert (EQ : Q = 0) by (unfold Q; apply sum_zero; auto).
    assert (c k * z k = 0) by (rewrite HQ, EQ; ring). assert (c k = 0) by nra. assert (z k = 1) by (rewrite Ek; nra).
    apply (norm_entry n z k); auto; [lra|]. rewrite H1, Rabs_R1. lra.
  - simpl in Hn1. destruct (Nat.eqb_spec b1 k) as [|Hne1]; [lra|]. destruct (W (S b1)) eqn:EW1; [lra|].
    assert (Hc1 : c b1 <> 0) by (intros E; apply Hn1; rewrite E; ring).
    destruct (HG b1 Hb1 Hc1) as [_ HG2]. fold c n e in HG2.
    assert (HQ1 : c b1 * c b1 <= Q).
    { unfold Q. rewrite (sum_extract n b1) by auto.
      destruct (Nat.eqb_spec b1 k); [lia|]. rewrite EW1.
      match goal with |- _ <= _ + ?t => assert (0 <= t); [|lra] end.
      apply sum_nonneg. intros b Hb. destruct (b =? b1)%nat; [lra|]. apply HQnn. auto. }
    pose proof (dot_self_nonneg n c) as Hcc. set (N2 := rdot n c c) in *.
    assert (Hsq : sqrt N2 * sqrt N2 = N2) by (apply sqrt_sqrt; auto).
    pose proof (sqrt_pos N2) as Hsp. pose proof (Rabs_pos (c b1)) as Hap.
    assert (Habs : Rabs (c b1) * Rabs (c b1) = c b1 * c b1) by (rewrite <- Rabs_mult; apply Rabs_pos_eq; nra).
    assert (Hlt : e * e * N2 < c b1 * c b1).
    { rewrite <- Habs, <- Hsq. replace (e * e * (sqrt N2 * sqrt N2)) with ((e * sqrt N2) * (e * sqrt N2)) by ring.
      apply Rmult_le_0_lt_compat; auto; nra. }
    apply norm_gt; [lra|]. rewrite Ezk.
    assert (Hq : 0 < Q) by (assert (0 < c b1 * c b1) by nra; lra).
    assert (Hzk : 0 < z k) by lra.
    apply (Rmult_lt_reg_r (Q + c k * c k)); [nra|]. rewrite HQ2.
    apply Rle_lt_trans with (e * e * N2); [|lra]. apply Rmult_le_compat_l; [nra|auto].
Qed.

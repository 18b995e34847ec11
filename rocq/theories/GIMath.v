(** Linear-algebra facts behind one Goldfarb-Idnani step. *)
From Coq Require Import List Arith ZArith Lia Bool Reals Lra.
From Verif Require Import Base Num Solver LinAlg QRUpdate.
Import ListNotations.
Local Open Scope R_scope.

(** [v = (J J^T) w] through the columns of J *)
Lemma gram_apply n (J : rmat) (w : rvec) a :
  rsum n (fun k => J a k * tdot n J k w) = rsum n (fun b => gram n J a b * w b).
Proof.
  unfold tdot, gram.
  rewrite (sum_ext n _ (fun k => rsum n (fun b => J a k * (J b k * w b)))).
  2:{ intros. rewrite sum_scal. auto. }
  rewrite sum_swap. apply sum_ext. intros b Hb. rewrite <- sum_scal_r. apply sum_ext. intros. rring.
Qed.

Section Step.
Variables (n q : nat) (J R : rmat) (N : nat -> rvec) (np d z r : rvec).
Hypothesis Hqr : qr n q J R N.
Hypothesis Hd : forall j, (j < n)%nat -> d j = tdot n J j np.
Hypothesis Hz : forall i, (i < n)%nat -> z i = rsum (n - q) (fun t => J i (q + t)%nat * d (q + t)%nat).
Hypothesis Hr : forall i, (i < q)%nat -> rsum q (fun k => upper R i k * r k) = d i.

Let Hq : (q <= n)%nat := qr_le _ _ _ _ _ Hqr.

Lemma dot_z (w : rvec) : rdot n w z = rsum (n - q) (fun t => tdot n J (q + t) w * d (q + t)%nat).
Proof.
  rewrite dot_def.
  rewrite (sum_ext n _ (fun i => rsum (n - q) (fun t => w i * (J i (q + t)%nat * d (q + t)%nat)))).
  2:{ intros i Hi. rewrite Hz by auto. rewrite sum_scal. auto. }
  rewrite sum_swap. apply sum_ext. intros t Ht. unfold tdot.
  rewrite <- sum_scal_r. apply sum_ext. intros; rring.
Qed.

Lemma step_orth k : (k < q)%nat -> rdot n (N k) z = 0.
Proof.
  intros Hk. rewrite dot_z. apply sum_zero. intros t Ht.
  rewrite (qr_zero _ _ _ _ _ Hqr) by lia. lra.
Qed.

Lemma step_nz : rdot n np z = rsum (n - q) (fun t => d (q + t)%nat * d (q + t)%nat).
Proof. rewrite dot_z. apply sum_ext. intros t Ht. rewrite <- Hd by lia. auto. Qed.

Lemma step_nz_nonneg : 0 <= rdot n np z.
Proof. rewrite step_nz. apply sum_nonneg. intros; nra. Qed.

Lemma step_nz_pos : (exists i, (i < n)%nat /\ z i <> 0) -> 0 < rdot n np z.
Proof.
  intros (i & Hi & Hne). destruct (Rle_lt_or_eq_dec _ _ step_nz_nonneg) as [|E]; auto.
  exfalso. apply Hne. rewrite Hz by auto. apply sum_zero. intros t Ht.
  symmetry in E. rewrite step_nz in E.
  assert (d (q + t)%nat * d (q + t)%nat = 0); [|nra].
  apply (sum_nonneg_zero (n - q) (fun t => d (q + t)%nat * d (q + t)%nat)); auto. intros; nra.
Qed.

Lemma step_d2 : 0 < rdot n np z -> exists j, (q <= j)%nat /\ (j < n)%nat /\ d j <> 0.
Proof.
  intros H. rewrite step_nz in H.
  assert (D : forall m f, 0 < rsum m f -> exists t, (t < m)%nat /\ f t <> 0).
  { induction m as [|m IH]; intros f Hf; [rewrite sum_0 in Hf; lra|].
    rewrite sum_S in Hf. destruct (Req_EM_T (f m) 0) as [E|E].
    - destruct (IH f) as (t & Ht & Hft); [lra|]. exists t. auto.
    - exists m. auto. }
  destruct (D _ _ H) as (t & Ht & Hft). exists (q + t)%nat. repeat split; try lia. nra.
Qed.

(** z = (J J^T) (np - N r) *)
Lemma step_z_range a : (a < n)%nat ->
  z a = rsum n (fun b => gram n J a b * (np b - rsum q (fun k => r k * N k b))).
Proof.
  intros Ha. rewrite Hz by auto.
  assert (E1 : rsum n (fun b => gram n J a b * np b)
      = rsum q (fun j => J a j * d j) + rsum (n - q) (fun t => J a (q + t)%nat * d (q + t)%nat)).
  { rewrite <- gram_apply. rewrite (sum_ext n _ (fun j => J a j * d j)) by (intros; rewrite Hd by auto; auto).
    replace n with (q + (n - q))%nat at 1 by lia. apply sum_app. }
  assert (E2 : rsum n (fun b => gram n J a b * rsum q (fun k => r k * N k b)) = rsum q (fun j => J a j * d j)).
  { rewrite (sum_ext n _ (fun b => rsum q (fun k => r k * (gram n J a b * N k b)))).
    2:{ intros b Hb. rewrite <- sum_scal. apply sum_ext. intros; rring. }
    rewrite sum_swap.
    rewrite (sum_ext q _ (fun k => rsum q (fun j => J a j * (upper R j k * r k)))).
    - rewrite sum_swap. apply sum_ext. intros j Hj. rewrite sum_scal. rewrite Hr by auto. auto.
    - intros k Hk. rewrite sum_scal, <- gram_apply.
      replace n with (q + (n - q))%nat by lia. rewrite sum_app.
      replace (q + (n - q))%nat with n by lia.
      rewrite (sum_zero (n - q)) by (intros; rewrite (qr_zero _ _ _ _ _ Hqr) by lia; lra).
      rewrite Rplus_0_r, <- sum_scal. apply sum_ext. intros j Hj. unfold upper.
      destruct (Nat.leb_spec j k).
      + rewrite (qr_up _ _ _ _ _ Hqr) by lia. rring.
      + rewrite (qr_zero _ _ _ _ _ Hqr) by lia. rring. }
  rewrite (sum_ext n _ (fun b => gram n J a b * np b - gram n J a b * rsum q (fun k => r k * N k b))) by (intros; rring).
  rewrite sum_minus, E1, E2. rring.
Qed.

Variable G : rmat.
Hypothesis HG : forall a c, (a < n)%nat -> (c < n)%nat ->
  rsum n (fun b => G a b * gram n J b c) = if (a =? c)%nat then 1 else 0.

(** G z = np - N r *)
Lemma step_Gz a : (a < n)%nat -> rsum n (fun b => G a b * z b) = np a - rsum q (fun k => r k * N k a).
Proof.
  intros Ha.
  rewrite (sum_ext n _ (fun b => rsum n (fun c => G a b * gram n J b c * (np c - rsum q (fun k => r k * N k c))))).
  2:{ intros b Hb. rewrite step_z_range by auto. rewrite <- sum_scal. apply sum_ext. intros; rring. }
  rewrite sum_swap.
  rewrite (sum_ext n _ (fun c => if (c =? a)%nat then np c - rsum q (fun k => r k * N k c) else 0)).
  - apply (sum_delta n a (fun c => np c - rsum q (fun k => r k * N k c)) Ha).
  - intros c Hc. rewrite sum_scal_r, HG by auto. rewrite Nat.eqb_sym. destruct (c =? a)%nat; rring.
Qed.

(** If z = 0 then the new normal is a combination of the active ones *)
Lemma step_dep : (forall i, (i < n)%nat -> z i = 0) -> forall a, (a < n)%nat -> np a = rsum q (fun k => r k * N k a).
Proof.
  intros H a Ha. pose proof (step_Gz a Ha) as E. rewrite sum_zero in E; [lra|].
  intros b Hb. rewrite H by auto. lra.
Qed.
End Step.

(** ** The starting point: J = L^-T, x = -G^-1 a *)
Section Start.
Variables (n : nat) (G0 L : rmat).
Hypothesis HL : llt_inv n n G0 L.
Let Jm : rmat := fun i j => @bwd Rops n n (tr L) (fun k => idm Rops k j) i.

Lemma diag_nz i : (i < n)%nat -> L i i <> 0.
Proof. intros Hi. pose proof (llt_diag_pos _ _ _ HL i Hi). lra. Qed.

(** L^T J = I *)
Lemma start_LtJ i j : (i < n)%nat -> rsum n (fun k => lower L k i * Jm k j) = if (i =? j)%nat then 1 else 0.
Proof.
  intros Hi. rewrite (sum_ext n _ (fun k => upper (tr L) i k * Jm k j)) by (intros; rewrite tr_lower_upper; auto).
  unfold Jm. rewrite (bwd_correct n (tr L) (fun k => idm Rops k j)); auto.
  intros k Hk. unfold tr. apply diag_nz; auto.
Qed.

(** J L^T = I *)
Lemma start_JLt i j : (i < n)%nat -> (j < n)%nat -> rsum n (fun k => Jm i k * lower L j k) = if (i =? j)%nat then 1 else 0.
Proof.
  intros Hi Hj.
  apply Rminus_diag_uniq.
  apply (upper_inj n (tr L) (fun i => rsum n (fun k => Jm i k * lower L j k) - (if (i =? j)%nat then 1 else 0))); auto.
  - intros k Hk. unfold tr. apply diag_nz; auto.
  - intros a Ha.
    rewrite (sum_ext n _ (fun b => rsum n (fun k => lower L b a * Jm b k * lower L j k)
               - (if (b =? j)%nat then upper (tr L) a b else 0))).
    + rewrite sum_minus, sum_swap. rewrite (sum_delta n j (fun b => upper (tr L) a b)) by auto.
      rewrite (sum_ext n _ (fun k => if (k =? a)%nat then lower L j k else 0)).
      * rewrite (sum_delta n a (fun k => lower L j k)) by auto. rewrite tr_lower_upper. lra.
      * intros k Hk. rewrite sum_scal_r, start_LtJ by auto. rewrite Nat.eqb_sym.
        destruct (k =? a)%nat; lra.
    + intros b Hb. rewrite <- tr_lower_upper.
      rewrite (sum_ext n (fun k => lower L b a * Jm b k * lower L j k)
         (fun k => lower L b a * (Jm b k * lower L j k))) by (intros; rring).
      rewrite sum_scal. destruct (b =? j)%nat; rring.
Qed.

(** G (J J^T) = I *)
Lemma start_G a c : (a < n)%nat -> (c < n)%nat ->
  rsum n (fun b => gsym G0 a b * gram n Jm b c) = if (a =? c)%nat then 1 else 0.
Proof.
  intros Ha Hc.
  rewrite (sum_ext n _ (fun b => rsum n (fun t => lower L a t * (lower L b t * gram n Jm b c)))).
  2:{ intros b Hb. rewrite <- (llt_inv_full n G0 L) by auto. rewrite <- sum_scal_r. apply sum_ext; intros; rring. }
  rewrite sum_swap.
  rewrite (sum_ext n _ (fun t => Jm c t * lower L a t)).
  - rewrite start_JLt by auto. rewrite Nat.eqb_sym. auto.
  - intros t Ht. rewrite sum_scal. rewrite (Rmult_comm (Jm c t)). f_equal.
    unfold gram.
    rewrite (sum_ext n _ (fun b => rsum n (fun k => lower L b t * Jm b k * Jm c k))).
    2:{ intros b Hb. rewrite <- sum_scal. apply sum_ext; intros; rring. }
    rewrite sum_swap.
    rewrite (sum_ext n _ (fun k => if (k =? t)%nat then Jm c k else 0)).
    + apply (sum_delta n t (fun k => Jm c k)); auto.
    + intros k Hk. rewrite sum_scal_r, start_LtJ by auto. rewrite Nat.eqb_sym. destruct (k =? t)%nat; lra.
Qed.

Variable a0 : rvec.
Let y := @fwd Rops n L a0.
Let w := @bwd Rops n n (tr L) y.

(** G w = a *)
Lemma start_Gw i : (i < n)%nat -> rsum n (fun j => gsym G0 i j * w j) = a0 i.
Proof.
  intros Hi.
  rewrite (sum_ext n _ (fun j => rsum n (fun t => lower L i t * (lower L j t * w j)))).
  2:{ intros j Hj. rewrite <- (llt_inv_full n G0 L) by auto. rewrite <- sum_scal_r. apply sum_ext; intros; rring. }
  rewrite sum_swap.
  rewrite (sum_ext n _ (fun t => lower L i t * y t)).
  - unfold y. apply fwd_correct; auto. intros; apply diag_nz; auto.
  - intros t Ht. rewrite sum_scal. f_equal.
    rewrite (sum_ext n _ (fun j => upper (tr L) t j * w j)) by (intros; rewrite tr_lower_upper; auto).
    unfold w. apply bwd_correct; auto. intros k Hk. unfold tr. apply diag_nz; auto.
Qed.
End Start.

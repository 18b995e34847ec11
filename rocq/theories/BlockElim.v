(** Elimination of one diagonal block in a block Cholesky factorisation (reals). *)
From Coq Require Import List Arith ZArith Lia Bool Reals Lra.
From Verif Require Import Base Num LinAlg.
Import ListNotations.
Local Open Scope R_scope.

(** lower half of [D K^T; K E] *)
Definition blk2 (n : nat) (D K E : rmat) : rmat :=
  fun i j => if (i <? n)%nat then (if (j <? n)%nat then D i j else 0) else if (j <? n)%nat then K (i - n)%nat j else E (i - n)%nat (j - n)%nat.

Lemma blk2_00 n D K E i j : (i < n)%nat -> (j < n)%nat -> blk2 n D K E i j = D i j.
Proof. intros. unfold blk2. rewrite !(proj2 (Nat.ltb_lt _ _)) by auto. reflexivity. Qed.
Lemma blk2_10 n D K E i j : (j < n)%nat -> blk2 n D K E (n + i)%nat j = K i j.
Proof. intros. unfold blk2. rewrite (proj2 (Nat.ltb_ge _ _)) by lia. rewrite (proj2 (Nat.ltb_lt _ _)) by auto. f_equal. lia. Qed.
Lemma blk2_11 n D K E i j : blk2 n D K E (n + i)%nat (n + j)%nat = E i j.
Proof. unfold blk2. rewrite !(proj2 (Nat.ltb_ge _ _)) by lia. f_equal; lia. Qed.
Lemma blk2_01 n D K E i j : (i < n)%nat -> blk2 n D K E i (n + j)%nat = 0.
Proof. intros. unfold blk2. rewrite (proj2 (Nat.ltb_lt _ _)) by auto. rewrite (proj2 (Nat.ltb_ge _ _)) by lia. reflexivity. Qed.

Lemma gsym2_00 n D K E i j : (i < n)%nat -> (j < n)%nat -> gsym (blk2 n D K E) i j = gsym D i j.
Proof. intros. unfold gsym. rewrite !blk2_00 by auto. reflexivity. Qed.
Lemma gsym2_10 n D K E i j : (j < n)%nat -> gsym (blk2 n D K E) (n + i) j = K i j.
Proof. intros. unfold gsym. rewrite (proj2 (Nat.leb_le _ _)) by lia. apply blk2_10. auto. Qed.
Lemma gsym2_01 n D K E i j : (j < n)%nat -> gsym (blk2 n D K E) j (n + i) = K i j.
Proof. intros. rewrite gsym_sym. apply gsym2_10. auto. Qed.
Lemma gsym2_11 n D K E i j : gsym (blk2 n D K E) (n + i) (n + j) = gsym E i j.
Proof.
  unfold gsym. rewrite !blk2_11. destruct (Nat.leb_spec j i), (Nat.leb_spec (n + j) (n + i)); auto; lia.
Qed.
Lemma lower2_00 n D K E i j : (i < n)%nat -> (j < n)%nat -> lower (blk2 n D K E) i j = lower D i j.
Proof. intros. unfold lower. rewrite blk2_00 by auto. reflexivity. Qed.
Lemma lower2_10 n D K E i j : (j < n)%nat -> lower (blk2 n D K E) (n + i) j = K i j.
Proof. intros. unfold lower. rewrite (proj2 (Nat.leb_le _ _)) by lia. apply blk2_10. auto. Qed.
Lemma lower2_01 n D K E i j : (i < n)%nat -> lower (blk2 n D K E) i (n + j) = 0.
Proof. intros. unfold lower. rewrite (proj2 (Nat.leb_gt _ _)) by lia. reflexivity. Qed.
Lemma lower2_11 n D K E i j : lower (blk2 n D K E) (n + i) (n + j) = lower E i j.
Proof. unfold lower. rewrite blk2_11. destruct (Nat.leb_spec j i), (Nat.leb_spec (n + j) (n + i)); auto; lia. Qed.

Lemma quad_ext n G G' v : (forall i j, (i < n)%nat -> (j < n)%nat -> G i j = G' i j) -> quad n G v = quad n G' v.
Proof. intros H. apply sum_ext. intros i Hi. f_equal. apply sum_ext. intros j Hj. rewrite H by auto. reflexivity. Qed.
Lemma posdef_ext n G G' : (forall i j, (i < n)%nat -> (j < n)%nat -> G i j = G' i j) -> posdef n G -> posdef n G'.
Proof. intros H HP v Hv. rewrite <- (quad_ext n G G') by auto. apply HP. auto. Qed.
Lemma quad_ext_v n G v w : (forall i, (i < n)%nat -> v i = w i) -> quad n G v = quad n G w.
Proof. intros H. apply sum_ext. intros i Hi. rewrite H by auto. f_equal. apply sum_ext. intros j Hj. rewrite H by auto. reflexivity. Qed.

Section Elim.
Variables (n p : nat) (D K E Lo B E' : rmat).
Hypothesis HL : llt_inv n n D Lo.
Hypothesis HB : forall i j, (i < p)%nat -> (j < n)%nat -> rsum n (fun t => lower Lo j t * B i t) = K i j.
Hypothesis HE : forall i j, (i < p)%nat -> (j < p)%nat -> gsym E i j = gsym E' i j + rsum n (fun k => B i k * B j k).

(** quadratic form of the assembled matrix *)
Lemma elim_quad v : quad (n + p) (gsym (blk2 n D K E)) v =
  rsum n (fun t => (rsum n (fun i => lower Lo i t * v i) + rsum p (fun i => B i t * v (n + i)%nat)) * (rsum n (fun i => lower Lo i t * v i) + rsum p (fun i => B i t * v (n + i)%nat)))
  + quad p (gsym E') (fun i => v (n + i)%nat).
Proof.
  unfold quad at 1. rewrite sum_app.
  set (y := fun i => v (n + i)%nat).
  assert (H1 : rsum n (fun i => v i * rsum (n + p) (fun j => gsym (blk2 n D K E) i j * v j)) = quad n (gsym D) v + rsum n (fun i => v i * rsum p (fun j => K j i * y j))).
  { unfold quad. rewrite <- sum_plus. apply sum_ext. intros i Hi. rewrite sum_app.
    rewrite (sum_ext n _ (fun j => gsym D i j * v j)) by (intros; rewrite gsym2_00 by auto; reflexivity).
    rewrite (sum_ext p _ (fun j => K j i * y j)) by (intros; rewrite gsym2_01 by auto; reflexivity). lra. }
  assert (H2 : rsum p (fun i => v (n + i)%nat * rsum (n + p) (fun j => gsym (blk2 n D K E) (n + i)%nat j * v j)) = rsum p (fun i => y i * rsum n (fun j => K i j * v j)) + quad p (gsym E) y).
  { unfold quad. rewrite <- sum_plus. apply sum_ext. intros i Hi. rewrite sum_app.
    rewrite (sum_ext n _ (fun j => K i j * v j)) by (intros; rewrite gsym2_10 by auto; reflexivity).
    rewrite (sum_ext p _ (fun j => gsym E i j * y j)) by (intros; rewrite gsym2_11; reflexivity). unfold y. lra. }
  rewrite H1, H2.
  assert (H3 : rsum n (fun i => v i * rsum p (fun j => K j i * y j)) = rsum p (fun i => y i * rsum n (fun j => K i j * v j))).
  { rewrite (sum_ext n _ (fun i => rsum p (fun j => v i * (K j i * y j)))) by (intros; symmetry; apply sum_scal). rewrite sum_swap.
    apply sum_ext. intros i Hi. rewrite <- sum_scal. apply sum_ext. intros. lra. }
  rewrite H3. clear H1 H2 H3.
  set (a := fun t => rsum n (fun i => lower Lo i t * v i)). set (b := fun t => rsum p (fun i => B i t * y i)).
  assert (HD : quad n (gsym D) v = rsum n (fun t => a t * a t)).
  { apply quad_gram. intros. apply llt_inv_full; auto. }
  assert (HK : rsum p (fun i => y i * rsum n (fun j => K i j * v j)) = rsum n (fun t => a t * b t)).
  { rewrite (sum_ext p _ (fun i => rsum n (fun t => a t * (B i t * y i)))).
    - rewrite sum_swap. apply sum_ext. intros t Ht. unfold b. rewrite <- sum_scal. reflexivity.
    - intros i Hi. rewrite (sum_ext n _ (fun j => rsum n (fun t => lower Lo j t * B i t * v j))).
      + rewrite sum_swap. rewrite <- sum_scal. apply sum_ext. intros t Ht. rewrite (sum_ext n _ (fun j => B i t * (lower Lo j t * v j))) by (intros; lra). rewrite sum_scal. fold (a t). lra.
      + intros j Hj. rewrite <- HB by auto. rewrite <- sum_scal_r. reflexivity. }
  assert (HE2 : quad p (gsym E) y = quad p (gsym E') y + rsum n (fun t => b t * b t)).
  { unfold quad. rewrite (sum_ext p _ (fun i => y i * rsum p (fun j => gsym E' i j * y j) + rsum n (fun t => (B i t * y i) * b t))).
    - rewrite sum_plus. f_equal. rewrite sum_swap. apply sum_ext. intros t Ht. rewrite sum_scal_r. reflexivity.
    - intros i Hi. rewrite (sum_ext p _ (fun j => gsym E' i j * y j + rsum n (fun k => B i k * B j k) * y j)) by (intros; rewrite HE by auto; lra).
      rewrite sum_plus, Rmult_plus_distr_l. f_equal.
      rewrite (sum_ext p _ (fun j => rsum n (fun k => B i k * (B j k * y j)))) by (intros; rewrite <- sum_scal_r; apply sum_ext; intros; lra).
      rewrite sum_swap. rewrite <- sum_scal. apply sum_ext. intros t Ht. unfold b. rewrite sum_scal. lra. }
  rewrite HD, HK, HE2.
  match goal with |- _ = rsum n ?f + _ => change (rsum n f) with (rsum n (fun t => (a t + b t) * (a t + b t))) end.
  rewrite (sum_ext n (fun t => (a t + b t) * (a t + b t)) (fun t => a t * a t + (a t * b t + a t * b t) + b t * b t)) by (intros; lra).
  rewrite !sum_plus. lra.
Qed.

Lemma elim_posdef : posdef (n + p) (gsym (blk2 n D K E)) <-> posdef p (gsym E').
Proof.
  split.
  - intros HP y (i0 & Hi0 & Hy).
    set (x := @bwd Rops n n (tr Lo) (fun t => - rsum p (fun i => B i t * y i))).
    set (v := fun i => if (i <? n)%nat then x i else y (i - n)%nat).
    assert (Hv : forall i, v (n + i)%nat = y i) by (intros i; unfold v; rewrite (proj2 (Nat.ltb_ge _ _)) by lia; f_equal; lia).
    assert (Hx : forall i, (i < n)%nat -> v i = x i) by (intros i Hi; unfold v; rewrite (proj2 (Nat.ltb_lt _ _)) by lia; auto).
    specialize (HP v). rewrite elim_quad in HP.
    rewrite (sum_zero n) in HP; [|].
    + rewrite (quad_ext_v p _ _ y) in HP by (intros; apply Hv). rewrite Rplus_0_l in HP. apply HP. exists (n + i0)%nat. split; [lia|]. rewrite Hv. auto.
    + intros t Ht. assert (HH : rsum n (fun i => lower Lo i t * v i) = - rsum p (fun i => B i t * y i)).
      { rewrite (sum_ext n _ (fun i => upper (tr Lo) t i * x i)) by (intros; rewrite Hx by auto; rewrite tr_lower_upper; reflexivity).
        apply bwd_correct; auto. intros i Hi. unfold tr. pose proof (llt_diag_pos n D Lo HL i Hi). lra. }
      rewrite HH. rewrite (sum_ext p (fun i => B i t * v (n + i)%nat) (fun i => B i t * y i)) by (intros; rewrite Hv; reflexivity). lra.
  - intros HP v (i0 & Hi0 & Hv). rewrite elim_quad.
    set (sq := rsum n _). assert (Hsq : 0 <= sq). { apply sum_nonneg. intros. apply Rle_0_sqr. }
    destruct (Rlt_dec 0 (quad p (gsym E') (fun i => v (n + i)%nat))) as [Hq|Hq]; [lra|].
    assert (Hz : forall i, (i < p)%nat -> v (n + i)%nat = 0).
    { intros i Hi. destruct (Req_dec (v (n + i)%nat) 0); auto. exfalso. apply Hq. apply HP. eauto. }
    assert (Hq0 : quad p (gsym E') (fun i => v (n + i)%nat) = 0). { unfold quad. apply sum_zero. intros i Hi. rewrite Hz by auto. lra. }
    rewrite Hq0, Rplus_0_r.
    assert (HD : posdef n (gsym D)) by (apply (llt_success_posdef n D Lo HL)).
    assert (Hq1 : sq = quad n (gsym D) v).
    { unfold sq. rewrite (quad_gram n (lower Lo)) by (intros; apply llt_inv_full; auto).
      apply sum_ext. intros t Ht. rewrite (sum_zero p) by (intros; rewrite Hz by auto; lra). rewrite Rplus_0_r. reflexivity. }
    rewrite Hq1. apply HD. destruct (Nat.lt_ge_cases i0 n); [eauto|]. exfalso. apply Hv. replace i0 with (n + (i0 - n))%nat by lia. apply Hz. lia.
Qed.

(** the assembled factor *)
Lemma elim_gram Lp : (forall i j, (i < p)%nat -> (j < p)%nat -> rsum p (fun t => lower Lp i t * lower Lp j t) = gsym E' i j) ->
  forall i j, (i < n + p)%nat -> (j < n + p)%nat ->
  rsum (n + p) (fun t => lower (blk2 n Lo B Lp) i t * lower (blk2 n Lo B Lp) j t) = gsym (blk2 n D K E) i j.
Proof.
  intros HP i j Hi Hj. rewrite sum_app.
  destruct (Nat.lt_ge_cases i n) as [Hi1|Hi1]; destruct (Nat.lt_ge_cases j n) as [Hj1|Hj1].
  - rewrite (sum_zero p) by (intros; rewrite lower2_01 by auto; lra).
    rewrite (sum_ext n _ (fun t => lower Lo i t * lower Lo j t)) by (intros; rewrite !lower2_00 by auto; reflexivity).
    rewrite gsym2_00 by auto. rewrite (llt_inv_full n D Lo HL) by auto. lra.
  - replace j with (n + (j - n))%nat by lia. set (j' := (j - n)%nat). assert (j' < p)%nat by (unfold j'; lia).
    rewrite (sum_zero p) by (intros; rewrite lower2_01 by auto; lra).
    rewrite (sum_ext n _ (fun t => lower Lo i t * B j' t)) by (intros; rewrite lower2_00, lower2_10 by auto; reflexivity).
    rewrite gsym2_01 by auto. rewrite HB by auto. lra.
  - replace i with (n + (i - n))%nat by lia. set (i' := (i - n)%nat). assert (i' < p)%nat by (unfold i'; lia).
    rewrite (sum_zero p) by (intros; rewrite (lower2_01 _ _ _ _ j) by auto; lra).
    rewrite (sum_ext n _ (fun t => lower Lo j t * B i' t)) by (intros; rewrite lower2_10, lower2_00 by auto; apply Rmult_comm).
    rewrite gsym2_10 by auto. rewrite HB by auto. lra.
  - replace i with (n + (i - n))%nat by lia. set (i' := (i - n)%nat). assert (i' < p)%nat by (unfold i'; lia).
    replace j with (n + (j - n))%nat by lia. set (j' := (j - n)%nat). assert (j' < p)%nat by (unfold j'; lia).
    rewrite (sum_ext n _ (fun t => B i' t * B j' t)) by (intros; rewrite !lower2_10 by auto; reflexivity).
    rewrite (sum_ext p _ (fun t => lower Lp i' t * lower Lp j' t)) by (intros; rewrite !lower2_11 by auto; reflexivity).
    rewrite gsym2_11, HE, HP by auto. lra.
Qed.
End Elim.

(** a failing leading block *)
Lemma posdef_leading n p D K E : posdef (n + p) (gsym (blk2 n D K E)) -> posdef n (gsym D).
Proof.
  intros HP v (i0 & Hi0 & Hv). set (w := fun i => if (i <? n)%nat then v i else 0).
  assert (Hw : quad (n + p) (gsym (blk2 n D K E)) w = quad n (gsym D) v).
  { unfold quad. rewrite sum_app. rewrite (sum_zero p); [rewrite Rplus_0_r|].
    - apply sum_ext. intros i Hi. unfold w at 1. rewrite (proj2 (Nat.ltb_lt _ _)) by auto. f_equal. rewrite sum_app. rewrite (sum_zero p); [rewrite Rplus_0_r|].
      + apply sum_ext. intros j Hj. rewrite gsym2_00 by auto. unfold w. rewrite (proj2 (Nat.ltb_lt _ _)) by auto. reflexivity.
      + intros j Hj. unfold w. rewrite (proj2 (Nat.ltb_ge _ _)) by lia. lra.
    - intros i Hi. unfold w at 1. rewrite (proj2 (Nat.ltb_ge _ _)) by lia. lra. }
  rewrite <- Hw. apply HP. exists i0. split; [lia|]. unfold w. rewrite (proj2 (Nat.ltb_lt _ _)) by auto. auto.
Qed.

(** Rank and rank-revealing factorisations over the reals. *)
From Coq Require Import List Arith ZArith Lia Bool Reals Lra.
From Verif Require Import Base Num LinAlg TestPb Random RandomProofs.
Import ListNotations.
Local Open Scope R_scope.

(** ** A homogeneous system with more unknowns than equations *)
Lemma find_nonzero m (f : nat -> R) : (exists j, (j < m)%nat /\ f j <> 0) \/ (forall j, (j < m)%nat -> f j = 0).
Proof.
  induction m as [|m IH]; [right; lia|]. destruct IH as [(j & Hj & H)|IH]; [left; exists j; split; auto; lia|].
  destruct (Req_dec (f m) 0) as [E|E]; [right|left; exists m; split; auto]. intros j Hj. destruct (Nat.eq_dec j m); [subst; auto|apply IH; lia].
Qed.
Lemma tr_invol i j k : tr i j (tr i j k) = k.
Proof. unfold tr. destruct (Nat.eqb_spec k i) as [->|H1]; [destruct (Nat.eqb_spec j i) as [->|H2]; [auto|rewrite Nat.eqb_refl; auto]|].
  destruct (Nat.eqb_spec k j) as [->|H2]; [rewrite Nat.eqb_refl; auto|]. destruct (Nat.eqb_spec k i); [lia|]. destruct (Nat.eqb_spec k j); [lia|auto]. Qed.
Lemma underdetermined n : forall m (A : rmat), (n < m)%nat ->
  exists w : rvec, (exists j, (j < m)%nat /\ w j <> 0) /\ forall i, (i < n)%nat -> rsum m (fun j => A i j * w j) = 0.
Proof.
  induction n as [|n IH]; intros m A Hm.
  { exists (fun _ => 1). split; [exists 0%nat; split; [lia|lra]|]. intros; lia. }
  destruct (find_nonzero m (A n)) as [(j0 & Hj0 & Hne)|Hz].
  - destruct m as [|m]; [lia|].
    set (B := fun i j => A i (tr j0 m j)).
    assert (HB : B n m <> 0) by (unfold B, tr; rewrite Nat.eqb_refl; destruct (Nat.eqb_spec m j0); subst; auto).
    destruct (IH m (fun i j => B i j - B i m / B n m * B n j)) as (w & (j & Hj & Hw) & Hs); [lia|].
    set (wm := - (rsum m (fun j => B n j * w j)) / B n m).
    set (w1 := fun j => if (j =? m)%nat then wm else w j).
    assert (Hsum : forall i, (i < S n)%nat -> rsum (S m) (fun j => B i j * w1 j) = 0).
    { intros i Hi. rewrite sum_S. rewrite (sum_ext m _ (fun j => B i j * w j)).
      2:{ intros k Hk. unfold w1. destruct (Nat.eqb_spec k m); [lia|]. reflexivity. }
      unfold w1. rewrite Nat.eqb_refl. destruct (Nat.eq_dec i n) as [->|Hin].
      - unfold wm. field. auto.
      - specialize (Hs i ltac:(lia)). rewrite (sum_ext m _ (fun j => B i j * w j - B i m / B n m * (B n j * w j))) in Hs by (intros; ring).
        rewrite sum_minus, sum_scal in Hs. unfold wm. replace (rsum m (fun j => B i j * w j)) with (B i m / B n m * rsum m (fun j => B n j * w j)) by lra. field. auto. }
    exists (fun j => w1 (tr j0 m j)). split.
    + exists (tr j0 m j). split; [apply tr_lt; lia|]. rewrite tr_invol. unfold w1. destruct (Nat.eqb_spec j m); [lia|auto].
    + intros i Hi. rewrite <- (sum_tr (S m) j0 m (fun j => A i j * w1 (tr j0 m j))) by lia.
      rewrite <- (Hsum i Hi). apply sum_ext. intros k Hk. rewrite tr_invol. reflexivity.
  - destruct (IH m A) as (w & Hw & Hs); [lia|]. exists w. split; auto. intros i Hi. destruct (Nat.eq_dec i n) as [->|]; [|apply Hs; lia].
    apply sum_zero. intros j Hj. rewrite Hz by auto. ring.
Qed.

(** ** Rank *)
(** [M] factors through dimension [r], and [r] combinations of its columns are independent *)
Definition has_rank (rows cols : nat) (M : rmat) (r : nat) : Prop :=
  (exists X Y : rmat, forall i j, (i < rows)%nat -> (j < cols)%nat -> M i j = rsum r (fun k => X i k * Y k j)) /\
  (exists Z : rmat, forall t : rvec, (forall i, (i < rows)%nat -> rsum cols (fun j => M i j * rsum r (fun k => Z j k * t k)) = 0) ->
     forall k, (k < r)%nat -> t k = 0).

(** What is assumed of Eigen's ColPivHouseholderQR: M P = Q R, Q orthogonal, R upper
    triangular, and each pivot dominates the remaining columns *)
Record is_cpqr (rows cols : nat) (M : rmat) (f : cpqr) : Prop := {
  cp_orth : forall i j, (i < rows)%nat -> (j < rows)%nat -> rsum rows (fun k => f_Q f k i * f_Q f k j) = if (i =? j)%nat then 1 else 0;
  cp_prod : forall i j, (i < rows)%nat -> (j < cols)%nat -> M i (f_p f j) = rsum rows (fun k => f_Q f i k * f_R f k j);
  cp_upper : forall i j, (i < rows)%nat -> (j < i)%nat -> f_R f i j = 0;
  cp_pivot : forall i j, (i < rows)%nat -> (i <= j < cols)%nat ->
    rsum (rows - i) (fun k => f_R f (i + k)%nat j * f_R f (i + k)%nat j) <= f_R f i i * f_R f i i;
  cp_perm : (forall j, (j < cols)%nat -> (f_p f j < cols)%nat) /\
    exists pi : nat -> nat, forall j, (j < cols)%nat -> (pi j < cols)%nat /\ f_p f (pi j) = j /\ pi (f_p f j) = j
}.

(** sums over a permutation *)
Lemma sum_perm n (p : nat -> nat) (f : nat -> R) : (forall j, (j < n)%nat -> (p j < n)%nat) ->
  (exists pi : nat -> nat, forall j, (j < n)%nat -> (pi j < n)%nat /\ p (pi j) = j /\ pi (p j) = j) ->
  rsum n (fun j => f (p j)) = rsum n f.
Proof.
  intros Hp (pi & Hpi).
  rewrite (sum_ext n (fun j => f (p j)) (fun j => rsum n (fun i => if (i =? p j)%nat then f i else 0))).
  2:{ intros j Hj. rewrite sum_delta; auto. }
  rewrite sum_swap. apply sum_ext. intros i Hi. destruct (Hpi i Hi) as (P1 & P2 & P3).
  rewrite (sum_ext n _ (fun j => if (j =? pi i)%nat then f i else 0)).
  - apply (sum_delta n (pi i) (fun _ => f i)). auto.
  - intros j Hj. destruct (Nat.eqb_spec i (p j)), (Nat.eqb_spec j (pi i)); auto; subst; try congruence.
    exfalso. destruct (Hpi j Hj) as (_ & _ & E). congruence.
Qed.
Lemma apply_perm_sum n p (x g : rvec) : (forall j, (j < n)%nat -> (p j < n)%nat) ->
  rsum n (fun i => g i * apply_perm n p x i) = rsum n (fun j => g (p j) * x j).
Proof.
  intros Hp. unfold apply_perm.
  rewrite (sum_ext n _ (fun i => rsum n (fun j => if (i =? p j)%nat then g i * x j else 0))).
  - rewrite sum_swap. apply sum_ext. intros j Hj. rewrite (sum_delta n (p j) (fun i => g i * x j)); auto.
  - intros i Hi. rewrite <- sum_scal. apply sum_ext. intros j Hj. rewrite Nat.eqb_sym. destruct (i =? p j)%nat; ring.
Qed.

Section Rev.
Variables (rows cols : nat) (M : rmat) (f : cpqr).
Hypothesis HF : is_cpqr rows cols M f.
Notation Q := (f_Q f). Notation Rf := (f_R f). Notation p := (f_p f).

(** M P w = Q (R w) *)
Lemma cp_mul (w : rvec) i : (i < rows)%nat ->
  rsum cols (fun j => M i (p j) * w j) = rsum rows (fun k => Q i k * rsum cols (fun j => Rf k j * w j)).
Proof.
  intros Hi. rewrite (sum_ext cols _ (fun j => rsum rows (fun k => Q i k * (Rf k j * w j)))).
  - rewrite sum_swap. apply sum_ext. intros k Hk. rewrite sum_scal. reflexivity.
  - intros j Hj. rewrite (cp_prod _ _ _ _ HF) by auto. rewrite <- sum_scal_r. apply sum_ext. intros; ring.
Qed.
Lemma cp_cancel (y : rvec) : (forall i, (i < rows)%nat -> rsum rows (fun k => Q i k * y k) = 0) -> forall k, (k < rows)%nat -> y k = 0.
Proof.
  intros H k Hk. assert (E : rsum rows (fun i => Q i k * rsum rows (fun l => Q i l * y l)) = y k).
  { rewrite (sum_ext rows _ (fun i => rsum rows (fun l => Q i k * Q i l * y l))) by (intros i Hi; rewrite <- sum_scal; apply sum_ext; intros; ring).
    rewrite sum_swap. rewrite (sum_ext rows _ (fun l => if (l =? k)%nat then y l else 0)).
    - apply sum_delta. auto.
    - intros l Hl. rewrite sum_scal_r, (cp_orth _ _ _ _ HF) by auto. rewrite Nat.eqb_sym. destruct (l =? k)%nat; ring. }
  rewrite <- E. apply sum_zero. intros i Hi. rewrite H by auto. ring.
Qed.
Lemma pivot_zero k : (k < rows)%nat -> Rf k k = 0 -> forall i j, (k <= i < rows)%nat -> (j < cols)%nat -> Rf i j = 0.
Proof.
  intros Hk E i j Hi Hj. destruct (Nat.lt_ge_cases j i) as [|Hge]; [apply (cp_upper _ _ _ _ HF); lia|].
  pose proof (cp_pivot _ _ _ _ HF k j Hk ltac:(lia)) as HP. rewrite E in HP.
  assert (H0 : rsum (rows - k) (fun t => Rf (k + t)%nat j * Rf (k + t)%nat j) = 0).
  { apply Rle_antisym; [lra|]. apply sum_nonneg. intros; nra. }
  pose proof (sum_nonneg_zero (rows - k) (fun t => Rf (k + t)%nat j * Rf (k + t)%nat j) ltac:(intros; nra) H0 (i - k)%nat ltac:(lia)) as HZ.
  cbv beta in HZ. replace (k + (i - k))%nat with i in HZ by lia. nra.
Qed.

Lemma upper_injective n (t : rvec) : (n <= rows)%nat -> (n <= cols)%nat -> (forall i, (i < n)%nat -> Rf i i <> 0) ->
  (forall i, (i < n)%nat -> rsum n (fun j => Rf i j * t j) = 0) -> forall k, (k < n)%nat -> t k = 0.
Proof.
  intros Hr Hc Hd Hs. assert (H : forall m, (m <= n)%nat -> forall k, (n - m <= k < n)%nat -> t k = 0).
  { induction m as [|m IH]; intros Hm k Hk; [lia|]. destruct (Nat.eq_dec k (n - S m)) as [->|]; [|apply IH; lia].
    set (i := (n - S m)%nat) in *. specialize (Hs i ltac:(lia)). rewrite (sum_ext n _ (fun j => if (j =? i)%nat then Rf i j * t j else 0)) in Hs.
    - rewrite sum_delta in Hs by lia. apply Rmult_integral in Hs as [Hs|Hs]; auto. exfalso. apply (Hd i); auto; lia.
    - intros j Hj. destruct (Nat.eqb_spec j i); [reflexivity|]. destruct (Nat.lt_ge_cases j i).
      + rewrite (cp_upper _ _ _ _ HF) by lia. ring.
      + rewrite (IH ltac:(lia) j) by lia. ring. }
  intros k Hk. apply (H n); lia.
Qed.

(** A rank-revealing factorisation reveals the rank *)
Lemma reveals r : has_rank rows cols M r -> (r <= rows)%nat -> (r <= cols)%nat ->
  (forall i, (i < r)%nat -> Rf i i <> 0) /\ (forall i j, (r <= i < rows)%nat -> (j < cols)%nat -> Rf i j = 0).
Proof.
  intros ((X & Y & HXY) & Z & HZ) Hr Hrc.
  assert (HA : forall i, (i < r)%nat -> Rf i i <> 0).
  { intros k Hk E.
    destruct (cp_perm _ _ _ _ HF) as (Hp & Hpi).
    destruct (underdetermined k r (fun i l => rsum cols (fun j => Rf i j * Z (p j) l)) Hk) as (t & (l0 & Hl0 & Hne) & Ht).
    apply Hne. apply (HZ t); auto. intros i Hi.
    rewrite <- (sum_perm cols p (fun j => M i j * rsum r (fun l => Z j l * t l))) by auto.
    rewrite (cp_mul (fun j => rsum r (fun l => Z (p j) l * t l)) i Hi). apply sum_zero. intros m Hm.
    destruct (Nat.lt_ge_cases m k) as [Hmk|Hmk].
    - specialize (Ht m Hmk). rewrite (sum_ext r _ (fun l => rsum cols (fun j => Rf m j * (Z (p j) l * t l)))) in Ht
        by (intros l Hl; rewrite <- sum_scal_r; apply sum_ext; intros; ring).
      rewrite sum_swap in Ht. rewrite (sum_ext cols _ (fun j => rsum r (fun l => Rf m j * (Z (p j) l * t l)))) by (intros; rewrite <- sum_scal; reflexivity).
      rewrite Ht. ring.
    - rewrite (sum_zero cols); [ring|]. intros j Hj. rewrite (pivot_zero k) by (auto; lia). ring. }
  split; auto. intros i j Hi Hj.
  destruct (Nat.eq_dec r cols) as [Erc|Hne]; [subst r; apply (cp_upper _ _ _ _ HF); lia|].
  destruct (Req_dec (Rf r r) 0) as [E|E]; [apply (pivot_zero r); auto; lia|]. exfalso.
  destruct (underdetermined r (S r) (fun k j => Y k (p j)) ltac:(lia)) as (t & (l0 & Hl0 & Hn) & Ht).
  apply Hn. apply (upper_injective (S r)); auto; try lia.
  { intros k Hk. destruct (Nat.eq_dec k r) as [->|]; auto. apply HA. lia. }
  set (t1 := fun j => if (j <? S r)%nat then t j else 0).
  assert (Hpad : forall g : nat -> R, rsum cols (fun j => g j * t1 j) = rsum (S r) (fun j => g j * t j)).
  { intros g. replace cols with (S r + (cols - S r))%nat by lia. rewrite sum_app. rewrite (sum_zero (cols - S r)).
    - rewrite Rplus_0_r. apply sum_ext. intros k Hk. unfold t1. destruct (Nat.ltb_spec k (S r)); [reflexivity|lia].
    - intros k Hk. unfold t1. destruct (Nat.ltb_spec (S r + k) (S r)); [lia|]. ring. }
  intros k Hk. rewrite <- Hpad. apply (cp_cancel (fun k => rsum cols (fun j => Rf k j * t1 j))); [|lia].
  intros a Ha. rewrite <- (cp_mul t1 a Ha).
  destruct (cp_perm _ _ _ _ HF) as (Hp & _).
  rewrite (sum_ext cols _ (fun j => rsum r (fun k => X a k * (Y k (p j) * t1 j)))).
  - rewrite sum_swap. apply sum_zero. intros m Hm. rewrite sum_scal, Hpad, Ht by auto. ring.
  - intros b Hb. rewrite HXY by auto. rewrite <- sum_scal_r. apply sum_ext. intros; ring.
Qed.
End Rev.

(** Integer data: multipliers on an independent face are zero or at least 1/|det|. *)
From Coq Require Import List Arith ZArith Lia Bool Reals Lra Factorial.
From Verif Require Import Base ActiveSet Num LinAlg Solver QPSpec GIBase GITotal GIFinal Warm WarmAS WarmQR WarmHot WarmTotal Det IntGap.
Import ListNotations.
Local Open Scope R_scope.

(** the linear cost and the (finite) bounds are integers too *)
Definition integer_sides (pb : rproblem) : Prop :=
  (forall a, (a < nv pb)%nat -> integral (p_a pb a)) /\
  (forall i b, (i < ncb pb)%nat -> clo pb i = Some b \/ cup pb i = Some b -> integral b).

Lemma independent_nodup n q (N : nat -> rvec) w : independent n q (fun k => N (nth k w 0%nat)) -> q = length w -> NoDup w.
Proof.
  intros H E. apply (proj2 (NoDup_nth w 0%nat)). intros i j Hi Hj Eij. destruct (Nat.eq_dec i j) as [|Hne]; auto. exfalso.
  pose proof (H (fun k => if (k =? i)%nat then 1 else if (k =? j)%nat then -1 else 0)) as HH.
  assert (E1 : (fun k => if (k =? i)%nat then 1 else if (k =? j)%nat then -1 else 0) i = 0).
  { apply HH; [|lia]. clear HH. intros a Ha. rewrite (sum_ext q _ (fun k => (if (k =? i)%nat then N (nth k w 0%nat) a else 0) - (if (k =? j)%nat then N (nth k w 0%nat) a else 0))).
    - rewrite sum_minus. rewrite (sum_delta q i (fun k => N (nth k w 0%nat) a)), (sum_delta q j (fun k => N (nth k w 0%nat) a)) by lia. rewrite Eij. lra.
    - intros k Hk. destruct (Nat.eqb_spec k i) as [->|]; [destruct (Nat.eqb_spec i j); [contradiction|lra]|]. destruct (k =? j)%nat; lra. }
  cbv beta in E1. rewrite Nat.eqb_refl in E1. lra.
Qed.

Lemma integer_mult pb M w : integer_data pb M -> integer_sides pb -> posdef (nv pb) (hess pb) ->
  forall W x lam j, (j < ncb pb)%nat -> stationary_on pb w W x lam -> W j = true ->
  lam j = 0 \/ / (INR (fact (2 * nv pb)) * INR M ^ (2 * nv pb)) <= Rabs (lam j).
Proof.
  intros HI (HA & HB) HD W x lam j Hj [S1 S2 S3 S4] HW. set (n := nv pb) in *.
  destruct (basis pb (filter W (seq 0 (ncb pb))) HD) as (l & Hincl & HN & HS). fold n in HN.
  pose proof (nonsing_indep pb l HN) as HIn. fold n in HIn. pose proof (independent_nodup _ _ _ l HIn eq_refl) as Hnd.
  assert (Hl : forall i, In i l -> (i < ncb pb)%nat /\ W i = true).
  { intros i Hi. apply Hincl in Hi. apply filter_In in Hi as (H1 & H2). apply in_seq in H1. split; auto; lia. }
  assert (Hall : forall i, (i < ncb pb)%nat -> W i = true -> In i l).
  { intros i Hi HWi. destruct (in_dec Nat.eq_dec i l) as [|Hn]; auto. exfalso.
    destruct (HS i) as (c & Hc); [apply filter_In; split; auto; apply in_seq; lia|].
    set (d := fun k => (if (k =? i)%nat then 1 else 0) - rsum (length l) (fun t => if (k =? nth t l 0%nat)%nat then c t else 0)).
    assert (E : d i = 0).
    { apply S4; auto.
      - intros k Hk. unfold d. destruct (Nat.eqb_spec k i) as [->|]; [congruence|]. rewrite sum_zero; [lra|]. intros t Ht.
        destruct (Nat.eqb_spec k (nth t l 0%nat)) as [->|]; auto. exfalso. destruct (Hl (nth t l 0%nat)) as (_ & H2); [apply nth_In; auto|congruence].
      - intros a Ha. unfold d. rewrite (sum_ext _ _ (fun k => (if (k =? i)%nat then cvec pb k a else 0) - rsum (length l) (fun t => if (k =? nth t l 0%nat)%nat then c t else 0) * cvec pb k a)).
        + rewrite sum_minus. rewrite (sum_delta (ncb pb) i (fun k => cvec pb k a)) by auto.
          rewrite (list_sum_delta l c (fun k => cvec pb k a)) by (intros k Hk; apply Hl; auto). rewrite Hc by auto. lra.
        + intros k Hk. destruct (k =? i)%nat; lra. }
    unfold d in E. rewrite Nat.eqb_refl in E. rewrite sum_zero in E; [lra|]. intros t Ht. destruct (Nat.eqb_spec i (nth t l 0%nat)) as [->|]; auto. exfalso. apply Hn. apply nth_In. auto. }
  set (y := cat n x (fun k => lam (nth k l 0%nat))).
  set (v := cat n (fun a => - p_a pb a) (fun k => rdot n (cvec pb (nth k l 0%nat)) x)).
  assert (Hsum : forall a, rsum (ncb pb) (fun i => lam i * cvec pb i a) = rsum (length l) (fun k => lam (nth k l 0%nat) * cvec pb (nth k l 0%nat) a)).
  { intros a. rewrite <- (list_sum_delta l (fun k => lam (nth k l 0%nat)) (fun i => cvec pb i a) (ncb pb)) by (intros i Hi; apply Hl; auto).
    apply sum_ext. intros i Hi. f_equal. destruct (W i) eqn:EW.
    - pose proof (Hall i Hi EW) as HIi. apply (In_nth _ _ 0%nat) in HIi as (k & Hk & <-).
      rewrite (sum_ext _ _ (fun t => if (t =? k)%nat then lam (nth t l 0%nat) else 0)); [symmetry; apply (sum_delta _ k (fun t => lam (nth t l 0%nat))); auto|].
      intros t Ht. destruct (Nat.eqb_spec t k) as [->|Hne]; [rewrite Nat.eqb_refl; auto|]. destruct (Nat.eqb_spec (nth k l 0%nat) (nth t l 0%nat)) as [E|]; auto.
      exfalso. apply Hne. apply (proj1 (NoDup_nth l 0%nat) Hnd); auto.
    - rewrite S1 by auto. symmetry. apply sum_zero. intros t Ht. destruct (Nat.eqb_spec i (nth t l 0%nat)) as [->|]; auto. }
  assert (Hy : forall a, (a < n + length l)%nat -> rsum (n + length l) (fun b => kktm pb l a b * y b) = v a).
  { intros a Ha. unfold y, v. destruct (Nat.lt_ge_cases a n) as [L|G].
    - unfold n. rewrite kktm_row by auto. fold n. pose proof (S2 a L) as E. rewrite Hsum in E. unfold gradient in E. fold n in E. unfold cat. apply Nat.ltb_lt in L. rewrite L. lra.
    - replace a with (n + (a - n))%nat by lia. unfold n. rewrite kktm_low. fold n. unfold cat. replace (n + (a - n) <? n)%nat with false by (symmetry; apply Nat.ltb_ge; lia).
      replace (n + (a - n) - n)%nat with (a - n)%nat by lia. reflexivity. }
  assert (Hv : forall a, (a < n + length l)%nat -> integral (v a)).
  { intros a Ha. unfold v, cat. destruct (Nat.ltb_spec a n) as [L|G].
    - destruct (HA a L) as (z & ->). exists (- z)%Z. rewrite opp_IZR. reflexivity.
    - assert (Hin : In (nth (a - n) l 0%nat) l) by (apply nth_In; lia). destruct (Hl _ Hin) as (H1 & H2). pose proof (S3 _ H1 H2) as T. apply (HB _ _ H1).
      destruct (w (nth (a - n) l 0%nat)); auto; contradiction. }
  destruct (In_nth l j 0%nat (Hall j Hj HW)) as (k & Hk & Ek).
  destruct (Req_dec (lam j) 0) as [|Hz]; [left; assumption|right].
    assert (Ey : y (n + k)%nat = lam j).
    { unfold y, cat. replace (n + k <? n)%nat with false by (symmetry; apply Nat.ltb_ge; lia). replace (n + k - n)%nat with k by lia. rewrite Ek. reflexivity. }
    rewrite <- Ey. apply (component pb M l y v); auto; [fold n; lia|congruence].
Qed.
Lemma integer_mgap pb M w : integer_data pb M -> integer_sides pb -> posdef (nv pb) (hess pb) ->
  INR (fact (2 * nv pb)) * INR M ^ (2 * nv pb) < 10 ^ 14 -> multiplier_gap pb w.
Proof.
  intros HI HA HD HM W x lam j Hj HS HW. assert (HC : lam j = 0 \/ / 10 ^ 14 < Rabs (lam j)).
  { destruct (integer_mult pb M w HI HA HD W x lam j Hj HS HW) as [|HC]; [left; assumption|right]. eapply Rlt_le_trans; [|exact HC].
    assert (1 <= INR M) by (apply (le_INR 1 M), HI).
    apply Rinv_lt_contravar; auto. apply Rmult_lt_0_compat; [|apply pow_lt; lra]. apply Rmult_lt_0_compat; [apply lt_0_INR, lt_O_fact|apply pow_lt; lra]. }
  clear -HC. assert (0 < / 10 ^ 14) by (apply Rinv_0_lt_compat, pow_lt; lra).
  destruct HC as [E|HC]; [rewrite E; destruct (w j); auto; left; lra|].
  destruct (w j); auto; unfold Rabs in HC; destruct (Rcase_abs (lam j)); try (left; lra); right; lra.
Qed.

(** The determinant, by expansion along the first column, and the facts needed
    for reflections.  Matrices are functions; only entries below n matter. *)
From Coq Require Import List Arith ZArith Lia Bool Reals Lra.
From Verif Require Import Base Num LinAlg.
Local Open Scope R_scope.

(** [M] without row i and column 0 *)
Definition minor (i : nat) (M : rmat) : rmat := fun r c => M (if (r <? i)%nat then r else S r) (S c).
Fixpoint det (n : nat) (M : rmat) : R :=
  match n with
  | O => 1
  | S k => rsum (S k) (fun i => (-1) ^ i * M i 0%nat * det k (minor i M))
  end.

Lemma det_ext n : forall M N, (forall r c, (r < n)%nat -> (c < n)%nat -> M r c = N r c) -> det n M = det n N.
Proof.
  induction n as [|n IH]; intros M N H; cbn [det]; auto. apply sum_ext. intros i Hi. rewrite (H i 0%nat) by lia. f_equal. apply IH.
  intros r c Hr Hc. unfold minor. destruct (Nat.ltb_spec r i); apply H; lia.
Qed.
(** row k replaced by u *)
Definition upd (k : nat) (u : rvec) (M : rmat) : rmat := fun r => if (r =? k)%nat then u else M r.
Lemma upd_same k u M c : upd k u M k c = u c.
Proof. unfold upd. rewrite Nat.eqb_refl. reflexivity. Qed.
Lemma upd_other k u M r c : r <> k -> upd k u M r c = M r c.
Proof. unfold upd. destruct (Nat.eqb_spec r k); [congruence|auto]. Qed.
Lemma minor_upd_same k u M r c : minor k (upd k u M) r c = minor k M r c.
Proof. unfold minor. apply upd_other. destruct (Nat.ltb_spec r k); lia. Qed.
Lemma minor_upd i k u M r c : i <> k -> minor i (upd k u M) r c = upd (if (k <? i)%nat then k else (k - 1)%nat) (fun c => u (S c)) (minor i M) r c.
Proof.
  intros H. unfold minor, upd. destruct (Nat.ltb_spec r i), (Nat.ltb_spec k i).
  - destruct (r =? k)%nat; reflexivity.
  - destruct (Nat.eqb_spec r k), (Nat.eqb_spec r (k - 1)); try lia; try reflexivity. 
  - destruct (Nat.eqb_spec (S r) k), (Nat.eqb_spec r k); try lia; reflexivity.
  - destruct (Nat.eqb_spec (S r) k), (Nat.eqb_spec r (k - 1)); try lia; reflexivity.
Qed.

Lemma det_linear n : forall k a b u w M, (k < n)%nat ->
  det n (upd k (fun c => a * u c + b * w c) M) = a * det n (upd k u M) + b * det n (upd k w M).
Proof.
  induction n as [|n IH]; intros k a b u w M Hk; [lia|]. cbn [det]. rewrite <- !sum_scal, <- sum_plus. apply sum_ext. intros i Hi.
  destruct (Nat.eq_dec i k) as [->|E].
  - rewrite !upd_same. rewrite !(det_ext n (minor k (upd k _ M)) (minor k M)) by (intros; apply minor_upd_same). ring.
  - rewrite !upd_other by auto. set (k' := if (k <? i)%nat then k else (k - 1)%nat).
    assert (Hk' : (k' < n)%nat) by (unfold k'; destruct (Nat.ltb_spec k i); lia).
    rewrite !(det_ext n (minor i (upd k _ M)) _) with (1 := fun r c _ _ => minor_upd i k _ M r c E). fold k'.
    rewrite (IH k' a b (fun c => u (S c)) (fun c => w (S c)) (minor i M) Hk'). ring.
Qed.
Lemma det_adjacent n : forall k M, (S k < n)%nat -> (forall c, M k c = M (S k) c) -> det n M = 0.
Proof.
  induction n as [|n IH]; intros k M Hk HE; [lia|]. cbn [det].
  set (f := fun i => (-1) ^ i * M i 0%nat * det n (minor i M)).
  assert (Hf : forall i, (i < S n)%nat -> i <> k -> i <> S k -> f i = 0).
  { intros i Hi N1 N2. unfold f. destruct (Nat.lt_ge_cases i k) as [L|G].
    - rewrite (IH (k - 1)%nat (minor i M)); [ring|lia|]. intros c. unfold minor.
      destruct (Nat.ltb_spec (k - 1) i); [lia|]. destruct (Nat.ltb_spec (S (k - 1)) i); [lia|]. replace (S (k - 1)) with k by lia. apply HE.
    - rewrite (IH k (minor i M)); [ring|lia|]. intros c. unfold minor.
      destruct (Nat.ltb_spec k i); [|lia]. destruct (Nat.ltb_spec (S k) i); [|lia]. apply HE. }
  replace (S n) with (k + (2 + (n - 1 - k)))%nat by lia. rewrite sum_app, sum_app. rewrite (sum_zero k), (sum_zero (n - 1 - k)) by (intros; apply Hf; lia).
  rewrite !sum_S, sum_0. rewrite Nat.add_0_r. replace (k + 1)%nat with (S k) by lia. unfold f.
  rewrite (det_ext n (minor (S k) M) (minor k M)).
  - rewrite <- (HE 0%nat). cbn [pow]. ring.
  - intros r c Hr Hc. unfold minor. destruct (Nat.ltb_spec r (S k)), (Nat.ltb_spec r k); try reflexivity; [|lia]. replace r with k by lia. apply HE.
Qed.
(** exchanging adjacent rows *)
Lemma det_swap_adj n k M : (S k < n)%nat -> det n (upd (S k) (M k) (upd k (M (S k)) M)) = - det n M.
Proof.
  intros Hk. set (a := M k). set (b := M (S k)). set (T := fun u w => upd (S k) w (upd k u M)).
  assert (C1 : forall u w r c, T u w r c = upd k u (upd (S k) w M) r c).
  { intros u w r c. unfold T, upd. destruct (Nat.eqb_spec r (S k)), (Nat.eqb_spec r k); try lia; reflexivity. }
  assert (Z : forall u, det n (T u u) = 0).
  { intros u. apply (det_adjacent n k); auto. intros c. unfold T. rewrite upd_same, upd_other by lia. rewrite upd_same. reflexivity. }
  assert (L1 : forall u1 u2 w, det n (T (fun c => 1 * u1 c + 1 * u2 c) w) = det n (T u1 w) + det n (T u2 w)).
  { intros u1 u2 w. rewrite !(det_ext n (T _ w) _ (fun r c _ _ => C1 _ w r c)). rewrite det_linear by lia. ring. }
  assert (L2 : forall u w1 w2, det n (T u (fun c => 1 * w1 c + 1 * w2 c)) = det n (T u w1) + det n (T u w2)).
  { intros u w1 w2. unfold T. rewrite det_linear by lia. ring. }
  assert (E : det n M = det n (T a b)).
  { apply det_ext. intros r c _ _. unfold T, upd. destruct (Nat.eqb_spec r (S k)) as [->|]; auto. destruct (Nat.eqb_spec r k) as [->|]; auto. }
  change (det n (T b a) = - det n M). rewrite E. pose proof (Z (fun c => 1 * a c + 1 * b c)) as H. rewrite L1, !L2, !Z in H. lra.
Qed.
Lemma det_equal_rows n : forall d k M, (k + S d < n)%nat -> (forall c, M k c = M (k + S d)%nat c) -> det n M = 0.
Proof.
  induction d as [|d IH]; intros k M Hk HE.
  - apply (det_adjacent n k); [lia|]. intros c. rewrite HE. f_equal. lia.
  - pose proof (det_swap_adj n (k + S d) M ltac:(lia)) as Hs. rewrite (IH k) in Hs; [lra|lia|].
    intros c. rewrite upd_other by lia. rewrite upd_other by lia. rewrite upd_other by lia. rewrite upd_same. rewrite HE. f_equal. lia.
Qed.
Lemma det_repeat n k l M : (k < n)%nat -> (l < n)%nat -> k <> l -> (forall c, M k c = M l c) -> det n M = 0.
Proof.
  intros Hk Hl Hn HE. destruct (Nat.lt_ge_cases k l).
  - apply (det_equal_rows n (l - k - 1) k); [lia|]. intros c. rewrite HE. f_equal. lia.
  - apply (det_equal_rows n (k - l - 1) l); [lia|]. intros c. rewrite <- HE. f_equal. lia.
Qed.
(** adding a multiple of another row *)
Lemma det_add_row n k l t M : (k < n)%nat -> (l < n)%nat -> k <> l -> det n (upd k (fun c => M k c + t * M l c) M) = det n M.
Proof.
  intros Hk Hl Hn. rewrite (det_ext n _ (upd k (fun c => 1 * M k c + t * M l c) M)).
  - rewrite det_linear by auto. rewrite (det_repeat n k l (upd k (M l) M)); auto.
    + rewrite (det_ext n (upd k (M k) M) M); [ring|]. intros r c _ _. unfold upd. destruct (Nat.eqb_spec r k) as [->|]; auto.
    + intros c. rewrite upd_same, upd_other by auto. reflexivity.
  - intros r c _ _. unfold upd. destruct (r =? k)%nat; auto. ring.
Qed.
Lemma det_sum n k m (x : rvec) (W : rmat) M : (k < n)%nat -> det n (upd k (fun c => rsum m (fun i => x i * W i c)) M) = rsum m (fun i => x i * det n (upd k (W i) M)).
Proof.
  intros Hk. induction m as [|m IH].
  - rewrite sum_0. rewrite (det_ext n _ (upd k (fun c => 0 * 0 + 0 * 0) M)).
    + rewrite (det_linear n k 0 0 (fun _ => 0) (fun _ => 0)) by auto. ring.
    + intros r c _ _. unfold upd. destruct (r =? k)%nat; auto. rewrite sum_0. ring.
  - rewrite sum_S, <- IH. rewrite (det_ext n _ (upd k (fun c => 1 * rsum m (fun i => x i * W i c) + x m * W m c) M)).
    + rewrite det_linear by auto. ring.
    + intros r c _ _. unfold upd. destruct (r =? k)%nat; auto. rewrite sum_S. ring.
Qed.
(** rank-one update *)
Definition part (j : nat) (x : rvec) (w : rvec) (M : rmat) : rmat := fun r c => if (r <? j)%nat then M r c + x r * w c else M r c.
Lemma det_part_w n j x w M : (j < n)%nat -> forall i, (i <= j)%nat -> det n (upd j w (part i x w M)) = det n (upd j w M).
Proof.
  intros Hj. induction i as [|i IH]; intros Hi.
  - apply det_ext. intros r c _ _. unfold upd, part. destruct (r =? j)%nat; reflexivity.
  - rewrite <- IH by lia. rewrite <- (det_add_row n i j (x i) (upd j w (part i x w M))) by lia. apply det_ext. intros r c _ _. unfold upd, part.
    rewrite Nat.eqb_refl. destruct (Nat.eqb_spec i j); [lia|]. destruct (Nat.ltb_spec i i); [lia|].
    destruct (Nat.eqb_spec r j), (Nat.eqb_spec r i), (Nat.ltb_spec r (S i)), (Nat.ltb_spec r i); try lia; try reflexivity. subst r. reflexivity.
Qed.
Lemma det_part n x w M : forall j, (j <= n)%nat -> det n (part j x w M) = det n M + rsum j (fun r => x r * det n (upd r w M)).
Proof.
  induction j as [|j IH]; intros Hj.
  - rewrite sum_0, Rplus_0_r. apply det_ext. reflexivity.
  - rewrite sum_S, <- Rplus_assoc, <- IH by lia.
    rewrite (det_ext n _ (upd j (fun c => 1 * M j c + x j * w c) (part j x w M))).
    + rewrite det_linear by lia. rewrite det_part_w by lia. rewrite (det_ext n (upd j (M j) (part j x w M)) (part j x w M)); [ring|].
      intros r c _ _. unfold upd, part. destruct (Nat.eqb_spec r j) as [->|]; auto. destruct (Nat.ltb_spec j j); [lia|auto].
    + intros r c _ _. unfold upd, part. destruct (Nat.eqb_spec r j) as [->|].
      * destruct (Nat.ltb_spec j (S j)); [ring|lia].
      * destruct (Nat.ltb_spec r (S j)), (Nat.ltb_spec r j); auto; lia.
Qed.
(** a reflection changes the sign *)
Lemma det_reflection n (v : rvec) M : rsum n (fun k => v k * v k) = 1 ->
  det n (fun r c => M r c - 2 * v r * rsum n (fun k => v k * M k c)) = - det n M.
Proof.
  intros Hv. set (w := fun c => rsum n (fun k => v k * M k c)).
  rewrite (det_ext n _ (part n (fun r => - 2 * v r) w M)).
  2:{ intros r c Hr _. unfold part, w. destruct (Nat.ltb_spec r n); [ring|lia]. }
  rewrite det_part by lia. rewrite (sum_ext n _ (fun r => (-2 * det n M) * (v r * v r))).
  - rewrite sum_scal, Hv. ring.
  - intros r Hr. unfold w. rewrite (det_sum n r n v M M Hr).
    rewrite (sum_ext n _ (fun i => if (i =? r)%nat then v r * det n M else 0)).
    + rewrite sum_delta by auto. ring.
    + intros i Hi. destruct (Nat.eqb_spec i r) as [->|E].
      * f_equal. apply det_ext. intros s c _ _. unfold upd. destruct (Nat.eqb_spec s r) as [->|]; auto.
      * rewrite (det_repeat n i r (upd r (M i) M)); auto; [ring|]. intros c. rewrite upd_same, upd_other by auto. reflexivity.
Qed.
(** negating the rows from o on *)
Lemma det_negate n o M : forall j, (o + j <= n)%nat -> det n (fun r c => if (o <=? r)%nat && (r <? o + j)%nat then - M r c else M r c) = (-1) ^ j * det n M.
Proof.
  induction j as [|j IH]; intros Hj.
  - cbn [pow]. rewrite Rmult_1_l. apply det_ext. intros r c _ _. destruct (Nat.leb_spec o r), (Nat.ltb_spec r (o + 0)); cbn [andb]; auto; lia.
  - cbn [pow]. rewrite Rmult_assoc, <- IH by lia. set (N := fun r c => if (o <=? r)%nat && (r <? o + j)%nat then - M r c else M r c).
    rewrite (det_ext n _ (upd (o + j) (fun c => (-1) * N (o + j)%nat c + 0 * 0) N)).
    + rewrite (det_linear n (o + j) (-1) 0 (N (o + j)%nat) (fun _ => 0)) by lia. rewrite (det_ext n (upd (o + j) (N (o + j)%nat) N) N); [ring|].
      intros r c _ _. unfold upd. destruct (Nat.eqb_spec r (o + j)) as [->|]; auto.
    + intros r c _ _. unfold upd, N. destruct (Nat.leb_spec o r), (Nat.ltb_spec r (o + S j)), (Nat.eqb_spec r (o + j)), (Nat.ltb_spec r (o + j)); cbn [andb]; try lia; auto.
      subst r. destruct (Nat.leb_spec o (o + j)), (Nat.ltb_spec (o + j) (o + j)); cbn [andb]; try lia. ring.
Qed.
Lemma det_id n : det n (fun i j => if (i =? j)%nat then 1 else 0) = 1.
Proof.
  induction n as [|n IH]; cbn [det]; auto. rewrite (sum_ext (S n) _ (fun i => if (i =? 0)%nat then 1 else 0)); [apply sum_delta; lia|].
  intros i Hi. destruct (Nat.eqb_spec i 0) as [->|]; [|ring]. cbn [pow]. rewrite (det_ext n _ (fun i j => if (i =? j)%nat then 1 else 0)); [rewrite IH; ring|].
  intros r c _ _. unfold minor. destruct (Nat.ltb_spec r 0); [lia|]. reflexivity.
Qed.
(** negating column 0 *)
Lemma det_col0 n M : (0 < n)%nat -> det n (fun r c => if (c =? 0)%nat then - M r c else M r c) = - det n M.
Proof.
  intros H. destruct n as [|n]; [lia|]. cbn [det]. rewrite <- sum_opp. apply sum_ext. intros i _. cbn [Nat.eqb].
  rewrite (det_ext n _ (minor i M)); [ring|]. intros r c _ _. unfold minor. reflexivity.
Qed.

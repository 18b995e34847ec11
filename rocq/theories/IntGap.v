(** Problems with integer Hessian and constraint matrices: by Cramer's rule on the KKT matrices, the direction computed for a
    constraint is zero or has a component at least 1/|det|, so the absolute tolerance 1e-14 of the code separates zero from non-zero. *)
From Coq Require Import List Arith ZArith Lia Bool Reals Lra Factorial.
From Verif Require Import Base Num LinAlg Solver QPSpec GIBase GITotal GIFinal WarmQR Det.
Import ListNotations.
Local Open Scope R_scope.

(** ** Integers *)
Definition integral (x : R) : Prop := exists z : Z, x = IZR z.
Lemma int_0 : integral 0. Proof. exists 0%Z. reflexivity. Qed.
Lemma int_1 : integral 1. Proof. exists 1%Z. reflexivity. Qed.
Lemma int_plus x y : integral x -> integral y -> integral (x + y).
Proof. intros (a & ->) (b & ->). exists (a + b)%Z. symmetry. apply plus_IZR. Qed.
Lemma int_mult x y : integral x -> integral y -> integral (x * y).
Proof. intros (a & ->) (b & ->). exists (a * b)%Z. symmetry. apply mult_IZR. Qed.
Lemma int_sum n (f : nat -> R) : (forall i, (i < n)%nat -> integral (f i)) -> integral (rsum n f).
Proof. induction n as [|n IH]; intros H; [rewrite sum_0; apply int_0|]. rewrite sum_S. apply int_plus; [apply IH; intros; apply H; lia|apply H; lia]. Qed.
Lemma int_sgn n : integral ((-1) ^ n).
Proof. induction n as [|n IH]; [apply int_1|]. cbn [pow]. apply int_mult; auto. exists (-1)%Z. reflexivity. Qed.
Lemma int_ge1 x : integral x -> x <> 0 -> 1 <= Rabs x.
Proof.
  intros (z & ->) Hz. rewrite <- abs_IZR. apply IZR_le. assert (z <> 0%Z) by (intros ->; apply Hz; reflexivity). lia.
Qed.

(** ** Determinants: integrality, size, Cramer's rule, bordering *)
Lemma det_int n : forall M, (forall r c, (r < n)%nat -> (c < n)%nat -> integral (M r c)) -> integral (det n M).
Proof.
  induction n as [|n IH]; intros M H; cbn [det]; [apply int_1|]. apply int_sum. intros i Hi. apply int_mult; [apply int_mult; [apply int_sgn|apply H; lia]|].
  apply IH. intros r c Hr Hc. unfold minor. destruct (Nat.ltb_spec r i); apply H; lia.
Qed.
Lemma abs_sum n (f : nat -> R) : Rabs (rsum n f) <= rsum n (fun i => Rabs (f i)).
Proof. induction n as [|n IH]; [rewrite !sum_0, Rabs_R0; lra|]. rewrite !sum_S. eapply Rle_trans; [apply Rabs_triang|]. lra. Qed.
Lemma det_le n B : 0 <= B -> forall M, (forall r c, (r < n)%nat -> (c < n)%nat -> Rabs (M r c) <= B) -> Rabs (det n M) <= INR (fact n) * B ^ n.
Proof.
  intros HB. induction n as [|n IH]; intros M H; [cbn; rewrite Rabs_R1; lra|]. cbn [det].
  eapply Rle_trans; [apply abs_sum|]. eapply Rle_trans; [apply (sum_le (S n) _ (fun _ => B * (INR (fact n) * B ^ n)))|].
  - intros i Hi. rewrite !Rabs_mult, pow_1_abs, Rmult_1_l.
    apply Rmult_le_compat; try apply Rabs_pos; [apply H; lia|]. apply IH. intros r c Hr Hc. unfold minor. destruct (Nat.ltb_spec r i); apply H; lia.
  - assert (HK : forall m (k : R), rsum m (fun _ => k) = INR m * k).
    { induction m as [|m IHm]; intros k; [rewrite sum_0; cbn; lra|]. rewrite sum_S, IHm, S_INR. lra. }
    rewrite HK. change (fact (S n)) with (S n * fact n)%nat. rewrite mult_INR. cbn [pow]. apply Req_le. ring.
Qed.
Lemma det_corner n : forall M, (forall c, (c < n)%nat -> M n c = 0) -> det (S n) M = M n n * det n M.
Proof.
  induction n as [|n IH]; intros M H.
  - cbn [det]. rewrite sum_S, sum_0. cbn [det pow]. lra.
  - change (det (S (S n)) M) with (rsum (S (S n)) (fun i => (-1) ^ i * M i 0%nat * det (S n) (minor i M))). rewrite sum_S.
    rewrite (H 0%nat) by lia. rewrite Rmult_0_r, Rmult_0_l, Rplus_0_r.
    change (det (S n) M) with (rsum (S n) (fun i => (-1) ^ i * M i 0%nat * det n (minor i M))). rewrite <- sum_scal. apply sum_ext. intros i Hi.
    rewrite IH.
    + assert (E : minor i M n n = M (S n) (S n)) by (unfold minor; destruct (Nat.ltb_spec n i); [lia|reflexivity]). rewrite E. ring.
    + intros c Hc. unfold minor. destruct (Nat.ltb_spec n i); [lia|]. apply H. lia.
Qed.
Lemma det_upd_id n k M : det n (upd k (M k) M) = det n M.
Proof. apply det_ext. intros r c _ _. unfold upd. destruct (Nat.eqb_spec r k) as [->|]; reflexivity. Qed.
Lemma det_upd_other n k l M : (k < n)%nat -> (l < n)%nat -> k <> l -> det n (upd k (M l) M) = 0.
Proof. intros Hk Hl Hn. apply (det_repeat n k l); auto. intros c. rewrite upd_same, upd_other by auto. reflexivity. Qed.
Lemma cramer n K (y w : rvec) k : (forall a b, K a b = K b a) -> (forall a, (a < n)%nat -> rsum n (fun b => K a b * y b) = w a) -> (k < n)%nat ->
  det n (upd k w K) = y k * det n K.
Proof.
  intros HS HY Hk. rewrite (det_ext n _ (upd k (fun c => rsum n (fun b => y b * K b c)) K)).
  2:{ intros r c Hr Hc. unfold upd. destruct (r =? k)%nat; auto. rewrite <- HY by auto. apply sum_ext. intros b Hb. rewrite (HS c b). ring. }
  rewrite (det_sum n k n y K K Hk). rewrite (sum_ext n _ (fun i => if (i =? k)%nat then y i * det n K else 0)).
  - apply (sum_delta n k (fun i => y i * det n K)). auto.
  - intros i Hi. destruct (Nat.eqb_spec i k) as [->|Hne]; [rewrite det_upd_id; reflexivity|]. rewrite det_upd_other by auto. ring.
Qed.

Definition nonsing (n : nat) (K : rmat) : Prop :=
  det n K <> 0 /\ forall w : rvec, exists y : rvec, forall a, (a < n)%nat -> rsum n (fun b => K a b * y b) = w a.
Lemma nonsing_ext n K K' : (forall a b, (a < n)%nat -> (b < n)%nat -> K a b = K' a b) -> nonsing n K -> nonsing n K'.
Proof.
  intros H (H1 & H2). split; [rewrite <- (det_ext n K K'); auto|]. intros w. destruct (H2 w) as (y & Hy). exists y. intros a Ha. rewrite <- Hy by auto.
  apply sum_ext. intros b Hb. rewrite H by auto. reflexivity.
Qed.
Lemma border n K (y : rvec) : (forall a b, K a b = K b a) -> (forall a, (a < n)%nat -> rsum n (fun b => K a b * y b) = K a n) ->
  K n n - rsum n (fun b => K n b * y b) <> 0 -> nonsing n K -> nonsing (S n) K.
Proof.
  intros HS HY Hs (HD & HJ). set (s := K n n - rsum n (fun b => K n b * y b)) in *. split.
  - set (row := fun c => 1 * K n c + (-1) * rsum n (fun b => y b * K b c)).
    assert (E : det (S n) (upd n row K) = det (S n) K).
    { unfold row. rewrite det_linear by lia. rewrite det_upd_id. rewrite (det_sum (S n) n n y K K) by lia. rewrite (sum_zero n); [ring|].
      intros i Hi. rewrite det_upd_other by lia. ring. }
    rewrite <- E, det_corner.
    + rewrite upd_same. rewrite (det_ext n (upd n row K) K) by (intros r c Hr Hc; apply upd_other; lia).
      apply Rmult_integral_contrapositive_currified; auto. unfold row. rewrite (sum_ext n (fun b => y b * K b n) (fun b => K n b * y b)) by (intros b Hb; rewrite (HS b n); ring).
      unfold s in Hs. lra.
    + intros c Hc. rewrite upd_same. unfold row. rewrite (sum_ext n _ (fun b => K c b * y b)) by (intros b Hb; rewrite (HS c b); ring). rewrite HY by auto. rewrite (HS c n). ring.
  - intros w. destruct (HJ w) as (y0 & H0). set (t := (w n - rsum n (fun b => K n b * y0 b)) / s).
    exists (fun b => if (b =? n)%nat then t else y0 b - t * y b).
    assert (EX : forall a, rsum (S n) (fun b => K a b * (if (b =? n)%nat then t else y0 b - t * y b)) = rsum n (fun b => K a b * y0 b) - t * rsum n (fun b => K a b * y b) + K a n * t).
    { intros a. rewrite sum_S, Nat.eqb_refl. f_equal. rewrite <- sum_scal, <- sum_minus. apply sum_ext. intros b Hb. destruct (Nat.eqb_spec b n); [lia|]. ring. }
    intros a Ha. rewrite EX. destruct (Nat.eq_dec a n) as [->|Hne].
    + replace (rsum n (fun b => K n b * y b)) with (K n n - s) by (unfold s; ring). replace (w n) with (rsum n (fun b => K n b * y0 b) + t * s); [ring|]. unfold t. field. exact Hs.
    + rewrite H0, HY by lia. ring.
Qed.

(** ** Dimension *)
Lemma sum_transp m p (f : nat -> R) : (p <= m)%nat -> rsum (S m) (fun k => f (if (k =? p)%nat then m else if (k =? m)%nat then p else k)) = rsum (S m) f.
Proof.
  intros Hp. destruct (Nat.eq_dec p m) as [->|Hne].
  - apply sum_ext. intros k Hk. destruct (Nat.eqb_spec k m) as [->|]; reflexivity.
  - rewrite !sum_S. replace (m =? p)%nat with false by (symmetry; apply Nat.eqb_neq; lia). rewrite Nat.eqb_refl.
    rewrite (sum_extract m p) by lia. rewrite Nat.eqb_refl. rewrite (sum_extract m p f) by lia.
    rewrite (sum_ext m (fun i => if (i =? p)%nat then 0 else f (if (i =? p)%nat then m else if (i =? m)%nat then p else i)) (fun i => if (i =? p)%nat then 0 else f i)); [lra|].
    intros i Hi. destruct (Nat.eqb_spec i p); auto. destruct (Nat.eqb_spec i m); [lia|reflexivity].
Qed.
Lemma too_many n : forall N : nat -> rvec, exists c : rvec, (exists k, (k <= n)%nat /\ c k <> 0) /\ forall a, (a < n)%nat -> rsum (S n) (fun k => c k * N k a) = 0.
Proof.
  induction n as [|n IH]; intros N. { exists (fun _ => 1). split; [exists 0%nat; split; [lia|lra]|intros; lia]. }
  assert (HP : (forall k, (k <= S n)%nat -> N k n = 0) \/ exists p, (p <= S n)%nat /\ N p n <> 0).
  { generalize (S n) as m. induction m as [|m IHm].
    - destruct (Req_dec (N 0%nat n) 0) as [E|E]; [left; intros k Hk; replace k with 0%nat by lia; auto|right; exists 0%nat; auto].
    - destruct IHm as [H|(p & Hp & Hn)]; [|right; exists p; split; auto; lia]. destruct (Req_dec (N (S m) n) 0) as [E|E]; [left|right; exists (S m); auto].
      intros k Hk. destruct (Nat.eq_dec k (S m)) as [->|]; auto. apply H. lia. }
  destruct HP as [HZ|(p & Hp & Hnz)].
  - destruct (IH N) as (c & (k & Hk & Hc) & H). exists (fun k => if (k =? S n)%nat then 0 else c k). split.
    + exists k. split; [lia|]. destruct (Nat.eqb_spec k (S n)); [lia|auto].
    + intros a Ha. rewrite sum_S, Nat.eqb_refl. rewrite (sum_ext (S n) _ (fun k => c k * N k a)) by (intros j Hj; destruct (Nat.eqb_spec j (S n)); [lia|reflexivity]).
      destruct (Nat.eq_dec a n) as [->|Hne]; [|rewrite H by lia; ring]. rewrite sum_zero; [ring|]. intros i Hi. rewrite HZ by lia. ring.
  - set (tr := fun k => if (k =? p)%nat then S n else if (k =? S n)%nat then p else k).
    set (N1 := fun k => N (tr k)). assert (E1 : N1 (S n) = N p) by (unfold N1, tr; destruct (Nat.eqb_spec (S n) p) as [->|]; [reflexivity|rewrite Nat.eqb_refl; reflexivity]).
    destruct (IH (fun k a => N1 k a - N1 k n / N p n * N p a)) as (c & (k & Hk & Hc) & H).
    set (c1 := fun k => if (k =? S n)%nat then - rsum (S n) (fun j => c j * (N1 j n / N p n)) else c k).
    assert (Htt : forall j, tr (tr j) = j).
    { intros j. unfold tr. destruct (Nat.eqb_spec j p) as [->|]; [|destruct (Nat.eqb_spec j (S n)) as [->|]].
      - destruct (Nat.eqb_spec (S n) p) as [->|]; auto. rewrite Nat.eqb_refl. reflexivity.
      - rewrite Nat.eqb_refl. reflexivity.
      - destruct (Nat.eqb_spec j p); [contradiction|]. destruct (Nat.eqb_spec j (S n)); [contradiction|reflexivity]. }
    exists (fun k => c1 (tr k)). split.
    + exists (tr k). split; [unfold tr; destruct (k =? p)%nat, (k =? S n)%nat; lia|]. rewrite Htt. unfold c1. destruct (Nat.eqb_spec k (S n)); [lia|auto].
    + assert (HS : forall a, rsum (S n) (fun k => c k * (N1 k a - N1 k n / N p n * N p a)) = rsum (S n) (fun k => c k * N1 k a) - rsum (S n) (fun j => c j * (N1 j n / N p n)) * N p a).
      { intros a. rewrite <- sum_scal_r, <- sum_minus. apply sum_ext. intros j Hj. ring. }
      assert (HA : forall a, (a < S n)%nat -> rsum (S (S n)) (fun k => c1 k * N1 k a) = 0).
      { intros a Ha. rewrite sum_S, E1. rewrite (sum_ext (S n) (fun k => c1 k * N1 k a) (fun k => c k * N1 k a)) by (intros j Hj; unfold c1; destruct (Nat.eqb_spec j (S n)); [lia|reflexivity]).
        unfold c1. rewrite Nat.eqb_refl. destruct (Nat.eq_dec a n) as [->|Hne].
        - rewrite (sum_ext (S n) (fun j => c j * (N1 j n / N p n)) (fun j => (c j * N1 j n) * / N p n)) by (intros; unfold Rdiv; ring). rewrite sum_scal_r. field. exact Hnz.
        - specialize (H a ltac:(lia)). rewrite HS in H. lra. }
      intros a Ha. transitivity (rsum (S (S n)) (fun k => c1 k * N1 k a)); [|exact (HA a Ha)]. rewrite <- (sum_transp (S n) p (fun k => c1 k * N1 k a)) by auto. fold tr.
      apply sum_ext. intros j Hj. unfold N1. fold (tr j). rewrite Htt. reflexivity.
Qed.
Lemma independent_le n q N : independent n q N -> (q <= n)%nat.
Proof.
  intros H. destruct (Nat.le_gt_cases q n) as [|Hgt]; auto. exfalso. destruct (too_many n N) as (c & (k & Hk & Hc) & HE).
  assert (E : (if (k <? S n)%nat then c k else 0) = 0).
  { apply (H (fun k => if (k <? S n)%nat then c k else 0)); [|lia]. intros a Ha. transitivity (rsum (S n) (fun k => c k * N k a)); [|exact (HE a Ha)]. replace q with (S n + (q - S n))%nat by lia. rewrite sum_app.
    rewrite (sum_zero (q - S n)). - rewrite Rplus_0_r. apply sum_ext. intros j Hj. apply Nat.ltb_lt in Hj. rewrite Hj. reflexivity.
    - intros i Hi. cbv beta. replace (S n + i <? S n)%nat with false by (symmetry; apply Nat.ltb_ge; lia). apply Rmult_0_l. }
  destruct (Nat.ltb_spec k (S n)); [contradiction|lia].
Qed.

(** ** The KKT matrices of a problem *)
Lemma sum_trunc n m (f : nat -> R) : (m <= n)%nat -> (forall i, (m <= i < n)%nat -> f i = 0) -> rsum n f = rsum m f.
Proof. intros Hm H. replace n with (m + (n - m))%nat by lia. rewrite sum_app, (sum_zero (n - m)), Rplus_0_r; auto. intros i Hi. apply H. lia. Qed.
Lemma hess_sym pb a b : hess pb a b = hess pb b a.
Proof. apply gsym_sym. Qed.
Lemma nonsing_hess pb : posdef (nv pb) (hess pb) -> forall m, (m <= nv pb)%nat -> nonsing m (hess pb).
Proof.
  intros HD. set (n := nv pb) in *. set (G := hess pb) in *. induction m as [|m IH]; intros Hm.
  - split; [cbn; lra|]. intros w. exists w. intros; lia.
  - pose proof (IH ltac:(lia)) as HN. destruct HN as (HN1 & HN2). destruct (HN2 (fun a => G a m)) as (y & Hy).
    apply (border m G y); auto; [apply hess_sym| |split; auto].
    set (s := G m m - rsum m (fun b => G m b * y b)).
    set (v := fun b => if (b <? m)%nat then - y b else if (b =? m)%nat then 1 else 0).
    assert (Ev : forall i, rsum n (fun j => G i j * v j) = G i m - rsum m (fun b => G i b * y b)).
    { intros i. rewrite (sum_trunc n (S m)); [|lia|].
      - rewrite sum_S. unfold v at 2. replace (m <? m)%nat with false by (symmetry; apply Nat.ltb_ge; lia). rewrite Nat.eqb_refl.
        rewrite (sum_ext m _ (fun b => - (G i b * y b))). + rewrite sum_opp. ring.
        + intros b Hb. unfold v. apply Nat.ltb_lt in Hb. rewrite Hb. ring.
      - intros j Hj. unfold v. replace (j <? m)%nat with false by (symmetry; apply Nat.ltb_ge; lia). replace (j =? m)%nat with false by (symmetry; apply Nat.eqb_neq; lia). ring. }
    assert (Eq : quad n G v = s).
    { unfold quad. rewrite (sum_ext n _ (fun i => if (i =? m)%nat then s else 0)); [apply (sum_delta n m (fun _ => s)); lia|].
      intros i Hi. rewrite Ev. destruct (Nat.eqb_spec i m) as [->|Hne].
      - unfold v. replace (m <? m)%nat with false by (symmetry; apply Nat.ltb_ge; lia). rewrite Nat.eqb_refl. unfold s. ring.
      - unfold v. destruct (Nat.ltb_spec i m) as [Hl|Hl]; [rewrite Hy by auto; ring|]. destruct (Nat.eqb_spec i m); [contradiction|ring]. }
    assert (0 < s); [|lra]. rewrite <- Eq. apply HD. exists m. split; [lia|]. unfold v. replace (m <? m)%nat with false by (symmetry; apply Nat.ltb_ge; lia). rewrite Nat.eqb_refl. lra.
Qed.

Definition kktm (pb : rproblem) (w : list nat) : rmat := fun a b =>
  if (a <? nv pb)%nat then if (b <? nv pb)%nat then hess pb a b else cvec pb (nth (b - nv pb) w 0%nat) a
  else if (b <? nv pb)%nat then cvec pb (nth (a - nv pb) w 0%nat) b else 0.
Lemma kktm_sym pb w a b : kktm pb w a b = kktm pb w b a.
Proof. unfold kktm. destruct (a <? nv pb)%nat, (b <? nv pb)%nat; auto. apply hess_sym. Qed.
Definition cat (n : nat) (z r : rvec) : rvec := fun b => if (b <? n)%nat then z b else r (b - n)%nat.
Lemma kktm_row pb w q z r a : (a < nv pb)%nat ->
  rsum (nv pb + q) (fun b => kktm pb w a b * cat (nv pb) z r b) = rsum (nv pb) (fun b => hess pb a b * z b) + rsum q (fun k => r k * cvec pb (nth k w 0%nat) a).
Proof.
  intros Ha. rewrite sum_app. unfold kktm, cat. apply Nat.ltb_lt in Ha. rewrite Ha. f_equal.
  - apply sum_ext. intros b Hb. apply Nat.ltb_lt in Hb. rewrite Hb. reflexivity.
  - apply sum_ext. intros k Hk. replace (nv pb + k <? nv pb)%nat with false by (symmetry; apply Nat.ltb_ge; lia). replace (nv pb + k - nv pb)%nat with k by lia. ring.
Qed.
Lemma kktm_low pb w q z r k : rsum (nv pb + q) (fun b => kktm pb w (nv pb + k) b * cat (nv pb) z r b) = rdot (nv pb) (cvec pb (nth k w 0%nat)) z.
Proof.
  rewrite (sum_trunc _ (nv pb)); [|lia|].
  - rewrite dot_def. apply sum_ext. intros b Hb. unfold kktm, cat. apply Nat.ltb_lt in Hb. rewrite Hb.
    replace (nv pb + k <? nv pb)%nat with false by (symmetry; apply Nat.ltb_ge; lia). replace (nv pb + k - nv pb)%nat with k by lia. reflexivity.
  - intros b Hb. unfold kktm. replace (nv pb + k <? nv pb)%nat with false by (symmetry; apply Nat.ltb_ge; lia).
    replace (b <? nv pb)%nat with false by (symmetry; apply Nat.ltb_ge; lia). ring.
Qed.
Lemma cat_split n (y : rvec) b : cat n y (fun k => y (n + k)%nat) b = y b.
Proof. unfold cat. destruct (Nat.ltb_spec b n); auto. f_equal. lia. Qed.

(** [v] is a combination of the normals of the constraints in [w] *)
Definition inspan (pb : rproblem) (w : list nat) (v : rvec) : Prop :=
  exists c : rvec, forall a, (a < nv pb)%nat -> v a = rsum (length w) (fun k => c k * cvec pb (nth k w 0%nat) a).
Lemma inspan_zero pb w v : (forall a, (a < nv pb)%nat -> v a = 0) -> inspan pb w v.
Proof. intros H. exists (fun _ => 0). intros a Ha. rewrite H by auto. symmetry. apply sum_zero. intros; ring. Qed.
Lemma inspan_lin pb w u v t : inspan pb w u -> inspan pb w v -> inspan pb w (fun a => u a + t * v a).
Proof. intros (c & Hc) (d & Hd). exists (fun k => c k + t * d k). intros a Ha. rewrite Hc, Hd by auto. rewrite <- sum_scal, <- sum_plus. apply sum_ext. intros; ring. Qed.
Lemma inspan_sum pb w (r : rvec) m : (forall j, (j < m)%nat -> r j = 0 \/ inspan pb w (cvec pb j)) -> inspan pb w (fun a => rsum m (fun j => r j * cvec pb j a)).
Proof.
  induction m as [|m IH]; intros H; [apply inspan_zero; intros; apply sum_0|].
  assert (HI : inspan pb w (fun a => rsum m (fun j => r j * cvec pb j a) + r m * cvec pb m a)).
  { destruct (H m ltac:(lia)) as [E|E].
    - rewrite E. destruct IH as (c & Hc); [intros; apply H; lia|]. exists c. intros a Ha. rewrite <- Hc by auto. ring.
    - apply inspan_lin; auto. }
  destruct HI as (c & Hc). exists c. intros a Ha. rewrite sum_S. apply Hc. auto.
Qed.
Lemma inspan_more pb w w' v : inspan pb w v -> inspan pb (w ++ w') v.
Proof.
  intros (c & Hc). exists (fun k => if (k <? length w)%nat then c k else 0). intros a Ha. rewrite Hc by auto. rewrite app_length, sum_app, (sum_zero (length w')), Rplus_0_r.
  - apply sum_ext. intros k Hk. rewrite app_nth1 by auto. apply Nat.ltb_lt in Hk. rewrite Hk. reflexivity.
  - intros i Hi. replace (length w + i <? length w)%nat with false by (symmetry; apply Nat.ltb_ge; lia). ring.
Qed.
Lemma inspan_in pb w k : (k < length w)%nat -> inspan pb w (cvec pb (nth k w 0%nat)).
Proof.
  intros Hk. exists (fun j => if (j =? k)%nat then 1 else 0). intros a Ha. rewrite (sum_ext _ _ (fun j => if (j =? k)%nat then cvec pb (nth j w 0%nat) a else 0)).
  - symmetry. apply (sum_delta (length w) k (fun j => cvec pb (nth j w 0%nat) a)). auto.
  - intros j Hj. destruct (j =? k)%nat; ring.
Qed.

(** A basis of the normals of the constraints in [w], with a nonsingular KKT matrix *)
Lemma basis pb w : posdef (nv pb) (hess pb) -> exists w', incl w' w /\ nonsing (nv pb + length w') (kktm pb w') /\ forall j, In j w -> inspan pb w' (cvec pb j).
Proof.
  intros HD. set (n := nv pb). induction w as [|j w IH] using rev_ind.
  - exists []. split; [intros x Hx; exact Hx|]. split; [|intros j []]. cbn [length]. rewrite Nat.add_0_r.
    eapply nonsing_ext; [|apply (nonsing_hess pb HD n); apply le_n]. intros a b Ha Hb. unfold kktm. fold n. apply Nat.ltb_lt in Ha, Hb. rewrite Ha, Hb. reflexivity.
  - destruct IH as (w' & H1 & H2 & H3). set (q := length w').
    assert (HE : forall a b, (a < n + q)%nat -> (b < n + q)%nat -> kktm pb w' a b = kktm pb (w' ++ [j]) a b).
    { intros a b Ha Hb. unfold kktm. fold n. destruct (Nat.ltb_spec a n), (Nat.ltb_spec b n); auto; rewrite app_nth1 by (fold q; lia); reflexivity. }
    set (K := kktm pb (w' ++ [j])). pose proof (nonsing_ext _ _ _ HE H2) as H2'. fold K in H2'.
    destruct (proj2 H2' (fun a => K a (n + q)%nat)) as (y & Hy).
    set (z := y). set (r := fun k => y (n + k)%nat).
    assert (Ey : forall a, rsum (n + q) (fun b => K a b * y b) = rsum (n + q) (fun b => K a b * cat n z r b)).
    { intros a. apply sum_ext. intros b Hb. unfold z, r. rewrite cat_split. reflexivity. }
    assert (Enth : nth q (w' ++ [j]) 0%nat = j) by (unfold q; rewrite app_nth2, Nat.sub_diag by lia; reflexivity).
    assert (Eself : nth (n + q - n) (w' ++ [j]) 0%nat = j) by (replace (n + q - n)%nat with q by lia; exact Enth).
    assert (Hz1 : forall a, (a < n)%nat -> rsum n (fun b => hess pb a b * z b) + rsum q (fun k => r k * cvec pb (nth k (w' ++ [j]) 0%nat) a) = cvec pb j a).
    { intros a Ha. pose proof (Hy a ltac:(lia)) as E. rewrite Ey in E. unfold K in E. unfold n in E. rewrite kktm_row in E by auto. fold n in E. rewrite E.
      unfold kktm. fold n. apply Nat.ltb_lt in Ha. rewrite Ha. replace (n + q <? n)%nat with false by (symmetry; apply Nat.ltb_ge; lia). rewrite Eself. reflexivity. }
    assert (Hz2 : forall k, (k < q)%nat -> rdot n (cvec pb (nth k (w' ++ [j]) 0%nat)) z = 0).
    { intros k Hk. pose proof (Hy (n + k)%nat ltac:(lia)) as E. rewrite Ey in E. unfold K in E. unfold n in E. rewrite kktm_low in E. fold n in E. rewrite E.
      unfold kktm. fold n. replace (n + k <? n)%nat with false by (symmetry; apply Nat.ltb_ge; lia). replace (n + q <? n)%nat with false by (symmetry; apply Nat.ltb_ge; lia). reflexivity. }
    assert (Hs : rdot n (cvec pb j) z = quad n (hess pb) z).
    { rewrite dot_def. rewrite (sum_ext n _ (fun a => z a * rsum n (fun b => hess pb a b * z b) + rsum q (fun k => r k * (cvec pb (nth k (w' ++ [j]) 0%nat) a * z a)))).
      - rewrite sum_plus. unfold quad. rewrite sum_swap. rewrite (sum_zero q); [rops; lra|]. intros k Hk. rewrite sum_scal. rewrite <- dot_def. rewrite Hz2 by auto. ring.
      - intros a Ha. rewrite <- Hz1 by auto. rewrite Rmult_plus_distr_r. f_equal; [apply Rmult_comm|]. rewrite <- sum_scal_r. apply sum_ext. intros; ring. }
    assert (Hcase : (forall a, (a < n)%nat -> z a = 0) \/ 0 < quad n (hess pb) z).
    { clear -HD. assert (Hc : (forall a, (a < n)%nat -> z a = 0) \/ exists a, (a < n)%nat /\ z a <> 0).
      { generalize n as m. induction m as [|m IH]; [left; intros; lia|]. destruct IH as [H|(a & Ha & Hn)]; [|right; exists a; split; auto; lia].
        destruct (Req_dec (z m) 0); [left|right; exists m; auto]. intros a Ha. destruct (Nat.eq_dec a m) as [->|]; auto. apply H. lia. }
      destruct Hc as [H|H]; auto. }
    destruct Hcase as [Hz0|Hpos].
    + exists w'. split; [intros x Hx; apply in_or_app; left; apply H1; auto|]. split; auto. intros i Hi. apply in_app_or in Hi as [Hi|[<-|[]]]; auto.
      exists r. intros a Ha. rewrite <- Hz1 by auto. rewrite sum_zero by (intros b Hb; rewrite Hz0 by auto; ring). rewrite Rplus_0_l. fold q. apply sum_ext. intros k Hk. rewrite app_nth1 by auto. reflexivity.
    + exists (w' ++ [j]). split; [|split].
      * intros x Hx. apply in_app_or in Hx as [Hx|Hx]; apply in_or_app; auto.
      * rewrite app_length. cbn [length]. fold q. replace (n + (q + 1))%nat with (S (n + q)) by lia. fold K. apply (border (n + q) K y); auto; [apply kktm_sym|].
        rewrite Ey. unfold K. unfold n. rewrite kktm_low. fold n. rewrite Enth, Hs. unfold kktm. fold n. replace (n + q <? n)%nat with false by (symmetry; apply Nat.ltb_ge; lia). lra.
      * intros i Hi. apply in_app_or in Hi as [Hi|[<-|[]]]; [apply inspan_more; auto|]. rewrite <- Enth at 2. apply inspan_in. rewrite app_length. cbn [length]. fold q. lia.
Qed.

(** ** Integer data *)
Record integer_data (pb : rproblem) (M : nat) : Prop := {
  id_G : forall a b, (b <= a)%nat -> (a < nv pb)%nat -> integral (p_G pb a b) /\ Rabs (p_G pb a b) <= INR M;
  id_C : forall a k, (a < nv pb)%nat -> (k < nc pb)%nat -> integral (p_C pb a k) /\ Rabs (p_C pb a k) <= INR M;
  id_1 : (1 <= M)%nat
}.
Lemma id_hess pb M a b : integer_data pb M -> (a < nv pb)%nat -> (b < nv pb)%nat -> integral (hess pb a b) /\ Rabs (hess pb a b) <= INR M.
Proof. intros [H1 H2 H3] Ha Hb. unfold hess, gsym. destruct (Nat.leb_spec b a); apply H1; lia. Qed.
Lemma id_cvec pb M i a : integer_data pb M -> (a < nv pb)%nat -> integral (cvec pb i a) /\ Rabs (cvec pb i a) <= INR M.
Proof.
  intros [H1 H2 H3] Ha. unfold cvec. destruct (Nat.ltb_spec i (nc pb)); [apply H2; auto|].
  assert (1 <= INR M) by (apply (le_INR 1 M) in H3; exact H3).
  destruct (a =? i - nc pb)%nat; [split; [apply int_1|rewrite Rabs_R1; auto]|split; [apply int_0|rewrite Rabs_R0; lra]].
Qed.
Lemma id_kktm pb M w a b : integer_data pb M -> integral (kktm pb w a b) /\ Rabs (kktm pb w a b) <= INR M.
Proof.
  intros HI. assert (0 <= INR M) by apply pos_INR. unfold kktm. destruct (Nat.ltb_spec a (nv pb)), (Nat.ltb_spec b (nv pb)).
  - apply id_hess; auto.
  - apply id_cvec; auto.
  - apply id_cvec; auto.
  - split; [apply int_0|rewrite Rabs_R0; auto].
Qed.

Lemma nonsing_indep pb w : nonsing (nv pb + length w) (kktm pb w) -> independent (nv pb) (length w) (fun k => cvec pb (nth k w 0%nat)).
Proof.
  intros (HD & _) c Hc k Hk.
  assert (E : det (nv pb + length w) (upd (nv pb + k) (fun _ => 0) (kktm pb w)) = cat (nv pb) (fun _ => 0) c (nv pb + k)%nat * det (nv pb + length w) (kktm pb w)).
  { apply cramer; [apply kktm_sym| |lia]. intros a Ha. destruct (Nat.lt_ge_cases a (nv pb)) as [L|G].
    - rewrite kktm_row by auto. rewrite Hc by auto. rewrite sum_zero by (intros; ring). ring.
    - replace a with (nv pb + (a - nv pb))%nat by lia. rewrite kktm_low. rewrite dot_def. apply sum_zero. intros; rops; ring. }
  assert (E0 : det (nv pb + length w) (upd (nv pb + k) (fun _ => 0) (kktm pb w)) = 0).
  { rewrite (det_ext _ _ (upd (nv pb + k) (fun c => 0 * 0 + 0 * 0) (kktm pb w))); [rewrite (det_linear _ (nv pb + k) 0 0 (fun _ => 0) (fun _ => 0)) by lia; ring|].
    intros r d _ _. unfold upd. destruct (r =? nv pb + k)%nat; auto. ring. }
  rewrite E0 in E. symmetry in E. apply Rmult_integral in E as [E|E]; [|contradiction]. unfold cat in E.
  replace (nv pb + k <? nv pb)%nat with false in E by (symmetry; apply Nat.ltb_ge; lia). replace (nv pb + k - nv pb)%nat with k in E by lia. exact E.
Qed.

(** a component of a solution of an integer system is zero or at least 1/|det| *)
Lemma component pb M w (y v : rvec) k : integer_data pb M -> nonsing (nv pb + length w) (kktm pb w) -> (k < nv pb + length w)%nat ->
  (forall a, (a < nv pb + length w)%nat -> rsum (nv pb + length w) (fun b => kktm pb w a b * y b) = v a) ->
  (forall a, (a < nv pb + length w)%nat -> integral (v a)) ->
  y k <> 0 -> / (INR (fact (2 * nv pb)) * INR M ^ (2 * nv pb)) <= Rabs (y k).
Proof.
  intros HI HN Hk Hy Hv Hnz. set (N := (nv pb + length w)%nat) in *. set (D := det N (kktm pb w)).
  pose proof (independent_le _ _ _ (nonsing_indep pb w HN)) as Hq.
  assert (HD : Rabs D <= INR (fact (2 * nv pb)) * INR M ^ (2 * nv pb)).
  { eapply Rle_trans; [apply (det_le N (INR M)); [apply pos_INR|]; intros; apply id_kktm; auto|].
    assert (1 <= INR M) by (apply (le_INR 1 M), HI).
    apply Rmult_le_compat; [apply pos_INR|apply pow_le; lra|apply le_INR, fact_le; unfold N; lia|apply Rle_pow; auto; unfold N; lia]. }
  assert (HD0 : D <> 0) by apply HN.
  assert (HDp : 0 < Rabs D) by (apply Rabs_pos_lt; auto).
  pose proof (cramer N (kktm pb w) y v k (kktm_sym pb w) Hy Hk) as E. fold D in E.
  assert (H1 : 1 <= Rabs (det N (upd k v (kktm pb w)))).
  { apply int_ge1.
    - apply det_int. intros r c Hr Hc. unfold upd. destruct (r =? k)%nat; [apply Hv; auto|apply (id_kktm pb M w r c HI)].
    - rewrite E. apply Rmult_integral_contrapositive_currified; auto. }
  rewrite E, Rabs_mult in H1.
  apply Rle_trans with (/ Rabs D); [apply Rinv_le_contravar; auto|].
  apply (Rmult_le_reg_r (Rabs D)); auto. rewrite Rinv_l by lra. exact H1.
Qed.

Theorem integer_gap pb M : integer_data pb M -> posdef (nv pb) (hess pb) -> INR (fact (2 * nv pb)) * INR M ^ (2 * nv pb) < 10 ^ 14 -> tolerance_gap pb.
Proof.
  intros HI HD HB W i z r Hi [P1 P2 P3]. set (n := nv pb) in *.
  destruct (basis pb (filter W (seq 0 (ncb pb))) HD) as (w & Hincl & HN & HS). fold n in HN.
  destruct (inspan_sum pb w r (ncb pb)) as (c & Hc).
  { intros j Hj. destruct (W j) eqn:Ej; [right|left; apply P1; auto]. apply HS. apply filter_In. split; auto. apply in_seq. lia. }
  set (y := cat n z c).
  assert (Hy : forall a, (a < n + length w)%nat -> rsum (n + length w) (fun b => kktm pb w a b * y b) = cat n (cvec pb i) (fun _ => 0) a).
  { intros a Ha. unfold y. destruct (Nat.lt_ge_cases a n) as [L|G].
    - unfold n. rewrite kktm_row by auto. fold n. rewrite P2 by auto. rewrite Hc by auto. unfold cat. apply Nat.ltb_lt in L. rewrite L. lra.
    - replace a with (n + (a - n))%nat by lia. unfold n. rewrite kktm_low. fold n. unfold cat. replace (n + (a - n) <? n)%nat with false by (symmetry; apply Nat.ltb_ge; lia).
      assert (HIn : In (nth (a - n) w 0%nat) w) by (apply nth_In; lia). apply Hincl in HIn. apply filter_In in HIn as (H1 & H2). apply in_seq in H1. apply P3; auto; lia. }
  assert (Hcase : (forall a, (a < n)%nat -> z a = 0) \/ exists a, (a < n)%nat /\ z a <> 0).
  { clear. generalize n as m. induction m as [|m IH]; [left; intros; lia|]. destruct IH as [H|(a & Ha & Hn)]; [|right; exists a; split; auto; lia].
    destruct (Req_dec (z m) 0); [left|right; exists m; auto]. intros a Ha. destruct (Nat.eq_dec a m) as [->|]; auto. apply H. lia. }
  destruct Hcase as [Hz|(a & Ha & Hz)]; [left; auto|right].
  assert (Ey : y a = z a) by (unfold y, cat; apply Nat.ltb_lt in Ha; rewrite Ha; reflexivity).
  assert (HC : / (INR (fact (2 * n)) * INR M ^ (2 * n)) <= Rabs (y a)).
  { apply (component pb M w y (cat n (cvec pb i) (fun _ => 0))); auto; [fold n; lia| |congruence].
    intros b Hb. unfold cat. destruct (Nat.ltb_spec b n); [apply (id_cvec pb M i b HI); auto|apply int_0]. }
  rewrite Ey in HC.
  assert (HP : 0 < INR (fact (2 * n)) * INR M ^ (2 * n)).
  { assert (1 <= INR M) by (apply (le_INR 1 M), HI). apply Rmult_lt_0_compat; [apply lt_0_INR, lt_O_fact|apply pow_lt; lra]. }
  apply Rlt_le_trans with (/ (INR (fact (2 * n)) * INR M ^ (2 * n))); [apply Rinv_lt_contravar; auto; apply Rmult_lt_0_compat; auto; apply pow_lt; lra|].
  eapply Rle_trans; [exact HC|]. rewrite <- sqrt_Rsqr_abs. apply sqrt_le_1_alt. rewrite dot_def. unfold Rsqr.
  rewrite (sum_extract n a) by auto. rops. assert (0 <= rsum n (fun i => if (i =? a)%nat then 0 else z i * z i)); [|lra].
  apply sum_nonneg. intros b Hb. destruct (b =? a)%nat; [lra|]. nra.
Qed.

(** Backward error of the Cholesky factorisation of Num.v in rounded arithmetic. *)
From Coq Require Import List Arith ZArith Lia Bool Reals Lra.
From Verif Require Import Base Num LinAlg FloatStd.
Import ListNotations.
Local Open Scope R_scope.

Section Eqs.
Variable S : ops.
(** the number under the root of the j-th diagonal entry, or divided by it *)
Definition piv (n : nat) (G0 L : nat -> nat -> carrier S) (i j : nat) : carrier S := @subn S [1; n; j; i]%nat j (G0 i j) (fun t => mul S (L i t) (L j t)).
(** the equations satisfied by the first [k] columns *)
Definition chol_eqs (n k : nat) (G0 L : nat -> nat -> carrier S) : Prop :=
  (forall j, (j < k)%nat -> L j j = sqrt_ S (piv n G0 L j j) /\ leb S (piv n G0 L j j) (zero S) = false) /\
  (forall i j, (j < k)%nat -> (j < i < n)%nat -> L i j = div S (piv n G0 L i j) (L j j)) /\
  (forall i j, ((k <= j)%nat \/ (i < j)%nat \/ (n <= i)%nat) -> L i j = G0 i j).

Lemma llt_loop_eqs cnt : forall n k G0 G, (k + cnt = n)%nat -> chol_eqs n k G0 G ->
  match @llt_loop S n k cnt G with
  | (None, L) => chol_eqs n n G0 L
  | (Some p, L) => (p < n)%nat /\ chol_eqs n p G0 L /\ leb S (piv n G0 L p p) (zero S) = true
  end.
Proof.
  induction cnt as [|c IH]; intros n k G0 G Hk HI; cbn [llt_loop].
  - assert (k = n) as -> by lia. exact HI.
  - destruct HI as (I1 & I2 & I3).
    assert (Ekk : G k k = G0 k k) by (apply I3; lia).
    destruct (leb S (subn [1; n; k; k]%nat k (G k k) (fun j => mul S (G k j) (G k j))) (zero S)) eqn:El.
    + split; [lia|]. split; [split; [exact I1|split; [exact I2|exact I3]]|]. unfold piv. rewrite <- Ekk. exact El.
    + apply IH; [lia|]. rewrite mm_id.
      set (p := sqrt_ S _). set (G' := fun i j : nat => if (j =? k)%nat && (i =? k)%nat then p else _).
      assert (Eold : forall i j, j <> k -> G' i j = G i j).
      { intros i j Hj. unfold G'. destruct (Nat.eqb_spec j k); [lia|]. reflexivity. }
      assert (Edot : forall i j, (j <= k)%nat -> piv n G0 G' i j = piv n G0 G i j).
      { intros i j Hm. unfold piv. apply subn_ext. intros t Ht. rewrite !Eold by lia. reflexivity. }
      split; [|split].
      * intros j Hj. destruct (Nat.eq_dec j k) as [->|Hne].
        -- rewrite Edot by lia. unfold G' at 1. rewrite Nat.eqb_refl. cbn [andb]. unfold piv. rewrite <- Ekk. split; [reflexivity|exact El].
        -- rewrite Edot, Eold by lia. apply I1. lia.
      * intros i j Hj Hi. destruct (Nat.eq_dec j k) as [->|Hne].
        -- rewrite Edot by lia. unfold G'. rewrite Nat.eqb_refl. destruct (Nat.eqb_spec i k); [lia|].
           destruct (Nat.ltb_spec k i); [|lia]. destruct (Nat.ltb_spec i n); [|lia]. cbn [andb].
           f_equal. unfold piv. rewrite (I3 i k) by lia. reflexivity.
        -- rewrite Edot, !Eold by lia. apply I2; lia.
      * intros i j Hij. unfold G'. destruct (Nat.eqb_spec j k) as [->|]; cbn [andb].
        -- destruct (Nat.eqb_spec i k); [lia|]. destruct (Nat.ltb_spec k i); cbn [andb]; [|apply I3; lia].
           destruct (Nat.ltb_spec i n); [lia|]. apply I3; lia.
        -- apply I3. lia.
Qed.
Lemma llt_eqs n G0 :
  match @llt S n G0 with
  | (None, L) => chol_eqs n n G0 L
  | (Some p, L) => (p < n)%nat /\ chol_eqs n p G0 L /\ leb S (piv n G0 L p p) (zero S) = true
  end.
Proof.
  unfold llt. apply llt_loop_eqs; [lia|]. split; [intros; lia|]. split; [intros; lia|auto].
Qed.
End Eqs.

Lemma abs_both x y : Rabs x <= y -> - y <= x <= y.
Proof. unfold Rabs. destruct (Rcase_abs x); lra. Qed.

Section Err.
Variable S : ops.
Variable fin : carrier S -> Prop.
Variable v : carrier S -> R.
Variables u eta big : R.
Hypothesis M : std_model S fin v u eta big.

Lemma off_diag_err key j (a b : nat -> carrier S) g p : fin p -> 0 < v p -> fin (div S (@subn S key j g (fun t => mul S (a t) (b t))) p) ->
  let y := v (div S (@subn S key j g (fun t => mul S (a t) (b t))) p) in
  Rabs (rsum j (fun t => v (a t) * v (b t)) + y * v p - v g)
   <= gam u (j + 2) * (rsum j (fun t => Rabs (v (a t) * v (b t))) + Rabs (y * v p)) + (INR j + v p) * (1 + u) ^ (j + 1) * eta.
Proof.
  pose proof (sm_u M) as Hu. pose proof (sm_eta M) as He.
  intros Fp Hp F. destruct (sm_div M _ _ F) as (Ft & _). destruct (sm_div_inv M _ _ F Fp ltac:(lra)) as (d & e & Hd & Hee & Ey).
  destruct (subn_err S fin v u eta big M key j g a b Ft) as (_ & _ & Hs).
  cbv zeta in *. set (r := @subn S key j g _) in *. set (y := v (div S r p)) in *. set (sg := rsum j (fun t => v (a t) * v (b t))) in *.
  assert (W : 0 <= rsum j (fun t => Rabs (v (a t) * v (b t)))) by (apply sum_nonneg; intros; apply Rabs_pos).
  set (w := rsum j (fun t => Rabs (v (a t) * v (b t)))) in *. set (q := v p) in *.
  assert (Er : v r = y * q * (1 + d) + q * e) by (replace (y * q * (1 + d) + q * e) with (q * (y * (1 + d) + e)) by ring; rewrite Ey; field; lra).
  assert (Hq : Rabs (q * e) <= q * eta) by (rewrite Rabs_mult, (Rabs_pos_eq q) by lra; apply Rmult_le_compat_l; lra).
  set (yp := y * q) in *. pose proof (Rabs_pos yp) as Py.
  assert (Hyd : Rabs (yp * d) <= u * Rabs yp) by (rewrite Rabs_mult, Rmult_comm; apply Rmult_le_compat_r; auto).
  assert (Hr1 : Rabs (v r) <= (1 + u) * Rabs yp + q * eta).
  { rewrite Er. replace (yp * (1 + d) + q * e) with (yp + (yp * d + q * e)) by ring. pose proof (Rabs_triang yp (yp * d + q * e)). pose proof (Rabs_triang (yp * d) (q * e)). lra. }
  assert (Hr2 : Rabs (yp - v r) <= u * Rabs yp + q * eta).
  { rewrite Er. replace (yp - (yp * (1 + d) + q * e)) with (- (yp * d + q * e)) by ring. rewrite Rabs_Ropp. pose proof (Rabs_triang (yp * d) (q * e)). lra. }
  replace (sg + yp - v g) with ((sg + v r - v g) + (yp - v r)) by ring. eapply Rle_trans; [apply Rabs_triang|].
  assert (Hg0 : 0 <= gam u (j + 1)) by (apply gam_ge0; lra).
  assert (H1 : gam u (j + 1) * Rabs (v r) <= gam u (j + 1) * ((1 + u) * Rabs yp + q * eta)) by (apply Rmult_le_compat_l; auto).
  assert (E2 : gam u (j + 2) = gam u (j + 1) * (1 + u) + u) by (replace (j + 2)%nat with (Datatypes.S (j + 1)) by lia; apply gam_S).
  assert (G2 : gam u (j + 1) * w <= gam u (j + 2) * w) by (apply Rmult_le_compat_r; [exact W|apply gam_le; [lra|lia]]).
  assert (N2 : INR j * ((1 + u) ^ j * eta) <= INR j * (1 + u) ^ (j + 1) * eta).
  { rewrite <- Rmult_assoc. apply Rmult_le_compat_r; [exact He|]. apply Rmult_le_compat_l; [apply pos_INR|]. apply Rle_pow; [lra|lia]. }
  replace (gam u (j + 2) * (w + Rabs yp) + (INR j + q) * (1 + u) ^ (j + 1) * eta)
    with (gam u (j + 2) * w + INR j * (1 + u) ^ (j + 1) * eta + (gam u (j + 1) * ((1 + u) * Rabs yp + q * eta) + (u * Rabs yp + q * eta))).
  2:{ rewrite E2. unfold gam. ring. }
  lra.
Qed.

Lemma diag_err key j (a : nat -> carrier S) g : let r := @subn S key j g (fun t => mul S (a t) (a t)) in fin (sqrt_ S r) -> leb S r (zero S) = false ->
  let p := v (sqrt_ S r) in
  0 < p /\ Rabs (rsum j (fun t => v (a t) * v (a t)) + p * p - v g)
   <= gam u (j + 3) * (rsum j (fun t => Rabs (v (a t) * v (a t))) + Rabs (p * p)) + INR j * (1 + u) ^ j * eta.
Proof.
  pose proof (sm_u M) as Hu. pose proof (sm_eta M) as He.
  intros r F Hl. destruct (sm_sqrt M _ F) as (Fx & d2 & Hd2 & Ep). destruct (sm_sqrt_inv M _ F) as (d & Hd & Ed).
  destruct (subn_err S fin v u eta big M key j g a a Fx) as (_ & _ & Hs). fold r in Hs.
  assert (Hx : 0 < v r).
  { destruct (Rle_or_lt (v r) 0) as [H|]; auto. exfalso.
    rewrite <- (proj2 (sm_0 M)) in H. apply (sm_le M _ _ Fx (proj1 (sm_0 M))) in H. congruence. }
  cbv zeta. set (p := v (sqrt_ S r)) in *. set (sg := rsum j (fun t => v (a t) * v (a t))) in *.
  assert (W : 0 <= rsum j (fun t => Rabs (v (a t) * v (a t)))) by (apply sum_nonneg; intros; apply Rabs_pos).
  set (w := rsum j (fun t => Rabs (v (a t) * v (a t)))) in *. apply abs_both in Hd2. pose proof Hd as Hd'. apply abs_both in Hd'.
  assert (Hsx : 0 < sqrt (v r)) by (apply sqrt_lt_R0; auto).
  assert (Hss : sqrt (v r) * sqrt (v r) = v r) by (apply sqrt_sqrt; lra).
  assert (Hp : 0 < p) by (rewrite Ep; apply Rmult_lt_0_compat; lra).
  split; [exact Hp|].
  assert (Er : v r = p * p * ((1 + d) * (1 + d))) by (rewrite <- Hss, <- Ed; ring).
  assert (Hpp : 0 < p * p) by (apply Rmult_lt_0_compat; auto). rewrite (Rabs_pos_eq (p * p)) by lra. set (P := p * p) in *.
  assert (Hf : 1 - gam u 2 <= (1 + d) * (1 + d) <= 1 + gam u 2) by (unfold gam; simpl; split; nra).
  assert (Hr1 : Rabs (v r) <= (1 + gam u 2) * P) by (rewrite Rabs_pos_eq by lra; rewrite Er, Rmult_comm; apply Rmult_le_compat_r; lra).
  assert (Hr2 : Rabs (P - v r) <= gam u 2 * P).
  { rewrite Er. replace (P - P * ((1 + d) * (1 + d))) with (P * (1 - (1 + d) * (1 + d))) by ring. rewrite Rabs_mult, (Rabs_pos_eq P) by lra. rewrite Rmult_comm. apply Rmult_le_compat_r; [lra|].
    apply Rabs_le. lra. }
  replace (sg + P - v g) with ((sg + v r - v g) + (P - v r)) by ring. eapply Rle_trans; [apply Rabs_triang|].
  assert (Hg0 : 0 <= gam u (j + 1)) by (apply gam_ge0; lra).
  assert (H1 : gam u (j + 1) * Rabs (v r) <= gam u (j + 1) * ((1 + gam u 2) * P)) by (apply Rmult_le_compat_l; auto).
  assert (G2 : gam u (j + 1) * w <= gam u (j + 3) * w) by (apply Rmult_le_compat_r; [exact W|apply gam_le; [lra|lia]]).
  assert (E2 : gam u (j + 3) * P = gam u (j + 1) * ((1 + gam u 2) * P) + gam u 2 * P).
  { unfold gam. replace (j + 3)%nat with ((j + 1) + 2)%nat by lia. rewrite (pow_add _ (j + 1) 2). ring. }
  lra.
Qed.

Lemma gam_ge_k k : INR k * u <= gam u k.
Proof.
  pose proof (sm_u M) as Hu. induction k as [|k IH]; [unfold gam; simpl; lra|]. rewrite gam_S, S_INR. pose proof (gam_ge0 u k ltac:(lra)). nra.
Qed.

(** the lower triangle of the first [k] columns of the factor times its transpose, and the error allowed *)
Definition gram (L : nat -> nat -> carrier S) (i j m : nat) : R := rsum m (fun t => v (L i t) * v (L j t)).
Definition agram (L : nat -> nat -> carrier S) (i j m : nat) : R := rsum m (fun t => Rabs (v (L i t) * v (L j t))).

Lemma chol_back n k (G0 L : nat -> nat -> carrier S) : (k <= n)%nat -> chol_eqs S n k G0 L -> (forall i j, (j < k)%nat -> (j <= i < n)%nat -> fin (L i j)) ->
  (forall j, (j < k)%nat -> 0 < v (L j j)) /\
  (forall i j, (j < k)%nat -> (j <= i < n)%nat ->
     Rabs (gram L i j (Datatypes.S j) - v (G0 i j)) <= gam u (n + 3) * agram L i j (Datatypes.S j) + (INR n + v (L j j)) * (1 + u) ^ (n + 1) * eta).
Proof.
  pose proof (sm_u M) as Hu. pose proof (sm_eta M) as He.
  intros Hkn (I1 & I2 & I3) HF.
  assert (HD : forall j, (j < k)%nat -> 0 < v (L j j) /\ Rabs (gram L j j j + v (L j j) * v (L j j) - v (G0 j j)) <= gam u (j + 3) * (agram L j j j + Rabs (v (L j j) * v (L j j))) + INR j * (1 + u) ^ j * eta).
  { intros j Hj. destruct (I1 j Hj) as (E & Hl). pose proof (HF j j Hj ltac:(lia)) as F. rewrite E in F.
    pose proof (diag_err [1; n; j; j]%nat j (L j) (G0 j j) F Hl) as H. cbv zeta in H. change (subn [1; n; j; j]%nat j (G0 j j) (fun t => mul S (L j t) (L j t))) with (piv S n G0 L j j) in H. rewrite <- E in H. exact H. }
  split; [intros j Hj; apply HD; auto|].
  intros i j Hj Hi. unfold gram, agram. rewrite !sum_S.
  assert (Ha : 0 <= rsum j (fun t => Rabs (v (L i t) * v (L j t)))) by (apply sum_nonneg; intros; apply Rabs_pos).
  pose proof (Rabs_pos (v (L i j) * v (L j j))) as Hr.
  destruct (HD j Hj) as (Pj & Dj). pose proof (pos_INR n) as Pn. pose proof (pos_INR j) as Pjj.
  assert (Hjn : INR j <= INR n) by (apply le_INR; lia).
  assert (B : forall m, (m <= n + 3)%nat -> gam u m * (rsum j (fun t => Rabs (v (L i t) * v (L j t))) + Rabs (v (L i j) * v (L j j))) <= gam u (n + 3) * (rsum j (fun t => Rabs (v (L i t) * v (L j t))) + Rabs (v (L i j) * v (L j j)))).
  { intros m Hm. apply Rmult_le_compat_r; [lra|]. apply gam_le; [lra|exact Hm]. }
  destruct (Nat.eq_dec i j) as [->|Hne].
  - eapply Rle_trans; [exact Dj|]. unfold agram. pose proof (B (j + 3)%nat ltac:(lia)).
    assert (INR j * (1 + u) ^ j * eta <= (INR n + v (L j j)) * (1 + u) ^ (n + 1) * eta); [|lra].
    apply Rmult_le_compat_r; [exact He|]. apply Rmult_le_compat; [exact Pjj|apply pow_le; lra|lra|apply Rle_pow; [lra|lia]].
  - pose proof (I2 i j Hj ltac:(lia)) as E. pose proof (HF i j Hj ltac:(lia)) as F. rewrite E in F.
    pose proof (off_diag_err [1; n; j; i]%nat j (L i) (L j) (G0 i j) (L j j) (HF j j Hj ltac:(lia)) Pj F) as H. cbv zeta in H.
    change (subn [1; n; j; i]%nat j (G0 i j) (fun t => mul S (L i t) (L j t))) with (piv S n G0 L i j) in H. rewrite <- E in H.
    eapply Rle_trans; [exact H|]. pose proof (B (j + 2)%nat ltac:(lia)).
    assert ((INR j + v (L j j)) * (1 + u) ^ (j + 1) * eta <= (INR n + v (L j j)) * (1 + u) ^ (n + 1) * eta); [|lra].
    apply Rmult_le_compat_r; [exact He|]. apply Rmult_le_compat; [lra|apply pow_le; lra|lra|apply Rle_pow; [lra|lia]].
Qed.

(** Success: the factor is the exact factor of a positive definite matrix near G0. *)
Lemma llt_accepted n (G0 L : nat -> nat -> carrier S) : @llt S n G0 = (None, L) -> (forall i j, (j <= i < n)%nat -> fin (L i j)) ->
  exists G' : rmat, posdef n (gsym G') /\ (forall i, (i < n)%nat -> 0 < v (L i i)) /\
    (forall i j, (j <= i < n)%nat -> G' i j = gram L i j (Datatypes.S j)) /\
    (forall i j, (j <= i < n)%nat -> Rabs (G' i j - v (G0 i j)) <= gam u (n + 3) * agram L i j (Datatypes.S j) + (INR n + v (L j j)) * (1 + u) ^ (n + 1) * eta).
Proof.
  intros E HF. pose proof (llt_eqs S n G0) as HQ. rewrite E in HQ.
  destruct (chol_back n n G0 L (Nat.le_refl n) HQ) as (HP & HB); [intros; apply HF; auto|].
  set (G' := fun i j => if (j <=? i)%nat && (i <? n)%nat then gram L i j (Datatypes.S j) else v (L i j)).
  assert (EG : forall i j, (j <= i < n)%nat -> G' i j = gram L i j (Datatypes.S j)).
  { intros i j Hij. unfold G'. destruct (Nat.leb_spec j i); [|lia]. destruct (Nat.ltb_spec i n); [|lia]. reflexivity. }
  exists G'. split; [|split; [exact HP|split; [exact EG|]]].
  - apply (llt_success_posdef n G' (fun i j => v (L i j))). split; [|split].
    + intros i j Hj Hi. rewrite EG by lia. unfold gram. rewrite sum_S. reflexivity.
    + exact HP.
    + intros i j Hij. unfold G'. destruct (Nat.leb_spec j i); cbn [andb]; [|reflexivity]. destruct (Nat.ltb_spec i n); cbn [andb]; [lia|reflexivity].
  - intros i j Hij. rewrite EG by auto. apply HB; lia.
Qed.

(** Failure: a matrix near G0 is not positive definite. *)
Lemma llt_rejected n p (G0 L : nat -> nat -> carrier S) : @llt S n G0 = (Some p, L) -> (forall i j, (j <= i < n)%nat -> fin (L i j)) ->
  (forall i, (i < n)%nat -> 8 * v (G0 i i) <= big) -> (1 + u) ^ (2 * (n + 1)) <= 2 -> INR n * ((1 + u) ^ n * eta) <= big / 8 ->
  (p < n)%nat /\ (forall j, (j < p)%nat -> 0 < v (L j j)) /\
  exists G' : rmat, ~ posdef n (gsym G') /\
    (forall i j, (j <= i < n)%nat -> (j < p)%nat ->
       Rabs (G' i j - v (G0 i j)) <= gam u (n + 3) * agram L i j (Datatypes.S j) + (INR n + v (L j j)) * (1 + u) ^ (n + 1) * eta) /\
    Rabs (G' p p - v (G0 p p)) <= gam u (n + 3) * agram L p p p + INR n * (1 + u) ^ n * eta /\
    (forall i j, (j <= i < n)%nat -> (p <= j)%nat -> i <> p \/ j <> p -> G' i j = v (G0 i j)).
Proof.
  pose proof (sm_u M) as Hu. pose proof (sm_eta M) as He.
  intros E HF Hbig Hpw Hsm. pose proof (llt_eqs S n G0) as HQ. rewrite E in HQ. destruct HQ as (Hp & HQ & Hl).
  destruct (chol_back n p G0 L ltac:(lia) HQ) as (HP & HB); [intros; apply HF; lia|]. split; [auto|]. split; [exact HP|].
  assert (Epp : L p p = G0 p p) by (apply HQ; lia). assert (Fg : fin (G0 p p)) by (rewrite <- Epp; apply HF; lia).
  set (sg := gram L p p p). set (g := v (G0 p p)).
  assert (Hag : agram L p p p = sg).
  { apply sum_ext. intros t Ht. apply Rabs_pos_eq. nra. }
  assert (Hsg : 0 <= sg) by (rewrite <- Hag; apply sum_nonneg; intros; apply Rabs_pos).
  assert (Hg0 : 0 <= gam u (n + 3)) by (apply gam_ge0; lra).
  assert (Hex : exists h, h - sg <= 0 /\ Rabs (h - g) <= gam u (n + 3) * sg + INR n * (1 + u) ^ n * eta).
  { assert (Htiny : 0 <= INR n * (1 + u) ^ n * eta) by (apply Rmult_le_pos; auto; apply Rmult_le_pos; [apply pos_INR|apply pow_le; lra]).
    destruct (Rle_or_lt g sg) as [Hle|Hgt].
    - exists g. split; [lra|]. rewrite Rminus_diag_eq, Rabs_R0 by reflexivity. pose proof (Rmult_le_pos _ _ Hg0 Hsg). lra.
    - exists sg. split; [lra|].
      assert (Q1 : 1 <= (1 + u) ^ (p + 1)) by (apply pow1_ge; lra).
      assert (Q2 : (1 + u) ^ (p + 1) * (1 + u) ^ (p + 1) <= 2) by (rewrite <- pow_add; eapply Rle_trans; [|exact Hpw]; apply Rle_pow; [lra|lia]).
      assert (Q3 : (1 + u) ^ (p + 1) <= 2) by nra.
      assert (A2 : INR p * ((1 + u) ^ p * eta) <= INR n * ((1 + u) ^ n * eta)).
      { apply Rmult_le_compat; [apply pos_INR|apply Rmult_le_pos; auto; apply pow_le; lra|apply le_INR; lia|].
        apply Rmult_le_compat_r; auto. apply Rle_pow; [lra|lia]. }
      pose proof (Hbig p Hp) as HbP. fold g in HbP.
      assert (Fs : fin (piv S n G0 L p p)).
      { apply (subn_fin S fin v u eta big M); [exact Fg| |]. { intros t Ht. split; apply HF; lia. }
        change (rsum p (fun i => Rabs (v (L p i) * v (L p i)))) with (agram L p p p). rewrite Hag. fold g. rewrite (Rabs_pos_eq g) by lra.
        set (c := (1 + u) ^ (p + 1)) in *. set (e := INR p * ((1 + u) ^ p * eta)) in *.
        assert (0 <= e) by (apply Rmult_le_pos; [apply pos_INR|apply Rmult_le_pos; auto; apply pow_le; lra]).
        assert (c * g <= 2 * g) by (apply Rmult_le_compat_r; lra). assert (c * e <= 2 * e) by (apply Rmult_le_compat_r; lra).
        assert (c * c * sg <= 2 * sg) by (apply Rmult_le_compat_r; lra). replace (c * (g + c * sg + e)) with (c * g + c * c * sg + c * e) by ring. lra. }
      assert (Hl' : v (piv S n G0 L p p) <= 0) by (rewrite <- (proj2 (sm_0 M)); apply (sm_le M _ _ Fs (proj1 (sm_0 M))); exact Hl).
      destruct (subn_err S fin v u eta big M [1; n; p; p]%nat p (G0 p p) (L p) (L p) Fs) as (_ & _ & D). cbv zeta in D.
      change (subn [1; n; p; p]%nat p (G0 p p) (fun t => mul S (L p t) (L p t))) with (piv S n G0 L p p) in D. set (r := v (piv S n G0 L p p)) in *.
      change (rsum p (fun i => v (L p i) * v (L p i))) with sg in D. change (rsum p (fun i => Rabs (v (L p i) * v (L p i)))) with (agram L p p p) in D. rewrite Hag in D.
      fold g in D. apply abs_both in D. rewrite (Rabs_left1 r) in D by lra.
      assert (B0 : gam u (p + 1) * - r <= 1 * - r) by (apply Rmult_le_compat_r; [lra|unfold gam; lra]).
      assert (B1 : gam u (p + 1) * sg <= gam u (n + 3) * sg) by (apply Rmult_le_compat_r; auto; apply gam_le; [lra|lia]).
      assert (B2 : INR n * ((1 + u) ^ n * eta) = INR n * (1 + u) ^ n * eta) by ring.
      rewrite Rabs_left1 by lra. lra. }
  destruct Hex as (h & Hh1 & Hh2).
  set (G' := fun i j => if (j <? p)%nat && (j <=? i)%nat && (i <? n)%nat then gram L i j (Datatypes.S j) else if (i =? p)%nat && (j =? p)%nat then h else v (L i j)).
  assert (EG : forall i j, (j <= i < n)%nat -> (j < p)%nat -> G' i j = gram L i j (Datatypes.S j)).
  { intros i j Hij Hj. unfold G'. destruct (Nat.ltb_spec j p); [|lia]. destruct (Nat.leb_spec j i); [|lia]. destruct (Nat.ltb_spec i n); [|lia]. reflexivity. }
  assert (EP : G' p p = h).
  { unfold G'. rewrite Nat.ltb_irrefl, Nat.eqb_refl. reflexivity. }
  assert (EO : forall i j, (p <= j)%nat \/ (i < j)%nat \/ (n <= i)%nat -> i <> p \/ j <> p -> G' i j = v (L i j)).
  { intros i j Hij Hne. unfold G'. destruct (Nat.ltb_spec j p), (Nat.leb_spec j i), (Nat.ltb_spec i n); cbn [andb]; try lia;
      destruct (Nat.eqb_spec i p), (Nat.eqb_spec j p); cbn [andb]; try reflexivity; lia. }
  exists G'. split; [|split; [|split]].
  - destruct (llt_failure_witness n p G' (fun i j => if (i =? p)%nat && (j =? p)%nat then h else v (L i j)) Hp) as (w & Hw & Hq).
    + split; [|split].
      * intros i j Hj Hi. rewrite EG by lia. unfold gram. rewrite sum_S.
        assert (N : forall a t, (t < p)%nat -> (a =? p)%nat && (t =? p)%nat = false) by (intros a t Ht; destruct (Nat.eqb_spec t p); [lia|apply andb_false_r]).
        rewrite !N by lia. f_equal. apply sum_ext. intros t Ht. rewrite !N by lia. reflexivity.
      * intros j Hj. destruct (Nat.eqb_spec j p); [lia|]. cbn [andb]. apply HP; auto.
      * intros i j Hij. destruct (Nat.eqb_spec i p) as [->|], (Nat.eqb_spec j p) as [->|]; cbn [andb]; try (symmetry; apply EO; auto; lia). symmetry. exact EP.
    + rewrite EP. rewrite (sum_ext p _ (fun t => v (L p t) * v (L p t))); [exact Hh1|].
      intros t Ht. destruct (Nat.eqb_spec t p); [lia|]. rewrite andb_false_r. reflexivity.
    + intros HPD. specialize (HPD w Hw). lra.
  - intros i j Hij Hj. rewrite EG by auto. apply HB; auto.
  - rewrite EP, Hag. exact Hh2.
  - intros i j Hij Hj Hne. rewrite EO by (auto; lia). f_equal. apply HQ. lia.
Qed.
End Err.

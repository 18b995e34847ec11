(** Householder QR as used by the warm-startable solver, exact arithmetic:
    the reflections stored in B applied to J give J^T N = [R; 0]. *)
From Coq Require Import List Arith ZArith Lia Bool Reals Lra.
From Verif Require Import Base ActiveSet Num Solver LinAlg QRUpdate GIMath Warm.
Import ListNotations.
Local Open Scope R_scope.

Lemma dblmin_pos : 0 < @dblmin Rops.
Proof.
  unfold dblmin. assert (H : forall k, 0 < @hpow Rops k).
  { induction k as [|k IH]; cbn [hpow]; unfold half; rops; [lra|]. apply Rmult_lt_0_compat; lra. }
  apply H.
Qed.

(** ** A reflection I - tau w w^T acting on the right of J *)
Definition reflect_cols (n : nat) (tau : R) (w : rvec) (J : rmat) : rmat :=
  fun i j => J i j - tau * rsum n (fun c => J i c * w c) * w j.
Lemma tdot_reflect n tau w J i v :
  tdot n (reflect_cols n tau w J) i v = tdot n J i v - tau * w i * rsum n (fun c => w c * tdot n J c v).
Proof.
  unfold tdot, reflect_cols.
  rewrite (sum_ext n _ (fun a => J a i * v a - tau * w i * rsum n (fun c => w c * (J a c * v a)))).
  - rewrite sum_minus. f_equal. rewrite sum_scal. f_equal. rewrite sum_swap. apply sum_ext. intros c Hc. apply sum_scal.
  - intros a Ha. rewrite (sum_ext n (fun c => w c * (J a c * v a)) (fun c => (J a c * w c) * v a)) by (intros; lra).
    rewrite sum_scal_r. lra.
Qed.
Lemma gram_reflect n tau w J a b : tau * (tau * rsum n (fun c => w c * w c) - 2) = 0 ->
  gram n (reflect_cols n tau w J) a b = gram n J a b.
Proof.
  intros Ht. unfold gram, reflect_cols.
  set (p := rsum n (fun c => J a c * w c)). set (r := rsum n (fun c => J b c * w c)). set (ww := rsum n (fun c => w c * w c)) in *.
  rewrite (sum_ext n _ (fun k => J a k * J b k + (- tau * r * (J a k * w k) + (- tau * p * (J b k * w k) + tau * tau * p * r * (w k * w k))))) by (intros; lra).
  rewrite !sum_plus, !sum_scal. fold p r ww.
  replace (rsum n (fun k => J a k * J b k) + (- tau * r * p + (- tau * p * r + tau * tau * p * r * ww)))
    with (rsum n (fun k => J a k * J b k) + p * r * (tau * (tau * ww - 2))) by lra.
  rewrite Ht. lra.
Qed.

(** the Householder vector of column [k]: 0 above, 1 at [k], [ess] below *)
Definition hvec (n k : nat) (ess : rvec) : rvec := fun i => if (i =? k)%nat then 1 else if (k <? i)%nat && (i <? n)%nat then ess i else 0.
Lemma sum_hvec n k (ess f : rvec) : (k < n)%nat ->
  rsum n (fun c => hvec n k ess c * f c) = rsum (n - 1 - k) (fun r => ess (k + 1 + r)%nat * f (k + 1 + r)%nat) + f k.
Proof.
  intros Hk. replace n with (k + (1 + (n - 1 - k)))%nat at 1 by lia. rewrite !sum_app.
  rewrite (sum_zero k). 2: { intros i Hi. unfold hvec. destruct (Nat.eqb_spec i k), (Nat.ltb_spec k i); try lia; cbn; lra. }
  rewrite sum_S, sum_0. unfold hvec at 1. rewrite Nat.add_0_r, Nat.eqb_refl.
  rewrite (sum_ext (n - 1 - k) _ (fun r => ess (k + 1 + r)%nat * f (k + 1 + r)%nat)).
  - lra.
  - intros r Hr. unfold hvec. destruct (Nat.eqb_spec (k + (1 + r)) k), (Nat.ltb_spec k (k + (1 + r))), (Nat.ltb_spec (k + (1 + r)) n); try lia.
    cbn [andb]. replace (k + (1 + r))%nat with (k + 1 + r)%nat by lia. auto.
Qed.

(** One reflection maps column [k] to (.., beta, 0, ..) *)
Record house_ok (n k : nat) (B : rmat) (tau beta : R) (ess : rvec) : Prop := {
  ho_refl : tau * (tau * rsum n (fun c => hvec n k ess c * hvec n k ess c) - 2) = 0;
  ho_k : B k k - tau * rsum n (fun c => hvec n k ess c * B c k) = beta;
  ho_below : forall i, (k < i)%nat -> (i < n)%nat -> B i k - tau * ess i * rsum n (fun c => hvec n k ess c * B c k) = 0;
  ho_last : (n - k = 1)%nat -> tau = 0
}.
Lemma house_spec n k B : (k < n)%nat -> @hh_tail Rops n k B = 0 \/ @dblmin Rops < @hh_tail Rops n k B ->
  let '(tau, beta, ess) := @house Rops n k B in house_ok n k B tau beta ess.
Proof.
  intros Hk HT. unfold house. pose proof dblmin_pos as Hd. rops.
  set (tsq := @hh_tail Rops n k B) in *. set (c0 := B k k).
  assert (Etail : tsq = rsum (n - 1 - k) (fun t => B (k + 1 + t)%nat k * B (k + 1 + t)%nat k)) by reflexivity.
  destruct (Rleb_spec tsq (@dblmin Rops)) as [Hle|Hgt].
  - assert (E0 : tsq = 0) by (destruct HT; auto; lra).
    split; try lra; auto.
    + unfold c0. lra.
    + intros i Hki Hin. rewrite Rmult_0_l, Rmult_0_l, Rminus_0_r.
      assert (Hz : B (k + 1 + (i - k - 1))%nat k * B (k + 1 + (i - k - 1))%nat k = 0).
      { rewrite Etail in E0. apply (sum_nonneg_zero (n - 1 - k) (fun t => B (k + 1 + t)%nat k * B (k + 1 + t)%nat k)); auto; [|lia].
        intros. apply Rle_0_sqr. }
      replace (k + 1 + (i - k - 1))%nat with i in Hz by lia. nra.
  - set (b0 := sqrt (c0 * c0 + tsq)).
    assert (Hpos : 0 < c0 * c0 + tsq) by (pose proof (Rle_0_sqr c0) as Hs; unfold Rsqr in Hs; lra).
    assert (Hb0 : 0 < b0) by (apply sqrt_lt_R0; auto).
    assert (Hbb : b0 * b0 = c0 * c0 + tsq) by (apply sqrt_sqrt; lra).
    set (beta := if Rleb 0 c0 then - b0 else b0).
    assert (HB : beta * beta = c0 * c0 + tsq) by (unfold beta; destruct (Rleb 0 c0); lra).
    assert (Hbn : beta <> 0) by (unfold beta; destruct (Rleb 0 c0); lra).
    assert (Hbc : c0 - beta <> 0) by (unfold beta; destruct (Rleb_spec 0 c0); lra).
    assert (HWB : rsum n (fun c => hvec n k (fun i => B i k / (c0 - beta)) c * B c k) = - beta).
    { rewrite sum_hvec by auto. rewrite (sum_ext (n - 1 - k) _ (fun t => (B (k + 1 + t)%nat k * B (k + 1 + t)%nat k) * / (c0 - beta))).
      - rewrite sum_scal_r, <- Etail. fold c0. apply (Rmult_eq_reg_r (c0 - beta)); auto.
        replace ((tsq * / (c0 - beta) + c0) * (c0 - beta)) with (tsq + c0 * (c0 - beta)) by (field; auto). lra.
      - intros t _. unfold Rdiv. lra. }
    split.
    + rewrite sum_hvec by auto.
      rewrite (sum_ext (n - 1 - k) _ (fun t => (B (k + 1 + t)%nat k * B (k + 1 + t)%nat k) * (/ (c0 - beta) * / (c0 - beta)))).
      * rewrite sum_scal_r, <- Etail. unfold hvec. rewrite Nat.eqb_refl.
        replace tsq with (beta * beta - c0 * c0) by lra. field. auto.
      * intros t Ht. unfold hvec. destruct (Nat.eqb_spec (k + 1 + t) k), (Nat.ltb_spec k (k + 1 + t)), (Nat.ltb_spec (k + 1 + t) n); try lia.
        cbn [andb]. unfold Rdiv. lra.
    + rewrite HWB. fold c0. field. auto.
    + intros i Hki Hin. rewrite HWB. field. auto.
    + intros E. exfalso. replace (n - 1 - k)%nat with 0%nat in Etail by lia. rewrite sum_0 in Etail. lra.
Qed.

(** qr_col stores beta and ess and reflects the following columns *)
Lemma qr_col_spec n q k B tau beta ess tau' B' : (k < n)%nat -> @house Rops n k B = (tau, beta, ess) -> house_ok n k B tau beta ess ->
  @qr_col Rops n q k B = (tau', B') ->
  tau' = tau /\ B' k k = beta /\ (forall i, (k < i)%nat -> (i < n)%nat -> B' i k = ess i) /\
  (forall i, (i < k)%nat -> B' i k = B i k) /\
  (forall i j, (k < j)%nat -> (j < q)%nat -> (i < n)%nat -> B' i j = B i j - tau * hvec n k ess i * rsum n (fun c => hvec n k ess c * B c j)) /\
  (forall i j, (j < k)%nat -> B' i j = B i j).
Proof.
  intros Hk EH HO E. unfold qr_col in E. rewrite EH in E. rewrite !vm_id, mm_id in E. injection E as <- <-.
  split; auto. split; [rewrite !Nat.eqb_refl; auto|]. split.
  { intros i H1 H2. rewrite Nat.eqb_refl. destruct (Nat.eqb_spec i k), (Nat.ltb_spec k i), (Nat.ltb_spec i n); try lia; auto. }
  split. { intros i Hi. rewrite Nat.eqb_refl. destruct (Nat.eqb_spec i k), (Nat.ltb_spec k i); try lia; auto. }
  split.
  - intros i j H1 H2 H3. rewrite sum_hvec by auto. fold rsum.
    change (@sumn Rops) with (fun _ : list nat => rsum); cbv beta.
    destruct (Nat.eqb_spec j k), (Nat.ltb_spec k j), (Nat.ltb_spec j q), (Nat.ltb_spec i n); try lia. cbn [andb].
    unfold hvec. destruct (Nat.leb_spec k i) as [Hki|Hki]; cbn [andb].
    + destruct (Nat.eqb_spec (n - k) 1) as [E1|E1].
      * rewrite (ho_last _ _ _ _ _ _ HO) by auto. rops. lra.
      * rops. destruct (Reqb_spec tau 0) as [->|Ht]; [lra|].
        destruct (Nat.eqb_spec i k) as [->|]; [lra|].
        destruct (Nat.ltb_spec k i); [|lia]. destruct (Nat.ltb_spec i n); [|lia]. cbn [andb]. lra.
    + destruct (Nat.eqb_spec i k), (Nat.ltb_spec k i); try lia. cbn [andb]. lra.
  - intros i j Hj. destruct (Nat.eqb_spec j k), (Nat.ltb_spec k j); try lia. auto.
Qed.

Lemma hh_right_spec n k tau ess J i j : (k < n)%nat -> ((n - k = 1)%nat -> tau = 0) -> (j < n)%nat ->
  @hh_right Rops n k tau ess J i j = reflect_cols n tau (hvec n k ess) J i j.
Proof.
  intros Hk Hl Hj. unfold hh_right, reflect_cols. rewrite !vm_id, mm_id.
  rewrite (sum_ext n _ (fun c => hvec n k ess c * J i c)) by (intros; lra).
  rewrite sum_hvec by auto.
  change (@sumn Rops) with (fun _ : list nat => rsum); cbv beta.
  rewrite (sum_ext (n - 1 - k) (fun r => mul Rops (J i (k + 1 + r)%nat) (ess (k + 1 + r)%nat)) (fun r => ess (k + 1 + r)%nat * J i (k + 1 + r)%nat)) by (intros; rops; lra).
  unfold hvec. destruct (Nat.ltb_spec j n); [|lia].
  destruct (Nat.leb_spec k j) as [Hkj|Hkj]; cbn [andb].
  - destruct (Nat.eqb_spec (n - k) 1) as [E1|E1].
    + rewrite Hl by auto. rops. lra.
    + rops. destruct (Reqb_spec tau 0) as [->|Ht]; [lra|].
      destruct (Nat.eqb_spec j k) as [->|]; [lra|].
      destruct (Nat.ltb_spec k j); [|lia]. cbn [andb]. lra.
  - destruct (Nat.eqb_spec j k), (Nat.ltb_spec k j); try lia. cbn [andb]. lra.
Qed.

(** ** The loops *)
(** (exactness) no column tail falls in the range Eigen treats as zero *)
Fixpoint qr_calm (n q cnt k : nat) (B : rmat) : Prop :=
  match cnt with
  | O => True
  | S c => (@hh_tail Rops n k B = 0 \/ @dblmin Rops < @hh_tail Rops n k B) /\ qr_calm n q c (S k) (snd (@qr_col Rops n q k B))
  end.

Lemma qr_loop_frame cnt : forall n q k B h B' h', (k + cnt <= n)%nat -> qr_calm n q cnt k B -> @qr_loop Rops n q cnt k B h = (B', h') ->
  (forall i j, (j < k)%nat -> B' i j = B i j) /\ (forall j, (j < k)%nat -> h' j = h j).
Proof.
  induction cnt as [|c IH]; intros n q k B h B' h' Hn HC E; cbn [qr_loop] in E.
  - injection E as <- <-. auto.
  - destruct HC as [HC1 HC2]. destruct (@qr_col Rops n q k B) as (tau, B1) eqn:EC.
    pose proof (house_spec n k B ltac:(lia) HC1) as HO. destruct (@house Rops n k B) as ((t, beta), ess) eqn:EH.
    destruct (qr_col_spec n q k B t beta ess tau B1 ltac:(lia) EH HO EC) as (_ & _ & _ & _ & _ & F).
    cbn [snd] in HC2. apply (IH n q (S k) B1) in E as [E1 E2]; auto; [|lia]. split.
    + intros i j Hj. rewrite E1 by lia. apply F. auto.
    + intros j Hj. rewrite E2 by lia. unfold upd. destruct (Nat.eqb_spec j k); [lia|auto].
Qed.

Definition qinv (n q k : nat) (B J : rmat) (N : nat -> rvec) : Prop :=
  forall i j, (i < n)%nat -> (j < q)%nat ->
    tdot n J i (N j) = if (j <? k)%nat then (if (i <=? j)%nat then B i j else 0) else B i j.

Lemma qr_loop_spec cnt : forall n q k B h J N B' h', (k + cnt = q)%nat -> (q <= n)%nat -> qr_calm n q cnt k B ->
  qinv n q k B J N -> @qr_loop Rops n q cnt k B h = (B', h') ->
  let J' := @app_q Rops n cnt k B' h' J in
  qinv n q q B' J' N /\ (forall a b, (a < n)%nat -> (b < n)%nat -> gram n J' a b = gram n J a b).
Proof.
  induction cnt as [|c IH]; intros n q k B h J N B' h' Hk Hq HC HI E; cbn [qr_loop app_q] in *.
  - injection E as <- <-. replace q with k by lia. replace q with k in HI by lia. auto.
  - destruct HC as [HC1 HC2]. destruct (@qr_col Rops n q k B) as (tau, B1) eqn:EC. cbn [snd] in HC2.
    pose proof (house_spec n k B ltac:(lia) HC1) as HO. destruct (@house Rops n k B) as ((t, beta), ess) eqn:EH.
    destruct (qr_col_spec n q k B t beta ess tau B1 ltac:(lia) EH HO EC) as (-> & Hb & He & Hu & Hr & Hl).
    destruct (qr_loop_frame c n q (S k) B1 (upd h k t) B' h' ltac:(lia) HC2 E) as [FB Fh].
    assert (Ht : h' k = t) by (rewrite Fh by lia; unfold upd; rewrite Nat.eqb_refl; auto).
    rewrite Ht.
    set (J1 := @hh_right Rops n k t (fun i => B' i k) J).
    assert (EJ : forall i j, (j < n)%nat -> J1 i j = reflect_cols n t (hvec n k ess) J i j).
    { intros i j Hj. unfold J1. rewrite hh_right_spec; [|lia|apply (ho_last _ _ _ _ _ _ HO)|auto].
      unfold reflect_cols. assert (EW : forall c0, (c0 < n)%nat -> hvec n k (fun i0 => B' i0 k) c0 = hvec n k ess c0).
      { intros c0 Hc0. unfold hvec. destruct (Nat.eqb_spec c0 k); auto. destruct (Nat.ltb_spec k c0), (Nat.ltb_spec c0 n); auto. cbn [andb].
        rewrite FB by lia. apply He; auto. }
      rewrite EW by auto. rewrite (sum_ext n _ (fun c0 => J i c0 * hvec n k ess c0)) by (intros; rewrite EW; auto). auto. }
    assert (EG : forall a b, (a < n)%nat -> (b < n)%nat -> gram n J1 a b = gram n J a b).
    { intros a b Ha Hb'. rewrite <- (gram_reflect n t (hvec n k ess) J a b (ho_refl _ _ _ _ _ _ HO)). unfold gram.
      apply sum_ext. intros j Hj. rewrite !EJ by auto. auto. }
    assert (ET : forall i v, (i < n)%nat -> tdot n J1 i v = tdot n J i v - t * hvec n k ess i * rsum n (fun c0 => hvec n k ess c0 * tdot n J c0 v)).
    { intros i v Hi. rewrite <- tdot_reflect. unfold tdot. apply sum_ext. intros a Ha. rewrite EJ by auto. auto. }
    assert (HI1 : qinv n q (S k) B1 J1 N).
    { intros i j Hi Hj. rewrite ET by auto.
      destruct (Nat.lt_trichotomy j k) as [Hjk|[->|Hjk]].
      - (* former columns: their image has only rows <= j < k *)
        destruct (Nat.ltb_spec j (S k)); [|lia]. rewrite HI by auto. destruct (Nat.ltb_spec j k); [|lia].
        rewrite (sum_zero n). 2: { intros c0 Hc0. unfold hvec. destruct (Nat.eqb_spec c0 k) as [->|].
          - rewrite HI by lia. destruct (Nat.ltb_spec j k), (Nat.leb_spec k j); try lia. lra.
          - destruct (Nat.ltb_spec k c0), (Nat.ltb_spec c0 n); cbn [andb]; try lra.
            rewrite HI by lia. destruct (Nat.ltb_spec j k), (Nat.leb_spec c0 j); try lia. lra. }
        rewrite (Hl i j) by auto. destruct (i <=? j)%nat; lra.
      - destruct (Nat.ltb_spec k (S k)); [|lia].
        assert (EB : forall c0, (c0 < n)%nat -> tdot n J c0 (N k) = B c0 k).
        { intros c0 Hc0. rewrite HI by auto. destruct (Nat.ltb_spec k k); [lia|auto]. }
        rewrite (sum_ext n _ (fun c0 => hvec n k ess c0 * B c0 k)) by (intros; rewrite EB; auto).
        rewrite EB by auto. destruct (Nat.leb_spec i k) as [Hik|Hik].
        + destruct (Nat.eq_dec i k) as [->|Hne].
          * rewrite Hb. rewrite <- (ho_k _ _ _ _ _ _ HO). unfold hvec at 1. rewrite Nat.eqb_refl. lra.
          * rewrite Hu by lia. unfold hvec at 1. destruct (Nat.eqb_spec i k), (Nat.ltb_spec k i); try lia. cbn [andb]. lra.
        + rewrite <- (ho_below _ _ _ _ _ _ HO i) by auto. unfold hvec at 1.
          destruct (Nat.eqb_spec i k), (Nat.ltb_spec k i), (Nat.ltb_spec i n); try lia. cbn [andb]. lra.
      - destruct (Nat.ltb_spec j (S k)); [lia|]. rewrite (Hr i j) by auto.
        assert (EB : forall c0, (c0 < n)%nat -> tdot n J c0 (N j) = B c0 j).
        { intros c0 Hc0. rewrite HI by auto. destruct (Nat.ltb_spec j k); [lia|auto]. }
        rewrite EB by auto. rewrite (sum_ext n _ (fun c0 => hvec n k ess c0 * B c0 j)) by (intros; rewrite EB; auto). auto. }
    destruct (IH n q (S k) B1 (upd h k t) J1 N B' h' ltac:(lia) Hq HC2 HI1 E) as [H1 H2].
    split; auto. intros a b Ha Hb'. rewrite H2 by auto. auto.
Qed.

(** ** Independence gives an invertible R *)
Definition independent (n q : nat) (N : nat -> rvec) : Prop :=
  forall c : rvec, (forall a, (a < n)%nat -> rsum q (fun k => c k * N k a) = 0) -> forall k, (k < q)%nat -> c k = 0.

Lemma tdot_comb n J i q (c : rvec) (N : nat -> rvec) :
  tdot n J i (fun a => rsum q (fun k => c k * N k a)) = rsum q (fun k => c k * tdot n J i (N k)).
Proof.
  unfold tdot. rewrite (sum_ext n _ (fun a => rsum q (fun k => c k * (J a i * N k a)))).
  - rewrite sum_swap. apply sum_ext. intros k _. apply sum_scal.
  - intros a _. rewrite <- sum_scal. apply sum_ext. intros. lra.
Qed.

Lemma qinv_diag n q B J N (G : rmat) : (q <= n)%nat -> qinv n q q B J N -> independent n q N ->
  (forall a c, (a < n)%nat -> (c < n)%nat -> rsum n (fun b => G a b * gram n J b c) = if (a =? c)%nat then 1 else 0) ->
  forall k, (k < q)%nat -> B k k <> 0.
Proof.
  intros Hq HI HN HG k. induction k as [k IH] using lt_wf_ind. intros Hk E.
  set (y := @bwd Rops k k B (fun i => - B i k)).
  assert (Hy : forall i, (i < k)%nat -> rsum k (fun j => upper B i j * y j) = - B i k).
  { apply bwd_correct. intros i Hi. apply IH; lia. }
  set (c := fun j => if (j <? k)%nat then y j else if (j =? k)%nat then 1 else 0).
  assert (Hc : c k = 0).
  { apply HN; auto.
    set (v := fun a => rsum q (fun j => c j * N j a)).
    assert (Hv : forall i, (i < n)%nat -> tdot n J i v = 0).
    { intros i Hi. unfold v. rewrite tdot_comb.
      replace q with (k + (1 + (q - k - 1)))%nat by lia. rewrite !sum_app, sum_S, sum_0, Nat.add_0_r.
      rewrite (sum_zero (q - k - 1)).
      2: { intros t Ht. unfold c. destruct (Nat.ltb_spec (k + (1 + t)) k), (Nat.eqb_spec (k + (1 + t)) k); try lia. lra. }
      unfold c at 2. rewrite Nat.eqb_refl. destruct (Nat.ltb_spec k k); [lia|].
      assert (ET : forall j, (j <= k)%nat -> tdot n J i (N j) = upper B i j).
      { intros j Hj. rewrite HI by lia. destruct (Nat.ltb_spec j q); [|lia]. reflexivity. }
      rewrite ET by lia. rewrite (sum_ext k _ (fun j => upper B i j * y j)).
      2: { intros j Hj. unfold c. destruct (Nat.ltb_spec j k); [|lia]. rewrite ET by lia. lra. }
      destruct (Nat.lt_ge_cases i k) as [Hik|Hik].
      - rewrite Hy by auto. unfold upper. destruct (Nat.leb_spec i k); [lra|lia].
      - rewrite (sum_zero k). 2: { intros j Hj. unfold upper. destruct (Nat.leb_spec i j); [lia|lra]. }
        unfold upper. destruct (Nat.leb_spec i k); [|lra]. replace i with k by lia. rewrite E. lra. }
    intros a Ha. fold (v a).
    (* v = G J J^T v *)
    assert (Hz : rsum n (fun b => G a b * rsum n (fun j => J b j * tdot n J j v)) = v a).
    { rewrite (sum_ext n _ (fun b => rsum n (fun d => G a b * gram n J b d * v d))).
      - rewrite sum_swap. rewrite (sum_ext n _ (fun d => if (d =? a)%nat then v d else 0)).
        + rewrite (sum_delta n a v) by auto. auto.
        + intros d Hd. rewrite sum_scal_r, HG by auto. rewrite Nat.eqb_sym. destruct (d =? a)%nat; lra.
      - intros b Hb. rewrite gram_apply, <- sum_scal. apply sum_ext. intros; lra. }
    rewrite <- Hz. apply sum_zero. intros b Hb. rewrite sum_zero; [lra|]. intros j Hj. rewrite Hv by auto. lra. }
  unfold c in Hc. rewrite Nat.eqb_refl in Hc. destruct (Nat.ltb_spec k k); [lia|lra].
Qed.

(** ** The start: B = L^-1 N = J0^T N for J0 = L^-T *)
Lemma start_tdot n G0 Lm (w : rvec) i : llt_inv n n G0 Lm -> (i < n)%nat ->
  tdot n (fun a b => @bwd Rops n n (tr Lm) (fun k => idm Rops k b) a) i w = @fwd Rops n Lm w i.
Proof.
  intros HL Hi. unfold tdot.
  assert (Hd : forall k, (k < n)%nat -> Lm k k <> 0) by (intros; apply (diag_nz n G0 Lm HL); auto).
  set (y := @fwd Rops n Lm w).
  rewrite (sum_ext n _ (fun a => rsum n (fun j => lower Lm a j * (@bwd Rops n n (tr Lm) (fun k => idm Rops k i) a) * y j))).
  - rewrite sum_swap. rewrite (sum_ext n _ (fun j => if (j =? i)%nat then y j else 0)).
    + apply (sum_delta n i y Hi).
    + intros j Hj. rewrite sum_scal_r. rewrite (start_LtJ n G0 Lm HL j i Hj). destruct (j =? i)%nat; lra.
  - intros a Ha. rewrite <- (fwd_correct n Lm w Hd a Ha). fold y. rewrite <- sum_scal. apply sum_ext. intros; lra.
Qed.

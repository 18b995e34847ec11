(** Integer matrices: an explicit limit on the steps of the method, hence on the option bigBnd. *)
From Coq Require Import List Arith ZArith Lia Bool Reals Lra Factorial.
From Verif Require Import Base ActiveSet Num LinAlg Solver QPSpec GIBase GITotal GIFinal Warm WarmAS WarmQR WarmHot WarmTotal Det IntGap IntMult Limits.
Import ListNotations.
Local Open Scope R_scope.

(** the linear cost and the finite sides are at most [K] *)
Definition sides_within (pb : rproblem) (K : R) : Prop :=
  (forall a, (a < nv pb)%nat -> Rabs (p_a pb a) <= K) /\
  (forall i b, (i < ncb pb)%nat -> clo pb i = Some b \/ cup pb i = Some b -> Rabs b <= K).

Lemma sum_const n c : rsum n (fun _ => c) = INR n * c.
Proof. induction n as [|n IH]; [rewrite sum_0; cbn; ring|]. rewrite sum_S, IH, S_INR. ring. Qed.

Definition dbound (n M : nat) : R := INR (fact (2 * n)) * INR M ^ (2 * n).

Lemma dbound_ge1 n M : (1 <= M)%nat -> 1 <= dbound n M.
Proof.
  intros HM. unfold dbound. assert (1 <= INR M) by (apply (le_INR 1 M) in HM; exact HM).
  rewrite <- (Rmult_1_l 1). apply Rmult_le_compat; try lra.
  - apply (le_INR 1). pose proof (lt_O_fact (2 * n)). lia.
  - apply pow_R1_Rle. auto.
Qed.
Lemma det_kktm_le pb M w : integer_data pb M -> nonsing (nv pb + length w) (kktm pb w) -> forall k (v : rvec), (k < nv pb + length w)%nat ->
  (forall a, (a < nv pb + length w)%nat -> Rabs (v a) <= INR M) ->
  Rabs (det (nv pb + length w) (upd k v (kktm pb w))) <= dbound (nv pb) M.
Proof.
  intros HI HN k v Hk Hv. set (N := (nv pb + length w)%nat) in *. pose proof (independent_le _ _ _ (nonsing_indep pb w HN)) as Hq.
  eapply Rle_trans; [apply (det_le N (INR M)); [apply pos_INR|]|].
  - intros r c Hr Hc. unfold upd. destruct (r =? k)%nat; [apply Hv; auto|apply (id_kktm pb M w r c HI)].
  - assert (1 <= INR M) by (apply (le_INR 1 M), HI). unfold dbound.
    apply Rmult_le_compat; [apply pos_INR|apply pow_le; lra|apply le_INR, fact_le; unfold N; lia|apply Rle_pow; auto; unfold N; lia].
Qed.
Lemma det_kktm pb M w : integer_data pb M -> nonsing (nv pb + length w) (kktm pb w) ->
  1 <= Rabs (det (nv pb + length w) (kktm pb w)) <= dbound (nv pb) M.
Proof.
  intros HI HN. split.
  - apply int_ge1; [|apply HN]. apply det_int. intros r c _ _. apply (id_kktm pb M w r c HI).
  - destruct (nv pb + length w)%nat as [|N] eqn:E.
    + cbn [det]. rewrite Rabs_R1. apply dbound_ge1, HI.
    + pose proof (det_kktm_le pb M w HI) as H. rewrite E in H. specialize (H HN 0%nat (kktm pb w 0%nat)). rewrite det_upd_id in H. apply H; [lia|].
      intros a _. apply (id_kktm pb M w 0%nat a HI).
Qed.
(** a component of the solution of such a system is bounded *)
Lemma component_le pb M w (y v : rvec) K k : integer_data pb M -> nonsing (nv pb + length w) (kktm pb w) -> (k < nv pb + length w)%nat ->
  (forall a, (a < nv pb + length w)%nat -> rsum (nv pb + length w) (fun b => kktm pb w a b * y b) = v a) ->
  0 < K -> (forall a, (a < nv pb + length w)%nat -> Rabs (v a) <= K) -> Rabs (y k) <= K * dbound (nv pb) M.
Proof.
  intros HI HN Hk Hy HK Hv. set (N := (nv pb + length w)%nat) in *. destruct (det_kktm pb M w HI HN) as [HD _]. fold N in HD. set (D := det N (kktm pb w)) in *.
  assert (H1M : 1 <= INR M) by (apply (le_INR 1 M), HI).
  assert (Hy' : forall a, (a < N)%nat -> rsum N (fun b => kktm pb w a b * (y b / K)) = v a / K).
  { intros a Ha. rewrite <- (Hy a Ha). unfold Rdiv. rewrite (Rmult_comm _ (/ K)), <- sum_scal. apply sum_ext. intros; ring. }
  pose proof (cramer N (kktm pb w) (fun b => y b / K) (fun a => v a / K) k (kktm_sym pb w) Hy' Hk) as E. fold D in E.
  assert (HB : Rabs (det N (upd k (fun a => v a / K) (kktm pb w))) <= dbound (nv pb) M).
  { apply det_kktm_le; auto. intros a Ha. unfold Rdiv. rewrite Rabs_mult, (Rabs_right (/ K)) by (left; apply Rinv_0_lt_compat; auto).
    apply Rle_trans with (K * / K); [apply Rmult_le_compat_r; [left; apply Rinv_0_lt_compat; auto|apply Hv; auto]|rewrite Rinv_r; lra]. }
  rewrite E, Rabs_mult in HB. assert (Ey : Rabs (y k) = K * Rabs (y k / K)).
  { unfold Rdiv. rewrite Rabs_mult, (Rabs_right (/ K)) by (left; apply Rinv_0_lt_compat; auto). field. lra. }
  rewrite Ey. apply Rmult_le_compat_l; [lra|]. pose proof (Rabs_pos (y k / K)).
  apply Rle_trans with (Rabs (y k / K) * Rabs D); [|exact HB]. rewrite <- (Rmult_1_r (Rabs (y k / K))) at 1. apply Rmult_le_compat_l; auto.
Qed.

(** the constraints of an independent face *)
Lemma face_list pb w W x lam : posdef (nv pb) (hess pb) -> stationary_on pb w W x lam ->
  exists l, nonsing (nv pb + length l) (kktm pb l) /\ (forall i, In i l <-> (i < ncb pb)%nat /\ W i = true) /\
    forall (c : rvec) a, (forall j, W j = false -> c j = 0) ->
      rsum (ncb pb) (fun i => c i * cvec pb i a) = rsum (length l) (fun k => c (nth k l 0%nat) * cvec pb (nth k l 0%nat) a).
Proof.
  intros HD [S1 S2 S3 S4]. set (n := nv pb) in *.
  destruct (basis pb (filter W (seq 0 (ncb pb))) HD) as (l & Hincl & HN & HS). fold n in HN.
  pose proof (nonsing_indep pb l HN) as HIn. fold n in HIn. pose proof (independent_nodup _ _ _ l HIn eq_refl) as Hnd.
  assert (Hl : forall i, In i l -> (i < ncb pb)%nat /\ W i = true).
  { intros i Hi. apply Hincl in Hi. apply filter_In in Hi as (H1 & H2). apply in_seq in H1. split; auto; lia. }
  assert (Hall : forall i, (i < ncb pb)%nat -> W i = true -> In i l).
  { intros i Hi HWi. destruct (in_dec Nat.eq_dec i l) as [|Hn]; auto. exfalso.
    destruct (HS i) as (c & Hc); [apply filter_In; split; auto; apply in_seq; lia|].
    set (d := fun k => (if (k =? i)%nat then 1 else 0) - rsum (length l) (fun t => if (k =? nth t l 0%nat)%nat then c t else 0)).
    assert (E : d i = 0).
    { apply S4; auto.
      - intros k Hk. unfold d. destruct (Nat.eqb_spec k i) as [->|]; [congruence|]. rewrite sum_zero; [lra|]. intros t Ht.
        destruct (Nat.eqb_spec k (nth t l 0%nat)) as [->|]; auto. exfalso. destruct (Hl (nth t l 0%nat)) as (_ & H2); [apply nth_In; auto|congruence].
      - intros a Ha. unfold d. rewrite (sum_ext _ _ (fun k => (if (k =? i)%nat then cvec pb k a else 0) - rsum (length l) (fun t => if (k =? nth t l 0%nat)%nat then c t else 0) * cvec pb k a)).
        + rewrite sum_minus. rewrite (sum_delta (ncb pb) i (fun k => cvec pb k a)) by auto.
          rewrite (list_sum_delta l c (fun k => cvec pb k a)) by (intros k Hk; apply Hl; auto). rewrite Hc by auto. lra.
        + intros k Hk. destruct (k =? i)%nat; lra. }
    unfold d in E. rewrite Nat.eqb_refl in E. rewrite sum_zero in E; [lra|]. intros t Ht. destruct (Nat.eqb_spec i (nth t l 0%nat)) as [->|]; auto. exfalso. apply Hn. apply nth_In. auto. }
  exists l. split; [exact HN|]. split; [intros i; split; [apply Hl|intros (? & ?); auto]|].
  intros c a Hc. rewrite <- (list_sum_delta l (fun k => c (nth k l 0%nat)) (fun i => cvec pb i a) (ncb pb)) by (intros i Hi; apply Hl; auto).
  apply sum_ext. intros i Hi. f_equal. destruct (W i) eqn:EW.
  - pose proof (Hall i Hi EW) as HIi. apply (In_nth _ _ 0%nat) in HIi as (k & Hk & <-).
    rewrite (sum_ext _ _ (fun t => if (t =? k)%nat then c (nth t l 0%nat) else 0)); [symmetry; apply (sum_delta _ k (fun t => c (nth t l 0%nat))); auto|].
    intros t Ht. destruct (Nat.eqb_spec t k) as [->|Hne]; [rewrite Nat.eqb_refl; auto|]. destruct (Nat.eqb_spec (nth k l 0%nat) (nth t l 0%nat)) as [E|]; auto.
    exfalso. apply Hne. apply (proj1 (NoDup_nth l 0%nat) Hnd); auto.
  - rewrite Hc by auto. symmetry. apply sum_zero. intros t Ht. destruct (Nat.eqb_spec i (nth t l 0%nat)) as [->|]; auto.
Qed.

Theorem integer_steps pb M K B : integer_data pb M -> sides_within pb K -> 0 < K -> posdef (nv pb) (hess pb) ->
  K * (dbound (nv pb) M * (1 + INR (nv pb) * INR M * dbound (nv pb) M)) < B -> steps_below pb B.
Proof.
  intros HI (HA & HB) HK HPd HBd w W x lam i z r Hi HSt [P1 P2 P3].
  destruct (face_list pb w W x lam HPd HSt) as (l & HN & Hl & Hsum). destruct HSt as [S1 S2 S3 S4].
  set (n := nv pb) in *. set (D := dbound n M) in *.
  assert (H1M : 1 <= INR M) by (apply (le_INR 1 M), HI). assert (H1D : 1 <= D) by (apply dbound_ge1, HI).
  assert (Hn0 : 0 <= INR n) by apply pos_INR.
  assert (Hin : forall k, (k < length l)%nat -> (nth k l 0%nat < ncb pb)%nat /\ W (nth k l 0%nat) = true) by (intros k Hk; apply Hl, nth_In; auto).
  assert (Hx : forall a, (a < n + length l)%nat -> Rabs (cat n x (fun k => lam (nth k l 0%nat)) a) <= K * D).
  { intros a Ha. apply (component_le pb M l _ (cat n (fun a => - p_a pb a) (fun k => rdot n (cvec pb (nth k l 0%nat)) x))); auto.
    - clear a Ha. intros a Ha. fold n in Ha |- *. destruct (Nat.lt_ge_cases a n) as [L|G].
      + unfold n. rewrite kktm_row by auto. fold n. pose proof (S2 a L) as E. rewrite (Hsum lam a S1) in E. unfold gradient in E. fold n in E. unfold cat. apply Nat.ltb_lt in L. rewrite L. lra.
      + replace a with (n + (a - n))%nat by lia. unfold n. rewrite kktm_low. fold n. unfold cat. replace (n + (a - n) <? n)%nat with false by (symmetry; apply Nat.ltb_ge; lia).
        replace (n + (a - n) - n)%nat with (a - n)%nat by lia. reflexivity.
    - clear a Ha. intros a Ha. fold n in Ha. unfold cat. destruct (Nat.ltb_spec a n) as [L|G]; [rewrite Rabs_Ropp; apply HA; auto|].
      destruct (Hin (a - n)%nat ltac:(lia)) as (H1 & H2). pose proof (S3 _ H1 H2) as T. apply (HB _ _ H1). destruct (w (nth (a - n) l 0%nat)); auto; contradiction. }
  set (y := cat n z (fun k => r (nth k l 0%nat))). set (v := cat n (cvec pb i) (fun _ => 0)).
  assert (Hy : forall a, (a < n + length l)%nat -> rsum (n + length l) (fun b => kktm pb l a b * y b) = v a).
  { intros a Ha. unfold y, v. destruct (Nat.lt_ge_cases a n) as [L|G].
    - unfold n. rewrite kktm_row by auto. fold n. pose proof (P2 a L) as E. rewrite (Hsum r a P1) in E. unfold cat. apply Nat.ltb_lt in L. rewrite L. lra.
    - replace a with (n + (a - n))%nat by lia. unfold n. rewrite kktm_low. fold n. unfold cat. replace (n + (a - n) <? n)%nat with false by (symmetry; apply Nat.ltb_ge; lia).
      destruct (Hin (a - n)%nat ltac:(lia)) as (H1 & H2). apply P3; auto. }
  assert (Hv : forall a, (a < n + length l)%nat -> integral (v a)) by (intros a Ha; unfold v, cat; destruct (Nat.ltb_spec a n); [apply (id_cvec pb M i a HI); auto|apply int_0]).
  split.
  - intros j Hj HW Hr. destruct (In_nth l j 0%nat (proj2 (Hl j) (conj Hj HW))) as (k & Hk & Ek).
    assert (Ec : forall (f g : rvec), cat n f (fun k => g (nth k l 0%nat)) (n + k)%nat = g j).
    { intros f g. unfold cat. replace (n + k <? n)%nat with false by (symmetry; apply Nat.ltb_ge; lia). replace (n + k - n)%nat with k by lia. rewrite Ek. reflexivity. }
    pose proof (Hx (n + k)%nat ltac:(lia)) as H1. rewrite Ec in H1.
    assert (H2 : / D <= Rabs (r j)).
    { assert (Eyk : y (n + k)%nat = r j) by apply Ec. rewrite <- Eyk. apply (component pb M l y v); auto; [fold n; lia|congruence]. }
    assert (Hn1 : 1 <= INR n).
    { pose proof (independent_le _ _ _ (nonsing_indep pb l HN)) as Hq. fold n in Hq. apply (le_INR 1). lia. }
    assert (HnM : 1 <= INR n * INR M) by (rewrite <- (Rmult_1_l 1); apply Rmult_le_compat; lra).
    apply Rle_lt_trans with (K * D); [exact H1|].
    assert (HBp : 0 < B).
    { eapply Rle_lt_trans; [|exact HBd]. apply Rmult_le_pos; [lra|]. apply Rmult_le_pos; [lra|]. assert (0 <= INR n * INR M * D) by (apply Rmult_le_pos; lra). lra. }
    apply Rlt_le_trans with (B * / D); [|apply Rmult_le_compat_l; lra].
    apply (Rmult_lt_reg_r D); [lra|]. rewrite (Rmult_assoc B), Rinv_l, Rmult_1_r by lra. eapply Rle_lt_trans; [|exact HBd].
    rewrite Rmult_assoc. apply Rmult_le_compat_l; [lra|]. apply Rmult_le_compat_l; [lra|].
    assert (1 * D <= INR n * INR M * D) by (apply Rmult_le_compat_r; lra). lra.
  - intros b Hb (a0 & Ha0 & Hz0).
    assert (Hcx : Rabs (rdot n (cvec pb i) x) <= INR n * (INR M * (K * D))).
    { rewrite dot_def. eapply Rle_trans; [apply abs_sum|]. rewrite <- (sum_const n (INR M * (K * D))). apply sum_le. intros a Ha. rops. rewrite Rabs_mult.
      apply Rmult_le_compat; try apply Rabs_pos; [apply (id_cvec pb M i a HI); auto|]. specialize (Hx a ltac:(lia)). unfold cat in Hx. apply Nat.ltb_lt in Ha. rewrite Ha in Hx. exact Hx. }
    pose proof (HB i b Hi Hb) as HbK.
    destruct (det_kktm pb M l HI HN) as [Hd1 Hd2]. fold n in Hd1, Hd2. fold D in Hd2. set (d := det (n + length l) (kktm pb l)) in *.
    assert (Hcz : 0 < rdot n (cvec pb i) z).
    { assert (E : rdot n (cvec pb i) z = quad n (hess pb) z).
      { unfold quad. rewrite dot_def. symmetry. rewrite (sum_ext n _ (fun a => cvec pb i a * z a - rsum (ncb pb) (fun j => r j * cvec pb j a) * z a)).
        - rewrite sum_minus. rewrite (sum_ext n (fun a => rsum (ncb pb) (fun j => r j * cvec pb j a) * z a) (fun a => rsum (ncb pb) (fun j => r j * (cvec pb j a * z a)))).
          + rewrite sum_swap. rewrite (sum_zero (ncb pb)); [rops; lra|]. intros j Hj. rewrite sum_scal. destruct (W j) eqn:EW; [|rewrite P1 by auto; ring].
            pose proof (P3 j Hj EW) as Hp. rewrite dot_def in Hp. rops. rewrite Hp. ring.
          + intros a Ha. rewrite Rmult_comm, <- sum_scal. apply sum_ext. intros; ring.
        - intros a Ha. cbv beta. rewrite (P2 a Ha). ring. }
      rewrite E. apply HPd. eauto. }
    assert (Hge : / D <= rdot n (cvec pb i) z).
    { assert (HI1 : integral (rdot n (cvec pb i) z * d)).
      { rewrite dot_def. rewrite Rmult_comm, <- sum_scal. apply int_sum. intros a Ha.
        assert (Ee : y a = z a) by (unfold y, cat; apply Nat.ltb_lt in Ha; rewrite Ha; reflexivity). rops. replace (d * (cvec pb i a * z a)) with (cvec pb i a * (y a * d)) by (rewrite Ee; ring).
        apply int_mult; [apply (id_cvec pb M i a HI); auto|]. unfold d. rewrite <- (cramer (n + length l) (kktm pb l) y v a (kktm_sym pb l) Hy ltac:(lia)).
        apply det_int. intros r0 c Hr0 Hc. unfold upd. destruct (r0 =? a)%nat; [apply Hv; auto|apply (id_kktm pb M l r0 c HI)]. }
      assert (H1 : 1 <= Rabs (rdot n (cvec pb i) z * d)).
      { apply int_ge1; auto. apply Rmult_integral_contrapositive_currified; [lra|]. intros E0. rewrite E0, Rabs_R0 in Hd1. lra. }
      rewrite Rabs_mult, (Rabs_right (rdot n (cvec pb i) z)) in H1 by lra.
      apply (Rmult_le_reg_r D); [lra|]. rewrite Rinv_l by lra. apply Rle_trans with (rdot n (cvec pb i) z * Rabs d); auto. apply Rmult_le_compat_l; lra. }
    apply Rle_lt_trans with (K * (1 + INR n * INR M * D)).
    { unfold Rminus. eapply Rle_trans; [apply Rabs_triang|]. rewrite Rabs_Ropp.
      replace (K * (1 + INR n * INR M * D)) with (K + INR n * (INR M * (K * D))) by ring. apply Rplus_le_compat; auto. }
    assert (HBp : 0 < B).
    { eapply Rle_lt_trans; [|exact HBd]. apply Rmult_le_pos; [lra|]. apply Rmult_le_pos; [lra|]. assert (0 <= INR n * INR M * D) by (apply Rmult_le_pos; [apply Rmult_le_pos; lra|lra]). lra. }
    apply Rlt_le_trans with (B * / D); [|apply Rmult_le_compat_l; lra].
    apply (Rmult_lt_reg_r D); [lra|]. rewrite (Rmult_assoc B), Rinv_l, Rmult_1_r by lra. eapply Rle_lt_trans; [|exact HBd]. right. ring.
Qed.

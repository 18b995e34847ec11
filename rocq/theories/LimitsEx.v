(** Every positive definite problem has a limit [B] with [steps_below pb B]: a face and a constraint determine the point, the
    multipliers, the direction and its coefficients, and there are finitely many faces. *)
From Coq Require Import List Arith ZArith Lia Bool Reals Lra Classical_Prop.
From Verif Require Import Base ActiveSet ActiveSetProofs Num Solver LinAlg QRUpdate QPSpec GIMath GIBase GIInv GIDual GIRun GITerm GITotal WarmTotal Limits.
Import ListNotations.
Local Open Scope R_scope.

Section Unique.
Variable pb : rproblem.
Hypothesis HPd : posdef (nv pb) (hess pb).
Notation n := (nv pb).
Notation m := (ncb pb).
Notation H v := (fun a => rsum n (fun b => hess pb a b * v b)).

(** the multipliers of zero are zero, and the directions too *)
Lemma face_zero (W : nat -> bool) (v mu : rvec) :
  (forall j, (j < m)%nat -> W j = false -> mu j = 0) ->
  (forall a, (a < n)%nat -> rsum n (fun b => hess pb a b * v b) = - rsum m (fun j => mu j * cvec pb j a)) ->
  (forall j, (j < m)%nat -> W j = true -> rdot n (cvec pb j) v = 0) ->
  forall a, (a < n)%nat -> v a = 0.
Proof.
  intros H1 H2 H3. assert (E : quad n (hess pb) v = 0).
  { unfold quad. rewrite (sum_ext _ _ (fun a => - rsum m (fun j => mu j * (cvec pb j a * v a)))).
    - rewrite sum_opp, sum_swap. rewrite sum_zero; [lra|]. intros j Hj. rewrite sum_scal, <- dot_def. destruct (W j) eqn:E.
      + rewrite H3 by auto. lra.
      + rewrite H1 by auto. lra.
    - intros a Ha. rewrite H2 by auto. transitivity (- (v a * rsum m (fun j => mu j * cvec pb j a))); [lra|]. rewrite <- sum_scal. f_equal. apply sum_ext. intros; rring. }
  destruct (classic_zero n v) as [Hz|Hz]; auto. exfalso. specialize (HPd v Hz). lra.
Qed.

Lemma face_unique w W x lam w' W' x' lam' : stationary_on pb w W x lam -> stationary_on pb w' W' x' lam' ->
  (forall j, (j < m)%nat -> W j = W' j /\ (W j = true -> w j = w' j)) ->
  (forall a, (a < n)%nat -> x' a = x a) /\ (forall j, (j < m)%nat -> lam' j = lam j).
Proof.
  intros [S1 S2 S3 S4] [T1 T2 T3 T4] HW. set (v := fun a => x' a - x a). set (mu := fun j => lam' j - lam j).
  assert (Hv : forall a, (a < n)%nat -> v a = 0).
  { apply (face_zero W v mu).
    - intros j Hj E. unfold mu. rewrite S1, T1; auto; [lra|]. destruct (HW j Hj). congruence.
    - intros a Ha. specialize (S2 a Ha). specialize (T2 a Ha). unfold gradient in S2, T2. unfold v, mu.
      rewrite (sum_ext _ (fun b => hess pb a b * (x' b - x b)) (fun b => hess pb a b * x' b - hess pb a b * x b)) by (intros; rring).
      rewrite (sum_ext _ (fun j => (lam' j - lam j) * cvec pb j a) (fun j => lam' j * cvec pb j a - lam j * cvec pb j a)) by (intros; rring).
      rewrite !sum_minus. lra.
    - intros j Hj E. destruct (HW j Hj) as [E1 E2]. specialize (S3 j Hj E). specialize (T3 j Hj ltac:(congruence)). rewrite <- (E2 E) in T3.
      assert (ED : rdot n (cvec pb j) x' = rdot n (cvec pb j) x) by (destruct (w j); try contradiction; congruence).
      rewrite !dot_def in ED. rewrite dot_def. unfold v. rewrite (sum_ext _ _ (fun b => cvec pb j b * x' b - cvec pb j b * x b)) by (intros; rring).
      rewrite sum_minus. lra. }
  assert (Hx : forall a, (a < n)%nat -> x' a = x a) by (intros a Ha; specialize (Hv a Ha); unfold v in Hv; lra).
  split; auto. intros j Hj. assert (E : (if (j <? m)%nat then mu j else 0) = 0).
  { apply (S4 (fun j => if (j <? m)%nat then mu j else 0)); auto.
    - intros k Hk. destruct (Nat.ltb_spec k m) as [Hlt|]; auto. unfold mu. destruct (HW k Hlt) as [E1 _]. rewrite S1, T1 by congruence. lra.
    - intros a Ha. specialize (S2 a Ha). specialize (T2 a Ha). unfold gradient in S2, T2.
      rewrite (sum_ext _ _ (fun j => lam' j * cvec pb j a - lam j * cvec pb j a)).
      + rewrite sum_minus. rewrite (sum_ext n (fun j => hess pb a j * x' j) (fun j => hess pb a j * x j)) in T2 by (intros; rewrite Hx by auto; reflexivity). lra.
      + intros k Hk. apply Nat.ltb_lt in Hk. rewrite Hk. unfold mu. rring. }
  apply Nat.ltb_lt in Hj. rewrite Hj in E. unfold mu in E. lra.
Qed.

Lemma direction_unique w W x lam W' i z r z' r' : stationary_on pb w W x lam -> projected pb W i z r -> projected pb W' i z' r' ->
  (forall j, (j < m)%nat -> W j = W' j) ->
  (forall a, (a < n)%nat -> z' a = z a) /\ (forall j, (j < m)%nat -> r' j = r j).
Proof.
  intros HS [P1 P2 P3] [Q1 Q2 Q3] HW. set (v := fun a => z' a - z a). set (mu := fun j => r' j - r j).
  assert (Hv : forall a, (a < n)%nat -> v a = 0).
  { apply (face_zero W v mu).
    - intros j Hj E. unfold mu. rewrite P1, Q1; auto; [lra|]. rewrite <- HW; auto.
    - intros a Ha. specialize (P2 a Ha). specialize (Q2 a Ha). unfold v, mu.
      rewrite (sum_ext _ (fun b => hess pb a b * (z' b - z b)) (fun b => hess pb a b * z' b - hess pb a b * z b)) by (intros; rring).
      rewrite (sum_ext _ (fun j => (r' j - r j) * cvec pb j a) (fun j => r' j * cvec pb j a - r j * cvec pb j a)) by (intros; rring).
      rewrite !sum_minus. lra.
    - intros j Hj E. specialize (P3 j Hj E). specialize (Q3 j Hj ltac:(rewrite <- HW; auto)).
      rewrite dot_def in P3. rewrite dot_def in Q3. rewrite dot_def. unfold v. rewrite (sum_ext _ _ (fun b => cvec pb j b * z' b - cvec pb j b * z b)) by (intros; rring).
      rewrite sum_minus. lra. }
  assert (Hx : forall a, (a < n)%nat -> z' a = z a) by (intros a Ha; specialize (Hv a Ha); unfold v in Hv; lra).
  split; auto. intros j Hj. assert (E : (if (j <? m)%nat then mu j else 0) = 0).
  { apply (so_indep _ _ _ _ _ HS (fun j => if (j <? m)%nat then mu j else 0)); auto.
    - intros k Hk. destruct (Nat.ltb_spec k m) as [Hlt|]; auto. unfold mu. rewrite P1, Q1; auto; [lra|]. rewrite <- HW; auto.
    - intros a Ha. specialize (P2 a Ha). specialize (Q2 a Ha).
      rewrite (sum_ext _ _ (fun j => r' j * cvec pb j a - r j * cvec pb j a)).
      + rewrite sum_minus. rewrite (sum_ext n (fun j => hess pb a j * z' j) (fun j => hess pb a j * z j)) in Q2 by (intros; rewrite Hx by auto; reflexivity). lra.
      + intros k Hk. apply Nat.ltb_lt in Hk. rewrite Hk. unfold mu. rring. }
  apply Nat.ltb_lt in Hj. rewrite Hj in E. unfold mu in E. lra.
Qed.

(** n_i . z = z'Gz *)
Lemma direction_pos W i z r : projected pb W i z r -> (exists a, (a < n)%nat /\ z a <> 0) -> 0 < rdot n (cvec pb i) z.
Proof.
  intros [P1 P2 P3] Hne. assert (E : quad n (hess pb) z = rdot n (cvec pb i) z); [|rewrite <- E; apply HPd; auto].
  unfold quad. rewrite (sum_ext _ _ (fun a => cvec pb i a * z a - rsum m (fun j => r j * (cvec pb j a * z a)))).
  - rewrite sum_minus, sum_swap, (sum_zero m), dot_def; [lra|]. intros j Hj. rewrite sum_scal, <- dot_def. destruct (W j) eqn:E.
    + rewrite P3 by auto. lra.
    + rewrite P1 by auto. lra.
  - intros a Ha. rewrite P2 by auto. rewrite Rmult_minus_distr_l, <- sum_scal. f_equal; [rring|]. apply sum_ext. intros; rring.
Qed.

(** the face as a list *)
Definition key (w : nat -> status) (W : nat -> bool) : list status := map (fun j => if W j then w j else INACTIVE) (seq 0 m).
Definition every : list status := [INACTIVE; LOWER; UPPER; EQUALITY; LOWER_BOUND; UPPER_BOUND; FIXED].
Lemma key_in w W : In (key w W) (product (map (fun _ => every) (seq 0 m))).
Proof.
  apply product_in. unfold key. induction (seq 0 m) as [|j l IH]; constructor; auto. destruct (if W j then w j else INACTIVE); cbn; tauto.
Qed.
Lemma key_same w W x lam w' W' x' lam' : stationary_on pb w W x lam -> stationary_on pb w' W' x' lam' -> key w W = key w' W' ->
  forall j, (j < m)%nat -> W j = W' j /\ (W j = true -> w j = w' j).
Proof.
  intros HS HT E j Hj. assert (Ej : (if W j then w j else INACTIVE) = if W' j then w' j else INACTIVE).
  { assert (E1 := f_equal (fun l => nth j l INACTIVE) E). unfold key in E1.
    assert (HN : forall f : nat -> status, nth j (map f (seq 0 m)) INACTIVE = f j).
    { intros f. rewrite (nth_indep _ INACTIVE (f 0%nat)) by (rewrite map_length, seq_length; auto). rewrite map_nth, seq_nth by auto. reflexivity. }
    rewrite !HN in E1. exact E1. }
  pose proof (so_tight _ _ _ _ _ HS j Hj) as S1. pose proof (so_tight _ _ _ _ _ HT j Hj) as T1.
  destruct (W j), (W' j).
  - split; [reflexivity|intros _; exact Ej].
  - rewrite Ej in S1. destruct (S1 eq_refl).
  - rewrite <- Ej in T1. destruct (T1 eq_refl).
  - split; [reflexivity|intros E0; discriminate E0].
Qed.

(** The limit for one face and one constraint *)
Definition limit_for (kk : list status) (i : nat) (B : R) : Prop :=
  forall w W x lam z r, key w W = kk -> stationary_on pb w W x lam -> projected pb W i z r ->
  (forall j, (j < m)%nat -> W j = true -> r j <> 0 -> Rabs (lam j) < B * Rabs (r j)) /\
  (forall b, clo pb i = Some b \/ cup pb i = Some b -> (exists a, (a < n)%nat /\ z a <> 0) ->
     Rabs (b - rdot n (cvec pb i) x) < B * rdot n (cvec pb i) z).

Lemma limit_for_le kk i B B' : B <= B' -> limit_for kk i B -> limit_for kk i B'.
Proof.
  intros HB HL w W x lam z r E HS HJ. destruct (HL w W x lam z r E HS HJ) as [H1 H2]. split.
  - intros j Hj HW Hr. specialize (H1 j Hj HW Hr). pose proof (Rabs_pos (r j)). assert (B * Rabs (r j) <= B' * Rabs (r j)) by (apply Rmult_le_compat_r; auto). lra.
  - intros b Hb Hne. specialize (H2 b Hb Hne). pose proof (direction_pos _ _ _ _ HJ Hne).
    assert (B * rdot n (cvec pb i) z <= B' * rdot n (cvec pb i) z) by (apply Rmult_le_compat_r; lra). lra.
Qed.

Lemma steps_below_le B B' : B <= B' -> steps_below pb B -> steps_below pb B'.
Proof.
  intros HB HL w W x lam i z r Hi HS HJ. destruct (HL w W x lam i z r Hi HS HJ) as [H1 H2]. split.
  - intros j Hj HW Hr. specialize (H1 j Hj HW Hr). pose proof (Rabs_pos (r j)). assert (B * Rabs (r j) <= B' * Rabs (r j)) by (apply Rmult_le_compat_r; auto). lra.
  - intros b Hb Hne. specialize (H2 b Hb Hne). pose proof (direction_pos _ _ _ _ HJ Hne).
    assert (B * rdot n (cvec pb i) z <= B' * rdot n (cvec pb i) z) by (apply Rmult_le_compat_r; lra). lra.
Qed.

Lemma limit_one kk i : exists B, limit_for kk i B.
Proof.
  destruct (classic (exists w W x lam z r, key w W = kk /\ stationary_on pb w W x lam /\ projected pb W i z r)) as [(w & W & x & lam & z & r & Ek & HS & HJ)|Hno].
  2:{ exists 0. intros w W x lam z r E HS HJ. exfalso. apply Hno. exists w, W, x, lam, z, r. auto. }
  destruct (finite_bound (fun j => Rabs (lam j) / Rabs (r j)) m) as (B1 & H1).
  set (v := fun o : option R => match o with Some b => Rabs (b - rdot n (cvec pb i) x) / rdot n (cvec pb i) z | None => 0 end).
  set (B := Rabs B1 + Rabs (v (clo pb i)) + Rabs (v (cup pb i)) + 1).
  assert (HB1 : B1 <= B /\ v (clo pb i) < B /\ v (cup pb i) < B).
  { unfold B. pose proof (Rle_abs B1). pose proof (Rle_abs (v (clo pb i))). pose proof (Rle_abs (v (cup pb i))).
    pose proof (Rabs_pos B1). pose proof (Rabs_pos (v (clo pb i))). pose proof (Rabs_pos (v (cup pb i))). lra. }
  destruct HB1 as (HB1 & HB2 & HB3). exists B. intros w' W' x' lam' z' r' Ek' HS' HJ'.
  pose proof (key_same _ _ _ _ _ _ _ _ HS HS' ltac:(congruence)) as HW.
  destruct (face_unique _ _ _ _ _ _ _ _ HS HS' HW) as [Ex El].
  destruct (direction_unique w W x lam W' i z r z' r' HS HJ HJ' ltac:(intros j Hj; apply HW; auto)) as [Ez Er].
  split.
  - intros j Hj _ Hr. rewrite El by auto. rewrite Er in * by auto. specialize (H1 j Hj). cbv beta in H1.
    assert (Hp : 0 < Rabs (r j)) by (apply Rabs_pos_lt; auto). apply Rmult_lt_reg_r with (/ Rabs (r j)); [apply Rinv_0_lt_compat; auto|].
    rewrite Rmult_assoc, Rinv_r, Rmult_1_r by lra. unfold Rdiv in H1. lra.
  - intros b Hb Hne. pose proof (direction_pos _ _ _ _ HJ' Hne) as Hp.
    assert (Edz : rdot n (cvec pb i) z' = rdot n (cvec pb i) z) by (apply dot_ext; auto).
    assert (Edx : rdot n (cvec pb i) x' = rdot n (cvec pb i) x) by (apply dot_ext; auto). rewrite Edz in *. rewrite Edx.
    assert (Hv : v (Some b) < B) by (destruct Hb as [Hb|Hb]; rewrite <- Hb; auto). unfold v in Hv.
    apply Rmult_lt_reg_r with (/ rdot n (cvec pb i) z); [apply Rinv_0_lt_compat; auto|]. rewrite Rmult_assoc, Rinv_r, Rmult_1_r by lra. unfold Rdiv in Hv. exact Hv.
Qed.

Lemma limit_list (ks : list (list status)) q : exists B, forall kk i, In kk ks -> (i < q)%nat -> limit_for kk i B.
Proof.
  induction ks as [|kk ks (B1 & H1)]; [exists 0; intros; contradiction|].
  assert (HQ : exists B, forall i, (i < q)%nat -> limit_for kk i B).
  { clear - HPd. induction q as [|q (B & HB)]; [exists 0; intros; lia|]. destruct (limit_one kk q) as (B' & HB'). exists (Rmax B B').
    intros i Hi. destruct (Nat.eq_dec i q) as [->|]; [apply (limit_for_le kk q B'); auto; apply Rmax_r|].
    apply (limit_for_le kk i B); [apply Rmax_l|apply HB; lia]. }
  destruct HQ as (B2 & H2). exists (Rmax B1 B2). intros k' i [<-|Hin] Hi.
  - apply (limit_for_le kk i B2); [apply Rmax_r|apply H2; auto].
  - apply (limit_for_le k' i B1); [apply Rmax_l|apply H1; auto].
Qed.

Lemma limit_exists : exists B, steps_below pb B.
Proof.
  destruct (limit_list (product (map (fun _ => every) (seq 0 m))) m) as (B & HB). exists B.
  intros w W x lam i z r Hi HS HJ. apply (HB (key w W) i (key_in w W) Hi w W x lam z r eq_refl HS HJ).
Qed.
End Unique.

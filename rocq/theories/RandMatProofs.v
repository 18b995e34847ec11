(** Proofs about the random matrices: orthogonality, determinant, ranks. *)
From Coq Require Import List Arith ZArith Lia Bool Reals Lra.
From Verif Require Import Base Num LinAlg TestPb Random RandomProofs RandomRank Det RandMat.
Local Open Scope R_scope.

Definition orth (n : nat) (Q : rmat) : Prop :=
  (forall a b, (a < n)%nat -> (b < n)%nat -> rsum n (fun k => Q k a * Q k b) = if (a =? b)%nat then 1 else 0) /\
  (forall a b, (a < n)%nat -> (b < n)%nat -> rsum n (fun k => Q a k * Q b k) = if (a =? b)%nat then 1 else 0).
Lemma orth_ext n Q P : (forall r c, (r < n)%nat -> (c < n)%nat -> Q r c = P r c) -> orth n Q -> orth n P.
Proof.
  intros H [O1 O2]. split; intros a b Ha Hb; [rewrite <- (O1 a b Ha Hb)|rewrite <- (O2 a b Ha Hb)]; apply sum_ext; intros k Hk; rewrite !H by auto; reflexivity.
Qed.
(** a reflection, with some rows negated, preserves orthogonality *)
Lemma orth_reflect n (v : rvec) (s : rvec) Q : rsum n (fun k => v k * v k) = 1 -> (forall r, s r * s r = 1) -> orth n Q ->
  orth n (fun r c => s r * (Q r c - 2 * v r * rsum n (fun k => v k * Q k c))).
Proof.
  intros Hv Hs [O1 O2]. set (w := fun c => rsum n (fun k => v k * Q k c)).
  assert (W1 : forall a, (a < n)%nat -> rsum n (fun c => Q a c * w c) = v a).
  { intros a Ha. unfold w. rewrite (sum_ext n _ (fun c => rsum n (fun k => v k * (Q a c * Q k c)))).
    2:{ intros c _. rewrite <- sum_scal. apply sum_ext. intros; ring. }
    rewrite sum_swap. rewrite (sum_ext n _ (fun k => if (k =? a)%nat then v k else 0)); [apply sum_delta; auto|].
    intros k Hk. rewrite sum_scal, O2 by auto. rewrite Nat.eqb_sym. destruct (k =? a)%nat; ring. }
  assert (W2 : rsum n (fun c => w c * w c) = 1).
  { rewrite <- Hv. rewrite (sum_ext n _ (fun c => rsum n (fun k => v k * (Q k c * w c)))).
    2:{ intros c _. unfold w at 1. rewrite <- sum_scal_r. apply sum_ext. intros; ring. }
    rewrite sum_swap. apply sum_ext. intros k Hk. rewrite sum_scal, W1 by auto. reflexivity. }
  split; intros a b Ha Hb.
  - rewrite (sum_ext n _ (fun k => (Q k a * Q k b - (2 * w b) * (v k * Q k a) - (2 * w a) * (v k * Q k b)) + (4 * w a * w b) * (v k * v k))).
    + rewrite sum_plus, !sum_minus, !sum_scal, Hv. fold (w a) (w b). rewrite O1 by auto. destruct (a =? b)%nat; ring.
    + intros k _. fold (w a) (w b). transitivity (s k * s k * ((Q k a - 2 * v k * w a) * (Q k b - 2 * v k * w b))); [ring|]. rewrite Hs. ring.
  - rewrite (sum_ext n _ (fun k => (s a * s b) * ((Q a k * Q b k - (2 * v b) * (Q a k * w k) - (2 * v a) * (Q b k * w k)) + (4 * v a * v b) * (w k * w k)))).
    + rewrite sum_scal, sum_plus, !sum_minus, !sum_scal, W2, !W1, O2 by auto. destruct (Nat.eqb_spec a b) as [->|]; [|ring]. rewrite Hs. ring.
    + intros k _. fold (w k). ring.
Qed.

Lemma normalize_unit n v k : (k < n)%nat -> v k <> 0 -> rsum n (fun k => normalize n v k * normalize n v k) = 1.
Proof.
  intros Hk Hv. unfold normalize. set (z := rsum n (fun k => v k * v k)).
  assert (Hz : 0 < z).
  { destruct (Rle_lt_or_eq_dec 0 z) as [|E]; auto; [apply sum_nonneg; intros; apply Rle_0_sqr|]. exfalso. apply Hv.
    pose proof (sum_nonneg_zero n _ (fun i _ => Rle_0_sqr (v i)) (eq_sym E) k Hk) as Z. apply Rsqr_0_uniq. exact Z. }
  cbv zeta. destruct (Rltb_spec 0 z); [|lra]. rewrite (sum_ext n _ (fun k => / z * (v k * v k))).
  - rewrite sum_scal. fold z. field. lra.
  - intros i _. assert (sqrt z <> 0) by (intros E; apply sqrt_eq_0 in E; lra). transitivity (v i * v i / (sqrt z * sqrt z)); [field; auto|]. rewrite sqrt_sqrt by lra. field. lra.
Qed.

(** ** The loop of randOrtho *)
Record oinv (size i : nat) (Q : rmat) (pd : bool) : Prop := {
  oi_orth : orth size Q;
  oi_id : forall r c, (r < size)%nat -> (c < size)%nat -> (r < size - i \/ c < size - i)%nat -> Q r c = if (r =? c)%nat then 1 else 0;
  oi_det : det size Q = if pd then 1 else -1
}.
Lemma pow_m1_parity i : (-1) ^ i = if (i mod 2 =? 0)%nat then 1 else -1.
Proof.
  pose proof (Nat.div_mod i 2 ltac:(lia)) as E. rewrite E at 1. rewrite pow_add, pow_mult. replace ((-1) ^ 2) with 1 by ring. rewrite pow1.
  pose proof (Nat.mod_upper_bound i 2 ltac:(lia)). destruct (i mod 2)%nat as [|[|k]]; [cbn; ring|cbn; ring|lia].
Qed.
Lemma ortho_step_ok size d i Q pd : (2 <= i <= size)%nat -> oinv size (i - 1) Q pd ->
  oinv size i (fst (ortho_step size d i (Q, pd))) (snd (ortho_step size d i (Q, pd))).
Proof.
  intros Hi [O1 O2 O3]. unfold ortho_step. cbv zeta.
  set (v0 := normalize i (od_v d i)). set (positive := Rleb 0 (v0 0%nat)).
  set (v1 := fun k => if (k =? 0)%nat then (if positive then v0 k + 1 else v0 k - 1) else v0 k).
  set (v := normalize i v1). set (o := (size - i)%nat).
  assert (Hv : rsum i (fun k => v k * v k) = 1).
  { apply (normalize_unit i v1 0); [lia|]. unfold v1. cbn [Nat.eqb]. unfold positive. destruct (Rleb_spec 0 (v0 0%nat)); lra. }
  cbn [fst snd].
  (* the same vector, padded with zeros *)
  set (e := fun k => if (o <=? k)%nat then v (k - o)%nat else 0).
  assert (Hsum : forall f : nat -> R, rsum size (fun k => e k * f k) = rsum i (fun k => v k * f (o + k)%nat)).
  { intros f. replace size with (o + i)%nat by (unfold o; lia). rewrite sum_app, sum_zero.
    - rewrite Rplus_0_l. apply sum_ext. intros k _. unfold e. destruct (Nat.leb_spec o (o + k)); [|lia]. replace (o + k - o)%nat with k by lia. reflexivity.
    - intros k Hk. unfold e. destruct (Nat.leb_spec o k); [lia|ring]. }
  assert (He : rsum size (fun k => e k * e k) = 1).
  { rewrite Hsum, <- Hv. apply sum_ext. intros k _. unfold e. destruct (Nat.leb_spec o (o + k)); [|lia]. replace (o + k - o)%nat with k by lia. reflexivity. }
  set (W := fun c => rsum size (fun k => e k * Q k c)).
  assert (HW : forall a, rsum i (fun k => Q (o + k)%nat (o + a)%nat * v k) = W (o + a)%nat).
  { intros a. unfold W. rewrite Hsum. apply sum_ext. intros; ring. }
  assert (HW0 : forall c, (c < o)%nat -> W c = 0).
  { intros c Hc. unfold W. rewrite Hsum. apply sum_zero. intros k Hk. rewrite O2 by lia. destruct (Nat.eqb_spec (o + k) c); [lia|ring]. }
  set (sg := fun r => if positive && (o <=? r)%nat then -1 else 1 : R).
  set (P := fun r c => sg r * (Q r c - 2 * e r * W c)).
  assert (HP : forall r c, (r < size)%nat -> (c < size)%nat ->
     (if positive then
        (fun r c => if (o <=? r)%nat && (o <=? c)%nat
          then (if (S o <=? r)%nat && (S o <=? c)%nat then - (if (r =? o)%nat && (c =? o)%nat then -1 else Q r c) else (if (r =? o)%nat && (c =? o)%nat then -1 else Q r c)) + 2 * v (r - o)%nat * rsum i (fun k => Q (o + k)%nat (o + (c - o))%nat * v k)
          else (if (S o <=? r)%nat && (S o <=? c)%nat then - (if (r =? o)%nat && (c =? o)%nat then -1 else Q r c) else (if (r =? o)%nat && (c =? o)%nat then -1 else Q r c)))
      else (fun r c => if (o <=? r)%nat && (o <=? c)%nat then Q r c - 2 * v (r - o)%nat * rsum i (fun k => Q (o + k)%nat (o + (c - o))%nat * v k) else Q r c)) r c = P r c).
  { intros r c Hr Hc. unfold P, sg. assert (Q00 : Q o o = 1) by (rewrite O2 by lia; rewrite Nat.eqb_refl; reflexivity).
    destruct positive; cbv beta iota; rewrite !HW; cbn [andb].
    - destruct (Nat.leb_spec o r), (Nat.leb_spec o c); cbn [andb].
      + replace (o + (c - o))%nat with c by lia. assert (Ee : e r = v (r - o)%nat) by (unfold e; destruct (Nat.leb_spec o r); [auto|lia]). rewrite Ee.
        destruct (Nat.leb_spec (S o) r), (Nat.leb_spec (S o) c), (Nat.eqb_spec r o), (Nat.eqb_spec c o); cbn [andb]; try lia; try (subst; rewrite ?Q00; ring).
        * subst c. rewrite (O2 r o) by lia. destruct (Nat.eqb_spec r o); [lia|]. ring.
        * subst r. rewrite (O2 o c) by lia. destruct (Nat.eqb_spec o c); [lia|]. ring.
      + rewrite HW0 by auto. destruct (Nat.leb_spec (S o) c); [lia|]. rewrite andb_false_r. destruct (Nat.eqb_spec c o); [lia|]. rewrite andb_false_r.
        rewrite (O2 r c) by lia. destruct (Nat.eqb_spec r c); [lia|]. ring.
      + destruct (Nat.leb_spec (S o) r); [lia|]. cbn [andb]. destruct (Nat.eqb_spec r o); [lia|]. cbn [andb]. unfold e. destruct (Nat.leb_spec o r); [lia|]. ring.
      + destruct (Nat.leb_spec (S o) r); [lia|]. cbn [andb]. destruct (Nat.eqb_spec r o); [lia|]. cbn [andb]. unfold e. destruct (Nat.leb_spec o r); [lia|]. ring.
    - destruct (Nat.leb_spec o r), (Nat.leb_spec o c); cbn [andb].
      + replace (o + (c - o))%nat with c by lia. unfold e. destruct (Nat.leb_spec o r); [ring|lia].
      + rewrite HW0 by auto. ring.
      + unfold e. destruct (Nat.leb_spec o r); [lia|ring].
      + unfold e. destruct (Nat.leb_spec o r); [lia|ring]. }
  assert (OP : orth size P).
  { apply orth_reflect; auto. intros r. unfold sg. destruct (positive && (o <=? r)%nat); ring. }
  split.
  - apply (orth_ext size P); auto. intros r c Hr Hc. symmetry. apply HP; auto.
  - intros r c Hr Hc Ho. etransitivity; [apply (HP r c Hr Hc)|]. fold o in Ho. unfold P, sg. rewrite (O2 r c) by lia. destruct (Nat.leb_spec o r).
    + rewrite HW0 by lia. destruct (Nat.eqb_spec r c); [lia|]. ring.
    + rewrite andb_false_r. unfold e. destruct (Nat.leb_spec o r); [lia|]. ring.
  - etransitivity; [apply det_ext; exact HP|]. set (T := fun r c => Q r c - 2 * e r * W c).
    assert (DT : det size T = - det size Q) by (apply det_reflection; auto). unfold P, sg. destruct positive; cbn [andb].
    + rewrite (det_ext size _ (fun r c => if (o <=? r)%nat && (r <? o + i)%nat then - T r c else T r c)).
      * rewrite det_negate by (unfold o; lia). rewrite DT, O3, pow_m1_parity. destruct (i mod 2 =? 0)%nat, pd; cbn [negb]; ring.
      * intros r c Hr _. unfold T. destruct (Nat.leb_spec o r); cbn [andb]; [|ring]. destruct (Nat.ltb_spec r (o + i)); [ring|unfold o in *; lia].
    + rewrite (det_ext size _ T) by (intros; unfold T; ring). rewrite DT, O3. destruct pd; cbn [negb]; ring.
Qed.
Lemma oinv_init size d : (0 < size)%nat ->
  oinv size 1 (fun r c => if (r =? size - 1)%nat && (c =? size - 1)%nat then (if od_pos d then 1 else -1) else idm r c) (od_pos d).
Proof.
  intros H. set (s := fun r => if (r =? size - 1)%nat && negb (od_pos d) then -1 else 1 : R).
  assert (Hs : forall r, s r * s r = 1) by (intros r; unfold s; destruct (_ && _); ring).
  assert (E : forall r c, (if (r =? size - 1)%nat && (c =? size - 1)%nat then (if od_pos d then 1 else -1) else idm r c) = s r * idm r c).
  { intros r c. unfold s, idm. destruct (Nat.eqb_spec r (size - 1)), (Nat.eqb_spec c (size - 1)); cbn [andb].
    - subst. rewrite Nat.eqb_refl. destruct (od_pos d); cbn [negb]; ring.
    - destruct (Nat.eqb_spec r c); [lia|]. ring.
    - ring.
    - ring. }
  split.
  - apply (orth_ext size (fun r c => s r * idm r c)); [intros; symmetry; apply E|]. split; intros a b Ha Hb; unfold idm.
    + rewrite (sum_ext size _ (fun k => if (k =? a)%nat then (if (a =? b)%nat then 1 else 0) else 0)); [apply sum_delta; auto|].
      intros k _. destruct (Nat.eqb_spec k a) as [->|]; [|ring]. destruct (a =? b)%nat; [|ring]. rewrite !Rmult_1_r. apply Hs.
    + rewrite (sum_ext size _ (fun k => if (k =? a)%nat then (if (a =? b)%nat then 1 else 0) else 0)); [apply sum_delta; auto|].
      intros k _. rewrite (Nat.eqb_sym a k). destruct (Nat.eqb_spec k a) as [->|]; [|ring]. rewrite (Nat.eqb_sym b a).
      destruct (Nat.eqb_spec a b) as [->|]; [|ring]. rewrite !Rmult_1_r. apply Hs.
  - intros r c Hr Hc Ho. rewrite E. unfold idm, s. destruct (Nat.eqb_spec r c) as [->|]; [|ring]. destruct (Nat.eqb_spec c (size - 1)); [lia|]. cbn [andb]. ring.
  - rewrite (det_ext size _ (fun r c => if od_pos d then idm r c else if (size - 1 <=? r)%nat && (r <? size - 1 + 1)%nat then - idm r c else idm r c)).
    + destruct (od_pos d); [apply det_id|]. rewrite det_negate by lia. unfold idm. rewrite det_id. cbn [pow]. ring.
    + intros r c Hr Hc. rewrite E. unfold s. destruct (od_pos d); cbn [negb]; [rewrite andb_false_r; ring|].
      destruct (Nat.eqb_spec r (size - 1)), (Nat.leb_spec (size - 1) r), (Nat.ltb_spec r (size - 1 + 1)); cbn [andb]; try lia; ring.
Qed.
Lemma ortho_loop_ok size d Q pd : (0 < size)%nat -> oinv size 1 Q pd -> forall k, (S k <= size)%nat ->
  oinv size (S k) (fst (ortho_loop size d k (Q, pd))) (snd (ortho_loop size d k (Q, pd))).
Proof.
  intros H HI. induction k as [|k IH]; intros Hk; [exact HI|]. cbn [ortho_loop]. specialize (IH ltac:(lia)).
  destruct (ortho_loop size d k (Q, pd)) as [Q1 p1]. cbn [fst snd] in IH. apply ortho_step_ok; [lia|]. replace (S (S k) - 1)%nat with (S k) by lia. exact IH.
Qed.
Lemma randOrtho_ok size sp d : orth size (randOrtho size sp d) /\
  (det size (randOrtho size sp d) = 1 \/ (sp = false /\ det size (randOrtho size sp d) = -1)).
Proof.
  unfold randOrtho. destruct (Nat.eqb_spec size 0) as [->|Hs]; [split; [split; intros; lia|left; reflexivity]|].
  set (Q0 := fun r c => if _ && _ then _ else _).
  pose proof (ortho_loop_ok size d Q0 (od_pos d) ltac:(lia) (oinv_init size d ltac:(lia)) (size - 1) ltac:(lia)) as HI.
  destruct (ortho_loop size d (size - 1) (Q0, od_pos d)) as [Q pd]. cbn [fst snd] in HI. destruct HI as [[O1 O2] _ O3].
  destruct sp, pd; cbn [andb negb].
  - split; [split|]; auto.
  - split; [|left; rewrite det_col0 by lia; rewrite O3; ring]. split; intros a b Ha Hb.
    + set (t := fun c => if (c =? 0)%nat then -1 else 1 : R). rewrite (sum_ext size _ (fun k => (t a * t b) * (Q k a * Q k b))).
      * rewrite sum_scal, O1 by auto. destruct (Nat.eqb_spec a b) as [->|]; [|ring]. unfold t. destruct (b =? 0)%nat; ring.
      * intros k _. unfold t. destruct (a =? 0)%nat, (b =? 0)%nat; ring.
    + rewrite <- (O2 a b Ha Hb). apply sum_ext. intros k _. destruct (k =? 0)%nat; ring.
  - split; [split|]; auto.
  - split; [split|]; auto.
Qed.

(** ** Ranks *)
Definition factors (rows cols : nat) (M : rmat) (r : nat) : Prop :=
  exists X Y : rmat, forall i j, (i < rows)%nat -> (j < cols)%nat -> M i j = rsum r (fun k => X i k * Y k j).
Definition columns (rows cols : nat) (M : rmat) (r : nat) : Prop :=
  exists Z : rmat, forall t : rvec, (forall i, (i < rows)%nat -> rsum cols (fun j => M i j * rsum r (fun k => Z j k * t k)) = 0) ->
     forall k, (k < r)%nat -> t k = 0.
Lemma has_rank_split rows cols M r : has_rank rows cols M r <-> factors rows cols M r /\ columns rows cols M r.
Proof. reflexivity. Qed.
Lemma has_rank_ext rows cols M N r : (forall i j, (i < rows)%nat -> (j < cols)%nat -> M i j = N i j) -> has_rank rows cols M r -> has_rank rows cols N r.
Proof.
  intros E [(X & Y & H1) (Z & H2)]. split.
  - exists X, Y. intros i j Hi Hj. rewrite <- E; auto.
  - exists Z. intros t Ht. apply H2. intros i Hi. rewrite <- (Ht i Hi). apply sum_ext. intros j Hj. rewrite E; auto.
Qed.
Lemma has_rank_transpose rows cols M r : has_rank rows cols M r -> has_rank cols rows (fun i j => M j i) r.
Proof.
  intros [(X & Y & H1) (Z & H2)]. split.
  - exists (fun i k => Y k i), (fun k j => X j k). intros i j Hi Hj. rewrite H1 by auto. apply sum_ext. intros; ring.
  - exists (fun i k => rsum cols (fun j => M i j * Z j k)). intros t Ht. apply H2.
    set (z := fun j => rsum r (fun k => Z j k * t k)). set (y := fun i => rsum cols (fun j => M i j * z j)).
    assert (Ey : forall i, rsum r (fun k => rsum cols (fun j => M i j * Z j k) * t k) = y i).
    { intros i. unfold y, z. rewrite (sum_ext cols (fun j => M i j * _) (fun j => rsum r (fun k => M i j * Z j k * t k))).
      - rewrite sum_swap. apply sum_ext. intros k _. rewrite <- sum_scal_r. reflexivity.
      - intros j _. rewrite <- sum_scal. apply sum_ext. intros; ring. }
    assert (Hy : forall j, (j < cols)%nat -> rsum rows (fun i => M i j * y i) = 0).
    { intros j Hj. rewrite <- (Ht j Hj). apply sum_ext. intros i _. rewrite Ey. reflexivity. }
    assert (E0 : rsum rows (fun i => y i * y i) = 0).
    { rewrite (sum_ext rows _ (fun i => rsum cols (fun j => z j * (M i j * y i)))).
      - rewrite sum_swap. apply sum_zero. intros j Hj. rewrite sum_scal, Hy by auto. ring.
      - intros i _. unfold y at 1. rewrite <- sum_scal_r. apply sum_ext. intros; ring. }
    intros i Hi. pose proof (sum_nonneg_zero rows _ (fun i _ => Rle_0_sqr (y i)) E0 i Hi) as Hz. apply Rsqr_0_uniq in Hz. exact Hz.
Qed.
(** U diag(s) V with orthogonal U and V has the rank of diag(s) *)
Lemma svd_rank rows cols U V s r M : orth rows U -> orth cols V -> (r <= rows)%nat -> (r <= cols)%nat -> (forall k, (k < r)%nat -> s k <> 0) ->
  (forall i j, (i < rows)%nat -> (j < cols)%nat -> M i j = rsum r (fun k => U i k * s k * V k j)) -> columns rows cols M r.
Proof.
  intros [U1 _] [_ V2] Hr Hc Hs HM. exists (fun j k => V k j). intros t Ht.
  set (z := fun l => if (l <? r)%nat then s l * t l else 0).
  assert (Hz : forall l, (l < rows)%nat -> z l = 0).
  { intros l Hl. set (y := fun i => rsum rows (fun k => U i k * z k)).
    assert (Hy : forall i, (i < rows)%nat -> y i = 0).
    { intros i Hi. eapply eq_trans; [|exact (Ht i Hi)]. unfold y, z. replace rows with (r + (rows - r))%nat at 1 by lia. rewrite sum_app.
      rewrite (sum_zero (rows - r)) by (intros k Hk; destruct (Nat.ltb_spec (r + k) r); [lia|ring]). rewrite Rplus_0_r.
      rewrite (sum_ext cols _ (fun j => rsum r (fun l => rsum r (fun k => U i l * s l * t k * (V l j * V k j))))).
      2:{ intros j Hj. rewrite HM by auto. rewrite <- sum_scal_r. apply sum_ext. intros l' _. rewrite <- sum_scal. apply sum_ext. intros; ring. }
      rewrite sum_swap. apply sum_ext. intros k Hk. destruct (Nat.ltb_spec k r); [|lia]. rewrite sum_swap.
      rewrite (sum_ext r _ (fun k' => if (k' =? k)%nat then U i k * (s k * t k) else 0)); [rewrite sum_delta; auto|].
      intros k' Hk'. rewrite sum_scal, V2 by lia. rewrite Nat.eqb_sym. destruct (Nat.eqb_spec k' k) as [->|]; ring. }
    assert (E : rsum rows (fun i => U i l * y i) = z l).
    { unfold y. rewrite (sum_ext rows _ (fun i => rsum rows (fun k => z k * (U i l * U i k)))).
      - rewrite sum_swap. rewrite (sum_ext rows _ (fun k => if (k =? l)%nat then z k else 0)); [apply sum_delta; auto|].
        intros k Hk. rewrite sum_scal, U1 by auto. rewrite Nat.eqb_sym. destruct (k =? l)%nat; ring.
      - intros i _. rewrite <- sum_scal. apply sum_ext. intros; ring. }
    rewrite <- E. apply sum_zero. intros i Hi. rewrite Hy by auto. ring. }
  intros k Hk. specialize (Hz k ltac:(lia)). unfold z in Hz. destruct (Nat.ltb_spec k r); [|lia]. apply Rmult_integral in Hz as [Hz|]; auto. destruct (Hs k Hk Hz).
Qed.
Lemma randn_ok rows cols r d M : (r <= rows)%nat -> (r <= cols)%nat -> randn rows cols (Z.of_nat r) d = Ok M ->
  factors rows cols M r /\
  ((forall k, (k < r)%nat -> nd_s d k <> 0) -> (r < Nat.min rows cols \/ r = 0)%nat -> has_rank rows cols M r).
Proof.
  intros Hr Hc H. unfold randn in H. apply guard_ok in H as [_ H]. destruct (Z.ltb_spec (Z.of_nat r) 0); [lia|]. rewrite Nat2Z.id in H.
  destruct (Nat.eqb_spec r 0) as [->|Hr0].
  { injection H as <-. assert (F : factors rows cols (fun _ _ => 0) 0) by (exists (fun _ _ => 0), (fun _ _ => 0); intros; rewrite sum_0; reflexivity).
    split; auto. intros _ _. split; auto. exists (fun _ _ => 0). intros; lia. }
  destruct (Nat.eqb_spec r (Nat.min rows cols)) as [Hp|Hp].
  { injection H as <-. split; [|intros _; lia]. destruct (Nat.le_gt_cases rows cols).
    - exists idm, (nd_M d). intros i j Hi Hj. rewrite (sum_ext r _ (fun k => if (k =? i)%nat then nd_M d k j else 0)); [rewrite sum_delta by lia; reflexivity|].
      intros k _. unfold idm. rewrite Nat.eqb_sym. destruct (k =? i)%nat; ring.
    - exists (nd_M d), idm. intros i j Hi Hj. rewrite (sum_ext r _ (fun k => if (k =? j)%nat then nd_M d i k else 0)); [rewrite sum_delta by lia; reflexivity|].
      intros k _. unfold idm. destruct (k =? j)%nat; ring. }
  set (s := fun k => if (k <? r)%nat then nd_s d k * sqrt (3 * INR rows * INR cols / INR r) else 0) in *.
  assert (HU : exists U V, orth rows U /\ orth cols V /\ forall i j, (i < rows)%nat -> (j < cols)%nat -> M i j = rsum r (fun k => U i k * s k * V k j)).
  { destruct (Nat.leb_spec rows cols); injection H as <-.
    - exists (randOrtho rows false (nd_o1 d)), (randOrtho cols false (nd_o2 d)). split; [apply randOrtho_ok|]. split; [apply randOrtho_ok|]. intros i j Hi Hj.
      replace cols with (r + (cols - r))%nat at 1 by lia. rewrite sum_app. rewrite (sum_zero (cols - r)).
      + rewrite Rplus_0_r. apply sum_ext. intros k Hk. destruct (Nat.ltb_spec k rows); [reflexivity|lia].
      + intros k Hk. unfold s. destruct (Nat.ltb_spec (r + k) rows); [|ring]. destruct (Nat.ltb_spec (r + k) r); [lia|ring].
    - exists (randOrtho rows false (nd_o2 d)), (randOrtho cols false (nd_o1 d)). split; [apply randOrtho_ok|]. split; [apply randOrtho_ok|]. intros i j Hi Hj.
      replace rows with (r + (rows - r))%nat at 1 by lia. rewrite sum_app. rewrite (sum_zero (rows - r)).
      + rewrite Rplus_0_r. apply sum_ext. intros k Hk. destruct (Nat.ltb_spec k cols); [symmetry; apply Rmult_assoc|lia].
      + intros k Hk. unfold s. destruct (Nat.ltb_spec (r + k) cols); [|ring]. destruct (Nat.ltb_spec (r + k) r); [lia|ring]. }
  destruct HU as (U & V & OU & OV & HM). assert (F : factors rows cols M r) by (exists (fun i k => U i k * s k), V; exact HM).
  split; auto. intros Hs _. split; [exact F|]. apply (svd_rank rows cols U V s r M); auto. intros k Hk. unfold s. destruct (Nat.ltb_spec k r); [|lia].
  intros E. apply Rmult_integral in E as [E|E]; [destruct (Hs k Hk E)|].
  assert (0 < INR rows) by (apply lt_0_INR; lia). assert (0 < INR cols) by (apply lt_0_INR; lia). assert (0 < INR r) by (apply lt_0_INR; lia).
  assert (0 < 3 * INR rows * INR cols / INR r) by (apply Rdiv_lt_0_compat; auto; apply Rmult_lt_0_compat; auto; lra).
  apply sqrt_eq_0 in E; lra.
Qed.

(** orthonormal columns *)
Definition isometry (rows k : nat) (U : rmat) : Prop := forall a b, (a < k)%nat -> (b < k)%nat -> rsum rows (fun i => U i a * U i b) = if (a =? b)%nat then 1 else 0.
Lemma isometry_inj rows k U (y : rvec) : isometry rows k U -> (forall i, (i < rows)%nat -> rsum k (fun l => U i l * y l) = 0) -> forall l, (l < k)%nat -> y l = 0.
Proof.
  intros HU H l Hl. transitivity (rsum rows (fun i => U i l * rsum k (fun m => U i m * y m))); [|apply sum_zero; intros i Hi; rewrite H by auto; ring].
  rewrite (sum_ext rows _ (fun i => rsum k (fun m => y m * (U i l * U i m)))).
  - rewrite sum_swap. rewrite (sum_ext k _ (fun m => if (m =? l)%nat then y m else 0)); [symmetry; apply sum_delta; auto|].
    intros m Hm. rewrite sum_scal, HU by auto. rewrite Nat.eqb_sym. destruct (m =? l)%nat; ring.
  - intros i _. rewrite <- sum_scal. apply sum_ext. intros; ring.
Qed.
Lemma stack_rank cols rowsA rowsB ra rb r UA UB M A B : isometry rowsA ra UA -> isometry rowsB rb UB ->
  (forall i j, (i < rowsA)%nat -> (j < cols)%nat -> A i j = rsum ra (fun k => UA i k * M k j)) ->
  (forall i j, (i < rowsB)%nat -> (j < cols)%nat -> B i j = rsum rb (fun k => UB i k * M (ra + k)%nat j)) ->
  let S := stack rowsA A B in
  (factors (ra + rb) cols M r -> factors (rowsA + rowsB) cols S r) /\ (columns (ra + rb) cols M r -> columns (rowsA + rowsB) cols S r).
Proof.
  intros IA IB EA EB S. split.
  - intros (X & Y & H). exists (fun i k => if (i <? rowsA)%nat then rsum ra (fun l => UA i l * X l k) else rsum rb (fun l => UB (i - rowsA)%nat l * X (ra + l)%nat k)), Y.
    intros i j Hi Hj. unfold S, stack. destruct (Nat.ltb_spec i rowsA).
    + rewrite EA by auto. rewrite (sum_ext ra _ (fun k => rsum r (fun m => UA i k * X k m * Y m j))).
      * rewrite sum_swap. apply sum_ext. intros m _. rewrite sum_scal_r. reflexivity.
      * intros k Hk. rewrite H by lia. rewrite <- sum_scal. apply sum_ext. intros; ring.
    + rewrite EB by lia. rewrite (sum_ext rb _ (fun k => rsum r (fun m => UB (i - rowsA)%nat k * X (ra + k)%nat m * Y m j))).
      * rewrite sum_swap. apply sum_ext. intros m _. rewrite sum_scal_r. reflexivity.
      * intros k Hk. rewrite H by lia. rewrite <- sum_scal. apply sum_ext. intros; ring.
  - intros (Z & HZ). exists Z. intros t Ht. apply HZ. set (z := fun j => rsum r (fun k => Z j k * t k)) in *.
    set (y := fun l => rsum cols (fun j => M l j * z j)).
    assert (YA : forall l, (l < ra)%nat -> y l = 0).
    { apply (isometry_inj rowsA ra UA y IA). intros i Hi. rewrite <- (Ht i ltac:(lia)). unfold S, stack, y. destruct (Nat.ltb_spec i rowsA); [|lia].
      rewrite (sum_ext cols _ (fun j => rsum ra (fun k => UA i k * (M k j * z j)))).
      - rewrite sum_swap. apply sum_ext. intros k _. rewrite sum_scal. reflexivity.
      - intros j Hj. rewrite EA by auto. rewrite <- sum_scal_r. apply sum_ext. intros. unfold z; ring. }
    assert (YB : forall l, (l < rb)%nat -> y (ra + l)%nat = 0).
    { apply (isometry_inj rowsB rb UB (fun l => y (ra + l)%nat) IB). intros i Hi. rewrite <- (Ht (rowsA + i)%nat ltac:(lia)). unfold S, stack, y.
      destruct (Nat.ltb_spec (rowsA + i) rowsA); [lia|]. replace (rowsA + i - rowsA)%nat with i by lia.
      rewrite (sum_ext cols _ (fun j => rsum rb (fun k => UB i k * (M (ra + k)%nat j * z j)))).
      - rewrite sum_swap. apply sum_ext. intros k _. rewrite sum_scal. reflexivity.
      - intros j Hj. rewrite EB by auto. rewrite <- sum_scal_r. apply sum_ext. intros. unfold z; ring. }
    intros i Hi. destruct (Nat.lt_ge_cases i ra); [apply YA; auto|]. replace i with (ra + (i - ra))%nat by lia. apply YB. lia.
Qed.
Lemma id_isometry k : isometry k k idm.
Proof.
  intros a b Ha Hb. unfold idm. rewrite (sum_ext k _ (fun i => if (i =? a)%nat then (if (a =? b)%nat then 1 else 0) else 0)); [apply sum_delta; auto|].
  intros i _. destruct (Nat.eqb_spec i a) as [->|]; ring.
Qed.
Lemma randOrtho_isometry rows k sp d : (k <= rows)%nat -> isometry rows k (randOrtho rows sp d).
Proof. intros Hk a b Ha Hb. apply randOrtho_ok; lia. Qed.
Lemma randDependent_ok cols rowsA ra rowsB rb rab d A B : randDependent cols rowsA ra rowsB rb rab d = Ok (A, B) ->
  (ra <= rowsA /\ rb <= rowsB /\ rab <= ra + rb /\ rab <= cols)%nat /\
  exists M UA UB, randn (ra + rb) cols (Z.of_nat rab) (pd_M d) = Ok M /\ isometry rowsA ra UA /\ isometry rowsB rb UB /\
  (forall i j, (i < rowsA)%nat -> (j < cols)%nat -> A i j = rsum ra (fun k => UA i k * M k j)) /\
  (forall i j, (i < rowsB)%nat -> (j < cols)%nat -> B i j = rsum rb (fun k => UB i k * M (ra + k)%nat j)).
Proof.
  intros H. unfold randDependent in H. apply guard_ok in H as [Hg H]. repeat (apply andb_prop in Hg as [Hg ?]).
  repeat match goal with H : (_ <=? _)%nat = true |- _ => apply Nat.leb_le in H end. split; [lia|].
  apply bind_ok in H as (M & HM & H). injection H as <- <-. exists M.
  exists (if (ra =? rowsA)%nat then idm else randOrtho rowsA false (pd_A d)), (if (rb =? rowsB)%nat then idm else randOrtho rowsB false (pd_B d)).
  assert (Hid : forall k i (f : nat -> R), (i < k)%nat -> f i = rsum k (fun l => idm i l * f l)).
  { intros k i f Hi. rewrite (sum_ext k _ (fun l => if (l =? i)%nat then f l else 0)); [symmetry; apply sum_delta; auto|].
    intros l _. unfold idm. rewrite Nat.eqb_sym. destruct (l =? i)%nat; ring. }
  split; auto. split; [|split; [|split]].
  - destruct (Nat.eqb_spec ra rowsA) as [->|]; [apply id_isometry|apply randOrtho_isometry; lia].
  - destruct (Nat.eqb_spec rb rowsB) as [->|]; [apply id_isometry|apply randOrtho_isometry; lia].
  - intros i j Hi Hj. destruct (Nat.eqb_spec ra rowsA) as [->|]; [|reflexivity]. apply (Hid rowsA i (fun k => M k j)); auto.
  - intros i j Hi Hj. destruct (Nat.eqb_spec rb rowsB) as [->|]; [|reflexivity]. apply (Hid rowsB i (fun k => M (ra + k)%nat j)); auto.
Qed.

(** Facts about the numeric kernels of Num.v in exact real arithmetic. *)
From Coq Require Import List Arith ZArith Lia Bool Reals Lra FunctionalExtensionality.
From Verif Require Import Base Num.
Import ListNotations.
Local Open Scope R_scope.

Definition rsum : nat -> (nat -> R) -> R := @sumn Rops [].
Definition rdot : nat -> (nat -> R) -> (nat -> R) -> R := @dot Rops [].
Arguments rsum : simpl never.
Arguments rdot : simpl never.
Notation rvec := (nat -> R).
Notation rmat := (nat -> nat -> R).

Ltac rops :=
  cbn [carrier zero one add sub mul div opp sqrt_ ltb leb eqb eps14 Rops] in *;
  change (@sumn Rops) with (fun _ : list nat => rsum) in *; change (@dot Rops) with (fun _ : list nat => rdot) in *;
  change (@subn Rops) with (fun (_ : list nat) n a f => Rminus a (rsum n f)) in *; cbv beta in *.

(** [ring] after exposing the carrier *)
Ltac rring := apply Rminus_diag_uniq; ring.

(** ** Boolean comparisons *)
Lemma Rltb_spec x y : reflect (x < y) (Rltb x y).
Proof. unfold Rltb. destruct (Rlt_dec x y); constructor; auto. Qed.
Lemma Rleb_spec x y : reflect (x <= y) (Rleb x y).
Proof. unfold Rleb. destruct (Rle_dec x y); constructor; auto. Qed.
Lemma Reqb_spec x y : reflect (x = y) (Reqb x y).
Proof. unfold Reqb. destruct (Req_EM_T x y); constructor; auto. Qed.
Lemma Rltb_true x y : x < y -> Rltb x y = true.
Proof. destruct (Rltb_spec x y); auto; lra. Qed.
Lemma Rltb_false x y : y <= x -> Rltb x y = false.
Proof. destruct (Rltb_spec x y); auto; lra. Qed.
Lemma Rleb_true x y : x <= y -> Rleb x y = true.
Proof. destruct (Rleb_spec x y); auto; lra. Qed.
Lemma Rleb_false x y : y < x -> Rleb x y = false.
Proof. destruct (Rleb_spec x y); auto; lra. Qed.
Lemma Reqb_true x y : x = y -> Reqb x y = true.
Proof. destruct (Reqb_spec x y); auto; lra. Qed.
Lemma Reqb_false x y : x <> y -> Reqb x y = false.
Proof. destruct (Reqb_spec x y); auto; lra. Qed.

(** ** Memoisation is the identity *)
Lemma vm_at {S : ops} n (v : vec S) i : vm n v i = v i.
Proof.
  unfold vm. rewrite nth_error_map.
  destruct (nth_error (seq 0 n) i) eqn:E; simpl; auto.
  assert (i < length (seq 0 n))%nat as H by (apply nth_error_Some; congruence).
  rewrite seq_length in H.
  apply nth_error_nth with (d := 0%nat) in E. rewrite seq_nth in E by auto. subst; auto.
Qed.
Lemma mm_at {S : ops} n (M : mat S) i j : mm n M i j = M i j.
Proof.
  unfold mm. rewrite nth_error_map.
  destruct (nth_error (seq 0 n) j) eqn:E; simpl; auto.
  assert (j < length (seq 0 n))%nat as H by (apply nth_error_Some; congruence).
  rewrite seq_length in H.
  apply nth_error_nth with (d := 0%nat) in E. rewrite seq_nth in E by auto. simpl in E; subst n0.
  rewrite nth_error_map.
  destruct (nth_error (seq 0 n) i) eqn:E; simpl; auto.
  assert (i < length (seq 0 n))%nat as H' by (apply nth_error_Some; congruence).
  rewrite seq_length in H'.
  apply nth_error_nth with (d := 0%nat) in E. rewrite seq_nth in E by auto. subst; auto.
Qed.
Lemma vm_id {S : ops} n (v : vec S) : vm n v = v.
Proof. apply functional_extensionality. intros i. apply vm_at. Qed.
Lemma mm_id {S : ops} n (M : mat S) : mm n M = M.
Proof. apply functional_extensionality; intros i. apply functional_extensionality; intros j. apply mm_at. Qed.

Lemma view_unview {S : ops} ld c (M : mat S) b i j :
  (i < ld)%nat -> (j < c)%nat -> view ld (unview ld c M b) i j = M i j.
Proof.
  intros Hi Hj. unfold view, unview. rewrite vm_at.
  assert (i + ld * j < ld * c)%nat as H by nia.
  apply Nat.ltb_lt in H. rewrite H.
  assert (E1 : ((i + ld * j) mod ld = i)%nat).
  { rewrite Nat.mul_comm, Nat.mod_add by lia. apply Nat.mod_small; auto. }
  assert (E2 : ((i + ld * j) / ld = j)%nat).
  { rewrite Nat.mul_comm, Nat.div_add by lia. rewrite Nat.div_small by auto. lia. }
  rewrite E1, E2. reflexivity.
Qed.
Lemma view_unview_out {S : ops} ld c (M : mat S) b i j :
  (i < ld)%nat -> (c <= j)%nat -> view ld (unview ld c M b) i j = view ld b i j.
Proof.
  intros Hi Hj. unfold view, unview. rewrite vm_at.
  assert (~ (i + ld * j < ld * c)%nat) as H by nia.
  destruct (Nat.ltb_spec (i + ld * j) (ld * c)); [lia|]. reflexivity.
Qed.

(** ** Sums *)
Lemma sum_S n (f : nat -> R) : rsum (S n) f = rsum n f + f n.
Proof. reflexivity. Qed.
Lemma sum_0 (f : nat -> R) : rsum 0 f = 0.
Proof. reflexivity. Qed.

Lemma sum_ext n (f g : nat -> R) : (forall i, (i < n)%nat -> f i = g i) -> rsum n f = rsum n g :> R.
Proof.
  induction n as [|n IH]; intros H; [reflexivity|].
  rewrite !sum_S, IH, H by auto. reflexivity.
Qed.
Lemma sum_zero n (f : nat -> R) : (forall i, (i < n)%nat -> f i = 0) -> rsum n f = 0.
Proof.
  induction n as [|n IH]; intros H; [reflexivity|].
  rewrite sum_S, IH, H by auto. lra.
Qed.
Lemma sum_plus n (f g : nat -> R) : rsum n (fun i => f i + g i) = rsum n f + rsum n g.
Proof. induction n as [|n IH]; [rewrite !sum_0; lra|]. rewrite !sum_S, IH. lra. Qed.
Lemma sum_minus n (f g : nat -> R) : rsum n (fun i => f i - g i) = rsum n f - rsum n g.
Proof. induction n as [|n IH]; [rewrite !sum_0; lra|]. rewrite !sum_S, IH. lra. Qed.
Lemma sum_opp n (f : nat -> R) : rsum n (fun i => - f i) = - rsum n f.
Proof. induction n as [|n IH]; [rewrite !sum_0; lra|]. rewrite !sum_S, IH. lra. Qed.
Lemma sum_scal n c (f : nat -> R) : rsum n (fun i => c * f i) = c * rsum n f.
Proof. induction n as [|n IH]; [rewrite !sum_0; lra|]. rewrite !sum_S, IH. lra. Qed.
Lemma sum_scal_r n c (f : nat -> R) : rsum n (fun i => f i * c) = rsum n f * c.
Proof. induction n as [|n IH]; [rewrite !sum_0; lra|]. rewrite !sum_S, IH. lra. Qed.
Lemma sum_swap n m (f : nat -> nat -> R) :
  rsum n (fun i => rsum m (fun j => f i j)) = rsum m (fun j => rsum n (fun i => f i j)).
Proof.
  induction n as [|n IH].
  - rewrite sum_0. symmetry. apply sum_zero. auto.
  - rewrite sum_S, IH, <- sum_plus. apply sum_ext. intros. rewrite sum_S. reflexivity.
Qed.
Lemma sum_app n m (f : nat -> R) : rsum (n + m) f = rsum n f + rsum m (fun i => f (n + i)%nat).
Proof.
  induction m as [|m IH].
  - rewrite Nat.add_0_r, sum_0. lra.
  - rewrite Nat.add_succ_r, !sum_S, IH. lra.
Qed.
Lemma sum_delta n k (f : nat -> R) : (k < n)%nat -> rsum n (fun i => if (i =? k)%nat then f i else 0) = f k.
Proof.
  induction n as [|n IH]; intros H; [lia|].
  rewrite sum_S. destruct (Nat.eq_dec k n) as [->|Hne].
  - rewrite Nat.eqb_refl. rewrite sum_zero; [lra|].
    intros i Hi. destruct (Nat.eqb_spec i n); [lia|auto].
  - rewrite IH by lia. destruct (Nat.eqb_spec n k); [lia|lra].
Qed.
(** isolate one term *)
Lemma sum_extract n k (f : nat -> R) : (k < n)%nat ->
  rsum n f = f k + rsum n (fun i => if (i =? k)%nat then 0 else f i).
Proof.
  intros H. rewrite <- (sum_delta n k f H) at 1. rewrite <- sum_plus.
  apply sum_ext. intros i _. destruct (i =? k)%nat; lra.
Qed.
(** two terms changed with the same total *)
Lemma sum_pair n i (f g : nat -> R) : (S i < n)%nat ->
  (forall k, (k < n)%nat -> k <> i -> k <> S i -> f k = g k) ->
  f i + f (S i) = g i + g (S i) -> rsum n f = rsum n g :> R.
Proof.
  intros Hi Hk Hs.
  replace n with (i + (2 + (n - i - 2)))%nat by lia.
  rewrite !sum_app. rewrite !sum_S, !sum_0.
  rewrite (sum_ext i f g); [|intros; apply Hk; lia].
  rewrite (sum_ext (n - i - 2) (fun k => f (i + (2 + k))%nat) (fun k => g (i + (2 + k))%nat));
    [|intros; apply Hk; lia].
  replace (i + 0)%nat with i by lia. replace (i + 1)%nat with (S i) by lia. lra.
Qed.

Lemma sum_nonneg n (f : nat -> R) : (forall i, (i < n)%nat -> 0 <= f i) -> 0 <= rsum n f.
Proof.
  induction n as [|n IH]; intros H; [rewrite sum_0; lra|].
  rewrite sum_S. assert (0 <= rsum n f) by auto. assert (0 <= f n) by auto. lra.
Qed.
Lemma sum_nonneg_zero n (f : nat -> R) : (forall i, (i < n)%nat -> 0 <= f i) -> rsum n f = 0 ->
  forall i, (i < n)%nat -> f i = 0.
Proof.
  induction n as [|n IH]; intros H HS i Hi; [lia|].
  rewrite sum_S in HS.
  assert (0 <= rsum n f) by (apply sum_nonneg; auto). assert (0 <= f n) by auto.
  destruct (Nat.eq_dec i n) as [->|]; [lra|]. apply IH; [intros; apply H; lia|lra|lia].
Qed.
Lemma sum_le n (f g : nat -> R) : (forall i, (i < n)%nat -> f i <= g i) -> rsum n f <= rsum n g.
Proof.
  induction n as [|n IH]; intros H; [rewrite !sum_0; lra|].
  rewrite !sum_S. assert (rsum n f <= rsum n g) by auto. assert (f n <= g n) by auto. lra.
Qed.

(** ** Dot products *)
Lemma dot_def n u v : rdot n u v = rsum n (fun i => u i * v i).
Proof. reflexivity. Qed.
Lemma dot_comm n u v : rdot n u v = rdot n v u.
Proof. apply sum_ext. intros. rops. lra. Qed.
Lemma dot_ext n u u' v v' : (forall i, (i < n)%nat -> u i = u' i) -> (forall i, (i < n)%nat -> v i = v' i) ->
  rdot n u v = rdot n u' v'.
Proof. intros. apply sum_ext. intros. rewrite H, H0 by auto. reflexivity. Qed.
Lemma dot_self_nonneg n u : 0 <= rdot n u u.
Proof. apply sum_nonneg. intros. rops. nra. Qed.
Lemma dot_self_zero n u : rdot n u u = 0 -> forall i, (i < n)%nat -> u i = 0.
Proof.
  intros H i Hi. assert (u i * u i = 0); [|nra].
  apply (sum_nonneg_zero n (fun i => u i * u i)); auto. intros; nra.
Qed.

(** ** Triangular parts *)
Definition upper (U : rmat) : rmat := fun i j => if (i <=? j)%nat then U i j else 0.
Definition lower (L : rmat) : rmat := fun i j => if (j <=? i)%nat then L i j else 0.

Lemma sum_upper_row n i (g : nat -> R) : (i < n)%nat ->
  rsum n (fun j => if (i <=? j)%nat then g j else 0) = g i + rsum (n - S i) (fun t => g (i + 1 + t)%nat).
Proof.
  intros H. replace n with (i + (1 + (n - S i)))%nat at 1 by lia.
  rewrite sum_app, sum_app, sum_S, sum_0.
  rewrite sum_zero; [|intros j Hj; destruct (Nat.leb_spec i j); [lia|auto]].
  replace (i + 0)%nat with i by lia.
  destruct (Nat.leb_spec i i); [|lia].
  rewrite (sum_ext _ _ (fun t => g (i + 1 + t)%nat)); [lra|].
  intros t Ht. destruct (Nat.leb_spec i (i + (1 + t))); [f_equal; lia|lia].
Qed.
Lemma sum_lower_row n i (g : nat -> R) : (i < n)%nat ->
  rsum n (fun j => if (j <=? i)%nat then g j else 0) = rsum i g + g i.
Proof.
  intros H. replace n with (S i + (n - S i))%nat by lia.
  rewrite sum_app, sum_S.
  rewrite (sum_zero (n - S i)); [|intros j Hj; destruct (Nat.leb_spec (S i + j) i); [lia|auto]].
  destruct (Nat.leb_spec i i); [|lia].
  rewrite (sum_ext i _ g); [lra|]. intros j Hj. destruct (Nat.leb_spec j i); [auto|lia].
Qed.
Lemma mul_if (b : bool) (x y : R) : (if b then x else 0) * y = (if b then x * y else 0).
Proof. destruct b; lra. Qed.

Lemma upper_row n U i x : (i < n)%nat ->
  rsum n (fun j => upper U i j * x j)
  = U i i * x i + rsum (n - S i) (fun t => U i (i + 1 + t)%nat * x (i + 1 + t)%nat).
Proof.
  intros H. rewrite <- (sum_upper_row n i (fun j => U i j * x j) H).
  apply sum_ext. intros. unfold upper. apply mul_if.
Qed.
Lemma lower_row n L i x : (i < n)%nat ->
  rsum n (fun j => lower L i j * x j) = rsum i (fun j => L i j * x j) + L i i * x i.
Proof.
  intros H. rewrite <- (sum_lower_row n i (fun j => L i j * x j) H).
  apply sum_ext. intros. unfold lower. apply mul_if.
Qed.

(** ** Substitutions *)
Lemma fwd_out k L b i : (k <= i)%nat -> @fwd Rops k L b i = b i.
Proof.
  induction k as [|k IH]; intros H; simpl; auto.
  unfold upd. destruct (Nat.eqb_spec i k); [lia|]. apply IH; lia.
Qed.
Lemma fwd_stable k L b i : (i < k)%nat -> @fwd Rops k L b i = @fwd Rops (S i) L b i.
Proof.
  induction k as [|k IH]; intros H; [lia|].
  destruct (Nat.eq_dec i k) as [->|]; auto.
  change (upd (fwd k L b) k ((b k - rsum k (fun j => L k j * fwd k L b j)) / L k k) i = fwd (S i) L b i).
  unfold upd at 1. destruct (Nat.eqb_spec i k); [lia|]. apply IH; lia.
Qed.
Lemma fwd_row k L b i : (i < k)%nat -> L i i <> 0 ->
  rsum i (fun j => L i j * @fwd Rops k L b j) + L i i * @fwd Rops k L b i = b i.
Proof.
  intros Hi Hd. rewrite (fwd_stable k L b i Hi).
  rewrite (sum_ext i _ (fun j => L i j * @fwd Rops i L b j)).
  2:{ intros j Hj. rewrite (fwd_stable k), (fwd_stable i) by lia. auto. }
  simpl. unfold upd. rewrite Nat.eqb_refl. rops. field. auto.
Qed.
Lemma fwd_correct n L b : (forall i, (i < n)%nat -> L i i <> 0) ->
  forall i, (i < n)%nat -> rsum n (fun j => lower L i j * @fwd Rops n L b j) = b i.
Proof. intros H i Hi. rewrite lower_row by auto. apply fwd_row; auto. Qed.

Lemma bwd_out n k U b i : (k <= n)%nat -> (i < n - k \/ n <= i)%nat -> @bwd Rops n k U b i = b i.
Proof.
  induction k as [|k IH]; intros Hk H; simpl; auto.
  unfold upd. destruct (Nat.eqb_spec i (n - S k)); [lia|]. apply IH; lia.
Qed.
Lemma bwd_stable n k U b i : (k <= n)%nat -> (n - k <= i < n)%nat ->
  @bwd Rops n k U b i = @bwd Rops n (n - i) U b i.
Proof.
  induction k as [|k IH]; intros Hk H; [lia|].
  destruct (Nat.eq_dec i (n - S k)) as [->|].
  - replace (n - (n - S k))%nat with (S k) by lia. auto.
  - simpl. unfold upd. destruct (Nat.eqb_spec i (n - S k)); [lia|]. apply IH; lia.
Qed.
Lemma bwd_row n k U b i : (k <= n)%nat -> (n - k <= i < n)%nat -> U i i <> 0 ->
  U i i * @bwd Rops n k U b i + rsum (n - S i) (fun t => U i (i + 1 + t)%nat * @bwd Rops n k U b (i + 1 + t)%nat) = b i.
Proof.
  intros Hk Hi Hd. rewrite (bwd_stable n k U b i) by auto.
  rewrite (sum_ext _ _ (fun t => U i (i + 1 + t)%nat * @bwd Rops n (n - S i) U b (i + 1 + t)%nat)).
  2:{ intros t Ht. rewrite (bwd_stable n k), (bwd_stable n (n - S i)) by lia. auto. }
  replace (n - i)%nat with (S (n - S i)) by lia. simpl.
  unfold upd. replace (n - S (n - S i))%nat with i by lia. rewrite Nat.eqb_refl. rops. field. auto.
Qed.
Lemma bwd_correct n U b : (forall i, (i < n)%nat -> U i i <> 0) ->
  forall i, (i < n)%nat -> rsum n (fun j => upper U i j * @bwd Rops n n U b j) = b i.
Proof. intros H i Hi. rewrite upper_row by auto. apply bwd_row; auto; lia. Qed.

(** Triangular systems have at most one solution *)
Lemma upper_inj n U x : (forall i, (i < n)%nat -> U i i <> 0) ->
  (forall i, (i < n)%nat -> rsum n (fun j => upper U i j * x j) = 0) ->
  forall i, (i < n)%nat -> x i = 0.
Proof.
  intros Hd H.
  assert (G : forall k, (k <= n)%nat -> forall i, (n - k <= i < n)%nat -> x i = 0).
  { induction k as [|k IH]; intros Hk i Hi; [lia|].
    destruct (Nat.eq_dec i (n - S k)) as [E|E]; [|apply IH; lia].
    specialize (H i ltac:(lia)). rewrite upper_row in H by lia.
    rewrite sum_zero in H.
    - assert (U i i <> 0) by (apply Hd; lia). apply Rmult_eq_reg_l with (U i i); auto. lra.
    - intros t Ht. rewrite IH by lia. lra. }
  intros i Hi. apply (G n); lia.
Qed.
Lemma lower_inj n L x : (forall i, (i < n)%nat -> L i i <> 0) ->
  (forall i, (i < n)%nat -> rsum n (fun j => lower L i j * x j) = 0) ->
  forall i, (i < n)%nat -> x i = 0.
Proof.
  intros Hd H i. induction i as [i IH] using lt_wf_ind. intros Hi.
  specialize (H i Hi). rewrite lower_row in H by auto.
  rewrite sum_zero in H.
  - assert (L i i <> 0) by auto. apply Rmult_eq_reg_l with (L i i); auto. lra.
  - intros j Hj. rewrite IH by lia. lra.
Qed.

(** ** Cholesky *)
Definition gsym (G : rmat) : rmat := fun i j => if (j <=? i)%nat then G i j else G j i.
Definition quad (n : nat) (G : rmat) (v : rvec) : R := rsum n (fun i => v i * rsum n (fun j => G i j * v j)).
Definition posdef (n : nat) (G : rmat) : Prop :=
  forall v : rvec, (exists i, (i < n)%nat /\ v i <> 0) -> 0 < quad n G v.

Lemma gsym_sym G i j : gsym G i j = gsym G j i.
Proof.
  unfold gsym. destruct (Nat.leb_spec i j), (Nat.leb_spec j i); auto; try lia.
  assert (i = j) as -> by lia. auto.
Qed.

(** Invariant after the first [k] columns *)
Definition llt_inv (n k : nat) (G0 G : rmat) : Prop :=
  (forall i j, (j < k)%nat -> (j <= i < n)%nat ->
     rsum j (fun t => G i t * G j t) + G i j * G j j = G0 i j) /\
  (forall j, (j < k)%nat -> 0 < G j j) /\
  (forall i j, ((k <= j)%nat \/ (i < j)%nat \/ (n <= i)%nat) -> G i j = G0 i j).

Lemma llt_loop_spec cnt : forall n k G0 G, (k + cnt = n)%nat -> llt_inv n k G0 G ->
  match @llt_loop Rops n k cnt G with
  | (None, L) => llt_inv n n G0 L
  | (Some p, L) => (p < n)%nat /\ llt_inv n p G0 L /\ G0 p p - rsum p (fun j => L p j * L p j) <= 0
  end.
Proof.
  induction cnt as [|c IH]; intros n k G0 G Hn HI.
  - simpl. replace k with n in HI by lia. auto.
  - cbn [llt_loop]. rops. destruct HI as (I1 & I2 & I3).
    destruct (Rleb_spec (G k k - rsum k (fun j => G k j * G k j)) 0) as [Hx|Hx].
    + split; [lia|]. split; [repeat split; auto|]. rewrite <- (I3 k k) by lia. auto.
    + rewrite mm_id. apply IH; [lia|].
      set (x := G k k - rsum k (fun j => G k j * G k j)) in *.
      assert (Hp : 0 < sqrt x) by (apply sqrt_lt_R0; lra).
      assert (Hpp : sqrt x * sqrt x = x) by (apply sqrt_def; lra).
      repeat split.
      * intros i j Hj Hi.
        destruct (Nat.eqb_spec j k) as [->|Hjk].
        -- simpl.
           rewrite (sum_ext k _ (fun t => G i t * G k t)).
           2:{ intros t Ht. destruct (Nat.eqb_spec t k); [lia|]. reflexivity. }
           destruct (Nat.eqb_spec i k) as [->|Hik].
           ++ rewrite Hpp. unfold x. rewrite (I3 k k) by lia. lra.
           ++ destruct (Nat.ltb_spec k i), (Nat.ltb_spec i n); try lia. simpl.
              rewrite (I3 i k) by lia. field. lra.
        -- simpl. rewrite <- (I1 i j) by lia. f_equal. apply sum_ext.
           intros t Ht. destruct (Nat.eqb_spec t k); [lia|]. reflexivity.
      * intros j Hj. destruct (Nat.eqb_spec j k) as [->|Hjk]; simpl; [auto|].
        apply I2. lia.
      * intros i j Hij. rewrite <- (I3 i j) by lia.
        destruct (Nat.eqb_spec j k) as [->|]; simpl; auto.
        destruct (Nat.eqb_spec i k) as [->|]; [lia|].
        destruct (Nat.ltb_spec k i); simpl; auto.
        destruct (Nat.ltb_spec i n); simpl; auto. lia.
Qed.

Lemma llt_spec n G0 :
  match @llt Rops n G0 with
  | (None, L) => llt_inv n n G0 L
  | (Some p, L) => (p < n)%nat /\ llt_inv n p G0 L /\ G0 p p - rsum p (fun j => L p j * L p j) <= 0
  end.
Proof.
  unfold llt. apply llt_loop_spec; [lia|]. repeat split; intros; auto; lia.
Qed.

(** [lower L] has [L L^T = G] *)
Lemma llt_inv_full n G0 L : llt_inv n n G0 L ->
  forall i j, (i < n)%nat -> (j < n)%nat ->
    rsum n (fun t => lower L i t * lower L j t) = gsym G0 i j.
Proof.
  intros (I1 & _ & _).
  assert (H : forall i j, (i < n)%nat -> (j <= i)%nat -> rsum n (fun t => lower L i t * lower L j t) = G0 i j).
  { intros i j Hi Hj. rewrite <- (I1 i j) by lia.
    rewrite (sum_ext n _ (fun t => lower L j t * lower L i t)) by (intros; lra).
    rewrite lower_row by lia. f_equal.
    - apply sum_ext. intros t Ht. unfold lower. destruct (Nat.leb_spec t i); [lra|lia].
    - unfold lower. destruct (Nat.leb_spec j i); [lra|lia]. }
  intros i j Hi Hj. unfold gsym. destruct (Nat.leb_spec j i).
  - apply H; auto.
  - rewrite <- (H j i) by lia. apply sum_ext. intros; lra.
Qed.

Lemma llt_diag_pos n G0 L : llt_inv n n G0 L -> forall j, (j < n)%nat -> 0 < L j j.
Proof. intros (_ & H & _); auto. Qed.

Lemma quad_gram n (Lo : rmat) G v :
  (forall i j, (i < n)%nat -> (j < n)%nat -> rsum n (fun t => Lo i t * Lo j t) = G i j) ->
  quad n G v = rsum n (fun t => rsum n (fun i => Lo i t * v i) * rsum n (fun i => Lo i t * v i)).
Proof.
  intros H. unfold quad.
  rewrite (sum_ext n _ (fun i => rsum n (fun t => v i * (Lo i t * rsum n (fun j => Lo j t * v j))))).
  - rewrite sum_swap. apply sum_ext. intros t Ht. rewrite <- sum_scal_r. apply sum_ext. intros i Hi. lra.
  - intros i Hi. rewrite <- sum_scal.
    rewrite (sum_ext n _ (fun j => rsum n (fun t => v i * (Lo i t * (Lo j t * v j))))).
    + rewrite sum_swap. apply sum_ext. intros t Ht. rewrite <- !sum_scal. auto.
    + intros j Hj. rewrite <- H by auto. rewrite <- sum_scal_r, <- sum_scal.
      apply sum_ext. intros; lra.
Qed.

Lemma tr_lower_upper L i j : lower L j i = upper (tr L) i j.
Proof. unfold lower, upper, tr. destruct (Nat.leb_spec i j); auto. Qed.

Lemma llt_success_posdef n G0 L : llt_inv n n G0 L -> posdef n (gsym G0).
Proof.
  intros HI v (i0 & Hi0 & Hv).
  rewrite (quad_gram n (lower L)) by (apply llt_inv_full; auto).
  assert (H0 : 0 <= rsum n (fun t => rsum n (fun i => lower L i t * v i) * rsum n (fun i => lower L i t * v i))).
  { apply sum_nonneg. intros; nra. }
  destruct (Rle_lt_or_eq_dec _ _ H0) as [|E]; auto. exfalso. apply Hv.
  apply (upper_inj n (tr L) v); auto.
  - intros i Hi. unfold tr. pose proof (llt_diag_pos _ _ _ HI i Hi). lra.
  - intros t Ht.
    assert (E' : rsum n (fun i => lower L i t * v i) * rsum n (fun i => lower L i t * v i) = 0).
    { apply (sum_nonneg_zero n (fun t => rsum n (fun i => lower L i t * v i) * rsum n (fun i => lower L i t * v i)));
        auto. intros; nra. }
    rewrite (sum_ext n _ (fun i => lower L i t * v i)); [nra|]. intros. rewrite tr_lower_upper. auto.
Qed.

(** Failure at pivot [p] gives a direction of non-positive curvature *)
Lemma llt_failure_witness n p G0 L : (p < n)%nat -> llt_inv n p G0 L ->
  G0 p p - rsum p (fun j => L p j * L p j) <= 0 ->
  exists v : rvec, (exists i, (i < n)%nat /\ v i <> 0) /\ quad n (gsym G0) v <= 0.
Proof.
  intros Hp (I1 & I2 & I3) Hx.
  set (w := @bwd Rops p p (tr L) (fun j => - L p j)).
  set (v := fun i => if (i <? p)%nat then w i else if (i =? p)%nat then 1 else 0).
  exists v. split.
  { exists p. split; auto. unfold v. rewrite Nat.ltb_irrefl, Nat.eqb_refl. lra. }
  set (x := G0 p p - rsum p (fun j => L p j * L p j)) in *.
  (* Lo: lower part restricted to columns < p *)
  set (Lo := fun i t => if (t <? p)%nat then lower L i t else 0).
  assert (HG : forall i j, (i <= p)%nat -> (j <= i)%nat ->
     gsym G0 i j = rsum n (fun t => Lo i t * Lo j t) + (if (i =? p)%nat && (j =? p)%nat then x else 0)).
  { intros i j Hi Hj. unfold gsym. destruct (Nat.leb_spec j i); [|lia].
    assert (Hsum : rsum n (fun t => Lo i t * Lo j t) = rsum p (fun t => lower L i t * lower L j t)).
    { replace n with (p + (n - p))%nat by lia. rewrite sum_app.
      rewrite (sum_zero (n - p)).
      - rewrite (sum_ext p _ (fun t => lower L i t * lower L j t)); [lra|].
        intros t Ht. unfold Lo. destruct (Nat.ltb_spec t p); [auto|lia].
      - intros t Ht. unfold Lo. destruct (Nat.ltb_spec (p + t) p); [lia|lra]. }
    rewrite Hsum.
    destruct (Nat.eq_dec j p) as [->|Hjp].
    - assert (i = p) as -> by lia. rewrite Nat.eqb_refl. simpl.
      unfold x. rewrite (sum_ext p (fun t => lower L p t * lower L p t) (fun j => L p j * L p j)); [lra|].
      intros t Ht. unfold lower. destruct (Nat.leb_spec t p); [auto|lia].
    - replace (j =? p)%nat with false by (symmetry; apply Nat.eqb_neq; auto).
      rewrite andb_false_r.
      rewrite <- (I1 i j) by lia.
      rewrite (sum_ext p _ (fun t => lower L j t * lower L i t)) by (intros; lra).
      rewrite lower_row by lia.
      rewrite (sum_ext j (fun t => L j t * lower L i t) (fun t => L i t * L j t)).
      + unfold lower. destruct (Nat.leb_spec j i); [lra|lia].
      + intros t Ht. unfold lower. destruct (Nat.leb_spec t i); [lra|lia]. }
  assert (HG' : forall i j, (i <= p)%nat -> (j <= p)%nat ->
     gsym G0 i j = rsum n (fun t => Lo i t * Lo j t) + (if (i =? p)%nat && (j =? p)%nat then x else 0)).
  { intros i j Hi Hj. destruct (Nat.le_gt_cases j i); [apply HG; auto|].
    rewrite gsym_sym, HG by lia. rewrite andb_comm. f_equal. apply sum_ext; intros; lra. }
  assert (Hvz : forall i, (p < i)%nat -> v i = 0).
  { intros i Hi. unfold v. destruct (Nat.ltb_spec i p), (Nat.eqb_spec i p); try lia; auto. }
  assert (Hvp : v p = 1) by (unfold v; rewrite Nat.ltb_irrefl, Nat.eqb_refl; auto).
  (* replace G by its Gram form plus the corner *)
  assert (HQ : quad n (gsym G0) v = quad n (fun i j => rsum n (fun t => Lo i t * Lo j t)) v + x).
  { unfold quad.
    rewrite (sum_ext n _ (fun i => v i * rsum n (fun j => rsum n (fun t => Lo i t * Lo j t) * v j)
                                 + (if (i =? p)%nat then x else 0))).
    - rewrite sum_plus. rewrite sum_delta by auto. lra.
    - intros i Hi. destruct (Nat.le_gt_cases i p) as [Hip|Hip].
      + rewrite (sum_ext n (fun j => gsym G0 i j * v j)
                 (fun j => rsum n (fun t => Lo i t * Lo j t) * v j + (if (j =? p)%nat then (if (i =? p)%nat then x else 0) else 0))).
        * rewrite sum_plus, sum_delta by auto. destruct (Nat.eqb_spec i p) as [->|]; [rewrite Hvp|]; lra.
        * intros j Hj. destruct (Nat.le_gt_cases j p) as [Hjp|Hjp].
          -- rewrite HG' by auto. destruct (Nat.eqb_spec j p) as [->|]; [rewrite Hvp|];
             destruct (i =? p)%nat; simpl; lra.
          -- rewrite Hvz by auto. destruct (Nat.eqb_spec j p); [lia|]. lra.
      + rewrite Hvz by auto. destruct (Nat.eqb_spec i p); [lia|]. lra. }
  rewrite HQ. rewrite (quad_gram n Lo) by auto.
  rewrite sum_zero; [lra|].
  intros t Ht.
  assert (E : rsum n (fun i => Lo i t * v i) = 0); [|rewrite E; lra].
  unfold Lo. destruct (Nat.ltb_spec t p) as [Htp|Htp].
  2:{ apply sum_zero. intros; lra. }
  replace n with (p + (1 + (n - S p)))%nat by lia. rewrite sum_app, sum_app, sum_S, sum_0.
  rewrite (sum_zero (n - S p)).
  2:{ intros i Hi. rewrite Hvz by lia. lra. }
  replace (p + 0)%nat with p by lia. rewrite Hvp.
  assert (Hb : rsum p (fun j => upper (tr L) t j * w j) = - L p t).
  { unfold w. apply (bwd_correct p (tr L) (fun j => - L p j)); auto.
    intros i Hi. unfold tr. specialize (I2 i Hi). lra. }
  rewrite (sum_ext p _ (fun j => upper (tr L) t j * w j)).
  - rewrite Hb. unfold lower. destruct (Nat.leb_spec t p); [lra|lia].
  - intros i Hi. rewrite <- tr_lower_upper. f_equal. unfold v. destruct (Nat.ltb_spec i p); [auto|lia].
Qed.

(** ** Givens rotations *)
Lemma Rabs_abs_ x : @abs_ Rops x = Rabs x.
Proof.
  unfold abs_. rops. destruct (Rltb_spec x 0).
  - rewrite Rabs_left; auto.
  - rewrite Rabs_right; lra.
Qed.

Lemma makeGivens_spec p q : forall g r, @makeGivens Rops p q = (g, r) ->
  gc g * gc g + gs g * gs g = 1 /\ gc g * p - gs g * q = r /\ gs g * p + gc g * q = 0.
Proof.
  intros g r. unfold makeGivens. rewrite !Rabs_abs_. rops.
  destruct (Reqb_spec q 0) as [->|Hq].
  { intros E; injection E as <- <-. cbn [gc gs].
    destruct (Rltb_spec p 0).
    - rewrite Rabs_left by auto. repeat split; lra.
    - rewrite Rabs_right by lra. repeat split; lra. }
  destruct (Reqb_spec p 0) as [->|Hp].
  { intros E; injection E as <- <-. cbn [gc gs].
    destruct (Rltb_spec q 0).
    - rewrite Rabs_left by auto. repeat split; lra.
    - rewrite Rabs_right by lra. repeat split; lra. }
  assert (Hs : forall t, 0 < sqrt (1 + t * t) /\ sqrt (1 + t * t) * sqrt (1 + t * t) = 1 + t * t).
  { intros t. split; [apply sqrt_lt_R0; nra|apply sqrt_def; nra]. }
  destruct (Rltb (Rabs q) (Rabs p)).
  - destruct (Hs (q / p)) as [H1 H2]. set (w := sqrt (1 + q / p * (q / p))) in *.
    intros E; injection E as <- <-. cbn [gc gs].
    set (u := if Rltb p 0 then - w else w).
    assert (Hu : u <> 0 /\ u * u = 1 + q / p * (q / p)).
    { unfold u. destruct (Rltb p 0); split; nra. }
    destruct Hu as [Hu0 Hu]. clearbody u. clear w H1 H2.
    assert (Hup : u * u * p * p = p * p + q * q).
    { rewrite Hu. field; auto. }
    assert (Hpu : p * p <> 0) by nra.
    repeat split.
    + replace (1 / u * (1 / u) + - (q / p) * (1 / u) * (- (q / p) * (1 / u)))
        with ((p * p + q * q) / (u * u * p * p)) by (field; auto).
      rewrite <- Hup. field. auto.
    + replace (1 / u * p - - (q / p) * (1 / u) * q) with ((p * p + q * q) / (u * p)) by (field; auto).
      rewrite <- Hup. field. auto.
    + field. auto.
  - destruct (Hs (p / q)) as [H1 H2]. set (w := sqrt (1 + p / q * (p / q))) in *.
    intros E; injection E as <- <-. cbn [gc gs].
    set (u := if Rltb q 0 then - w else w).
    assert (Hu : u <> 0 /\ u * u = 1 + p / q * (p / q)).
    { unfold u. destruct (Rltb q 0); split; nra. }
    destruct Hu as [Hu0 Hu]. clearbody u. clear w H1 H2.
    assert (Hup : u * u * q * q = p * p + q * q).
    { rewrite Hu. field; auto. }
    repeat split.
    + replace (- (p / q) * (- (1) / u) * (- (p / q) * (- (1) / u)) + - (1) / u * (- (1) / u))
        with ((p * p + q * q) / (u * u * q * q)) by (field; auto).
      rewrite <- Hup. field. auto.
    + replace (- (p / q) * (- (1) / u) * p - - (1) / u * q) with ((p * p + q * q) / (u * q)) by (field; auto).
      rewrite <- Hup. field. auto.
    + field. auto.
Qed.

Lemma givens_norm p q g r : @makeGivens Rops p q = (g, r) -> r * r = p * p + q * q.
Proof.
  intros H. apply makeGivens_spec in H as (H1 & H2 & H3).
  assert (E : (gc g * p - gs g * q) * (gc g * p - gs g * q) + (gs g * p + gc g * q) * (gs g * p + gc g * q)
      = (gc g * gc g + gs g * gs g) * (p * p + q * q)) by ring.
  rewrite H1, H2, H3 in E. lra.
Qed.

(** Column rotations keep [M M^T] *)
Lemma rot_cols_gram n (M : rmat) i (g : givens Rops) a b : (S i < n)%nat -> gc g * gc g + gs g * gs g = 1 ->
  rsum n (fun k => rot_cols M i g a k * rot_cols M i g b k) = rsum n (fun k => M a k * M b k).
Proof.
  intros Hi Hg. apply sum_pair with i; auto.
  - intros k _ H1 H2. unfold rot_cols.
    destruct (Nat.eqb_spec k i), (Nat.eqb_spec k (S i)); try lia. auto.
  - unfold rot_cols. rewrite !Nat.eqb_refl.
    destruct (Nat.eqb_spec (S i) i); [lia|]. rops.
    transitivity ((gc g * gc g + gs g * gs g) * (M a i * M b i + M a (S i) * M b (S i))); [ring|].
    rewrite Hg. ring.
Qed.

(** Action of a column rotation on [M^T w] *)
Lemma rot_cols_tdot n (M : rmat) i (g : givens Rops) (w : rvec) k :
  rsum n (fun a => rot_cols M i g a k * w a)
  = if (k =? i)%nat then gc g * rsum n (fun a => M a i * w a) - gs g * rsum n (fun a => M a (S i) * w a)
    else if (k =? S i)%nat then gs g * rsum n (fun a => M a i * w a) + gc g * rsum n (fun a => M a (S i) * w a)
    else rsum n (fun a => M a k * w a).
Proof.
  unfold rot_cols. destruct (k =? i)%nat; [|destruct (k =? S i)%nat].
  - rewrite <- !sum_scal, <- sum_minus. apply sum_ext. intros. rops. ring.
  - rewrite <- !sum_scal, <- sum_plus. apply sum_ext. intros. rops. ring.
  - auto.
Qed.

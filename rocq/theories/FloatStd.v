(** The usual error model of floating-point arithmetic, as a predicate on the
    scalar operations of Num.v, and the rounding errors of sums and dot products.
    DoubleOps.v shows that IEEE-754 binary64 satisfies it (with u = 2^-53 and
    eta = 2^-1075) and that exact reals do (with u = eta = 0). *)
From Coq Require Import List Arith ZArith Lia Bool Reals Lra Permutation.
From Verif Require Import Base Num LinAlg.
Import ListNotations.
Local Open Scope R_scope.

(** [fin x]: [x] is a finite number; [v x]: the real it stands for.
    [u]: relative error of one operation, [eta]: absolute error of a product or
    a quotient that underflows, [big]: no overflow up to this magnitude. *)
Record std_model (S : ops) (fin : carrier S -> Prop) (v : carrier S -> R) (u eta big : R) : Prop := {
  sm_u : 0 <= u <= / 16;
  sm_eta : 0 <= eta;
  sm_0 : fin (zero S) /\ v (zero S) = 0;
  sm_1 : fin (one S) /\ v (one S) = 1;
  sm_add : forall a b, fin (add S a b) -> fin a /\ fin b /\ exists d, Rabs d <= u /\ v (add S a b) = (v a + v b) * (1 + d);
  sm_sub : forall a b, fin (sub S a b) -> fin a /\ fin b /\ exists d, Rabs d <= u /\ v (sub S a b) = (v a - v b) * (1 + d);
  sm_mul : forall a b, fin (mul S a b) -> fin a /\ fin b /\ exists d e, Rabs d <= u /\ Rabs e <= eta /\ v (mul S a b) = v a * v b * (1 + d) + e;
  sm_div : forall a b, fin (div S a b) -> fin a /\ (fin b -> v b <> 0 ->
             exists d e, Rabs d <= u /\ Rabs e <= eta /\ v (div S a b) = v a / v b * (1 + d) + e);
  sm_opp : forall a, (fin (opp S a) <-> fin a) /\ v (opp S a) = - v a;
  sm_sqrt : forall a, fin (sqrt_ S a) -> fin a /\ exists d, Rabs d <= u /\ v (sqrt_ S a) = sqrt (v a) * (1 + d);
  sm_lt : forall a b, fin a -> fin b -> (ltb S a b = true <-> v a < v b);
  sm_le : forall a b, fin a -> fin b -> (leb S a b = true <-> v a <= v b);
  (** the sign of a difference is never wrong, even when the difference overflows *)
  sm_sub_lt : forall a b, fin a -> fin b -> (ltb S (sub S a b) (zero S) = true <-> v a < v b);
  sm_sub_le : forall a b, fin a -> fin b -> (leb S (sub S a b) (zero S) = true <-> v a <= v b);
  sm_add_fin : forall a b, fin a -> fin b -> Rabs (v a + v b) <= big -> fin (add S a b);
  sm_mul_fin : forall a b, fin a -> fin b -> Rabs (v a * v b) <= big -> fin (mul S a b);
  sm_sub_fin : forall a b, fin a -> fin b -> Rabs (v a - v b) <= big -> fin (sub S a b);
  (** the same errors, relative to the result *)
  sm_sub_inv : forall a b, fin (sub S a b) -> exists d, Rabs d <= u /\ v (sub S a b) * (1 + d) = v a - v b;
  sm_div_inv : forall a b, fin (div S a b) -> fin b -> v b <> 0 -> exists d e, Rabs d <= u /\ Rabs e <= eta /\ v (div S a b) * (1 + d) + e = v a / v b;
  sm_sqrt_inv : forall a, fin (sqrt_ S a) -> exists d, Rabs d <= u /\ v (sqrt_ S a) * (1 + d) = sqrt (v a)
}.
Arguments sm_u {S fin v u eta big}. Arguments sm_eta {S fin v u eta big}. Arguments sm_0 {S fin v u eta big}.
Arguments sm_1 {S fin v u eta big}. Arguments sm_add {S fin v u eta big}. Arguments sm_sub {S fin v u eta big}.
Arguments sm_mul {S fin v u eta big}. Arguments sm_div {S fin v u eta big}. Arguments sm_opp {S fin v u eta big}.
Arguments sm_sqrt {S fin v u eta big}. Arguments sm_lt {S fin v u eta big}. Arguments sm_le {S fin v u eta big}.
Arguments sm_sub_lt {S fin v u eta big}. Arguments sm_sub_le {S fin v u eta big}. Arguments sm_add_fin {S fin v u eta big}. Arguments sm_mul_fin {S fin v u eta big}.
Arguments sm_sub_fin {S fin v u eta big}. Arguments sm_sub_inv {S fin v u eta big}. Arguments sm_div_inv {S fin v u eta big}. Arguments sm_sqrt_inv {S fin v u eta big}.

(** (1+u)^k - 1: the relative error of [k] successive operations *)
Definition gam (u : R) (k : nat) : R := (1 + u) ^ k - 1.

Lemma pow1_ge u k : 0 <= u -> 1 <= (1 + u) ^ k.
Proof. intros. apply pow_R1_Rle. lra. Qed.
Lemma gam_ge0 u k : 0 <= u -> 0 <= gam u k.
Proof. intros. unfold gam. pose proof (pow1_ge u k ltac:(lra)). lra. Qed.
Lemma gam_S u k : gam u (S k) = gam u k * (1 + u) + u.
Proof. unfold gam. simpl. ring. Qed.
Lemma gam_le u j k : 0 <= u -> (j <= k)%nat -> gam u j <= gam u k.
Proof. intros. unfold gam. pose proof (Rle_pow (1 + u) j k ltac:(lra) ltac:(lia)). lra. Qed.
(** the customary k u / (1 - k u) *)
Lemma gam_bound u k : 0 <= u -> INR k * u < 1 -> gam u k <= INR k * u / (1 - INR k * u).
Proof.
  intros Hu. unfold gam. induction k as [|k IH]; intros Hk.
  - simpl. lra.
  - rewrite S_INR in *. assert (Hk' : INR k * u < 1) by lra. specialize (IH Hk').
    assert (E : (1 + u) ^ k <= / (1 - INR k * u)).
    { replace (/ (1 - INR k * u)) with (INR k * u / (1 - INR k * u) + 1) by (field; lra). lra. }
    simpl. apply Rle_trans with (/ (1 - (INR k + 1) * u) - 1).
    2:{ right. field. lra. }
    apply Rplus_le_compat_r. apply Rle_trans with ((1 + u) * / (1 - INR k * u)).
    { apply Rmult_le_compat_l; lra. }
    apply (Rmult_le_reg_r ((1 - INR k * u) * (1 - (INR k + 1) * u))).
    { apply Rmult_lt_0_compat; lra. }
    replace ((1 + u) * / (1 - INR k * u) * ((1 - INR k * u) * (1 - (INR k + 1) * u))) with ((1 + u) * (1 - (INR k + 1) * u)) by (field; lra).
    replace (/ (1 - (INR k + 1) * u) * ((1 - INR k * u) * (1 - (INR k + 1) * u))) with (1 - INR k * u) by (field; lra).
    pose proof (pos_INR k). nra.
Qed.

Section Sums.
Variable S : ops.
Variable fin : carrier S -> Prop.
Variable v : carrier S -> R.
Variables u eta big : R.
Hypothesis M : std_model S fin v u eta big.

Lemma sum_abs_le n (f : nat -> R) : Rabs (rsum n f) <= rsum n (fun i => Rabs (f i)).
Proof.
  induction n as [|n IH]; [rewrite !sum_0, Rabs_R0; lra|]. rewrite !sum_S.
  eapply Rle_trans; [apply Rabs_triang|]. lra.
Qed.

(** Sums over a list of indices *)
Fixpoint lsum (f : nat -> R) (l : list nat) : R := match l with [] => 0 | i :: l' => f i + lsum f l' end.
Lemma lsum_app f l l' : lsum f (l ++ l') = lsum f l + lsum f l'.
Proof. induction l as [|i l IH]; cbn [app lsum]; [ring|]. rewrite IH. ring. Qed.
Lemma lsum_perm f l l' : Permutation l l' -> lsum f l = lsum f l'.
Proof. induction 1; cbn [lsum]; lra. Qed.
Lemma lsum_seq f n : lsum f (seq 0 n) = rsum n f.
Proof. induction n as [|n IH]; [reflexivity|]. rewrite seq_S, lsum_app, IH, sum_S. cbn [lsum]. rewrite Rplus_0_r. reflexivity. Qed.
Lemma lsum_abs f l : Rabs (lsum f l) <= lsum (fun i => Rabs (f i)) l.
Proof. induction l as [|i l IH]; cbn [lsum]; [rewrite Rabs_R0; lra|]. eapply Rle_trans; [apply Rabs_triang|]. lra. Qed.
Lemma lsum_pos f l : 0 <= lsum (fun i => Rabs (f i)) l.
Proof. pose proof (lsum_abs f l). pose proof (Rabs_pos (lsum f l)). lra. Qed.

(** Error of a sum, added up along a tree *)
Lemma seval_err f t : fin (@seval S f t) ->
  (forall i, In i (leaves t) -> fin (f i)) /\
  Rabs (v (@seval S f t) - lsum (fun i => v (f i)) (leaves t)) <= gam u (depth t) * lsum (fun i => Rabs (v (f i))) (leaves t).
Proof.
  pose proof (sm_u M) as Hu.
  induction t as [|i|l IHl r IHr]; cbn [seval leaves depth lsum]; intros F.
  - split; [intros i []|]. rewrite (proj2 (sm_0 M)). rewrite Rminus_0_r, Rabs_R0. unfold gam. simpl. lra.
  - split; [intros k [<-|[]]; exact F|]. replace (v (f i) - (v (f i) + 0)) with 0 by ring. rewrite Rabs_R0. unfold gam. simpl. lra.
  - destruct (sm_add M _ _ F) as (F1 & F2 & d & Hd & E). destruct (IHl F1) as (Fl & Hl). destruct (IHr F2) as (Fr & Hr). split.
    { intros i Hi. apply in_app_or in Hi as [Hi|Hi]; auto. }
    rewrite !lsum_app, E, gam_S. set (D := Nat.max (depth l) (depth r)).
    pose proof (gam_le u (depth l) D ltac:(lra) ltac:(lia)) as GL. pose proof (gam_le u (depth r) D ltac:(lra) ltac:(lia)) as GR.
    pose proof (lsum_pos (fun i => v (f i)) (leaves l)) as WL. pose proof (lsum_pos (fun i => v (f i)) (leaves r)) as WR. cbv beta in WL, WR.
    pose proof (lsum_abs (fun i => v (f i)) (leaves l)) as TL. pose proof (lsum_abs (fun i => v (f i)) (leaves r)) as TR. cbv beta in TL, TR.
    set (sl := v (seval f l)) in *. set (sr := v (seval f r)) in *. set (tl := lsum (fun i => v (f i)) (leaves l)) in *. set (tr := lsum (fun i => v (f i)) (leaves r)) in *.
    set (wl := lsum (fun i => Rabs (v (f i))) (leaves l)) in *. set (wr := lsum (fun i => Rabs (v (f i))) (leaves r)) in *.
    replace ((sl + sr) * (1 + d) - (tl + tr)) with (((sl - tl) + (sr - tr)) * (1 + d) + (tl + tr) * d) by ring.
    eapply Rle_trans; [apply Rabs_triang|]. rewrite !Rabs_mult.
    assert (A : Rabs (sl - tl + (sr - tr)) <= gam u D * (wl + wr)).
    { eapply Rle_trans; [apply Rabs_triang|]. assert (gam u (depth l) * wl <= gam u D * wl) by (apply Rmult_le_compat_r; auto). assert (gam u (depth r) * wr <= gam u D * wr) by (apply Rmult_le_compat_r; auto). lra. }
    assert (B : Rabs (1 + d) <= 1 + u) by (eapply Rle_trans; [apply Rabs_triang|]; rewrite Rabs_R1; lra).
    assert (C : Rabs (tl + tr) <= wl + wr) by (eapply Rle_trans; [apply Rabs_triang|]; lra).
    assert (H1 : Rabs (sl - tl + (sr - tr)) * Rabs (1 + d) <= gam u D * (wl + wr) * (1 + u)) by (apply Rmult_le_compat; auto using Rabs_pos).
    assert (H2 : Rabs (tl + tr) * Rabs d <= (wl + wr) * u) by (apply Rmult_le_compat; auto using Rabs_pos).
    replace ((gam u D * (1 + u) + u) * (wl + wr)) with (gam u D * (wl + wr) * (1 + u) + (wl + wr) * u) by ring. lra.
Qed.
(** ... of products *)
Lemma prods_err (a b : nat -> carrier S) l : (forall i, In i l -> fin (mul S (a i) (b i))) ->
  Rabs (lsum (fun i => v (mul S (a i) (b i))) l - lsum (fun i => v (a i) * v (b i)) l) <= u * lsum (fun i => Rabs (v (a i) * v (b i))) l + INR (length l) * eta /\
  lsum (fun i => Rabs (v (mul S (a i) (b i)))) l <= (1 + u) * lsum (fun i => Rabs (v (a i) * v (b i))) l + INR (length l) * eta.
Proof.
  pose proof (sm_u M) as Hu. pose proof (sm_eta M) as He.
  induction l as [|m l IH]; intros Ff; cbn [lsum].
  - change (length (@nil nat)) with 0%nat. simpl (INR 0). rewrite Rminus_0_r, Rabs_R0. lra.
  - destruct IH as (I1 & I2); [intros i Hi; apply Ff; right; exact Hi|]. change (length (m :: l)) with (Datatypes.S (length l)). rewrite S_INR.
    destruct (sm_mul M _ _ (Ff m (or_introl eq_refl))) as (_ & _ & d & e & Hd & Hee & E). rewrite E.
    set (x := v (a m) * v (b m)) in *. set (p1 := lsum (fun i => v (mul S (a i) (b i))) l) in *.
    set (p2 := lsum (fun i => v (a i) * v (b i)) l) in *.
    pose proof (Rabs_pos x).
    assert (Rabs (x * d) <= u * Rabs x).
    { rewrite Rabs_mult. rewrite Rmult_comm. apply Rmult_le_compat_r; auto. }
    split.
    + replace (x * (1 + d) + e + p1 - (x + p2)) with ((p1 - p2) + (x * d + e)) by ring.
      pose proof (Rabs_triang (p1 - p2) (x * d + e)). pose proof (Rabs_triang (x * d) e). lra.
    + replace (x * (1 + d) + e) with (x + (x * d + e)) by ring.
      pose proof (Rabs_triang x (x * d + e)). pose proof (Rabs_triang (x * d) e). lra.
Qed.
Definition psum (a b : nat -> carrier S) (l : list nat) : R := lsum (fun i => v (a i) * v (b i)) l.
Definition apsum (a b : nat -> carrier S) (l : list nat) : R := lsum (fun i => Rabs (v (a i) * v (b i))) l.
Definition prods (a b : nat -> carrier S) : nat -> carrier S := fun i => mul S (a i) (b i).
Lemma psum_abs a b l : Rabs (psum a b l) <= apsum a b l.
Proof. apply lsum_abs. Qed.
Lemma apsum_pos a b l : 0 <= apsum a b l.
Proof. apply (lsum_pos (fun i => v (a i) * v (b i))). Qed.
Lemma seval_dot_err a b t D : (depth t <= D)%nat -> fin (@seval S (prods a b) t) ->
  (forall i, In i (leaves t) -> fin (a i) /\ fin (b i)) /\
  Rabs (v (@seval S (prods a b) t) - psum a b (leaves t)) <= gam u (D + 1) * apsum a b (leaves t) + INR (length (leaves t)) * ((1 + u) ^ D * eta).
Proof.
  pose proof (sm_u M) as Hu. pose proof (sm_eta M) as He.
  intros HD F. destruct (seval_err _ _ F) as (Ff & H).
  split. { intros i Hi. destruct (sm_mul M _ _ (Ff i Hi)) as (? & ? & _). auto. }
  destruct (prods_err a b (leaves t) Ff) as (A1 & A2). unfold psum, apsum. unfold prods in H.
  set (s := v (@seval S (fun i => mul S (a i) (b i)) t)) in *. change (v (@seval S (prods a b) t)) with s.
  set (p := lsum (fun i => v (mul S (a i) (b i))) (leaves t)) in *. set (q := lsum (fun i => v (a i) * v (b i)) (leaves t)) in *.
  set (w := lsum (fun i => Rabs (v (a i) * v (b i))) (leaves t)) in *.
  pose proof (lsum_pos (fun i => v (mul S (a i) (b i))) (leaves t)) as Hw. cbv beta in Hw.
  set (w' := lsum (fun i => Rabs (v (mul S (a i) (b i)))) (leaves t)) in *. set (c := INR (length (leaves t))) in *.
  replace (s - q) with ((s - p) + (p - q)) by ring.
  eapply Rle_trans; [apply Rabs_triang|].
  assert (Hg : gam u (depth t) <= gam u D) by (apply gam_le; [lra|exact HD]).
  assert (Hg0 : 0 <= gam u D) by (apply gam_ge0; lra).
  assert (B : Rabs (s - p) <= gam u D * ((1 + u) * w + c * eta)).
  { eapply Rle_trans; [apply H|]. apply Rle_trans with (gam u D * w'); [apply Rmult_le_compat_r; auto|apply Rmult_le_compat_l; auto]. }
  replace (D + 1)%nat with (Datatypes.S D) by lia. rewrite gam_S. unfold gam in *.
  replace (((((1 + u) ^ D - 1) * (1 + u) + u) * w + c * ((1 + u) ^ D * eta)))
    with (((1 + u) ^ D - 1) * ((1 + u) * w + c * eta) + (u * w + c * eta)) by ring. lra.
Qed.
Lemma seval_dot_fin a b t D : (depth t <= D)%nat -> (forall i, In i (leaves t) -> fin (a i) /\ fin (b i)) ->
  (1 + u) ^ (D + 1) * apsum a b (leaves t) + INR (length (leaves t)) * ((1 + u) ^ D * eta) <= big -> fin (@seval S (prods a b) t).
Proof.
  pose proof (sm_u M) as Hu. pose proof (sm_eta M) as He. revert D.
  induction t as [|i|l IHl r IHr]; cbn [seval leaves depth]; intros D HD F B.
  - apply (sm_0 M).
  - destruct (F i (or_introl eq_refl)) as (Fa & Fb). apply (sm_mul_fin M); auto. eapply Rle_trans; [|exact B]. unfold apsum. cbn [lsum length]. rewrite Rplus_0_r.
    pose proof (pow1_ge u (D + 1) ltac:(lra)). pose proof (pow1_ge u D ltac:(lra)). pose proof (Rabs_pos (v (a i) * v (b i))).
    assert (1 * Rabs (v (a i) * v (b i)) <= (1 + u) ^ (D + 1) * Rabs (v (a i) * v (b i))) by (apply Rmult_le_compat_r; auto).
    assert (0 <= INR 1 * ((1 + u) ^ D * eta)) by (apply Rmult_le_pos; [apply pos_INR|apply Rmult_le_pos; lra]). lra.
  - destruct D as [|D]; [lia|]. unfold apsum in *. rewrite lsum_app, app_length, plus_INR in B. fold (apsum a b (leaves l)) in *. fold (apsum a b (leaves r)) in *.
    pose proof (apsum_pos a b (leaves l)) as WL. pose proof (apsum_pos a b (leaves r)) as WR. pose proof (pos_INR (length (leaves l))) as CL. pose proof (pos_INR (length (leaves r))) as CR.
    assert (Q0 : 1 <= (1 + u) ^ D) by (apply pow1_ge; lra). assert (Q1 : 1 <= (1 + u) ^ (D + 1)) by (apply pow1_ge; lra).
    assert (BB : forall w c, 0 <= w -> 0 <= c -> (1 + u) ^ (D + 1) * w + c * ((1 + u) ^ D * eta) <= (1 + u) ^ (Datatypes.S D + 1) * w + c * ((1 + u) ^ Datatypes.S D * eta)).
    { intros w c Hw Hc. apply Rplus_le_compat; [apply Rmult_le_compat_r; [exact Hw|apply Rle_pow; [lra|lia]]|].
      apply Rmult_le_compat_l; [exact Hc|]. apply Rmult_le_compat_r; [exact He|]. apply Rle_pow; [lra|lia]. }
    pose proof (BB (apsum a b (leaves l) + apsum a b (leaves r)) (INR (length (leaves l)) + INR (length (leaves r))) ltac:(lra) ltac:(lra)) as B1.
    assert (Pl : 0 <= (1 + u) ^ (D + 1) * apsum a b (leaves l) + INR (length (leaves l)) * ((1 + u) ^ D * eta)).
    { apply Rplus_le_le_0_compat; apply Rmult_le_pos; try lra. apply Rmult_le_pos; lra. }
    assert (Pr : 0 <= (1 + u) ^ (D + 1) * apsum a b (leaves r) + INR (length (leaves r)) * ((1 + u) ^ D * eta)).
    { apply Rplus_le_le_0_compat; apply Rmult_le_pos; try lra. apply Rmult_le_pos; lra. }
    assert (Fl : fin (@seval S (prods a b) l)) by (apply (IHl D); [lia|intros i Hi; apply F, in_or_app; auto|lra]).
    assert (Fr : fin (@seval S (prods a b) r)) by (apply (IHr D); [lia|intros i Hi; apply F, in_or_app; auto|lra]).
    apply (sm_add_fin M); auto.
    destruct (seval_dot_err a b l D ltac:(lia) Fl) as (_ & El). destruct (seval_dot_err a b r D ltac:(lia) Fr) as (_ & Er).
    pose proof (psum_abs a b (leaves l)) as Al. pose proof (psum_abs a b (leaves r)) as Ar.
    set (sl := v (seval (prods a b) l)) in *. set (sr := v (seval (prods a b) r)) in *.
    replace (sl + sr) with ((sl - psum a b (leaves l)) + psum a b (leaves l) + ((sr - psum a b (leaves r)) + psum a b (leaves r))) by ring.
    pose proof (Rabs_triang (sl - psum a b (leaves l) + psum a b (leaves l)) (sr - psum a b (leaves r) + psum a b (leaves r))).
    pose proof (Rabs_triang (sl - psum a b (leaves l)) (psum a b (leaves l))). pose proof (Rabs_triang (sr - psum a b (leaves r)) (psum a b (leaves r))).
    unfold gam in El, Er. lra.
Qed.

(** Error of a sum *)
Lemma sum_err key n f : fin (@sumn S key n f) ->
  (forall i, (i < n)%nat -> fin (f i)) /\
  Rabs (v (@sumn S key n f) - rsum n (fun i => v (f i))) <= gam u n * rsum n (fun i => Rabs (v (f i))).
Proof.
  pose proof (sm_u M) as Hu. intros F. destruct (so_tree_ok (order S) key n) as [HP HD]. destruct (seval_err _ _ F) as (Ff & H). split.
  - intros i Hi. apply Ff. apply (Permutation_in i (Permutation_sym HP)), in_seq. lia.
  - rewrite !(lsum_perm _ _ _ HP), !lsum_seq in H. eapply Rle_trans; [exact H|]. apply Rmult_le_compat_r; [apply sum_nonneg; intros; apply Rabs_pos|]. apply gam_le; [lra|exact HD].
Qed.

(** Error of a dot product *)
Lemma dot_err key n (a b : nat -> carrier S) : fin (@dot S key n a b) ->
  (forall i, (i < n)%nat -> fin (a i) /\ fin (b i)) /\
  Rabs (v (@dot S key n a b) - rsum n (fun i => v (a i) * v (b i)))
    <= gam u (n + 1) * rsum n (fun i => Rabs (v (a i) * v (b i))) + INR n * ((1 + u) ^ n * eta).
Proof.
  intros F. destruct (so_tree_ok (order S) key n) as [HP HD]. destruct (seval_dot_err a b _ n HD F) as (Ff & H). split.
  - intros i Hi. apply Ff. apply (Permutation_in i (Permutation_sym HP)), in_seq. lia.
  - unfold psum, apsum in H. rewrite !(lsum_perm _ _ _ HP), !lsum_seq, (Permutation_length HP), seq_length in H. exact H.
Qed.

(** A dot product whose terms are not too large does not overflow *)
Lemma dot_fin key n (a b : nat -> carrier S) :
  (forall i, (i < n)%nat -> fin (a i) /\ fin (b i)) ->
  (1 + u) ^ (n + 1) * rsum n (fun i => Rabs (v (a i) * v (b i))) + INR n * ((1 + u) ^ n * eta) <= big ->
  fin (@dot S key n a b).
Proof.
  intros F B. destruct (so_tree_ok (order S) key n) as [HP HD]. apply (seval_dot_fin a b _ n HD).
  - intros i Hi. apply F. apply (so_tree_lt (order S) key), Hi.
  - unfold apsum. rewrite !(lsum_perm _ _ _ HP), !lsum_seq, (Permutation_length HP), seq_length. exact B.
Qed.

(** Error of [g - a.b], the partial sums being subtracted one after the other *)
Definition chain (a b : nat -> carrier S) (l : list stree) (g : carrier S) : carrier S := fold_left (fun x t => sub S x (@seval S (prods a b) t)) l g.
Lemma chain_err a b l : forall N g, (forall m t, nth_error l m = Some t -> depth t + m <= N)%nat -> fin (chain a b l g) ->
  fin g /\ (forall i, In i (flat_map leaves l) -> fin (a i) /\ fin (b i)) /\
  Rabs (psum a b (flat_map leaves l) + v (chain a b l g) - v g)
    <= gam u (N + 1) * apsum a b (flat_map leaves l) + INR (length (flat_map leaves l)) * ((1 + u) ^ N * eta) + gam u (length l) * Rabs (v (chain a b l g)).
Proof.
  pose proof (sm_u M) as Hu. pose proof (sm_eta M) as He.
  induction l as [|t l IH]; intros N g HN F.
  - cbn [chain fold_left flat_map length] in *. unfold chain in *. cbn [fold_left] in *. split; [exact F|]. split; [intros i []|]. unfold psum, apsum. cbn [lsum].
    replace (0 + v g - v g) with 0 by ring. rewrite Rabs_R0. unfold gam. simpl. lra.
  - change (chain a b (t :: l) g) with (chain a b l (sub S g (seval (prods a b) t))) in *. set (g1 := sub S g (seval (prods a b) t)) in *. set (r := v (chain a b l g1)) in *.
    assert (Ht : (depth t <= N)%nat) by (specialize (HN 0%nat t eq_refl); lia).
    destruct (IH (pred N) g1) as (F1 & Fl & H1).
    { intros m t' Hm. specialize (HN (Datatypes.S m) t' Hm). lia. }
    { exact F. }
    destruct (sm_sub M _ _ F1) as (Fg & Fs & _). destruct (sm_sub_inv M _ _ F1) as (d & Hd & Ed). fold g1 in Ed.
    destruct (seval_dot_err a b t N Ht Fs) as (Ft & Et). split; [exact Fg|]. split.
    { intros i Hi. cbn [flat_map] in Hi. apply in_app_or in Hi as [Hi|Hi]; auto. }
    cbn [flat_map]. unfold psum, apsum. rewrite !lsum_app, app_length, plus_INR. fold (psum a b (leaves t)) (psum a b (flat_map leaves l)) (apsum a b (leaves t)) (apsum a b (flat_map leaves l)).
    pose proof (apsum_pos a b (flat_map leaves l)) as W0. pose proof (psum_abs a b (flat_map leaves l)) as A0. pose proof (pos_INR (length (flat_map leaves l))) as C0.
    set (s := v (seval (prods a b) t)) in *. set (S' := psum a b (flat_map leaves l)) in *. set (w := apsum a b (flat_map leaves l)) in *. set (c := INR (length (flat_map leaves l))) in *.
    change (v (chain a b l g1)) with r in H1. change (length (t :: l)) with (Datatypes.S (length l)).
    replace (psum a b (leaves t) + S' + r - v g) with (- (s - psum a b (leaves t)) + ((S' + r - v g1) * (1 + d) - d * (S' + r))).
    2:{ replace (v g) with (v g1 * (1 + d) + s) by (rewrite Ed; ring). ring. }
    eapply Rle_trans; [apply Rabs_triang|]. rewrite Rabs_Ropp.
    assert (B : Rabs (1 + d) <= 1 + u) by (eapply Rle_trans; [apply Rabs_triang|]; rewrite Rabs_R1; lra).
    assert (K : Rabs ((S' + r - v g1) * (1 + d) - d * (S' + r)) <= (gam u (pred N + 1) * w + c * ((1 + u) ^ pred N * eta) + gam u (length l) * Rabs r) * (1 + u) + u * (w + Rabs r)).
    { unfold Rminus at 1. eapply Rle_trans; [apply Rabs_triang|]. rewrite Rabs_Ropp, !Rabs_mult. apply Rplus_le_compat; [apply Rmult_le_compat; auto using Rabs_pos|].
      apply Rmult_le_compat; auto using Rabs_pos. eapply Rle_trans; [apply Rabs_triang|]. lra. }
    assert (Z : (gam u (pred N + 1) * w + c * ((1 + u) ^ pred N * eta)) * (1 + u) + u * w <= gam u (N + 1) * w + c * ((1 + u) ^ N * eta)).
    { destruct l as [|t' l'].
      - unfold w, c, apsum. cbn [flat_map lsum length]. simpl (INR 0). lra.
      - assert (HN1 : (1 <= N)%nat) by (specialize (HN 1%nat t' eq_refl); lia). destruct N as [|N]; [lia|]. cbn [pred].
        replace (Datatypes.S N + 1)%nat with (Datatypes.S (N + 1)) by lia. rewrite gam_S. rewrite <- tech_pow_Rmult. right. ring. }
    rewrite gam_S. lra.
Qed.
Lemma subn_err key n g (a b : nat -> carrier S) : let r := @subn S key n g (fun i => mul S (a i) (b i)) in fin r ->
  fin g /\ (forall i, (i < n)%nat -> fin (a i) /\ fin (b i)) /\
  Rabs (rsum n (fun i => v (a i) * v (b i)) + v r - v g)
    <= gam u (n + 1) * rsum n (fun i => Rabs (v (a i) * v (b i))) + INR n * ((1 + u) ^ n * eta) + gam u (n + 1) * Rabs (v r).
Proof.
  intros r F. pose proof (sm_u M) as Hu. destruct (so_sub_ok (order S) key n) as (HP & HL & HD). change r with (chain a b (so_sub (order S) key n) g) in *.
  destruct (chain_err a b (so_sub (order S) key n) n g HD F) as (Fg & Ff & H). split; [exact Fg|]. split.
  - intros i Hi. apply Ff. apply (Permutation_in i (Permutation_sym HP)), in_seq. lia.
  - unfold psum, apsum in H. rewrite !(lsum_perm _ _ _ HP), !lsum_seq, (Permutation_length HP), seq_length in H. eapply Rle_trans; [exact H|].
    apply Rplus_le_compat_l. apply Rmult_le_compat_r; [apply Rabs_pos|]. apply gam_le; [lra|exact HL].
Qed.
Lemma chain_fin a b D l : forall g, (forall t, In t l -> (depth t <= D)%nat) -> fin g -> (forall i, In i (flat_map leaves l) -> fin (a i) /\ fin (b i)) ->
  (1 + u) ^ length l * (Rabs (v g) + (1 + u) ^ (D + 1) * apsum a b (flat_map leaves l) + INR (length (flat_map leaves l)) * ((1 + u) ^ D * eta)) <= big -> fin (chain a b l g).
Proof.
  pose proof (sm_u M) as Hu. pose proof (sm_eta M) as He.
  induction l as [|t l IH]; intros g HD Fg Ff B; [exact Fg|]. change (chain a b (t :: l) g) with (chain a b l (sub S g (seval (prods a b) t))).
  cbn [flat_map] in B, Ff. unfold apsum in B. rewrite lsum_app, app_length, plus_INR in B. fold (apsum a b (leaves t)) in B. fold (apsum a b (flat_map leaves l)) in B.
  change (length (t :: l)) with (Datatypes.S (length l)) in B. rewrite <- tech_pow_Rmult in B.
  assert (Q : 1 <= (1 + u) ^ length l) by (apply pow1_ge; lra). assert (QD : 1 <= (1 + u) ^ D) by (apply pow1_ge; lra). assert (QD1 : 1 <= (1 + u) ^ (D + 1)) by (apply pow1_ge; lra).
  pose proof (apsum_pos a b (leaves t)) as Wt. pose proof (apsum_pos a b (flat_map leaves l)) as Wl. pose proof (pos_INR (length (leaves t))) as Ct. pose proof (pos_INR (length (flat_map leaves l))) as Cl.
  assert (P1 : 0 <= (1 + u) ^ (D + 1) * apsum a b (leaves t) + INR (length (leaves t)) * ((1 + u) ^ D * eta)) by (apply Rplus_le_le_0_compat; apply Rmult_le_pos; try lra; apply Rmult_le_pos; lra).
  assert (P2 : 0 <= (1 + u) ^ (D + 1) * apsum a b (flat_map leaves l) + INR (length (flat_map leaves l)) * ((1 + u) ^ D * eta)) by (apply Rplus_le_le_0_compat; apply Rmult_le_pos; try lra; apply Rmult_le_pos; lra).
  pose proof (Rabs_pos (v g)) as P0. set (b1 := (1 + u) ^ (D + 1) * apsum a b (leaves t) + INR (length (leaves t)) * ((1 + u) ^ D * eta)) in *.
  set (b2 := (1 + u) ^ (D + 1) * apsum a b (flat_map leaves l) + INR (length (flat_map leaves l)) * ((1 + u) ^ D * eta)) in *.
  assert (B' : (1 + u) * (1 + u) ^ length l * (Rabs (v g) + b1 + b2) <= big) by (unfold b1, b2; eapply Rle_trans; [|exact B]; right; ring).
  assert (Q' : 1 <= (1 + u) * (1 + u) ^ length l) by (assert (1 * 1 <= (1 + u) * (1 + u) ^ length l) by (apply Rmult_le_compat; lra); lra).
  assert (B0 : Rabs (v g) + b1 + b2 <= big) by (assert (1 * (Rabs (v g) + b1 + b2) <= (1 + u) * (1 + u) ^ length l * (Rabs (v g) + b1 + b2)) by (apply Rmult_le_compat_r; lra); lra).
  assert (Hdt : (depth t <= D)%nat) by (apply HD; left; reflexivity).
  assert (Fs : fin (@seval S (prods a b) t)).
  { apply (seval_dot_fin a b t D Hdt); [intros i Hi; apply Ff, in_or_app; auto|]. fold b1. lra. }
  destruct (seval_dot_err a b t D Hdt Fs) as (_ & Es). pose proof (psum_abs a b (leaves t)) as At. set (s := seval (prods a b) t) in *.
  assert (Hs : Rabs (v s) <= b1).
  { replace (v s) with ((v s - psum a b (leaves t)) + psum a b (leaves t)) by ring. eapply Rle_trans; [apply Rabs_triang|]. unfold b1. unfold gam in Es. lra. }
  assert (Hgs : Rabs (v g - v s) <= Rabs (v g) + b1) by (unfold Rminus; eapply Rle_trans; [apply Rabs_triang|]; rewrite Rabs_Ropp; lra).
  assert (F1 : fin (sub S g s)) by (apply (sm_sub_fin M); auto; lra).
  apply IH; [intros t' Ht'; apply HD; right; exact Ht'|exact F1|intros i Hi; apply Ff, in_or_app; auto|].
  destruct (sm_sub M _ _ F1) as (_ & _ & d & Hd & Ed). rewrite Ed, Rabs_mult.
  assert (Bd : Rabs (1 + d) <= 1 + u) by (eapply Rle_trans; [apply Rabs_triang|]; rewrite Rabs_R1; lra).
  assert (K : Rabs (v g - v s) * Rabs (1 + d) <= (Rabs (v g) + b1) * (1 + u)) by (apply Rmult_le_compat; auto using Rabs_pos).
  eapply Rle_trans; [|exact B']. rewrite (Rmult_comm (1 + u)), Rmult_assoc. apply Rmult_le_compat_l; [lra|]. rewrite Rplus_assoc. fold b2.
  assert (b2 * 1 <= b2 * (1 + u)) by (apply Rmult_le_compat_l; lra). lra.
Qed.
Lemma subn_fin key n g (a b : nat -> carrier S) : fin g -> (forall i, (i < n)%nat -> fin (a i) /\ fin (b i)) ->
  (1 + u) ^ (n + 1) * (Rabs (v g) + (1 + u) ^ (n + 1) * rsum n (fun i => Rabs (v (a i) * v (b i))) + INR n * ((1 + u) ^ n * eta)) <= big ->
  fin (@subn S key n g (fun i => mul S (a i) (b i))).
Proof.
  pose proof (sm_u M) as Hu. pose proof (sm_eta M) as He.
  intros Fg Ff B. destruct (so_sub_ok (order S) key n) as (HP & HL & HD). apply (chain_fin a b n (so_sub (order S) key n) g); [|exact Fg| |].
  - intros t Ht. apply In_nth_error in Ht as (m & Hm). specialize (HD m t Hm). lia.
  - intros i Hi. apply Ff. apply (Permutation_in i HP) in Hi. apply in_seq in Hi. lia.
  - unfold apsum. rewrite !(lsum_perm _ _ _ HP), !lsum_seq, (Permutation_length HP), seq_length. eapply Rle_trans; [|exact B]. apply Rmult_le_compat_r; [|apply Rle_pow; [lra|exact HL]].
    assert (0 <= rsum n (fun i => Rabs (v (a i) * v (b i)))) by (apply sum_nonneg; intros; apply Rabs_pos). pose proof (Rabs_pos (v g)). pose proof (pos_INR n).
    assert (0 <= (1 + u) ^ (n + 1)) by (apply pow_le; lra). assert (0 <= (1 + u) ^ n) by (apply pow_le; lra).
    apply Rplus_le_le_0_compat; [apply Rplus_le_le_0_compat; [auto|apply Rmult_le_pos; auto]|apply Rmult_le_pos; auto; apply Rmult_le_pos; auto].
Qed.
End Sums.

(** Rounding errors of the two triangular solves with the Cholesky factor (Num.v: fwd, bwd), and of the unconstrained minimiser they
    give, for any arithmetic satisfying the standard model. *)
From Coq Require Import List Arith Lia Bool Reals Lra Psatz.
From Verif Require Import Base Num Solver LinAlg QPSpec FloatStd FloatChol FloatStart.
Import ListNotations.
Local Open Scope R_scope.

Section Eqs.
Variable S : ops.
Lemma fwd_keep k (L : mat S) b : forall i, (k <= i)%nat -> fwd k L b i = b i.
Proof. induction k as [|k IH]; intros i Hi; cbn [fwd]; [reflexivity|]. unfold upd. destruct (Nat.eqb_spec i k); [lia|]. apply IH. lia. Qed.
Lemma fwd_low m (L : mat S) b : forall k i, (i < k)%nat -> (k <= m)%nat -> fwd m L b i = fwd k L b i.
Proof.
  induction m as [|m IH]; intros k i Hi Hk; [lia|]. destruct (Nat.eq_dec k (Datatypes.S m)) as [->|]; [reflexivity|].
  cbn [fwd]. unfold upd at 1. destruct (Nat.eqb_spec i m); [lia|]. apply IH; lia.
Qed.
Lemma fwd_eqn n (L : mat S) b i : (i < n)%nat -> let y := fwd n L b in
  y i = div S (@subn S [2; i]%nat i (b i) (fun t => mul S (L i t) (y t))) (L i i).
Proof.
  intros Hi y. unfold y. rewrite (fwd_low n L b (Datatypes.S i) i) by lia. cbn [fwd]. unfold upd. rewrite Nat.eqb_refl.
  f_equal. apply subn_ext. intros t Ht. f_equal. symmetry. apply fwd_low; lia.
Qed.
Lemma bwd_high n (U : mat S) b : forall m k i, (k <= m)%nat -> (m <= n)%nat -> (n - k <= i)%nat -> bwd n m U b i = bwd n k U b i.
Proof.
  induction m as [|m IH]; intros k i Hk Hm Hi; [replace k with 0%nat by lia; reflexivity|]. destruct (Nat.eq_dec k (Datatypes.S m)) as [->|]; [reflexivity|].
  cbn [bwd]. unfold upd at 1. destruct (Nat.eqb_spec i (n - Datatypes.S m)); [lia|]. apply IH; lia.
Qed.
Lemma bwd_eqn n (U : mat S) b i : (i < n)%nat -> let x := bwd n n U b in
  x i = div S (@subn S [3; n; i]%nat (n - 1 - i) (b i) (fun t => mul S (U i (i + 1 + t)%nat) (x (i + 1 + t)%nat))) (U i i).
Proof.
  intros Hi x. unfold x. rewrite (bwd_high n U b n (Datatypes.S (n - 1 - i)) i) by lia. cbn [bwd].
  replace (n - Datatypes.S (n - 1 - i))%nat with i by lia. unfold upd. rewrite Nat.eqb_refl.
  f_equal. apply subn_ext. intros t Ht. f_equal. symmetry. apply bwd_high; lia.
Qed.
End Eqs.

Section Err.
Variable S : ops.
Variable fin : carrier S -> Prop.
Variable v : carrier S -> R.
Variables u eta big : R.
Hypothesis M : std_model S fin v u eta big.
Variables (n : nat) (F : nat -> nat -> carrier S).
Hypothesis HF : forall i j, (j <= i < n)%nat -> fin (F i j).
Hypothesis HP : forall i, (i < n)%nat -> 0 < v (F i i).

Let g := gam u (n + 3).
Let tau i := (INR n + v (F i i)) * (1 + u) ^ (n + 1) * eta.
(** entry of |F|, of the lower triangle *)
Definition low (i t : nat) : R := if (t <=? i)%nat then v (F i t) else 0.

Lemma g_facts : 0 <= g /\ (forall j, (j <= n + 3)%nat -> gam u j <= g) /\ (forall i, (i < n)%nat -> 0 <= tau i).
Proof.
  pose proof (sm_u M) as Hu. pose proof (sm_eta M) as He. split; [apply gam_ge0; lra|]. split.
  - intros j Hj. apply gam_le; [lra|lia].
  - intros i Hi. unfold tau. apply Rmult_le_pos; [|exact He]. pose proof (HP i Hi). pose proof (pos_INR n). apply Rmult_le_pos; [lra|apply pow_le; lra].
Qed.
Lemma row_err key j (a b : nat -> carrier S) c i : (i < n)%nat -> (j <= n)%nat -> fin (div S (@subn S key j c (fun t => mul S (a t) (b t))) (F i i)) ->
  let y := v (div S (@subn S key j c (fun t => mul S (a t) (b t))) (F i i)) in
  Rabs (rsum j (fun t => v (a t) * v (b t)) + y * v (F i i) - v c) <= g * (rsum j (fun t => Rabs (v (a t) * v (b t))) + Rabs (y * v (F i i))) + tau i.
Proof.
  intros Hi Hj Fy y. pose proof (sm_u M) as Hu. pose proof (sm_eta M) as He. destruct g_facts as (G0 & G2 & _).
  pose proof (off_diag_err S fin v u eta big M key j a b c (F i i) (HF i i ltac:(lia)) (HP i Hi) Fy) as H. cbv zeta in H. fold y in H.
  eapply Rle_trans; [exact H|].
  assert (A1 : gam u (j + 2) * (rsum j (fun t => Rabs (v (a t) * v (b t))) + Rabs (y * v (F i i))) <= g * (rsum j (fun t => Rabs (v (a t) * v (b t))) + Rabs (y * v (F i i)))).
  { apply Rmult_le_compat_r; [|apply G2; lia]. apply Rplus_le_le_0_compat; [apply sum_nonneg; intros|]; apply Rabs_pos. }
  assert (A3 : (INR j + v (F i i)) * (1 + u) ^ (j + 1) * eta <= tau i).
  { unfold tau. apply Rmult_le_compat_r; [exact He|]. pose proof (HP i Hi). pose proof (pos_INR j). assert (INR j <= INR n) by (apply le_INR; lia).
    apply Rmult_le_compat; [lra|apply pow_le; lra|lra|apply Rle_pow; [lra|lia]]. }
  lra.
Qed.

Lemma sum_split i (f : nat -> R) : (i < n)%nat -> rsum n f = rsum i f + f i + rsum (n - 1 - i) (fun t => f (i + 1 + t)%nat).
Proof.
  intros Hi. replace n with (Datatypes.S i + (n - 1 - i))%nat at 1 by lia. rewrite sum_app, sum_S. f_equal. apply sum_ext. intros t Ht. f_equal. lia.
Qed.

Variable a : nat -> carrier S.
Let y := fwd n F a.
Let w := bwd n n (tr F) y.
Hypothesis HW : forall i, (i < n)%nat -> fin (w i).

Lemma y_fin i : (i < n)%nat -> fin (y i).
Proof.
  intros Hi. pose proof (HW i Hi) as H. unfold w in H. rewrite bwd_eqn in H by auto. apply (sm_div M) in H as (H & _). apply (subn_err S fin v u eta big M) in H as (H & _). exact H.
Qed.
Lemma fwd_err i : (i < n)%nat -> Rabs (rsum n (fun t => low i t * v (y t)) - v (a i)) <= g * rsum n (fun t => Rabs (low i t) * Rabs (v (y t))) + tau i.
Proof.
  intros Hi. pose proof (fwd_eqn S n F a i Hi) as E. cbv zeta in E. fold y in E. pose proof (y_fin i Hi) as Fy. rewrite E in Fy.
  pose proof (row_err [2; i]%nat i (F i) y (a i) i Hi ltac:(lia) Fy) as H. cbv zeta in H. rewrite <- E in H.
  assert (Z : forall h : nat -> R, (forall t, (i < t)%nat -> h t = 0) -> rsum (n - 1 - i) (fun t => h (i + 1 + t)%nat) = 0) by (intros h Hh; apply sum_zero; intros; apply Hh; lia).
  rewrite (sum_split i (fun t => low i t * v (y t)) Hi), (sum_split i (fun t => Rabs (low i t) * Rabs (v (y t))) Hi).
  rewrite (Z (fun t => low i t * v (y t))), (Z (fun t => Rabs (low i t) * Rabs (v (y t)))), !Rplus_0_r.
  2,3: intros t Ht; unfold low; destruct (Nat.leb_spec t i); [lia|]; rewrite ?Rabs_R0; ring.
  rewrite (sum_ext i (fun t => low i t * v (y t)) (fun t => v (F i t) * v (y t))) by (intros t Ht; unfold low; destruct (Nat.leb_spec t i); [reflexivity|lia]).
  rewrite (sum_ext i (fun t => Rabs (low i t) * Rabs (v (y t))) (fun t => Rabs (v (F i t) * v (y t)))) by (intros t Ht; unfold low; destruct (Nat.leb_spec t i); [rewrite Rabs_mult; reflexivity|lia]).
  replace (low i i) with (v (F i i)) by (unfold low; rewrite Nat.leb_refl; reflexivity). rewrite <- Rabs_mult.
  rewrite (Rmult_comm (v (F i i)) (v (y i))). exact H.
Qed.
Lemma bwd_err t : (t < n)%nat -> Rabs (rsum n (fun j => low j t * v (w j)) - v (y t)) <= g * rsum n (fun j => Rabs (low j t) * Rabs (v (w j))) + tau t.
Proof.
  intros Ht. pose proof (bwd_eqn S n (tr F) y t Ht) as E. cbv zeta in E. fold w in E. pose proof (HW t Ht) as Fw. rewrite E in Fw. change (tr F t t) with (F t t) in E, Fw.
  pose proof (row_err [3; n; t]%nat (n - 1 - t) (fun k => tr F t (t + 1 + k)%nat) (fun k => w (t + 1 + k)%nat) (y t) t Ht ltac:(lia) Fw) as H. cbv zeta beta in H. rewrite <- E in H.
  assert (Z : forall h : nat -> R, (forall j, (j < t)%nat -> h j = 0) -> rsum t h = 0) by (intros h Hh; apply sum_zero; intros; apply Hh; lia).
  rewrite (sum_split t (fun j => low j t * v (w j)) Ht), (sum_split t (fun j => Rabs (low j t) * Rabs (v (w j))) Ht).
  rewrite (Z (fun j => low j t * v (w j))), (Z (fun j => Rabs (low j t) * Rabs (v (w j)))), !Rplus_0_l.
  2,3: intros j Hj; unfold low; destruct (Nat.leb_spec t j); [lia|]; rewrite ?Rabs_R0; ring.
  rewrite (sum_ext (n - 1 - t) (fun k => low (t + 1 + k) t * v (w (t + 1 + k)%nat)) (fun k => v (tr F t (t + 1 + k)%nat) * v (w (t + 1 + k)%nat))) by (intros k Hk; unfold low, tr; destruct (Nat.leb_spec t (t + 1 + k)); [reflexivity|lia]).
  rewrite (sum_ext (n - 1 - t) (fun k => Rabs (low (t + 1 + k) t) * Rabs (v (w (t + 1 + k)%nat))) (fun k => Rabs (v (tr F t (t + 1 + k)%nat) * v (w (t + 1 + k)%nat)))) by (intros k Hk; unfold low, tr; destruct (Nat.leb_spec t (t + 1 + k)); [rewrite Rabs_mult; reflexivity|lia]).
  replace (low t t) with (v (F t t)) by (unfold low; rewrite Nat.leb_refl; reflexivity). rewrite <- Rabs_mult.
  rewrite (Rmult_comm (v (F t t)) (v (w t))), (Rplus_comm (v (w t) * v (F t t))), (Rplus_comm (Rabs (v (w t) * v (F t t)))). exact H.
Qed.

(** F F^T w is near a *)
Definition absrow (i : nat) : R := rsum n (fun t => Rabs (low i t) * rsum n (fun j => Rabs (low j t) * Rabs (v (w j)))).
Lemma solve_err i : (i < n)%nat ->
  Rabs (rsum n (fun t => low i t * rsum n (fun j => low j t * v (w j))) - v (a i)) <= (2 * g + g * g) * absrow i + tau i + (1 + g) * rsum n (fun t => Rabs (low i t) * tau t).
Proof.
  intros Hi. destruct g_facts as (G0 & _ & T0).
  set (W := fun t => rsum n (fun j => low j t * v (w j))). set (V := fun t => rsum n (fun j => Rabs (low j t) * Rabs (v (w j)))).
  assert (HWV : forall t, Rabs (W t) <= V t).
  { intros t. unfold W, V. eapply Rle_trans; [apply sum_abs_le|]. apply sum_le. intros j Hj. rewrite Rabs_mult. lra. }
  assert (Hy : forall t, (t < n)%nat -> Rabs (v (y t)) <= (1 + g) * V t + tau t).
  { intros t Ht. pose proof (bwd_err t Ht) as H. fold (W t) in H. fold (V t) in H. pose proof (HWV t).
    replace (v (y t)) with (W t - (W t - v (y t))) by ring. eapply Rle_trans; [apply Rabs_triang|]. rewrite Rabs_Ropp. lra. }
  change (rsum n (fun t => low i t * rsum n (fun j => low j t * v (w j)))) with (rsum n (fun t => low i t * W t)).
  replace (rsum n (fun t => low i t * W t) - v (a i)) with ((rsum n (fun t => low i t * v (y t)) - v (a i)) + rsum n (fun t => low i t * (W t - v (y t)))).
  2:{ rewrite (sum_ext n (fun t => low i t * (W t - v (y t))) (fun t => low i t * W t - low i t * v (y t))) by (intros; ring). rewrite sum_minus. ring. }
  eapply Rle_trans; [apply Rabs_triang|].
  assert (B1 : Rabs (rsum n (fun t => low i t * (W t - v (y t)))) <= g * absrow i + rsum n (fun t => Rabs (low i t) * tau t)).
  { eapply Rle_trans; [apply sum_abs_le|]. unfold absrow. rewrite <- sum_scal, <- sum_plus. apply sum_le. intros t Ht. rewrite Rabs_mult.
    pose proof (bwd_err t Ht) as H. fold (W t) in H. fold (V t) in H. fold (V t).
    replace (g * (Rabs (low i t) * V t) + Rabs (low i t) * tau t) with (Rabs (low i t) * (g * V t + tau t)) by ring. apply Rmult_le_compat_l; [apply Rabs_pos|exact H]. }
  assert (B2 : rsum n (fun t => Rabs (low i t) * Rabs (v (y t))) <= (1 + g) * absrow i + rsum n (fun t => Rabs (low i t) * tau t)).
  { unfold absrow. rewrite <- sum_scal, <- sum_plus. apply sum_le. intros t Ht. fold (V t).
    replace ((1 + g) * (Rabs (low i t) * V t) + Rabs (low i t) * tau t) with (Rabs (low i t) * ((1 + g) * V t + tau t)) by ring. apply Rmult_le_compat_l; [apply Rabs_pos|auto]. }
  pose proof (fwd_err i Hi) as B3.
  assert (B4 : g * rsum n (fun t => Rabs (low i t) * Rabs (v (y t))) <= g * ((1 + g) * absrow i + rsum n (fun t => Rabs (low i t) * tau t))) by (apply Rmult_le_compat_l; auto).
  set (Q := rsum n (fun t => Rabs (low i t) * tau t)) in *. set (Aw := absrow i) in *.
  apply Rle_trans with (g * ((1 + g) * Aw + Q) + tau i + (g * Aw + Q)); [lra|right; ring].
Qed.
End Err.

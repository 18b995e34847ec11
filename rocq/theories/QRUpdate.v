(** The Givens update / downdate of the factorisation (C25), exact arithmetic. *)
From Coq Require Import List Arith ZArith Lia Bool Reals Lra FunctionalExtensionality.
From Verif Require Import Base ActiveSet Num Solver LinAlg.
Import ListNotations.
Local Open Scope R_scope.

(** (J^T w)_k *)
Definition tdot (n : nat) (J : rmat) (k : nat) (w : rvec) : R := rsum n (fun a => J a k * w a).
(** (J J^T)_{ab} *)
Definition gram (n : nat) (J : rmat) (a b : nat) : R := rsum n (fun k => J a k * J b k).

(** J^T N = [R; 0] with R upper triangular and invertible, for the [q] normals [N 0 .. N (q-1)] *)
Record qr (n q : nat) (J R : rmat) (N : nat -> rvec) : Prop := {
  qr_le : (q <= n)%nat;
  qr_up : forall k i, (k < q)%nat -> (i <= k)%nat -> tdot n J i (N k) = R i k;
  qr_zero : forall k i, (k < q)%nat -> (k < i)%nat -> (i < n)%nat -> tdot n J i (N k) = 0;
  qr_diag : forall k, (k < q)%nat -> R k k <> 0
}.

Lemma tdot_rot n J i g w k :
  tdot n (rot_cols J i g) k w
  = if (k =? i)%nat then gc g * tdot n J i w - gs g * tdot n J (S i) w
    else if (k =? S i)%nat then gs g * tdot n J i w + gc g * tdot n J (S i) w
    else tdot n J k w.
Proof. apply rot_cols_tdot. Qed.

Lemma tdot_ext n J J' k w w' : (forall a, (a < n)%nat -> J a k = J' a k) ->
  (forall a, (a < n)%nat -> w a = w' a) -> tdot n J k w = tdot n J' k w'.
Proof. intros H1 H2. apply sum_ext. intros a Ha. rewrite H1, H2 by auto. auto. Qed.

Lemma rot_cols_other (J : rmat) i g a k : k <> i -> k <> S i -> rot_cols J i g a k = J a k.
Proof. intros H1 H2. unfold rot_cols. destruct (Nat.eqb_spec k i), (Nat.eqb_spec k (S i)); try lia. auto. Qed.

Lemma add_loop_spec cnt : forall n q d J (w : rvec) d' J', (q + cnt < n)%nat ->
  (forall j, (j <= q + cnt)%nat -> d j = tdot n J j w) ->
  (forall j, (q + cnt < j)%nat -> (j < n)%nat -> tdot n J j w = 0) ->
  @add_loop Rops n cnt (q + cnt - 1) d J = (d', J') ->
  (forall j, (j <= q)%nat -> d' j = tdot n J' j w) /\
  (forall j, (q < j)%nat -> (j < n)%nat -> tdot n J' j w = 0) /\
  (forall a k, (k < q)%nat -> J' a k = J a k) /\
  (forall a b, gram n J' a b = gram n J a b) /\
  (forall v, (forall j, (q <= j)%nat -> (j < n)%nat -> tdot n J j v = 0) ->
             (forall j, (q <= j)%nat -> (j < n)%nat -> tdot n J' j v = 0)) /\
  d' q * d' q = rsum (S cnt) (fun t => d (q + t)%nat * d (q + t)%nat) /\
  (forall j, (j < q)%nat -> d' j = d j).
Proof.
  induction cnt as [|c IH]; intros n q d J w d' J' Hn Hd Hz E.
  - cbn [add_loop] in E. injection E as <- <-. rewrite Nat.add_0_r in *.
    repeat split; auto.
    rewrite sum_S, sum_0, Nat.add_0_r. lra.
  - cbn [add_loop] in E. replace (q + S c - 1)%nat with (q + c)%nat in E by lia.
    destruct (@makeGivens Rops (d (q + c)%nat) (d (S (q + c)))) as [g rr] eqn:EG.
    pose proof (givens_norm _ _ _ _ EG) as Hnorm.
    apply makeGivens_spec in EG as (G1 & G2 & G3).
    rewrite vm_id, mm_id in E.
    assert (Hp : d (q + c)%nat = tdot n J (q + c) w) by (apply Hd; lia).
    assert (Hq : d (S (q + c)) = tdot n J (S (q + c)) w) by (apply Hd; lia).
    apply IH with (w := w) in E as (E1 & E2 & E3 & E4 & E5 & E6 & E7); clear IH.
    + repeat split; auto.
      * intros a k Hk. rewrite E3 by auto. apply rot_cols_other; lia.
      * intros a b. rewrite E4. apply rot_cols_gram; auto. lia.
      * intros v Hv. apply E5. intros j Hj1 Hj2. rewrite tdot_rot.
        destruct (Nat.eqb_spec j (q + c)); [rewrite !Hv by lia; lra|].
        destruct (Nat.eqb_spec j (S (q + c))); [rewrite !Hv by lia; lra|]. apply Hv; auto.
      * rewrite E6. rewrite (sum_S (S c)).
        rewrite (sum_S c). rewrite (sum_S c (fun t => d (q + t)%nat * d (q + t)%nat)).
        unfold upd. rewrite Nat.eqb_refl. rewrite Hnorm.
        rewrite (sum_ext c _ (fun t => d (q + t)%nat * d (q + t)%nat)).
        -- replace (q + S c)%nat with (S (q + c)) by lia. lra.
        -- intros t Ht. destruct (Nat.eqb_spec (q + t) (q + c)); [lia|]. auto.
      * intros j Hj. rewrite E7 by auto. unfold upd. destruct (Nat.eqb_spec j (q + c)); [lia|]. auto.
    + lia.
    + intros j Hj. rewrite tdot_rot. unfold upd.
      destruct (Nat.eqb_spec j (q + c)) as [->|]; [rewrite <- Hp, <- Hq; lra|].
      destruct (Nat.eqb_spec j (S (q + c))); [lia|]. apply Hd; lia.
    + intros j Hj1 Hj2. rewrite tdot_rot.
      destruct (Nat.eqb_spec j (q + c)); [lia|].
      destruct (Nat.eqb_spec j (S (q + c))) as [->|]; [rewrite <- Hp, <- Hq; lra|]. apply Hz; lia.
Qed.

(** Result of adding the normal [w] as the [q]-th column. *)
Lemma qr_add n q d J R N (w : rvec) d' J' :
  qr n q J R N -> (q < n)%nat ->
  (forall j, (j < n)%nat -> d j = tdot n J j w) ->
  (exists j, (q <= j)%nat /\ (j < n)%nat /\ d j <> 0) ->
  @add_loop Rops n (n - S q) (n - 2) d J = (d', J') ->
  qr n (S q) J' (fun i j => if (j =? q)%nat && (i <? S q)%nat then d' i else R i j)
     (fun k => if (k =? q)%nat then w else N k) /\
  (forall a b, gram n J' a b = gram n J a b).
Proof.
  intros [Q1 Q2 Q3 Q4] Hq Hd (j0 & Hj0 & Hj0n & Hnz) E.
  replace (n - 2)%nat with (q + (n - S q) - 1)%nat in E by lia.
  apply add_loop_spec with (w := w) in E as (E1 & E2 & E3 & E4 & E5 & E6 & E7).
  - split; [|auto]. split.
    + lia.
    + intros k i Hk Hi. destruct (Nat.eqb_spec k q) as [->|Hkq].
      * destruct (Nat.ltb_spec i (S q)); [|lia]. simpl. rewrite E1 by lia. auto.
      * simpl. rewrite <- Q2 by lia. apply tdot_ext; auto. intros. apply E3; lia.
    + intros k i Hk Hi Hin. destruct (Nat.eqb_spec k q) as [->|Hkq].
      * apply E2; auto.
      * destruct (Nat.lt_ge_cases i q).
        -- rewrite (tdot_ext n J' J i (N k) (N k)); auto. apply Q3; auto; lia.
        -- apply E5; auto. intros j Hj1 Hj2. apply Q3; lia.
    + intros k Hk. destruct (Nat.eqb_spec k q) as [->|Hkq]; simpl.
      * destruct (Nat.ltb_spec q (S q)); [|lia]. simpl. intros C.
        rewrite C in E6. assert (E6' : rsum (S (n - S q)) (fun t => d (q + t)%nat * d (q + t)%nat) = 0) by lra.
        apply Hnz. assert (d j0 * d j0 = 0); [|nra].
        replace j0 with (q + (j0 - q))%nat by lia.
        apply (sum_nonneg_zero (S (n - S q)) (fun t => d (q + t)%nat * d (q + t)%nat)); auto; [|lia].
        intros; nra.
      * apply Q4; lia.
  - lia.
  - intros j Hj. apply Hd. lia.
  - intros j Hj1 Hj2. lia.
Qed.

(** ** Downdate *)
Definition shiftN (l : nat) (N : nat -> rvec) : nat -> rvec := fun k => if (k <? l)%nat then N k else N (S k).

(** Invariant at loop index [i]: columns [< i] are final, columns [i+1 .. q] are the old ones. *)
Record rinv (n q l i : nat) (J R : rmat) (N : nat -> rvec) : Prop := {
  ri_up : forall k a, (k < i)%nat -> (a <= k)%nat -> tdot n J a (shiftN l N k) = R a k;
  ri_zero : forall k a, (k < i)%nat -> (k < a)%nat -> (a < n)%nat -> tdot n J a (shiftN l N k) = 0;
  ri_diag : forall k, (k < i)%nat -> R k k <> 0;
  ro_up : forall k a, (i < k)%nat -> (k <= q)%nat -> (a <= k)%nat -> tdot n J a (N k) = R a k;
  ro_zero : forall k a, (i < k)%nat -> (k <= q)%nat -> (k < a)%nat -> (a < n)%nat -> tdot n J a (N k) = 0;
  ro_diag : forall k, (i < k)%nat -> (k <= q)%nat -> R k k <> 0
}.

Lemma rem_step_spec n q l i J R N R' J' :
  (l <= i)%nat -> (i < q)%nat -> (q < n)%nat ->
  rinv n q l i J R N -> @rem_step Rops q i (R, J) = (R', J') ->
  rinv n q l (S i) J' R' N /\ (forall a b, gram n J' a b = gram n J a b).
Proof.
  intros Hl Hi Hq [U Z D OU OZ OD] E. unfold rem_step in E.
  destruct (@makeGivens Rops (R i (S i)) (R (S i) (S i))) as [g rr] eqn:EG.
  pose proof (givens_norm _ _ _ _ EG) as Hnorm.
  apply makeGivens_spec in EG as (G1 & G2 & G3).
  injection E as <- <-.
  assert (HN : shiftN l N i = N (S i)) by (unfold shiftN; destruct (Nat.ltb_spec i l); [lia|auto]).
  assert (Hp : tdot n J i (N (S i)) = R i (S i)) by (apply OU; lia).
  assert (Hq' : tdot n J (S i) (N (S i)) = R (S i) (S i)) by (apply OU; lia).
  split; [|intros; apply rot_cols_gram; auto; lia].
  split.
  - intros k a Hk Ha. rewrite tdot_rot. destruct (Nat.eqb_spec k i) as [->|Hki].
    + rewrite HN. destruct (Nat.eqb_spec a i) as [->|Hai].
      * destruct (Nat.ltb_spec i i); [lia|]. rewrite Hp, Hq'. auto.
      * destruct (Nat.eqb_spec a (S i)); [lia|]. destruct (Nat.ltb_spec a i); [|lia]. apply OU; lia.
    + destruct (Nat.leb_spec (i + 2) k); [lia|]. simpl.
      destruct (Nat.eqb_spec a i); [lia|]. destruct (Nat.eqb_spec a (S i)); [lia|]. apply U; lia.
  - intros k a Hk Ha Han. rewrite tdot_rot. destruct (Nat.eqb_spec k i) as [->|Hki].
    + rewrite HN. destruct (Nat.eqb_spec a i); [lia|].
      destruct (Nat.eqb_spec a (S i)).
      * rewrite Hp, Hq'. auto.
      * apply OZ; lia.
    + destruct (Nat.eqb_spec a i); [rewrite !Z by lia; lra|].
      destruct (Nat.eqb_spec a (S i)); [rewrite !Z by lia; lra|]. apply Z; lia.
  - intros k Hk. destruct (Nat.eqb_spec k i) as [->|Hki].
    + destruct (Nat.ltb_spec i i); [lia|]. intros C. rewrite C in Hnorm.
      apply (OD (S i)); [lia|lia|nra].
    + destruct (Nat.leb_spec (i + 2) k); [lia|]. simpl. apply D. lia.
  - intros k a Hk Hkq Ha. rewrite tdot_rot.
    destruct (Nat.eqb_spec k i); [lia|].
    destruct (Nat.leb_spec (i + 2) k); [|lia]. destruct (Nat.leb_spec k q); [|lia]. simpl.
    destruct (Nat.eqb_spec a i); [rewrite !OU by lia; auto|].
    destruct (Nat.eqb_spec a (S i)); [rewrite !OU by lia; auto|]. apply OU; lia.
  - intros k a Hk Hkq Ha Han. rewrite tdot_rot.
    destruct (Nat.eqb_spec a i); [lia|].
    destruct (Nat.eqb_spec a (S i)); [lia|]. apply OZ; lia.
  - intros k Hk Hkq.
    destruct (Nat.eqb_spec k i); [lia|].
    destruct (Nat.leb_spec (i + 2) k); [|lia]. destruct (Nat.leb_spec k q); [|lia]. simpl.
    destruct (Nat.eqb_spec k (S i)); [lia|]. apply OD; lia.
Qed.

Lemma rem_loop_spec cnt : forall n q l i J R N R' J',
  (l <= i)%nat -> (i + cnt = q)%nat -> (q < n)%nat ->
  rinv n q l i J R N -> @rem_loop Rops n q cnt i (R, J) = (R', J') ->
  rinv n q l q J' R' N /\ (forall a b, gram n J' a b = gram n J a b).
Proof.
  induction cnt as [|c IH]; intros n q l i J R N R' J' Hl Hc Hq HI E.
  - cbn [rem_loop] in E. injection E as <- <-. replace q with i at 2 by lia. auto.
  - cbn [rem_loop] in E. destruct (rem_step q i (R, J)) as [R1 J1] eqn:E1.
    rewrite !mm_id in E.
    apply (rem_step_spec n q l i J R N) in E1 as [HI1 HG1]; auto; [|lia].
    apply (IH n q l (S i) J1 R1 N) in E as [HI2 HG2]; auto; [|lia].
    split; auto. intros. rewrite HG2. auto.
Qed.

Lemma qr_remove n q l J R N R' J' :
  qr n (S q) J R N -> (l <= q)%nat ->
  @rem_loop Rops n q (q - l) l (R, J) = (R', J') ->
  qr n q J' R' (shiftN l N) /\ (forall a b, gram n J' a b = gram n J a b).
Proof.
  intros [Q1 Q2 Q3 Q4] Hl E.
  apply (rem_loop_spec (q - l) n q l l J R N) in E as [[U Z D _ _ _] HG]; try lia.
  - split; auto. split; auto; lia.
  - split; auto.
    + intros k a Hk Ha. unfold shiftN. destruct (Nat.ltb_spec k l); [|lia]. apply Q2; lia.
    + intros k a Hk Ha Han. unfold shiftN. destruct (Nat.ltb_spec k l); [|lia]. apply Q3; lia.
    + intros k Hk. apply Q4; lia.
    + intros k a Hk Hkq Ha. apply Q2; lia.
    + intros k a Hk Hkq Ha Han. apply Q3; lia.
    + intros k Hk Hkq. apply Q4; lia.
Qed.

(** Proofs about the random problem generator. *)
From Coq Require Import List Arith ZArith Lia Bool Reals Lra.
From Verif Require Import Base Num LinAlg TestPb Random.
Import ListNotations.
Local Open Scope R_scope.

(** ** Transpositions *)
Definition tr (i j k : nat) : nat := if (k =? i)%nat then j else if (k =? j)%nat then i else k.
Lemma swap_at {X} i j (f : nat -> X) k : swap i j f k = f (tr i j k).
Proof. unfold swap, tr. destruct (k =? i)%nat; auto. destruct (k =? j)%nat; auto. Qed.
Lemma tr_lt n i j k : (i < n)%nat -> (j < n)%nat -> (k < n)%nat -> (tr i j k < n)%nat.
Proof. unfold tr. destruct (k =? i)%nat; auto. destruct (k =? j)%nat; auto. Qed.
Lemma sum_tr n i j (f : nat -> R) : (i < n)%nat -> (j < n)%nat -> rsum n (fun k => f (tr i j k)) = rsum n f.
Proof.
  intros Hi Hj. destruct (Nat.eq_dec i j) as [->|Hne].
  { apply sum_ext. intros k _. unfold tr. destruct (Nat.eqb_spec k j); subst; auto. }
  rewrite (sum_ext n _ (fun k => f k + ((if (k =? i)%nat then f j - f i else 0) + (if (k =? j)%nat then f i - f j else 0)))).
  - rewrite !sum_plus. rewrite (sum_delta n i (fun _ => f j - f i)), (sum_delta n j (fun _ => f i - f j)) by auto. lra.
  - intros k _. unfold tr. destruct (Nat.eqb_spec k i), (Nat.eqb_spec k j); subst; try lia; lra.
Qed.

(** ** The conditions kept by the shuffles *)
Record gkkt (c : characs) (g : gen) : Prop := {
  gk_stat : forall a, (a < c_nVar c)%nat ->
    rsum (c_nObj c) (fun k => g_A g k a * (rsum (c_nVar c) (fun j => g_A g k j * g_x g j) - g_b g k))
    + rsum (c_nEq c) (fun k => g_E g k a * g_le g k) + rsum (c_nIneq c) (fun k => g_C g k a * g_li g k)
    + (if c_bounds c then g_lb g a else 0) = 0;
  gk_eq : forall k, (k < c_nEq c)%nat -> rsum (c_nVar c) (fun j => g_E g k j * g_x g j) = g_f g k;
  gk_in : forall k, (k < c_nIneq c)%nat -> let v := rsum (c_nVar c) (fun j => g_C g k j * g_x g j) in
    (forall l, g_l g k = Some l -> l <= v) /\ v <= g_u g k /\ (0 < g_li g k -> v = g_u g k) /\ (g_li g k < 0 -> g_l g k = Some v);
  gk_bd : c_bounds c = true -> forall a, (a < c_nVar c)%nat ->
    g_xl g a <= g_x g a <= g_xu g a /\ (0 < g_lb g a -> g_x g a = g_xu g a) /\ (g_lb g a < 0 -> g_xl g a = g_x g a)
}.

Lemma swap_cstr_ok c g i j : (i < c_nIneq c)%nat -> (j < c_nIneq c)%nat -> gkkt c g -> gkkt c (swap_cstr i j g).
Proof.
  intros Hi Hj [H1 H2 H3 H4]. split; cbn [swap_cstr g_A g_b g_E g_f g_C g_l g_u g_xl g_xu g_x g_le g_li g_lb]; auto.
  - intros a Ha. eapply eq_trans; [|exact (H1 a Ha)]. f_equal. f_equal.
    rewrite <- (sum_tr _ i j (fun k => g_C g k a * g_li g k)) by auto. apply sum_ext. intros k _. rewrite !swap_at. reflexivity.
  - intros k Hk. rewrite !swap_at. apply H3. apply tr_lt; auto.
Qed.
Lemma swap_var_ok c g i j : c_bounds c = true -> (i < c_nVar c)%nat -> (j < c_nVar c)%nat -> gkkt c g -> gkkt c (swap_var i j g).
Proof.
  intros Hb Hi Hj [H1 H2 H3 H4].
  assert (HS : forall w : rvec, rsum (c_nVar c) (fun b => swap i j w b * swap i j (g_x g) b) = rsum (c_nVar c) (fun b => w b * g_x g b)).
  { intros w. rewrite <- (sum_tr _ i j (fun b => w b * g_x g b)) by auto. apply sum_ext. intros b _. rewrite !swap_at. reflexivity. }
  split; cbn [swap_var g_A g_b g_E g_f g_C g_l g_u g_xl g_xu g_x g_le g_li g_lb].
  - intros a Ha. rewrite Hb. rewrite !swap_at. specialize (H1 (tr i j a) (tr_lt _ i j a Hi Hj Ha)). rewrite Hb in H1. eapply eq_trans; [|exact H1].
    f_equal. f_equal; [f_equal|]; apply sum_ext; intros k _; rewrite swap_at; [rewrite HS|..]; reflexivity.
  - intros k Hk. rewrite HS. auto.
  - intros k Hk. rewrite HS. apply H3. auto.
  - intros _ a Ha. rewrite !swap_at. apply H4; auto. apply tr_lt; auto.
Qed.
Lemma shuffle_ok c sw js N : (forall i j g, (i < N)%nat -> (j < N)%nat -> gkkt c g -> gkkt c (sw i j g)) ->
  forall k g g', (k < N \/ k = 0)%nat -> gkkt c g -> shuffle sw js k g = Ok g' -> gkkt c g'.
Proof.
  intros HS. induction k as [|k IH]; intros g g' Hk HG; cbn [shuffle].
  - intros E. injection E as <-. auto.
  - destruct (Nat.leb_spec (js (S k)) (S k)) as [Hj|]; [|discriminate]. cbn [guard]. apply IH; [lia|]. apply HS; auto; lia.
Qed.
Lemma shuffle_total sw js : (forall i, (js i <= i)%nat) -> forall k g, exists g', shuffle sw js k g = Ok g'.
Proof.
  intros H. induction k as [|k IH]; intros g; cbn [shuffle]; [eauto|]. rewrite (proj2 (Nat.leb_le _ _) (H (S k))). cbn [guard]. apply IH.
Qed.

(** ** Steps 2 to 5 *)
(** What step 1 is meant to achieve *)
Definition null1 (c : characs) (A Ca : rmat) (red : rvec) : Prop := forall a, (a < c_nVar c)%nat ->
  rsum (c_nObj c) (fun k => A k a * red k) + rsum (c_nEq c + c_nSI c) (fun k => Ca k a * red (c_nObj c + k)%nat)
  + (if (a <? c_nSB c)%nat then red (c_nObj c + c_nEq c + c_nSI c + a)%nat else 0) = 0.

Lemma step_two_null c A Ca red : null1 c A Ca red -> null1 c A (step_two_Ca c Ca red) (step_two_red c red).
Proof.
  intros H a Ha. eapply eq_trans; [|exact (H a Ha)]. unfold step_two_red. f_equal; [f_equal|].
  - apply sum_ext. intros k Hk. destruct (Nat.leb_spec (c_nObj c) k); [lia|]. reflexivity.
  - apply sum_ext. intros k Hk. destruct (Nat.leb_spec (c_nObj c) (c_nObj c + k)); [|lia]. cbn [andb].
    replace (c_nObj c + k - c_nObj c)%nat with k by lia. unfold step_two_Ca. destruct (flip c red k); ring.
  - destruct (a <? c_nSB c)%nat; auto. destruct (_ <=? _)%nat; auto. cbn [andb]. unfold flip.
    replace (c_nObj c + c_nEq c + c_nSI c + a - c_nObj c)%nat with (c_nEq c + c_nSI c + a)%nat by lia.
    destruct (Nat.ltb_spec (c_nEq c + c_nSI c + a) (c_nEq c + c_nSI c)); [lia|]. rewrite !andb_false_r. cbn [andb]. reflexivity.
Qed.
Lemma step_two_sign c red i : c_double c = false -> (i < c_nSI c)%nat -> 0 <= step_two_red c red (c_nObj c + c_nEq c + i)%nat.
Proof.
  intros Hd Hi. unfold step_two_red. destruct (Nat.leb_spec (c_nObj c) (c_nObj c + c_nEq c + i)); [|lia]. cbn [andb].
  replace (c_nObj c + c_nEq c + i - c_nObj c)%nat with (c_nEq c + i)%nat by lia. unfold flip. rewrite Hd.
  destruct (Nat.leb_spec (c_nEq c) (c_nEq c + i)); [|lia]. destruct (Nat.ltb_spec (c_nEq c + i) (c_nEq c + c_nSI c)); [|lia]. cbn [andb negb].
  replace (c_nObj c + (c_nEq c + i))%nat with (c_nObj c + c_nEq c + i)%nat by lia. destruct (Rltb_spec (red (c_nObj c + c_nEq c + i)%nat) 0); lra.
Qed.

Lemma step_five_ok d c A Ca C red : check c = true -> null1 c A Ca red ->
  (c_double c = false -> forall i, (i < c_nSI c)%nat -> 0 <= red (c_nObj c + c_nEq c + i)%nat) ->
  (c_double c = true -> forall i, (c_nSI c <= i < c_nSI c + c_nWI c)%nat -> Rabs (d_ru d i) < Rabs (d_rl d i)) ->
  (forall i j, (i < c_nSI c)%nat -> C i j = Ca (c_nEq c + i)%nat j) ->
  gkkt c (step_five d c A Ca C red).
Proof.
  intros Hc HN Hs Hw HC. unfold check in Hc. rewrite !andb_true_iff, !Nat.leb_le in Hc. destruct Hc as ((((((C1 & C2) & C3) & C4) & C5) & C6) & C7).
  set (li := fun i => if (i <? c_nSI c)%nat then red (c_nObj c + c_nEq c + i)%nat else 0).
  set (neg := fun i => c_double c && (c_nSI c <=? i)%nat && (i <? c_nSI c + c_nWI c)%nat && negb (Rltb (Rabs (d_ru d i)) (Rabs (d_rl d i)))).
  assert (Hneg : forall i, neg i = false).
  { intros i. unfold neg. destruct (c_double c) eqn:Ed; auto. destruct (Nat.leb_spec (c_nSI c) i); auto. destruct (Nat.ltb_spec i (c_nSI c + c_nWI c)); auto.
    destruct (Rltb_spec (Rabs (d_ru d i)) (Rabs (d_rl d i))); auto. exfalso. specialize (Hw eq_refl i ltac:(lia)). lra. }
  assert (HCC : forall i j, (if neg i then - C i j else C i j) = C i j) by (intros i j; rewrite Hneg; auto).
  split; cbn [step_five g_A g_b g_E g_f g_C g_l g_u g_xl g_xu g_x g_le g_li g_lb].
  - intros a Ha. specialize (HN a Ha). eapply eq_trans; [|exact HN]. clear HN. rewrite sum_app.
    replace (c_nIneq c) with (c_nSI c + (c_nIneq c - c_nSI c))%nat by lia. rewrite (sum_app (c_nSI c)).
    rewrite (sum_zero (c_nIneq c - c_nSI c)).
    2:{ intros i Hi. destruct (Nat.ltb_spec (c_nSI c + i) (c_nSI c)); [lia|]. ring. }
    rewrite (sum_ext (c_nSI c) _ (fun i => Ca (c_nEq c + i)%nat a * red (c_nObj c + (c_nEq c + i))%nat)).
    2:{ intros i Hi. fold (neg i). rewrite HCC, HC by auto. destruct (Nat.ltb_spec i (c_nSI c)); [|lia]. f_equal. f_equal. lia. }
    rewrite (sum_ext (c_nObj c) _ (fun k => A k a * red k)).
    2:{ intros k Hk. ring. }
    destruct (c_bounds c).
    + ring.
    + apply andb_prop in C4 as [C4 _]. apply Nat.eqb_eq in C4. rewrite C4. cbn [Nat.ltb Nat.leb]. ring.
  - intros k Hk. reflexivity.
  - intros k Hk. cbv zeta. fold (neg k). rewrite Hneg. set (v := rsum (c_nVar c) (fun j => C k j * d_x d j)).
    fold (li k). pose proof (Rabs_pos (d_rl d k)). pose proof (Rabs_pos (d_ru d k)).
    assert (Hl0 : (c_nSI c <= k)%nat -> li k = 0) by (intros Hk'; unfold li; destruct (Nat.ltb_spec k (c_nSI c)); [lia|auto]).
    destruct (c_double c) eqn:Ed.
    + destruct (Nat.ltb_spec k (c_nSI c)) as [K1|K1].
      * destruct (Rltb_spec 0 (li k)).
        -- split; [intros l E; injection E as <-; lra|]. split; [lra|]. split; auto. lra.
        -- split; [intros l E; injection E as <-; lra|]. split; [lra|]. split; [lra|]. auto.
      * rewrite (Hl0 K1). destruct (Nat.ltb_spec k (c_nSI c + c_nWI c)) as [K2|K2].
        -- destruct (Rltb_spec (Rabs (d_ru d k)) (Rabs (d_rl d k))) as [K3|K3]; [|exfalso; apply K3; apply Hw; auto].
           split; [intros l E; injection E as <-; lra|]. split; [lra|]. split; lra.
        -- split; [intros l E; injection E as <-; lra|]. split; [lra|]. split; lra.
    + split; [discriminate|]. destruct (Nat.ltb_spec k (c_nSI c)) as [K1|K1].
      * assert (0 <= li k) by (unfold li; destruct (Nat.ltb_spec k (c_nSI c)); [apply Hs; auto|lra]).
        destruct (Nat.ltb_spec k (c_nSI c + c_nWI c)); [|lia]. split; [lra|]. split; auto. lra.
      * rewrite (Hl0 K1). pose proof (Rabs_pos (d_us d (k - c_nSI c - c_nWI c)%nat)).
        destruct (Nat.ltb_spec k (c_nSI c + c_nWI c)); (split; [lra|]; split; lra).
  - intros Hb a Ha. pose proof (Rabs_pos (d_r d a)). pose proof (Rabs_pos (d_bl d (a - c_nSB c - c_nWB c)%nat)). pose proof (Rabs_pos (d_bu d (a - c_nSB c - c_nWB c)%nat)).
    destruct (Nat.ltb_spec a (c_nSB c)).
    + destruct (Rltb_spec 0 (red (c_nObj c + c_nEq c + c_nSI c + a)%nat)); (split; [lra|]; split; lra).
    + destruct (Nat.ltb_spec a (c_nSB c + c_nWB c)); [destruct (Rltb_spec 0 (d_r d a))|]; (split; [lra|]; split; lra).
Qed.

(** The generator as a whole. *)
From Coq Require Import List Arith ZArith Lia Bool Reals Lra.
From Verif Require Import Base Num LinAlg TestPb Random RandomProofs RandomRank.
Import ListNotations.
Local Open Scope R_scope.

(** ** Step 1 *)
Lemma stack_null c A Ca red : (forall a, (a < c_nVar c)%nat ->
    rsum (c_nObj c + nstrong c) (fun i => stack (c_nObj c) A (set_bounds c Ca) i a * red i) = 0) ->
  null1 c A (set_bounds c Ca) red.
Proof.
  intros H a Ha. eapply eq_trans; [|exact (H a Ha)]. unfold nstrong. rewrite !sum_app, Rplus_assoc. f_equal.
  - apply sum_ext. intros k Hk. unfold stack. destruct (Nat.ltb_spec k (c_nObj c)); [reflexivity|lia].
  - f_equal.
    + f_equal; apply sum_ext; intros k Hk; unfold stack.
      * destruct (Nat.ltb_spec (c_nObj c + k) (c_nObj c)); [lia|]. replace (c_nObj c + k - c_nObj c)%nat with k by lia. reflexivity.
      * destruct (Nat.ltb_spec (c_nObj c + (c_nEq c + k)) (c_nObj c)); [lia|].
        replace (c_nObj c + (c_nEq c + k) - c_nObj c)%nat with (c_nEq c + k)%nat by lia. reflexivity.
    + rewrite (sum_ext (c_nSB c) _ (fun k => if (k =? a)%nat then red (c_nObj c + c_nEq c + c_nSI c + k)%nat else 0)).
      * destruct (Nat.ltb_spec a (c_nSB c)); [rewrite sum_delta; auto|]. symmetry. apply sum_zero. intros k Hk. destruct (Nat.eqb_spec k a); [lia|auto].
      * intros k Hk. unfold stack, set_bounds. destruct (Nat.ltb_spec (c_nObj c + (c_nEq c + c_nSI c + k)) (c_nObj c)); [lia|].
        destruct (Nat.ltb_spec (c_nObj c + (c_nEq c + c_nSI c + k) - c_nObj c) (c_nEq c + c_nSI c)); [lia|].
        replace (c_nObj c + (c_nEq c + c_nSI c + k) - c_nObj c - (c_nEq c + c_nSI c))%nat with k by lia.
        replace (c_nObj c + c_nEq c + c_nSI c + k)%nat with (c_nObj c + (c_nEq c + c_nSI c + k))%nat by lia. destruct (k =? a)%nat; ring.
Qed.

(** The matrix [A; Ca] whose left null space the multipliers are taken from *)
Definition tall (d : draws) (c : characs) : rmat := stack (c_nObj c) (d_A d) (set_bounds c (d_Ca d)).

Lemma check_facts c : check c = true -> (c_nObj c <= c_nVar c)%nat /\ (c_nSI c + c_nWI c <= c_nIneq c)%nat /\
  (c_bounds c = true -> c_nSB c + c_nWB c <= c_nVar c)%nat /\ (c_bounds c = false -> c_nSB c = 0 /\ c_nWB c = 0)%nat /\
  (nstrong c <= c_nVar c)%nat /\ (c_rankObj c <= c_nObj c)%nat /\ (c_shared c <= c_rankObj c)%nat.
Proof.
  unfold check. rewrite !andb_true_iff, !Nat.leb_le. intros ((((((C1 & C2) & C3) & C4) & C5) & C6) & C7). unfold nstrong.
  do 2 (split; [assumption|]). destruct (c_bounds c).
  - apply Nat.leb_le in C4. repeat split; auto; discriminate.
  - apply andb_prop in C4 as [C4 C4']. apply Nat.eqb_eq in C4. apply Nat.eqb_eq in C4'. repeat split; auto; discriminate.
Qed.

Lemma step_one_wide qr d c : check c = true -> (0 < c_nObj c)%nat -> (0 < nstrong c)%nat -> (c_shared c <= nstrong c)%nat ->
  let n := c_nVar c in let cols := (c_nObj c + nstrong c)%nat in (n < cols)%nat ->
  let M := fun i j => tall d c j i in is_cpqr n cols M (qr n cols M) -> has_rank n cols M (rankA c) ->
  exists red, step_one qr d c = Ok (d_A d, set_bounds c (d_Ca d), red) /\ null1 c (d_A d) (set_bounds c (d_Ca d)) red.
Proof.
  intros Hc Hobj Hns Hsh n cols Hw M HF HR. apply check_facts in Hc as (C1 & C3 & _ & _ & C5 & C6 & C7).
  unfold step_one. destruct (Nat.eqb_spec (c_nObj c) 0); [lia|]. destruct (Nat.eqb_spec (nstrong c) 0); [lia|].
  fold n. fold cols. destruct (Nat.ltb_spec n cols); [|lia].
  set (rk := rankA c) in *.
  assert (Hrk : (rk <= n /\ c_rankObj c <= rk /\ nstrong c <= rk /\ rk <= c_rankObj c + nstrong c)%nat).
  { unfold rk, rankA. cbv zeta. fold n. destruct (Nat.ltb_spec n (c_rankObj c + nstrong c - c_shared c)); unfold n in *; lia. }
  destruct Hrk as (K1 & K2 & K3 & K4).
  assert (Hdep : dep_ok n (c_nObj c) (c_rankObj c) (nstrong c) (nstrong c) rk = true).
  { unfold dep_ok. rewrite !andb_true_iff, !Nat.leb_le. unfold n in *. lia. }
  rewrite Hdep. cbn [guard].
  change (fun i j : nat => stack (c_nObj c) (d_A d) (set_bounds c (d_Ca d)) j i) with M. set (f := qr n cols M) in *.
  eexists. split; [reflexivity|]. apply stack_null. fold cols. intros a Ha.
  destruct (cp_perm _ _ _ _ HF) as (Hp & _).
  destruct (reveals n cols M f HF rk HR K1 ltac:(lia)) as [Hd Hz].
  rewrite (apply_perm_sum cols (f_p f)) by auto.
  match goal with |- rsum cols (fun j => _ * ?w) = 0 => set (red := fun j : nat => w) end.
  eapply eq_trans; [exact (cp_mul n cols M f HF red a Ha)|]. apply sum_zero. intros k Hk.
  enough (E : rsum cols (fun j => f_R f k j * red j) = 0) by (rewrite E; ring).
  destruct (Nat.lt_ge_cases k rk) as [Hkr|Hkr].
  - replace cols with (rk + (cols - rk))%nat by lia. rewrite sum_app.
    set (u0 := fun i : nat => - rsum (cols - rk) (fun k0 : nat => f_R f i (rk + k0)%nat * d_v d k0)).
    assert (E1 : rsum rk (fun j => f_R f k j * red j) = u0 k).
    { rewrite <- (bwd_correct rk (f_R f) u0 Hd k Hkr). apply sum_ext. intros j Hj. unfold upper.
      assert (Er : red j = @bwd Rops rk rk (f_R f) u0 j) by (unfold red; destruct (Nat.ltb_spec j rk); [reflexivity|lia]).
      rewrite Er. destruct (Nat.leb_spec k j); auto. rewrite (cp_upper _ _ _ _ HF) by lia. reflexivity. }
    rewrite E1. unfold u0. rewrite (sum_ext (cols - rk) (fun i => f_R f k (rk + i)%nat * red (rk + i)%nat) (fun k0 => f_R f k (rk + k0)%nat * d_v d k0)); [ring|].
    intros j Hj. unfold red. destruct (Nat.ltb_spec (rk + j) rk); [lia|]. replace (rk + j - rk)%nat with j by lia. reflexivity.
  - apply sum_zero. intros j Hj. rewrite Hz by (auto; lia). ring.
Qed.

(** Sum of the columns of Q from [st] on, weighted by [v] *)
Lemma step_one_square qr d c : check c = true -> (0 < c_nObj c)%nat -> (0 < nstrong c)%nat -> (c_shared c <= nstrong c)%nat ->
  let n := c_nVar c in (c_nObj c + nstrong c)%nat = n ->
  let M := tall d c in is_cpqr n n M (qr n n M) -> has_rank n n M (rankB c) ->
  exists red, step_one qr d c = Ok (d_A d, set_bounds c (d_Ca d), red) /\ null1 c (d_A d) (set_bounds c (d_Ca d)) red.
Proof.
  intros Hc Hobj Hns Hsh n Hw M HF HR. apply check_facts in Hc as (C1 & C3 & _ & _ & C5 & C6 & C7).
  unfold step_one. destruct (Nat.eqb_spec (c_nObj c) 0); [lia|]. destruct (Nat.eqb_spec (nstrong c) 0); [lia|].
  fold n. rewrite Hw. rewrite Nat.ltb_irrefl.
  set (rk := rankB c) in *.
  assert (Hrk : (rk < n /\ c_rankObj c <= rk /\ nstrong c <= rk /\ rk <= c_rankObj c + nstrong c)%nat).
  { unfold rk, rankB. cbv zeta. fold n. destruct (Nat.eqb_spec (c_rankObj c + nstrong c - c_shared c) n); unfold n in *; lia. }
  destruct Hrk as (K1 & K2 & K3 & K4).
  assert (Hdep : dep_ok n (c_nObj c) (c_rankObj c) (nstrong c) (nstrong c) rk = true).
  { unfold dep_ok. rewrite !andb_true_iff, !Nat.leb_le. unfold n in *. lia. }
  rewrite Hdep. cbn [guard]. destruct (Nat.leb_spec (n - rk) n); [|lia]. cbn [guard].
  change (stack (c_nObj c) (d_A d) (set_bounds c (d_Ca d))) with M. set (f := qr n n M) in *.
  eexists. split; [reflexivity|]. apply stack_null. rewrite Hw. intros a Ha.
  destruct (cp_perm _ _ _ _ HF) as (Hp & pi & Hpi).
  destruct (reveals n n M f HF rk HR ltac:(lia) ltac:(lia)) as [Hd Hz].
  change (stack (c_nObj c) (d_A d) (set_bounds c (d_Ca d))) with M.
  rewrite (sum_ext n _ (fun i => rsum (n - rk) (fun k => M i a * f_Q f i (rk + k)%nat * d_v d k))).
  2:{ intros i Hi. rewrite <- sum_scal. apply sum_ext. intros k Hk. replace (n - (n - rk) + k)%nat with (rk + k)%nat by lia. ring. }
  rewrite sum_swap. apply sum_zero. intros k Hk. rewrite sum_scal_r.
  enough (E : rsum n (fun i => M i a * f_Q f i (rk + k)%nat) = 0) by (rewrite E; ring).
  destruct (Hpi a Ha) as (P1 & P2 & P3).
  rewrite (sum_ext n _ (fun i => rsum n (fun l => f_R f l (pi a) * (f_Q f i l * f_Q f i (rk + k)%nat)))).
  - rewrite sum_swap. rewrite (sum_ext n _ (fun l => if (l =? rk + k)%nat then f_R f l (pi a) else 0)).
    + rewrite sum_delta by lia. apply Hz; auto. lia.
    + intros l Hl. rewrite sum_scal, (cp_orth _ _ _ _ HF) by lia. destruct (l =? rk + k)%nat; ring.
  - intros i Hi. rewrite <- P2 at 1. rewrite (cp_prod _ _ _ _ HF) by auto. rewrite <- sum_scal_r. apply sum_ext. intros; ring.
Qed.

Lemma step_one_zero qr d c : (c_nObj c = 0 \/ nstrong c = 0)%nat ->
  exists red, step_one qr d c = Ok (d_A d, d_Ca d, red) /\ (forall i, red i = 0).
Proof.
  intros H. unfold step_one. destruct (Nat.eqb_spec (c_nObj c) 0); [exists (fun _ => 0); auto|].
  destruct (Nat.eqb_spec (nstrong c) 0); [exists (fun _ => 0); auto|]. lia.
Qed.
Lemma zero_null c A Ca red : (forall i, red i = 0) -> null1 c A Ca red.
Proof.
  intros H a Ha. rewrite !sum_zero by (intros; rewrite H; ring). rewrite H. destruct (_ <? _)%nat; ring.
Qed.

(** ** Stationarity holds exactly when step 1 succeeded *)
Definition gstat (c : characs) (g : gen) : Prop := forall a, (a < c_nVar c)%nat ->
    rsum (c_nObj c) (fun k => g_A g k a * (rsum (c_nVar c) (fun j => g_A g k j * g_x g j) - g_b g k))
    + rsum (c_nEq c) (fun k => g_E g k a * g_le g k) + rsum (c_nIneq c) (fun k => g_C g k a * g_li g k)
    + (if c_bounds c then g_lb g a else 0) = 0.
Lemma stat_cstr c g i j : (i < c_nIneq c)%nat -> (j < c_nIneq c)%nat -> gstat c (swap_cstr i j g) -> gstat c g.
Proof.
  intros Hi Hj H a Ha. eapply eq_trans; [|exact (H a Ha)]. cbn [swap_cstr g_A g_b g_E g_f g_C g_l g_u g_xl g_xu g_x g_le g_li g_lb]. f_equal. f_equal.
  rewrite <- (sum_tr _ i j (fun k => g_C g k a * g_li g k)) by auto. apply sum_ext. intros k _. rewrite !swap_at. reflexivity.
Qed.
Lemma stat_var c g i j : c_bounds c = true -> (i < c_nVar c)%nat -> (j < c_nVar c)%nat -> gstat c (swap_var i j g) -> gstat c g.
Proof.
  intros Hb Hi Hj H a Ha. specialize (H (tr i j a) (tr_lt _ i j a Hi Hj Ha)). eapply eq_trans; [|exact H]. rewrite Hb.
  assert (HS : forall w : rvec, rsum (c_nVar c) (fun b => swap i j w b * swap i j (g_x g) b) = rsum (c_nVar c) (fun b => w b * g_x g b)).
  { intros w. rewrite <- (sum_tr _ i j (fun b => w b * g_x g b)) by auto. apply sum_ext. intros b _. rewrite !swap_at. reflexivity. }
  cbn [swap_var g_A g_b g_E g_f g_C g_l g_u g_xl g_xu g_x g_le g_li g_lb]. rewrite !swap_at, tr_invol.
  f_equal. f_equal; [f_equal|]; apply sum_ext; intros k _; rewrite swap_at, tr_invol; [rewrite HS|..]; reflexivity.
Qed.
Lemma stat_shuffle c sw js N : (forall i j g, (i < N)%nat -> (j < N)%nat -> gstat c (sw i j g) -> gstat c g) ->
  forall k g g', (k < N \/ k = 0)%nat -> shuffle sw js k g = Ok g' -> gstat c g' -> gstat c g.
Proof.
  intros HS. induction k as [|k IH]; intros g g' Hk; cbn [shuffle].
  - intros E. injection E as <-. auto.
  - destruct (Nat.leb_spec (js (S k)) (S k)) as [Hj|]; [|discriminate]. cbn [guard]. intros E HG. apply (HS (S k) (js (S k))); [lia|lia|].
    exact (IH _ _ ltac:(lia) E HG).
Qed.
Lemma stat_five d c A Ca C red : check c = true -> (forall i j, (i < c_nSI c)%nat -> C i j = Ca (c_nEq c + i)%nat j) ->
  gstat c (step_five d c A Ca C red) -> null1 c A Ca red.
Proof.
  intros Hc HC H a Ha. apply check_facts in Hc as (C1 & C3 & C4 & C4' & C5 & C6 & C7). eapply eq_trans; [|exact (H a Ha)].
  cbn [step_five g_A g_b g_E g_f g_C g_l g_u g_xl g_xu g_x g_le g_li g_lb]. rewrite sum_app.
  replace (c_nIneq c) with (c_nSI c + (c_nIneq c - c_nSI c))%nat by lia. rewrite (sum_app (c_nSI c) (c_nIneq c - c_nSI c)).
  rewrite (sum_zero (c_nIneq c - c_nSI c)).
  2:{ intros i Hi. destruct (Nat.ltb_spec (c_nSI c + i) (c_nSI c)); [lia|]. ring. }
  rewrite Rplus_0_r. rewrite (sum_ext (c_nObj c) (fun k => A k a * red k) (fun k => A k a * (rsum (c_nVar c) (fun j => A k j * d_x d j) - (rsum (c_nVar c) (fun j => A k j * d_x d j) - red k)))) by (intros; ring).
  assert (HL : forall X Y Z1 Z2 B1 B2 : R, Z1 = Z2 -> B1 = B2 -> X + (Y + Z1) + B1 = X + Y + Z2 + B2) by (intros; subst; ring).
  apply HL.
  - apply sum_ext. intros i Hi. destruct (Nat.leb_spec (c_nSI c) i); [lia|]. rewrite andb_false_r. cbn [andb].
    rewrite HC by auto. destruct (Nat.ltb_spec i (c_nSI c)); [|lia]. f_equal. f_equal. lia.
  - destruct (c_bounds c).
    + reflexivity.
    + destruct (C4' eq_refl) as [-> _]. reflexivity.
Qed.
Lemma step_two_null_inv c A Ca red : null1 c A (step_two_Ca c Ca red) (step_two_red c red) -> null1 c A Ca red.
Proof.
  intros H a Ha. eapply eq_trans; [|exact (H a Ha)]. unfold step_two_red. f_equal; [f_equal|].
  - apply sum_ext. intros k Hk. destruct (Nat.leb_spec (c_nObj c) k); [lia|]. reflexivity.
  - apply sum_ext. intros k Hk. destruct (Nat.leb_spec (c_nObj c) (c_nObj c + k)); [|lia]. cbn [andb].
    replace (c_nObj c + k - c_nObj c)%nat with k by lia. unfold step_two_Ca. destruct (flip c red k); ring.
  - destruct (a <? c_nSB c)%nat; auto. destruct (_ <=? _)%nat; auto. cbn [andb]. unfold flip.
    replace (c_nObj c + c_nEq c + c_nSI c + a - c_nObj c)%nat with (c_nEq c + c_nSI c + a)%nat by lia.
    destruct (Nat.ltb_spec (c_nEq c + c_nSI c + a) (c_nEq c + c_nSI c)); [lia|]. rewrite !andb_false_r. cbn [andb]. reflexivity.
Qed.
Lemma stack_null_inv c A Ca red : null1 c A (set_bounds c Ca) red -> forall a, (a < c_nVar c)%nat ->
    rsum (c_nObj c + nstrong c) (fun i => stack (c_nObj c) A (set_bounds c Ca) i a * red i) = 0.
Proof.
  intros H a Ha. eapply eq_trans; [|exact (H a Ha)]. unfold nstrong. rewrite !sum_app, <- Rplus_assoc. f_equal; [f_equal|].
  - apply sum_ext. intros k Hk. unfold stack. destruct (Nat.ltb_spec k (c_nObj c)); [reflexivity|lia].
  - f_equal; apply sum_ext; intros k Hk; unfold stack.
      * destruct (Nat.ltb_spec (c_nObj c + k) (c_nObj c)); [lia|]. replace (c_nObj c + k - c_nObj c)%nat with k by lia. reflexivity.
      * destruct (Nat.ltb_spec (c_nObj c + (c_nEq c + k)) (c_nObj c)); [lia|].
        replace (c_nObj c + (c_nEq c + k) - c_nObj c)%nat with (c_nEq c + k)%nat by lia. reflexivity.
  - rewrite (sum_ext (c_nSB c) _ (fun k => if (k =? a)%nat then red (c_nObj c + c_nEq c + c_nSI c + k)%nat else 0)).
      * destruct (Nat.ltb_spec a (c_nSB c)); [rewrite sum_delta; auto|]. apply sum_zero. intros k Hk. destruct (Nat.eqb_spec k a); [lia|auto].
      * intros k Hk. unfold stack, set_bounds. destruct (Nat.ltb_spec (c_nObj c + (c_nEq c + c_nSI c + k)) (c_nObj c)); [lia|].
        destruct (Nat.ltb_spec (c_nObj c + (c_nEq c + c_nSI c + k) - c_nObj c) (c_nEq c + c_nSI c)); [lia|].
        replace (c_nObj c + (c_nEq c + c_nSI c + k) - c_nObj c - (c_nEq c + c_nSI c))%nat with k by lia.
        replace (c_nObj c + c_nEq c + c_nSI c + k)%nat with (c_nObj c + (c_nEq c + c_nSI c + k))%nat by lia. destruct (k =? a)%nat; ring.
Qed.

(** The multipliers of the branch colsTot <= nVar are a combination of columns of Q *)
Lemma tall_branch qr d c A Ca red : (0 < c_nObj c)%nat -> (0 < nstrong c)%nat ->
  let n := c_nVar c in let m := (c_nObj c + nstrong c)%nat in (m <= n)%nat ->
  step_one qr d c = Ok (A, Ca, red) -> let f := qr m n (tall d c) in
  A = d_A d /\ Ca = set_bounds c (d_Ca d) /\ (n - rankB c <= m)%nat /\
  red = (fun i => rsum (n - rankB c) (fun k => f_Q f i (m - (n - rankB c) + k)%nat * d_v d k)).
Proof.
  intros Hobj Hns n m Hle E f. unfold step_one in E. destruct (Nat.eqb_spec (c_nObj c) 0); [lia|]. destruct (Nat.eqb_spec (nstrong c) 0); [lia|].
  fold n in E. fold m in E. destruct (Nat.ltb_spec n m); [lia|]. destruct (dep_ok _ _ _ _ _ _); [|discriminate]. cbn [guard] in E.
  destruct (Nat.leb_spec (n - rankB c) m); [|discriminate]. cbn [guard] in E. injection E as <- <- <-. auto.
Qed.
Lemma tall_nonzero qr d c A Ca red : (0 < c_nObj c)%nat -> (0 < nstrong c)%nat ->
  let n := c_nVar c in let m := (c_nObj c + nstrong c)%nat in (m <= n)%nat ->
  is_cpqr m n (tall d c) (qr m n (tall d c)) -> step_one qr d c = Ok (A, Ca, red) ->
  (exists k, (k < n - rankB c)%nat /\ d_v d k <> 0) -> exists i, (i < m)%nat /\ red i <> 0.
Proof.
  intros Hobj Hns n m Hle HF E (k & Hk & Hv). destruct (tall_branch qr d c A Ca red Hobj Hns Hle E) as (_ & _ & Hb & Er).
  fold n in Hb, Er. fold m in Hb, Er. set (f := qr m n (tall d c)) in *. set (w := (n - rankB c)%nat) in *.
  destruct (find_nonzero m red) as [H|H]; auto. exfalso. apply Hv.
  set (y := fun j => if (j <? m - w)%nat then 0 else d_v d (j - (m - w))%nat).
  assert (Hy : forall j, (j < m)%nat -> y j = 0).
  { apply (cp_cancel m n (tall d c) f HF). intros i Hi. rewrite <- (H i Hi), Er. replace m with ((m - w) + w)%nat at 1 by lia. rewrite sum_app.
    rewrite sum_zero.
    - rewrite Rplus_0_l. apply sum_ext. intros j Hj. unfold y. destruct (Nat.ltb_spec (m - w + j) (m - w)); [lia|]. f_equal. f_equal. lia.
    - intros j Hj. unfold y. destruct (Nat.ltb_spec j (m - w)); [ring|lia]. }
  specialize (Hy (m - w + k)%nat ltac:(lia)). unfold y in Hy. destruct (Nat.ltb_spec (m - w + k) (m - w)); [lia|].
  replace (m - w + k - (m - w))%nat with k in Hy by lia. exact Hy.
Qed.

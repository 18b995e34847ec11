(** The initial state of the box solver satisfies, over the reals, the
    invariants of the dense dual solver for the problem of projecting x0 on
    {xl <= x <= xu, c'x >= bl}. *)
From Coq Require Import List Arith ZArith Lia Bool Reals Lra.
From Verif Require Import Base ActiveSet ActiveSetProofs Num Solver LinAlg QRUpdate QPSpec GIMath GIBase GIInv GIDual GIRun GIOpt GIMult GIInit GISafe GICall GIHist GIFinal GITerm GITotal StructGProofs WarmTotal Box BoxSafe BoxExt.
Import ListNotations.
Local Open Scope R_scope.

Notation rbox := (box_args Rops).

(** min 1/2 x'x - x0'x under the same constraints *)
Definition proj_pb (a : rbox) : rproblem :=
  Pb (idm Rops) (ba_n a) (ba_n a) (fun i => - ba_x0 a i : carrier Rops) (ba_n a)
     (fun i _ => ba_c a i) (ba_csize a) 1%nat (fun _ => ba_bl a) 1%nat (fun _ => None) 1%nat
     (ba_xl a) (ba_xlsize a) (ba_xu a) (ba_xusize a).

Definition dist2 (n : nat) (x y : rvec) : R := rsum n (fun i => (x i - y i) * (x i - y i)).

Lemma proj_same a : same_cstr (box_pb a) (proj_pb a).
Proof. split; reflexivity. Qed.
Lemma proj_sizes a : box_sizes a = true -> sizes_ok (proj_pb a) = true.
Proof. apply (box_sizes_ok Rops a). Qed.

Lemma proj_hess a i j : hess (proj_pb a) i j = if (i =? j)%nat then 1 else 0.
Proof.
  unfold hess, gsym. cbn [p_G proj_pb]. unfold idm. destruct (Nat.leb_spec j i); auto.
  destruct (Nat.eqb_spec i j), (Nat.eqb_spec j i); auto; lia.
Qed.
Lemma proj_hmul a x i : (i < ba_n a)%nat -> rsum (ba_n a) (fun j => hess (proj_pb a) i j * x j) = x i.
Proof.
  intros Hi. rewrite (sum_one (ba_n a) i); auto.
  - rewrite proj_hess, Nat.eqb_refl. rops. ring.
  - intros j Hj Hne. rewrite proj_hess. destruct (Nat.eqb_spec i j); [lia|]. rops. ring.
Qed.
Lemma proj_quad a x : quad (ba_n a) (hess (proj_pb a)) x = rdot (ba_n a) x x.
Proof. unfold quad. rewrite dot_def. apply sum_ext. intros i Hi. rewrite proj_hmul by auto. reflexivity. Qed.
Lemma proj_posdef a : posdef (ba_n a) (hess (proj_pb a)).
Proof.
  intros v (i & Hi & Hne). rewrite proj_quad. pose proof (dot_self_nonneg (ba_n a) v) as [H|H]; auto.
  exfalso. apply Hne. symmetry in H. apply (dot_self_zero _ _ H). auto.
Qed.
Lemma proj_gradient a x i : (i < ba_n a)%nat -> gradient (proj_pb a) x i = x i - ba_x0 a i.
Proof. intros Hi. unfold gradient. change (nv (proj_pb a)) with (ba_n a). rewrite proj_hmul by auto. cbn [p_a proj_pb]. rops. ring. Qed.

Definition off (a : rbox) : R := - (/ 2 * rdot (ba_n a) (ba_x0 a) (ba_x0 a)).
Lemma proj_objective a x : objective (proj_pb a) x = / 2 * dist2 (ba_n a) x (ba_x0 a) + off a.
Proof.
  unfold objective, off. change (nv (proj_pb a)) with (ba_n a). rewrite proj_quad. cbn [p_a proj_pb]. unfold dist2.
  rewrite !dot_def.
  rewrite (sum_ext _ (fun i => (x i - ba_x0 a i) * (x i - ba_x0 a i)) (fun i => (x i * x i + 2 * (- ba_x0 a i * x i)) + ba_x0 a i * ba_x0 a i))
    by (intros; ring).
  rewrite !sum_plus, sum_scal. rops. field.
Qed.

(** ** The initial state *)
Definition bpb (a : rbox) : rproblem := box_pb a.

Lemma ltbR x y : ltb Rops x y = true -> x < y.
Proof. change (ltb Rops x y) with (Rltb x y). destruct (Rltb_spec x y); auto. discriminate. Qed.
Lemma bclamp_lower a i : bkind Rops (bpb a) i = LOWER_BOUND -> exists l, ba_xl a i = Some l /\ ba_x0 a i < l /\ bclamp Rops (bpb a) i = l /\ bmul Rops (bpb a) i = l - ba_x0 a i.
Proof.
  unfold bclamp, bmul. intros E. rewrite E. unfold bkind in E. cbn [p_a p_xl p_xu bpb box_pb] in *.
  destruct (lt_lo (ba_x0 a i) (ba_xl a i)) eqn:El; [|destruct (gt_up _ _); discriminate].
  unfold lt_lo in El. destruct (ba_xl a i) as [l|]; [|discriminate].
  exists l. split; auto. split; auto. apply ltbR. exact El.
Qed.
Lemma bclamp_upper a i : bkind Rops (bpb a) i = UPPER_BOUND -> exists l, ba_xu a i = Some l /\ l < ba_x0 a i /\ bclamp Rops (bpb a) i = l /\ bmul Rops (bpb a) i = ba_x0 a i - l.
Proof.
  unfold bclamp, bmul. intros E. rewrite E. unfold bkind in E. cbn [p_a p_xl p_xu bpb box_pb] in *.
  destruct (lt_lo (ba_x0 a i) (ba_xl a i)); [discriminate|].
  destruct (gt_up (ba_x0 a i) (ba_xu a i)) eqn:El; [|discriminate].
  unfold gt_up in El. destruct (ba_xu a i) as [l|]; [|discriminate].
  exists l. split; auto. split; auto. apply ltbR. exact El.
Qed.
Lemma bclamp_none a i : bkind Rops (bpb a) i = INACTIVE -> bclamp Rops (bpb a) i = ba_x0 a i.
Proof. unfold bclamp. intros E. rewrite E. reflexivity. Qed.

Lemma bcosts_sum a k : bcosts Rops (bpb a) k 0 = / 2 * dist2 k (fun i => bclamp Rops (bpb a) i) (ba_x0 a).
Proof.
  unfold dist2. induction k as [|k IH]; cbn [bcosts].
  - rewrite sum_0. rops. ring.
  - rewrite IH, sum_S. unfold bcost.
    destruct (bkind_cases Rops (bpb a) k) as [E|[E|E]]; rewrite E.
    + destruct (bclamp_lower a k E) as (l & _ & _ & -> & ->). unfold half. rops. field.
    + destruct (bclamp_upper a k E) as (l & _ & _ & -> & ->). unfold half. rops. field.
    + rewrite (bclamp_none a k E). rops. ring.
Qed.

Section Start.
Variables (a : rbox) (s2 s0 : rsol).
Hypothesis Hsz : box_sizes a = true.
Hypothesis H0 : bstart Rops (bpb a) s2 s0.
Notation pb := (proj_pb a).
Notation n := (ba_n a).
Let s1 := addf (off a) s0.

Lemma bs_shape : shape pb s1.
Proof.
  pose proof (bt_sh _ _ _ _ H0) as [Q1 Q2 Q3 Q4 Q5 Q6 Q7 Q8 Q9 Q10 Q11 Q12].
  split; try assumption.
Qed.

Lemma Nact_bound (A : aset) j : (1 <= act A j)%nat -> (act A j <= n)%nat ->
  (stt A (act A j) = LOWER_BOUND \/ stt A (act A j) = UPPER_BOUND) ->
  forall i, Nact pb A j i = (if (i =? act A j - 1)%nat then (match stt A (act A j) with LOWER_BOUND => 1 | _ => -1 end) else 0).
Proof.
  intros H1 H2 H3 i. unfold Nact, nsign, cvec. change (nc pb) with 1%nat.
  destruct (Nat.ltb_spec (act A j) 1); [lia|]. destruct H3 as [-> | ->]; destruct (Nat.eqb_spec i (act A j - 1)); rops; auto; ring.
Qed.

Lemma bstart_finv : finv pb 0 (start s1).
Proof.
  pose proof bs_shape as HS. destruct (bt_b _ _ _ _ H0) as (b & HB & EA & Ex & Eu & EJ & ER).
  change (gn Rops (bpb a)) with n in *.
  pose proof HB as [B1 B2 B3 B4 B5 B6 B7 B8 B9 B10 B11 (col & C1 & C2 & C3 & C4)].
  set (q := bs_q b) in *. set (A := bs_A b) in *.
  assert (EA1 : s_A s1 = A) by exact EA.
  assert (En : s_n s1 = n) by apply HS.
  assert (Hkind : forall j, (j < q)%nat -> stt A (act A j) = bkind Rops (bpb a) (act A j - 1)).
  { intros j Hj. rewrite B6. destruct (B8 j Hj) as [[L1 L2] _]. destruct (Nat.leb_spec 1 (act A j)); [|lia].
    destruct (Nat.ltb_spec (act A j - 1) n); [|lia]. reflexivity. }
  assert (Hk2 : forall j, (j < q)%nat -> stt A (act A j) = LOWER_BOUND \/ stt A (act A j) = UPPER_BOUND).
  { intros j Hj. rewrite Hkind by auto. destruct (B8 j Hj) as [_ Hne]. destruct (bkind_cases Rops (bpb a) (act A j - 1)) as [E|[E|E]]; auto. contradiction. }
  assert (HN : forall j i, (j < q)%nat -> Nact pb A j i = (if (i =? act A j - 1)%nat then (match stt A (act A j) with LOWER_BOUND => 1 | _ => -1 end) else 0)).
  { intros j i Hj. destruct (B8 j Hj) as [[L1 L2] _]. apply Nact_bound; auto. }
  assert (HJ : forall i j, (i < n)%nat -> (j < n)%nat -> Jof s1 i j = if (j =? col i)%nat then 1 else 0).
  { intros i j Hi Hj. unfold Jof. change (w_buf (s_J s1)) with (w_buf (s_J s0)). rewrite En, EJ, view_unview by auto.
    rewrite C1. apply Nat.ltb_lt in Hi. rewrite Hi. reflexivity. }
  assert (HR : forall i j, (i < n)%nat -> (j < n)%nat -> Rof s1 i j = bs_R b i j).
  { intros i j Hi Hj. unfold Rof. change (w_buf (s_R s1)) with (w_buf (s_R s0)). rewrite En, ER, view_unview by auto. reflexivity. }
  assert (Hcoln : forall i, (i < n)%nat -> (col i < n)%nat).
  { intros i Hi. destruct (status_eq_dec (bkind Rops (bpb a) i) INACTIVE) as [Hn|Hn].
    - specialize (C3 i Hi Hn). lia.
    - destruct (B9 i Hi Hn) as (j & Hj & Ej). specialize (C2 j Hj). rewrite Ej in C2. replace (i + 1 - 1)%nat with i in C2 by lia. lia. }
  assert (Hx : forall i, (i < n)%nat -> xof s1 i = bclamp Rops (bpb a) i).
  { intros i Hi. unfold xof. change (s_x s1) with (s_x s0). rewrite Ex. simpl. apply B7. auto. }
  assert (Hu : forall j, (j < q)%nat -> uof s1 j = bmul Rops (bpb a) (act A j - 1)).
  { intros j Hj. unfold uof. change (s_u s1) with (s_u s0). rewrite Eu. simpl. apply B10. auto. }
  assert (Htd : forall j i, (j < q)%nat -> (i < n)%nat -> tdot n (Jof s1) i (Nact pb A j) =
     if (i =? j)%nat then match stt A (act A j) with LOWER_BOUND => 1 | _ => -1 end else 0).
  { intros j i Hj Hi. unfold tdot. destruct (B8 j Hj) as [[L1 L2] _].
    rewrite (sum_one n (act A j - 1)%nat).
    - rewrite HN, Nat.eqb_refl, HJ by (auto; lia). rewrite C2 by auto. destruct (i =? j)%nat; rops; ring.
    - lia.
    - intros k Hk Hne. rewrite HN by auto. destruct (Nat.eqb_spec k (act A j - 1)); [lia|]. rops. ring. }
  assert (Hpos : forall j, (j < q)%nat -> 0 < uof s1 j).
  { intros j Hj. rewrite Hu by auto. destruct (B8 j Hj) as [_ Hne]. destruct (bkind_cases Rops (bpb a) (act A j - 1)) as [E|[E|E]]; [| |contradiction].
    - destruct (bclamp_lower a _ E) as (l & _ & Hl & _ & ->). lra.
    - destruct (bclamp_upper a _ E) as (l & _ & Hl & _ & ->). lra. }
  assert (HnoEq : forall i, isEq (stt A i) = false).
  { intros i. rewrite B6. destruct (_ && _)%bool; auto. destruct (bkind_cases Rops (bpb a) (i - 1)) as [E|[E|E]]; rewrite E; reflexivity. }
  assert (Hq : nact (s_A s1) = q) by (rewrite EA1; exact B4).
  split; cbn [start l_s l_skip l_sc].
  - split; cbn [start l_s l_skip l_sc]; [|discriminate]. split; auto; rewrite ?Hq, ?EA1; change (nv pb) with n.
    + split.
      * exact B5.
      * intros k i Hk Hi. rewrite Htd, HR, B11 by (auto; lia).
        unfold bsgn. rewrite <- Hkind by auto. destruct (i =? k)%nat; auto; destruct (Hk2 k Hk) as [-> | ->]; reflexivity.
      * intros k i Hk Hki Hi. rewrite Htd by auto. destruct (Nat.eqb_spec i k); [lia|]. auto.
      * intros k Hk. rewrite HR, B11, Nat.eqb_refl by (auto; lia). unfold bsgn. rewrite <- Hkind by auto.
        destruct (Hk2 k Hk) as [-> | ->]; rops; lra.
    + intros x y Hxn Hyn. rewrite (proj_hmul a (fun b0 => gram n (Jof s1) b0 y)) by auto. unfold gram. rewrite (sum_one n (col x)); auto.
      * rewrite !HJ by auto. rewrite Nat.eqb_refl. destruct (Nat.eqb_spec x y) as [->|Hne]; [rewrite Nat.eqb_refl; rops; ring|].
        destruct (Nat.eqb_spec (col x) (col y)) as [Ec|]; [|rops; ring]. exfalso. apply Hne. apply C4; auto.
      * intros k Hk Hne. rewrite HJ by auto. destruct (Nat.eqb_spec k (col x)); [lia|]. rops. ring.
    + intros k Hk. destruct (B8 k Hk) as [[L1 L2] Hne]. unfold Bact, nrhs.
      assert (ED : rdot n (Nact pb A k) (xof s1) = match stt A (act A k) with LOWER_BOUND => 1 | _ => -1 end * xof s1 (act A k - 1)%nat).
      { rewrite dot_def, (sum_one n (act A k - 1)%nat); [|lia|].
        - rewrite HN, Nat.eqb_refl by auto. reflexivity.
        - intros i Hi Hne'. rewrite HN by auto. destruct (Nat.eqb_spec i (act A k - 1)); [lia|]. rops. ring. }
      rewrite ED, Hx by lia. rewrite Hkind by auto. unfold clo, cup. change (nc pb) with 1%nat.
      destruct (Nat.ltb_spec (act A k) 1); [lia|]. cbn [p_xl p_xu proj_pb].
      destruct (bkind_cases Rops (bpb a) (act A k - 1)) as [E|[E|E]]; [| |contradiction]; rewrite E.
      * destruct (bclamp_lower a _ E) as (l & El & _ & -> & _). rewrite El. f_equal. rops. ring.
      * destruct (bclamp_upper a _ E) as (l & El & _ & -> & _). rewrite El. simpl. f_equal. rops. ring.
    + intros i Hi He. rewrite HnoEq in He. discriminate.
  - split; [split| |congruence]; rewrite ?Hq, ?EA1; change (nv pb) with n.
    + intros i Hi. rewrite proj_gradient, Hx by auto. rewrite Rplus_0_r.
      destruct (status_eq_dec (bkind Rops (bpb a) i) INACTIVE) as [Hn|Hn].
      * rewrite (bclamp_none a i Hn). rewrite sum_zero; [ring|]. intros k Hk. rewrite HN by auto.
        destruct (Nat.eqb_spec i (act A k - 1)) as [->|]; [|ring]. destruct (B8 k Hk) as [_ Hne]. contradiction.
      * destruct (B9 i Hi Hn) as (j & Hj & Ej). fold A in Ej. fold q in Hj. rewrite (sum_one q j); auto.
        -- rewrite HN, Hu by auto. replace (act A j - 1)%nat with i by lia. rewrite Nat.eqb_refl, Hkind by auto.
           replace (act A j - 1)%nat with i by lia.
           destruct (bkind_cases Rops (bpb a) i) as [E|[E|E]]; [| |contradiction]; rewrite E.
           ++ destruct (bclamp_lower a i E) as (l & _ & _ & -> & ->). ring.
           ++ destruct (bclamp_upper a i E) as (l & _ & _ & -> & ->). ring.
        -- intros k Hk Hne. rewrite HN by auto. destruct (Nat.eqb_spec i (act A k - 1)) as [E|]; [|ring].
           exfalso. apply Hne. apply (act_inj_aset A k j B1); fold A in B4; rewrite ?B4; auto.
           destruct (B8 k Hk) as [[? ?] _]. fold A in H, H1. lia.
    + unfold s1, addf. cbn [s_f set_f]. rewrite (bt_f _ _ _ _ H0). change (gn Rops (bpb a)) with n. change (zero Rops) with 0.
      rewrite bcosts_sum, proj_objective. f_equal. f_equal. unfold dist2. apply sum_ext. intros i Hi. rewrite <- Hx by auto. reflexivity.
    + intros k Hk _. apply Rlt_le. auto.
  - rewrite EA1. split; try (intros; lia).
    intros i He. rewrite HnoEq in He. discriminate.
Qed.
End Start.

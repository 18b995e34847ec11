(** C52: the generator of box-and-single-constraint problems.  Exact arithmetic.
    [in_set], [is_projection] and [clamp] are the specification of PropBox.v,
    stated on the arguments of a call to BoxAndSingleConstraintSolver::solve. *)
From Coq Require Import List Arith ZArith Lia Bool.
From Coq Require Import Reals Lra.
From Verif Require Import Base Num Solver LinAlg QPSpec TestPb PropTest GIHist Box BoxSafe BoxExt BoxProofs BoxSame BoxFinal PropBox BoxGen.
Import ListNotations.
Local Open Scope R_scope.

(** The call made with the generated problem:
    solver.solve(pb.b, pb.C, pb.l[0], pb.xl, pb.xu)
    (tests/BoxAndSingleConstraintSolverTest.cpp:30,42) *)
Definition call_args (pb : lsproblem fcstr) : rbox :=
  @BA Rops (va (lsb pb)) (vn (lsb pb)) (fun i => ma (fC (lsF pb)) i 0) (mr (fC (lsF pb))) (ba (fl (lsF pb)) 0)
     (ba (fxl (lsF pb))) (bn (fxl (lsF pb))) (ba (fxu (lsF pb))) (bn (fxu (lsF pb))).

Lemma gxl_xu d i : gxl d i <= gxu d i.
Proof. unfold gxl, gxu. destruct (Rltb_spec (gd_r1 d i) (gd_r2 d i)); lra. Qed.
Lemma gxb_in d i : gxl d i <= gxb d i <= gxu d i.
Proof. pose proof (gxl_xu d i). unfold gxb. destruct (Rltb_spec (gd_x0 d i) (gxl d i)); [lra|]. destruct (Rltb_spec (gxu d i) (gd_x0 d i)); lra. Qed.
Lemma gsu_in d i : gxl d i <= gsu d i <= gxu d i.
Proof. pose proof (gxl_xu d i). unfold gsu. destruct (Rltb _ _); lra. Qed.
Lemma gsu_max d n y : (forall i, (i < n)%nat -> gxl d i <= y i <= gxu d i) -> rsum n (fun i => gd_c d i * y i) <= rsum n (fun i => gd_c d i * gsu d i).
Proof. intros H. apply sum_le. intros i Hi. specialize (H i Hi). unfold gsu. destruct (Rltb_spec 0 (gd_c d i)); nra. Qed.
Lemma gsl_min d n y : (forall i, (i < n)%nat -> gxl d i <= y i <= gxu d i) -> rsum n (fun i => gd_c d i * gsl d i) <= rsum n (fun i => gd_c d i * y i).
Proof. intros H. apply sum_le. intros i Hi. specialize (H i Hi). unfold gsl. destruct (Rltb_spec 0 (gd_c d i)); nra. Qed.
(** projecting on the box, entry by entry *)
Lemma gxb_closest d i t : gxl d i <= t <= gxu d i ->
  (gxb d i - gd_x0 d i) * (gxb d i - gd_x0 d i) + (t - gxb d i) * (t - gxb d i) <= (t - gd_x0 d i) * (t - gd_x0 d i).
Proof. intros H. unfold gxb. destruct (Rltb_spec (gd_x0 d i) (gxl d i)); [nra|]. destruct (Rltb_spec (gxu d i) (gd_x0 d i)); nra. Qed.

Lemma boxgen_args d n act lvl pb : boxgen d n act lvl = Ok pb ->
  (act = true -> 0 < lvl < 1) /\
  call_args pb = @BA Rops (gd_x0 d) n (gd_c d) n (Some (gb d n act lvl)) (fun i => Some (gxl d i)) n (fun i => Some (gxu d i)) n.
Proof.
  unfold boxgen. intros H. apply guard_ok in H as [Hg H]. injection H as <-. split; [|reflexivity].
  intros ->. cbn [negb orb] in Hg. apply andb_prop in Hg as [H1 H2]. destruct (Rltb_spec 0 lvl); [|discriminate]. destruct (Rltb_spec lvl 1); [lra|discriminate].
Qed.
Lemma in_set_box d n act lvl pb y : boxgen d n act lvl = Ok pb ->
  (in_set (call_args pb) y <-> (forall i, (i < n)%nat -> gxl d i <= y i <= gxu d i) /\ gb d n act lvl <= rsum n (fun i => gd_c d i * y i)).
Proof.
  intros H. destruct (boxgen_args _ _ _ _ _ H) as [_ ->]. unfold in_set. cbn [ba_n ba_xl ba_xu ba_bl ba_c]. split.
  - intros (H1 & H2 & H3). split; [|apply H3; reflexivity]. intros i Hi. split; [apply (H1 i _ Hi eq_refl)|apply (H2 i _ Hi eq_refl)].
  - intros [H1 H2]. split; [|split].
    + intros i l Hi E. injection E as <-. apply H1; auto.
    + intros i l Hi E. injection E as <-. apply H1; auto.
    + intros b E. injection E as <-. exact H2.
Qed.

(** The sizes asked for, an ordered box, and a non-empty set *)
Theorem C52_feasible : forall d n act lvl pb, boxgen d n act lvl = Ok pb ->
  sizes_agree (call_args pb) /\ ba_n (call_args pb) = n /\
  (forall i l u, (i < n)%nat -> ba_xl (call_args pb) i = Some l -> ba_xu (call_args pb) i = Some u -> l <= u) /\
  exists y, in_set (call_args pb) y.
Proof.
  intros d n act lvl pb H. destruct (boxgen_args _ _ _ _ _ H) as [Hl E]. split; [rewrite E; repeat split|]. split; [rewrite E; reflexivity|]. split.
  - rewrite E. cbn [ba_xl ba_xu]. intros i l u _ E1 E2. injection E1 as <-. injection E2 as <-. apply gxl_xu.
  - exists (gsu d). apply (in_set_box _ _ _ _ _ _ H). split; [intros; apply gsu_in|]. unfold gb. cbv zeta. destruct act.
    + specialize (Hl eq_refl). pose proof (gsu_max d n (gxb d) (fun i _ => gxb_in d i)). nra.
    + apply gsl_min. intros; apply gsu_in.
Qed.
(** act = true: the constraint is active at the solution, whatever was drawn *)
Theorem C52_active : forall d n lvl pb x, boxgen d n true lvl = Ok pb -> is_projection (call_args pb) x ->
  ba_bl (call_args pb) = Some (rsum n (fun i => ba_c (call_args pb) i * x i)).
Proof.
  intros d n lvl pb x H [Hin Hmin]. destruct (boxgen_args _ _ _ _ _ H) as [Hl E]. specialize (Hl eq_refl).
  pose proof (proj1 (in_set_box _ _ _ _ _ x H) Hin) as [HB HC]. rewrite E. cbn [ba_bl ba_c]. f_equal. apply Rle_antisym; [exact HC|].
  apply Rnot_lt_le. intros Hlt. set (b := gb d n true lvl) in *. set (cx := rsum n (fun i => gd_c d i * x i)) in *.
  set (d1 := rsum n (fun i => gd_c d i * gxb d i)).
  assert (Hb : d1 <= b).
  { pose proof (gsu_max d n (gxb d) (fun i _ => gxb_in d i)) as M. fold d1 in M. unfold b, gb. cbv zeta. fold d1. nra. }
  set (t := (cx - b) / (cx - d1)). assert (Ht : 0 < t <= 1).
  { unfold t. split; [apply Rdiv_lt_0_compat; lra|]. apply Rmult_le_reg_r with (cx - d1); [lra|]. unfold Rdiv. rewrite Rmult_assoc, Rinv_l by lra. lra. }
  assert (Htc : t * (cx - d1) = cx - b) by (unfold t; field; lra).
  set (z := fun i => x i + t * (gxb d i - x i)).
  assert (Hz : in_set (call_args pb) z).
  { apply (in_set_box _ _ _ _ _ z H). split.
    - intros i Hi. specialize (HB i Hi). pose proof (gxb_in d i). unfold z. nra.
    - assert (Ez : rsum n (fun i => gd_c d i * z i) = cx + t * (d1 - cx)).
      { unfold cx, d1, z. rewrite <- sum_minus, <- sum_scal, <- sum_plus. apply sum_ext. intros. ring. }
      rewrite Ez. fold b. lra. }
  destruct (Hmin z Hz) as [Hm _]. rewrite E in Hm. cbn [ba_n ba_x0] in Hm.
  (* |z - x0|^2 <= |x - x0|^2 - t |x - xb|^2 *)
  assert (Hd : sq_dist n z (gd_x0 d) <= sq_dist n x (gd_x0 d) - t * sq_dist n x (gxb d)).
  { unfold sq_dist. rewrite <- sum_scal, <- sum_minus. apply sum_le. intros i Hi. pose proof (gxb_closest d i (x i) (HB i Hi)) as G. unfold z.
    set (p := gxb d i) in *. set (q := gd_x0 d i) in *. set (v := x i) in *.
    assert (I : (v + t * (p - v) - q) * (v + t * (p - v) - q) = (1 - t) * ((v - q) * (v - q)) + t * ((p - q) * (p - q)) - t * (1 - t) * ((v - p) * (v - p))) by ring.
    rewrite I. assert (0 <= (v - p) * (v - p)) by apply Rle_0_sqr.
    assert (t * ((p - q) * (p - q) + (v - p) * (v - p)) <= t * ((v - q) * (v - q))) by (apply Rmult_le_compat_l; lra).
    assert (0 <= t * (1 - t) * ((v - p) * (v - p))) by (apply Rmult_le_pos; [apply Rmult_le_pos|]; lra). lra. }
  assert (H0 : sq_dist n x (gxb d) = 0).
  { assert (0 <= sq_dist n x (gxb d)) by (apply sum_nonneg; intros; apply Rle_0_sqr). nra. }
  assert (Hxb : forall i, (i < n)%nat -> x i = gxb d i).
  { intros i Hi. unfold sq_dist in H0. pose proof (sum_nonneg_zero n _ (fun i _ => Rle_0_sqr (x i - gxb d i)) H0 i Hi) as Z. cbv beta in Z. apply Rsqr_0_uniq in Z. lra. }
  assert (cx = d1) by (apply sum_ext; intros i Hi; rewrite Hxb by auto; reflexivity). lra.
Qed.
(** act = false: the constraint holds on the whole box, and the solution is x0 clamped *)
Theorem C52_inactive : forall d n lvl pb, boxgen d n false lvl = Ok pb ->
  (forall y, (forall i, (i < n)%nat -> exists l u, ba_xl (call_args pb) i = Some l /\ ba_xu (call_args pb) i = Some u /\ l <= y i <= u) ->
     in_set (call_args pb) y) /\
  forall x, is_projection (call_args pb) x -> forall i, (i < n)%nat ->
    x i = clamp (S:=Rops) (ba_x0 (call_args pb) i) (ba_xl (call_args pb) i) (ba_xu (call_args pb) i).
Proof.
  intros d n lvl pb H. destruct (boxgen_args _ _ _ _ _ H) as [_ E]. split.
  - intros y Hy. apply (in_set_box _ _ _ _ _ y H). rewrite E in Hy. cbn [ba_xl ba_xu] in Hy.
    assert (HB : forall i, (i < n)%nat -> gxl d i <= y i <= gxu d i).
    { intros i Hi. destruct (Hy i Hi) as (l & u & E1 & E2 & Hl). injection E1 as <-. injection E2 as <-. exact Hl. }
    split; auto. unfold gb. apply gsl_min; auto.
  - intros x [Hin Hmin] i Hi. assert (Hb : in_set (call_args pb) (gxb d)).
    { apply (in_set_box _ _ _ _ _ _ H). split; [intros; apply gxb_in|]. unfold gb. apply gsl_min. intros; apply gxb_in. }
    pose proof (proj1 (in_set_box _ _ _ _ _ x H) Hin) as [HB _]. destruct (Hmin _ Hb) as [_ Hu]. rewrite E in Hu |- *. cbn [ba_n ba_x0 ba_xl ba_xu] in Hu |- *.
    symmetry. change (gxb d i = x i). apply Hu; auto. apply sum_le. intros k Hk. pose proof (gxb_closest d k (x k) (HB k Hk)). pose proof (Rle_0_sqr (x k - gxb d k)). unfold Rsqr in *. lra.
Qed.
(** Solving the generated problem: SUCCESS, and the constraint is active *)
Theorem C52_solved : forall d n act lvl pb, boxgen d n act lvl = Ok pb -> entries_not_tiny (call_args pb) ->
  exists B, forall o junk s, B <= o_bigBnd o -> (2 * n + 2 <= o_maxIter o)%nat -> box_history Rops s ->
  exists s' x, box_solve junk (call_args pb) o s = Ok (SUCCESS, s') /\ solution s' = Ok x /\ is_projection (call_args pb) (fun i => nth i x 0) /\
    (act = true -> ba_bl (call_args pb) = Some (rsum n (fun i => ba_c (call_args pb) i * nth i x 0))) /\
    (act = false -> forall i, (i < n)%nat -> nth i x 0 = clamp (S:=Rops) (ba_x0 (call_args pb) i) (ba_xl (call_args pb) i) (ba_xu (call_args pb) i)).
Proof.
  intros d n act lvl pb H HT. destruct (C52_feasible _ _ _ _ _ H) as (Hs & Hn & Ho & y & Hy).
  destruct (data_exists (call_args pb)) as (K & HK & HD). exists (K * (INR (ba_n (call_args pb)) + 3) * 10 ^ 56).
  intros o junk s Hbig Hm HH. destruct (C31_projection (call_args pb) K Hs HT HK HD ltac:(rewrite Hn; exact Ho) o junk s Hbig HH) as (st & s' & E & HA). rewrite Hn in HA.
  destruct HA as [(-> & x & lam & s3 & Ex & _ & _ & _ & HP & _)|[(-> & HI)|(-> & HI)]].
  - exists s', x. split; auto. split; auto. split; auto. split; intros ->.
    + apply (C52_active d n lvl pb _ H HP).
    + apply (proj2 (C52_inactive d n lvl pb H) _ HP).
  - destruct (HI y Hy).
  - lia.
Qed.
(** The asserted range of actLevel *)
Theorem C52_level : forall d n act lvl, (exists pb, boxgen d n act lvl = Ok pb) <-> (act = true -> 0 < lvl < 1).
Proof.
  intros d n act lvl. split.
  - intros (pb & H). apply (boxgen_args _ _ _ _ _ H).
  - intros H. unfold boxgen. destruct act; [|cbn [negb orb guard]; eauto]. specialize (H eq_refl).
    destruct (Rltb_spec 0 lvl); [|lra]. destruct (Rltb_spec lvl 1); [|lra]. cbn [negb orb andb guard]. eauto.
Qed.
(** The box is spanned by the two draws, whatever their order; the objective is the distance to the first draw *)
Theorem C52_box_from_draws : forall d n act lvl pb i, boxgen d n act lvl = Ok pb ->
  ba (fxl (lsF pb)) i = Some (Rmin (gd_r1 d i) (gd_r2 d i)) /\ ba (fxu (lsF pb)) i = Some (Rmax (gd_r1 d i) (gd_r2 d i)) /\
  va (lsb pb) i = gd_x0 d i /\ ma (fC (lsF pb)) i 0%nat = gd_c d i /\ mr (fC (lsF pb)) = n /\ mc (fC (lsF pb)) = 1%nat /\
  bn (fl (lsF pb)) = 1%nat /\ bn (fu (lsF pb)) = 1%nat /\ bn (fxl (lsF pb)) = n /\ bn (fxu (lsF pb)) = n.
Proof.
  unfold boxgen. intros d n act lvl pb i H. apply guard_ok in H as [_ H]. injection H as <-. cbn [lsF lsb fC fxl fxu fl fu ba va ma mr mc bn].
  unfold gxl, gxu, Rmin, Rmax. destruct (Rltb_spec (gd_r1 d i) (gd_r2 d i)), (Rle_dec (gd_r1 d i) (gd_r2 d i)); repeat split; auto; f_equal; lra.
Qed.
(** The constraint is stored as a column and the object says it is not
    transposed: it is not well formed, except in dimension one *)
Theorem C52_not_well_formed : forall d n act lvl pb, boxgen d n act lvl = Ok pb -> n <> 1%nat -> fc_wellFormed (lsF pb) false = Ok false.
Proof.
  unfold boxgen. intros d n act lvl pb H Hn. apply guard_ok in H as [_ H]. injection H as <-. unfold fc_wellFormed. cbn [lsF fC fl fu fxl fxu ft bn ba mr mc].
  rewrite !Nat.eqb_refl. cbn [andb guard]. f_equal. destruct (Nat.eqb_spec 1 n); [congruence|]. reflexivity.
Qed.

(** x0 = (2,0), box [0,1]^2, c = (-1,1): the constraint really bites *)
Definition ex_bd : bdraws := BD (fun i => if (i =? 0)%nat then 2 else 0) (fun _ => 0) (fun _ => 1) (fun i => if (i =? 0)%nat then -1 else 1).
Example C52_nonvacuous : exists pb, boxgen ex_bd 2 true (/2) = Ok pb /\ entries_not_tiny (call_args pb) /\ ba_bl (call_args pb) = Some 0 /\
  rsum 2 (fun i => ba_c (call_args pb) i * clamp (S:=Rops) (ba_x0 (call_args pb) i) (ba_xl (call_args pb) i) (ba_xu (call_args pb) i)) = -1.
Proof.
  destruct (proj2 (C52_level ex_bd 2 true (/2))) as (pb & H); [intros _; lra|]. exists pb. split; auto. destruct (boxgen_args _ _ _ _ _ H) as [_ ->].
  assert (L : forall i, gxl ex_bd i = 0 /\ gxu ex_bd i = 1). { intros i. unfold gxl, gxu. cbn [ex_bd gd_r1 gd_r2]. destruct (Rltb_spec 0 1); [auto|lra]. }
  assert (B0 : gxb ex_bd 0 = 1). { unfold gxb. destruct (L 0%nat) as [-> ->]. cbn. destruct (Rltb_spec 2 0); [lra|]. destruct (Rltb_spec 1 2); lra. }
  assert (B1 : gxb ex_bd 1 = 0). { unfold gxb. destruct (L 1%nat) as [-> ->]. cbn. destruct (Rltb_spec 0 0); [lra|]. destruct (Rltb_spec 1 0); lra. }
  split; [|split].
  - intros k Hk _. cbn [ba_c ba_n]. rewrite !sum_S, sum_0. cbn [ex_bd gd_c Nat.eqb]. assert (Ha : Rabs (if (k =? 0)%nat then -1 else 1) = 1).
    { destruct (k =? 0)%nat; [rewrite Rabs_left; lra|apply Rabs_R1]. }
    rewrite Ha. assert (Hq : sqrt (0 + -1 * -1 + 1 * 1) <= 2). { rewrite <- (sqrt_square 2) by lra. apply sqrt_le_1; lra. }
    assert (Hp : / 10 ^ 14 < / 2). { apply Rinv_lt_contravar; lra. } assert (0 < / 10 ^ 14) by (apply Rinv_0_lt_compat; lra).
    pose proof (sqrt_pos (0 + -1 * -1 + 1 * 1)). split; [lra|nra].
  - cbn [ba_bl]. f_equal. unfold gb. cbv zeta. rewrite !sum_S, !sum_0, B0, B1. unfold gsu. destruct (L 0%nat) as [-> ->], (L 1%nat) as [-> ->]. cbn [ex_bd gd_c Nat.eqb].
    destruct (Rltb_spec 0 (-1)); [lra|]. destruct (Rltb_spec 0 1); lra.
  - rewrite !sum_S, sum_0. cbn [ba_c ba_x0 ba_xl ba_xu]. change (clamp _ (Some (gxl ex_bd 0)) _) with (gxb ex_bd 0). change (clamp _ (Some (gxl ex_bd 1)) _) with (gxb ex_bd 1).
    rewrite B0, B1. cbn. lra.
Qed.

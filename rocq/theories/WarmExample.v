(** A concrete warm start meeting all the hypotheses: two variables, G = I, the
    general constraint x0 + x1 >= 1, the bounds x0 >= 0, x1 >= 0, minimiser (2,0),
    started from the constraint and the second bound (a vertex that is not
    optimal: the solver has to drop constraints). *)
From Coq Require Import List Arith ZArith Lia Bool Reals Lra Psatz.
From Verif Require Import Base ActiveSet ActiveSetProofs Num Solver LinAlg QRUpdate QPSpec GIMath GIBase GIInv GIDual GIRun GIOpt GIMult GIInit GISafe GICall GIHist GIFinal GITerm GITotal GIExample Warm WarmAS WarmSafe WarmQR WarmInit WarmHist WarmOpt WarmHot WarmTotal.
Import ListNotations.
Local Open Scope R_scope.

Definition wex_pb : rproblem :=
  Pb (S:=Rops) (fun i j => if (i =? j)%nat then 1 else 0) 2 2 (fun i => if (i =? 0)%nat then -2 else 0) 2
     (fun _ _ => 1) 2 1 (fun _ => Some 1) 1 (fun _ => None) 1
     (fun _ => Some 0) 2 (fun _ => None) 2.
Definition wex_ws : list status := [LOWER; INACTIVE; LOWER_BOUND].
Definition wex_o (n : nat) (B : R) : ropt := @Opt Rops n B true false.

Lemma wex_sizes : sizes_ok wex_pb = true. Proof. reflexivity. Qed.
Lemma wex_posdef : posdef (nv wex_pb) (hess wex_pb). Proof. exact (ex_posdef 1). Qed.
Lemma wex_gap : tolerance_gap wex_pb. Proof. intros W i z r Hi [P1 P2 P3]. apply (ex_gap 1 W i z r Hi). split; [exact P1|exact P2|exact P3]. Qed.
Lemma wex_noeq i : (i < 3)%nat -> ~ is_equality wex_pb i.
Proof. intros Hi (c & H1 & H2). exsimp. destruct i as [|i]; simpl in *; discriminate. Qed.
Lemma wex_first : equalities_first wex_pb.
Proof. intros i j Hij Hj Hq. exfalso. apply (wex_noeq j); auto. Qed.
Lemma wex_ordered : ordered wex_pb.
Proof. intros i l u Hi Hl Hu. exsimp. destruct i as [|i]; simpl in *; discriminate. Qed.
Lemma wex_moderate n B : 1 <= B -> moderate wex_pb (wex_o n B).
Proof.
  intros HB i b Hi Hb. unfold wex_o. cbn [o_bigBnd]. exsimp. destruct i as [|i]; simpl in *; destruct Hb as [Hb|Hb]; try discriminate; injection Hb as <-; lra.
Qed.
Lemma wex_geq i : (i < 3)%nat -> geq Rops wex_pb i = false.
Proof. intros Hi. destruct (geq_spec wex_pb i) as [H|]; auto. exfalso. apply (wex_noeq i); auto. Qed.
Lemma wex_wanted n B i : 1 <= B -> (i < 3)%nat -> rwanted wex_pb (wex_o n B) wex_ws i = nth i wex_ws INACTIVE.
Proof.
  intros HB Hi. unfold wanted. rewrite wex_geq by auto. cbn [warm_on wex_o o_warm is_nil wex_ws negb andb].
  assert (H : forall v : R, v = 0 \/ v = 1 -> Rltb v (- B) = false) by (intros v Hv; apply Rltb_false; destruct Hv; lra).
  destruct i as [|[|[|i]]]; try lia; cbn; auto; rewrite H; auto.
Qed.
Lemma wex_eff junk n B x : ws_eff Rops junk wex_pb (wex_o n B) wex_ws x = wex_ws.
Proof. reflexivity. Qed.
Lemma wex_args n B : args_ok Rops wex_pb (wex_o n B) wex_ws = true. Proof. reflexivity. Qed.
Lemma wex_kinds n B : forallb (kind1 Rops wex_pb (wex_o n B) wex_ws) (order Rops wex_pb) = true.
Proof.
  apply forallb_forall. intros i Hi. apply order_lt in Hi. change (gcb Rops wex_pb) with 3%nat in Hi. unfold kind1. rewrite wex_geq by auto.
  destruct i as [|[|[|i]]]; try lia; reflexivity.
Qed.
Lemma wex_initial n B : 1 <= B -> rinitial wex_pb (wex_o n B) wex_ws = [2; 0]%nat.
Proof.
  intros HB. unfold initial. transitivity (filter (fun i => isact (nth i wex_ws INACTIVE)) (order Rops wex_pb)); [|reflexivity].
  apply filter_ext_in'. intros i Hi. apply order_lt in Hi. change (gcb Rops wex_pb) with 3%nat in Hi. rewrite wex_wanted by auto. reflexivity.
Qed.
Lemma wex_neq n B : 1 <= B -> n_eq Rops wex_pb (wex_o n B) wex_ws = 0%nat.
Proof.
  intros HB. unfold n_eq. rewrite (filter_ext_in' _ (fun i => isEq (nth i wex_ws INACTIVE))); [reflexivity|].
  intros i Hi. apply order_lt in Hi. change (gcb Rops wex_pb) with 3%nat in Hi. rewrite wex_wanted by auto. reflexivity.
Qed.
Lemma wex_start n B l : 1 <= B -> start_list wex_pb (wex_o n B) wex_ws l -> l = [2; 0]%nat.
Proof.
  intros HB Hl. rewrite <- (wex_initial n B HB). apply start_list_initial; auto. rewrite wex_initial by auto. unfold nv. simpl. lia.
Qed.
Lemma wex_normal n B j a : 1 <= B -> (j < 2)%nat -> (a < 2)%nat ->
  wnormal wex_pb (wex_o n B) wex_ws [2; 0]%nat j a = if (j =? 0)%nat then (if (a =? 1)%nat then 1 else 0) else 1.
Proof.
  intros HB Hj Ha. unfold wnormal. destruct j as [|[|j]]; try lia; cbn [nth]; rewrite wex_wanted by (auto; lia); unfold nsign, cvec; simpl; destruct a as [|[|a]]; try lia; reflexivity.
Qed.
Lemma wex_posed n B : 1 <= B -> well_posed wex_pb (wex_o n B) wex_ws.
Proof.
  intros HB l Hl. apply wex_start in Hl; auto. subst l. intros c Hc k Hk. cbn [length] in *. change (nv wex_pb) with 2%nat in *.
  pose proof (Hc 0%nat ltac:(lia)) as E0. pose proof (Hc 1%nat ltac:(lia)) as E1.
  rewrite !sum_S, !sum_0 in E0, E1. rewrite !wex_normal in E0 by (auto; lia). rewrite !wex_normal in E1 by (auto; lia). simpl in E0, E1. rops.
  destruct k as [|[|k]]; try lia; lra.
Qed.
Lemma dblmin_lt1 : @dblmin Rops < 1.
Proof.
  unfold dblmin. assert (H : forall k, @hpow Rops (S k) < 1).
  { induction k as [|k IH]; cbn [hpow] in *; unfold half in *; rops; lra. }
  apply H.
Qed.
Lemma wex_fwd (v : rvec) i : (i < 2)%nat -> @fwd Rops 2 (snd (@llt Rops 2 (p_G wex_pb))) v i = v i.
Proof.
  intros Hi. pose proof (proj2 (llt_iff 2 (p_G wex_pb)) wex_posdef) as Hl.
  pose proof (llt_spec 2 (p_G wex_pb)) as HS. destruct (@llt Rops 2 (p_G wex_pb)) as ([p|] & Lm); simpl in Hl; [discriminate|]. cbn [snd].
  pose proof (llt_diag_pos _ _ _ HS) as HD. pose proof (llt_inv_full _ _ _ HS) as HG. clear Hl HS.
  pose proof (HD 0%nat ltac:(lia)) as D0. pose proof (HD 1%nat ltac:(lia)) as D1.
  pose proof (HG 0%nat 0%nat ltac:(lia) ltac:(lia)) as G0. pose proof (HG 1%nat 0%nat ltac:(lia) ltac:(lia)) as G1. pose proof (HG 1%nat 1%nat ltac:(lia) ltac:(lia)) as G2.
  rewrite !sum_S, !sum_0 in G0, G1, G2. unfold lower, gsym in G0, G1, G2. simpl in G0, G1, G2. rops.
  assert (L0 : Lm 0%nat 0%nat = 1) by nra. rewrite L0 in *. assert (L1 : Lm 1%nat 0%nat = 0) by lra. rewrite L1 in *. assert (L2 : Lm 1%nat 1%nat = 1) by nra.
  pose proof (fwd_correct 2 Lm v) as HF. assert (Hnz : forall i, (i < 2)%nat -> Lm i i <> 0) by (intros j Hj; specialize (HD j Hj); lra).
  pose proof (HF Hnz 0%nat ltac:(lia)) as F0. pose proof (HF Hnz 1%nat ltac:(lia)) as F1.
  set (y := @fwd Rops 2 Lm v) in *. clearbody y. rewrite !sum_S, !sum_0 in F0, F1. unfold lower in F0, F1. simpl in F0, F1. rops. rewrite L0, ?L1, ?L2 in *.
  destruct i as [|[|i]]; try lia; lra.
Qed.
Lemma wex_qr n B : 1 <= B -> exact_qr wex_pb (wex_o n B) wex_ws.
Proof.
  intros HB l Hl. apply wex_start in Hl; auto. subst l. change (nv wex_pb) with 2%nat. cbn [length qr_calm].
  split; [|split; [|exact I]].
  - right. unfold hh_tail. change (2 - 1 - 0)%nat with 1%nat. rops. rewrite !sum_S, !sum_0. change (0 + 1 + 0)%nat with 1%nat.
    rewrite wex_fwd by lia. rewrite wex_normal by (auto; lia). simpl. pose proof dblmin_lt1. lra.
  - left. reflexivity.
Qed.
Lemma wex_honest : honest_eq wex_pb wex_ws.
Proof. intros i H. destruct i as [|[|[|[|i]]]]; discriminate. Qed.
Lemma wex_ok junk n B x : 1 <= B -> warm_ok junk wex_pb (wex_o n B) wex_ws x.
Proof. intros HB. split; rewrite wex_eff; [apply wex_posed|apply wex_qr|apply wex_honest]; auto. Qed.
Lemma wex_later n B : bounds_later wex_pb (wex_o n B) wex_ws.
Proof. intros i j Hi Hq. exfalso. apply (wex_noeq i); auto; unfold nc in Hi; simpl in Hi; lia. Qed.
Lemma wex_mgap n B : 1 <= B -> multiplier_gap wex_pb (rwanted wex_pb (wex_o n B) wex_ws).
Proof.
  intros HB W x lam j Hj [S1 S2 S3 _] HW. change (ncb wex_pb) with 3%nat in *.
  pose proof (S3 0%nat ltac:(lia)) as T0. pose proof (S3 1%nat ltac:(lia)) as T1. pose proof (S3 2%nat ltac:(lia)) as T2.
  rewrite wex_wanted in T0, T1, T2 by (auto; lia). rewrite wex_wanted by auto. clear S3.
  pose proof (S1 0%nat) as Z0. pose proof (S1 1%nat) as Z1. pose proof (S1 2%nat) as Z2. clear S1.
  pose proof (S2 0%nat) as E0. pose proof (S2 1%nat) as E1. specialize (E0 ltac:(exsimp; lia)). specialize (E1 ltac:(exsimp; lia)). clear S2.
  unfold gradient in E0, E1. exsimp. rops.
  assert (EW1 : W 1%nat = false) by (destruct (W 1%nat); [exfalso; apply T1; reflexivity|reflexivity]). specialize (Z1 EW1).
  assert (K0 : W 0%nat = true -> 1 = 0 + 1 * x 0%nat + 1 * x 1%nat) by (intros H; specialize (T0 H); injection T0 as T0; lra).
  assert (K2 : W 2%nat = true -> x 1%nat = 0) by (intros H; specialize (T2 H); injection T2 as T2; lra).
  destruct j as [|[|[|j]]]; try lia; simpl; auto.
  - specialize (K0 HW). destruct (W 2%nat); [specialize (K2 eq_refl)|specialize (Z2 eq_refl)]; lra.
  - specialize (K2 HW). destruct (W 0%nat); [specialize (K0 eq_refl)|specialize (Z0 eq_refl)]; lra.
Qed.

(** so the call below, from a fresh object, meets the hypotheses of the theorems and succeeds *)
Lemma wex_run : exists n B x', xgi_solve (S:=Rops) (fun _ => 0) wex_pb (wex_o n B) wex_ws (xsol_new Rops) = Ok (SUCCESS, x') /\ warm_ok (fun _ => 0) wex_pb (wex_o n B) wex_ws (xsol_new Rops) /\ bounds_later wex_pb (wex_o n B) (ws_eff Rops (fun _ => 0) wex_pb (wex_o n B) wex_ws (xsol_new Rops)) /\ xexact_tests (fun _ => 0) wex_pb (wex_o n B) wex_ws (xsol_new Rops).
Proof.
  destruct (warm_total (fun _ => 0) wex_pb (wex_o 0 1) wex_ws (xsol_new Rops)) as (B & HB).
  - apply xh_new.
  - apply wex_args.
  - apply wex_posdef.
  - apply wex_first.
  - apply wex_kinds.
  - rewrite wex_eff, wex_neq by lra. lia.
  - apply wex_moderate. lra.
  - apply wex_ok. lra.
  - apply wex_later.
  - apply wex_gap.
  - rewrite wex_eff. apply wex_mgap. lra.
  - set (n := S (max_steps (ncb wex_pb) + nv wex_pb)%nat).
    destruct (HB (wex_o n B)) as (H1 & H2 & H3 & st & x' & E & Hst); [reflexivity|apply Rle_refl|change (o_maxIter (wex_o n B)) with n; unfold n; apply Nat.lt_succ_diag_r|].
    destruct Hst as [-> | ->]; [exists n, B, x'; auto|]. exfalso.
    apply (xfinal_infeasible _ _ _ _ _ _ (xh_new Rops) E H1 wex_first H2 H3 (fun i => if (i =? 0)%nat then 2 else 0)).
    split; intros j Hj; exsimp; [destruct j; simpl; try lia; split; auto; lra|].
    destruct j as [|[|]]; simpl; try lia; split; auto; lra.
Qed.

(** The optimal active set of the same problem: the second bound (minimiser (2,0)). *)
Definition wex_opt_ws : list status := [INACTIVE; INACTIVE; LOWER_BOUND].
Definition wex_x : rvec := fun i => if (i =? 0)%nat then 2 else 0.
Lemma wex_kkt : kkt wex_pb wex_x (fun _ => 0).
Proof.
  split.
  - intros i Hi. unfold gradient, wex_x. exsimp. rops. destruct i as [|[|]]; simpl; try lia; lra.
  - split; intros j Hj; unfold wex_x; exsimp.
    + destruct j; simpl; try lia; split; auto; lra.
    + destruct j as [|[|]]; simpl; try lia; split; auto; lra.
  - intros j Hj. split; intros H; exfalso; lra.
  - intros j Hj. split; intros H; exfalso; lra.
Qed.
Lemma wex_active_set n B : active_set_at wex_pb (wex_o n B) wex_opt_ws wex_x (fun _ => 0).
Proof.
  split.
  - reflexivity.
  - intros i Hi Hn. destruct i as [|[|[|i]]]; simpl in *; try congruence; try reflexivity. destruct i; simpl in Hn; congruence.
  - intros i Hi. change (ncb wex_pb) with 3%nat in Hi. cbn beta. destruct i as [|[|[|i]]]; try lia; simpl; auto. split; [lra|]. unfold wex_x. exsimp. f_equal. rops. lra.
  - intros i Hi Hq. exfalso. apply (wex_noeq i); auto.
  - intros c Hc i Hi Hn. change (ncb wex_pb) with 3%nat in *. destruct i as [|[|[|i]]]; try lia; simpl in Hn; try congruence.
    pose proof (Hc 1%nat ltac:(exsimp; lia)) as E. exsimp. cbn in E. simpl in *. rops. lra.
  - simpl. unfold nv. simpl. lia.
Qed.
Lemma wex_opt_qr n B : 1 <= B -> exact_qr wex_pb (wex_o n B) wex_opt_ws.
Proof.
  intros HB.
  assert (HW : forall i, (i < 3)%nat -> rwanted wex_pb (wex_o n B) wex_opt_ws i = nth i wex_opt_ws INACTIVE).
  { intros i Hi. unfold wanted. rewrite wex_geq by auto. cbn [warm_on wex_o o_warm is_nil wex_opt_ws negb andb].
    destruct i as [|[|[|i]]]; try lia; cbn; auto. rewrite Rltb_false; auto. lra. }
  assert (HI : rinitial wex_pb (wex_o n B) wex_opt_ws = [2]%nat).
  { unfold initial. transitivity (filter (fun i => isact (nth i wex_opt_ws INACTIVE)) (order Rops wex_pb)); [|reflexivity].
    apply filter_ext_in'. intros i Hi. apply order_lt in Hi. change (gcb Rops wex_pb) with 3%nat in Hi. rewrite HW by auto. reflexivity. }
  intros l Hl. apply start_list_initial in Hl; [|rewrite HI; unfold nv; simpl; lia]. rewrite HI in Hl. subst l. change (nv wex_pb) with 2%nat. cbn [length qr_calm].
  split; [|exact I]. right. unfold hh_tail. change (2 - 1 - 0)%nat with 1%nat. rops. rewrite !sum_S, !sum_0. change (0 + 1 + 0)%nat with 1%nat.
  rewrite wex_fwd by lia. unfold wnormal. cbn [nth]. rewrite HW by lia. unfold nsign, cvec. simpl. pose proof dblmin_lt1. lra.
Qed.

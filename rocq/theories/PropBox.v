(** Theorems about experimental::BoxAndSingleConstraintSolver (C31).
    The specification is stated directly on the arguments of the call: the
    point x0, the box [xl, xu] (None: no bound on that side), the half-space
    {y | c.y >= bl}.  Theorems over [S : ops] hold for any arithmetic satisfying
    [safe_ops] (doubles and reals do); the others are over the reals. *)
From Coq Require Import List Arith ZArith Lia Bool Floats.
From Coq Require Import Reals Lra.
From Verif Require Import Base ActiveSet ActiveSetProofs Num Solver RunFloat LinAlg QPSpec GIMath GIBase GIInv GIDual GIRun GIOpt GIMult GIInit GISafe GICall GIHist GIFinal GISame GITerm GITotal Box BoxSafe BoxExt BoxProofs BoxGap BoxSteps BoxLimit BoxSame BoxFinal.
Import ListNotations.
Local Open Scope R_scope.

(** * Specification *)
Definition sq_dist (n : nat) (x y : nat -> R) : R := rsum n (fun i => (x i - y i) * (x i - y i)).
(** the set {xl <= y <= xu, c.y >= bl} *)
Definition in_set (a : rbox) (y : nat -> R) : Prop :=
  (forall i l, (i < ba_n a)%nat -> ba_xl a i = Some l -> l <= y i) /\
  (forall i u, (i < ba_n a)%nat -> ba_xu a i = Some u -> y i <= u) /\
  (forall b, ba_bl a = Some b -> b <= rsum (ba_n a) (fun i => ba_c a i * y i)).
(** [x] is the point of the set closest to x0, and the only one *)
Definition is_projection (a : rbox) (x : nat -> R) : Prop :=
  in_set a x /\ forall y, in_set a y ->
    sq_dist (ba_n a) x (ba_x0 a) <= sq_dist (ba_n a) y (ba_x0 a) /\
    (sq_dist (ba_n a) y (ba_x0 a) <= sq_dist (ba_n a) x (ba_x0 a) -> forall i, (i < ba_n a)%nat -> y i = x i).
(** [lam] (constraint first, then the bounds) are multipliers of [x] *)
Definition are_multipliers (a : rbox) (x lam : nat -> R) : Prop :=
  (forall i, (i < ba_n a)%nat -> x i - ba_x0 a i + lam 0%nat * ba_c a i + lam (S i) = 0) /\
  lam 0%nat <= 0 /\
  (lam 0%nat <> 0 -> ba_bl a = Some (rsum (ba_n a) (fun i => ba_c a i * x i))) /\
  (forall i, (i < ba_n a)%nat -> 0 < lam (S i) -> ba_xu a i = Some (x i)) /\
  (forall i, (i < ba_n a)%nat -> lam (S i) < 0 -> ba_xl a i = Some (x i)).
(** The clamp of x0 to the box *)
Definition clamp {S : ops} (x0 : carrier S) (l u : option (carrier S)) : carrier S :=
  match l, u with
  | Some l, _ => if ltb S x0 l then l else match u with Some u => if ltb S u x0 then u else x0 | None => x0 end
  | None, Some u => if ltb S u x0 then u else x0
  | None, None => x0
  end.
Definition clamp_status {S : ops} (x0 : carrier S) (l u : option (carrier S)) : status :=
  if match l with Some l => ltb S x0 l | None => false end then LOWER_BOUND
  else if match u with Some u => ltb S u x0 | None => false end then UPPER_BOUND else INACTIVE.
(** x0, c and the bounds have the same number of elements *)
Definition sizes_agree {S : ops} (a : box_args S) : Prop :=
  ba_csize a = ba_n a /\ ba_xlsize a = ba_n a /\ ba_xusize a = ba_n a.
(** The entries of c are either zero or not so small that the solver's
    tolerance (1e-14, absolute and relative to |c|) takes them for zero. *)
Definition entries_not_tiny (a : rbox) : Prop := forall k, (k < ba_n a)%nat -> ba_c a k <> 0 ->
  / 10 ^ 14 < Rabs (ba_c a k) /\ / 10 ^ 14 * sqrt (rsum (ba_n a) (fun i => ba_c a i * ba_c a i)) < Rabs (ba_c a k).

(** x0, and the finite bounds, are at most K in absolute value *)
Definition data_at_most (a : rbox) (K : R) : Prop :=
  (forall i, (i < ba_n a)%nat -> Rabs (ba_x0 a i) <= K) /\
  (forall i v, (i < ba_n a)%nat -> ba_xl a i = Some v \/ ba_xu a i = Some v -> Rabs v <= K) /\
  (forall v, ba_bl a = Some v -> Rabs v <= K).

(** * Relating the specification to the one of the general solver *)
Lemma sizes_agree_ok S (a : box_args S) : sizes_agree a <-> box_sizes a = true.
Proof. unfold sizes_agree, box_sizes. rewrite !andb_true_iff, !Nat.eqb_eq. split; [intros (-> & -> & ->)|intros ((-> & ->) & ->)]; auto. Qed.
Lemma in_set_feasible a y : box_sizes a = true -> (in_set a y <-> feasible (proj_pb a) y).
Proof.
  intros Hsz. apply sizes_agree_ok in Hsz as (Z1 & Z2 & Z3).
  assert (Hnb : nb (proj_pb a) = ba_n a) by exact Z2. unfold in_set, feasible. rewrite Hnb. change (nc (proj_pb a)) with 1%nat. change (nv (proj_pb a)) with (ba_n a).
  assert (Hd : rdot (ba_n a) (fun i => ba_c a i) y = rsum (ba_n a) (fun i => ba_c a i * y i)) by (rewrite dot_def; reflexivity).
  split.
  - intros (H1 & H2 & H3). split.
    + intros j Hj. cbn [p_bl p_bu p_C proj_pb]. split; [|exact I]. destruct (ba_bl a) as [b|]; [|exact I]. simpl. rewrite Hd. apply H3. reflexivity.
    + intros i Hi. cbn [p_xl p_xu proj_pb]. split.
      * destruct (ba_xl a i) eqn:E; [|exact I]. simpl. apply (H1 i); auto.
      * destruct (ba_xu a i) eqn:E; [|exact I]. simpl. apply (H2 i); auto.
  - intros (H1 & H2). split; [|split].
    + intros i l Hi E. destruct (H2 i Hi) as [H _]. cbn [p_xl proj_pb] in H. rewrite E in H. exact H.
    + intros i l Hi E. destruct (H2 i Hi) as [_ H]. cbn [p_xu proj_pb] in H. rewrite E in H. exact H.
    + intros b E. destruct (H1 0%nat) as [H _]; [lia|]. cbn [p_bl p_C proj_pb] in H. rewrite E in H. simpl in H. rewrite Hd in H. exact H.
Qed.
Lemma proj_is_projection a x : box_sizes a = true -> unique_minimiser (proj_pb a) x -> is_projection a x.
Proof.
  intros Hsz [HF HM]. split; [apply in_set_feasible; auto|]. intros y Hy. apply in_set_feasible in Hy; auto.
  destruct (HM y Hy) as [M1 M2]. rewrite !proj_objective in *.
  change (sq_dist (ba_n a) x (ba_x0 a)) with (dist2 (ba_n a) x (ba_x0 a)). change (sq_dist (ba_n a) y (ba_x0 a)) with (dist2 (ba_n a) y (ba_x0 a)).
  split; [lra|]. intros H. apply M2. lra.
Qed.
Lemma kkt_are_mult a x lam : box_sizes a = true -> kkt (proj_pb a) x lam -> are_multipliers a x lam.
Proof.
  intros Hsz [K1 K2 K3 K4]. apply sizes_agree_ok in Hsz as (Z1 & Z2 & Z3).
  assert (Hnb : nb (proj_pb a) = ba_n a) by exact Z2. rewrite Hnb in *. change (nc (proj_pb a)) with 1%nat in *. change (nv (proj_pb a)) with (ba_n a) in *.
  destruct (K3 0%nat) as [K3a K3b]; [lia|]. cbn [p_bu p_bl p_C proj_pb] in K3a, K3b.
  assert (Hl : lam 0%nat <= 0) by (destruct (Rle_or_lt (lam 0%nat) 0) as [|H]; auto; specialize (K3a H); discriminate).
  split; [|split; [auto|split]].
  - intros i Hi. specialize (K1 i Hi). apply Nat.ltb_lt in Hi as Hi'. rewrite Hi' in K1. rewrite proj_gradient in K1 by auto.
    rewrite sum_S, sum_0 in K1. cbn [p_C proj_pb] in K1. change (1 + i)%nat with (S i) in K1. rewrite <- K1. rops. ring.
  - intros Hn. rewrite K3b by lra. rewrite dot_def. reflexivity.
  - split; intros i Hi H; apply (K4 i Hi); exact H.
Qed.

(** * C31 *)
(** The result of a call is the projection of x0 on the set, with multipliers,
    and the objective value is half the squared distance; INFEASIBLE means that
    the set is empty; the iteration limit can only be hit if it is at most 2n+1.
    This holds for every dimension, box, constraint and x0, whatever the object
    did before and whatever its memory contains, as soon as bigBnd is at least
    K (n+3) 1e56, where K bounds the data. *)
Theorem C31_projection : forall a K, sizes_agree a -> entries_not_tiny a -> 0 < K -> data_at_most a K ->
  (forall i l u, (i < ba_n a)%nat -> ba_xl a i = Some l -> ba_xu a i = Some u -> l <= u) ->
  forall o junk s, K * (INR (ba_n a) + 3) * 10 ^ 56 <= o_bigBnd o -> box_history Rops s ->
  exists st s', box_solve junk a o s = Ok (st, s') /\
   ((st = SUCCESS /\ exists x lam s'', solution s' = Ok x /\ multipliers s' = Ok (lam, s'') /\
       length x = ba_n a /\ length lam = S (ba_n a) /\
       is_projection a (fun i => nth i x 0) /\ are_multipliers a (fun i => nth i x 0) (fun i => nth i lam 0) /\
       objectiveValue s' = / 2 * sq_dist (ba_n a) (fun i => nth i x 0) (ba_x0 a)) \/
    (st = INFEASIBLE /\ forall y, ~ in_set a y) \/
    (st = MAX_ITER_REACHED /\ (o_maxIter o <= 2 * ba_n a + 1)%nat)).
Proof.
  intros a K Hsz HG HK0 HD Hord o junk s Ho HH. apply sizes_agree_ok in Hsz.
  assert (HG' : box_gap a) by (intros k Hk Hc; destruct (HG k Hk Hc) as [G1 G2]; split; [exact G1|exact G2]).
  destruct (box_total a K Hsz Hord HG' HK0 HD o junk s Ho HH) as (st & s' & E & [HA]). exists st, s'. split; [exact E|].
  destruct HA as [(-> & x & lam & s3 & E1 & E2 & L1 & L2 & HK & HU & Hf)|[(-> & HI)|(-> & HM)]].
  - left. split; [reflexivity|]. exists x, lam, s3. do 4 (split; [assumption|]).
    split; [apply (proj_is_projection a (vec_of x) Hsz HU)|]. split; [apply (kkt_are_mult a (vec_of x) (vec_of lam) Hsz HK)|exact Hf].
  - right. left. split; auto. intros y Hy. apply (HI y). apply in_set_feasible; auto.
  - right. right. auto.
Qed.

(** The point the iterations start from is the projection of x0 on the box
    alone, coordinate by coordinate: this is what is returned when no iteration
    is allowed.  Any arithmetic, doubles included. *)
Theorem C31_initial_point : forall (S : ops) junk a o s, safe_ops S -> box_history S s -> leb S (o_bigBnd o) (o_bigBnd o) = true ->
  sizes_agree a -> o_maxIter o = 0%nat ->
  exists s', box_solve junk a o s = Ok (MAX_ITER_REACHED, s') /\
    solution s' = Ok (map (fun i => clamp (ba_x0 a i) (ba_xl a i) (ba_xu a i)) (seq 0 (ba_n a))) /\
    activeSet s' = INACTIVE :: map (fun i => clamp_status (ba_x0 a i) (ba_xl a i) (ba_xu a i)) (seq 0 (ba_n a)).
Proof.
  intros S junk a o s HO HH HB Hsz HM. apply sizes_agree_ok in Hsz. pose proof (box_hist_wf S s HO HH) as HW.
  pose proof (box_solve_spec S junk a o s HO HB HW) as H. rewrite Hsz in H. destruct H as (s2 & s0 & _ & _ & _ & H0 & _ & E).
  rewrite HM in E. exists s0. split; [exact E|]. destruct (bt_b _ _ _ _ H0) as (b & HI & EA & Ex & _).
  change (gn S (box_pb a)) with (ba_n a) in *. pose proof (bt_sh _ _ _ _ H0) as Hsh. destruct Hsh as [Q1 Q2 Q3 Q4 Q5 Q6 Q7 Q8 Q9 Q10 Q11 Q12].
  split.
  - unfold solution. rewrite Q5. change (gn S (box_pb a)) with (ba_n a) in *. rewrite ggetV by auto. cbn [bind]. f_equal. apply map_ext_in. intros i Hi. apply in_seq in Hi.
    rewrite Ex. cbn [w_buf wset]. rewrite (bv_x _ _ _ _ _ HI) by lia.
    unfold bclamp, bkind. cbn [p_a p_xl p_xu box_pb]. unfold clamp, lt_lo, gt_up.
    destruct (ba_xl a i) as [l|]; [destruct (ltb S (ba_x0 a i) l); [reflexivity|]|]; (destruct (ba_xu a i) as [u|]; [|reflexivity]);
      destruct (ltb S u (ba_x0 a i)); reflexivity.
  - unfold activeSet. rewrite EA. destruct (bv_good _ _ _ _ _ HI) as ([Hlen _ _ _] & _). rewrite (bv_nc _ _ _ _ _ HI), (bv_nb _ _ _ _ _ HI) in Hlen.
    apply (nth_ext _ _ INACTIVE INACTIVE); [simpl; rewrite map_length, seq_length; exact Hlen|]. intros i Hi. rewrite Hlen in Hi.
    change (nth i (a_status (bs_A b)) INACTIVE) with (stt (bs_A b) i). rewrite (bv_stt _ _ _ _ _ HI). destruct i as [|i]; [reflexivity|].
    cbn [nth]. rewrite (nth_indep _ INACTIVE (clamp_status (ba_x0 a i) (ba_xl a i) (ba_xu a i))) by (rewrite map_length, seq_length; lia).
    rewrite (map_nth (fun i => clamp_status (ba_x0 a i) (ba_xl a i) (ba_xu a i)) (seq 0 (ba_n a)) i i), seq_nth by lia. cbn [Nat.add].
    replace (Datatypes.S i - 1)%nat with i by lia. destruct (Nat.ltb_spec i (ba_n a)); [|lia]. reflexivity.
Qed.

(** Over the reals this clamp is the projection on the box, with its
    multipliers and half the squared distance as objective value. *)
Theorem C31_initial_multipliers : forall junk (a : rbox) o s, box_history Rops s -> sizes_agree a -> o_maxIter o = 0%nat ->
  (forall i l u, (i < ba_n a)%nat -> ba_xl a i = Some l -> ba_xu a i = Some u -> l <= u) ->
  let b := BA (ba_x0 a) (ba_n a) (ba_c a) (ba_csize a) None (ba_xl a) (ba_xlsize a) (ba_xu a) (ba_xusize a) in
  exists s' x lam s'', box_solve junk a o s = Ok (MAX_ITER_REACHED, s') /\ solution s' = Ok x /\ multipliers s' = Ok (lam, s'') /\
    length x = ba_n a /\ length lam = S (ba_n a) /\
    is_projection b (fun i => nth i x 0) /\ are_multipliers b (fun i => nth i x 0) (fun i => nth i lam 0) /\
    objectiveValue s' = / 2 * sq_dist (ba_n a) (fun i => nth i x 0) (ba_x0 a).
Proof.
  intros junk a o s HH Hsz HM Hord b. apply sizes_agree_ok in Hsz. pose proof (box_hist_wf Rops s real_safe HH) as HW.
  pose proof (box_solve_spec Rops junk a o s real_safe (leb_refl_R _) HW) as H. rewrite Hsz in H. destruct H as (s2 & s0 & _ & X2 & _ & H0 & _ & E).
  rewrite HM in E.
  assert (Hszb : box_sizes b = true) by exact Hsz.
  assert (H0b : bstart Rops (bpb b) s2 s0).
  { destruct H0 as [T1 T2 T3 T4 T5 T6]. destruct T1 as [Q1 Q2 Q3 Q4 Q5 Q6 Q7 Q8 Q9 Q10 Q11 Q12]. split; try assumption; [split; assumption| |].
    { rewrite T5. change (gn Rops (bpb b)) with (gn Rops (box_pb a)). generalize (gn Rops (box_pb a)) as k. induction k as [|k IH]; cbn [bcosts]; [reflexivity|]. rewrite IH. reflexivity. }
    destruct T6 as (b0 & [B1 B2 B3 B4 B5 B6 B7 B8 B9 B10 B11 B12] & T6). exists b0. split; [split; assumption|exact T6]. }
  pose proof (bstart_finv b s2 s0 H0b) as [HL HD _]. cbn [l_s l_skip start] in HL, HD. set (s1 := addf (off b) s0) in *.
  assert (HP : pinv (proj_pb b) s1) by apply HL. pose proof (pi_shape _ _ HP) as HS1.
  assert (HS : shape (proj_pb b) s0) by (destruct HS1 as [Q1 Q2 Q3 Q4 Q5 Q6 Q7 Q8 Q9 Q10 Q11 Q12]; split; assumption).
  assert (Hexp : s_exp s0 = true) by (rewrite (bt_exp _ _ _ _ H0); exact X2).
  assert (Hx : exists x, solution s0 = Ok x).
  { unfold solution. rewrite (sh_n _ _ HS). rewrite getV_ok by apply HS. eexists. reflexivity. }
  destruct Hx as (x & Ex). destruct (multipliers_fresh (proj_pb b) s0 HS Hexp) as (v & s3 & Em & _).
  set (lam := map v (seq 0 (ncb (proj_pb b)))) in *. exists s0, x, lam, s3. split; [exact E|]. split; [exact Ex|]. split; [exact Em|].
  destruct (solution_spec (proj_pb b) s0 x HS Ex) as [Hlen Hxv]. change (nv (proj_pb b)) with (ba_n a) in *.
  destruct (mult_vec (proj_pb b) s0 lam s3 HS Hexp Em) as (w & HMu & Hlam & Hv & _ & _).
  assert (Hnb : nb (proj_pb b) = ba_n a) by (apply sizes_agree_ok in Hsz; apply Hsz).
  assert (Hncb : ncb (proj_pb b) = S (ba_n a)) by (unfold ncb; rewrite Hnb; reflexivity). rewrite Hncb in *.
  split; [exact Hlen|]. split; [exact Hlam|].
  assert (Hcl : forall i, (i < ba_n a)%nat -> vec_of x i = bclamp Rops (bpb b) i).
  { intros i Hi. rewrite Hxv by auto. unfold xof. destruct (bt_b _ _ _ _ H0b) as (b0 & HI & _ & -> & _). cbn [w_buf wset].
    apply (bv_x _ _ _ _ _ HI). exact Hi. }
  assert (HF : feasible (proj_pb b) (vec_of x)).
  { apply in_set_feasible; auto. split; [|split].
    - intros i l Hi El. rewrite Hcl by auto. change (ba_xl b i) with (ba_xl a i) in El.
      destruct (bkind_cases Rops (bpb b) i) as [K|[K|K]].
      + destruct (bclamp_lower b i K) as (l' & E1 & _ & -> & _). change (ba_xl b i) with (ba_xl a i) in E1. rewrite E1 in El. injection El as <-. apply Rle_refl.
      + destruct (bclamp_upper b i K) as (u & E1 & _ & -> & _). apply (Hord i l u Hi El E1).
      + rewrite (bclamp_none b i K). unfold bkind in K. cbn [p_a p_xl p_xu bpb box_pb b ba_xl ba_x0] in K. rewrite El in K. cbn [lt_lo] in K.
        change (ba_x0 b i) with (ba_x0 a i). change (ltb Rops (ba_x0 a i) l) with (Rltb (ba_x0 a i) l) in K.
        destruct (Rltb_spec (ba_x0 a i) l); [discriminate|lra].
    - intros i u Hi Eu. rewrite Hcl by auto. change (ba_xu b i) with (ba_xu a i) in Eu.
      destruct (bkind_cases Rops (bpb b) i) as [K|[K|K]].
      + destruct (bclamp_lower b i K) as (l & E1 & _ & -> & _). apply (Hord i l u Hi E1 Eu).
      + destruct (bclamp_upper b i K) as (l' & E1 & _ & -> & _). change (ba_xu b i) with (ba_xu a i) in E1. rewrite E1 in Eu. injection Eu as <-. apply Rle_refl.
      + rewrite (bclamp_none b i K). unfold bkind in K. cbn [p_a p_xl p_xu bpb box_pb b ba_xu ba_x0] in K. rewrite Eu in K. cbn [gt_up] in K.
        change (ba_x0 b i) with (ba_x0 a i). destruct (lt_lo _ _); [discriminate|]. change (ltb Rops u (ba_x0 a i)) with (Rltb u (ba_x0 a i)) in K.
        destruct (Rltb_spec u (ba_x0 a i)); [discriminate|lra].
    - intros bb Hbb. discriminate. }
  assert (Hxx : forall i, (i < ba_n a)%nat -> xof s1 i = vec_of x i) by (intros i Hi; symmetry; apply Hxv; auto).
  assert (HK : kkt (proj_pb b) (vec_of x) (vec_of lam)).
  { apply (kkt_ext (proj_pb b) (xof s1) _ w); auto.
    - intros i Hi. rewrite Hncb in Hi. symmetry. apply Hv. auto.
    - rewrite Hnb. change (nv (proj_pb b)) with (ba_n a). lia.
    - apply dinv_kkt; [exact HP|exact HD| |destruct HMu as [M1 M2]; split; assumption]. apply (feasible_ext (proj_pb b) (vec_of x)); [rewrite Hnb; change (nv (proj_pb b)) with (ba_n a); lia| |exact HF].
      intros i Hi. symmetry. apply Hxx. exact Hi. }
  assert (HU : unique_minimiser (proj_pb b) (vec_of x)).
  { apply (kkt_unique_minimiser (proj_pb b) _ (vec_of lam)); auto; [rewrite Hnb; change (nv (proj_pb b)) with (ba_n a); lia|apply proj_posdef]. }
  split; [apply (proj_is_projection b (vec_of x) Hszb HU)|]. split; [apply (kkt_are_mult b (vec_of x) (vec_of lam) Hszb HK)|].
  unfold objectiveValue. rewrite (bt_f _ _ _ _ H0b). change (gn Rops (bpb b)) with (ba_n a).
  change (zero Rops) with 0. rewrite bcosts_sum. f_equal. unfold dist2, sq_dist. apply sum_ext. intros i Hi.
  rewrite <- Hcl by auto. reflexivity.
Qed.

(** Safety: with consistent sizes a call never reads or writes out of its
    storage, whatever the data and the previous calls; otherwise it is a
    precondition violation.  The status and the iteration count are consistent. *)
Theorem C31_memory_safe : forall (S : ops) junk a o s, safe_ops S -> box_history S s -> leb S (o_bigBnd o) (o_bigBnd o) = true ->
  (box_solve junk a o s = UB <-> ~ sizes_agree a) /\
  (forall st s', box_solve junk a o s = Ok (st, s') ->
     (exists x, solution s' = Ok x /\ length x = ba_n a) /\ (exists lam s'', multipliers s' = Ok (lam, s'')) /\
     length (activeSet s') = Datatypes.S (ba_n a) /\
     ((st = MAX_ITER_REACHED /\ iterations s' = o_maxIter o) \/
      ((st = SUCCESS \/ st = INFEASIBLE) /\ (iterations s' < o_maxIter o)%nat))).
Proof.
  intros S junk a o s HO HH HB. pose proof (box_hist_wf S s HO HH) as HW. rewrite (sizes_agree_ok S a).
  destruct (box_sizes a) eqn:Hsz.
  - destruct (box_solve_result S junk a o s HO HB HW Hsz) as (st & s' & E & HS & Hexp & Hq & Hst).
    split; [rewrite E; split; [discriminate|intros H; exfalso; apply H; reflexivity]|].
    intros st1 s1 E1. rewrite E in E1. injection E1 as <- <-.
    assert (HW' : gwf S s') by (apply (box_hist_wf S s' HO); eapply bh_solve; eauto).
    destruct HS as [Q1 Q2 Q3 Q4 Q5 Q6 Q7 Q8 Q9 Q10 Q11 Q12].
    split.
    + unfold solution. rewrite Q5, ggetV by auto. cbn [bind]. eexists. split; [reflexivity|]. rewrite map_length, seq_length. reflexivity.
    + split; [destruct (gmult S s' HW') as (l & s2 & E2); eauto|]. split; [|exact Hst].
      unfold activeSet. destruct Q2 as ([Hlen _ _ _] & _). rewrite Hlen, Q3, Q4. apply sizes_agree_ok in Hsz as (_ & Z & _).
      change (1 + ba_xlsize a = 1 + ba_n a)%nat. rewrite Z. reflexivity.
  - pose proof (box_solve_spec S junk a o s HO HB HW) as H. rewrite Hsz in H. rewrite H.
    split; [split; [intros _ H1; discriminate|reflexivity]|]. intros st s' E. discriminate.
Qed.

(** The outcome depends neither on the previous calls nor on the memory. *)
Theorem C31_history_independent : forall (S : ops) junk1 junk2 a o s1 s2 st1 t1 st2 t2, safe_ops S -> box_history S s1 -> box_history S s2 ->
  leb S (o_bigBnd o) (o_bigBnd o) = true -> box_solve junk1 a o s1 = Ok (st1, t1) -> box_solve junk2 a o s2 = Ok (st2, t2) ->
  st1 = st2 /\ iterations t1 = iterations t2 /\ solution t1 = solution t2 /\ activeSet t1 = activeSet t2 /\ objectiveValue t1 = objectiveValue t2 /\
  exists lam u1 u2, multipliers t1 = Ok (lam, u1) /\ multipliers t2 = Ok (lam, u2).
Proof.
  intros S junk1 junk2 a o s1 s2 st1 t1 st2 t2 HO H1 H2 HB E1 E2.
  pose proof (box_hist_wf S s1 HO H1) as W1. pose proof (box_hist_wf S s2 HO H2) as W2.
  destruct (box_same S junk1 junk2 a o s1 s2 _ _ HO HB W1 W2 E1 E2) as [Est Hsim]. cbn [fst snd] in Est, Hsim.
  assert (B1 : box_history S t1) by (eapply bh_solve; [exact H1|exact HB|exact E1]).
  assert (B2 : box_history S t2) by (eapply bh_solve; [exact H2|exact HB|exact E2]).
  pose proof (box_hist_wf S t1 HO B1) as V1. pose proof (box_hist_wf S t2 HO B2) as V2.
  split; auto. split; [apply Hsim|]. split.
  { destruct (gsolution S t1 V1) as (x1 & X1 & _). destruct (gsolution S t2 V2) as (x2 & X2 & _). rewrite X1, X2. f_equal.
    exact (solution_sim S 0 t1 t2 Hsim x1 x2 X1 X2). }
  split; [unfold activeSet; rewrite (sm_A _ _ _ _ Hsim); reflexivity|]. split; [apply Hsim|].
  assert (Hexp : s_exp t1 = true).
  { destruct (box_sizes a) eqn:Hsz.
    - destruct (box_solve_result S junk1 a o s1 HO HB W1 Hsz) as (st & s' & E & _ & Hexp & _). rewrite E in E1. injection E1 as _ <-. exact Hexp.
    - unfold box_solve in E1. rewrite Hsz in E1. discriminate. }
  destruct (gmult S t1 V1) as (l1 & u1 & M1). destruct (gmult S t2 V2) as (l2 & u2 & M2).
  pose proof (mult_sim S t1 t2 Hsim Hexp _ _ M1 M2) as El. cbn [fst] in El. exists l1, u1, u2. split; auto. rewrite El. exact M2.
Qed.

(** * Concrete cases *)
(** x0 = (3,-2,1) on [0,2] x [-1,inf) x (-inf,4], x+2y+2z >= 6 *)
Definition ex_box : rbox :=
  BA (fun i => nth i [3;-2;1] 0 : carrier Rops) 3 (fun i => nth i [1;2;2] 0 : carrier Rops) 3 (Some 6)
     (fun i => nth i [Some 0; Some (-1); None] None) 3 (fun i => nth i [Some 2; None; Some 4] None) 3.
Example C31_nonvacuous : sizes_agree ex_box /\ entries_not_tiny ex_box /\
  (forall i l u, (i < ba_n ex_box)%nat -> ba_xl ex_box i = Some l -> ba_xu ex_box i = Some u -> l <= u) /\
  (exists y, in_set ex_box y) /\ box_history Rops (sol_new Rops).
Proof.
  split; [repeat split|]. split.
  { intros k Hk Hc. cbn [ba_n ex_box] in *.
    assert (Hs : rsum 3 (fun i => ba_c ex_box i * ba_c ex_box i) = 3 * 3).
    { rewrite !sum_S, sum_0. cbn [ba_c ex_box nth]. rops. ring. }
    rewrite Hs, sqrt_square by lra.
    assert (He : 0 < / 10 ^ 14 < / 100).
    { split; [apply Rinv_0_lt_compat; apply pow_lt; lra|]. apply Rinv_lt_contravar; [|lra]. apply Rmult_lt_0_compat; [lra|apply pow_lt; lra]. }
    assert (Ha : 1 <= Rabs (ba_c ex_box k)).
    { cbn [ba_c ex_box]. destruct k as [|[|[|k]]]; [| | |lia]; cbn [nth]; rewrite Rabs_pos_eq; lra. }
    set (e := / 10 ^ 14) in *. split; lra. }
  split.
  { intros i l u Hi. cbn [ba_n ba_xl ba_xu ex_box] in *. destruct i as [|[|[|i]]]; [| | |lia]; cbn [nth]; intros E1 E2; try discriminate.
    injection E1 as <-. injection E2 as <-. lra. }
  split; [|constructor].
  exists (fun i => nth i [2;0;4] 0). split; [|split]; cbn [ba_n ba_xl ba_xu ba_bl ba_c ex_box].
  - intros i l Hi. destruct i as [|[|[|i]]]; [| | |lia]; cbn [nth]; intros E; try discriminate; injection E as <-; lra.
  - intros i l Hi. destruct i as [|[|[|i]]]; [| | |lia]; cbn [nth]; intros E; try discriminate; injection E as <-; lra.
  - intros b E. injection E as <-. rewrite !sum_S, sum_0. cbn [nth]. rops. lra.
Qed.
(** The set can be empty *)
Definition ex_empty : rbox :=
  BA (fun _ => 0 : carrier Rops) 1 (fun _ => 1 : carrier Rops) 1 (Some 3) (fun _ => Some 0) 1 (fun _ => Some 2) 1.
Example C31_nonvacuous_empty : sizes_agree ex_empty /\ forall y, ~ in_set ex_empty y.
Proof.
  split; [repeat split|]. intros y (_ & H2 & H3). specialize (H2 0%nat 2). specialize (H3 3 eq_refl).
  cbn [ba_n ba_xl ba_xu ba_bl ba_c ex_empty] in *. rewrite sum_S, sum_0 in H3. specialize (H2 ltac:(lia) eq_refl). revert H3. rops. lra.
Qed.
(** With 2n+2 iterations the status decides the emptiness of the set. *)
Theorem C31_success_iff_nonempty : forall a K, sizes_agree a -> entries_not_tiny a -> 0 < K -> data_at_most a K ->
  (forall i l u, (i < ba_n a)%nat -> ba_xl a i = Some l -> ba_xu a i = Some u -> l <= u) ->
  forall o junk s, K * (INR (ba_n a) + 3) * 10 ^ 56 <= o_bigBnd o -> (2 * ba_n a + 2 <= o_maxIter o)%nat -> box_history Rops s ->
  exists st s', box_solve junk a o s = Ok (st, s') /\
    (st = SUCCESS <-> exists y, in_set a y) /\ (st = INFEASIBLE <-> ~ exists y, in_set a y).
Proof.
  intros a K Hsz HG HK HD Hord o junk s Ho HM HH.
  destruct (C31_projection a K Hsz HG HK HD Hord o junk s Ho HH) as (st & s' & E & HA). exists st, s'. split; [exact E|].
  destruct HA as [(-> & x & lam & s3 & _ & _ & _ & _ & (Hin & _) & _)|[(-> & HI)|(-> & HI)]]; [| |lia].
  - assert (H : exists y, in_set a y) by eauto. split; split; auto; try discriminate. intros H1. contradiction.
  - assert (H : ~ exists y, in_set a y) by (intros (y & Hy); apply (HI y Hy)). split; split; auto; try discriminate. intros H1. contradiction.
Qed.

(** With the default options (SolverOptions.h: maxIter 500, bigBnd 1e100), dimension up to 249 and data up to 1e41: the
    answer is the projection, or that the set is empty, and never MAX_ITER_REACHED. *)
Theorem C31_default_options : forall a dbg, sizes_agree a -> entries_not_tiny a -> data_at_most a (10 ^ 41) -> (ba_n a <= 249)%nat ->
  (forall i l u, (i < ba_n a)%nat -> ba_xl a i = Some l -> ba_xu a i = Some u -> l <= u) ->
  forall junk s, box_history Rops s ->
  exists st s', box_solve junk a (@Opt Rops 500 (10 ^ 100) false dbg) s = Ok (st, s') /\
   ((st = SUCCESS /\ exists x lam s'', solution s' = Ok x /\ multipliers s' = Ok (lam, s'') /\
       length x = ba_n a /\ length lam = S (ba_n a) /\
       is_projection a (fun i => nth i x 0) /\ are_multipliers a (fun i => nth i x 0) (fun i => nth i lam 0) /\
       objectiveValue s' = / 2 * sq_dist (ba_n a) (fun i => nth i x 0) (ba_x0 a)) \/
    (st = INFEASIBLE /\ forall y, ~ in_set a y)).
Proof.
  intros a dbg Hsz HG HD Hn Hord junk s HH. assert (HK : 0 < 10 ^ 41) by (apply pow_lt; lra).
  set (o := @Opt Rops 500 (10 ^ 100) false dbg).
  assert (Ho : 10 ^ 41 * (INR (ba_n a) + 3) * 10 ^ 56 <= o_bigBnd o).
  { cbn [o_bigBnd o]. apply le_INR in Hn. replace (INR 249) with 249 in Hn by (rewrite INR_IZR_INZ; reflexivity).
    assert (H56 : 0 < 10 ^ 56) by (apply pow_lt; lra).
    replace (10 ^ 100) with (10 ^ 41 * 1000 * 10 ^ 56) by (replace 1000 with (10 ^ 3) by (simpl; lra); rewrite <- !pow_add; reflexivity).
    apply Rmult_le_compat_r; [lra|]. apply Rmult_le_compat_l; lra. }
  destruct (C31_projection a (10 ^ 41) Hsz HG HK HD Hord o junk s Ho HH) as (st & s' & E & HA). exists st, s'. split; [exact E|].
  destruct HA as [HA|[HA|(_ & HM)]]; auto. exfalso. cbn [o o_maxIter] in HM. lia.
Qed.
(** a bound on the data always exists *)
Lemma data_exists a : exists K, 0 < K /\ data_at_most a K.
Proof.
  set (v := fun o : option R => match o with Some x => Rabs x | None => 0 end).
  destruct (finite_bound (fun i => Rabs (ba_x0 a i)) (ba_n a)) as (B1 & H1).
  destruct (finite_bound (fun i => v (ba_xl a i)) (ba_n a)) as (B2 & H2). destruct (finite_bound (fun i => v (ba_xu a i)) (ba_n a)) as (B3 & H3).
  set (K := Rabs B1 + Rabs B2 + Rabs B3 + v (ba_bl a) + 1).
  pose proof (Rabs_pos B1) as P1. pose proof (Rabs_pos B2) as P2. pose proof (Rabs_pos B3) as P3. pose proof (Rle_abs B1) as Q1. pose proof (Rle_abs B2) as Q2. pose proof (Rle_abs B3) as Q3.
  assert (P4 : 0 <= v (ba_bl a)) by (unfold v; destruct (ba_bl a); [apply Rabs_pos|lra]).
  exists K. unfold K. split; [lra|]. split; [|split].
  - intros i Hi. specialize (H1 i Hi). cbv beta in H1. lra.
  - intros i w Hi [E|E]; [specialize (H2 i Hi)|specialize (H3 i Hi)]; [assert (H : Rabs w < B2) by (revert H2; cbv beta; rewrite E; auto)|assert (H : Rabs w < B3) by (revert H3; cbv beta; rewrite E; auto)]; lra.
  - intros w E. rewrite E. change (v (Some w)) with (Rabs w). lra.
Qed.
Lemma C31_nonvacuous_default : data_at_most ex_box (10 ^ 41) /\ (ba_n ex_box <= 249)%nat.
Proof.
  assert (H : 100 <= 10 ^ 41) by (replace 100 with (10 ^ 2) by (simpl; lra); apply Rle_pow; [lra|lia]).
  split; [|cbn; lia]. split; [|split]; cbn [ba_n ba_x0 ba_xl ba_xu ba_bl ex_box].
  - intros i Hi. destruct i as [|[|[|i]]]; [| | |lia]; cbn [nth]; apply Rabs_le; lra.
  - intros i v Hi. destruct i as [|[|[|i]]]; [| | |lia]; cbn [nth]; intros [E|E]; try discriminate; injection E as <-; apply Rabs_le; lra.
  - intros v E. injection E as <-. apply Rabs_le; lra.
Qed.

(** The same call in doubles, with c = (3,0,4) *)
Definition ex_box_f : box_args Fops :=
  @BA Fops (fun i => nth i [3;-2;1]%float 0%float) 3 (fun i => nth i [3;0;4]%float 0%float) 3 (Some 14%float)
     (fun i => nth i [Some 0%float; Some (-1)%float; None] None) 3 (fun i => nth i [Some 2%float; None; Some 4%float] None) 3.
Example C31_run : 
  match box_solve (S:=Fops) (fun _ => nan) ex_box_f (@Opt Fops 50 1e100%float false false) (sol_new Fops) with
  | Ok (st, s) => match solution s with Ok x => (st, x, iterations s, activeSet s) = (SUCCESS, [2;-1;2]%float, 1%nat, [LOWER; UPPER_BOUND; LOWER_BOUND; INACTIVE]) | UB => False end
  | UB => False end.
Proof. vm_compute. reflexivity. Qed.

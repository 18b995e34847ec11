(** C67, C68: solving repeatedly with one Hessian matrix; the warm-start benchmark. *)
From Coq Require Import PrimFloat.
From Coq Require Import List Arith ZArith Lia Bool FunctionalExtensionality Classical Reals Lra Psatz.
From Verif Require Import Base ActiveSet ActiveSetProofs Num Solver LinAlg QPSpec GIBase GIInit GIRun GISafe GICall GITotal GIHist GIFinal GIExample TestPb PropTest RunFloat FloatLaws PropSolver PropReal Limits LimitsEx
  RandMat RandMatProofs Adapt PropAdapt Box BoxProofs BoxGap Bench.
Import ListNotations.
Local Open Scope R_scope.

(** * C67 *)
(** L is in the lower triangle of H', its square is the symmetric matrix given by the lower triangle of H, and the rest of H' is that of H *)
Definition consumed (n : nat) (H H' : rmat) : Prop :=
  (forall i j, (i < j)%nat -> H' i j = H i j) /\
  let L := fun a t => if (t <=? a)%nat then H' a t else 0 in
  forall i j, (i < n)%nat -> (j <= i)%nat -> rsum n (fun t => L i t * L j t) = H i j.

Lemma with_Ga_id {S : ops} (pb : problem S) : with_Ga pb (p_G pb) (p_a pb) = pb.
Proof. destruct pb; reflexivity. Qed.
Lemma seq_inv {S : ops} junk (pb : problem S) o a r : forall G s l, solve_seq junk pb o G s (a :: r) = Ok l ->
  exists st s' l', gi_solve (junk (length r)) (with_Ga pb G a) o s = Ok (st, s') /\ solve_seq junk pb o (s_G s') s' r = Ok l' /\ l = (st, s') :: l'.
Proof.
  intros G s l E. cbn [solve_seq] in E. apply bind_ok in E as ((st, s') & E1 & E). apply bind_ok in E as (l' & E2 & E). injection E as <-.
  exists st, s', l'. auto.
Qed.

(** The k-th call answers what a new object would answer for the Hessian obtained from G by factorising it k times in place. *)
Theorem C67_hessian_consumed : forall junk pb o G s as_ l k a st t, history Rops s -> solve_seq junk pb o G s as_ = Ok l ->
  nth_error as_ k = Some a -> nth_error l k = Some (st, t) -> (forall j st' t', (j < k)%nat -> nth_error l j = Some (st', t') -> st' <> NON_POS_HESSIAN) ->
  exists H : nat -> rmat, H 0%nat = G /\ (forall j, (j < k)%nat -> consumed (nv pb) (H j) (H (S j))) /\
    forall junk2, exists t2, gi_solve junk2 (with_Ga pb (H k) a) o (sol_new Rops) = Ok (st, t2) /\ iterations t2 = iterations t /\
      (st <> NON_POS_HESSIAN -> solution t2 = solution t /\ activeSet t2 = activeSet t /\ objectiveValue t2 = objectiveValue t /\
        exists lam u1 u2, multipliers t2 = Ok (lam, u1) /\ multipliers t = Ok (lam, u2)).
Proof.
  intros junk pb o G s as_. revert G s. induction as_ as [|b r IH]; intros G s l k a st t Hh E Ea El Hok; [destruct k; discriminate|].
  apply seq_inv in E as (st1 & s1 & l' & E1 & E2 & ->).
  assert (Hh1 : history Rops s1) by (eapply h_solve; [exact Hh| |exact E1]; apply leb_refl_R).
  destruct k as [|k].
  - cbn in Ea, El. injection Ea as ->. injection El as -> ->. exists (fun _ => G). split; [reflexivity|]. split; [intros; lia|].
    intros junk2. destruct (gi_solve junk2 (with_Ga pb G a) o (sol_new Rops)) as [(st2, t2)|] eqn:E3.
    + destruct (C16_history_independent Rops _ _ _ o _ _ _ _ _ _ real_safe (h_new Rops) Hh (leb_refl_R _) E3 E1) as (K1 & K2 & K3). subst st2.
      exists t2. split; [reflexivity|]. split; [exact K2|exact K3].
    + pose proof (C16_defined_independent Rops _ (junk (length r)) _ o _ s real_safe (h_new Rops) Hh (leb_refl_R _) E3) as K. congruence.
  - cbn in Ea, El. assert (Hst : st1 <> NON_POS_HESSIAN) by (apply (Hok 0%nat st1 s1); [lia|reflexivity]).
    destruct (IH (s_G s1) s1 l' k a st t Hh1 E2 Ea El) as (H & H0 & HC & HS).
    { intros j st' t' Hj Hn. apply (Hok (S j) st' t'); [lia|exact Hn]. }
    exists (fun j => match j with O => G | S j' => H j' end). split; [reflexivity|]. split; [|exact HS].
    intros [|j] Hj; [|apply HC; lia]. rewrite H0. destruct (C42_hessian_overwritten _ _ _ _ _ _ Hh E1) as (U & F). split; [exact U|].
    intros L i j Hi Hij. specialize (F Hst i j Hi ltac:(change (nv (with_Ga pb G b)) with (nv pb); lia)). cbv zeta in F. unfold L.
    etransitivity; [exact F|]. unfold hess, gsym. cbn [with_Ga p_G]. rewrite (proj2 (Nat.leb_le j i)) by auto. reflexivity.
Qed.
(** It matters: 128 x^2 - 256 x has its minimum at 1; the second and third calls answer 16 and 64. *)
Theorem C67_second_answer_wrong : let pb := mkpb 1 0 [[256]]%float [-256]%float [[]] [] [] [] [] in
  exists s1 s2 s3, solve_seq (S:=Fops) (fun _ _ => 0%float) pb defopt (p_G pb) (sol_new Fops) [p_a pb; p_a pb; p_a pb] = Ok [(SUCCESS, s1); (SUCCESS, s2); (SUCCESS, s3)] /\
    solution s1 = Ok [1%float] /\ solution s2 = Ok [16%float] /\ solution s3 = Ok [64%float].
Proof.
  intros pb.
  assert (K : match solve_seq (S:=Fops) (fun _ _ => 0%float) pb defopt (p_G pb) (sol_new Fops) [p_a pb; p_a pb; p_a pb] with
              | Ok l => map (fun r => (fst r, solution (snd r))) l = [(SUCCESS, Ok [1%float]); (SUCCESS, Ok [16%float]); (SUCCESS, Ok [64%float])] | UB => False end) by (vm_compute; reflexivity).
  destruct (solve_seq _ _ _ _ _ _) as [l|]; [|contradiction].
  destruct l as [|(a1, s1) [|(a2, s2) [|(a3, s3) [|]]]]; try discriminate. injection K as -> K1 -> K2 -> K3. exists s1, s2, s3. auto.
Qed.

(** ** The identity is its own factor *)
Lemma llt_id n k : forall c, (k + c = n)%nat -> llt_loop (S:=Rops) n k c idm = (None, idm).
Proof.
  intros c. revert k. induction c as [|c IH]; intros k Hk; [reflexivity|]. cbn [llt_loop].
  assert (Z : forall i, (k <= i)%nat -> rsum k (fun t => idm i t * idm k t) = 0).
  { intros i Hi. apply sum_zero. intros t Ht. unfold idm. destruct (Nat.eqb_spec i t); [lia|]. ring. }
  assert (E1 : subn (S:=Rops) [1; n; k; k]%nat k (idm k k) (fun j => mul Rops (idm k j) (idm k j)) = 1).
  { change (idm k k - rsum k (fun t => idm k t * idm k t) = 1). rewrite Z by auto. unfold idm. rewrite Nat.eqb_refl. ring. }
  rewrite E1. change (leb Rops 1 (zero Rops)) with (Rleb 1 0). destruct (Rleb_spec 1 0); [lra|].
  change (sqrt_ Rops 1) with (sqrt 1). rewrite sqrt_1, mm_id.
  match goal with |- llt_loop n (S k) c ?M = _ => replace M with idm; [apply IH; lia|] end.
  apply functional_extensionality. intros i. apply functional_extensionality. intros j.
  destruct (Nat.eqb_spec j k) as [->|]; cbn [andb]; [|reflexivity]. destruct (Nat.eqb_spec i k) as [->|]; [unfold idm; rewrite Nat.eqb_refl; reflexivity|].
  destruct (Nat.ltb_spec k i); cbn [andb]; [|reflexivity]. destruct (i <? n)%nat; [|reflexivity].
  change (idm i k = (idm i k - rsum k (fun t => idm i t * idm k t)) / 1). rewrite Z by lia. field.
Qed.
Lemma solve_keeps_id junk pb o a s st s' : history Rops s -> gi_solve junk (with_Ga pb idm a) o s = Ok (st, s') -> s_G s' = idm.
Proof.
  intros HH E. pose proof (hist_wf _ _ real_safe HH) as HW. set (pb' := with_Ga pb idm a) in *.
  assert (Hsz : sizes_ok pb' = true) by (unfold gi_solve in E; apply guard_ok in E; apply E).
  pose proof (gsolve_ub Rops junk pb' o s real_safe (leb_refl_R _) HW) as HU.
  destruct (gsolve_result Rops junk pb' o s real_safe (leb_refl_R _) HW Hsz) as (st1 & s1 & E1 & [D1 D2 D3] & D4).
  { intros El. destruct (Nat.le_gt_cases (length (geqs Rops pb' (gcb Rops pb'))) (gn Rops pb')); auto.
    exfalso. assert (gi_solve junk pb' o s = UB) by (apply HU; auto). congruence. }
  rewrite E in E1. injection E1 as <- <-. rewrite D3. unfold pb'. cbn [with_Ga p_G]. unfold llt. rewrite llt_id by reflexivity. reflexivity.
Qed.
(** With the identity, as in the benchmark, passing the same matrix again is harmless: each call is the call with the identity. *)
Theorem C67_identity_harmless : forall junk pb o s as_ l k a st t, history Rops s -> solve_seq junk pb o idm s as_ = Ok l ->
  nth_error as_ k = Some a -> nth_error l k = Some (st, t) ->
  forall junk2, exists t2, gi_solve junk2 (with_Ga pb idm a) o (sol_new Rops) = Ok (st, t2) /\ iterations t2 = iterations t /\
      (st <> NON_POS_HESSIAN -> solution t2 = solution t /\ activeSet t2 = activeSet t /\ objectiveValue t2 = objectiveValue t /\
        exists lam u1 u2, multipliers t2 = Ok (lam, u1) /\ multipliers t = Ok (lam, u2)).
Proof.
  intros junk pb o s as_. revert s. induction as_ as [|b r IH]; intros s l k a st t Hh E Ea El junk2; [destruct k; discriminate|].
  apply seq_inv in E as (st1 & s1 & l' & E1 & E2 & ->).
  assert (Hh1 : history Rops s1) by (eapply h_solve; [exact Hh| |exact E1]; apply leb_refl_R).
  rewrite (solve_keeps_id _ _ _ _ _ _ _ Hh E1) in E2. destruct k as [|k]; [|exact (IH s1 l' k a st t Hh1 E2 Ea El junk2)].
  cbn in Ea, El. injection Ea as ->. injection El as -> ->.
  destruct (gi_solve junk2 (with_Ga pb idm a) o (sol_new Rops)) as [(st2, t2)|] eqn:E3.
  - destruct (C16_history_independent Rops _ _ _ o _ _ _ _ _ _ real_safe (h_new Rops) Hh (leb_refl_R _) E3 E1) as (K1 & K2 & K3). subst st2.
    exists t2. split; [reflexivity|]. split; [exact K2|exact K3].
  - pose proof (C16_defined_independent Rops _ (junk (length r)) _ o _ s real_safe (h_new Rops) Hh (leb_refl_R _) E3) as K. congruence.
Qed.

(** * C68 *)
(** The polytope of the benchmark: n variables in [-1,1], mi half-spaces (or slabs) of normals c_i *)
Definition in_polytope (n mi : nat) (ds : bool) (c : nat -> rvec) (x : rvec) : Prop :=
  (forall i, (i < mi)%nat -> rdot n (c i) x <= 1 /\ (ds = true -> -1 <= rdot n (c i) x)) /\
  (forall i, (i < n)%nat -> -1 <= x i <= 1).
(** x is the point of the polytope that is closest to y, and the only one *)
Definition nearest (n mi : nat) (ds : bool) (c : nat -> rvec) (y x : rvec) : Prop :=
  in_polytope n mi ds c x /\
  forall z, in_polytope n mi ds c z -> dist2 n x y <= dist2 n z y /\ (dist2 n z y <= dist2 n x y -> forall i, (i < n)%nat -> z i = x i).
(** the argument list of the calls *)
Definition ws_call (n mi : nat) (ds : bool) (draws : nat -> rvec) : rproblem :=
  Pb (S:=Rops) idm n n (fun _ => 0) n (fun i j => normalize n (draws j) i) n mi
    (fun _ => if ds then Some (-1) else None) mi (fun _ => Some 1) mi (fun _ => Some (-1)) n (fun _ => Some 1) n.

Lemma ws_wf n mi ds draws : qpsep_wf (generateWSProblem n mi ds draws) = Ok true.
Proof.
  unfold qpsep_wf, qp_wellFormed, sc_wellFormed, fc_wellFormed, generateWSProblem. cbn [qpF qpG qpa sbase sE sf fC fl fu fxl fxu ft bn ba mr mc ma vn va].
  rewrite !Nat.eqb_refl. cbn [andb guard bind].
  assert (F1 : forallb (fun i => ble true (if ds then Some (-1) else None) (Some 1)) (seq 0 mi) = true).
  { apply forallb_forall. intros i _. destruct ds; cbn; [|reflexivity]. destruct (Rltb_spec (-1) 1); [reflexivity|lra]. }
  assert (F2 : forallb (fun i => ble false (Some (-1)) (Some 1)) (seq 0 n) = true).
  { apply forallb_forall. intros i _. cbn. destruct (Rleb_spec (-1) 1); [reflexivity|lra]. }
  rewrite F1, F2. destruct (n =? 0)%nat; reflexivity.
Qed.
(** the conversion to the arguments of the solver, problemAdaptors (GIPb) *)
Lemma ws_gi n mi ds draws : exists g, gi_pb (generateWSProblem n mi ds draws) = Ok g /\
  (forall x, feasible (call_of g) x <-> feasible (ws_call n mi ds draws) x) /\ call_of g = with_Ga (call_of g) idm (fun _ => 0) /\
  nv (call_of g) = n /\ nc (call_of g) = mi /\ nb (call_of g) = n /\ call_of g = ws_call n mi ds draws.
Proof.
  pose proof (ws_wf n mi ds draws) as W. unfold qpsep_wf, qp_wellFormed in W. apply bind_ok in W as (b1 & Wb & W). injection W as W. rewrite !andb_true_iff in W. destruct W as (((-> & _) & _) & _).
  cbn [generateWSProblem qpF] in Wb.
  unfold gi_pb, qp_of_qp, joint_of_sep. cbn [generateWSProblem qpF]. rewrite Wb. cbn [bind guard sbase sE sf ft fC fl fu fxl fxu mr mc ma bn ba vn va].
  eexists. split; [reflexivity|].
  assert (E : forall g, g = ws_call n mi ds draws -> (forall x, feasible g x <-> feasible (ws_call n mi ds draws) x) /\ g = with_Ga g idm (fun _ => 0) /\ nv g = n /\ nc g = mi /\ nb g = n /\ g = ws_call n mi ds draws).
  { intros g ->. split; [intros x; apply iff_refl|]. do 4 (split; [reflexivity|]). reflexivity. }
  apply E. unfold call_of, ws_call. cbn [qpF qpG qpa qpcst fC fl fu fxl fxu mr mc ma bn ba vn va tr_ ft].
  rewrite ?Nat.add_0_r, ?Nat.add_0_l. f_equal; try (apply functional_extensionality; intros i; rewrite ?Nat.sub_0_r; reflexivity).
  apply functional_extensionality; intros i. apply functional_extensionality; intros j. rewrite ?Nat.sub_0_r. reflexivity.
Qed.
Lemma idm_sum n (f : rvec) i : (i < n)%nat -> rsum n (fun j => gsym idm i j * f j) = f i.
Proof.
  intros Hi. rewrite (sum_ext n _ (fun j => if (j =? i)%nat then f j else 0)).
  - apply sum_delta; auto.
  - intros j Hj. unfold gsym, idm. destruct (Nat.eqb_spec j i) as [->|Hne].
    + rewrite Nat.leb_refl, Nat.eqb_refl. ring.
    + destruct (j <=? i)%nat; [destruct (Nat.eqb_spec i j)|destruct (Nat.eqb_spec j i)]; try lia; ring.
Qed.
Section WS.
Variables (n mi : nat) (ds : bool) (draws : nat -> rvec).
Notation c := (fun i => normalize n (draws i)).
Notation pb := (ws_call n mi ds draws).

Lemma ws_feasible a x : feasible (with_Ga pb idm a) x <-> in_polytope n mi ds c x.
Proof.
  unfold feasible, in_polytope, nc, nb, nv. cbn [with_Ga ws_call p_Grows p_Ccols p_C p_bl p_bu p_xl p_xu p_xlsize].
  split; intros (H1 & H2); (split; [|intros i Hi; specialize (H2 i Hi); cbn in *; lra]); intros i Hi; specialize (H1 i Hi); cbn [above_lo below_up] in *.
  - split; [apply H1|]. intros ->. apply H1.
  - split; [destruct ds; cbn [above_lo]; [apply H1; reflexivity|exact I]|apply H1].
Qed.
Lemma ws_objective a x : objective (with_Ga pb idm a) x = / 2 * dist2 n x (fun i => - a i) - / 2 * rdot n a a.
Proof.
  unfold objective, quad, nv. cbn [with_Ga ws_call p_Grows p_a]. unfold hess. cbn [with_Ga p_G].
  rewrite (sum_ext n _ (fun i => x i * x i)) by (intros i Hi; rewrite idm_sum; auto).
  unfold dist2. rewrite !dot_def.
  rewrite (sum_ext n (fun i => (x i - - a i) * (x i - - a i)) (fun i => x i * x i + (2 * (a i * x i) + a i * a i))) by (intros; ring).
  rewrite !sum_plus, sum_scal. lra.
Qed.
Lemma ws_posdef a : posdef (nv (with_Ga pb idm a)) (hess (with_Ga pb idm a)).
Proof.
  intros v (k & Hk & Hv). unfold quad, hess. cbn [with_Ga p_G]. change (nv (with_Ga pb idm a)) with n in *.
  rewrite (sum_ext n _ (fun i => v i * v i)) by (intros i Hi; rewrite idm_sum; auto).
  rewrite (sum_extract n k) by auto. assert (0 <= rsum n (fun i => if (i =? k)%nat then 0 else v i * v i)).
  { apply sum_nonneg. intros i Hi. destruct (i =? k)%nat; nra. }
  nra.
Qed.
Lemma ws_no_equality a i : ~ is_equality (with_Ga pb idm a) i.
Proof.
  intros (b & L & U). unfold clo, cup in L, U. cbn [with_Ga ws_call p_bl p_bu p_xl p_xu] in L, U.
  destruct (i <? _)%nat; [destruct ds; [|discriminate]|]; injection L as <-; injection U as U; lra.
Qed.
Lemma ws_ordered a : GIRun.ordered (with_Ga pb idm a).
Proof.
  intros i l u Hi L U. unfold clo, cup in L, U. cbn [with_Ga ws_call p_bl p_bu p_xl p_xu] in L, U.
  destruct (i <? _)%nat; [destruct ds; [|discriminate]|]; injection L as <-; injection U as <-; lra.
Qed.
Lemma ws_sizes a : sizes_ok (with_Ga pb idm a) = true.
Proof. unfold sizes_ok. cbn [with_Ga ws_call p_Grows p_Gcols p_asize p_Crows p_Ccols p_blsize p_busize p_xlsize p_xusize]. rewrite !Nat.eqb_refl. reflexivity. Qed.
Lemma ws_gap a : tolerance_gap pb -> tolerance_gap (with_Ga pb idm a).
Proof. intros H W i z r Hi [P1 P2 P3]. apply (H W i z r Hi). split; [exact P1|exact P2|exact P3]. Qed.
Lemma ws_origin : in_polytope n mi ds c (fun _ => 0).
Proof.
  split; [|intros; lra]. intros i Hi. replace (rdot n (c i) (fun _ => 0)) with 0; [lra|]. symmetry. rewrite dot_def. apply sum_zero. intros; ring.
Qed.

Lemma ws_one a : tolerance_gap pb -> forall B, steps_below (with_Ga pb idm a) B -> forall o junk s, B <= o_bigBnd o -> (let m := (mi + n)%nat in m + 2 * 3 ^ m <= o_maxIter o)%nat -> history Rops s ->
   exists s', gi_solve junk (with_Ga pb idm a) o s = Ok (SUCCESS, s') /\ exists x, solution s' = Ok x /\ length x = n /\ nearest n mi ds c (fun i => - a i) (vec_of x) /\
     objectiveValue s' = / 2 * dist2 n (vec_of x) (fun i => - a i) - / 2 * rdot n a a.
Proof.
  intros HG B HB o junk s H1 H2 H3. pose proof (total_correct_at (with_Ga pb idm a) B (ws_sizes a) (ws_posdef a) (ws_ordered a)) as HT.
  destruct HT with (o := o) (junk := junk) (s := s) as (st & s' & E & [(-> & x & lam & s2 & X1 & X2 & X3 & X4 & X5 & (U1 & U2) & X7)|(_ & Hi)]); auto.
  - intros i j _ _ Hj. destruct (ws_no_equality a j Hj).
  - intros w Hw _ i Hi. apply Hw; auto. apply ws_no_equality.
  - apply ws_gap. exact HG.
  - exists s'. split; [exact E|]. exists x. split; [exact X1|]. split; [exact X3|]. split; [|rewrite X7, ws_objective; reflexivity].
    split; [apply (ws_feasible a); exact U1|]. intros z Hz. destruct (U2 z (proj2 (ws_feasible a z) Hz)) as [A1 A2]. rewrite !ws_objective in A1, A2.
    split; [lra|]. intros Hd. apply A2. lra.
  - destruct (Hi (fun _ => 0)). apply ws_feasible. apply ws_origin.
Qed.
End WS.

(** The whole loop: every call succeeds and returns the point of the polytope nearest to the opposite of the linear cost, whatever
    the object did before and although all the calls share the matrix G. *)
Theorem C68_benchmark_loop : forall n mi ds draws as_, tolerance_gap (ws_call n mi ds draws) ->
  (exists B, forall a, In a as_ -> steps_below (with_Ga (ws_call n mi ds draws) idm a) B) /\
  forall B, (forall a, In a as_ -> steps_below (with_Ga (ws_call n mi ds draws) idm a) B) ->
  forall o junk s, B <= o_bigBnd o -> (let m := (mi + n)%nat in m + 2 * 3 ^ m <= o_maxIter o)%nat -> history Rops s ->
   exists l, solve_seq junk (ws_call n mi ds draws) o idm s as_ = Ok l /\
     Forall2 (fun a r => fst r = SUCCESS /\ exists x, solution (snd r) = Ok x /\ length x = n /\ nearest n mi ds (fun i => normalize n (draws i)) (fun i => - a i) (vec_of x)) as_ l.
Proof.
  intros n mi ds draws as_ HG. split.
  { induction as_ as [|a r (B & IH)]; [exists 0; intros a []|].
    destruct (limit_exists (with_Ga (ws_call n mi ds draws) idm a) (ws_posdef n mi ds draws a)) as (B1 & H1). exists (Rmax B B1).
    intros a' [<-|Ha]; [apply (steps_below_le _ (ws_posdef n mi ds draws _) B1)|apply (steps_below_le _ (ws_posdef n mi ds draws _) B)]; auto; try apply ws_posdef; [apply Rmax_r|apply Rmax_l]. }
  intros B. induction as_ as [|a r IH]; intros HB o junk s Hb Hm Hh.
  - exists []. split; [reflexivity|constructor].
  - destruct (ws_one n mi ds draws a HG B (HB a (or_introl eq_refl)) o (junk (length r)) s Hb Hm Hh) as (s' & E & x & X1 & X2 & X3 & _).
    assert (Hh' : history Rops s') by (eapply h_solve; [exact Hh| |exact E]; apply leb_refl_R).
    destruct (IH (fun a' Ha => HB a' (or_intror Ha)) o junk s' Hb Hm Hh') as (l & El & Fl).
    exists ((SUCCESS, s') :: l). split; [|constructor; [split; [reflexivity|exists x; auto]|exact Fl]].
    cbn [solve_seq]. rewrite E. cbn [bind snd]. rewrite (solve_keeps_id _ _ _ _ _ _ _ Hh E), El. reflexivity.
Qed.

(** The generated problem is well formed, is converted to the call above, and its constraints are tangent to the unit ball, which
    they contain; the origin is inside. *)
Theorem C68_ws_problem : forall n mi ds draws, qpsep_wf (generateWSProblem n mi ds draws) = Ok true /\
  (exists g, gi_pb (generateWSProblem n mi ds draws) = Ok g /\ call_of g = ws_call n mi ds draws) /\
  (forall x, sc_feasible (qpF (generateWSProblem n mi ds draws)) x <-> in_polytope n mi ds (fun i => normalize n (draws i)) x) /\
  (forall x, rdot n x x <= 1 -> in_polytope n mi ds (fun i => normalize n (draws i)) x) /\
  (forall i, (i < mi)%nat -> (exists k, (k < n)%nat /\ draws i k <> 0) -> let t := normalize n (draws i) in
     rdot n t t = 1 /\ forall x, rdot n x x = 1 -> rdot n t x = 1 -> forall k, (k < n)%nat -> x k = t k).
Proof.
  intros n mi ds draws. split; [apply ws_wf|].
  destruct (ws_gi n mi ds draws) as (g & Eg & _ & _ & _ & _ & _ & Ec). split; [exists g; auto|].
  split.
  { intros x. destruct (C57_same_problem _ (ws_wf n mi ds draws) eq_refl) as (g' & Eg' & _ & _ & F & _). rewrite Eg in Eg'. injection Eg' as <-. rewrite <- F, Ec.
    rewrite <- (ws_feasible n mi ds draws (fun _ => 0)). reflexivity. }
  split.
  - intros x Hx. split.
    + intros i Hi. set (t := normalize n (draws i)).
      assert (Ht : rdot n t t <= 1).
      { destruct (all_zero_dec n (draws i)) as [Hz|(k & Hk & Hz)].
        - replace (rdot n t t) with 0; [lra|]. symmetry. rewrite dot_def. apply sum_zero. intros k Hk. unfold t, normalize. destruct (Rltb 0 _); rewrite Hz by auto; unfold Rdiv; ring.
        - unfold t. rewrite dot_def, (normalize_unit n (draws i) k Hk Hz). lra. }
      assert (Hsq : forall s, (s = 1 \/ s = -1) -> 0 <= rdot n t t - 2 * s * rdot n t x + rdot n x x).
      { intros s Hs. rewrite !dot_def. replace (rsum n (fun k => t k * t k) - 2 * s * rsum n (fun k => t k * x k) + rsum n (fun k => x k * x k)) with (rsum n (fun k => (t k - s * x k) * (t k - s * x k))).
        - apply sum_nonneg. intros k Hk. apply Rle_0_sqr.
        - rewrite (sum_ext n (fun k => (t k - s * x k) * (t k - s * x k)) (fun k => t k * t k + (- (2 * s) * (t k * x k) + x k * x k))).
          + rewrite !sum_plus, sum_scal. lra.
          + intros k Hk. destruct Hs as [-> | ->]; ring. }
      pose proof (Hsq 1 (or_introl eq_refl)). pose proof (Hsq (-1) (or_intror eq_refl)). split; [lra|]. intros _. lra.
    + intros i Hi. pose proof (entry_sq n x i Hi). nra.
  - intros i Hi (k & Hk & Hz) t. assert (Ht : rdot n t t = 1) by (rewrite dot_def; exact (normalize_unit n (draws i) k Hk Hz)). split; [exact Ht|].
    intros x Hx Htx j Hj.
    assert (E0 : rdot n (fun k => x k - t k) (fun k => x k - t k) = 0).
    { rewrite dot_def, (sum_ext n _ (fun k => x k * x k + (- 2 * (t k * x k) + t k * t k))) by (intros; ring). rewrite !sum_plus, sum_scal. rewrite dot_def in Hx, Htx, Ht. lra. }
    pose proof (entry_sq n (fun k => x k - t k) j Hj) as K. cbv beta in K. rewrite E0 in K. nra.
Qed.

(** ** The path of the linear cost *)
Definition independent2 (n : nat) (u v : rvec) : Prop := forall s t, (forall k, (k < n)%nat -> s * u k + t * v k = 0) -> s = 0 /\ t = 0.

Lemma dot_comb n (x u v : rvec) a b : rdot n x (fun i => a * u i + b * v i) = a * rdot n x u + b * rdot n x v.
Proof. rewrite !dot_def, <- !sum_scal, <- sum_plus. apply sum_ext. intros; ring. Qed.
Lemma dot_comm_ n (x y : rvec) : rdot n x y = rdot n y x.
Proof. rewrite !dot_def. apply sum_ext. intros; ring. Qed.
Lemma dot_comb2 n (u v : rvec) a b : rdot n (fun i => a * u i + b * v i) (fun i => a * u i + b * v i) = a * a * rdot n u u + 2 * a * b * rdot n u v + b * b * rdot n v v.
Proof. rewrite dot_comb, (dot_comm_ n _ u), (dot_comm_ n _ v), !dot_comb, (dot_comm_ n v u). ring. Qed.
Lemma dot_pos n (x : rvec) : (exists k, (k < n)%nat /\ x k <> 0) -> 0 < rdot n x x.
Proof. intros (k & Hk & Hx). pose proof (entry_sq n x k Hk). assert (0 < x k * x k) by nra. lra. Qed.
Lemma dot_nn n (x : rvec) : 0 <= rdot n x x.
Proof. rewrite dot_def. apply sum_nonneg. intros. apply Rle_0_sqr. Qed.
Lemma dot_null n (x : rvec) : rdot n x x <= 0 -> forall k, (k < n)%nat -> x k = 0.
Proof. intros H k Hk. pose proof (entry_sq n x k Hk). nra. Qed.
Lemma norm2_sq n x : norm2 n x * norm2 n x = rdot n x x.
Proof. apply sqrt_sqrt, dot_nn. Qed.
Lemma norm2_eq n x y : norm2 n x = norm2 n y -> rdot n x x = rdot n y y.
Proof. intros H. rewrite <- !norm2_sq, H. reflexivity. Qed.
Lemma indep_pos n u v : independent2 n u v -> 0 < rdot n u u /\ 0 < rdot n v v.
Proof.
  intros H. split.
  - destruct (Rle_lt_dec (rdot n u u) 0) as [Hn|]; [|assumption]. exfalso. destruct (H 1 0) as [A _]; [|lra]. intros k Hk. rewrite (dot_null n u Hn k Hk). ring.
  - destruct (Rle_lt_dec (rdot n v v) 0) as [Hn|]; [|assumption]. exfalso. destruct (H 0 1) as [_ A]; [|lra]. intros k Hk. rewrite (dot_null n v Hn k Hk). ring.
Qed.
Lemma norm_pos n x : 0 < rdot n x x -> 0 < norm2 n x.
Proof. apply sqrt_lt_R0. Qed.

(** The doc comment of decomposedRotation ("Find v and a, such that p2 = cos(a) p1 + sin(a) v for p1 and p2 two vectors of same
    size and norm") holds exactly when the two vectors are not collinear; otherwise v is not a vector of numbers. *)
Theorem C68_rotation : forall n p1 p2, norm2 n p1 = norm2 n p2 -> exists ov oa, decomposedRotation n n p1 p2 = Ok (ov, oa) /\
  (independent2 n p1 p2 -> exists v a, ov = Some v /\ oa = Some a /\ 0 < a < PI /\ norm2 n v = norm2 n p1 /\ rdot n p1 v = 0 /\
     forall i, p2 i = cos a * p1 i + sin a * v i) /\
  (~ independent2 n p1 p2 -> ov = None).
Proof.
  intros n p1 p2 Hn. pose proof (norm2_eq n p1 p2 Hn) as Hd. unfold decomposedRotation. rewrite Nat.eqb_refl. cbn [guard].
  assert (Ha : Rltb (norm2 n p1 - norm2 n p2) (/ 10 ^ 14) = true).
  { destruct (Rltb_spec (norm2 n p1 - norm2 n p2) (/ 10 ^ 14)); [reflexivity|]. destruct eps_pos. lra. }
  rewrite Ha. cbn [guard]. destruct (Rleb_spec (rdot n p1 p1) 0) as [Hz|Hz].
  { eexists _, _. split; [reflexivity|]. split; [|reflexivity]. intros Hi. destruct (indep_pos _ _ _ Hi). lra. }
  apply Rnot_le_lt in Hz. set (q := rdot n p1 p1) in *. set (c := rdot n p1 p2 / q). set (v0 := fun i => p2 i - c * p1 i).
  assert (Ec : rdot n p1 p2 = c * q) by (unfold c; field; lra).
  assert (Ev : rdot n v0 v0 = q * (1 - c * c)).
  { transitivity (rdot n (fun i => 1 * p2 i + (- c) * p1 i) (fun i => 1 * p2 i + (- c) * p1 i)).
    - rewrite !dot_def. apply sum_ext. intros i _. unfold v0. ring.
    - rewrite dot_comb2, (dot_comm_ n p2 p1), Ec, <- Hd. fold q. ring. }
  assert (Eo : rdot n p1 v0 = 0).
  { transitivity (rdot n p1 (fun i => 1 * p2 i + (- c) * p1 i)).
    - rewrite !dot_def. apply sum_ext. intros i _. unfold v0. ring.
    - rewrite dot_comb, Ec. fold q. ring. }
  eexists _, _. split; [reflexivity|]. split.
  - intros Hi.
    assert (Hv : 0 < rdot n v0 v0).
    { destruct (Rle_lt_dec (rdot n v0 v0) 0) as [H0|]; [|assumption]. exfalso. destruct (Hi (- c) 1) as [_ A]; [|lra].
      intros k Hk. pose proof (dot_null n v0 H0 k Hk) as K. unfold v0 in K. lra. }
    assert (Hc2 : 0 < 1 - c * c) by (apply (Rmult_lt_reg_l q); [exact Hz|]; rewrite <- Ev; lra).
    assert (Hc : -1 < c < 1) by (split; nra).
    pose proof (norm_pos _ _ Hv) as Hnv. destruct (Rleb_spec (norm2 n v0) 0); [lra|].
    destruct (Rleb_spec (-1) c) as [|HH]; [|exfalso; lra]. destruct (Rleb_spec c 1) as [|HH]; [|exfalso; lra]. cbn [andb].
    pose proof (norm_pos _ _ Hz) as Hnp. set (k := norm2 n p1 / norm2 n v0).
    exists (fun i => v0 i * k), (acos c). split; [reflexivity|]. split; [reflexivity|].
    split; [split; [apply acos_bound_lt; auto|apply acos_bound_lt; auto]|].
    assert (Ekk : rdot n (fun i => v0 i * k) (fun i => v0 i * k) = k * k * rdot n v0 v0) by (rewrite !dot_def, <- sum_scal; apply sum_ext; intros; ring).
    assert (Ek1 : k * norm2 n v0 = norm2 n p1) by (unfold k; field; lra).
    split.
    { unfold norm2 at 1. rewrite Ekk, <- norm2_sq. replace (k * k * (norm2 n v0 * norm2 n v0)) with ((k * norm2 n v0) * (k * norm2 n v0)) by ring. rewrite Ek1. apply sqrt_square. lra. }
    split.
    { transitivity (k * rdot n p1 v0); [|rewrite Eo; ring]. rewrite !dot_def, <- sum_scal. apply sum_ext. intros; ring. }
    assert (Hs : sin (acos c) * k = 1).
    { rewrite sin_acos by lra. assert (E : norm2 n v0 = norm2 n p1 * sqrt (1 - Rsqr c)).
      { unfold norm2. rewrite <- sqrt_mult; [|apply dot_nn|unfold Rsqr; nra]. rewrite Ev. reflexivity. }
      unfold k. rewrite E. assert (0 < sqrt (1 - Rsqr c)) by (apply sqrt_lt_R0; unfold Rsqr; nra). field. split; lra. }
    intros i. rewrite cos_acos by lra. replace (sin (acos c) * (v0 i * k)) with ((sin (acos c) * k) * v0 i) by ring. rewrite Hs. unfold v0. ring.
  - intros Hni. destruct (Rleb_spec (norm2 n v0) 0) as [|Hp]; [reflexivity|]. exfalso. apply Hni. intros s t Hst.
    assert (Hv : 0 < rdot n v0 v0) by (rewrite <- norm2_sq; nra).
    assert (A1 : rdot n v0 (fun i => s * p1 i + t * p2 i) = 0).
    { rewrite dot_def. apply sum_zero. intros k Hk. rewrite Hst by auto. ring. }
    assert (A2 : rdot n p1 (fun i => s * p1 i + t * p2 i) = 0).
    { rewrite dot_def. apply sum_zero. intros k Hk. rewrite Hst by auto. ring. }
    rewrite dot_comb in A1, A2. rewrite (dot_comm_ n v0 p1), Eo in A1.
    assert (A3 : rdot n v0 p2 = rdot n v0 v0).
    { transitivity (rdot n v0 (fun i => 1 * v0 i + c * p1 i)); [rewrite !dot_def; apply sum_ext; intros; unfold v0; ring|]. rewrite dot_comb, (dot_comm_ n v0 p1), Eo. ring. }
    rewrite A3 in A1. assert (t = 0) by nra. split; [|assumption]. subst t. fold q in A2. nra.
Qed.

(** The assertion that guards it has no absolute value: a longer p2 passes, and the angle is not a number. *)
Theorem C68_assert_one_sided : let p1 := fun i => if (i =? 0)%nat then 1 else 0 in let p2 := fun i => if (i =? 0)%nat then 2 else 1 in
  norm2 2 p1 <> norm2 2 p2 /\ exists v, decomposedRotation 2 2 p1 p2 = Ok (v, None).
Proof.
  intros p1 p2.
  assert (E1 : rdot 2 p1 p1 = 1) by (rewrite dot_def, !sum_S, sum_0; unfold p1; cbn [Nat.eqb]; ring).
  assert (E2 : rdot 2 p2 p2 = 5) by (rewrite dot_def, !sum_S, sum_0; unfold p2; cbn [Nat.eqb]; ring).
  assert (E3 : rdot 2 p1 p2 = 2) by (rewrite dot_def, !sum_S, sum_0; unfold p1, p2; cbn [Nat.eqb]; ring).
  assert (L : norm2 2 p1 < norm2 2 p2) by (unfold norm2; rewrite E1, E2; apply sqrt_lt_1; lra).
  split; [lra|]. unfold decomposedRotation. cbn [Nat.eqb guard]. destruct (Rltb_spec (norm2 2 p1 - norm2 2 p2) (/ 10 ^ 14)) as [|H]; [|destruct eps_pos; lra].
  cbn [guard]. rewrite E1, E3. destruct (Rleb_spec 1 0); [lra|]. destruct (Rleb_spec (2 / 1) 1); [lra|]. rewrite andb_false_r. eexists. reflexivity.
Qed.

(** A problem of the collection: the linear cost starts at p1, aims at p2 and stays on the sphere of radius 2 sqrt n, outside the
    open ball of radius 1 that the constraints contain. *)
Theorem C68_path : forall n d1 d2, (exists k, (k < n)%nat /\ d2 k <> 0) -> exists ow, generatePath n d1 d2 = Ok ow /\
  (ow = None <-> ~ independent2 n d1 d2) /\
  forall w, ow = Some w ->
    (exists s, 0 < s /\ forall i, geta w 0 i = s * d1 i) /\ (exists s, 0 < s /\ forall i, geta w 1 i = s * d2 i) /\
    (forall t, rdot n (geta w t) (geta w t) = 4 * INR n) /\
    exists a, 0 < a < PI /\ forall t t', rdot n (geta w t) (geta w t') = 4 * INR n * cos ((t' - t) * a).
Proof.
  intros n d1 d2 Hd2. set (r := 2 * sqrt (INR n)). set (p1 := fun i => r * normalize n d1 i). set (p2 := fun i => r * normalize n d2 i).
  assert (Hr : 0 <= r) by (unfold r; pose proof (sqrt_pos (INR n)); lra).
  assert (Hrr : r * r = 4 * INR n) by (unfold r; replace (2 * sqrt (INR n) * (2 * sqrt (INR n))) with (4 * (sqrt (INR n) * sqrt (INR n))) by ring; rewrite sqrt_sqrt; [ring|apply pos_INR]).
  assert (Hnm : forall d, rdot n d d = 0 \/ 0 < rdot n d d /\ exists s, 0 < s /\ forall i, normalize n d i = s * d i).
  { intros d. destruct (all_zero_dec n d) as [Hz|(k & Hk & Hz)].
    - left. rewrite dot_def. apply sum_zero. intros i Hi. rewrite Hz by auto. ring.
    - right. assert (H : 0 < rdot n d d) by (apply dot_pos; eauto). split; [exact H|]. rewrite dot_def in H. unfold normalize.
      destruct (Rltb_spec 0 (rsum n (fun k => d k * d k))); [|lra]. exists (/ sqrt (rsum n (fun k => d k * d k))).
      split; [apply Rinv_0_lt_compat, sqrt_lt_R0; lra|]. intros i. unfold Rdiv. ring. }
  assert (Hpp : forall d, 0 < rdot n d d -> rdot n (fun i => r * normalize n d i) (fun i => r * normalize n d i) = 4 * INR n).
  { intros d Hp. destruct (all_zero_dec n d) as [Hz|(k & Hk & Hz)].
    - exfalso. rewrite dot_def, sum_zero in Hp; [lra|]. intros i Hi. rewrite Hz by auto. ring.
    - rewrite dot_def, (sum_ext n _ (fun i => (r * r) * (normalize n d i * normalize n d i))) by (intros; ring). rewrite sum_scal, (normalize_unit n d k Hk Hz), Hrr. ring. }
  assert (Hz0 : forall d, rdot n d d = 0 -> rdot n (fun i => r * normalize n d i) (fun i => r * normalize n d i) = 0).
  { intros d Hd. rewrite dot_def. apply sum_zero. intros i Hi. unfold normalize. destruct (Rltb 0 _); rewrite (dot_null n d (Req_le _ _ Hd) i Hi); unfold Rdiv; ring. }
  unfold generatePath. fold r. fold p1. fold p2.
  destruct (Hnm d1) as [Z1|(P1 & s1 & S1 & N1)].
  { (* a null draw *)
    assert (Hnp1 : norm2 n p1 = 0) by (unfold norm2; pose proof (Hz0 d1 Z1) as K; fold p1 in K; rewrite K; apply sqrt_0).
    assert (Ed : decomposedRotation n n p1 p2 = Ok (None, None)).
    { unfold decomposedRotation. rewrite Nat.eqb_refl. cbn [guard]. destruct (Rltb_spec (norm2 n p1 - norm2 n p2) (/ 10 ^ 14)) as [|H].
      - cbn [guard]. destruct (Rleb_spec (rdot n p1 p1) 0); [reflexivity|]. pose proof (Hz0 d1 Z1) as K. fold p1 in K. lra.
      - exfalso. rewrite Hnp1 in H. pose proof (sqrt_pos (rdot n p2 p2)). unfold norm2 in H. destruct eps_pos. lra. }
    rewrite Ed. cbn [bind]. exists None. split; [reflexivity|]. split; [|discriminate]. split; [|reflexivity]. intros _ Hi. destruct (indep_pos _ _ _ Hi). lra. }
  destruct (Hnm d2) as [Z2|(P2 & s2 & S2 & N2)].
  { exfalso. pose proof (dot_pos n d2 Hd2). lra. }
  assert (Hq1 : rdot n p1 p1 = 4 * INR n) by (apply Hpp; auto). assert (Hq2 : rdot n p2 p2 = 4 * INR n) by (apply Hpp; auto).
  assert (Hn : 0 < INR n) by (destruct Hd2 as (k & Hk & _); apply lt_0_INR; lia). assert (Hr0 : 0 < r) by nra.
  assert (Hind : independent2 n p1 p2 <-> independent2 n d1 d2).
  { unfold independent2, p1, p2. split; intros H s t Hst.
    - destruct (H (s / (r * s1)) (t / (r * s2))) as [A B].
      + intros k Hk. rewrite N1, N2. rewrite <- (Hst k Hk). field. repeat split; lra.
      + split; [apply (Rmult_eq_reg_r (/ (r * s1)))|apply (Rmult_eq_reg_r (/ (r * s2)))]; try (apply Rinv_neq_0_compat; nra); unfold Rdiv in A, B; lra.
    - destruct (H (s * (r * s1)) (t * (r * s2))) as [A B].
      + intros k Hk. rewrite <- (Hst k Hk), N1, N2. ring.
      + split; [apply (Rmult_eq_reg_r (r * s1))|apply (Rmult_eq_reg_r (r * s2))]; nra. }
  destruct (C68_rotation n p1 p2) as (ov & oa & E & RI & RN); [unfold norm2; rewrite Hq1, Hq2; reflexivity|].
  rewrite E. cbn [bind]. eexists. split; [reflexivity|].
  destruct (classic (independent2 n p1 p2)) as [Hi|Hi].
  - destruct (RI Hi) as (v & a & -> & -> & Ha & Hv & Ho & Hp). split; [split; [discriminate|intros H; destruct H; apply Hind; auto]|].
    intros w [= <-]. unfold geta. cbn [w_p1 w_p2 w_v w_a].
    split; [exists (r * s1); split; [nra|]; intros i; rewrite Rmult_0_l, cos_0, sin_0; unfold p1; rewrite N1; ring|].
    split; [exists (r * s2); split; [nra|]; intros i; rewrite Rmult_1_l, <- Hp; unfold p2; rewrite N2; ring|].
    assert (Hvv : rdot n v v = 4 * INR n) by (rewrite <- Hq1; apply norm2_eq; exact Hv).
    assert (K : forall t t', rdot n (fun i => cos (t * a) * p1 i + sin (t * a) * v i) (fun i => cos (t' * a) * p1 i + sin (t' * a) * v i) = 4 * INR n * cos ((t' - t) * a)).
    { intros t t'. rewrite dot_comb, (dot_comm_ n _ p1), (dot_comm_ n _ v), !dot_comb, (dot_comm_ n v p1), Ho, Hq1, Hvv.
      replace ((t' - t) * a) with (t' * a - t * a) by ring. rewrite cos_minus. ring. }
    split; [|exists a; split; [exact Ha|exact K]]. intros t. rewrite K. replace ((t - t) * a) with 0 by ring. rewrite cos_0. ring.
  - rewrite (RN Hi). split; [split; [intros _ H; apply Hi, Hind; auto|reflexivity]|]. intros w H. discriminate.
Qed.

(** ** The choice of the problem *)
(** value of the counter after k calls to a getter *)
Inductive after : nat -> Z -> Prop :=
| af_new : after 0 (-1)%Z
| af_get k i i' j : after k i -> getPb i = Ok (i', j) -> after (S k) i'.
Theorem C68_choice : (forall i, after 0 i -> geta_idx i = UB) /\
  forall k i, after k i -> exists i', getPb i = Ok (i', (k mod 50)%nat) /\ geta_idx i' = Ok (k mod 50)%nat.
Proof.
  assert (A : forall k i, after k i -> i = (Z.of_nat k - 1)%Z).
  { induction 1 as [|k i i' j H IH E]; [reflexivity|]. unfold getPb in E. apply bind_ok in E as (q & _ & E). injection E as <- <-. lia. }
  assert (B : forall k, at_pb (Z.of_nat k) = Ok (k mod 50)%nat).
  { intros k. unfold at_pb, NbPb. rewrite Z.rem_mod_nonneg by lia. pose proof (Z.mod_pos_bound (Z.of_nat k) 50 ltac:(lia)) as Hb.
    destruct (Z.leb_spec 0 (Z.of_nat k mod 50)%Z); [|lia]. destruct (Z.ltb_spec (Z.of_nat k mod 50)%Z 50); [|lia]. cbn [andb guard].
    f_equal. change 50%Z with (Z.of_nat 50). rewrite <- Nat2Z.inj_mod. apply Nat2Z.id. }
  split.
  - intros i H. rewrite (A _ _ H). reflexivity.
  - intros k i H. rewrite (A _ _ H). exists (Z.of_nat k). unfold getPb, geta_idx. replace (Z.of_nat k - 1 + 1)%Z with (Z.of_nat k) by lia. rewrite B. auto.
Qed.
Lemma after_exists : forall k, exists i, after k i.
Proof.
  induction k as [|k (i & H)]; [exists (-1)%Z; constructor|]. destruct (proj2 C68_choice k i H) as (i' & E & _). exists i'. eapply af_get; eauto.
Qed.

(** ** The hypotheses are met *)
Lemma ws_gap_one n ds draws : (forall k, (k < n)%nat -> let c := normalize n (draws 0%nat) in c k <> 0 -> / 10 ^ 14 * sqrt (rdot n c c) < Rabs (c k) /\ / 10 ^ 14 < Rabs (c k)) ->
  tolerance_gap (ws_call n 1 ds draws).
Proof.
  intros H. set (a := BA (S:=Rops) (fun _ => 0) n (normalize n (draws 0%nat)) n (Some (-1)) (fun _ => Some (-1)) n (fun _ => Some 1) n).
  assert (T : tolerance_gap (proj_pb a)) by (apply box_tolerance; [unfold box_sizes, a; cbn; rewrite !Nat.eqb_refl; reflexivity|intros k Hk Hc; cbn in *; destruct (H k Hk Hc); auto]).
  assert (EC : forall j b, cvec (ws_call n 1 ds draws) j b = cvec (proj_pb a) j b) by (intros [|j] b; reflexivity).
  intros W i z r Hi [P1 P2 P3]. apply (T W i z r Hi). split; [exact P1| |].
  - intros b Hb. transitivity (rsum n (fun b0 => hess (ws_call n 1 ds draws) b b0 * z b0)); [apply sum_ext; intros j Hj; reflexivity|].
    etransitivity; [exact (P2 b Hb)|]. rewrite EC. f_equal. apply sum_ext. intros j Hj. rewrite EC. reflexivity.
  - intros j Hj Wj. rewrite <- (P3 j Hj Wj), !dot_def. apply sum_ext. intros b Hb. rewrite EC. reflexivity.
Qed.

Lemma ws_gap_example ds : tolerance_gap (ws_call 2 1 ds (fun _ i => if (i =? 0)%nat then 3 else 4)).
Proof.
  apply ws_gap_one. intros k Hk c Hc. set (d := fun i => if (i =? 0)%nat then 3 else 4) in *.
  assert (Hs : rsum 2 (fun k => d k * d k) = 5 * 5) by (rewrite !sum_S, sum_0; unfold d; cbn [Nat.eqb]; ring).
  assert (Ec : forall i, c i = d i / 5).
  { intros i. unfold c, normalize. rewrite Hs, sqrt_square by lra. destruct (Rltb_spec 0 (5 * 5)); [reflexivity|lra]. }
  assert (H1 : rdot 2 c c = 1) by (rewrite dot_def, !sum_S, sum_0, !Ec; unfold d; cbn [Nat.eqb]; field).
  rewrite H1, sqrt_1, Rmult_1_r. assert (He : / 10 ^ 14 < Rabs (c k)); [|split; exact He].
  rewrite Ec, Rabs_pos_eq; unfold d; destruct (k =? 0)%nat; try lra; destruct eps_pos; lra.
Qed.
(** two calls of the loop, with the cost at (2 sqrt 2, 0) and then at (0, 2 sqrt 2) *)
Lemma C68_loop_instance : exists (o : options Rops) l,
  solve_seq (fun _ _ => 0) (ws_call 2 1 true (fun _ i => if (i =? 0)%nat then 3 else 4)) o idm (sol_new Rops)
    [(fun i => if (i =? 0)%nat then 2 * sqrt 2 else 0); (fun i => if (i =? 0)%nat then 0 else 2 * sqrt 2)] = Ok l /\ length l = 2%nat /\
  Forall (fun r => fst r = SUCCESS) l.
Proof.
  edestruct C68_benchmark_loop as ((B & HB) & H); [exact (ws_gap_example true)|].
  destruct (H B HB (Opt (S:=Rops) 1000 B false false) (fun _ _ => 0) (sol_new Rops)) as (l & E & F); [apply Rle_refl|cbn; lia|constructor|].
  exists (Opt (S:=Rops) 1000 B false false), l. split; [exact E|]. inversion F as [|x y lx ly R1 F1]; subst. inversion F1 as [|x1 y1 lx1 ly1 R2 F2]; subst. inversion F2; subst.
  split; [reflexivity|]. repeat constructor; [apply R1|apply R2].
Qed.
Lemma independent_example : independent2 2 (fun i => if (i =? 0)%nat then 3 else 4) (fun i => if (i =? 0)%nat then 1 else 0).
Proof. intros s t H. pose proof (H 0%nat ltac:(lia)) as H0. pose proof (H 1%nat ltac:(lia)) as H1. cbn in H0, H1. split; lra. Qed.

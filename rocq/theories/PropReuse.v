(** C62: re-using one warm-startable solver object. *)
From Coq Require Import PrimFloat.
From Coq Require Import List Arith ZArith Lia Bool.
From Verif Require Import Base ActiveSet ActiveSetProofs Num Solver LinAlg GIBase GIInv GISafe GICall GIHist GISame Warm WarmAS WarmSafe WarmHist WarmSame RunFloat FloatLaws PropSolver PropWarm.
Import ListNotations.

(** Two calls that cannot be told apart by the user: same status, iteration count
    and active set; same point, objective value and multipliers unless the call
    stopped before computing any. *)
Definition same_answers {S : ops} (st1 : term_status) (y1 : xsol S) (st2 : term_status) (y2 : xsol S) : Prop :=
  st1 = st2 /\ iterations (x_s y1) = iterations (x_s y2) /\ activeSet (x_s y1) = activeSet (x_s y2) /\
  (st1 <> NON_POS_HESSIAN -> st1 <> OVERCONSTRAINED_PROBLEM ->
     solution (x_s y1) = solution (x_s y2) /\ objectiveValue (x_s y1) = objectiveValue (x_s y2) /\
     exists lam u1 u2, multipliers (x_s y1) = Ok (lam, u1) /\ multipliers (x_s y2) = Ok (lam, u2)).

Lemma reuse_lemma (S : ops) junk1 junk2 pb G' o w1 w2 x1 x2 st1 y1 st2 y2 : safe_ops S -> xhistory S x1 -> xhistory S x2 -> leb S (o_bigBnd o) (o_bigBnd o) = true ->
  (forall i j, (j <= i)%nat -> (i < p_Grows pb)%nat -> p_G pb i j = G' i j) ->
  ws_eff S junk1 pb o w1 x1 = ws_eff S junk2 pb o w2 x2 ->
  xgi_solve junk1 pb o w1 x1 = Ok (st1, y1) -> xgi_solve junk2 (same_but_G pb G') o w2 x2 = Ok (st2, y2) -> same_answers st1 y1 st2 y2.
Proof.
  intros HO H1 H2 HB HG Ew E1 E2. pose proof (xhist_wf S x1 HO H1) as W1. pose proof (xhist_wf S x2 HO H2) as W2.
  destruct (xsolve_same S junk1 junk2 pb G' o w1 w2 x1 x2 HO HB W1 W2 HG Ew (st1, y1) (st2, y2) E1 E2) as (Est & Eit & EA & Hsim).
  cbn [fst snd] in *. split; [exact Est|]. split; [exact Eit|]. split; [unfold activeSet; congruence|]. intros N1 N2. specialize (Hsim N1 N2).
  pose proof (xw_s _ _ (xhist_wf S y1 HO (xh_solve S junk1 pb o w1 x1 st1 y1 H1 HB E1))) as V1.
  pose proof (xw_s _ _ (xhist_wf S y2 HO (xh_solve S junk2 _ o w2 x2 st2 y2 H2 HB E2))) as V2.
  destruct (xsolve_ok S junk1 pb o w1 x1 st1 y1 HO HB W1 E1) as (_ & X1 & _).
  destruct (gsolution S _ V1) as (v1 & Ev1 & _). destruct (gsolution S _ V2) as (v2 & Ev2 & _).
  split. { rewrite Ev1, Ev2. f_equal. exact (solution_sim S 0 _ _ Hsim v1 v2 Ev1 Ev2). }
  split; [apply Hsim|].
  destruct (gmult S _ V1) as (l1 & u1 & Em1). destruct (gmult S _ V2) as (l2 & u2 & Em2).
  pose proof (mult_sim S _ _ Hsim X1 _ _ Em1 Em2) as El. simpl in El. subst l2. eauto.
Qed.

(** With statuses given, or without warm start, the earlier life of the object,
    the contents of fresh memory and the part of G above the diagonal make no
    difference. *)
Theorem C62_reuse : forall (S : ops) junk1 junk2 pb G' o ws x1 x2 st1 y1 st2 y2, safe_ops S -> xhistory S x1 -> xhistory S x2 -> leb S (o_bigBnd o) (o_bigBnd o) = true ->
  (o_warm o = false \/ ws <> []) ->
  (forall i j, (j <= i)%nat -> (i < p_Grows pb)%nat -> p_G pb i j = G' i j) ->
  xgi_solve junk1 pb o ws x1 = Ok (st1, y1) -> xgi_solve junk2 (same_but_G pb G') o ws x2 = Ok (st2, y2) -> same_answers st1 y1 st2 y2.
Proof.
  intros S junk1 junk2 pb G' o ws x1 x2 st1 y1 st2 y2 HO H1 H2 HB Hw HG E1 E2.
  apply (reuse_lemma S junk1 junk2 pb G' o ws ws x1 x2); auto.
  unfold ws_eff. destruct (o_warm o); [|reflexivity]. destruct Hw as [|Hw]; [discriminate|]. destruct ws; [congruence|reflexivity].
Qed.

Lemma map_inactive (l : list status) : map (fun _ => INACTIVE) l = repeat INACTIVE (length l).
Proof. induction l as [|a l IH]; simpl; f_equal; auto. Qed.
Lemma resize_A (S : ops) junk (x : xsol S) (pb0 pb : problem S) : xsh S pb0 x -> sizes_ok pb = true ->
  activeSet (x_s (xresize junk x (p_Grows pb) (p_Ccols pb) (0 <? p_xlsize pb)%nat)) =
  if (p_Ccols pb =? p_Ccols pb0)%nat && (p_xlsize pb =? p_xlsize pb0)%nat then activeSet (x_s x) else repeat INACTIVE (p_Ccols pb + p_xlsize pb).
Proof.
  intros HX Hs. pose proof (xh_s _ _ _ HX) as HS.
  assert (Eb : (if (0 <? p_xlsize pb)%nat then p_Grows pb else 0%nat) = p_xlsize pb).
  { unfold sizes_ok in Hs. rewrite !andb_true_iff, !orb_true_iff, !Nat.eqb_eq in Hs.
    destruct (Nat.ltb_spec 0 (p_xlsize pb)); intuition lia. }
  unfold xresize, activeSet. cbn [x_s]. unfold resize, resize_p. rewrite Eb.
  set (s1 := resize_d junk (x_s x) (p_Grows pb)).
  assert (E1 : s_A s1 = s_A (x_s x) /\ s_n s1 = s_n (x_s x)).
  { unfold s1, resize_d. destruct (_ =? _)%nat; auto. }
  set (s2 := if (p_Grows pb =? s_n s1)%nat then s1 else _).
  assert (E2 : s_A s2 = s_A (x_s x)) by (unfold s2; destruct (p_Grows pb =? s_n s1)%nat; apply E1).
  set (s3 := if (p_Ccols pb + p_xlsize pb =? nbAll (s_A s2))%nat then s2 else _).
  assert (E3 : s_A s3 = s_A (x_s x)) by (unfold s3; destruct (_ =? nbAll (s_A s2))%nat; exact E2).
  rewrite E3. rewrite (g_nc _ _ _ HS), (g_nb _ _ _ HS).
  change (gc_ S pb0) with (p_Ccols pb0). change (gb S pb0) with (p_xlsize pb0).
  destruct ((p_Ccols pb =? p_Ccols pb0)%nat && (p_xlsize pb =? p_xlsize pb0)%nat); [rewrite E3; reflexivity|].
  cbn [s_A set_A]. unfold as_resize, as_reset. cbn [a_status]. rewrite map_inactive, vec_resize_length. reflexivity.
Qed.

(** Warm start without statuses after a problem with as many constraints and
    bounds: the same as giving explicitly, to any object, the statuses the earlier
    call ended with. *)
Theorem C62_hot_start : forall (S : ops) junk0 pb0 o0 ws0 x0 st0 x1 junk1 junk2 pb o x2 st1 y1 st2 y2,
  safe_ops S -> xhistory S x0 -> leb S (o_bigBnd o0) (o_bigBnd o0) = true -> xgi_solve junk0 pb0 o0 ws0 x0 = Ok (st0, x1) ->
  p_Ccols pb = p_Ccols pb0 -> p_xlsize pb = p_xlsize pb0 -> o_warm o = true -> leb S (o_bigBnd o) (o_bigBnd o) = true ->
  (p_Ccols pb + p_xlsize pb <> 0)%nat -> xhistory S x2 ->
  xgi_solve junk1 pb o [] x1 = Ok (st1, y1) -> xgi_solve junk2 pb o (activeSet (x_s x1)) x2 = Ok (st2, y2) -> same_answers st1 y1 st2 y2.
Proof.
  intros S junk0 pb0 o0 ws0 x0 st0 x1 junk1 junk2 pb o x2 st1 y1 st2 y2 HO H0 HB0 E0 Ec Eb Ho HB Hne H2 E1 E2.
  assert (H1 : xhistory S x1) by exact (xh_solve S junk0 pb0 o0 ws0 x0 st0 x1 H0 HB0 E0).
  destruct (xsolve_ok S junk0 pb0 o0 ws0 x0 st0 x1 HO HB0 (xhist_wf S x0 HO H0) E0) as (HX & _).
  assert (Hs : sizes_ok pb = true) by (apply xgi_args in E1; unfold args_ok in E1; rewrite !andb_true_iff in E1; apply E1).
  apply (reuse_lemma S junk1 junk2 pb (p_G pb) o [] (activeSet (x_s x1)) x1 x2); auto; [|rewrite same_but_G_id; auto].
  unfold ws_eff. rewrite Ho. cbn [is_nil]. rewrite (resize_A S junk1 x1 pb0 pb HX Hs), Ec, Eb, !Nat.eqb_refl. cbn [andb].
  destruct (activeSet (x_s x1)) eqn:EA; [|reflexivity].
  exfalso. pose proof (gstat_len _ _ _ (xh_s _ _ _ HX)) as HL. unfold activeSet in EA. rewrite EA in HL. simpl in HL. unfold gcb, gc_, gb in HL. lia.
Qed.

(** ... after a problem with another number of constraints or bounds: the same as
    starting with everything inactive. *)
Theorem C62_other_sizes : forall (S : ops) junk0 pb0 o0 ws0 x0 st0 x1 junk1 junk2 pb o x2 st1 y1 st2 y2,
  safe_ops S -> xhistory S x0 -> leb S (o_bigBnd o0) (o_bigBnd o0) = true -> xgi_solve junk0 pb0 o0 ws0 x0 = Ok (st0, x1) ->
  (p_Ccols pb <> p_Ccols pb0 \/ p_xlsize pb <> p_xlsize pb0) -> o_warm o = true -> leb S (o_bigBnd o) (o_bigBnd o) = true ->
  xhistory S x2 ->
  xgi_solve junk1 pb o [] x1 = Ok (st1, y1) -> xgi_solve junk2 pb o (repeat INACTIVE (p_Ccols pb + p_xlsize pb)) x2 = Ok (st2, y2) ->
  (p_Ccols pb + p_xlsize pb <> 0)%nat -> same_answers st1 y1 st2 y2.
Proof.
  intros S junk0 pb0 o0 ws0 x0 st0 x1 junk1 junk2 pb o x2 st1 y1 st2 y2 HO H0 HB0 E0 Hd Ho HB H2 E1 E2 Hne.
  assert (H1 : xhistory S x1) by exact (xh_solve S junk0 pb0 o0 ws0 x0 st0 x1 H0 HB0 E0).
  destruct (xsolve_ok S junk0 pb0 o0 ws0 x0 st0 x1 HO HB0 (xhist_wf S x0 HO H0) E0) as (HX & _).
  assert (Hs : sizes_ok pb = true) by (apply xgi_args in E1; unfold args_ok in E1; rewrite !andb_true_iff in E1; apply E1).
  apply (reuse_lemma S junk1 junk2 pb (p_G pb) o [] (repeat INACTIVE (p_Ccols pb + p_xlsize pb)) x1 x2); auto; [|rewrite same_but_G_id; auto].
  unfold ws_eff. rewrite Ho. cbn [is_nil]. rewrite (resize_A S junk1 x1 pb0 pb HX Hs).
  destruct ((p_Ccols pb =? p_Ccols pb0)%nat && (p_xlsize pb =? p_xlsize pb0)%nat) eqn:Ec.
  - apply andb_true_iff in Ec as [Ec Eb]. apply Nat.eqb_eq in Ec, Eb. destruct Hd; contradiction.
  - destruct (p_Ccols pb + p_xlsize pb)%nat; [contradiction|reflexivity].
Qed.

(** A call never starts (or fails) to be undefined because of the object it is made on. *)
Theorem C62_defined : forall (S : ops) junk1 junk2 pb o ws x1 x2, safe_ops S -> xhistory S x1 -> xhistory S x2 -> leb S (o_bigBnd o) (o_bigBnd o) = true ->
  (o_warm o = false \/ ws <> []) -> (forall i, nth i ws INACTIVE = EQUALITY -> glo S pb i <> None) ->
  xgi_solve junk1 pb o ws x1 = UB -> xgi_solve junk2 pb o ws x2 = UB.
Proof.
  intros S junk1 junk2 pb o ws x1 x2 HO H1 H2 HB Hw HE E1.
  destruct (xgi_solve junk2 pb o ws x2) as [(st2, y2)|] eqn:E2; [|reflexivity]. exfalso.
  pose proof (xgi_args _ _ _ _ _ _ _ E2) as Ha. pose proof (xhist_wf S x1 HO H1) as W1. pose proof (xhist_wf S x2 HO H2) as W2.
  assert (Ew : ws_eff S junk1 pb o ws x1 = ws_eff S junk2 pb o ws x2).
  { unfold ws_eff. destruct (o_warm o); [|reflexivity]. destruct Hw as [|Hw]; [discriminate|]. destruct ws; [congruence|reflexivity]. }
  assert (HE' : eq_lo S pb (ws_eff S junk1 pb o ws x1)).
  { unfold ws_eff. destruct (o_warm o). 2:{ intros i. destruct i; discriminate. }
    destruct Hw as [|Hw]; [discriminate|]. destruct ws; [congruence|exact HE]. }
  destruct (xsolve_ok S junk2 pb o ws x2 st2 y2 HO HB W2 E2) as (_ & _ & HK & Hc).
  pose proof (xsolve S junk2 pb o ws x2 HO HB W2 Ha) as HX2. cbv zeta in HX2.
  assert (Hne : xgi_solve junk2 pb o ws x2 <> UB) by (rewrite E2; discriminate). specialize (HX2 (or_intror Hne)).
  rewrite <- Ew in *. rewrite HK in HX2. cbn [negb] in HX2.
  destruct (xsolve_result S junk1 pb o ws x1 HO HB W1 Ha HE' HK) as (st & x' & E & _); [|congruence].
  intros Hd. destruct (Nat.ltb_spec (gn S pb) (n_eq S pb o (ws_eff S junk1 pb o ws x1))); [|auto].
  destruct HX2 as (x3 & _ & _ & _ & E3). rewrite Hd in E3. congruence.
Qed.

(** Concrete runs on doubles: an object used for another problem (of another size),
    with garbage memory, and a new object; then two hot starts. *)
Definition paper2 := mkpb 2 1 [[4;-2];[-2;4]]%float [5;1]%float [[1;1]]%float [2]%float [10]%float [0;0]%float [10;10]%float.
Lemma wbig : leb Fops (o_bigBnd wopt) (o_bigBnd wopt) = true.
Proof. vm_compute. reflexivity. Qed.
Lemma xsolve0_history pb o ws st x : leb Fops (o_bigBnd o) (o_bigBnd o) = true -> xsolve0 pb o ws = Ok (st, x) -> xhistory Fops x.
Proof. intros HB E. exact (xh_solve Fops (fun _ => nan) pb o ws (xsol_new Fops) st x (xh_new Fops) HB E). Qed.
Lemma then_ex {X} (f : sol Fops -> X) (r : res (term_status * xsol Fops)) st x (k : xsol Fops -> res (term_status * xsol Fops)) st' v : r = Ok (st, x) ->
  xobs f (match r with Ok (_, x) => k x | UB => UB end) = Some (st', v) -> exists y, k x = Ok (st', y) /\ f (x_s y) = v.
Proof. intros -> E. apply (xobs_ex f (k x)). exact E. Qed.
Example C62_nonvacuous : exists x1 y1 y2 z1 z2, xsolve0 t3 wopt [] = Ok (SUCCESS, x1) /\ xhistory Fops x1 /\ s_n (x_s x1) = 3%nat /\
  xgi_solve (S:=Fops) (fun _ => 7%float) paper wopt [LOWER; INACTIVE; LOWER_BOUND] x1 = Ok (SUCCESS, y1) /\
  xsolve0 paper wopt [LOWER; INACTIVE; LOWER_BOUND] = Ok (SUCCESS, y2) /\
  xgi_solve (S:=Fops) (fun _ => 7%float) paper2 wopt [] y1 = Ok (SUCCESS, z1) /\
  xgi_solve (S:=Fops) (fun _ => nan) paper wopt [] x1 = Ok (SUCCESS, z2) /\ activeSet (x_s y1) <> [INACTIVE; INACTIVE; INACTIVE].
Proof.
  destruct (xobs_ex (@s_n Fops) (xsolve0 t3 wopt []) SUCCESS 3%nat) as (x1 & E1 & N1); [vm_compute; reflexivity|].
  pose proof (xsolve0_history _ _ _ _ _ wbig E1) as H1.
  destruct (then_ex (@activeSet Fops) _ _ _ (fun x => xgi_solve (S:=Fops) (fun _ => 7%float) paper wopt [LOWER; INACTIVE; LOWER_BOUND] x) SUCCESS [LOWER; INACTIVE; INACTIVE] E1) as (y1 & E2 & A1); [vm_compute; reflexivity|].
  destruct (xobs_ex (fun _ => tt) (xsolve0 paper wopt [LOWER; INACTIVE; LOWER_BOUND]) SUCCESS tt) as (y2 & E3 & _); [vm_compute; reflexivity|].
  destruct (then_ex (fun _ => tt) _ _ _ (fun x => match xgi_solve (S:=Fops) (fun _ => 7%float) paper wopt [LOWER; INACTIVE; LOWER_BOUND] x with
     Ok (_, y) => xgi_solve (S:=Fops) (fun _ => 7%float) paper2 wopt [] y | UB => UB end) SUCCESS tt E1) as (z1 & E4 & _); [vm_compute; reflexivity|].
  cbv beta in E4. rewrite E2 in E4.
  destruct (then_ex (fun _ => tt) _ _ _ (fun x => xgi_solve (S:=Fops) (fun _ => nan) paper wopt [] x) SUCCESS tt E1) as (z2 & E5 & _); [vm_compute; reflexivity|].
  exists x1, y1, y2, z1, z2. split; [exact E1|]. split; [exact H1|]. split; [exact N1|]. split; [exact E2|]. split; [exact E3|]. split; [exact E4|]. split; [exact E5|].
  rewrite A1. discriminate.
Qed.
(** Without statuses the history does matter: the object remembers. *)
Example C62_hot_start_depends : exists x1 y1 y2, xsolve0 paper wopt [] = Ok (SUCCESS, x1) /\
  xgi_solve (S:=Fops) (fun _ => nan) paper wopt [] x1 = Ok (SUCCESS, y1) /\ xsolve0 paper wopt [] = Ok (SUCCESS, y2) /\
  iterations (x_s y1) <> iterations (x_s y2).
Proof.
  destruct (xobs_ex (@iterations Fops) (xsolve0 paper wopt []) SUCCESS 1%nat) as (x1 & E1 & N1); [vm_compute; reflexivity|].
  destruct (then_ex (@iterations Fops) _ _ _ (fun x => xgi_solve (S:=Fops) (fun _ => nan) paper wopt [] x) SUCCESS 0%nat E1) as (y1 & E2 & N2); [vm_compute; reflexivity|].
  exists x1, y1, x1. split; [exact E1|]. split; [exact E2|]. split; [exact E1|]. rewrite N1, N2. discriminate.
Qed.

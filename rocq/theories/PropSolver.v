(** Theorems about the dense solver (GoldfarbIdnaniSolver), one group per
    property of properties.jsonl.

    [gi_solve junk pb o s] is the call [solve(pb)] with options [o] on a solver
    object in state [s]; [junk] is the (arbitrary) contents of freshly allocated
    memory.  [history S s] says that [s] results from any sequence of public
    calls (construction, resize, resetActiveSet, multipliers, solve).  [Ok] is a
    call that returns, [UB] an out-of-range access or a failed assert.
    Theorems quantified over [S : ops] with [safe_ops S] hold for any arithmetic
    with those two laws: exact reals ([real_safe]) and IEEE doubles
    ([float_safe]).  The others are about exact reals. *)
From Coq Require Import PrimFloat.
From Coq Require Import List Arith ZArith Lia Bool Reals Lra.
From Verif Require Import Base ActiveSet ActiveSetProofs Num Solver LinAlg QRUpdate QPSpec GIMath GIBase GIInv GIDual GIRun GIOpt GIMult GIInit GISafe GICall GIHist GIFinal GITerm GITotal GISame GIMore GIExample RunFloat FloatLaws.
Import ListNotations.
Local Open Scope R_scope.

Lemma term_status_eq_dec (a b : term_status) : {a = b} + {a <> b}.
Proof. decide equality. Qed.

Example safe_reals : safe_ops Rops. Proof. exact real_safe. Qed.
Example safe_doubles : safe_ops Fops. Proof. exact float_safe. Qed.
(** Observing the result of a call without computing the whole state *)
Definition obs {S A} (f : sol S -> A) (m : res (term_status * sol S)) : option (term_status * A) :=
  match m with Ok (st, s) => Some (st, f s) | UB => None end.
Lemma obs_ex {S A} (f : sol S -> A) m st a : obs f m = Some (st, a) -> exists s', m = Ok (st, s') /\ f s' = a.
Proof. destruct m as [[st' s']|]; simpl; intros E; [|discriminate]. injection E as <- <-. eauto. Qed.
Lemma obs_ub {S} (m : res (term_status * sol S)) : obs (fun _ => tt) m = None -> m = UB.
Proof. destruct m as [[st' s']|]; simpl; intros E; [discriminate|auto]. Qed.

(** A double problem solved to SUCCESS, used as a concrete case for the generic theorems *)
Example double_run : exists st s', gi_solve (S:=Fops) (fun _ => nan) paper defopt (sol_new Fops) = Ok (st, s') /\ st = SUCCESS /\ iterations s' = 1%nat /\ leb Fops (o_bigBnd defopt) (o_bigBnd defopt) = true.
Proof.
  destruct (obs_ex (@iterations Fops) (gi_solve (S:=Fops) (fun _ => nan) paper defopt (sol_new Fops)) SUCCESS 1%nat) as (s' & E & Ei); [vm_compute; reflexivity|].
  exists SUCCESS, s'. split; auto.
Qed.

(** Number of constraints [j] with [bl_j = bu_j] plus number of variables with [xl_i = xu_i] *)
Definition nb_equalities {S : ops} (pb : problem S) : nat :=
  (length (filter (fun j => bounds_eq (p_bl pb j) (p_bu pb j)) (seq 0 (p_Ccols pb)))
   + length (filter (fun i => bounds_eq (p_xl pb i) (p_xu pb i)) (seq 0 (p_xlsize pb))))%nat.
(** Is constraint [i] (general constraints first, then bounds) an equality? *)
Definition equality_at {S : ops} (pb : problem S) (i : nat) : bool :=
  if (i <? p_Ccols pb)%nat then bounds_eq (p_bl pb i) (p_bu pb i)
  else bounds_eq (p_xl pb (i - p_Ccols pb)%nat) (p_xu pb (i - p_Ccols pb)%nat).

Lemma geq_at {S} (pb : problem S) i : geq S pb i = equality_at pb i.
Proof. unfold geq, equality_at, glo, gup, gc_. destruct (i <? p_Ccols pb)%nat; auto. Qed.
Lemma filter_map_len {A B} (f : A -> B) p l : length (filter p (map f l)) = length (filter (fun a => p (f a)) l).
Proof. induction l as [|a l IH]; auto. simpl. destruct (p (f a)); simpl; auto. Qed.
Lemma filter_eq_len {A} (p q : A -> bool) l : (forall a, In a l -> p a = q a) -> length (filter p l) = length (filter q l).
Proof.
  induction l as [|a l IH]; auto. intros H. simpl. rewrite (H a) by (left; auto).
  assert (E : length (filter p l) = length (filter q l)) by (apply IH; intros; apply H; right; auto).
  destruct (q a); simpl; auto.
Qed.
Lemma geqs_len {S} (pb : problem S) : length (geqs S pb (gcb S pb)) = nb_equalities pb.
Proof.
  unfold geqs, gcb, nb_equalities. change (gc_ S pb) with (p_Ccols pb). change (gb S pb) with (p_xlsize pb).
  rewrite seq_app, filter_app, app_length. f_equal.
  - apply filter_eq_len. intros i Hi. apply in_seq in Hi. rewrite geq_at. unfold equality_at. destruct (Nat.ltb_spec i (p_Ccols pb)); auto. lia.
  - rewrite <- (Nat.add_0_r (p_Ccols pb)) at 1. rewrite Nat.add_0_l.
    assert (E : seq (p_Ccols pb + 0) (p_xlsize pb) = map (fun i => p_Ccols pb + i)%nat (seq 0 (p_xlsize pb))).
    { generalize 0%nat. induction (p_xlsize pb) as [|k IH]; intros a; auto. simpl. f_equal. rewrite <- IH. f_equal. lia. }
    rewrite E, filter_map_len. apply filter_eq_len. intros i _. rewrite geq_at. unfold equality_at.
    destruct (Nat.ltb_spec (p_Ccols pb + i) (p_Ccols pb)); [lia|]. replace (p_Ccols pb + i - p_Ccols pb)%nat with i by lia. auto.
Qed.

(** ** C37: memory safety (exact characterisation) *)
Lemma C37_lemma (S : ops) junk pb o s : safe_ops S -> history S s -> leb S (o_bigBnd o) (o_bigBnd o) = true ->
  (gi_solve junk pb o s = UB <->
   sizes_ok pb = false \/ (fst (llt (p_Grows pb) (p_G pb)) = None /\ (p_Grows pb < nb_equalities pb)%nat)).
Proof. intros HO HH HB. rewrite <- geqs_len. apply gsolve_ub; auto. apply hist_wf; auto. Qed.
(** solve() makes an out-of-range access or fails an assert exactly when the
    sizes are inconsistent, or the Hessian is accepted and there are more
    equality constraints than variables. *)
Theorem C37_solve_memory_safe : forall (S : ops) junk pb o s, safe_ops S -> history S s -> leb S (o_bigBnd o) (o_bigBnd o) = true ->
  (gi_solve junk pb o s = UB <->
   sizes_ok pb = false \/ (fst (llt (p_Grows pb) (p_G pb)) = None /\ (p_Grows pb < nb_equalities pb)%nat)).
Proof. exact C37_lemma. Qed.
Theorem C37_accessors_safe : forall (S : ops) s, safe_ops S -> history S s ->
  (exists x, solution s = Ok x) /\ (exists lam s', multipliers s = Ok (lam, s')).
Proof.
  intros S s HO HH. pose proof (hist_wf S s HO HH) as HW. split.
  - destruct (gsolution S s HW) as (x & E & _). eauto.
  - destruct (gmult S s HW) as (l & s' & E). eauto.
Qed.
(** For doubles, a size-consistent problem with at most as many equalities as
    variables never causes a bad access, whatever the data (infinities and NaN
    included) and whatever the solver did before. *)
Theorem C37_double : forall junk pb o s, history Fops s -> leb Fops (o_bigBnd o) (o_bigBnd o) = true ->
  sizes_ok pb = true -> (nb_equalities pb <= p_Grows pb)%nat -> exists st s', gi_solve (S:=Fops) junk pb o s = Ok (st, s').
Proof.
  intros junk pb o s HH HB Hsz Hle. destruct (gi_solve junk pb o s) as [[st s']|] eqn:E; [eauto|]. exfalso.
  apply (proj1 (C37_lemma Fops junk pb o s float_safe HH HB)) in E. destruct E as [E|[_ E]]; [congruence|lia].
Qed.
(** The second disjunct does happen: three equalities on two variables. *)
Theorem C37_overflow : gi_solve (S:=Fops) (fun _ => nan)
   (mkpb 2 3 [[1;0];[0;1]]%float [0;0]%float [[1;0];[0;1];[1;1]]%float [1;1;2]%float [1;1;2]%float [] []) defopt (sol_new Fops) = UB.
Proof. apply obs_ub. vm_compute. reflexivity. Qed.

(** ** C06: buffers *)
Lemma C06_lemma (S : ops) junk s n m ub : safe_ops S -> history S s ->
  let s' := resize junk s n m ub in
  vec_fits (s_x s') n = true /\ vec_fits (s_z s') n = true /\ vec_fits (s_d s') n = true /\
  (forall q, (q <= n)%nat -> mat_fits (s_J s') n n n = true /\ mat_fits (s_R s') q q n = true) /\
  (forall q, (q <= m + (if ub then n else 0))%nat -> vec_fits (s_u s') q = true /\ vec_fits (s_r s') q = true) /\
  length (activeSet s') = (m + (if ub then n else 0))%nat.
Proof.
  intros HO HH s'. destruct (gresize S junk s n m ub (hist_wf S s HO HH)) as (E1 & E2 & E3 & E4 & E5 & E6 & E7 & E8 & E9 & E10 & E11).
  fold s' in E1, E2, E3, E4, E5, E6, E7, E8, E9, E10, E11. unfold vec_fits, mat_fits.
  repeat (split; [apply Nat.leb_le; auto|]). split; [|split].
  - intros q Hq. split; apply andb_true_iff; split; apply Nat.leb_le; auto. nia.
  - intros q Hq. split; apply Nat.leb_le; lia.
  - unfold activeSet. rewrite (coh_len _ (proj1 E4)). rewrite E2, E3. auto.
Qed.
Theorem C06_views_fit_after_any_history : forall (S : ops) junk s n m ub, safe_ops S -> history S s ->
  let s' := resize junk s n m ub in
  vec_fits (s_x s') n = true /\ vec_fits (s_z s') n = true /\ vec_fits (s_d s') n = true /\
  (forall q, (q <= n)%nat -> mat_fits (s_J s') n n n = true /\ mat_fits (s_R s') q q n = true) /\
  (forall q, (q <= m + (if ub then n else 0))%nat -> vec_fits (s_u s') q = true /\ vec_fits (s_r s') q = true) /\
  length (activeSet s') = (m + (if ub then n else 0))%nat.
Proof. exact C06_lemma. Qed.
Theorem C06_workspace_resize : forall (S : ops) (junk : vec S) w size fit,
  let w' := w_resize_fit junk w size fit in
  (size <= w_size w')%nat /\ (fit = true -> w_size w' = size) /\ (fit = false -> (w_size w <= w_size w')%nat) /\
  (fit = false -> (size <= w_size w)%nat -> w' = w) /\
  (fit = false -> w' = w_resize junk w size).
Proof.
  intros S junk w size fit. unfold w_resize_fit, w_resize.
  destruct (Nat.ltb_spec (w_size w) size), (Nat.ltb_spec size (w_size w)), fit; simpl; repeat split; intros; try discriminate; auto; lia.
Qed.
Example C06_nonvacuous : let s := resize (S:=Fops) (fun _ => nan) (resize (S:=Fops) (fun _ => nan) (sol_new Fops) 5 2 true) 3 9 false in
  history Fops s /\ w_size (s_x s) = 5%nat /\ w_size (s_u s) = 9%nat /\ length (activeSet s) = 9%nat.
Proof. repeat split. repeat constructor. Qed.

(** ** C07, C08: statuses and iteration limit *)
Lemma result_of (S : ops) junk pb o s st s' : safe_ops S -> history S s -> leb S (o_bigBnd o) (o_bigBnd o) = true ->
  gi_solve junk pb o s = Ok (st, s') -> gdone S pb o st s' /\
    ((st = NON_POS_HESSIAN /\ fst (llt (gn S pb) (p_G pb)) <> None /\ s_it s' = 0%nat) \/
     (fst (llt (gn S pb) (p_G pb)) = None /\ (nact (s_A s') <= gn S pb)%nat /\
      (geq_first S pb -> galigned (length (geqs S pb (gcb S pb))) (s_A s')) /\
      ((st = MAX_ITER_REACHED /\ s_it s' = o_maxIter o) \/ ((st = SUCCESS \/ st = INFEASIBLE) /\ (s_it s' < o_maxIter o)%nat)))).
Proof.
  intros HO HH HB E. pose proof (hist_wf S s HO HH) as HW.
  assert (Hsz : sizes_ok pb = true) by (unfold gi_solve in E; apply guard_ok in E; apply E).
  destruct (gsolve_result S junk pb o s HO HB HW Hsz) as (st1 & s1 & E1 & H).
  { intros El. destruct (Nat.le_gt_cases (length (geqs S pb (gcb S pb))) (gn S pb)); auto.
    exfalso. assert (gi_solve junk pb o s = UB) by (apply gsolve_ub; auto). congruence. }
  rewrite E in E1. injection E1 as <- <-. auto.
Qed.
Lemma C07_lemma (S : ops) junk pb o s st s' : safe_ops S -> history S s -> leb S (o_bigBnd o) (o_bigBnd o) = true ->
  gi_solve junk pb o s = Ok (st, s') ->
  (iterations s' <= o_maxIter o)%nat /\
  (st = MAX_ITER_REACHED -> iterations s' = o_maxIter o) /\
  (st = SUCCESS \/ st = INFEASIBLE -> (iterations s' < o_maxIter o)%nat) /\
  (st = NON_POS_HESSIAN -> iterations s' = 0%nat).
Proof.
  intros HO HH HB E. destruct (result_of S junk pb o s st s' HO HH HB E) as [_ H]. unfold iterations.
  destruct H as [(-> & _ & H)|(_ & _ & _ & [(-> & H)|(H & H1)])].
  - rewrite H. split; [lia|]. split; [discriminate|]. split; [intros [|]; discriminate|auto].
  - rewrite H. split; [lia|]. split; [auto|]. split; [intros [|]; discriminate|discriminate].
  - split; [lia|]. destruct H as [-> | ->]; (split; [discriminate|]; split; [auto|discriminate]).
Qed.
Theorem C07_iteration_limit : forall (S : ops) junk pb o s st s', safe_ops S -> history S s -> leb S (o_bigBnd o) (o_bigBnd o) = true ->
  gi_solve junk pb o s = Ok (st, s') ->
  (iterations s' <= o_maxIter o)%nat /\
  (st = MAX_ITER_REACHED -> iterations s' = o_maxIter o) /\
  (st = SUCCESS \/ st = INFEASIBLE -> (iterations s' < o_maxIter o)%nat) /\
  (st = NON_POS_HESSIAN -> iterations s' = 0%nat).
Proof. exact C07_lemma. Qed.

Lemma C08_lemma (S : ops) junk pb o s st s' : safe_ops S -> history S s -> leb S (o_bigBnd o) (o_bigBnd o) = true ->
  gi_solve junk pb o s = Ok (st, s') ->
  st = SUCCESS \/ st = NON_POS_HESSIAN \/ st = INFEASIBLE \/ st = MAX_ITER_REACHED.
Proof.
  intros HO HH HB E. destruct (result_of S junk pb o s st s' HO HH HB E) as [_ H].
  destruct H as [(-> & _)|(_ & _ & _ & [(-> & _)|([-> | ->] & _)])]; auto.
Qed.
Theorem C08_possible_statuses : forall (S : ops) junk pb o s st s', safe_ops S -> history S s -> leb S (o_bigBnd o) (o_bigBnd o) = true ->
  gi_solve junk pb o s = Ok (st, s') ->
  st = SUCCESS \/ st = NON_POS_HESSIAN \/ st = INFEASIBLE \/ st = MAX_ITER_REACHED.
Proof. exact C08_lemma. Qed.

(** ** C12: equalities stay active *)
Lemma geqs_prefix (S : ops) (pb : problem S) i : geq_first S pb -> (i < gcb S pb)%nat -> geq S pb i = true ->
  (i < length (geqs S pb (gcb S pb)))%nat.
Proof.
  intros HF Hi Hq. assert (HN : NoDup (seq 0 (Datatypes.S i))) by apply seq_NoDup.
  assert (HI : incl (seq 0 (Datatypes.S i)) (geqs S pb (gcb S pb))).
  { intros k Hk. apply in_seq in Hk. apply filter_In. split; [apply in_seq; lia|].
    destruct (Nat.eq_dec k i) as [->|]; auto. apply (HF k i); auto. lia. }
  pose proof (NoDup_incl_length HN HI) as H. rewrite seq_length in H. lia.
Qed.
Lemma C12_lemma (S : ops) junk pb o s st s' i : safe_ops S -> history S s -> leb S (o_bigBnd o) (o_bigBnd o) = true ->
  gi_solve junk pb o s = Ok (st, s') -> st <> NON_POS_HESSIAN ->
  (forall i j, (i < j)%nat -> (j < p_Ccols pb + p_xlsize pb)%nat -> equality_at pb j = true -> equality_at pb i = true) ->
  (i < p_Ccols pb + p_xlsize pb)%nat -> equality_at pb i = true ->
  nth_error (activeSet s') i = Some (if (i <? p_Ccols pb)%nat then EQUALITY else FIXED).
Proof.
  intros HO HH HB E Hst Hfirst Hi Hq. destruct (result_of S junk pb o s st s' HO HH HB E) as [[D1 _ _] H].
  destruct H as [(-> & _)|(_ & _ & H & _)]; [contradiction|].
  assert (HF : geq_first S pb) by (intros a b Hab Hb; rewrite !geq_at; apply Hfirst; auto).
  specialize (H HF). destruct H as [He Ha].
  assert (Hie : (i < length (geqs S pb (gcb S pb)))%nat) by (apply geqs_prefix; auto; rewrite geq_at; auto).
  destruct (Ha i Hie) as [Ea Es]. unfold stt in Es. unfold activeSet.
  pose proof (g_good _ _ _ D1) as (HC & _). pose proof HC as [CL CN CI CK].
  assert (Hlen : length (a_status (s_A s')) = (p_Ccols pb + p_xlsize pb)%nat).
  { rewrite CL, (g_nc _ _ _ D1), (g_nb _ _ _ D1). reflexivity. }
  destruct (nth_error (a_status (s_A s')) i) as [st1|] eqn:En; [|apply nth_error_None in En; lia].
  f_equal. rewrite (nth_error_nth _ _ INACTIVE En) in Es.
  assert (Hne : st1 <> INACTIVE) by (intros ->; discriminate).
  destruct (CK i st1 En Hne) as [K1 K2]. rewrite (g_nc _ _ _ D1) in K1, K2. unfold general_status, bound_status, gc_ in *.
  destruct (Nat.ltb_spec i (p_Ccols pb)) as [Hl|Hl].
  - destruct (K1 Hl) as [-> | [-> | ->]]; auto; discriminate.
  - destruct (K2 Hl) as [-> | [-> | ->]]; auto; discriminate.
Qed.
(** When the equality constraints come first in the numbering (general
    constraints, then bounds), every equality is active as EQUALITY / FIXED
    whenever solve() stops, in particular after any number of iterations. *)
Theorem C12_equalities_kept : forall (S : ops) junk pb o s st s' i, safe_ops S -> history S s -> leb S (o_bigBnd o) (o_bigBnd o) = true ->
  gi_solve junk pb o s = Ok (st, s') -> st <> NON_POS_HESSIAN ->
  (forall i j, (i < j)%nat -> (j < p_Ccols pb + p_xlsize pb)%nat -> equality_at pb j = true -> equality_at pb i = true) ->
  (i < p_Ccols pb + p_xlsize pb)%nat -> equality_at pb i = true ->
  nth_error (activeSet s') i = Some (if (i <? p_Ccols pb)%nat then EQUALITY else FIXED).
Proof. exact C12_lemma. Qed.
(** Without that ordering an equality is dropped (here constraint 1, re-entered
    as UPPER): min 1/2|x|^2, x0 >= 1, x0 + x1 = -1. *)
Definition unordered_pb := mkpb 2 2 [[1;0];[0;1]]%float [0;0]%float [[1;0];[1;1]]%float [1;-1]%float [11;-1]%float [] [].
Theorem C12_ordering_needed : equality_at unordered_pb 1 = true /\
  exists s', gi_solve (S:=Fops) (fun _ => nan) unordered_pb defopt (sol_new Fops) = Ok (SUCCESS, s') /\ nth_error (activeSet s') 1 = Some UPPER.
Proof.
  split; [vm_compute; reflexivity|].
  apply (obs_ex (fun s' => nth_error (activeSet s') 1)). vm_compute. reflexivity.
Qed.
Example C12_nonvacuous : let pb := mkpb 2 2 [[1;0];[0;1]]%float [0;0]%float [[1;1];[1;0]]%float [-1;1]%float [-1;11]%float [] [] in
  equality_at pb 0 = true /\ equality_at pb 1 = false /\
  exists s', gi_solve (S:=Fops) (fun _ => nan) pb defopt (sol_new Fops) = Ok (SUCCESS, s') /\ activeSet s' = [EQUALITY; LOWER].
Proof.
  split; [vm_compute; reflexivity|]. split; [vm_compute; reflexivity|].
  apply (obs_ex (@activeSet Fops)). vm_compute. reflexivity.
Qed.

(** ** C16: no influence of the past, C42: nor of the strict upper triangle of G *)
Definition same_but_G {S : ops} (pb : problem S) (G : mat S) : problem S :=
  Pb G (p_Grows pb) (p_Gcols pb) (p_a pb) (p_asize pb) (p_C pb) (p_Crows pb) (p_Ccols pb) (p_bl pb) (p_blsize pb)
     (p_bu pb) (p_busize pb) (p_xl pb) (p_xlsize pb) (p_xu pb) (p_xusize pb).
Lemma C16_lemma (S : ops) junk1 junk2 pb G' o s1 s2 st1 t1 st2 t2 : safe_ops S -> history S s1 -> history S s2 -> leb S (o_bigBnd o) (o_bigBnd o) = true ->
  (forall i j, (j <= i)%nat -> (i < p_Grows pb)%nat -> p_G pb i j = G' i j) ->
  gi_solve junk1 pb o s1 = Ok (st1, t1) -> gi_solve junk2 (same_but_G pb G') o s2 = Ok (st2, t2) ->
  st1 = st2 /\ iterations t1 = iterations t2 /\
  (st1 <> NON_POS_HESSIAN ->
     solution t1 = solution t2 /\ activeSet t1 = activeSet t2 /\ objectiveValue t1 = objectiveValue t2 /\
     exists lam u1 u2, multipliers t1 = Ok (lam, u1) /\ multipliers t2 = Ok (lam, u2)).
Proof.
  intros HO H1 H2 HB HG E1 E2. pose proof (hist_wf S s1 HO H1) as W1. pose proof (hist_wf S s2 HO H2) as W2.
  destruct (solve_same S junk1 junk2 pb G' o s1 s2 HO HB W1 W2 HG (st1, t1) (st2, t2) E1 E2) as [Est Hsim]. simpl in Est, Hsim. subst st2.
  split; auto.
  pose proof (hist_wf S t1 HO (h_solve S junk1 pb o s1 st1 t1 H1 HB E1)) as V1.
  pose proof (hist_wf S t2 HO (h_solve S junk2 _ o s2 st1 t2 H2 HB E2)) as V2.
  destruct (result_of S junk1 pb o s1 st1 t1 HO H1 HB E1) as [[_ X1 _] R1].
  destruct (result_of S junk2 (same_but_G pb G') o s2 st1 t2 HO H2 HB E2) as [[_ X2 _] R2].
  destruct (term_status_eq_dec st1 NON_POS_HESSIAN) as [En|Hn].
  - split; [|contradiction]. subst st1. unfold iterations.
    destruct R1 as [(_ & _ & ->)|(_ & _ & _ & [(H & _)|([H|H] & _)])]; try discriminate.
    destruct R2 as [(_ & _ & ->)|(_ & _ & _ & [(H & _)|([H|H] & _)])]; try discriminate. auto.
  - specialize (Hsim Hn). split; [apply Hsim|]. intros _.
    destruct (gsolution S t1 V1) as (x1 & Ex1 & _). destruct (gsolution S t2 V2) as (x2 & Ex2 & _).
    split. { rewrite Ex1, Ex2. f_equal. exact (solution_sim S 0 t1 t2 Hsim x1 x2 Ex1 Ex2). }
    split. { unfold activeSet. f_equal. apply Hsim. }
    split; [apply Hsim|].
    destruct (gmult S t1 V1) as (l1 & u1 & Em1). destruct (gmult S t2 V2) as (l2 & u2 & Em2).
    pose proof (mult_sim S t1 t2 Hsim X1 _ _ Em1 Em2) as El. simpl in El. subst l2. eauto.
Qed.
Lemma same_but_G_id {S : ops} (pb : problem S) : same_but_G pb (p_G pb) = pb.
Proof. destruct pb. reflexivity. Qed.
(** C42: whatever is stored above the diagonal of G, the results are the same. *)
Theorem C42_upper_triangle_ignored : forall (S : ops) junk1 junk2 pb G' o s1 s2 st1 t1 st2 t2, safe_ops S -> history S s1 -> history S s2 -> leb S (o_bigBnd o) (o_bigBnd o) = true ->
  (forall i j, (j <= i)%nat -> (i < p_Grows pb)%nat -> p_G pb i j = G' i j) ->
  gi_solve junk1 pb o s1 = Ok (st1, t1) -> gi_solve junk2 (same_but_G pb G') o s2 = Ok (st2, t2) ->
  st1 = st2 /\ iterations t1 = iterations t2 /\
  (st1 <> NON_POS_HESSIAN ->
     solution t1 = solution t2 /\ activeSet t1 = activeSet t2 /\ objectiveValue t1 = objectiveValue t2 /\
     exists lam u1 u2, multipliers t1 = Ok (lam, u1) /\ multipliers t2 = Ok (lam, u2)).
Proof. exact C16_lemma. Qed.
Theorem C16_history_independent : forall (S : ops) junk1 junk2 pb o s1 s2 st1 t1 st2 t2, safe_ops S -> history S s1 -> history S s2 -> leb S (o_bigBnd o) (o_bigBnd o) = true ->
  gi_solve junk1 pb o s1 = Ok (st1, t1) -> gi_solve junk2 pb o s2 = Ok (st2, t2) ->
  st1 = st2 /\ iterations t1 = iterations t2 /\
  (st1 <> NON_POS_HESSIAN ->
     solution t1 = solution t2 /\ activeSet t1 = activeSet t2 /\ objectiveValue t1 = objectiveValue t2 /\
     exists lam u1 u2, multipliers t1 = Ok (lam, u1) /\ multipliers t2 = Ok (lam, u2)).
Proof.
  intros S junk1 junk2 pb o s1 s2 st1 t1 st2 t2 HO H1 H2 HB E1 E2.
  apply (C16_lemma S junk1 junk2 pb (p_G pb) o s1 s2); auto. rewrite same_but_G_id. auto.
Qed.
Theorem C16_defined_independent : forall (S : ops) junk1 junk2 pb o s1 s2, safe_ops S -> history S s1 -> history S s2 -> leb S (o_bigBnd o) (o_bigBnd o) = true ->
  gi_solve junk1 pb o s1 = UB -> gi_solve junk2 pb o s2 = UB.
Proof. intros S junk1 junk2 pb o s1 s2 HO H1 H2 HB. rewrite !C37_lemma; auto. Qed.
(** A re-used object, with garbage memory, on a problem of another size *)
Lemma big_refl : leb Fops (o_bigBnd defopt) (o_bigBnd defopt) = true.
Proof. vm_compute. reflexivity. Qed.
Example C16_nonvacuous : exists s1 t1 t2, history Fops s1 /\ s_n s1 = 3%nat /\
  gi_solve (S:=Fops) (fun _ => nan) paper defopt s1 = Ok (SUCCESS, t1) /\ gi_solve (S:=Fops) (fun _ => 7%float) paper defopt (sol_new Fops) = Ok (SUCCESS, t2).
Proof.
  destruct (obs_ex (@s_n Fops) (gi_solve (S:=Fops) (fun _ => 3%float) t3 defopt (sol_new Fops)) SUCCESS 3%nat) as (s1 & E & Es); [vm_compute; reflexivity|].
  exists s1. assert (Hh : history Fops s1) by (eapply h_solve; [apply h_new| |exact E]; vm_compute; reflexivity).
  destruct (C37_double (fun _ => nan) paper defopt s1 Hh) as (st1 & t1 & E1); [vm_compute; reflexivity| reflexivity|vm_compute; repeat constructor|].
  destruct (C37_double (fun _ => 7%float) paper defopt (sol_new Fops) (h_new Fops)) as (st2 & t2 & E2); [vm_compute; reflexivity|reflexivity|vm_compute; repeat constructor|].
  exists t1, t2. split; auto. split; auto.
  destruct (C16_history_independent Fops _ _ _ _ _ _ _ _ _ _ float_safe Hh (h_new Fops) big_refl E1 E2) as [<- _].
  assert (st1 = SUCCESS); [|subst; auto].
  destruct double_run as (st & s' & E3 & -> & _).
  destruct (C16_history_independent Fops _ _ _ _ _ _ _ _ _ _ float_safe Hh (h_new Fops) big_refl E1 E3) as [-> _]. auto.
Qed.
(** After NON_POS_HESSIAN the stale solution of the previous problem is still visible. *)
Theorem C16_nonpos_stale : let bad := mkpb 2 1 [[-1;0];[0;-1]]%float [6;0]%float [[1;1]]%float [2]%float [10]%float [0;0]%float [10;10]%float in
  exists s1 t1 t2, history Fops s1 /\ gi_solve (S:=Fops) (fun _ => 0%float) bad defopt s1 = Ok (NON_POS_HESSIAN, t1) /\
    gi_solve (S:=Fops) (fun _ => 0%float) bad defopt (sol_new Fops) = Ok (NON_POS_HESSIAN, t2) /\ solution t1 <> solution t2.
Proof.
  intros bad.
  set (two := match gi_solve (S:=Fops) (fun _ => 0%float) paper defopt (sol_new Fops) with
              | Ok (_, s1) => obs (fun t : sol Fops => match solution t with Ok (x :: _) => PrimFloat.eqb x 0 | _ => true end) (gi_solve (S:=Fops) (fun _ => 0%float) bad defopt s1)
              | UB => None end).
  assert (E2 : two = Some (NON_POS_HESSIAN, false)) by (vm_compute; reflexivity). unfold two in E2.
  destruct (gi_solve (S:=Fops) (fun _ => 0%float) paper defopt (sol_new Fops)) as [[st s1]|] eqn:E; [|discriminate].
  destruct (obs_ex _ _ _ _ E2) as (t1 & E1 & K1). clear E2 two.
  destruct (obs_ex (fun t : sol Fops => match solution t with Ok (x :: _) => PrimFloat.eqb x 0 | _ => true end) (gi_solve (S:=Fops) (fun _ => 0%float) bad defopt (sol_new Fops)) NON_POS_HESSIAN true) as (t2 & E2 & K2); [vm_compute; reflexivity|].
  exists s1, t1, t2. split. { eapply h_solve; [apply h_new| |exact E]. vm_compute; reflexivity. }
  split; auto. split; auto. intros H. rewrite H in K1. congruence.
Qed.

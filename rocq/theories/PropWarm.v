(** The warm-startable solver (experimental::GoldfarbIdnaniSolver): C17, C18, C46-C49. *)
From Coq Require Import PrimFloat.
From Coq Require Import List Arith ZArith Lia Bool Reals Lra.
From Verif Require Import Base ActiveSet ActiveSetProofs Num Solver LinAlg QRUpdate QPSpec GIMath GIBase GIInv GIDual GIRun GIOpt GIMult GIInit GISafe GICall GIHist GIFinal GITerm GITotal GIExample Warm WarmAS WarmSafe WarmQR WarmInit WarmHist WarmOpt WarmHot WarmTotal WarmExample RunFloat FloatLaws PropSolver PropLimits.
Import ListNotations.

(** ** C17: what processInitialActiveSet makes of the given statuses *)
(** [i] is an equality, resp. its given status may be used: the right kind, a
    finite side, and not FIXED *)
Definition given_ok (S : ops) (pb : problem S) (o : options S) (i : nat) (st : status) : Prop :=
  match st with
  | INACTIVE | FIXED => False
  | LOWER | LOWER_BOUND => exists b, glo S pb i = Some b /\ ltb S b (opp S (o_bigBnd o)) = false
  | UPPER | UPPER_BOUND => exists b, gup S pb i = Some b /\ ltb S (o_bigBnd o) b = false
  | EQUALITY => True
  end.
Lemma wanted_given (S : ops) pb o ws i : wanted S pb o ws i <> INACTIVE -> geq S pb i = false ->
  wanted S pb o ws i = nth i ws INACTIVE /\ given_ok S pb o i (nth i ws INACTIVE).
Proof.
  unfold wanted. intros H E. rewrite E in *. destruct (warm_on S o ws); [|congruence].
  destruct (nth i ws INACTIVE); try congruence; cbn [beyond given_ok] in *; unfold lo_inf, up_inf in *; auto.
  all: try destruct (glo S pb i) as [b|]; try destruct (gup S pb i) as [b'|]; try congruence.
  all: try congruence; try (match type of H with context [if ?c then _ else _] => destruct c eqn:El end; try congruence; eauto).
Qed.

(** For every vector of statuses whose size is right, the call of
    processInitialActiveSet that returns says OVERCONSTRAINED_PROBLEM exactly when
    more than n constraints are to be kept as equalities; otherwise every true
    equality is active as such, at most n constraints are active, and every other
    active constraint has the status given by the caller, on a finite side. *)
Theorem C17_initial_active_set : forall (S : ops) pb o ws A st A',
  length (a_status A) = gcb S pb -> a_nc A = gc_ S pb -> a_nb A = gb S pb -> ws_size S pb o ws ->
  processInitialActiveSet pb o ws (gn S pb) A = Ok (st, A') ->
  let equal i := if geq S pb i then true else warm_on S o ws && status_eqb (nth i ws INACTIVE) EQUALITY in
  let n_eq := length (filter equal (seq 0 (gcb S pb))) in
  (st = OVERCONSTRAINED_PROBLEM /\ (gn S pb < n_eq)%nat \/
   st = SUCCESS /\ (n_eq <= gn S pb)%nat /\
   (nact A' <= gn S pb)%nat /\
   (forall i, (i < gcb S pb)%nat -> geq S pb i = true -> nth i (a_status A') INACTIVE = if (i <? gc_ S pb)%nat then EQUALITY else FIXED) /\
   (forall i, (i < gcb S pb)%nat -> geq S pb i = false -> nth i (a_status A') INACTIVE <> INACTIVE ->
      o_warm o = true /\ nth i (a_status A') INACTIVE = nth i ws INACTIVE /\ given_ok S pb o i (nth i ws INACTIVE))).
Proof.
  intros S pb o ws A st A' H1 H2 H3 HW E equal neq.
  assert (Hkind : forall i, geq S pb i = false -> warm_on S o ws = true -> forallb (kind1 S pb o ws) (order S pb) = true -> (i < gcb S pb)%nat ->
    isEq (wanted S pb o ws i) = status_eqb (nth i ws INACTIVE) EQUALITY).
  { intros i Hq Hw HK Hi. unfold wanted. rewrite Hq, Hw. destruct (nth i ws INACTIVE); cbn [beyond]; auto;
      match goal with |- context [if ?c then _ else _] => destruct c end; reflexivity. }
  pose proof (processInitialActiveSet_spec S pb o ws A H1 H2 H3 HW) as HX. unfold gn in *.
  destruct (forallb (kind1 S pb o ws) (order S pb)) eqn:EK; [|rewrite HX in E; discriminate].
  assert (HN : n_eq S pb o ws = neq).
  { unfold n_eq, neq, order. rewrite filter_len_perm. fold (gcb S pb). f_equal. apply filter_ext_in'. intros i Hi. apply in_seq in Hi.
    unfold equal. destruct (geq S pb i) eqn:Eq.
    - unfold wanted. rewrite Eq. unfold gstat. destruct (i <? gc_ S pb)%nat; reflexivity.
    - destruct (warm_on S o ws) eqn:Ew; [apply Hkind; auto; lia|]. unfold wanted. rewrite Eq, Ew. reflexivity. }
  destruct HX as (st1 & A1 & E1 & HG & _ & _ & HX). rewrite E in E1. injection E1 as <- <-. rewrite HN in HX.
  destruct (Nat.ltb_spec (p_Grows pb) neq) as [Hlt|Hge]; [left; auto|right]. destruct HX as [-> HP].
  split; [reflexivity|]. split; [exact Hge|]. split; [rewrite nact_length by auto; apply HP|].
  change (forall i, (i < gcb S pb)%nat -> geq S pb i = true -> nth i (a_status A') INACTIVE = gstat S pb i) with
    (forall i, (i < gcb S pb)%nat -> geq S pb i = true -> stt A' i = gstat S pb i). split.
  - intros i Hi Hq. pose proof (pia_ok_eq S pb o ws A' i HP Hi) as HE. unfold wanted in HE. rewrite Hq in HE. apply HE.
    unfold gstat. destruct (i <? gc_ S pb)%nat; reflexivity.
  - intros i Hi Hq Hn. change (nth i (a_status A') INACTIVE) with (stt A' i) in *.
    pose proof (pk_stt _ _ _ _ _ HP i) as Hs. destruct (existsb (Nat.eqb i) (a_active A')); [|congruence].
    rewrite Hs in *. destruct (wanted_given S pb o ws i Hn Hq) as [Hw Hg]. split; [|split; auto].
    unfold wanted in Hn. rewrite Hq in Hn. unfold warm_on in Hn. destruct (o_warm o); auto.
Qed.
(** It is undefined (a failed assert) exactly for a status of the wrong kind on a
    constraint that is not an equality. *)
Theorem C17_kinds : forall (S : ops) pb o ws A,
  length (a_status A) = gcb S pb -> a_nc A = gc_ S pb -> a_nb A = gb S pb -> ws_size S pb o ws ->
  (processInitialActiveSet pb o ws (gn S pb) A = UB <->
   warm_on S o ws = true /\ exists i, (i < gcb S pb)%nat /\ geq S pb i = false /\ nth i ws INACTIVE <> INACTIVE /\
     if (i <? gc_ S pb)%nat then (4 <= status_int (nth i ws INACTIVE))%nat else (status_int (nth i ws INACTIVE) <= 3)%nat).
Proof.
  intros S pb o ws A H1 H2 H3 HW. pose proof (processInitialActiveSet_spec S pb o ws A H1 H2 H3 HW) as HX.
  destruct (forallb (kind1 S pb o ws) (order S pb)) eqn:EK.
  - destruct HX as (st & A' & E & _). rewrite E. split; [discriminate|]. intros (Hw & i & Hi & Hq & Hn & Hk). exfalso.
    rewrite forallb_forall in EK. specialize (EK i (proj2 (order_lt S pb i) Hi)). unfold kind1, isact in EK. rewrite Hq, Hw in EK. cbn [negb orb] in EK.
    destruct (status_eqb_spec (nth i ws INACTIVE) INACTIVE); [contradiction|]. cbn [negb orb] in EK.
    destruct (i <? gc_ S pb)%nat; apply Nat.leb_le in EK; lia.
  - split; auto. intros _.
    assert (HE : exists i, In i (order S pb) /\ kind1 S pb o ws i = false).
    { clear -EK. induction (order S pb) as [|a l IH]; [discriminate|]. simpl in EK. destruct (kind1 S pb o ws a) eqn:Ea.
      - destruct (IH EK) as (i & Hi & Hk). exists i. simpl; auto.
      - exists a. simpl; auto. }
    destruct HE as (i & Hi & Hk). apply order_lt in Hi. unfold kind1 in Hk. apply orb_false_iff in Hk as [Hk Hk2]. apply orb_false_iff in Hk as [Hk0 Hk1].
    cbv zeta in Hk2. apply orb_false_iff in Hk2 as [Hk2 Hk3]. split; [destruct (warm_on S o ws); auto|]. exists i. split; auto. split; auto.
    unfold isact in Hk2. destruct (status_eqb_spec (nth i ws INACTIVE) INACTIVE); [discriminate|]. split; auto.
    destruct (i <? gc_ S pb)%nat; apply Nat.leb_gt in Hk3; lia.
Qed.
(** A given FIXED on a bound that is not an equality is ignored. *)
Theorem C17_fixed_ignored : forall (S : ops) pb o ws A st A' i,
  length (a_status A) = gcb S pb -> a_nc A = gc_ S pb -> a_nb A = gb S pb -> ws_size S pb o ws ->
  processInitialActiveSet pb o ws (gn S pb) A = Ok (st, A') -> st = SUCCESS ->
  (i < gcb S pb)%nat -> geq S pb i = false -> nth i ws INACTIVE = FIXED -> nth i (a_status A') INACTIVE = INACTIVE.
Proof.
  intros S pb o ws A st A' i H1 H2 H3 HW E -> Hi Hq Hf.
  destruct (C17_initial_active_set S pb o ws A SUCCESS A' H1 H2 H3 HW E) as [[H _]|(_ & _ & _ & _ & H)]; [discriminate|].
  destruct (status_eq_dec (nth i (a_status A') INACTIVE) INACTIVE) as [|Hn]; auto.
  destruct (H i Hi Hq Hn) as (_ & _ & Hg). rewrite Hf in Hg. destruct Hg.
Qed.

(** Runs on doubles *)
Definition wopt : options Fops := @Opt Fops 500 1e100%float true true.
Definition xsolve0 (pb : problem Fops) o ws := xgi_solve (S:=Fops) (fun _ => nan) pb o ws (xsol_new Fops).
Definition xobs {X} (f : sol Fops -> X) (r : res (term_status * xsol Fops)) : option (term_status * X) :=
  match r with Ok (st, x) => Some (st, f (x_s x)) | UB => None end.
Lemma xobs_ex {X} (f : sol Fops -> X) r st v : xobs f r = Some (st, v) -> exists x, r = Ok (st, x) /\ f (x_s x) = v.
Proof. destruct r as [[st' x]|]; [|discriminate]. simpl. intros E. injection E as <- <-. eauto. Qed.
Lemma xsol_ex (pb : problem Fops) o ws st (v : list float) :
  xobs (fun s : sol Fops => match solution s with Ok l => closeL l v | UB => false end) (xsolve0 pb o ws) = Some (st, true) ->
  exists x' l, xsolve0 pb o ws = Ok (st, x') /\ solution (x_s x') = Ok l /\ closeL l v = true.
Proof.
  intros E. destruct (xobs_ex _ _ _ _ E) as (x' & E1 & E2). exists x'. destruct (solution (x_s x')) as [l|]; [|discriminate]. eauto.
Qed.

(** The intended rule "a given EQUALITY on a constraint that is not one is
    ignored" is false (the code tests for FIXED): minimising half the squared norm
    under -3 <= x0 <= 3 from the status EQUALITY answers SUCCESS at (-3, 0)
    although (0, 0) is feasible and better. *)
Definition slab_pb := mkpb 2 1 I2 [0;0]%float [[1;0]]%float [-3]%float [3]%float [] [].
Theorem C17_equality_not_ignored : (exists x' l, xsolve0 slab_pb wopt [EQUALITY] = Ok (SUCCESS, x') /\ solution (x_s x') = Ok l /\ closeL l [-3;0]%float = true) /\
  satisfied slab_pb [0;0]%float = true /\
  (exists x' l, xsolve0 slab_pb wopt [INACTIVE] = Ok (SUCCESS, x') /\ solution (x_s x') = Ok l /\ closeL l [0;0]%float = true).
Proof.
  split; [apply xsol_ex; vm_compute; reflexivity|]. split; [vm_compute; reflexivity|]. apply xsol_ex; vm_compute; reflexivity.
Qed.

(** ** C46: calls of the warm-startable solver are memory safe *)
(** for any arithmetic, any object history, any problem, any statuses of the right
    size: undefined exactly when a status has the wrong kind, or when, in a debug
    build, there are more equalities than variables *)
Theorem C46_warm_memory_safe : forall (S : ops) junk pb o ws x, safe_ops S -> xhistory S x -> leb S (o_bigBnd o) (o_bigBnd o) = true ->
  sizes_ok pb = true -> (ws = [] \/ length ws = (p_Ccols pb + p_xlsize pb)%nat /\ o_warm o = true) ->
  let given := if o_warm o then match ws with [] => activeSet (x_s (xresize junk x (p_Grows pb) (p_Ccols pb) (0 <? p_xlsize pb)%nat)) | _ => ws end else [] in
  (forall i, nth i given INACTIVE = EQUALITY -> glo S pb i <> None) ->
  let wrong_kind := exists i, (i < gcb S pb)%nat /\ geq S pb i = false /\ nth i given INACTIVE <> INACTIVE /\
       if (i <? gc_ S pb)%nat then (4 <= status_int (nth i given INACTIVE))%nat else (status_int (nth i given INACTIVE) <= 3)%nat in
  let equal i := if geq S pb i then true else status_eqb (nth i given INACTIVE) EQUALITY in
  let n_eq := length (filter equal (seq 0 (gcb S pb))) in
  (xgi_solve junk pb o ws x = UB <-> wrong_kind \/ o_debug o = true /\ (p_Grows pb < n_eq)%nat) /\
  (forall st x', xgi_solve junk pb o ws x = Ok (st, x') ->
     (st = OVERCONSTRAINED_PROBLEM <-> (p_Grows pb < n_eq)%nat) /\
     (st = OVERCONSTRAINED_PROBLEM \/ st = NON_POS_HESSIAN \/ st = SUCCESS \/ st = INFEASIBLE \/ st = MAX_ITER_REACHED) /\
     (iterations (x_s x') <= Nat.max (o_maxIter o) (p_Grows pb))%nat /\
     (exists v, solution (x_s x') = Ok v /\ length v = p_Grows pb) /\ (exists l s'', multipliers (x_s x') = Ok (l, s'') /\ length l = gcb S pb)).
Proof.
  intros S junk pb o ws x HO HH HB Hs Hws given HEq wrong equal neq.
  pose proof (xhist_wf S x HO HH) as HW.
  assert (Eg : ws_eff S junk pb o ws x = given) by (unfold ws_eff, given; destruct (o_warm o), ws; reflexivity).
  assert (Ha : args_ok S pb o ws = true).
  { unfold args_ok. rewrite Hs. destruct Hws as [-> | [-> ->]]; [|rewrite Nat.eqb_refl; reflexivity]. simpl. rewrite !orb_true_r. reflexivity. }
  assert (Hsz : ws_size S pb o given) by (rewrite <- Eg; apply ws_eff_size; auto).
  assert (Hoff : warm_on S o given = false -> forall i, nth i given INACTIVE = INACTIVE).
  { unfold warm_on. intros H i. unfold given in *. destruct (o_warm o); [|destruct i; reflexivity].
    destruct (match ws with [] => _ | _ => _ end); [destruct i; reflexivity|discriminate]. }
  assert (HK : wrong <-> forallb (kind1 S pb o given) (order S pb) = false).
  { set (A0 := as_new (gc_ S pb) (gb S pb)).
    pose proof (C17_kinds S pb o given A0) as HC. 
    assert (HL : length (a_status A0) = gcb S pb) by (unfold A0, as_new, as_resize, as_reset; cbn [a_status]; rewrite map_length; apply vec_resize_length).
    specialize (HC HL eq_refl eq_refl Hsz).
    pose proof (processInitialActiveSet_spec S pb o given A0 HL eq_refl eq_refl Hsz) as HX.
    destruct (forallb (kind1 S pb o given) (order S pb)) eqn:EK.
    - destruct HX as (st & A' & E & _). split; [|discriminate]. intros H. rewrite E in HC.
      assert (Hw : warm_on S o given = true). { destruct (warm_on S o given) eqn:Ew; auto. destruct H as (i & _ & _ & Hn & _). exfalso. apply Hn. apply Hoff. reflexivity. }
      destruct HC as [_ HC]. specialize (HC (conj Hw H)). discriminate.
    - split; auto. intros _. apply HC in HX. apply HX. }
  assert (HN : n_eq S pb o given = neq).
  { unfold n_eq, neq, order. rewrite filter_len_perm. fold (gcb S pb). f_equal. apply filter_ext_in'. intros i Hi.
    unfold equal, wanted. destruct (geq S pb i); [unfold gstat; destruct (i <? gc_ S pb)%nat; reflexivity|].
    destruct (warm_on S o given) eqn:Ew; [|rewrite (Hoff eq_refl i); reflexivity].
    destruct (nth i given INACTIVE); cbn [beyond]; auto; match goal with |- context [if ?c then _ else _] => destruct c end; reflexivity. }
  assert (HEq' : eq_lo S pb (ws_eff S junk pb o ws x)) by (rewrite Eg; exact HEq).
  pose proof (xsolve S junk pb o ws x HO HB HW Ha (or_introl HEq')) as HX. cbv zeta in HX. rewrite Eg in HX.
  pose proof (xsolve_result S junk pb o ws x HO HB HW Ha HEq') as HR. rewrite Eg in HR. rewrite HN in *.
  destruct (forallb (kind1 S pb o given) (order S pb)) eqn:EK; cbn [negb] in HX.
  2:{ split; [|intros st x' E; rewrite HX in E; discriminate]. split; auto. intros _. left. apply HK. reflexivity. }
  assert (Hnw : ~ wrong) by (rewrite HK; discriminate).
  destruct (o_debug o && (gn S pb <? neq)%nat)%bool eqn:ED.
  - apply andb_true_iff in ED as [ED1 ED2]. rewrite ED2 in HX. rewrite ED1 in HX. destruct HX as (x' & _ & _ & _ & EX). apply Nat.ltb_lt in ED2.
    split; [|intros st x1 E; rewrite EX in E; discriminate]. split; auto.
  - assert (HD : o_debug o = true -> (neq <= gn S pb)%nat).
    { intros Hd. rewrite Hd in ED. simpl in ED. apply Nat.ltb_ge in ED. auto. }
    destruct (HR eq_refl HD) as (st & x' & E & HXS & Hexp & Hov & Hnp & Hrest).
    split.
    + rewrite E. split; [discriminate|]. intros [H|[H1 H2]]; [contradiction|]. specialize (HD H1). unfold gn in HD. lia.
    + intros st1 x1 E1. rewrite E in E1. injection E1 as <- <-. split; [exact Hov|]. split; [tauto|].
      pose proof (xh_s _ _ _ HXS) as HGS. pose proof (gsh_wf S pb _ HGS) as HWs.
      split.
      { destruct Hrest as [H|[H|(_ & [(_ & H)|(_ & H)])]]; unfold iterations, gn in *; try lia.
        - rewrite H in *. assert (Hlt : (gn S pb < neq)%nat) by (apply Hov; auto).
          apply Nat.ltb_lt in Hlt. unfold gn in Hlt. rewrite Hlt in HX.
          destruct HX as (x2 & _ & I2 & _ & E2). rewrite E in E2. destruct (o_debug o); [discriminate|]. injection E2 as <-. lia.
        - rewrite H in *. destruct (proj1 Hnp eq_refl) as (Hle & Hll). apply Nat.ltb_ge in Hle. unfold gn in *. rewrite Hle in HX.
          destruct (fst (llt (p_Grows pb) (p_G pb))); [|congruence]. destruct HX as (x2 & E2 & _ & I2 & _). rewrite E in E2. injection E2 as <-. lia. }
      split.
      * destruct (gsolution S (x_s x') HWs) as (v & Ev & Lv). exists v. split; [exact Ev|]. rewrite Lv. apply (g_n _ _ _ HGS).
      * destruct (gmult S (x_s x') HWs) as (l & u & Em). exists l, u. split; [exact Em|].
        apply mult_frame in Em as (_ & _ & _ & _ & _ & _ & _ & _ & _ & _ & _ & _ & _ & Fl). rewrite Fl. unfold nbAll. rewrite (g_nc _ _ _ HGS), (g_nb _ _ _ HGS). reflexivity.
Qed.
(** on doubles, with the solver's default options *)
Example C46_nonvacuous : exists x', xsolve0 paper wopt [UPPER; UPPER_BOUND; INACTIVE] = Ok (SUCCESS, x').
Proof.
  destruct (xobs_ex (fun _ => tt) (xsolve0 paper wopt [UPPER; UPPER_BOUND; INACTIVE]) SUCCESS tt) as (x' & E & _); [vm_compute; reflexivity|eauto].
Qed.
Example C46_wrong_kind : xsolve0 paper wopt [LOWER_BOUND; INACTIVE; INACTIVE] = UB.
Proof.
  assert (H : match xsolve0 paper wopt [LOWER_BOUND; INACTIVE; INACTIVE] with UB => true | Ok _ => false end = true) by (vm_compute; reflexivity).
  destruct (xsolve0 paper wopt [LOWER_BOUND; INACTIVE; INACTIVE]); [discriminate|reflexivity].
Qed.

(** ** C47: what the warm-startable solver answers, in exact arithmetic *)
Local Open Scope R_scope.
(** SUCCESS: the point is feasible *)
Theorem C47_success_feasible : forall junk pb o ws x x' v, xhistory Rops x -> xgi_solve junk pb o ws x = Ok (SUCCESS, x') -> solution (x_s x') = Ok v ->
  warm_ok junk pb o ws x -> ordered pb -> length v = nv pb /\ feasible pb (vec_of v).
Proof. exact xfinal_feasible. Qed.
(** SUCCESS: the point is the unique minimiser and multipliers() proves it *)
Theorem C47_success_optimal : forall junk pb o ws x x' v lam s'', xhistory Rops x -> xgi_solve junk pb o ws x = Ok (SUCCESS, x') -> solution (x_s x') = Ok v ->
  multipliers (x_s x') = Ok (lam, s'') -> warm_ok junk pb o ws x -> ordered pb -> equalities_first pb ->
  bounds_later pb o (ws_eff Rops junk pb o ws x) -> xexact_tests junk pb o ws x ->
  length v = nv pb /\ length lam = (nc pb + nb pb)%nat /\ kkt pb (vec_of v) (vec_of lam) /\ unique_minimiser pb (vec_of v).
Proof. exact xfinal_kkt. Qed.
(** INFEASIBLE: no feasible point *)
Theorem C47_infeasible_correct : forall junk pb o ws x x', xhistory Rops x -> xgi_solve junk pb o ws x = Ok (INFEASIBLE, x') ->
  warm_ok junk pb o ws x -> equalities_first pb -> bounds_later pb o (ws_eff Rops junk pb o ws x) -> xexact_tests junk pb o ws x -> infeasible pb.
Proof. exact xfinal_infeasible. Qed.

(** The provisos are needed.  Bounds in the starting set together with a general
    equality: x1 = 0, x0 >= 2 (general), x0 >= 1 (bound); started with the bound
    active the answer is INFEASIBLE, started with nothing it is SUCCESS at (2,0). *)
Definition bound_eq_pb := mkpb 2 2 I2 [0;0]%float [[0;1];[1;0]]%float [0;2]%float [0;1000]%float [1;-100]%float [1000;1000]%float.
Theorem C47_bounds_later_needed :
  (exists x', xsolve0 bound_eq_pb wopt [INACTIVE;INACTIVE;LOWER_BOUND;INACTIVE] = Ok (INFEASIBLE, x')) /\ satisfied bound_eq_pb [2;0]%float = true /\
  (exists x' l, xsolve0 bound_eq_pb wopt [INACTIVE;INACTIVE;INACTIVE;INACTIVE] = Ok (SUCCESS, x') /\ solution (x_s x') = Ok l /\ closeL l [2;0]%float = true).
Proof.
  split; [|split; [vm_compute; reflexivity|apply xsol_ex; vm_compute; reflexivity]].
  destruct (xobs_ex (fun _ => tt) (xsolve0 bound_eq_pb wopt [INACTIVE;INACTIVE;LOWER_BOUND;INACTIVE]) INFEASIBLE tt) as (x' & E & _); [vm_compute; reflexivity|eauto].
Qed.
(** An equality not numbered first (finding 1), cold start: minimise
    1/2 |x|^2 - x0 + 2 x1 - 3 x2 with the equality x0 - 2 x1 - 2 x2 = 1 numbered
    second.  SUCCESS at (5,1,1), objective 7.5, although (2,1/2,0) is feasible
    with objective 1.125; with the equality first the answer is the latter. *)
Definition xlate_pb := mkpb 3 4 I3 [-1;2;-3]%float [[0;0;2];[1;-2;-2];[0;2;-1];[0;-2;2]]%float [-1;1;1;-1]%float [3;1;2;0]%float [] [].
Definition xfirst_pb := mkpb 3 4 I3 [-1;2;-3]%float [[1;-2;-2];[0;0;2];[0;2;-1];[0;-2;2]]%float [1;-1;1;-1]%float [1;3;2;0]%float [] [].
Theorem C47_ordering_needed :
  (exists x' l, xsolve0 xlate_pb defopt [] = Ok (SUCCESS, x') /\ solution (x_s x') = Ok l /\ closeL l [5;1;1]%float = true) /\
  satisfied xlate_pb [5;1;1]%float = true /\ satisfied xlate_pb [2;0.5;0]%float = true /\
  PrimFloat.ltb (objI [-1;2;-3]%float [2;0.5;0]%float) (objI [-1;2;-3]%float [5;1;1]%float) = true /\
  (exists x' l, xsolve0 xfirst_pb defopt [] = Ok (SUCCESS, x') /\ solution (x_s x') = Ok l /\ closeL l [2;0.5;0]%float = true).
Proof.
  split; [apply xsol_ex; vm_compute; reflexivity|]. split; [vm_compute; reflexivity|]. split; [vm_compute; reflexivity|].
  split; [vm_compute; reflexivity|]. apply xsol_ex; vm_compute; reflexivity.
Qed.
(** Linearly dependent statuses: SUCCESS with a point that is not a number. *)
Definition twice_pb := mkpb 2 2 I2 [0;0]%float [[1;0];[1;0]]%float [1;1]%float [10;10]%float [] [].
Theorem C47_independence_needed : exists x' v, xsolve0 twice_pb wopt [LOWER;LOWER] = Ok (SUCCESS, x') /\ solution (x_s x') = Ok v /\
  forallb is_nan v = true /\ satisfied twice_pb [1;0]%float = true.
Proof.
  destruct (xobs_ex (fun s : sol Fops => match solution s with Ok l => forallb is_nan l | UB => false end) (xsolve0 twice_pb wopt [LOWER;LOWER]) SUCCESS true) as (x' & E & H); [vm_compute; reflexivity|].
  exists x'. destruct (solution (x_s x')) as [v|]; [|discriminate]. exists v. split; [exact E|]. split; [reflexivity|]. split; [exact H|vm_compute; reflexivity].
Qed.

(** ** C18: restart from the active set of the solution *)
(** [ws] describes an optimal active set at the KKT point [(xs, lam)]: given it,
    or an empty vector when the object already holds it, the call answers SUCCESS
    at [xs] with no iteration, whatever was done with the object before. *)
Theorem C18_restart_from_optimal_set : forall junk pb o arg ws x xs lam, xhistory Rops x -> sizes_ok pb = true -> o_warm o = true -> (1 <= o_maxIter o)%nat ->
  (arg = ws \/ arg = [] /\ activeSet (x_s (xresize junk x (p_Grows pb) (p_Ccols pb) (0 <? p_xlsize pb)%nat)) = ws) ->
  posdef (nv pb) (hess pb) -> kkt pb xs lam -> active_set_at pb o ws xs lam -> moderate pb o -> exact_qr pb o ws ->
  exists x' v, xgi_solve junk pb o arg x = Ok (SUCCESS, x') /\ iterations (x_s x') = 0%nat /\ solution (x_s x') = Ok v /\ length v = nv pb /\
    (forall i, (i < nv pb)%nat -> vec_of v i = xs i) /\
    (forall i, (i < ncb pb)%nat -> ~ is_equality pb i -> nth i (activeSet (x_s x')) INACTIVE = nth i ws INACTIVE) /\
    (forall i, (i < ncb pb)%nat -> is_equality pb i -> nth i (activeSet (x_s x')) INACTIVE = if (i <? nc pb)%nat then EQUALITY else FIXED) /\
    (exists m s'', multipliers (x_s x') = Ok (m, s'') /\ length m = ncb pb /\ forall i, (i < ncb pb)%nat -> vec_of m i = lam i).
Proof.
  intros junk pb o arg ws x xs lam HH Hs Ho Hmax Harg HPd HK HA Hm Hq.
  pose proof (xhist_wf Rops x real_safe HH) as HW.
  assert (Ews : ws_eff Rops junk pb o arg x = ws).
  { unfold ws_eff. rewrite Ho. destruct Harg as [-> | [-> E]]; [|exact E]. destruct ws; auto. simpl.
    apply length_zero_iff_nil. unfold activeSet. rewrite (gstat_len Rops pb); [|apply (xh_s _ _ _ (xresize_sh Rops junk pb x HW Hs))].
    symmetry. apply (aa_len _ _ _ _ _ HA). }
  assert (Ha : args_ok Rops pb o arg = true).
  { unfold args_ok. rewrite Hs, Ho. simpl. destruct Harg as [-> | [-> E]]; [|simpl; rewrite orb_true_r; reflexivity].
    pose proof (aa_len _ _ _ _ _ HA) as Hl. unfold ncb, nc, nb in Hl. rewrite Hl, Nat.eqb_refl. reflexivity. }
  destruct (hot_restart junk pb o arg ws x xs lam) as (x' & E & Hit & HS & Hx & Hst & HM); auto.
  pose proof (xhist_wf Rops x' real_safe (xh_solve Rops _ _ _ _ _ _ _ HH (leb_refl_R _) E)) as HW'.
  destruct (gsolution Rops (x_s x') (xw_s _ _ HW')) as (v & Ev & Lv). exists x', v.
  destruct (solution_spec pb (x_s x') v HS Ev) as [Hlen Hv].
  split; [exact E|]. split; [exact Hit|]. split; [exact Ev|]. split; [exact Hlen|]. split; [|split; [|split]].
  - intros i Hi. rewrite Hv by auto. apply Hx. auto.
  - intros i Hi Hn. rewrite Hst by auto. destruct (eqb_c_spec pb i); [contradiction|auto].
  - intros i Hi Hn. rewrite Hst by auto. destruct (eqb_c_spec pb i); [auto|contradiction].
  - destruct (xsolve_ok Rops junk pb o arg x SUCCESS x' real_safe (leb_refl_R _) HW E) as (_ & Hexp & _).
    destruct (multipliers_fresh pb (x_s x') HS Hexp) as (m & s'' & Em & Hm' & _). exists (map m (seq 0 (ncb pb))), s''. split; [exact Em|].
    split; [rewrite map_length, seq_length; reflexivity|]. intros i Hi. rewrite <- (HM m Hm' i Hi). unfold vec_of.
    rewrite (nth_indep _ _ (m 0%nat)) by (rewrite map_length, seq_length; auto). rewrite map_nth, seq_nth by auto. reflexivity.
Qed.
Lemma success_posdef junk pb o s s' : history Rops s -> gi_solve junk pb o s = Ok (SUCCESS, s') -> posdef (nv pb) (hess pb).
Proof.
  intros HH E. pose proof (final_nonpos junk pb o s SUCCESS s' HH E) as HN. pose proof (llt_iff (nv pb) (p_G pb)) as HL.
  destruct (fst (@llt Rops (nv pb) (p_G pb))) as [p|]; [|apply HL; reflexivity].
  exfalso. assert (Hn : ~ posdef (nv pb) (hess pb)). { intros HP. assert (Some p = None) by (apply HL; exact HP). discriminate. }
  apply HN in Hn. discriminate.
Qed.
Lemma same_set pb ws ws' : length ws = ncb pb -> length ws' = ncb pb ->
  (forall i, (i < ncb pb)%nat -> ~ is_equality pb i -> nth i ws INACTIVE = nth i ws' INACTIVE) ->
  (forall i, (i < ncb pb)%nat -> is_equality pb i -> nth i ws INACTIVE = if (i <? nc pb)%nat then EQUALITY else FIXED) ->
  (forall i, (i < ncb pb)%nat -> is_equality pb i -> nth i ws' INACTIVE = eqstat pb i) -> ws = ws'.
Proof.
  intros L1 L2 H1 H2 H3. apply (nth_ext ws ws' INACTIVE INACTIVE); [congruence|]. intros i Hi. rewrite L1 in Hi.
  destruct (eqb_c_spec pb i); [rewrite H2, H3 by auto; reflexivity|auto].
Qed.
(** After any successful call of the dense solver, restarting the warm-startable
    solver from its final active set gives the same point at once. *)
Theorem C18_restart_after_dense : forall junk pb o s s' v lam s'' junk' o' x, history Rops s -> gi_solve junk pb o s = Ok (SUCCESS, s') ->
  solution s' = Ok v -> multipliers s' = Ok (lam, s'') ->
  ordered pb -> eq_separated pb -> equalities_first pb -> exact_tests junk pb o s ->
  xhistory Rops x -> o_warm o' = true -> (1 <= o_maxIter o')%nat -> moderate pb o' -> exact_qr pb o' (activeSet s') ->
  exists x' v', xgi_solve junk' pb o' (activeSet s') x = Ok (SUCCESS, x') /\ iterations (x_s x') = 0%nat /\ solution (x_s x') = Ok v' /\ v' = v /\
    activeSet (x_s x') = activeSet s' /\ exists t, multipliers (x_s x') = Ok (lam, t).
Proof.
  intros junk pb o s s' v lam s'' junk' o' x HH E Ev Em Hord Hsep Hfirst Hex HX Ho Hmax Hm Hq.
  destruct (final_kkt junk pb o s s' v lam s'' HH E Ev Em Hord Hsep Hfirst Hex) as (Lv & Ll & HK & _).
  pose proof (solved_active_set junk pb o o' s s' v lam s'' HH E Ev Em Hord Hsep Hfirst Hex) as [HA HEq].
  pose proof (solve_ended _ _ _ _ _ _ HH E Hsep) as HE. pose proof (ended_shape _ _ _ _ _ _ HE) as HS.
  destruct (C18_restart_from_optimal_set junk' pb o' (activeSet s') (activeSet s') x (vec_of v) (vec_of lam)) as (x' & v' & E' & Hit & Ev' & Lv' & Hv & Hst1 & Hst2 & (m & t & Em' & Lm & Hm')); auto.
  - apply (sh_sizes _ _ HS).
  - apply (success_posdef junk pb o s s'); auto.
  - exists x', v'. split; [exact E'|]. split; [exact Hit|]. split; [exact Ev'|].
    split; [apply (nth_ext v' v 0 0); [congruence|]; intros i Hi; rewrite Lv' in Hi; apply (Hv i Hi)|].
    split; [|exists t; rewrite Em'; f_equal; f_equal; apply (nth_ext m lam 0 0); [congruence|]; intros i Hi; rewrite Lm in Hi; apply (Hm' i Hi)].
    destruct (xsolve_ok Rops junk' pb o' (activeSet s') x SUCCESS x' real_safe (leb_refl_R _) (xhist_wf Rops x real_safe HX) E') as (HX' & _).
    apply (same_set pb); auto; [apply (gstat_len Rops pb), HX'|apply (aa_len _ _ _ _ _ HA)].
Qed.

(** The same after a successful call of the warm-startable solver itself, on the
    same object, with the returned active set or with no argument. *)
Theorem C18_restart_after_warm : forall junk pb o ws x x' v lam s'' junk' o' arg, xhistory Rops x -> xgi_solve junk pb o ws x = Ok (SUCCESS, x') ->
  solution (x_s x') = Ok v -> multipliers (x_s x') = Ok (lam, s'') -> warm_ok junk pb o ws x -> ordered pb -> equalities_first pb ->
  bounds_later pb o (ws_eff Rops junk pb o ws x) -> xexact_tests junk pb o ws x ->
  arg = activeSet (x_s x') \/ arg = [] ->
  o_warm o' = true -> (1 <= o_maxIter o')%nat -> moderate pb o' -> exact_qr pb o' (activeSet (x_s x')) ->
  exists x2 v2, xgi_solve junk' pb o' arg x' = Ok (SUCCESS, x2) /\ iterations (x_s x2) = 0%nat /\ solution (x_s x2) = Ok v2 /\ v2 = v /\
    activeSet (x_s x2) = activeSet (x_s x') /\ exists t, multipliers (x_s x2) = Ok (lam, t).
Proof.
  intros junk pb o ws x x' v lam s'' junk' o' arg HH E Ev Em Hw Hord Hfirst Hb Hex Harg Ho Hmax Hm Hq.
  destruct (xfinal_kkt junk pb o ws x x' v lam s'' HH E Ev Em Hw Hord Hfirst Hb Hex) as (Lv & Ll & HK & _).
  pose proof (xsolved_active_set junk pb o o' ws x x' v lam s'' HH E Ev Em Hw Hord Hfirst Hb Hex) as [HA HEq].
  pose proof (xsolve_ended _ _ _ _ _ _ _ HH E Hw) as HE.
  assert (HPd : posdef (nv pb) (hess pb)) by (inversion HE; auto).
  destruct (xsolve_ok Rops junk pb o ws x SUCCESS x' real_safe (leb_refl_R _) (xhist_wf Rops x real_safe HH) E) as (HX & _).
  assert (HH' : xhistory Rops x') by (eapply xh_solve; [exact HH| |exact E]; apply leb_refl_R).
  destruct (C18_restart_from_optimal_set junk' pb o' arg (activeSet (x_s x')) x' (vec_of v) (vec_of lam)) as (x2 & v2 & E' & Hit & Ev' & Lv' & Hv & Hst1 & Hst2 & (m & t & Em' & Lm & Hm')); auto.
  - apply (g_sizes _ _ _ (xh_s _ _ _ HX)).
  - destruct Harg as [-> | ->]; [left; reflexivity|]. right. split; [reflexivity|]. apply resize_same_A. exact HX.
  - exists x2, v2. split; [exact E'|]. split; [exact Hit|]. split; [exact Ev'|].
    split; [apply (nth_ext v2 v 0 0); [congruence|]; intros i Hi; rewrite Lv' in Hi; apply (Hv i Hi)|].
    split; [|exists t; rewrite Em'; f_equal; f_equal; apply (nth_ext m lam 0 0); [congruence|]; intros i Hi; rewrite Lm in Hi; apply (Hm' i Hi)].
    destruct (xsolve_ok Rops junk' pb o' arg x' SUCCESS x2 real_safe (leb_refl_R _) (xhist_wf Rops x' real_safe HH') E') as (HX' & _).
    apply (same_set pb); auto; [apply (gstat_len Rops pb), HX'|apply (aa_len _ _ _ _ _ HA)].
Qed.

(** ... and so on for ever: any number of further calls on that problem, each given
    the active set or nothing, with or without reading the multipliers in between. *)
Definition follow_up : Type := (vec Rops * list status * bool)%type.
Fixpoint follow_ups (pb : rproblem) (o : ropt) (cs : list follow_up) (x : rxsol) : res (list (term_status * rxsol)) :=
  match cs with
  | [] => Ok []
  | (junk, arg, read) :: cs =>
    do x <- (if read : bool then do m <- multipliers (x_s x); Ok (xset_s x (snd m)) else Ok x);
    do r <- xgi_solve junk pb o arg x;
    do rest <- follow_ups pb o cs (snd r);
    Ok (r :: rest)
  end.
Definition same_result (v lam : list R) (ws : list status) (r : term_status * rxsol) : Prop :=
  fst r = SUCCESS /\ iterations (x_s (snd r)) = 0%nat /\ solution (x_s (snd r)) = Ok v /\ activeSet (x_s (snd r)) = ws /\
  exists t, multipliers (x_s (snd r)) = Ok (lam, t).

Lemma hot_call pb o ws v lam : length v = nv pb -> length lam = ncb pb -> sizes_ok pb = true -> o_warm o = true -> (1 <= o_maxIter o)%nat ->
  posdef (nv pb) (hess pb) -> kkt pb (vec_of v) (vec_of lam) -> active_set_at pb o ws (vec_of v) (vec_of lam) ->
  (forall i, (i < ncb pb)%nat -> is_equality pb i -> nth i ws INACTIVE = eqstat pb i) -> moderate pb o -> exact_qr pb o ws ->
  forall junk arg x, xhistory Rops x ->
  (arg = ws \/ arg = [] /\ activeSet (x_s (xresize junk x (p_Grows pb) (p_Ccols pb) (0 <? p_xlsize pb)%nat)) = ws) ->
  exists x', xgi_solve junk pb o arg x = Ok (SUCCESS, x') /\ same_result v lam ws (SUCCESS, x') /\ xsh Rops pb x' /\ xhistory Rops x'.
Proof.
  intros Lv Ll Hs Ho Hmax HPd HK HA HEq Hm Hq junk arg x HX Harg.
  destruct (C18_restart_from_optimal_set junk pb o arg ws x (vec_of v) (vec_of lam)) as (x' & v' & E' & Hit & Ev' & Lv' & Hv & Hst1 & Hst2 & (m & t & Em' & Lm & Hm')); auto.
  destruct (xsolve_ok Rops junk pb o arg x SUCCESS x' real_safe (leb_refl_R _) (xhist_wf Rops x real_safe HX) E') as (HX' & _).
  exists x'. split; [exact E'|]. split; [|split; [exact HX'|eapply xh_solve; [exact HX| |exact E']; apply leb_refl_R]].
  unfold same_result. cbn [fst snd]. split; [reflexivity|]. split; [exact Hit|]. split; [|split].
  - rewrite Ev'. f_equal. apply (nth_ext v' v 0 0); [exact (eq_trans Lv' (eq_sym Lv))|]. intros i Hi. rewrite Lv' in Hi. apply (Hv i Hi).
  - apply (same_set pb); auto; [apply (gstat_len Rops pb), HX'|apply (aa_len _ _ _ _ _ HA)].
  - exists t. rewrite Em'. f_equal. f_equal. apply (nth_ext m lam 0 0); [exact (eq_trans Lm (eq_sym Ll))|]. intros i Hi. rewrite Lm in Hi. apply (Hm' i Hi).
Qed.

Lemma hot_calls pb o ws v lam : length v = nv pb -> length lam = ncb pb -> sizes_ok pb = true -> o_warm o = true -> (1 <= o_maxIter o)%nat ->
  posdef (nv pb) (hess pb) -> kkt pb (vec_of v) (vec_of lam) -> active_set_at pb o ws (vec_of v) (vec_of lam) ->
  (forall i, (i < ncb pb)%nat -> is_equality pb i -> nth i ws INACTIVE = eqstat pb i) -> moderate pb o -> exact_qr pb o ws ->
  forall cs, (forall c, In c cs -> snd (fst c) = ws \/ snd (fst c) = []) ->
  forall x, xhistory Rops x -> xsh Rops pb x -> activeSet (x_s x) = ws ->
  exists outs, follow_ups pb o cs x = Ok outs /\ length outs = length cs /\ forall r, In r outs -> same_result v lam ws r.
Proof.
  intros Lv Ll Hs Ho Hmax HPd HK HA HEq Hm Hq. induction cs as [|[[junk arg] read] cs IH]; intros Hcs x HX HSh Hws.
  - exists []. split; [reflexivity|]. split; [reflexivity|]. intros r [].
  - assert (HR : exists y, (if read then do m <- multipliers (x_s x); Ok (xset_s x (snd m)) else Ok x) = Ok y /\ xhistory Rops y /\
      s_n (x_s y) = s_n (x_s x) /\ s_A (x_s y) = s_A (x_s x)).
    { destruct read; [|exists x; auto].
      destruct (gmult Rops (x_s x) (xw_s _ _ (xhist_wf Rops x real_safe HX))) as (l & s' & El). rewrite El. cbn [bind snd].
      exists (xset_s x s'). split; [reflexivity|]. split; [eapply xh_mult; eauto|]. cbn [xset_s x_s]. apply (mult_keeps Rops _ l). exact El. }
    destruct HR as (y & Ey & HY & YN & YA). cbn [follow_ups]. rewrite Ey. cbn [bind].
    destruct (hot_call pb o ws v lam Lv Ll Hs Ho Hmax HPd HK HA HEq Hm Hq junk arg y HY) as (x' & E' & HS' & HX' & HH').
    { destruct (Hcs _ (or_introl eq_refl)) as [H|H]; cbn [fst snd] in H; subst arg; [left; reflexivity|right; split; [reflexivity|]].
      rewrite (resize_same_AA Rops junk pb y x HSh YN YA). unfold activeSet. rewrite YA. exact Hws. }
    rewrite E'. cbn [bind snd].
    destruct (IH (fun c Hc => Hcs c (or_intror Hc)) x' HH' HX') as (outs & Eo & Lo & Ho'); [apply HS'|].
    rewrite Eo. cbn [bind]. eexists. split; [reflexivity|]. split; [cbn [length]; congruence|].
    intros r [<-|Hr]; auto.
Qed.

Theorem C18_for_ever : forall junk pb o s s' v lam s'' junk' o' x cs, history Rops s -> gi_solve junk pb o s = Ok (SUCCESS, s') ->
  solution s' = Ok v -> multipliers s' = Ok (lam, s'') ->
  ordered pb -> eq_separated pb -> equalities_first pb -> exact_tests junk pb o s ->
  xhistory Rops x -> o_warm o' = true -> (1 <= o_maxIter o')%nat -> moderate pb o' -> exact_qr pb o' (activeSet s') ->
  (forall c, In c cs -> snd (fst c) = activeSet s' \/ snd (fst c) = []) ->
  exists outs, follow_ups pb o' ((junk', activeSet s', false) :: cs) x = Ok outs /\ length outs = S (length cs) /\
    forall r, In r outs -> same_result v lam (activeSet s') r.
Proof.
  intros junk pb o s s' v lam s'' junk' o' x cs HH E Ev Em Hord Hsep Hfirst Hex HX Ho Hmax Hm Hq Hcs.
  destruct (final_kkt junk pb o s s' v lam s'' HH E Ev Em Hord Hsep Hfirst Hex) as (Lv & Ll & HK & _).
  destruct (solved_active_set junk pb o o' s s' v lam s'' HH E Ev Em Hord Hsep Hfirst Hex) as [HA HEq].
  pose proof (ended_shape _ _ _ _ _ _ (solve_ended _ _ _ _ _ _ HH E Hsep)) as HS. pose proof (sh_sizes _ _ HS) as Hs.
  pose proof (success_posdef junk pb o s s' HH E) as HPd.
  destruct (hot_call pb o' (activeSet s') v lam Lv Ll Hs Ho Hmax HPd HK HA HEq Hm Hq junk' (activeSet s') x HX (or_introl eq_refl)) as (x' & E' & HS' & HX' & HH').
  cbn [follow_ups bind]. rewrite E'. cbn [bind snd].
  destruct (hot_calls pb o' (activeSet s') v lam Lv Ll Hs Ho Hmax HPd HK HA HEq Hm Hq cs Hcs x' HH' HX') as (outs & Eo & Lo & Ho'); [apply HS'|].
  rewrite Eo. cbn [bind]. eexists. split; [reflexivity|]. split; [cbn [length]; congruence|]. intros r [<-|Hr]; auto.
Qed.

(** ** C48: the answer does not depend on the solver nor on the starting set *)
Lemma minimiser_unique pb v w : length v = nv pb -> length w = nv pb -> unique_minimiser pb (vec_of v) -> unique_minimiser pb (vec_of w) -> v = w.
Proof.
  intros Lv Lw [Fv Hv] [Fw Hw]. apply (nth_ext v w 0 0); [congruence|]. intros i Hi. rewrite Lv in Hi.
  apply (proj2 (Hw (vec_of v) Fv)); auto. apply (Hv (vec_of w) Fw).
Qed.
Theorem C48_same_answer : forall junk1 pb o1 ws1 x1 x1' v1 l1 s1 junk2 o2 ws2 x2 x2' v2 l2 s2,
  xhistory Rops x1 -> xgi_solve junk1 pb o1 ws1 x1 = Ok (SUCCESS, x1') -> solution (x_s x1') = Ok v1 -> multipliers (x_s x1') = Ok (l1, s1) ->
  xhistory Rops x2 -> xgi_solve junk2 pb o2 ws2 x2 = Ok (SUCCESS, x2') -> solution (x_s x2') = Ok v2 -> multipliers (x_s x2') = Ok (l2, s2) ->
  ordered pb -> equalities_first pb ->
  warm_ok junk1 pb o1 ws1 x1 -> bounds_later pb o1 (ws_eff Rops junk1 pb o1 ws1 x1) -> xexact_tests junk1 pb o1 ws1 x1 ->
  warm_ok junk2 pb o2 ws2 x2 -> bounds_later pb o2 (ws_eff Rops junk2 pb o2 ws2 x2) -> xexact_tests junk2 pb o2 ws2 x2 ->
  v1 = v2.
Proof.
  intros. destruct (xfinal_kkt junk1 pb o1 ws1 x1 x1' v1 l1 s1) as (L1 & _ & _ & M1); auto.
  destruct (xfinal_kkt junk2 pb o2 ws2 x2 x2' v2 l2 s2) as (L2 & _ & _ & M2); auto.
  apply (minimiser_unique pb); auto.
Qed.
Theorem C48_warm_dense_same_answer : forall junk1 pb o1 ws1 x1 x1' v1 l1 s1 junk2 o2 s2 s2' v2 l2 s2'',
  xhistory Rops x1 -> xgi_solve junk1 pb o1 ws1 x1 = Ok (SUCCESS, x1') -> solution (x_s x1') = Ok v1 -> multipliers (x_s x1') = Ok (l1, s1) ->
  history Rops s2 -> gi_solve junk2 pb o2 s2 = Ok (SUCCESS, s2') -> solution s2' = Ok v2 -> multipliers s2' = Ok (l2, s2'') ->
  ordered pb -> equalities_first pb -> eq_separated pb -> exact_tests junk2 pb o2 s2 ->
  warm_ok junk1 pb o1 ws1 x1 -> bounds_later pb o1 (ws_eff Rops junk1 pb o1 ws1 x1) -> xexact_tests junk1 pb o1 ws1 x1 ->
  v1 = v2.
Proof.
  intros. destruct (xfinal_kkt junk1 pb o1 ws1 x1 x1' v1 l1 s1) as (L1 & _ & _ & M1); auto.
  destruct (final_kkt junk2 pb o2 s2 s2' v2 l2 s2'') as (L2 & _ & _ & M2); auto.
  apply (minimiser_unique pb); auto.
Qed.

(** ** C49: total correctness, with hypotheses on the problem and the statuses only *)
Theorem C49_warm_total_correctness : forall junk pb o0 ws x, let given := ws_eff Rops junk pb o0 ws x in
  xhistory Rops x -> args_ok Rops pb o0 ws = true -> posdef (nv pb) (hess pb) -> ordered pb -> equalities_first pb ->
  (forall i, (i < ncb pb)%nat -> ~ is_equality pb i -> nth i given INACTIVE <> INACTIVE ->
     if (i <? nc pb)%nat then (status_int (nth i given INACTIVE) <= 3)%nat else (4 <= status_int (nth i given INACTIVE))%nat) ->
  (length (filter (geq Rops pb) (seq 0 (ncb pb))) <= nv pb)%nat ->
  moderate pb o0 -> warm_ok junk pb o0 ws x -> bounds_later pb o0 given -> tolerance_gap pb -> multiplier_gap pb (wanted Rops pb o0 given) ->
  exists B, forall o, o_warm o = o_warm o0 -> B <= o_bigBnd o -> (max_steps (nc pb + nb pb) + nv pb < o_maxIter o)%nat ->
    exists st x' v lam s'', xgi_solve junk pb o ws x = Ok (st, x') /\ solution (x_s x') = Ok v /\ multipliers (x_s x') = Ok (lam, s'') /\
      (st = SUCCESS /\ kkt pb (vec_of v) (vec_of lam) /\ unique_minimiser pb (vec_of v) \/ st = INFEASIBLE /\ infeasible pb).
Proof.
  intros junk pb o0 ws x given HH Ha HPd Hord Hfirst HK Hn Hm Hwo Hb HG HM.
  destruct (warm_total junk pb o0 ws x) as (B & HB); auto; fold given.
  - apply forallb_forall. intros i Hi. apply order_lt in Hi. unfold kind1. destruct (geq_spec pb i) as [|Hq]; auto.
    destruct (warm_on Rops o0 given); auto. cbn [negb orb]. unfold isact. destruct (status_eqb_spec (nth i given INACTIVE) INACTIVE) as [|Hne]; auto.
    cbn [negb orb]. specialize (HK i Hi Hq Hne). change (gc_ Rops pb) with (nc pb). destruct (i <? nc pb)%nat; apply Nat.leb_le; auto.
  - unfold n_eq, order. rewrite filter_len_perm. change (gc_ Rops pb + gb Rops pb)%nat with (ncb pb).
    rewrite (filter_ext_in' _ (geq Rops pb)); auto. intros i Hi. apply in_seq in Hi.
    destruct (geq_spec pb i) as [Hq|Hq]; [rewrite wanted_equality by auto; unfold eqstat; destruct (i <? nc pb)%nat; auto|].
    destruct (isEq (wanted Rops pb o0 given i)) eqn:E; auto. exfalso. apply Hq. apply (wanted_eq pb o0 given); auto. apply (wo_eq _ _ _ _ _ Hwo).
  - exists B. intros o Ew Ho Hmax. destruct (HB o Ew Ho Hmax) as (H1 & H2 & H3 & st & x' & E & Hst).
    pose proof (xhist_wf Rops x' real_safe (xh_solve Rops _ _ _ _ _ _ _ HH (leb_refl_R _) E)) as HW'.
    destruct (gsolution Rops (x_s x') (xw_s _ _ HW')) as (v & Ev & _). destruct (gmult Rops (x_s x') (xw_s _ _ HW')) as (lam & s'' & Em).
    exists st, x', v, lam, s''. split; [exact E|]. split; [exact Ev|]. split; [exact Em|]. destruct Hst as [-> | ->].
    + left. destruct (xfinal_kkt junk pb o ws x x' v lam s'' HH E Ev Em H1 Hord Hfirst H2 H3) as (_ & _ & K1 & K2). auto.
    + right. split; auto. apply (xfinal_infeasible junk pb o ws x x' HH E H1 Hfirst H2 H3).
Qed.
Example C49_nonvacuous : let given := ws_eff Rops (fun _ => 0) wex_pb (wex_o 0 1) wex_ws (xsol_new Rops) in
  xhistory Rops (xsol_new Rops) /\ args_ok Rops wex_pb (wex_o 0 1) wex_ws = true /\ posdef (nv wex_pb) (hess wex_pb) /\ ordered wex_pb /\ equalities_first wex_pb /\
  moderate wex_pb (wex_o 0 1) /\ warm_ok (fun _ => 0) wex_pb (wex_o 0 1) wex_ws (xsol_new Rops) /\ bounds_later wex_pb (wex_o 0 1) given /\
  tolerance_gap wex_pb /\ multiplier_gap wex_pb (wanted Rops wex_pb (wex_o 0 1) given).
Proof.
  cbv zeta. rewrite wex_eff. split; [apply xh_new|]. split; [apply wex_args|]. split; [apply wex_posdef|]. split; [apply wex_ordered|]. split; [apply wex_first|].
  split; [apply wex_moderate; lra|]. split; [apply wex_ok; lra|]. split; [apply wex_later|]. split; [apply wex_gap|apply wex_mgap; lra].
Qed.
Example C47_nonvacuous : exists n B x', xgi_solve (S:=Rops) (fun _ => 0) wex_pb (wex_o n B) wex_ws (xsol_new Rops) = Ok (SUCCESS, x') /\
  warm_ok (fun _ => 0) wex_pb (wex_o n B) wex_ws (xsol_new Rops) /\ bounds_later wex_pb (wex_o n B) (ws_eff Rops (fun _ => 0) wex_pb (wex_o n B) wex_ws (xsol_new Rops)) /\
  xexact_tests (fun _ => 0) wex_pb (wex_o n B) wex_ws (xsol_new Rops) /\ ordered wex_pb /\ equalities_first wex_pb.
Proof.
  destruct wex_run as (n & B & x' & H1 & H2 & H3 & H4). exists n, B, x'. split; [exact H1|]. split; [exact H2|]. split; [exact H3|]. split; [exact H4|].
  split; [apply wex_ordered|apply wex_first].
Qed.
Example C18_nonvacuous : posdef (nv wex_pb) (hess wex_pb) /\ kkt wex_pb wex_x (fun _ => 0) /\ active_set_at wex_pb (wex_o 1 1) wex_opt_ws wex_x (fun _ => 0) /\
  moderate wex_pb (wex_o 1 1) /\ exact_qr wex_pb (wex_o 1 1) wex_opt_ws.
Proof. split; [apply wex_posdef|]. split; [apply wex_kkt|]. split; [apply wex_active_set|]. split; [apply wex_moderate; lra|apply wex_opt_qr; lra]. Qed.

(** For doubles: statuses of the right kind and at most as many equalities as
    variables never cause a bad access, whatever the data and the history. *)
Theorem C46_double : forall junk pb o ws x, xhistory Fops x -> leb Fops (o_bigBnd o) (o_bigBnd o) = true ->
  sizes_ok pb = true -> length ws = (p_Ccols pb + p_xlsize pb)%nat -> ws <> [] -> o_warm o = true ->
  (forall i, nth i ws INACTIVE <> EQUALITY) ->
  (forall i, (i < p_Ccols pb + p_xlsize pb)%nat -> nth i ws INACTIVE <> INACTIVE ->
     if (i <? p_Ccols pb)%nat then (status_int (nth i ws INACTIVE) < 4)%nat else (3 < status_int (nth i ws INACTIVE))%nat) ->
  (length (filter (geq Fops pb) (seq 0 (p_Ccols pb + p_xlsize pb))) <= p_Grows pb)%nat ->
  exists st x', xgi_solve (S:=Fops) junk pb o ws x = Ok (st, x').
Proof.
  intros junk pb o ws x HH HB Hs HL Hne Ho HE HK Hn.
  destruct (xgi_solve junk pb o ws x) as [[st x']|] eqn:E; [eauto|]. exfalso.
  pose proof (C46_warm_memory_safe Fops junk pb o ws x float_safe HH HB Hs (or_intror (conj HL Ho))) as HX. cbv zeta in HX. rewrite Ho in HX.
  destruct ws as [|w ws]; [congruence|]. destruct HX as [HX _].
  { intros i Hi. exfalso. apply (HE i Hi). }
  apply HX in E. destruct E as [(i & Hi & _ & Hni & Hk)|[_ H]].
  - specialize (HK i Hi Hni). change (gc_ Fops pb) with (p_Ccols pb) in Hk. destruct (i <? p_Ccols pb)%nat; lia.
  - rewrite (filter_ext_in' _ (geq Fops pb)) in H; [unfold gcb, gc_, gb in H; lia|]. intros i _. destruct (geq Fops pb i); auto.
    specialize (HE i). destruct (status_eqb_spec (nth i (w :: ws) INACTIVE) EQUALITY); [contradiction|reflexivity].
Qed.

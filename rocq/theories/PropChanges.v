(** C79: an iteration of the solvers is one constraint that enters or leaves the active set; what that costs the block solver.
    For every arithmetic, all histories of the objects, all arguments and options. *)
From Coq Require Import Floats List Arith ZArith Lia Bool.
From Verif Require Import Base Num ActiveSet ActiveSetProofs Solver Warm Ortho StructC StructG BlockGI Changes RunFloat PropAllocSolve PropWarm PropBlockGen.
Import ListNotations.
Local Open Scope nat_scope.

Section P.
Variable S : ops.

(** ** Specification *)
(** constraints of the user whose two bounds are present and compare equal *)
Definition equal_bounds (lo up : option (carrier S)) : bool := match lo, up with Some l, Some u => eqb S l u | _, _ => false end.
Definition equality_count (pb : problem S) : nat :=
  length (filter (fun i => equal_bounds (p_bl pb i) (p_bu pb i)) (seq 0 (p_Ccols pb))) + length (filter (fun i => equal_bounds (p_xl pb i) (p_xu pb i)) (seq 0 (p_xlsize pb))).
(** active constraints of the list that activeSet() returns *)
Definition active_constraints (l : list status) : nat := length (filter (fun s => negb (status_eqb s INACTIVE)) l).
(** two such lists differ in one constraint, that is inactive in one of them *)
Definition differ_in_one (l l' : list status) : Prop :=
  length l' = length l /\ exists i, i < length l /\ nth i l INACTIVE <> nth i l' INACTIVE /\ (nth i l INACTIVE = INACTIVE \/ nth i l' INACTIVE = INACTIVE) /\
  forall j, j <> i -> nth j l' INACTIVE = nth j l INACTIVE.
(** options that only differ in the limit of iterations *)
Definition limit (o : options S) (k : nat) : options S := Opt k (o_bigBnd o) (o_warm o) (o_debug o).
(** [it] iterations, of which [removed] took a constraint out, lead from [before] to [now] active constraints *)
Definition accounts (it before now : nat) : Prop := exists added removed, it = added + removed /\ now + removed = before + added.
(** what one more allowed iteration does to a call that was stopped by the limit: it ends there with another status and the same
    active set, or makes one more iteration, that changes one constraint, and is stopped again *)
Definition one_more (s1 : sol S) (st : term_status) (s2 : sol S) : Prop :=
  st <> MAX_ITER_REACHED /\ iterations s2 = iterations s1 /\ activeSet s2 = activeSet s1 \/
  st = MAX_ITER_REACHED /\ iterations s2 = Datatypes.S (iterations s1) /\ differ_in_one (activeSet s1) (activeSet s2).

(** objects of the other two solvers after public calls that returned ([PropAllocSolve.after] for the stable solver) *)
Inductive xafter : xsol S -> Prop :=
| xa_new : xafter (xsol_new S)
| xa_resize junk x n m ub : xafter x -> xafter (xresize junk x n m ub)
| xa_reset x : xafter x -> xafter (xset_s x (resetActiveSet (x_s x)))
| xa_mult x l s' : xafter x -> multipliers (x_s x) = Ok (l, s') -> xafter (xset_s x s')
| xa_solve junk pb o ws x st x' : xafter x -> xgi_solve junk pb o ws x = Ok (st, x') -> xafter x'.
Inductive bafter (isz : carrier S -> bool) (tiny : carrier S) : bsol S -> Prop :=
| ba_new : bafter isz tiny bsol_new
| ba_resize junk b n c ub : bafter isz tiny b -> bafter isz tiny (bresize junk b n c ub)
| ba_reset b : bafter isz tiny b -> bafter isz tiny (bset_s b (resetActiveSet (b_s b)))
| ba_mult b l s' : bafter isz tiny b -> multipliers (b_s b) = Ok (l, s') -> bafter isz tiny (bset_s b s')
| ba_solve junk bp o ws b st b' : bafter isz tiny b -> bgi_solve isz tiny junk bp o ws b = Ok (st, b') -> bafter isz tiny b'.
(** the orthogonal factor the block solver keeps: number of elementary factors, and doubles in their buffers *)
Definition factor_count (b : bsol S) : nat := length (q_seq (r_Q (b_QR b))).
Definition factor_doubles (b : bsol S) : nat := list_sum (map (fun p => w_size (e_w1 (snd p)) + w_size (e_w2 (snd p))) (q_seq (r_Q (b_QR b)))).

(** ** Proofs *)
Lemma multipliers_A (s : sol S) l s' : multipliers s = Ok (l, s') -> s_A s' = s_A s /\ s_n s' = s_n s.
Proof.
  unfold multipliers. cbv zeta. intros H. apply bind_ok in H as (s0 & E & H). apply bind_ok in H as (u & _ & H). injection H as _ <-. destruct (s_exp s); [|injection E as <-; split; reflexivity].
  repeat (apply bind_ok in E as (? & _ & E)). injection E as <-. split; reflexivity.
Qed.
Lemma after_good l s : after S l s -> good (s_A s).
Proof.
  induction 1 as [|l s junk n nc b H IH|l s junk pb opt st s' H IH HS|l s u s' H IH HM|l s H IH].
  - apply (good_new 0 0).
  - apply resize_good. exact IH.
  - exact (proj1 (gi_changes _ _ _ _ _ _ _ HS IH)).
  - apply multipliers_A in HM as [-> _]. exact IH.
  - apply good_reset'. exact IH.
Qed.
Lemma xafter_good x : xafter x -> good (s_A (x_s x)).
Proof.
  induction 1 as [|junk x n m ub H IH|x H IH|x l s' H IH HM|junk pb o ws x st x' H IH HS].
  - apply (good_new 0 0).
  - apply resize_good. exact IH.
  - apply good_reset'. exact IH.
  - apply multipliers_A in HM as [E _]. cbn. rewrite E. exact IH.
  - exact (proj1 (xgi_changes _ _ _ _ _ _ _ _ HS IH)).
Qed.
Lemma bafter_good isz tiny b : bafter isz tiny b -> bgood S b.
Proof.
  induction 1 as [|junk b n m ub H IH|b H IH|b l s' H IH HM|junk bp o ws b st b' H IH HS].
  - apply bgood_new.
  - apply bresize_good. exact IH.
  - destruct IH as [I1 I2]. split; [apply good_reset'; exact I1|exact I2].
  - destruct IH as [I1 I2]. apply multipliers_A in HM as [E1 E2]. unfold bgood. cbn. rewrite E1, E2. split; assumption.
  - exact (proj1 (bgi_changes _ _ _ _ _ _ _ _ _ _ HS IH)).
Qed.
Lemma howmany_filter (f g : nat -> bool) k : (forall i, f i = g i) -> howmany f k = length (filter g (seq 0 k)).
Proof. intros E. induction k as [|k IH]; [reflexivity|]. rewrite seq_S, filter_app, app_length. cbn. rewrite IH, E. destruct (g k); reflexivity. Qed.
Lemma equalities_count pb : equalities S pb = equality_count pb.
Proof. unfold equalities, equality_count. f_equal; apply howmany_filter; intros i; reflexivity. Qed.

Lemma next_seen s1 st s2 : next S s1 st s2 -> one_more s1 st s2.
Proof. intros [(K1 & K2 & K3)|(K1 & K2 & K3)]; [left; split; [exact K1|split; [exact K2|unfold activeSet; rewrite K3; reflexivity]]|right; split; [exact K1|split; [exact K2|exact K3]]]. Qed.

(** ** Theorems *)
(** Stable solver: every call that got past the factorisation of the Hessian started its iterations with the equality constraints
    and no others in the active set, and each iteration put one constraint in or took one out. *)
Theorem C79_stable : forall l s junk pb o st s', after S l s -> gi_solve junk pb o s = Ok (st, s') -> st <> NON_POS_HESSIAN ->
  accounts (iterations s') (equality_count pb) (active_constraints (activeSet s')).
Proof.
  intros l s junk pb o st s' H E NP. destruct (gi_changes _ _ _ _ _ _ _ E (after_good l s H)) as (G & [(C & _)|(a & d & E1 & E2)]); [contradiction|].
  exists a, d. split; [exact E1|]. rewrite <- equalities_count. change (active_constraints (activeSet s')) with (active_count (a_status (s_A s'))). rewrite (Changes.count_active _ G). exact E2.
Qed.
(** Experimental solver: the same, with a number of constraints at the start that never exceeds the number of variables; without
    the warm start option they are the equality constraints. *)
Theorem C79_experimental : forall x junk pb o ws st x', xafter x -> xgi_solve junk pb o ws x = Ok (st, x') -> st <> NON_POS_HESSIAN -> st <> OVERCONSTRAINED_PROBLEM ->
  exists e, e <= p_Grows pb /\ (o_warm o = false -> e = equality_count pb) /\ accounts (iterations (x_s x')) e (active_constraints (activeSet (x_s x'))).
Proof.
  intros x junk pb o ws st x' H E N1 N2. destruct (xgi_changes _ _ _ _ _ _ _ _ E (xafter_good x H)) as (G & [([C|C] & _)|(e & a & d & E1 & E2 & E3 & E4)]); [contradiction|contradiction|].
  exists e. split; [exact E3|]. split; [intros W; rewrite <- equalities_count; exact (E4 W)|]. exists a, d. split; [exact E1|]. change (active_constraints (activeSet (x_s x'))) with (active_count (a_status (s_A (x_s x')))). rewrite (Changes.count_active _ G). exact E2.
Qed.
(** Block solver: the same, from the empty active set; and the orthogonal factor of the QR decomposition grows by one elementary
    factor at each iteration, additions and removals alike, and never shrinks before the next call: it has as many factors as
    there were iterations, however few constraints are active.  They hold at most [2 n] doubles each. *)
Theorem C79_block : forall isz tiny b junk bp o ws st b', bafter isz tiny b -> bgi_solve isz tiny junk bp o ws b = Ok (st, b') -> st <> NON_POS_HESSIAN -> st <> OVERCONSTRAINED_PROBLEM ->
  accounts (iterations (b_s b')) 0 (active_constraints (activeSet (b_s b'))) /\ factor_count b' = iterations (b_s b') /\ factor_doubles b' <= iterations (b_s b') * (2 * g_n (bp_G bp)).
Proof.
  intros isz tiny b junk bp o ws st b' H E N1 N2. destruct (bgi_changes _ _ _ _ _ _ _ _ _ _ E (bafter_good isz tiny b H)) as (G & [([C|C] & _)|(a & d & E1 & E2 & E3 & E4)]); [contradiction|contradiction|].
  split; [|split; [exact E3|exact E4]]. exists a, d. split; [exact E1|]. change (active_constraints (activeSet (b_s b'))) with (active_count (a_status (s_A (b_s b')))). rewrite (Changes.count_active _ (proj1 G)). exact E2.
Qed.
(** What follows for the numbers a user reads. *)
Theorem C79_numbers : forall it before now, accounts it before now ->
  now <= before + it /\ before <= now + it /\ Nat.Even (it + before + now).
Proof. intros it before now (a & d & -> & E). split; [lia|]. split; [lia|]. exists (a + before). lia. Qed.
(** A call that fails before its first iteration says so and reports no iteration. *)
Theorem C79_failed : forall l s junk pb o s', after S l s -> gi_solve junk pb o s = Ok (NON_POS_HESSIAN, s') -> iterations s' = 0.
Proof.
  intros l s junk pb o s' H E. unfold gi_solve in E. apply guard_ok in E as (_ & E). cbv zeta in E. unfold dual_solve in E. apply bind_ok in E as ([st0 v] & E1 & E).
  destruct st0; try (apply terminate_same in E as (_ & E); discriminate E).
  - apply bind_ok in E as (? & _ & E). apply bind_ok in E as (? & _ & E). apply bind_ok in E as (? & _ & E). apply bind_ok in E as ([st t] & K & E). apply terminate_same in E as (_ & <-).
    exfalso. revert K. generalize (o_maxIter o - s_it v). intros f. generalize (L v false (SC 0 INACTIVE)). induction f as [|f IH]; intros w K; cbn [loop] in K; [discriminate K|]. apply bind_ok in K as (r & K1 & K). destruct r as [w'|st t']; [exact (IH _ K)|]. injection K as -> _. apply iter_stop in K1 as [K1|K1]; discriminate K1.
  - apply terminate_same in E as (-> & _). unfold dual_init in E1. cbv zeta in E1. set (s0 := set_it _ 0) in E1. assert (I0 : s_it s0 = 0) by reflexivity. clearbody s0. unfold gi_init in E1. cbv zeta in E1.
    destruct (llt (s_n s0) (p_G pb)) as [[k|] M]; [injection E1 as <-; exact I0|]. apply bind_ok in E1 as (? & _ & E1). apply bind_ok in E1 as (? & _ & E1). apply bind_ok in E1 as (? & _ & E1). discriminate E1.
Qed.
(** One iteration at a time, seen from outside: the call with one more allowed iteration. *)
Theorem C79_one_more : forall junk pb o k s s1 st s2,
  gi_solve junk pb (limit o k) s = Ok (MAX_ITER_REACHED, s1) -> gi_solve junk pb (limit o (Datatypes.S k)) s = Ok (st, s2) -> one_more s1 st s2.
Proof. intros junk pb o k s s1 st s2 H1 H2. exact (next_seen _ _ _ (gi_next _ _ _ _ _ _ _ _ _ H1 H2)). Qed.
(** In the experimental solver, the start can use more iterations than the limit: the answer is then the same. *)
Theorem C79_one_more_experimental : forall junk pb o k ws x x1 st x2,
  xgi_solve junk pb (limit o k) ws x = Ok (MAX_ITER_REACHED, x1) -> xgi_solve junk pb (limit o (Datatypes.S k)) ws x = Ok (st, x2) ->
  one_more (x_s x1) st (x_s x2) \/ st = MAX_ITER_REACHED /\ k < iterations (x_s x1) /\ x_s x2 = x_s x1.
Proof. intros junk pb o k ws x x1 st x2 H1 H2. destruct (xgi_next _ _ _ _ _ _ _ _ _ _ H1 H2) as [K|K]; [left; exact (next_seen _ _ _ K)|right; exact K]. Qed.
Theorem C79_one_more_block : forall isz tiny junk bp o k ws b b1 st b2,
  bgi_solve isz tiny junk bp (limit o k) ws b = Ok (MAX_ITER_REACHED, b1) -> bgi_solve isz tiny junk bp (limit o (Datatypes.S k)) ws b = Ok (st, b2) -> one_more (b_s b1) st (b_s b2).
Proof. intros isz tiny junk bp o k ws b b1 st b2 H1 H2. exact (next_seen _ _ _ (bgi_next _ _ _ _ _ _ _ _ _ _ _ _ H1 H2)). Qed.
End P.

(** ** Examples, on doubles *)
Section Examples.
Local Open Scope float_scope.
Definition look (r : res (term_status * sol Fops)) : res (term_status * nat * list status) := do x <- r; Ok (fst x, iterations (snd x), activeSet (snd x)).
Definition opk (w : bool) (k : nat) : options Fops := limit Fops (@Opt Fops 0 1e100 w true) k.
(** Stable solver: limits 0, 1, 2, .. give the successive active sets, where a constraint enters and leaves again. *)
Definition pbd := mkpb 2 2 [[4;-2];[-2;4]] [-6;-8] [[1;1];[1;-1]] [-10;-1] [2;-1] [-10;-10] [0.5;10].
Definition scan (n : nat) := map (fun k => look (@gi_solve Fops (fun _ => nan) pbd (opk false k) (sol_new Fops))) (seq 0 n).
Example C79_nonvacuous :
  after Fops [] (sol_new Fops) /\ equality_count Fops pbd = 1%nat /\
  scan 9 = [Ok (MAX_ITER_REACHED, 0%nat, [INACTIVE; EQUALITY; INACTIVE; INACTIVE]); Ok (MAX_ITER_REACHED, 1%nat, [INACTIVE; INACTIVE; INACTIVE; INACTIVE]);
            Ok (MAX_ITER_REACHED, 2%nat, [UPPER; INACTIVE; INACTIVE; INACTIVE]); Ok (MAX_ITER_REACHED, 3%nat, [UPPER; UPPER; INACTIVE; INACTIVE]);
            Ok (MAX_ITER_REACHED, 4%nat, [UPPER; INACTIVE; INACTIVE; INACTIVE]); Ok (MAX_ITER_REACHED, 5%nat, [UPPER; INACTIVE; UPPER_BOUND; INACTIVE]);
            Ok (MAX_ITER_REACHED, 6%nat, [INACTIVE; INACTIVE; UPPER_BOUND; INACTIVE]); Ok (MAX_ITER_REACHED, 7%nat, [INACTIVE; LOWER; UPPER_BOUND; INACTIVE]);
            Ok (SUCCESS, 7%nat, [INACTIVE; LOWER; UPPER_BOUND; INACTIVE])].
Proof. split; [constructor|]. split; [vm_compute; reflexivity|]. vm_compute. reflexivity. Qed.
(** Experimental solver, with a guess: the start alone uses an iteration more than the limit 0. *)
Definition xscan (n : nat) ws := map (fun k => do x <- xgi_solve (S:=Fops) (fun _ => nan) pbd (opk true k) ws (xsol_new Fops); Ok (fst x, iterations (x_s (snd x)), activeSet (x_s (snd x)))) (seq 0 n).
Example C79_nonvacuous_experimental : xafter Fops (xsol_new Fops) /\
  xscan 4 [LOWER; EQUALITY; INACTIVE; INACTIVE] =
    [Ok (MAX_ITER_REACHED, 1%nat, [INACTIVE; EQUALITY; INACTIVE; INACTIVE]); Ok (MAX_ITER_REACHED, 1%nat, [INACTIVE; EQUALITY; INACTIVE; INACTIVE]);
     Ok (MAX_ITER_REACHED, 2%nat, [INACTIVE; INACTIVE; INACTIVE; INACTIVE]); Ok (MAX_ITER_REACHED, 3%nat, [UPPER; INACTIVE; INACTIVE; INACTIVE])].
Proof. split; [constructor|]. vm_compute. reflexivity. Qed.
(** Block solver: after three iterations one constraint is active, and Q is the product of three factors. *)
Definition bseen (k : nat) := do x <- bgi_solve (S:=Fops) fz 0 (fun _ => 7) (exf 2 0 None) (limit Fops (exo true) k) [] bsol_new;
  Ok (fst x, iterations (b_s (snd x)), activeSet (b_s (snd x)), factor_count Fops (snd x), factor_doubles Fops (snd x)).
Example C79_nonvacuous_block : bafter Fops fz 0 bsol_new /\
  map bseen (seq 0 5) =
    [Ok (MAX_ITER_REACHED, 0%nat, [INACTIVE; INACTIVE; INACTIVE], 0%nat, 0%nat); Ok (MAX_ITER_REACHED, 1%nat, [LOWER; INACTIVE; INACTIVE], 1%nat, 3%nat);
     Ok (MAX_ITER_REACHED, 2%nat, [LOWER; INACTIVE; LOWER], 2%nat, 5%nat); Ok (MAX_ITER_REACHED, 3%nat, [LOWER; INACTIVE; INACTIVE], 3%nat, 5%nat);
     Ok (INFEASIBLE, 3%nat, [LOWER; INACTIVE; INACTIVE], 3%nat, 5%nat)].
Proof. split; [constructor|]. vm_compute. reflexivity. Qed.
End Examples.

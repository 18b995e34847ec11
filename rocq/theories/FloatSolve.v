(** What SUCCESS means for the dense solvers in any arithmetic: no inactive
    constraint is violated as evaluated by the code at the returned point. *)
From Coq Require Import List Arith ZArith Lia Bool Reals Lra.
From Verif Require Import Base ActiveSet Num Solver LinAlg GIInv GIBase GISafe GICall GIHist Warm WarmSafe WarmHist.
Import ListNotations.

Section Any.
Variable S : ops.
Notation problem := (problem S).
Notation sol := (sol S).

(** the tests of selectViolatedConstraint_ on one constraint *)
Definition not_below (cx : carrier S) (b : option (carrier S)) : Prop :=
  match b with Some b => ltb S (sub S cx b) (zero S) = false | None => True end.
Definition not_above (cx : carrier S) (b : option (carrier S)) : Prop :=
  match b with Some b => ltb S (sub S b cx) (zero S) = false | None => True end.

Lemma sel_one_none cx lo up i sl su acc r : sl <> INACTIVE -> su <> INACTIVE ->
  sel_one cx lo up i sl su acc = r -> sc_st (snd r) = INACTIVE ->
  r = acc /\ (fst acc = zero S -> not_below cx lo /\ not_above cx up).
Proof.
  intros H1 H2. unfold sel_one. destruct (below cx lo (fst acc)) eqn:E1.
  - intros <-. simpl. intros E. congruence.
  - destruct (above cx up (fst acc)) eqn:E2.
    + intros <-. simpl. intros E. congruence.
    + intros <- _. split; auto. intros Z. unfold below, above, not_below, not_above in *. rewrite Z in *. split.
      * destruct lo; auto. destruct (ltb S (sub S cx c) (zero S)); auto. discriminate.
      * destruct up; auto. destruct (ltb S (sub S c cx) (zero S)); auto. discriminate.
Qed.

Lemma sel_cstr_none (pb : problem) A x k : forall acc r, sel_cstr pb A x k acc = Ok r -> sc_st (snd r) = INACTIVE ->
  r = acc /\ (fst acc = zero S -> forall i, (i < k)%nat -> isActive A i = Ok false ->
     not_below (@dot S [14; i]%nat (p_Crows pb) (fun t => p_C pb t i) x) (p_bl pb i) /\ not_above (@dot S [14; i]%nat (p_Crows pb) (fun t => p_C pb t i) x) (p_bu pb i)).
Proof.
  induction k as [|k IH]; intros acc r; cbn [sel_cstr].
  - intros E _. injection E as <-. split; auto. intros; lia.
  - intros E. apply bind_ok in E as (acc1 & E1 & E). apply bind_ok in E as (act & E2 & E). injection E as E. intros Hr.
    destruct act.
    + subst r. destruct (IH _ _ E1 Hr) as (-> & H). split; auto. intros Z i Hi Ha.
      destruct (Nat.eq_dec i k) as [->|]; [congruence|]. apply H; auto; lia.
    + destruct (sel_one_none _ _ _ _ LOWER UPPER _ _ ltac:(discriminate) ltac:(discriminate) E Hr) as (-> & Hk).
      destruct (IH _ _ E1 Hr) as (-> & H). split; auto. intros Z i Hi Ha.
      destruct (Nat.eq_dec i k) as [->|]; [auto|]. apply H; auto; lia.
Qed.
Lemma sel_bnd_none (pb : problem) A x k : forall acc r, sel_bnd pb A x k acc = Ok r -> sc_st (snd r) = INACTIVE ->
  r = acc /\ (fst acc = zero S -> forall i, (i < k)%nat -> isActiveBnd A i = Ok false ->
     not_below (x i) (p_xl pb i) /\ not_above (x i) (p_xu pb i)).
Proof.
  induction k as [|k IH]; intros acc r; cbn [sel_bnd].
  - intros E _. injection E as <-. split; auto. intros; lia.
  - intros E. apply bind_ok in E as (acc1 & E1 & E). apply bind_ok in E as (act & E2 & E). injection E as E. intros Hr.
    destruct act.
    + subst r. destruct (IH _ _ E1 Hr) as (-> & H). split; auto. intros Z i Hi Ha.
      destruct (Nat.eq_dec i k) as [->|]; [congruence|]. apply H; auto; lia.
    + destruct (sel_one_none _ _ _ _ LOWER_BOUND UPPER_BOUND _ _ ltac:(discriminate) ltac:(discriminate) E Hr) as (-> & Hk).
      destruct (IH _ _ E1 Hr) as (-> & H). split; auto. intros Z i Hi Ha.
      destruct (Nat.eq_dec i k) as [->|]; [auto|]. apply H; auto; lia.
Qed.

(** The loop answers SUCCESS only when the selection found nothing. *)
Lemma step2_not_success (pb : problem) o l st s : step2 pb o l = Ok (Stop st s) -> st = INFEASIBLE.
Proof.
  unfold step2. intros E. apply bind_ok in E as (s1 & _ & E). apply bind_ok in E as (((t1, t2), li) & _ & E).
  destruct (leb S (o_bigBnd o) _); [injection E; auto|]. destruct (leb S (o_bigBnd o) t2).
  - apply bind_ok in E as (? & _ & E). apply bind_ok in E as (? & _ & E). apply bind_ok in E as (? & _ & E). discriminate.
  - apply bind_ok in E as (? & _ & E). destruct (eqb S _ t2).
    + apply bind_ok in E as (? & _ & E). discriminate.
    + apply bind_ok in E as (? & _ & E). apply bind_ok in E as (? & _ & E). apply bind_ok in E as (? & _ & E). discriminate.
Qed.
Lemma loop_success (pb : problem) o fuel : forall l s, loop pb o fuel l = Ok (SUCCESS, s) ->
  exists sc, selectViolated pb s = Ok sc /\ sc_st sc = INACTIVE.
Proof.
  induction fuel as [|f IH]; intros l s; cbn [loop]; [discriminate|].
  intros E. apply bind_ok in E as (r & E1 & E). destruct r as [l'|st s'].
  - eapply IH; exact E.
  - injection E as -> ->. unfold iter in E1. apply bind_ok in E1 as (l1 & E1 & E2). destruct l1 as [l1|].
    + apply step2_not_success in E2. discriminate.
    + injection E2 as <-. unfold step1 in E1. destruct (l_skip l); [discriminate|].
      apply bind_ok in E1 as (sc & Es & E1). exists sc. split; auto.
      destruct (sc_st sc); auto; apply bind_ok in E1 as (? & _ & E1); apply bind_ok in E1 as (? & _ & E1); discriminate.
Qed.
Lemma terminate_eq o st s st' s' : @terminate S o st s = Ok (st', s') -> st' = st /\ s' = s.
Proof. unfold terminate. destruct st, (o_debug o); intros E; try discriminate; injection E; auto. Qed.

(** the constraint with index [i] is inactive in the answer *)
Definition inactive (s : sol) (i : nat) : Prop := nth_error (activeSet s) i = Some INACTIVE.

(** What selectViolated = none gives, in terms of the accessors *)
Lemma none_violated (pb : problem) s sc x : selectViolated pb s = Ok sc -> sc_st sc = INACTIVE -> solution s = Ok x ->
  (forall i, (i < a_nc (s_A s))%nat -> inactive s i ->
     let cx := @dot S [14; i]%nat (p_Crows pb) (fun t => p_C pb t i) (fun t => w_buf (s_x s) t) in not_below cx (p_bl pb i) /\ not_above cx (p_bu pb i)) /\
  (forall i, (i < a_nb (s_A s))%nat -> inactive s (a_nc (s_A s) + i) ->
     not_below (w_buf (s_x s) i) (p_xl pb i) /\ not_above (w_buf (s_x s) i) (p_xu pb i)).
Proof.
  intros E Hs Hx. unfold selectViolated in E. apply bind_ok in E as (xv & Ex & E).
  apply bind_ok in E as (a1 & E1 & E). apply bind_ok in E as (a2 & E2 & E). injection E as <-.
  assert (xv = w_buf (s_x s)) as -> by (unfold getV in Ex; destruct (vec_fits _ _); [injection Ex; auto|discriminate]).
  destruct (sel_bnd_none _ _ _ _ _ _ E2 Hs) as (-> & HB). destruct (sel_cstr_none _ _ _ _ _ _ E1 Hs) as (-> & HC).
  split.
  - intros i Hi Ha. apply HC; auto. unfold isActive, as_stat. unfold inactive, activeSet in Ha. rewrite Ha.
    unfold nbAll. destruct (Nat.ltb_spec i (a_nc (s_A s) + a_nb (s_A s))); [reflexivity|lia].
  - intros i Hi Ha. apply HB; auto. unfold isActiveBnd, as_statBnd. unfold inactive, activeSet in Ha.
    destruct (Nat.ltb_spec i (a_nb (s_A s))); [|lia]. cbn [guard]. rewrite Ha. reflexivity.
Qed.

(** The two dense solvers *)
Lemma gi_success_tests junk (pb : problem) o s s' : safe_ops S -> leb S (o_bigBnd o) (o_bigBnd o) = true -> history S s ->
  gi_solve junk pb o s = Ok (SUCCESS, s') -> gsh S pb s' /\ exists sc, selectViolated pb s' = Ok sc /\ sc_st sc = INACTIVE.
Proof.
  intros HO HB HH E. pose proof (hist_wf S s HO HH) as HW. pose proof (gsolve S junk pb o s HO HB HW) as HG.
  destruct (sizes_ok pb) eqn:Es; cbn [negb] in HG; [|congruence].
  destruct (fst (llt (gn S pb) (p_G pb))) eqn:El.
  { destruct HG as (s1 & E1 & _). congruence. }
  destruct (Nat.leb_spec (length (geqs S pb (gcb S pb))) (gn S pb)) as [Hle|]; [|congruence].
  split.
  - destruct (gsolve_result S junk pb o s HO HB HW Es) as (st & s1 & E1 & HD & _); [auto|].
    rewrite E in E1. injection E1 as <- <-. apply HD.
  - destruct HG as (s0 & _ & _ & _ & _ & E0). rewrite E in E0. symmetry in E0. eapply loop_success; exact E0.
Qed.
Lemma xgi_success_tests junk (pb : problem) o ws x x' : safe_ops S -> leb S (o_bigBnd o) (o_bigBnd o) = true -> xhistory S x ->
  xgi_solve junk pb o ws x = Ok (SUCCESS, x') -> gsh S pb (x_s x') /\ exists sc, selectViolated pb (x_s x') = Ok sc /\ sc_st sc = INACTIVE.
Proof.
  intros HO HB HH E.
  destruct (xsolve_ok S junk pb o ws x SUCCESS x' HO HB (xhist_wf S x HO HH) E) as (HX & _ & _ & HC). split; [apply HX|].
  destruct HC as [(H & _)|[(H & _)|(_ & _ & x4 & x5 & x6 & x0 & _ & _ & EL & _)]]; try discriminate.
  eapply loop_success; exact EL.
Qed.

(** A multiplier of an inactive constraint is exactly zero *)
Lemma expand_out A (r : vec S) k : forall u w, expand A r k u = Ok w -> forall i, (forall j, (j < k)%nat -> nth_error (a_active A) j <> Some i) -> w i = u i.
Proof.
  induction k as [|k IH]; intros u w; cbn [expand].
  - intros E. injection E as <-. auto.
  - intros E i Hi. apply bind_ok in E as (u1 & E1 & E). apply bind_ok in E as (a & Ea & E). apply bind_ok in E as (st & _ & E). injection E as <-.
    unfold upd. destruct (Nat.eqb_spec i a) as [->|].
    + exfalso. unfold as_get in Ea. destruct (nth_error (a_active A) k) eqn:En; [|discriminate]. injection Ea as ->. apply (Hi k); auto.
    + apply (IH _ _ E1). intros j Hj. apply Hi. lia.
Qed.
End Any.

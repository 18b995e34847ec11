(** C56, C57: the conversions of a problem to the conventions of other solvers keep
    the problem; solving the converted problem solves the original one. *)
From Coq Require Import List Arith ZArith Lia Bool Reals Lra.
From Verif Require Import Base ActiveSet Num Solver LinAlg QPSpec GIBase GIInit GIRun GITotal GIHist GIFinal GIExample TestPb PropTest PropReal Limits LimitsEx Adapt.
Import ListNotations.
Local Open Scope R_scope.

(** * Specification: what each solver is asked to solve, from its documentation *)
(** eigen-quadprog: Aeq x = beq, Aineq x <= bineq *)
Definition eigen_feasible (e : eigenqp) (x : rvec) : Prop :=
  (forall i, (i < mr (q_Aeq e))%nat -> rsum (mc (q_Aeq e)) (fun j => ma (q_Aeq e) i j * x j) = va (q_beq e) i) /\
  (forall i, (i < mr (q_Aineq e))%nat -> below_up (ba (q_bineq e) i) (rsum (mc (q_Aineq e)) (fun j => ma (q_Aineq e) i j * x j))).
(** eiquadprog: CE' x + ce0 = 0, CI' x + ci0 >= 0 *)
Definition ei_feasible (e : eiqp) (x : rvec) : Prop :=
  (forall i, (i < mc (e_CE e))%nat -> rsum (mr (e_CE e)) (fun j => ma (e_CE e) j i * x j) + va (e_ce0 e) i = 0) /\
  (forall i, (i < mc (e_CI e))%nat -> match ba (e_ci0 e) i with
     Some c => 0 <= rsum (mr (e_CI e)) (fun j => ma (e_CI e) j i * x j) + c | None => True end).
(** LSSOL: l <= (x, C x) <= u *)
Definition lssol_feasible (e : lssol) (x : rvec) : Prop :=
  let n := mc (l_C e) in
  (forall i, (i < n)%nat -> above_lo (ba (l_l e) i) (x i) /\ below_up (ba (l_u e) i) (x i)) /\
  (forall i, (i < mr (l_C e))%nat -> let v := rsum n (fun j => ma (l_C e) i j * x j) in
     above_lo (ba (l_l e) (n + i)%nat) v /\ below_up (ba (l_u e) (n + i)%nat) v).
(** QLD: A x + b = 0 for the [me] first rows, A x + b >= 0 for the others, xl <= x <= xu *)
Definition qld_feasible (me : nat) (e : qld) (x : rvec) : Prop :=
  (forall i, (i < mr (d_A e))%nat -> let v := rsum (mc (d_A e)) (fun j => ma (d_A e) i j * x j) in
     match ba (d_b e) i with Some c => if (i <? me)%nat then v + c = 0 else 0 <= v + c | None => True end) /\
  (forall i, (i < mc (d_A e))%nat -> above_lo (ba (d_xl e) i) (x i) /\ below_up (ba (d_xu e) i) (x i)).

(** * Proofs *)
Lemma fin_false b : hasFiniteElements b = false -> forall i, (i < bn b)%nat -> ba b i = None.
Proof.
  unfold hasFiniteElements. intros H i Hi. apply orb_false_elim in H as [_ H].
  destruct (ba b i) eqn:E; auto. exfalso. apply (Bool.eq_true_false_abs _) in H; auto.
  apply existsb_exists. exists i. rewrite E. split; auto. apply in_seq. lia.
Qed.
Record wfacts (q : qpproblem scstr) : Prop := WF {
  w_C : mr (as_rows (ft (sbase (qpF q))) (fC (sbase (qpF q)))) = mi (qpF q);
  w_Cc : mc (as_rows (ft (sbase (qpF q))) (fC (sbase (qpF q)))) = vn (qpa q);
  w_E : mr (as_rows (ft (sbase (qpF q))) (sE (qpF q))) = me (qpF q);
  w_Ec : mc (as_rows (ft (sbase (qpF q))) (sE (qpF q))) = vn (qpa q);
  w_f : vn (sf (qpF q)) = me (qpF q);
  w_l : bn (fl (sbase (qpF q))) = mi (qpF q);
  w_u : bn (fu (sbase (qpF q))) = mi (qpF q);
  w_x : bn (fxl (sbase (qpF q))) = bn (fxu (sbase (qpF q)));
  w_xn : bn (fxl (sbase (qpF q))) = O \/ bn (fxl (sbase (qpF q))) = vn (qpa q);
  w_dim : fdim (sbase (qpF q)) = vn (qpa q);
  w_G : mc (qpG q) = vn (qpa q);
  w_lt : forall i, (i < mi (qpF q))%nat -> ble true (ba (fl (sbase (qpF q))) i) (ba (fu (sbase (qpF q))) i) = true;
  w_xlt : forall i, (i < bn (fxl (sbase (qpF q))))%nat -> ble false (ba (fxl (sbase (qpF q))) i) (ba (fxu (sbase (qpF q))) i) = true;
  w_sep : sc_wellFormed (qpF q) = Ok true }.
Lemma wf_facts q : qpsep_wf q = Ok true -> wfacts q.
Proof.
  unfold qpsep_wf, qp_wellFormed. intros H. apply bind_ok in H as (b & W & H). injection H as H.
  repeat (apply andb_prop in H as [H ?]). subst b. pose proof W as W0.
  unfold sc_wellFormed in W. apply bind_ok in W as (b1 & W & K). injection K as K.
  apply andb_prop in K as [K B3]. apply andb_prop in K as [-> B2].
  destruct (fc_wf_facts _ _ W) as (W1 & W2 & W3 & W4 & W5 & W6).
  destruct q as [[[C l u xl xu t] E f] G a cst]. unfold mi, me, fdim in *. cbn [qpF qpG qpa sbase sE sf fC fl fu fxl fxu ft] in *.
  apply Nat.eqb_eq in H0, H1.
  constructor; unfold mi, me, fdim, as_rows; cbn [qpF qpG qpa sbase sE sf fC fl fu fxl fxu ft]; destruct t; cbn [mr mc] in *;
    apply Nat.eqb_eq in H2, B2, B3; try congruence; try lia; try (intros; apply W5; lia); try (intros; apply W6; lia); destruct W4; (left + right); congruence.
Qed.
Lemma wf_of {X} (q : qpproblem scstr) (k : res X) e : bind (qpsep_wf q) (fun wf => guard wf k) = Ok e -> qpsep_wf q = Ok true /\ k = Ok e.
Proof. intros H. apply bind_ok in H as (b & E & H). apply guard_ok in H as [-> H]. auto. Qed.
Lemma line_rows t M i x n : rdot n (line t M i) x = rsum n (fun j => ma (as_rows t M) i j * x j).
Proof. rewrite dot_def. apply sum_ext. intros j _. unfold line, as_rows. destruct t; reflexivity. Qed.
Lemma neg_row n (r x : rvec) : rsum n (fun j => - r j * x j) = - rsum n (fun j => r j * x j).
Proof. rewrite <- sum_opp. apply sum_ext. intros. ring. Qed.
Lemma unit_row n k v (x : rvec) : (k < n)%nat -> rsum n (fun j => (if (k =? j)%nat then v else 0) * x j) = v * x k.
Proof.
  intros H. rewrite (sum_ext n _ (fun j => if (j =? k)%nat then v * x j else 0)); [apply sum_delta; auto|].
  intros j _. rewrite Nat.eqb_sym. destruct (j =? k)%nat; ring.
Qed.
Lemma up_opp b v : below_up (bopp b) (- v) <-> above_lo b v.
Proof. destruct b; cbn; [|tauto]. split; lra. Qed.
Lemma up_opp1 b v : below_up (bopp b) (-1 * v) <-> above_lo b v.
Proof. destruct b; cbn; [|tauto]. split; lra. Qed.

Lemma in_seg b i : (i < b)%nat <-> (i <? b)%nat = true. Proof. rewrite Nat.ltb_lt. tauto. Qed.
Ltac seg := repeat match goal with
  | |- context [(?a <? ?b)%nat] => first [rewrite (proj2 (Nat.ltb_lt a b)) by lia | rewrite (proj2 (Nat.ltb_ge a b)) by lia]
  | H : context [(?a <? ?b)%nat] |- _ => first [rewrite (proj2 (Nat.ltb_lt a b)) in H by lia | rewrite (proj2 (Nat.ltb_ge a b)) in H by lia]
  end.
Lemma and_both (P P' Q Q' : Prop) : (P <-> P') -> (Q <-> Q') -> (P /\ Q <-> P' /\ Q').
Proof. tauto. Qed.
(** the four groups of inequalities *)
Lemma four_rows n nC (C : rmat) (l u xl xu : nat -> option R) nx (bl bu bxl bxu : bool) (x : rvec) A b :
  let nl := if bl then nC else O in let nu := if bu then nC else O in
  let nxl := if bxl then nx else O in let nxu := if bxu then nx else O in
  (nx = O \/ nx = n) ->
  (bl = false -> forall i, (i < nC)%nat -> l i = None) -> (bu = false -> forall i, (i < nC)%nat -> u i = None) ->
  (bxl = false -> forall i, (i < nx)%nat -> xl i = None) -> (bxu = false -> forall i, (i < nx)%nat -> xu i = None) ->
  (forall i, (i < nl)%nat -> (forall j, A i j = - C i j) /\ b i = bopp (l i)) ->
  (forall i, (i < nu)%nat -> (forall j, A (nl + i)%nat j = C i j) /\ b (nl + i)%nat = u i) ->
  (forall i, (i < nxl)%nat -> (forall j, A (nl + nu + i)%nat j = if (i =? j)%nat then -1 else 0) /\ b (nl + nu + i)%nat = bopp (xl i)) ->
  (forall i, (i < nxu)%nat -> (forall j, A (nl + nu + nxl + i)%nat j = if (i =? j)%nat then 1 else 0) /\ b (nl + nu + nxl + i)%nat = xu i) ->
  ((forall i, (i < nl + nu + nxl + nxu)%nat -> below_up (b i) (rsum n (fun j => A i j * x j))) <->
   ((forall i, (i < nC)%nat -> above_lo (l i) (rsum n (fun j => C i j * x j)) /\ below_up (u i) (rsum n (fun j => C i j * x j))) /\
    (forall i, (i < nx)%nat -> above_lo (xl i) (x i) /\ below_up (xu i) (x i)))).
Proof.
  intros nl nu nxl nxu Hn Fl Fu Fxl Fxu A1 A2 A3 A4.
  assert (E1 : forall i, (i < nl)%nat -> (below_up (b i) (rsum n (fun j => A i j * x j)) <-> above_lo (l i) (rsum n (fun j => C i j * x j)))).
  { intros i Hi. destruct (A1 i Hi) as [Ea Eb]. rewrite Eb, (sum_ext n _ (fun j => - C i j * x j)) by (intros; rewrite Ea; auto). rewrite neg_row. apply up_opp. }
  assert (E2 : forall i, (i < nu)%nat -> (below_up (b (nl + i)%nat) (rsum n (fun j => A (nl + i)%nat j * x j)) <-> below_up (u i) (rsum n (fun j => C i j * x j)))).
  { intros i Hi. destruct (A2 i Hi) as [Ea Eb]. rewrite Eb, (sum_ext n _ (fun j => C i j * x j)) by (intros; rewrite Ea; auto). tauto. }
  assert (E3 : forall i, (i < nxl)%nat -> (below_up (b (nl + nu + i)%nat) (rsum n (fun j => A (nl + nu + i)%nat j * x j)) <-> above_lo (xl i) (x i))).
  { intros i Hi. destruct (A3 i Hi) as [Ea Eb]. rewrite Eb, (sum_ext n _ (fun j => (if (i =? j)%nat then -1 else 0) * x j)) by (intros; rewrite Ea; auto).
    rewrite unit_row by (unfold nxl in Hi; destruct bxl; destruct Hn; subst; lia). apply up_opp1. }
  assert (E4 : forall i, (i < nxu)%nat -> (below_up (b (nl + nu + nxl + i)%nat) (rsum n (fun j => A (nl + nu + nxl + i)%nat j * x j)) <-> below_up (xu i) (x i))).
  { intros i Hi. destruct (A4 i Hi) as [Ea Eb]. rewrite Eb, (sum_ext n _ (fun j => (if (i =? j)%nat then 1 else 0) * x j)) by (intros; rewrite Ea; auto).
    rewrite unit_row by (unfold nxu in Hi; destruct bxu; destruct Hn; subst; lia). rewrite Rmult_1_l. tauto. }
  split.
  - intros H. split; intros i Hi; split.
    + destruct bl eqn:?; [apply E1; [auto|]; apply H; unfold nl; lia|rewrite Fl by auto; exact I].
    + destruct bu eqn:?; [apply E2; [auto|]; apply H; unfold nl, nu; lia|rewrite Fu by auto; exact I].
    + destruct bxl eqn:?; [apply E3; [auto|]; apply H; unfold nl, nu, nxl; lia|rewrite Fxl by auto; exact I].
    + destruct bxu eqn:?; [apply E4; [auto|]; apply H; unfold nl, nu, nxl, nxu; lia|rewrite Fxu by auto; exact I].
  - intros [H1 H2] i Hi.
    destruct (Nat.lt_ge_cases i nl) as [K|K]; [apply E1; auto; apply H1; unfold nl in K; destruct bl; lia|].
    destruct (Nat.lt_ge_cases i (nl + nu)) as [K2|K2].
    { replace i with (nl + (i - nl))%nat by lia. apply E2; [lia|]. apply H1. unfold nu in K2. destruct bu; lia. }
    destruct (Nat.lt_ge_cases i (nl + nu + nxl)) as [K3|K3].
    { replace i with (nl + nu + (i - nl - nu))%nat by lia. apply E3; [lia|]. apply H2. unfold nxl in K3. destruct bxl; lia. }
    replace i with (nl + nu + nxl + (i - nl - nu - nxl))%nat by lia. apply E4; [lia|]. apply H2. unfold nxu in Hi. destruct bxu; lia.
Qed.

(** C56: on a well-formed problem the conversion succeeds, hands over the same objective and describes the same
    feasible points *)
Theorem C56_eigen_quadprog : forall jm jb (q : qpproblem scstr), qpsep_wf q = Ok true ->
  exists e, eigen_pb jm jb q = Ok e /\ q_Q e = qpG q /\ q_c e = qpa q /\
  mc (q_Aeq e) = vn (qpa q) /\ vn (q_beq e) = mr (q_Aeq e) /\ mc (q_Aineq e) = vn (qpa q) /\ bn (q_bineq e) = mr (q_Aineq e) /\
  forall x, eigen_feasible e x <-> sc_feasible (qpF q) x.
Proof.
  intros jm jb q W. destruct (wf_facts q W) as [H1 H2 H3 H4 H5 H6 H7 H8 H9 H10 H11 _ _ _].
  unfold eigen_pb. rewrite W. cbn [bind guard].
  set (s := qpF q) in *. set (b := sbase s) in *. set (t := ft b) in *. set (n := vn (qpa q)) in *.
  set (C := as_rows t (fC b)) in *. set (E := as_rows t (sE s)) in *.
  assert (G1 : forall f : bool, ((if f then mi s else O) =? 0)%nat || ((mr C =? (if f then mi s else O)) && (mc C =? n) && (bn (fl b) =? (if f then mi s else O)))%nat = true).
  { intros f. rewrite H1, H2, H6. destruct f; rewrite ?Nat.eqb_refl; cbn; auto. apply orb_true_r. }
  assert (G2 : forall f : bool, ((if f then mi s else O) =? 0)%nat || ((mr C =? (if f then mi s else O)) && (mc C =? n) && (bn (fu b) =? (if f then mi s else O)))%nat = true).
  { intros f. rewrite H1, H2, H7. destruct f; rewrite ?Nat.eqb_refl; cbn; auto. apply orb_true_r. }
  rewrite G1, G2. cbn [guard].
  match goal with |- context [EQ _ _ _ _ (DM _ _ ?f) (BV _ ?g)] => set (A := f); set (bb := g) end. eexists. split; [reflexivity|]. cbn [q_Q q_c q_Aeq q_beq q_Aineq q_bineq mc mr vn bn].
  split; auto. split; auto. split; auto. split; [congruence|]. split; auto. split; auto. intros x.
  unfold eigen_feasible. cbn [q_Q q_c q_Aeq q_beq q_Aineq q_bineq mc mr ma va ba].
  unfold sc_feasible, fc_feasible. fold b t. rewrite H10. rewrite H5.
  assert (EE : (forall i, (i < mr E)%nat -> rsum (mc E) (fun j => ma E i j * x j) = va (sf s) i) <->
               (forall i, (i < me s)%nat -> rdot n (line t (sE s) i) x = va (sf s) i)).
  { rewrite H3, H4. split; intros K i Hi; specialize (K i Hi); rewrite line_rows in *; exact K. }
  apply and_both; [exact EE|].
  pose proof (four_rows n (mi s) (ma C) (ba (fl b)) (ba (fu b)) (ba (fxl b)) (ba (fxu b)) (bn (fxl b))
    (hasFiniteElements (fl b)) (hasFiniteElements (fu b)) (hasFiniteElements (fxl b)) (hasFiniteElements (fxu b)) x A bb) as K.
  cbv zeta in K. rewrite <- H8. rewrite K; clear K; auto.
  - rewrite H6. split; intros [K1 K2]; split; auto; intros i Hi; specialize (K1 i Hi); rewrite line_rows in *; exact K1.
  - intros; apply fin_false; auto; lia.
  - intros; apply fin_false; auto; lia.
  - intros; apply fin_false; auto; lia.
  - intros; apply fin_false; auto; lia.
  - intros i Hi. unfold A, bb. seg. auto.
  - intros i Hi. unfold A, bb. set (nl := if hasFiniteElements (fl b) then mi s else O) in *. set (nu := if hasFiniteElements (fu b) then mi s else O) in *.
    seg. replace (nl + i - nl)%nat with i by lia. auto.
  - intros i Hi. unfold A, bb. rewrite <- H8. set (nl := if hasFiniteElements (fl b) then mi s else O) in *. set (nu := if hasFiniteElements (fu b) then mi s else O) in *.
    set (nxl := if hasFiniteElements (fxl b) then bn (fxl b) else O) in *.
    seg. replace (nl + nu + i - (nl + nu))%nat with i by lia. auto.
  - intros i Hi. unfold A, bb. rewrite <- H8. set (nl := if hasFiniteElements (fl b) then mi s else O) in *. set (nu := if hasFiniteElements (fu b) then mi s else O) in *.
    set (nxl := if hasFiniteElements (fxl b) then bn (fxl b) else O) in *. set (nxu := if hasFiniteElements (fxu b) then bn (fxl b) else O) in *.
    seg. replace (nl + nu + nxl + i - (nl + nu + nxl))%nat with i by lia. auto.
Qed.

Theorem C56_eiquadprog : forall jm jb (q : qpproblem scstr), qpsep_wf q = Ok true ->
  exists e, ei_pb jm jb q = Ok e /\ e_G e = qpG q /\ e_g0 e = qpa q /\
  mr (e_CE e) = vn (qpa q) /\ vn (e_ce0 e) = mc (e_CE e) /\ mr (e_CI e) = vn (qpa q) /\ bn (e_ci0 e) = mc (e_CI e) /\
  forall x, ei_feasible e x <-> sc_feasible (qpF q) x.
Proof.
  intros jm jb q W. destruct (C56_eigen_quadprog jm jb q W) as (e & E & K1 & K2 & K3 & K4 & K5 & K6 & K).
  unfold ei_pb. rewrite E. cbn [bind]. eexists. split; [reflexivity|]. cbn [e_G e_g0 e_CE e_ce0 e_CI e_ci0 tr_ mr mc vn].
  split; auto. split; auto. split; auto. split; auto. split; auto. split; auto. intros x. rewrite <- K.
  unfold ei_feasible, eigen_feasible. cbn [e_G e_g0 e_CE e_ce0 e_CI e_ci0 tr_ mr mc ma va]. apply and_both.
  - split; intros F1 i Hi; specialize (F1 i Hi); lra.
  - split; intros F2 i Hi; specialize (F2 i Hi); destruct (ba (q_bineq e) i) as [c|]; cbn in *; auto; rewrite neg_row in *; lra.
Qed.

(** LSSOL: without bounds the variables are limited to +-1e30, which LSSOL takes for infinite *)
Theorem C56_lssol : forall (q : qpproblem scstr), qpsep_wf q = Ok true ->
  exists e, lssol_pb q = Ok e /\ l_Q e = qpG q /\ l_p e = qpa q /\
  mc (l_C e) = vn (qpa q) /\ bn (l_l e) = (mc (l_C e) + mr (l_C e))%nat /\ bn (l_u e) = (mc (l_C e) + mr (l_C e))%nat /\
  forall x, lssol_feasible e x <->
    sc_feasible (qpF q) x /\ (bn (fxl (sbase (qpF q))) = O -> forall i, (i < vn (qpa q))%nat -> Rabs (x i) <= 10 ^ 30).
Proof.
  intros q W. destruct (wf_facts q W) as [H1 H2 H3 H4 H5 H6 H7 H8 H9 H10 H11 _ _ _].
  unfold lssol_pb. rewrite W. cbn [bind guard].
  set (s := qpF q) in *. set (b := sbase s) in *. set (t := ft b) in *. set (n := vn (qpa q)) in *.
  set (C := as_rows t (fC b)) in *. set (E := as_rows t (sE s)) in *.
  rewrite H1, H2, H3, H4, H5, H6, H7, <- H8, !Nat.eqb_refl. cbn [andb guard].
  assert (G : ((bn (fxl b) =? 0) || ((bn (fxl b) =? n) && (bn (fxl b) =? n)))%nat = true).
  { destruct H9 as [-> | ->]; rewrite ?Nat.eqb_refl; auto. apply orb_true_r. }
  rewrite G. cbn [guard].
  match goal with |- context [LSS _ _ (DM _ _ ?f) (BV _ ?g) (BV _ ?h)] => set (A := f); set (ll := g); set (uu := h) end.
  eexists. split; [reflexivity|]. cbn [l_Q l_p l_C l_l l_u mc mr bn]. split; auto. split; auto. split; auto. split; [lia|]. split; [lia|].
  intros x. unfold lssol_feasible. cbn [l_Q l_p l_C l_l l_u mc mr ma bn ba]. unfold sc_feasible, fc_feasible. fold b t. rewrite H10, H5, H6.
  assert (EA1 : forall i, (i < me s)%nat -> rsum n (fun j => A i j * x j) = rdot n (line t (sE s) i) x).
  { intros i Hi. rewrite line_rows. apply sum_ext. intros j _. unfold A. seg. reflexivity. }
  assert (EA2 : forall i, (i < mi s)%nat -> rsum n (fun j => A (me s + i)%nat j * x j) = rdot n (line t (fC b) i) x).
  { intros i Hi. rewrite line_rows. apply sum_ext. intros j _. unfold A. seg. replace (me s + i - me s)%nat with i by lia. reflexivity. }
  assert (EB : forall i, (i < n)%nat -> ll i = (if (0 <? bn (fxl b))%nat then ba (fxl b) i else Some (- 10 ^ 30)) /\
                                       uu i = (if (0 <? bn (fxl b))%nat then ba (fxu b) i else Some (10 ^ 30))).
  { intros i Hi. unfold ll, uu. rewrite (proj2 (Nat.ltb_lt i n)) by auto. auto. }
  assert (EE : forall i, (i < me s)%nat -> ll (n + i)%nat = Some (va (sf s) i) /\ uu (n + i)%nat = Some (va (sf s) i)).
  { intros i Hi. unfold ll, uu. rewrite (proj2 (Nat.ltb_ge (n + i) n)) by lia. rewrite (proj2 (Nat.ltb_lt (n + i) (n + me s))) by lia.
    replace (n + i - n)%nat with i by lia. auto. }
  assert (EC : forall i, (i < mi s)%nat -> ll (n + (me s + i))%nat = ba (fl b) i /\ uu (n + (me s + i))%nat = ba (fu b) i).
  { intros i Hi. unfold ll, uu. rewrite (proj2 (Nat.ltb_ge (n + (me s + i)) n)) by lia. rewrite (proj2 (Nat.ltb_ge (n + (me s + i)) (n + me s))) by lia.
    replace (n + (me s + i) - n - me s)%nat with i by lia. auto. }
  split.
  - intros [F1 F2]. split; [split; [|split]|].
    + intros i Hi. specialize (F2 i ltac:(lia)). destruct (EE i Hi) as [X1 X2]. rewrite X1, X2, EA1 in F2 by auto. cbn in F2. lra.
    + intros i Hi. specialize (F2 (me s + i)%nat ltac:(lia)). destruct (EC i Hi) as [X1 X2]. rewrite X1, X2, EA2 in F2 by auto. exact F2.
    + intros i Hi. assert (Hn : (i < n)%nat) by (destruct H9 as [Z|Z]; rewrite Z in Hi; lia). specialize (F1 i Hn). destruct (EB i Hn) as [X1 X2].
      rewrite X1, X2 in F1. rewrite (proj2 (Nat.ltb_lt 0 (bn (fxl b)))) in F1 by lia. exact F1.
    + intros Z i Hn. specialize (F1 i Hn). destruct (EB i Hn) as [X1 X2]. rewrite X1, X2, Z in F1. cbn [Nat.ltb Nat.leb above_lo below_up] in F1.
      apply Rabs_le. exact F1.
  - intros [[F1 [F2 F3]] F4]. split.
    + intros i Hn. destruct (EB i Hn) as [X1 X2]. rewrite X1, X2. destruct (Nat.ltb_spec 0 (bn (fxl b))) as [K|K].
      * apply F3. destruct H9 as [Z|Z]; lia.
      * specialize (F4 ltac:(lia) i Hn). cbn [above_lo below_up]. revert F4. generalize (10 ^ 30). intros M F4.
        revert F4. unfold Rabs. destruct (Rcase_abs (x i)); intros; split; lra.
    + intros i Hi. destruct (Nat.lt_ge_cases i (me s)) as [K|K].
      * destruct (EE i K) as [X1 X2]. rewrite X1, X2, EA1, F1 by auto. cbn. split; lra.
      * replace i with (me s + (i - me s))%nat by lia. destruct (EC (i - me s)%nat ltac:(lia)) as [X1 X2]. rewrite X1, X2, EA2 by lia. apply F2. lia.
Qed.

(** QLD; the number of equalities is that of the problem (Solvers.cpp:225) *)
Theorem C56_qld : forall jm jb (q : qpproblem scstr), qpsep_wf q = Ok true ->
  exists e, qld_pb jm jb q = Ok e /\ d_Q e = qpG q /\ d_c e = qpa q /\
  mc (d_A e) = vn (qpa q) /\ bn (d_b e) = mr (d_A e) /\ bn (d_xl e) = vn (qpa q) /\ bn (d_xu e) = vn (qpa q) /\ (vn (sf (qpF q)) <= mr (d_A e))%nat /\
  forall x, qld_feasible (vn (sf (qpF q))) e x <-> sc_feasible (qpF q) x.
Proof.
  intros jm jb q W. destruct (wf_facts q W) as [H1 H2 H3 H4 H5 H6 H7 H8 H9 H10 H11 _ _ _].
  unfold qld_pb. rewrite W. cbn [bind guard].
  set (s := qpF q) in *. set (b := sbase s) in *. set (t := ft b) in *. set (n := vn (qpa q)) in *.
  set (C := as_rows t (fC b)) in *. set (E := as_rows t (sE s)) in *.
  set (nl := if hasFiniteElements (fl b) then mi s else O). set (nu := if hasFiniteElements (fu b) then mi s else O).
  rewrite H1, H2, H3, H4, H5, H6, H7, <- H8, !Nat.eqb_refl. cbn [andb guard].
  assert (G1 : ((nl =? 0) || ((mi s =? nl) && true && (mi s =? nl)))%nat = true).
  { unfold nl. destruct (hasFiniteElements (fl b)); rewrite ?Nat.eqb_refl; cbn; auto. apply orb_true_r. }
  assert (G2 : ((nu =? 0) || ((mi s =? nu) && true && (mi s =? nu)))%nat = true).
  { unfold nu. destruct (hasFiniteElements (fu b)); rewrite ?Nat.eqb_refl; cbn; auto. apply orb_true_r. }
  rewrite G1, G2. cbn [guard].
  match goal with |- context [QL _ _ (DM _ _ ?f) (BV _ ?g)] => set (A := f); set (bb := g) end.
  eexists. split; [reflexivity|]. cbn [d_Q d_c d_A d_b d_xl d_xu mc mr bn]. split; auto. split; auto. split; auto. split; auto.
  split; [destruct H9 as [Z|Z]; rewrite Z; destruct n; cbn; auto; rewrite Z; auto|].
  split; [destruct H9 as [Z|Z]; rewrite Z; destruct n; cbn; auto; rewrite <- H8, Z; auto|]. split; [lia|].
  intros x. unfold qld_feasible. cbn [d_Q d_c d_A d_b d_xl d_xu mc mr ma bn ba]. unfold sc_feasible, fc_feasible. fold b t. rewrite H10, H5, H6.
  assert (RE : forall i, (i < me s)%nat -> rsum n (fun j => A i j * x j) = rdot n (line t (sE s) i) x /\ bb i = Some (- va (sf s) i)).
  { intros i Hi. split; [rewrite line_rows; apply sum_ext; intros j _|]; unfold A, bb; seg; reflexivity. }
  assert (RL : forall i, (i < nl)%nat -> rsum n (fun j => A (me s + i)%nat j * x j) = rdot n (line t (fC b) i) x /\ bb (me s + i)%nat = bopp (ba (fl b) i)).
  { intros i Hi. split; [rewrite line_rows; apply sum_ext; intros j _|]; unfold A, bb; seg; replace (me s + i - me s)%nat with i by lia; reflexivity. }
  assert (RU : forall i, (i < nu)%nat -> rsum n (fun j => A (me s + nl + i)%nat j * x j) = - rdot n (line t (fC b) i) x /\ bb (me s + nl + i)%nat = ba (fu b) i).
  { intros i Hi. split; [rewrite line_rows, <- neg_row; apply sum_ext; intros j _|]; unfold A, bb; seg; replace (me s + nl + i - (me s + nl))%nat with i by lia; reflexivity. }
  assert (RX : (forall i, (i < n)%nat -> above_lo (ba (if (0 <? bn (fxl b))%nat then fxl b else BV n (fun _ => None)) i) (x i) /\
                                         below_up (ba (if (0 <? bn (fxl b))%nat then fxu b else BV n (fun _ => None)) i) (x i)) <->
               (forall i, (i < bn (fxl b))%nat -> above_lo (ba (fxl b) i) (x i) /\ below_up (ba (fxu b) i) (x i))).
  { destruct H9 as [Z|Z]; rewrite Z; [cbn; split; intros; [lia|split; exact I]|]. destruct n as [|n']; [split; intros; lia|]. cbn. tauto. }
  split.
  - intros [F1 F2]. split; [|split].
    + intros i Hi. specialize (F1 i ltac:(lia)). destruct (RE i Hi) as [X1 X2]. cbv zeta in F1. rewrite X1, X2, (proj2 (Nat.ltb_lt i (me s)) Hi) in F1. lra.
    + intros i Hi. split.
      * destruct (hasFiniteElements (fl b)) eqn:Ef; [|rewrite (fin_false (fl b)) by (auto; lia); exact I].
        specialize (F1 (me s + i)%nat ltac:(lia)). destruct (RL i Hi) as [X1 X2]. cbv zeta in F1. rewrite X1, X2, (proj2 (Nat.ltb_ge (me s + i) (me s))) in F1 by lia.
        destruct (ba (fl b) i); cbn in *; auto. lra.
      * destruct (hasFiniteElements (fu b)) eqn:Ef; [|rewrite (fin_false (fu b)) by (auto; lia); exact I].
        specialize (F1 (me s + nl + i)%nat ltac:(lia)). destruct (RU i Hi) as [X1 X2]. cbv zeta in F1. rewrite X1, X2, (proj2 (Nat.ltb_ge (me s + nl + i) (me s))) in F1 by lia.
        destruct (ba (fu b) i); cbn in *; auto. lra.
    + apply RX, F2.
  - intros [F1 [F2 F3]]. split; [|apply RX, F3]. intros i Hi. cbv zeta.
    destruct (Nat.lt_ge_cases i (me s)) as [K|K].
    + destruct (RE i K) as [X1 X2]. rewrite X1, X2, (proj2 (Nat.ltb_lt i (me s)) K), F1 by auto. lra.
    + rewrite (proj2 (Nat.ltb_ge i (me s))) by lia. destruct (Nat.lt_ge_cases i (me s + nl)) as [K2|K2].
      * replace i with (me s + (i - me s))%nat by lia. destruct (RL (i - me s)%nat ltac:(lia)) as [X1 X2]. rewrite X1, X2.
        assert (Hm : (i - me s < mi s)%nat) by (unfold nl in K2; destruct (hasFiniteElements (fl b)); lia).
        destruct (F2 _ Hm) as [Y _]. destruct (ba (fl b) (i - me s)); cbn in *; auto. lra.
      * replace i with (me s + nl + (i - me s - nl))%nat by lia. destruct (RU (i - me s - nl)%nat ltac:(lia)) as [X1 X2]. rewrite X1, X2.
        assert (Hm : (i - me s - nl < mi s)%nat) by (unfold nu in Hi; destruct (hasFiniteElements (fu b)); lia).
        destruct (F2 _ Hm) as [_ Y]. destruct (ba (fu b) (i - me s - nl)); cbn in *; auto. lra.
Qed.

(** On a problem that is not well formed all conversions assert *)
Theorem C56_only_well_formed : forall jm jb (q : qpproblem scstr), qpsep_wf q <> Ok true ->
  eigen_pb jm jb q = UB /\ ei_pb jm jb q = UB /\ lssol_pb q = UB /\ qld_pb jm jb q = UB.
Proof.
  intros jm jb q H. unfold ei_pb, eigen_pb, lssol_pb, qld_pb. destruct (qpsep_wf q) as [[|]|]; [congruence| |]; cbn; auto.
Qed.

(** * C57: the dense solver on the converted problem *)
(** The arguments of the call solver.solve(qp.G, qp.a, qp.C, qp.l, qp.u, qp.xl, qp.xu) (benchmarks/Solvers.cpp:196) *)
Definition call_of (g : qpproblem fcstr) : rproblem :=
  let c := qpF g in
  Pb (S:=Rops) (ma (qpG g)) (mr (qpG g)) (mc (qpG g)) (va (qpa g)) (vn (qpa g)) (ma (fC c)) (mr (fC c)) (mc (fC c))
     (ba (fl c)) (bn (fl c)) (ba (fu c)) (bn (fu c)) (ba (fxl c)) (bn (fxl c)) (ba (fxu c)) (bn (fxu c)).
Definition no_fixed_variable (s : scstr) : Prop :=
  forall i a b, (i < bn (fxl (sbase s)))%nat -> ba (fxl (sbase s)) i = Some a -> ba (fxu (sbase s)) i = Some b -> a <> b.

Lemma gsym_of_sym n G i j : symmetric n G -> (i < n)%nat -> (j < n)%nat -> gsym G i j = G i j.
Proof. intros H Hi Hj. unfold gsym. destruct (j <=? i)%nat; auto. Qed.

Theorem C57_same_problem : forall (q : qpproblem scstr), qpsep_wf q = Ok true -> mr (qpG q) = mc (qpG q) ->
  exists g, gi_pb q = Ok g /\ sizes_ok (call_of g) = true /\ nv (call_of g) = vn (qpa q) /\
  (forall x, feasible (call_of g) x <-> sc_feasible (qpF q) x) /\
  (symmetric (vn (qpa q)) (ma (qpG q)) -> forall x, qp_objective q x = objective (call_of g) x + qpcst q) /\
  ordered (call_of g) /\ (no_fixed_variable (qpF q) -> equalities_first (call_of g)).
Proof.
  intros q W Hsq. destruct (wf_facts q W) as [H1 H2 H3 H4 H5 H6 H7 H8 H9 H10 H11 H12 H13 H14].
  destruct (C28_joint_of_separated _ H14) as (c & Ec & Wc & Dc & Fc).
  unfold gi_pb, qp_of_qp. rewrite Ec. cbn [bind qpF qpG qpa qpcst]. eexists. split; [reflexivity|].
  set (C' := if ft c then fC c else tr_ (fC c)).
  destruct (fc_wf_facts _ _ Wc) as (V1 & V2 & V3 & V4 & V5 & V6).
  assert (KC : mr C' = fdim c /\ mc C' = bn (fl c)) by (unfold C', fdim; rewrite V3; destruct (ft c); auto).
  destruct KC as [KC1 KC2].
  assert (KL : forall i j, ma C' i j = line (ft c) (fC c) j i) by (intros; unfold C', line; destruct (ft c); reflexivity).
  assert (Sh : fl c = BV (mi (qpF q) + vn (sf (qpF q))) (fun i => if (i <? vn (sf (qpF q)))%nat then Some (va (sf (qpF q)) i) else ba (fl (sbase (qpF q))) (i - vn (sf (qpF q)))%nat) /\
               fu c = BV (mi (qpF q) + vn (sf (qpF q))) (fun i => if (i <? vn (sf (qpF q)))%nat then Some (va (sf (qpF q)) i) else ba (fu (sbase (qpF q))) (i - vn (sf (qpF q)))%nat) /\
               fxl c = fxl (sbase (qpF q)) /\ fxu c = fxu (sbase (qpF q))).
  { unfold joint_of_sep in Ec. rewrite H14 in Ec. cbn [bind guard] in Ec. injection Ec as <-. cbn [fl fu fxl fxu]. rewrite H6, H7. auto. }
  destruct Sh as (S1 & S2 & S3 & S4).
  unfold sizes_ok, call_of, nv. cbn [qpF qpG qpa fC fl fu fxl fxu p_Grows p_Gcols p_asize p_Crows p_Ccols p_blsize p_busize p_xlsize p_xusize].
  rewrite KC1, KC2, Dc, H10, <- V1, <- V2, H11, Hsq, H11, !Nat.eqb_refl. cbn [andb].
  split. { rewrite Dc, H10 in V4. destruct V4 as [-> | ->]; rewrite ?Nat.eqb_refl; cbn; auto. rewrite orb_true_r. auto. }
  split; auto.
  match goal with |- context [feasible ?p _] => set (pb := p) end.
  split; [|split; [|split]].
  - intros x. rewrite <- Fc. unfold feasible, fc_feasible, nc, nb, nv, pb. cbn [p_Grows p_Ccols p_C p_bl p_bu p_xl p_xu p_xlsize]. rewrite Dc, H10.
    apply and_both; [|tauto].
    split; intros K i Hi; specialize (K i Hi); rewrite (dot_ext _ _ (line (ft c) (fC c) i) x x) in * by (intros; auto using KL); exact K.
  - intros Sy x. unfold qp_objective, objective, quad, nv, pb. cbn [p_Grows p_a]. rewrite H11, dot_def.
    assert (Eq : forall i, (i < vn (qpa q))%nat -> rsum (vn (qpa q)) (fun j => ma (qpG q) i j * x j) = rsum (vn (qpa q)) (fun j => hess pb i j * x j)).
    { intros i Hi. apply sum_ext. intros j Hj. unfold hess, pb. cbn [p_G]. rewrite (gsym_of_sym (vn (qpa q))) by auto. reflexivity. }
    rewrite (sum_ext (vn (qpa q)) (fun i => x i * rsum (vn (qpa q)) (fun j => ma (qpG q) i j * x j)) (fun i => x i * rsum (vn (qpa q)) (fun j => hess pb i j * x j)))
      by (intros i Hi; rewrite (Eq i Hi); reflexivity). reflexivity.
  - intros i lo up Hi L U. unfold clo, cup, nc in L, U. unfold ncb, nc, nb in Hi. unfold pb in L, U, Hi.
    cbn [p_Ccols p_bl p_bu p_xl p_xu p_xlsize] in L, U, Hi. destruct (Nat.ltb_spec i (bn (fl c))) as [K|K].
    + specialize (V5 i K). rewrite L, U in V5. cbn in V5. destruct (Rleb_spec lo up); [auto|discriminate].
    + specialize (V6 (i - bn (fl c))%nat ltac:(lia)). rewrite L, U in V6. cbn in V6. destruct (Rleb_spec lo up); [auto|discriminate].
  - intros NF i j Hij Hj (v & L & U). unfold clo, cup, nc in L, U. unfold ncb, nc, nb in Hj. unfold pb in L, U, Hj.
    cbn [p_Ccols p_bl p_bu p_xl p_xu p_xlsize] in L, U, Hj. destruct (Nat.ltb_spec j (bn (fl c))) as [K|K].
    + destruct (Nat.ltb_spec j (vn (sf (qpF q)))) as [Kf|Kf].
      * exists (va (sf (qpF q)) i). unfold clo, cup, nc, pb. cbn [p_Ccols p_bl p_bu p_xl p_xu]. rewrite (proj2 (Nat.ltb_lt i (bn (fl c)))) by lia.
        rewrite S1, S2. cbn [ba]. rewrite (proj2 (Nat.ltb_lt i (vn (sf (qpF q))))) by lia. auto.
      * exfalso. rewrite S1 in L, K. rewrite S2 in U. cbn [ba bn] in L, U, K. rewrite (proj2 (Nat.ltb_ge _ _) Kf) in L, U.
        specialize (H12 (j - vn (sf (qpF q)))%nat ltac:(lia)). rewrite L, U in H12. cbn in H12. destruct (Rltb_spec v v); [lra|discriminate].
    + exfalso. rewrite S3 in L, Hj. rewrite S4 in U. exact (NF (j - bn (fl c))%nat v v ltac:(lia) L U eq_refl).
Qed.

(** x minimises the problem, and is the only point to do so *)
Definition minimises (q : qpproblem scstr) (x : rvec) : Prop :=
  sc_feasible (qpF q) x /\
  forall y, sc_feasible (qpF q) y -> qp_objective q x <= qp_objective q y /\
    (qp_objective q y <= qp_objective q x -> forall i, (i < vn (qpa q))%nat -> y i = x i).

(** Solving the converted problem with the dense solver answers about the original one.  Independence of the
    equalities and the gap of the tolerance are stated on the arguments of the call. *)
Theorem C57_solves_original : forall (q : qpproblem scstr) g, qpsep_wf q = Ok true -> mr (qpG q) = mc (qpG q) ->
  symmetric (vn (qpa q)) (ma (qpG q)) -> posdef (vn (qpa q)) (ma (qpG q)) -> no_fixed_variable (qpF q) ->
  gi_pb q = Ok g -> eq_independent (call_of g) -> tolerance_gap (call_of g) ->
  (exists B, steps_below (call_of g) B) /\
  forall B, steps_below (call_of g) B ->
  forall o junk s, B <= o_bigBnd o -> (let m := nc (call_of g) + nb (call_of g) in m + 2 * 3 ^ m <= o_maxIter o)%nat -> history Rops s ->
   exists st s', gi_solve junk (call_of g) o s = Ok (st, s') /\
    ((st = SUCCESS /\ exists x, solution s' = Ok x /\ length x = vn (qpa q) /\ minimises q (vec_of x) /\
        objectiveValue s' + qpcst q = qp_objective q (vec_of x))
     \/ (st = INFEASIBLE /\ forall y, ~ sc_feasible (qpF q) y)).
Proof.
  intros q g W Hsq Sy Pd NF Eg Ei Tg. destruct (C57_same_problem q W Hsq) as (g' & Eg' & K1 & K2 & K3 & K4 & K5 & K6).
  rewrite Eg in Eg'. injection Eg' as <-. specialize (K4 Sy). specialize (K6 NF).
  assert (Pd' : posdef (nv (call_of g)) (hess (call_of g))).
  { intros v Hv. rewrite K2 in *. specialize (Pd v Hv). unfold quad in *.
    rewrite (sum_ext (vn (qpa q)) _ (fun i => v i * rsum (vn (qpa q)) (fun j => ma (qpG q) i j * v j))); auto.
    intros i Hi. f_equal. apply sum_ext. intros j Hj. unfold hess. f_equal.
    unfold gi_pb, qp_of_qp in Eg. apply bind_ok in Eg as (g0 & E0 & Eg). apply bind_ok in E0 as (f & _ & E0). injection E0 as <-. injection Eg as <-.
    unfold call_of. cbn [qpG qpF p_G]. apply (gsym_of_sym (vn (qpa q))); auto. }
  split; [apply limit_exists; exact Pd'|]. intros B HB o junk s Ho Hm Hs.
  destruct (total_correct_at (call_of g) B K1 Pd' K5 K6 Ei Tg HB o junk s Ho Hm Hs) as (st & s' & E & Hr). exists st, s'. split; auto.
  destruct Hr as [[-> (x & lam & s'' & X1 & X2 & X3 & X4 & X5 & [U1 U2] & X7)]|[-> Inf]]; [left|right].
  - split; auto. exists x. split; auto. split; [congruence|]. split; [|rewrite X7, K4; reflexivity].
    split; [apply K3; auto|]. intros y Hy. rewrite !K4. destruct (U2 y (proj2 (K3 y) Hy)) as [A1 A2]. split; [lra|].
    intros Hle i Hi. apply A2; [lra|]. rewrite K2. auto.
  - split; auto. intros y Hy. apply (Inf y). apply K3. auto.
Qed.

(** The converted object contradicts its own flag: C is transposed but transposedMat is still false, so the object
    is not well formed as soon as it has not as many constraints as variables. *)
Theorem C57_flag_not_updated : forall (q : qpproblem scstr) g, gi_pb q = Ok g -> ft (sbase (qpF q)) = false ->
  ft (qpF g) = false /\ mr (fC (qpF g)) = mc (fC (sbase (qpF q))) /\ mc (fC (qpF g)) = (mr (fC (sbase (qpF q))) + mr (sE (qpF q)))%nat /\
  (mr (fC (sbase (qpF q))) + mr (sE (qpF q)) <> mc (fC (sbase (qpF q))) -> qp_wellFormed (fun c => fc_wellFormed c false) (fun c => c) g <> Ok true)%nat.
Proof.
  intros q g H Ht. unfold gi_pb, qp_of_qp in H. apply bind_ok in H as (g0 & E0 & H). apply bind_ok in E0 as (f & E1 & E0).
  injection E0 as <-. injection H as <-. unfold joint_of_sep in E1. apply bind_ok in E1 as (wf & Ew & E1). apply guard_ok in E1 as [-> E1]. injection E1 as <-.
  cbn [qpF ft fC]. rewrite Ht. cbn [mr mc tr_]. split; auto. split; auto. split; auto.
  intros Hne. unfold qp_wellFormed. cbn [qpF fC ft]. intros K. apply bind_ok in K as (b1 & Eb & K). injection K as K.
  repeat (apply andb_prop in K as [K ?]). subst b1. destruct (fc_wf_facts _ _ Eb) as (V1 & V2 & V3 & _).
  cbn [fl fu fxl fxu fC ft mr mc bn tr_] in V3. unfold sc_wellFormed in Ew. apply bind_ok in Ew as (b2 & Ew & K).
  injection K as K. apply andb_prop in K as [K B3]. apply andb_prop in K as [-> B2]. rewrite Ht in B3. apply Nat.eqb_eq in B3.
  destruct (fc_wf_facts _ _ Ew) as (_ & _ & V3' & _). rewrite Ht in V3'. apply Hne. lia.
Qed.

(** A concrete problem: minimise x0^2 + x1^2 with x0 + x1 = 2, 0 <= x0 - x1 <= 3, x0 <= 5 *)
Definition ad_q : qpproblem scstr :=
  QP (SCs (FC (DM 1 2 (fun _ j => match j with O => 1 | _ => -1 end)) (BV 1 (fun _ => Some 0)) (BV 1 (fun _ => Some 3))
              (BV 2 (fun _ => None)) (BV 2 (fun i => match i with O => Some 5 | _ => None end)) false)
          (DM 1 2 (fun _ _ => 1)) (DV 1 (fun _ => 2)))
     (DM 2 2 (fun i j => if (i =? j)%nat then 2 else 0)) (DV 2 (fun _ => 0)) 7.
Example C56_nonvacuous : qpsep_wf ad_q = Ok true /\ hasFiniteElements (fxl (sbase (qpF ad_q))) = false /\ sc_feasible (qpF ad_q) (fun _ => 1).
Proof.
  split; [|split]; [| reflexivity|].
  - unfold qpsep_wf, qp_wellFormed, sc_wellFormed, fc_wellFormed, ad_q. cbn. destruct (Rltb_spec 0 3); [reflexivity|lra].
  - unfold sc_feasible, fc_feasible, fdim, ad_q. cbn [mc qpF sbase sE sf fl fu fxl fxu ft fC bn vn va ba]. split; [|split]; intros i Hi.
    + rewrite dot_def, !sum_S, sum_0. cbn. lra.
    + rewrite dot_def, !sum_S, sum_0. destruct i; [|lia]. cbn. split; lra.
    + destruct i as [|[|]]; [| |lia]; cbn; split; auto. lra.
Qed.
(** ... and one that satisfies all hypotheses of C57_solves_original: minimise |x|^2/2 - 2 x0 with x0 + x1 = 1, 0 <= x *)
Definition gi_q : qpproblem scstr :=
  QP (SCs (FC (DM 0 2 (fun _ _ => 0)) (BV 0 (fun _ => None)) (BV 0 (fun _ => None)) (BV 2 (fun _ => Some 0)) (BV 2 (fun _ => None)) false)
          (DM 1 2 (fun _ _ => 1)) (DV 1 (fun _ => 1)))
     (DM 2 2 (fun i j => if (i =? j)%nat then 1 else 0)) (DV 2 (fun i => if (i =? 0)%nat then -2 else 0)) 7.
Lemma gi_q_cvec g : gi_pb gi_q = Ok g -> nv (call_of g) = 2%nat /\ nc (call_of g) = 1%nat /\ nb (call_of g) = 2%nat /\
  (forall i a, (i < 3)%nat -> cvec (call_of g) i a = cvec (ex_pb 1) i a) /\ (forall a b, hess (call_of g) a b = hess (ex_pb 1) a b) /\
  (forall i, (i < 3)%nat -> clo (call_of g) i = clo (ex_pb 1) i /\ cup (call_of g) i = cup (ex_pb 1) i).
Proof.
  intros H. unfold gi_pb, qp_of_qp, joint_of_sep, sc_wellFormed, fc_wellFormed in H. cbn in H. injection H as <-.
  split; [reflexivity|]. split; [reflexivity|]. split; [reflexivity|]. split; [|split]; [| reflexivity|]; intros i; [intros a|]; intros Hi;
    destruct i as [|[|[|]]]; try lia; try split; reflexivity.
Qed.
Example C57_nonvacuous : exists g, gi_pb gi_q = Ok g /\ qpsep_wf gi_q = Ok true /\ mr (qpG gi_q) = mc (qpG gi_q) /\
  symmetric (vn (qpa gi_q)) (ma (qpG gi_q)) /\ posdef (vn (qpa gi_q)) (ma (qpG gi_q)) /\ no_fixed_variable (qpF gi_q) /\
  eq_independent (call_of g) /\ tolerance_gap (call_of g).
Proof.
  assert (W : qpsep_wf gi_q = Ok true) by reflexivity.
  destruct (C57_same_problem gi_q W eq_refl) as (g & E & _). exists g. split; auto. split; auto. split; auto.
  destruct (gi_q_cvec g E) as (N1 & N2 & N3 & Ev & Eh & Eb).
  split. { intros i j _ _. cbn. rewrite Nat.eqb_sym. reflexivity. }
  split. { intros v Hv. pose proof (ex_posdef 1 v Hv) as P. unfold quad in *. cbn [gi_q qpG qpa vn ma].
    rewrite (sum_ext 2 _ (fun i => v i * rsum 2 (fun j => hess (ex_pb 1) i j * v j))); [exact P|].
    intros i Hi. f_equal. apply sum_ext. intros j Hj. f_equal. destruct i as [|[|]], j as [|[|]]; try lia; reflexivity. }
  split. { intros i a b Hi H1 H2. discriminate. }
  assert (N : ncb (call_of g) = 3%nat) by (unfold ncb; lia).
  split.
  - intros w H1 H2 i Hi. rewrite N, N1 in *. apply (ex_indep 1 w); auto.
    + intros k Hk Hne. apply H1; auto. intros (b & L & U). apply Hne. destruct (Eb k Hk) as [X1 X2]. exists b. rewrite <- X1, <- X2. auto.
    + intros a Ha. specialize (H2 a Ha). change (ncb (ex_pb 1)) with 3%nat. eapply eq_trans; [|exact H2]. apply sum_ext. intros k Hk. rewrite Ev; auto.
  - intros Ws i z r Hi [P1 P2 P3]. rewrite N, N1 in *. apply (ex_gap 1 Ws i z r Hi). constructor; auto.
    + intros a Ha. change (nv (ex_pb 1)) with 2%nat in *. change (ncb (ex_pb 1)) with 3%nat. specialize (P2 a Ha). rewrite (Ev i a Hi) in P2.
      transitivity (rsum 2 (fun b => hess (call_of g) a b * z b)); [apply sum_ext; intros; rewrite Eh; reflexivity|]. rewrite P2. f_equal. apply sum_ext. intros j Hj. rewrite Ev; auto.
    + intros j Hj Wj. change (ncb (ex_pb 1)) with 3%nat in Hj. change (nv (ex_pb 1)) with 2%nat. eapply eq_trans; [|exact (P3 j Hj Wj)].
      apply dot_ext; auto. intros a _. symmetry. apply Ev; auto.
Qed.

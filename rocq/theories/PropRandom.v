(** C40: the random problem generator announces a solution.  Exact arithmetic. *)
From Coq Require Import List Arith ZArith Lia Bool Reals Lra FunctionalExtensionality.
From Verif Require Import Base Num Solver LinAlg QPSpec TestPb PropTest Random RandomProofs RandomRank RandomMain.
Import ListNotations.
Local Open Scope R_scope.

(** * Specification, on the returned object *)
Definition prod (M : dmat) (x : nat -> R) (i : nat) : R := rsum (mc M) (fun j => ma M i j * x j).
Definition pA (p : rlsproblem) := lsA (r_pb p).
Definition pb_ (p : rlsproblem) := lsb (r_pb p).
Definition pE (p : rlsproblem) := sE (lsF (r_pb p)).
Definition pf (p : rlsproblem) := sf (lsF (r_pb p)).
Definition pC (p : rlsproblem) := fC (sbase (lsF (r_pb p))).
Definition pl (p : rlsproblem) := fl (sbase (lsF (r_pb p))).
Definition pu (p : rlsproblem) := fu (sbase (lsF (r_pb p))).
Definition pxl (p : rlsproblem) := fxl (sbase (lsF (r_pb p))).
Definition pxu (p : rlsproblem) := fxu (sbase (lsF (r_pb p))).

(** The dimensions asked for *)
Record dims_as_asked (c : characs) (p : rlsproblem) : Prop := {
  da_A : mr (pA p) = c_nObj c /\ mc (pA p) = c_nVar c /\ vn (pb_ p) = c_nObj c;
  da_E : mr (pE p) = c_nEq c /\ mc (pE p) = c_nVar c /\ vn (pf p) = c_nEq c;
  da_C : mr (pC p) = c_nIneq c /\ mc (pC p) = c_nVar c /\ bn (pl p) = c_nIneq c /\ bn (pu p) = c_nIneq c;
  da_b : bn (pxl p) = (if c_bounds c then c_nVar c else 0%nat) /\ bn (pxu p) = bn (pxl p);
  da_x : vn (r_x p) = c_nVar c /\ vn (r_le p) = c_nEq c /\ vn (r_li p) = c_nIneq c /\ vn (r_lb p) = bn (pxl p)
}.
(** E y = f, l <= C y <= u, xl <= y <= xu *)
Definition satisfies (p : rlsproblem) (y : nat -> R) : Prop :=
  (forall k, (k < mr (pE p))%nat -> prod (pE p) y k = va (pf p) k) /\
  (forall k, (k < mr (pC p))%nat ->
     (forall l, ba (pl p) k = Some l -> l <= prod (pC p) y k) /\ (forall u, ba (pu p) k = Some u -> prod (pC p) y k <= u)) /\
  (forall a, (a < bn (pxl p))%nat -> (forall l, ba (pxl p) a = Some l -> l <= y a) /\ (forall u, ba (pxu p) a = Some u -> y a <= u)).
Definition residual2 (p : rlsproblem) (y : nat -> R) : R :=
  rsum (mr (pA p)) (fun k => (prod (pA p) y k - va (pb_ p) k) * (prod (pA p) y k - va (pb_ p) k)).
(** The KKT conditions of min 1/2 |A x - b|^2 under these constraints hold at the
    returned x with the returned multipliers *)
Record announced (p : rlsproblem) : Prop := {
  an_stat : forall a, (a < mc (pA p))%nat ->
    rsum (mr (pA p)) (fun k => ma (pA p) k a * (prod (pA p) (va (r_x p)) k - va (pb_ p) k))
    + rsum (mr (pE p)) (fun k => ma (pE p) k a * va (r_le p) k)
    + rsum (mr (pC p)) (fun k => ma (pC p) k a * va (r_li p) k)
    + (if (a <? bn (pxl p))%nat then va (r_lb p) a else 0) = 0;
  an_feas : satisfies p (va (r_x p));
  an_ineq : forall k, (k < mr (pC p))%nat ->
    (0 < va (r_li p) k -> ba (pu p) k = Some (prod (pC p) (va (r_x p)) k)) /\
    (va (r_li p) k < 0 -> ba (pl p) k = Some (prod (pC p) (va (r_x p)) k));
  an_bnd : forall a, (a < bn (pxl p))%nat ->
    (0 < va (r_lb p) a -> ba (pxu p) a = Some (va (r_x p) a)) /\
    (va (r_lb p) a < 0 -> ba (pxl p) a = Some (va (r_x p) a))
}.

(** When the generator works: the drawn matrices have the announced rank once the
    rows of the active bounds have been written, and there are at least as many
    rows in [A; active constraints] as variables. *)
Definition rows_total (c : characs) : nat := (c_nObj c + (c_nEq c + c_nSI c + c_nSB c))%nat.
Definition drawn (d : draws) (c : characs) : rmat := fun i j =>
  if (i <? c_nObj c)%nat then d_A d i j
  else if (i <? c_nObj c + (c_nEq c + c_nSI c))%nat then d_Ca d (i - c_nObj c)%nat j
  else if (i - c_nObj c - (c_nEq c + c_nSI c) =? j)%nat then 1 else 0.
Definition good_draw (qr : nat -> nat -> rmat -> cpqr) (d : draws) (c : characs) : Prop :=
  let n := c_nVar c in let m := rows_total c in
  let r := (c_rankObj c + (c_nEq c + c_nSI c + c_nSB c) - c_shared c)%nat in
  c_nObj c = 0%nat \/ (c_nEq c + c_nSI c + c_nSB c = 0)%nat \/
  ((c_shared c <= c_nEq c + c_nSI c + c_nSB c)%nat /\
   (((n < m)%nat /\ let M := fun i j => drawn d c j i in is_cpqr n m M (qr n m M) /\ has_rank n m M (Nat.min r n)) \/
    (m = n /\ let M := drawn d c in is_cpqr n n M (qr n n M) /\ has_rank n n M (if (r =? n)%nat then (n - 1)%nat else r)))).

Lemma drawn_tall d c i j : drawn d c i j = tall d c i j.
Proof.
  unfold drawn, tall, stack, set_bounds. destruct (Nat.ltb_spec i (c_nObj c)); auto.
  destruct (Nat.ltb_spec i (c_nObj c + (c_nEq c + c_nSI c))), (Nat.ltb_spec (i - c_nObj c) (c_nEq c + c_nSI c)); auto; lia.
Qed.
Lemma good_null qr d c : check c = true -> good_draw qr d c ->
  exists A Ca red, step_one qr d c = Ok (A, Ca, red) /\ null1 c A Ca red.
Proof.
  intros Hc H. unfold good_draw in H. cbv zeta in H.
  destruct (Nat.eq_dec (c_nObj c) 0) as [E0|E0].
  { destruct (step_one_zero qr d c (or_introl E0)) as (red & E & Hr). do 3 eexists. split; [exact E|apply zero_null; auto]. }
  destruct (Nat.eq_dec (nstrong c) 0) as [E1|E1].
  { destruct (step_one_zero qr d c (or_intror E1)) as (red & E & Hr). do 3 eexists. split; [exact E|apply zero_null; auto]. }
  destruct H as [H|[H|(Hsh & [(Hw & HF & HR)|(Hw & HF & HR)])]]; [lia|unfold nstrong in E1; lia| |].
  - assert (EM : (fun i j => drawn d c j i) = (fun i j => tall d c j i)) by (do 2 (apply functional_extensionality; intro); apply drawn_tall).
    rewrite EM in HF, HR. assert (Er : rankA c = Nat.min (c_rankObj c + (c_nEq c + c_nSI c + c_nSB c) - c_shared c) (c_nVar c)).
    { unfold rankA, nstrong. cbv zeta. destruct (Nat.ltb_spec (c_nVar c) (c_rankObj c + (c_nEq c + c_nSI c + c_nSB c) - c_shared c)); lia. }
    rewrite <- Er in HR. destruct (step_one_wide qr d c Hc) as (red & E & HN); auto; [lia|lia|]. do 3 eexists. split; [exact E|auto].
  - assert (EM : drawn d c = tall d c) by (do 2 (apply functional_extensionality; intro); apply drawn_tall).
    rewrite EM in HF, HR. destruct (step_one_square qr d c Hc) as (red & E & HN); auto; [lia|lia|]. do 3 eexists. split; [exact E|auto].
Qed.

(** * The announced solution *)
Theorem C40_announced_solution : forall qr d c, check c = true -> good_draw qr d c ->
  (forall i, (d_ji d i <= i)%nat /\ (d_jb d i <= i)%nat) ->
  (c_strict c = true -> c_nEq c + c_nSI c + c_nSB c = 1)%nat ->
  (c_double c = true -> forall i, (c_nSI c <= i < c_nSI c + c_nWI c)%nat -> Rabs (d_ru d i) < Rabs (d_rl d i)) ->
  exists p, randomProblem qr d c = Ok p /\ dims_as_asked c p /\ announced p.
Proof.
  intros qr d c Hc Hg Hj Hst Hdb. unfold randomProblem. rewrite Hc. cbn [guard].
  destruct (good_null qr d c Hc Hg) as (A & Ca & red & E1 & HN). rewrite E1. cbn [bind].
  unfold rows_of_C. assert (Hs : negb (c_strict c) || (nstrong c =? 1)%nat = true).
  { destruct (c_strict c); auto. apply Nat.eqb_eq. exact (Hst eq_refl). }
  rewrite Hs. cbn [guard bind]. match goal with |- context [step_five d c A _ ?C _] => set (CC := C) end.
  set (Ca2 := step_two_Ca c Ca red) in *. set (red2 := step_two_red c red) in *.
  assert (H5 : gkkt c (step_five d c A Ca2 CC red2)).
  { apply step_five_ok; auto.
    - apply step_two_null. auto.
    - intros Hd i Hi. apply step_two_sign; auto.
    - intros i j Hi. unfold CC. destruct (Nat.ltb_spec i (c_nSI c)); [reflexivity|lia]. }
  destruct (shuffle_total swap_cstr (d_ji d) (fun i => proj1 (Hj i)) (c_nIneq c - 1) (step_five d c A Ca2 CC red2)) as (g1 & G1).
  rewrite G1. cbn [bind].
  assert (H6 : gkkt c g1).
  { apply (shuffle_ok c swap_cstr (d_ji d) (c_nIneq c) (fun i j g Hi Hj' HG => swap_cstr_ok c g i j Hi Hj' HG) (c_nIneq c - 1) (step_five d c A Ca2 CC red2) g1 ltac:(lia) H5 G1). }
  assert (HX : exists g2, (if c_bounds c then shuffle swap_var (d_jb d) (c_nVar c - 1) g1 else Ok g1) = Ok g2 /\ gkkt c g2).
  { destruct (c_bounds c) eqn:Eb; [|exists g1; auto].
    destruct (shuffle_total swap_var (d_jb d) (fun i => proj2 (Hj i)) (c_nVar c - 1) g1) as (g2 & G2). exists g2. split; auto.
    apply (shuffle_ok c swap_var (d_jb d) (c_nVar c) (fun i j g Hi Hj' HG => swap_var_ok c g i j Eb Hi Hj' HG) (c_nVar c - 1) g1 g2 ltac:(lia) H6 G2). }
  destruct HX as (g2 & G2 & H7). rewrite G2. cbn [bind]. eexists. split; [reflexivity|].
  split; [split; cbn; repeat split; auto; destruct (c_bounds c); auto|].
  destruct H7 as [K1 K2 K3 K4].
  assert (Hbd : forall a, (a < (if c_bounds c then c_nVar c else 0))%nat -> c_bounds c = true /\ (a < c_nVar c)%nat).
  { intros a Ha. destruct (c_bounds c); [auto|lia]. }
  split; unfold pA, pb_, pE, pf, pC, pl, pu, pxl, pxu, prod; cbn [r_pb r_x r_le r_li r_lb lsA lsb lsF sE sf sbase fC fl fu fxl fxu mr mc ma vn va bn ba].
  - intros a Ha. specialize (K1 a Ha). destruct (c_bounds c).
    + destruct (Nat.ltb_spec a (c_nVar c)); [|lia]. exact K1.
    + cbn [Nat.ltb Nat.leb]. exact K1.
  - split; [|split]; unfold pE, pf, pC, pl, pu, pxl, pxu, prod; cbn [r_pb r_x r_le r_li r_lb lsA lsb lsF sE sf sbase fC fl fu fxl fxu mr mc ma vn va bn ba].
    + auto.
    + intros k Hk. destruct (K3 k Hk) as (K31 & K32 & _). split; [auto|]. intros u Eu. injection Eu as <-. exact K32.
    + intros a Ha. destruct (Hbd a Ha) as [Hb Ha']. destruct (K4 Hb a Ha') as (K41 & _). split; intros l El; injection El as <-; lra.
  - intros k Hk. destruct (K3 k Hk) as (_ & _ & K33 & K34). split; auto. intros Hp. rewrite K33; auto.
  - intros a Ha. destruct (Hbd a Ha) as [Hb Ha']. destruct (K4 Hb a Ha') as (_ & K42 & K43). split; intros Hp; [rewrite <- K42|rewrite K43]; auto.
Qed.

(** * The announced point is a minimiser *)
Lemma prod_sub M (y x : nat -> R) k : prod M y k - prod M x k = rsum (mc M) (fun j => ma M k j * (y j - x j)).
Proof. unfold prod. rewrite <- sum_minus. apply sum_ext. intros. ring. Qed.
Lemma prod_swap M (z w : nat -> R) : rsum (mr M) (fun k => rsum (mc M) (fun j => ma M k j * z j) * w k)
  = rsum (mc M) (fun a => z a * rsum (mr M) (fun k => ma M k a * w k)).
Proof.
  rewrite (sum_ext _ _ (fun k => rsum (mc M) (fun j => z j * (ma M k j * w k)))).
  - rewrite sum_swap. apply sum_ext. intros a _. apply sum_scal.
  - intros k _. rewrite <- sum_scal_r. apply sum_ext. intros. ring.
Qed.
Theorem C40_minimiser : forall c p, dims_as_asked c p -> announced p ->
  forall y, satisfies p y -> residual2 p (va (r_x p)) <= residual2 p y.
Proof.
  intros c p [[DA1 [DA2 _]] [DE1 [DE2 _]] [DC1 [DC2 _]] [DB1 DB2] _] [ST (FE & FC & FB) IN BN] y (GE & GC & GB).
  set (x := va (r_x p)) in *. set (z := fun a => y a - x a).
  set (r := fun k => prod (pA p) x k - va (pb_ p) k).
  set (w := fun k => rsum (mc (pA p)) (fun j => ma (pA p) k j * z j)).
  assert (E : residual2 p y = residual2 p x + rsum (mr (pA p)) (fun k => w k * w k) + 2 * rsum (mr (pA p)) (fun k => w k * r k)).
  { unfold residual2. rewrite <- sum_scal. rewrite <- !sum_plus. apply sum_ext. intros k _. fold (r k).
    assert (Ew : prod (pA p) y k - va (pb_ p) k = r k + w k) by (unfold r, w, z; rewrite <- prod_sub; ring). rewrite Ew. ring. }
  assert (S1 : 0 <= rsum (mr (pA p)) (fun k => w k * w k)) by (apply sum_nonneg; intros k _; apply Rle_0_sqr).
  assert (S2 : 0 <= rsum (mr (pA p)) (fun k => w k * r k)).
  { unfold w. rewrite prod_swap.
    set (gE := rsum (mr (pE p)) (fun k => rsum (mc (pE p)) (fun j => ma (pE p) k j * z j) * va (r_le p) k)).
    set (gC := rsum (mr (pC p)) (fun k => rsum (mc (pC p)) (fun j => ma (pC p) k j * z j) * va (r_li p) k)).
    set (gB := rsum (mc (pA p)) (fun a => z a * (if (a <? bn (pxl p))%nat then va (r_lb p) a else 0))).
    assert (HS : rsum (mc (pA p)) (fun a => z a * rsum (mr (pA p)) (fun k => ma (pA p) k a * r k)) + gE + gC + gB = 0).
    { unfold gE, gC, gB. rewrite !prod_swap. rewrite DE2, DC2, <- DA2. rewrite <- !sum_plus. apply sum_zero. intros a Ha.
      specialize (ST a Ha). unfold r.
      apply (f_equal (fun t => z a * t)) in ST. rewrite Rmult_0_r in ST. eapply eq_trans; [|exact ST]. ring. }
    assert (E1 : gE = 0).
    { apply sum_zero. intros k Hk. unfold z. rewrite <- prod_sub. rewrite (GE k Hk), (FE k Hk). ring. }
    assert (E2 : 0 <= - gC).
    { unfold gC. rewrite <- sum_opp. apply sum_nonneg. intros k Hk. unfold z. rewrite <- prod_sub.
      destruct (GC k Hk) as [L1 U1]. destruct (IN k Hk) as [I1 I2]. fold x in I1, I2.
      destruct (Rtotal_order (va (r_li p) k) 0) as [H|[H|H]].
      - specialize (L1 _ (I2 H)). nra.
      - rewrite H. lra.
      - specialize (U1 _ (I1 H)). nra. }
    assert (E3 : 0 <= - gB).
    { unfold gB. rewrite <- sum_opp. apply sum_nonneg. intros a Ha. destruct (Nat.ltb_spec a (bn (pxl p))) as [Hb|]; [|lra].
      destruct (GB a Hb) as [L1 U1]. destruct (BN a Hb) as [I1 I2]. fold x in I1, I2. unfold z.
      destruct (Rtotal_order (va (r_lb p) a) 0) as [H|[H|H]].
      - specialize (L1 _ (I2 H)). nra.
      - rewrite H. lra.
      - specialize (U1 _ (I1 H)). nra. }
    lra. }
  lra.
Qed.

(** * The announced point passes the KKT test, whatever the tolerances *)
(** The vector given to testKKT: mult << lambdaEq, lambdaIneq, lambdaBnd
    (tests/RandomProblemsTest.cpp:123-127) *)
Definition all_mult (p : rlsproblem) : dvec :=
  DV (vn (r_le p) + vn (r_li p) + vn (r_lb p)) (fun i =>
    if (i <? vn (r_le p))%nat then va (r_le p) i
    else if (i <? vn (r_le p) + vn (r_li p))%nat then va (r_li p) (i - vn (r_le p))%nat
    else va (r_lb p) (i - vn (r_le p) - vn (r_li p))%nat).
Theorem C40_passes_testKKT : forall c p q tp td, dims_as_asked c p -> ft (sbase (lsF (r_pb p))) = false -> announced p -> 0 <= tp -> 0 <= td ->
  qp_of_ls joint_of_sep (r_pb p) = Ok q ->
  testKKT (r_x p) (all_mult p) (qpG q) (qpa q) (fC (qpF q)) (fl (qpF q)) (fu (qpF q)) (fxl (qpF q)) (fxu (qpF q)) (ft (qpF q)) tp td = Ok true.
Proof.
  intros c p q tp td D Hft [ST (FE & FCC & FB) IN BN] Htp Htd Hq.
  destruct D as [[DA1 [DA2 DA3]] [DE1 [DE2 DE3]] [DC1 [DC2 [DC3 DC4]]] [DB1 DB2] [DX1 [DX2 [DX3 DX4]]]].
  unfold qp_of_ls in Hq. apply bind_ok in Hq as (f & Hf & Hq). apply guard_ok in Hq as [Hg Hq]. injection Hq as <-.
  unfold joint_of_sep in Hf. apply bind_ok in Hf as (wf & Hwf & Hf). apply guard_ok in Hf as [_ Hf]. rewrite Hft in Hf. injection Hf as <-.
  cbn [qpG qpa qpF fC fl fu fxl fxu ft bn ba].
  change (lsA (r_pb p)) with (pA p) in *. change (lsb (r_pb p)) with (pb_ p) in *. change (sE (lsF (r_pb p))) with (pE p) in *.
  change (sf (lsF (r_pb p))) with (pf p) in *. change (fC (sbase (lsF (r_pb p)))) with (pC p) in *. change (fl (sbase (lsF (r_pb p)))) with (pl p) in *.
  change (fu (sbase (lsF (r_pb p)))) with (pu p) in *. change (fxl (sbase (lsF (r_pb p)))) with (pxl p) in *. change (fxu (sbase (lsF (r_pb p)))) with (pxu p) in *.
  set (x := va (r_x p)) in *.
  assert (Hnb : (bn (pxl p) = 0 \/ bn (pxl p) = c_nVar c)%nat) by (rewrite DB1; destruct (c_bounds c); auto).
  apply C26_exact_kkt_accepted; auto.
  - unfold dims_qp, dims_cstr, all_mult. cbn [vn mr mc bn negb andb orb]. rewrite DX1, DX2, DX3, DX4, DA2, DC1, DC2, DC3, DC4, DB2, DE1, DE3, !Nat.eqb_refl. cbn [andb orb].
    rewrite (proj2 (Nat.eqb_eq (c_nEq c + c_nIneq c + bn (pxl p)) _)) by lia. cbn [andb orb].
    rewrite andb_true_r. destruct Hnb as [->| ->]; [reflexivity|]. rewrite Nat.eqb_refl, orb_true_r. reflexivity.
  - intros i j _ _. cbn [ma]. apply sum_ext. intros. ring.
  - set (n := c_nVar c) in *. split.
    + intros a Ha. change (nv (qp_of _ _ _ _ _ _ _ _)) with (mc (pA p)) in Ha.
      eapply eq_trans; [|exact (ST a Ha)].
      assert (HL : forall A1 A2 B1 B2 C1 C2 D2 : R, A1 = A2 -> B1 = B2 + C2 -> C1 = D2 -> A1 + B1 + C1 = A2 + B2 + C2 + D2) by (intros; subst; ring).
      apply HL; clear HL.
      * unfold gradient. change (nv (qp_of _ _ _ _ _ _ _ _)) with (mc (pA p)).
        match goal with |- context [hess ?pb] => assert (HH : forall j, hess pb a j = rsum (mr (pA p)) (fun k => ma (pA p) k a * ma (pA p) k j)) end.
        { intros j. unfold hess, gsym, qp_of. cbn [p_G ma]. destruct (j <=? a)%nat; auto; apply sum_ext; intros; ring. }
        rewrite (sum_ext (mc (pA p)) _ (fun j => rsum (mr (pA p)) (fun k => ma (pA p) k a * (ma (pA p) k j * x j)))).
        2:{ intros j _. rewrite HH. rewrite <- sum_scal_r. apply sum_ext. intros. fold x. ring. }
        rewrite sum_swap. unfold qp_of. cbn [p_a va]. rewrite <- sum_plus. apply sum_ext. intros k _. rewrite sum_scal. unfold prod. fold x. ring.
      * change (nc (qp_of _ _ _ _ _ _ _ _)) with (bn (pl p) + vn (pf p))%nat. unfold qp_of. cbn [p_C ma]. rewrite DC3, DE3, DE1, Nat.add_comm, sum_app, DC1. f_equal.
        -- apply sum_ext. intros k Hk. unfold all_mult. cbn [va]. rewrite DX2. destruct (Nat.ltb_spec k (c_nEq c)); [reflexivity|lia].
        -- apply sum_ext. intros k Hk. unfold all_mult. cbn [va]. rewrite DX2, DX3. destruct (Nat.ltb_spec (c_nEq c + k) (c_nEq c)); [lia|].
           destruct (Nat.ltb_spec (c_nEq c + k) (c_nEq c + c_nIneq c)); [|lia]. replace (c_nEq c + k - c_nEq c)%nat with k by lia. reflexivity.
      * change (nb (qp_of _ _ _ _ _ _ _ _)) with (bn (pxl p)). change (nc (qp_of _ _ _ _ _ _ _ _)) with (bn (pl p) + vn (pf p))%nat.
        destruct (a <? bn (pxl p))%nat; auto. unfold all_mult. cbn [va]. rewrite DX2, DX3, DC3, DE3.
        destruct (Nat.ltb_spec (c_nIneq c + c_nEq c + a) (c_nEq c)); [lia|]. destruct (Nat.ltb_spec (c_nIneq c + c_nEq c + a) (c_nEq c + c_nIneq c)); [lia|].
        f_equal. lia.
    + split.
      * change (nc (qp_of _ _ _ _ _ _ _ _)) with (bn (pl p) + vn (pf p))%nat. change (nv (qp_of _ _ _ _ _ _ _ _)) with (mc (pA p)).
        unfold qp_of. cbn [p_bl p_bu p_C ma ba]. intros j Hj. rewrite DC3, DE3 in Hj. rewrite dot_def, DE3, DE1.
        destruct (Nat.ltb_spec j (c_nEq c)).
        -- assert (Hj' : (j < mr (pE p))%nat) by lia. specialize (FE j Hj'). unfold prod in FE. rewrite DE2 in FE. rewrite DA2. fold n. fold n in FE.
           split; cbn [above_lo below_up]; rewrite <- FE; apply Rle_refl.
        -- assert (Hj' : (j - c_nEq c < mr (pC p))%nat) by lia. destruct (FCC _ Hj') as [F1 F2]. unfold prod in F1, F2. rewrite DC2 in F1, F2. rewrite DA2.
           split; [destruct (ba (pl p) _); cbn; auto|destruct (ba (pu p) _); cbn; auto].
      * change (nb (qp_of _ _ _ _ _ _ _ _)) with (bn (pxl p)). unfold qp_of. cbn [p_xl p_xu]. intros i Hi. destruct (FB i Hi) as [F1 F2].
        split; [destruct (ba (pxl p) _); cbn; auto|destruct (ba (pxu p) _); cbn; auto].
    + change (nc (qp_of _ _ _ _ _ _ _ _)) with (bn (pl p) + vn (pf p))%nat. change (nv (qp_of _ _ _ _ _ _ _ _)) with (mc (pA p)).
      unfold qp_of. cbn [p_bl p_bu p_C ma ba]. intros j Hj. rewrite DC3, DE3 in Hj. rewrite dot_def, DE3, DE1. unfold all_mult. cbn [va]. rewrite DX2, DX3.
      destruct (Nat.ltb_spec j (c_nEq c)).
      * assert (Hj' : (j < mr (pE p))%nat) by lia. specialize (FE j Hj'). unfold prod in FE. rewrite DE2 in FE. rewrite DA2.
        split; intros _; f_equal; symmetry; exact FE.
      * destruct (Nat.ltb_spec j (c_nEq c + c_nIneq c)); [|lia]. assert (Hj' : (j - c_nEq c < mr (pC p))%nat) by lia.
        destruct (IN _ Hj') as [F1 F2]. unfold prod in F1, F2. rewrite DC2 in F1, F2. rewrite DA2. auto.
    + change (nb (qp_of _ _ _ _ _ _ _ _)) with (bn (pxl p)). change (nc (qp_of _ _ _ _ _ _ _ _)) with (bn (pl p) + vn (pf p))%nat. unfold qp_of. cbn [p_xl p_xu]. intros i Hi.
      unfold all_mult. cbn [va]. rewrite DX2, DX3, DC3, DE3.
      destruct (Nat.ltb_spec (c_nIneq c + c_nEq c + i) (c_nEq c)); [lia|]. destruct (Nat.ltb_spec (c_nIneq c + c_nEq c + i) (c_nEq c + c_nIneq c)); [lia|].
      replace (c_nIneq c + c_nEq c + i - c_nEq c - c_nIneq c)%nat with i by lia. exact (BN i Hi).
Qed.

(** * The returned problem is well formed *)
Definition gord (c : characs) (g : gen) : Prop :=
  (forall i, (i < c_nIneq c)%nat -> match g_l g i with Some l => l < g_u g i | None => True end) /\
  (c_bounds c = true -> forall a, (a < c_nVar c)%nat -> g_xl g a <= g_xu g a).
Lemma ord_cstr c g i j : (i < c_nIneq c)%nat -> (j < c_nIneq c)%nat -> gord c g -> gord c (swap_cstr i j g).
Proof.
  intros Hi Hj [H1 H2]. split; [|exact H2]. intros k Hk. cbn [swap_cstr g_l g_u]. rewrite !swap_at. apply H1. apply tr_lt; auto.
Qed.
Lemma ord_var c g i j : (i < c_nVar c)%nat -> (j < c_nVar c)%nat -> gord c g -> gord c (swap_var i j g).
Proof.
  intros Hi Hj [H1 H2]. split; [exact H1|]. intros Hb a Ha. cbn [swap_var g_xl g_xu]. rewrite !swap_at. apply H2; auto. apply tr_lt; auto.
Qed.
Lemma ord_shuffle c sw js N : (forall i j g, (i < N)%nat -> (j < N)%nat -> gord c g -> gord c (sw i j g)) ->
  forall k g g', (k < N \/ k = 0)%nat -> gord c g -> shuffle sw js k g = Ok g' -> gord c g'.
Proof.
  intros HS. induction k as [|k IH]; intros g g' Hk HG; cbn [shuffle].
  - intros E. injection E as <-. auto.
  - destruct (Nat.leb_spec (js (S k)) (S k)) as [Hj|]; [|discriminate]. cbn [guard]. intros E.
    apply (IH (sw (S k) (js (S k)) g) g'); auto; [lia|]. apply HS; auto; lia.
Qed.
Lemma ord_five d c A Ca C red :
  (c_double c = true -> forall i, (i < c_nIneq c)%nat -> d_rl d i <> 0 /\ d_ru d i <> 0) ->
  (c_double c = true -> forall i, (c_nSI c <= i < c_nSI c + c_nWI c)%nat -> Rabs (d_ru d i) < Rabs (d_rl d i)) ->
  gord c (step_five d c A Ca C red).
Proof.
  intros Hnz Hdb. split; cbn [step_five g_l g_u g_xl g_xu].
  - intros i Hi. destruct (c_double c); auto. destruct (Hnz eq_refl i Hi) as [N1 N2]. apply Rabs_pos_lt in N1, N2. specialize (Hdb eq_refl i).
    destruct (Nat.ltb_spec i (c_nSI c)).
    + destruct (Rltb _ _); lra.
    + destruct (Nat.ltb_spec i (c_nSI c + c_nWI c)); [|lra]. destruct (Rltb_spec (Rabs (d_ru d i)) (Rabs (d_rl d i))); [lra|].
      exfalso. specialize (Hdb ltac:(lia)). lra.
  - intros _ a _. pose proof (Rabs_pos (d_r d a)). pose proof (Rabs_pos (d_bl d (a - c_nSB c - c_nWB c)%nat)). pose proof (Rabs_pos (d_bu d (a - c_nSB c - c_nWB c)%nat)).
    destruct (a <? c_nSB c)%nat; [destruct (Rltb _ _); lra|]. destruct (a <? c_nSB c + c_nWB c)%nat; [|lra]. destruct (Rltb_spec 0 (d_r d a)); lra.
Qed.
Lemma random_inv qr d c p : randomProblem qr d c = Ok p -> exists A Ca red C g1 g2, check c = true /\ step_one qr d c = Ok (A, Ca, red) /\
  rows_of_C d c (step_two_Ca c Ca red) (step_two_red c red) = Ok C /\
  shuffle swap_cstr (d_ji d) (c_nIneq c - 1) (step_five d c A (step_two_Ca c Ca red) C (step_two_red c red)) = Ok g1 /\
  (if c_bounds c then shuffle swap_var (d_jb d) (c_nVar c - 1) g1 else Ok g1) = Ok g2 /\
  let n := c_nVar c in let nbd := if c_bounds c then n else O in
  p = RLS (LS (SCs (FC (DM (c_nIneq c) n (g_C g2)) (BV (c_nIneq c) (g_l g2)) (BV (c_nIneq c) (fun i => Some (g_u g2 i)))
                        (BV nbd (fun i => Some (g_xl g2 i))) (BV nbd (fun i => Some (g_xu g2 i))) false)
                    (DM (c_nEq c) n (g_E g2)) (DV (c_nEq c) (g_f g2)))
               (DM (c_nObj c) n (g_A g2)) (DV (c_nObj c) (g_b g2)))
           (DV n (g_x g2)) (DV (c_nEq c) (g_le g2)) (DV (c_nIneq c) (g_li g2)) (DV nbd (g_lb g2)).
Proof.
  intros H. unfold randomProblem in H. apply guard_ok in H as [Hc H]. apply bind_ok in H as ([[A Ca] red] & H1 & H).
  apply bind_ok in H as (C & H2 & H). apply bind_ok in H as (g1 & H3 & H). apply bind_ok in H as (g2 & H4 & H). injection H as <-.
  exists A, Ca, red, C, g1, g2. auto 10.
Qed.
Theorem C40_well_formed : forall qr d c p, randomProblem qr d c = Ok p ->
  (c_double c = true -> forall i, (i < c_nIneq c)%nat -> d_rl d i <> 0 /\ d_ru d i <> 0) ->
  (c_double c = true -> forall i, (c_nSI c <= i < c_nSI c + c_nWI c)%nat -> Rabs (d_ru d i) < Rabs (d_rl d i)) ->
  sc_wellFormed (lsF (r_pb p)) = Ok true /\ exists q, qp_of_ls joint_of_sep (r_pb p) = Ok q.
Proof.
  intros qr d c p H Hnz Hdb. destruct (random_inv _ _ _ _ H) as (A & Ca & red & C & g1 & g2 & Hc & H1 & H2 & H3 & H4 & ->).
  pose proof (ord_five d c A (step_two_Ca c Ca red) C (step_two_red c red) Hnz Hdb) as O5.
  assert (O1 : gord c g1).
  { apply (ord_shuffle c swap_cstr (d_ji d) (c_nIneq c) (fun i j g Hi Hj HG => ord_cstr c g i j Hi Hj HG) (c_nIneq c - 1) _ g1 ltac:(lia) O5 H3). }
  assert (O2 : gord c g2).
  { destruct (c_bounds c) eqn:Eb; [|injection H4 as <-; auto].
    apply (ord_shuffle c swap_var (d_jb d) (c_nVar c) (fun i j g Hi Hj HG => ord_var c g i j Hi Hj HG) (c_nVar c - 1) g1 g2 ltac:(lia) O1 H4). }
  destruct O2 as [OL OB]. cbn [r_pb lsF].
  assert (W : sc_wellFormed (SCs (FC (DM (c_nIneq c) (c_nVar c) (g_C g2)) (BV (c_nIneq c) (g_l g2)) (BV (c_nIneq c) (fun i => Some (g_u g2 i)))
     (BV (if c_bounds c then c_nVar c else 0%nat) (fun i => Some (g_xl g2 i))) (BV (if c_bounds c then c_nVar c else 0%nat) (fun i => Some (g_xu g2 i))) false)
     (DM (c_nEq c) (c_nVar c) (g_E g2)) (DV (c_nEq c) (g_f g2))) = Ok true).
  { unfold sc_wellFormed. cbn [sbase sE sf]. rewrite fc_wf_intro; cbn [fC fl fu fxl fxu ft bn ba mr mc]; auto.
    - cbn [bind vn]. rewrite !Nat.eqb_refl. reflexivity.
    - unfold fdim. cbn. destruct (c_bounds c); auto.
    - intros i Hi. specialize (OL i Hi). destruct (g_l g2 i); auto. cbn [ble]. destruct (Rltb_spec r (g_u g2 i)); auto; lra.
    - intros a Ha. destruct (c_bounds c); [|lia]. specialize (OB eq_refl a Ha). cbn [ble]. apply Rleb_true. exact OB. }
  split; [exact W|]. unfold qp_of_ls, joint_of_sep. cbn [lsF lsA lsb]. rewrite W. cbn [bind guard vn mr]. rewrite Nat.eqb_refl. cbn [guard]. eexists. reflexivity.
Qed.

(** Everything together: what RandomProblemsTest.cpp checks on samples *)
Theorem C40_end_to_end : forall qr d c, check c = true -> good_draw qr d c ->
  (forall i, (d_ji d i <= i)%nat /\ (d_jb d i <= i)%nat) ->
  (c_strict c = true -> c_nEq c + c_nSI c + c_nSB c = 1)%nat ->
  (c_double c = true -> forall i, (i < c_nIneq c)%nat -> d_rl d i <> 0 /\ d_ru d i <> 0) ->
  (c_double c = true -> forall i, (c_nSI c <= i < c_nSI c + c_nWI c)%nat -> Rabs (d_ru d i) < Rabs (d_rl d i)) ->
  exists p q, randomProblem qr d c = Ok p /\ sc_wellFormed (lsF (r_pb p)) = Ok true /\ qp_of_ls joint_of_sep (r_pb p) = Ok q /\
  forall tp td, 0 <= tp -> 0 <= td ->
  testKKT (r_x p) (all_mult p) (qpG q) (qpa q) (fC (qpF q)) (fl (qpF q)) (fu (qpF q)) (fxl (qpF q)) (fxu (qpF q)) (ft (qpF q)) tp td = Ok true.
Proof.
  intros qr d c Hc Hg Hj Hst Hnz Hdb. destruct (C40_announced_solution qr d c Hc Hg Hj Hst Hdb) as (p & E & D & An).
  destruct (C40_well_formed qr d c p E Hnz Hdb) as (W & q & Q). exists p, q. split; auto. split; auto. split; auto. intros tp td Htp Htd.
  apply (C40_passes_testKKT c p q tp td); auto. destruct (random_inv _ _ _ _ E) as (? & ? & ? & ? & ? & ? & _ & _ & _ & _ & _ & ->). reflexivity.
Qed.

(** * Where the generator does not do what it says *)
(** (a) With more than [rows_total] missing ranks the program asserts *)
Theorem C40_too_few_rows_undefined : forall qr d c,
  (0 < c_nObj c)%nat -> (0 < c_nEq c + c_nSI c + c_nSB c)%nat ->
  (rows_total c < c_nVar c - (c_rankObj c + (c_nEq c + c_nSI c + c_nSB c) - c_shared c))%nat ->
  randomProblem qr d c = UB.
Proof.
  intros qr d c H1 H2 H3. unfold randomProblem. destruct (check c); auto. cbn [guard]. unfold step_one.
  destruct (Nat.eqb_spec (c_nObj c) 0); [lia|]. unfold nstrong, rows_total in *. destruct (Nat.eqb_spec (c_nEq c + c_nSI c + c_nSB c) 0); [lia|].
  destruct (Nat.ltb_spec (c_nVar c) (c_nObj c + (c_nEq c + c_nSI c + c_nSB c))); [lia|].
  destruct (dep_ok _ _ _ _ _ _); [|reflexivity]. cbn [guard].
  destruct (Nat.leb_spec (c_nVar c - rankB c) (c_nObj c + (c_nEq c + c_nSI c + c_nSB c))) as [Hb|]; [|reflexivity].
  exfalso. unfold rankB, nstrong in Hb. cbv zeta in Hb.
  destruct (Nat.eqb_spec (c_rankObj c + (c_nEq c + c_nSI c + c_nSB c) - c_shared c) (c_nVar c)); lia.
Qed.

(** (b) With at most as many rows as variables and independent rows, no
    non-zero multipliers exist, and the ones returned are not zero: the
    announced solution is not one *)
Theorem C40_independent_rows_wrong : forall qr d c p,
  (0 < c_nObj c)%nat -> (0 < c_nEq c + c_nSI c + c_nSB c)%nat -> (rows_total c <= c_nVar c)%nat ->
  is_cpqr (rows_total c) (c_nVar c) (drawn d c) (qr (rows_total c) (c_nVar c) (drawn d c)) ->
  (forall w : nat -> R, (forall a, (a < c_nVar c)%nat -> rsum (rows_total c) (fun i => drawn d c i a * w i) = 0) ->
     forall i, (i < rows_total c)%nat -> w i = 0) ->
  (exists k, (k < c_nVar c - (c_rankObj c + (c_nEq c + c_nSI c + c_nSB c) - c_shared c))%nat /\ d_v d k <> 0) ->
  randomProblem qr d c = Ok p -> ~ announced p.
Proof.
  intros qr d c p Hobj Hns Hle HF Hind (k & Hk & Hv) H [ST _ _ _].
  destruct (random_inv _ _ _ _ H) as (A & Ca & red & C & g1 & g2 & Hc & H1 & H2 & H3 & H4 & ->).
  unfold pA, pb_, pE, pC, pxl, prod in ST. cbn [r_pb r_x r_le r_li r_lb lsA lsb lsF sE sf sbase fC fl fu fxl fxu mr mc ma vn va bn ba] in ST.
  assert (S2 : gstat c g2).
  { intros a Ha. specialize (ST a Ha). destruct (c_bounds c).
    - destruct (Nat.ltb_spec a (c_nVar c)); [exact ST|lia].
    - exact ST. }
  assert (S1 : gstat c g1).
  { destruct (c_bounds c) eqn:Eb; [|injection H4 as <-; auto].
    apply (stat_shuffle c swap_var (d_jb d) (c_nVar c) (fun i j g Hi Hj HG => stat_var c g i j Eb Hi Hj HG) (c_nVar c - 1) g1 g2 ltac:(lia) H4 S2). }
  apply (stat_shuffle c swap_cstr (d_ji d) (c_nIneq c) (fun i j g Hi Hj HG => stat_cstr c g i j Hi Hj HG) (c_nIneq c - 1) _ g1 ltac:(lia) H3) in S1.
  apply stat_five in S1; auto.
  2:{ intros i j Hi. unfold rows_of_C in H2. apply guard_ok in H2 as [_ H2]. injection H2 as <-. destruct (Nat.ltb_spec i (c_nSI c)); [reflexivity|lia]. }
  apply step_two_null_inv in S1.
  assert (EM : drawn d c = tall d c) by (do 2 (apply functional_extensionality; intro); apply drawn_tall).
  destruct (tall_branch qr d c A Ca red Hobj Hns Hle H1) as (-> & -> & Hb & _).
  destruct (tall_nonzero qr d c (d_A d) (set_bounds c (d_Ca d)) red Hobj Hns Hle) as (i & Hi & Hr); auto.
  - rewrite <- EM. exact HF.
  - exists k. split; auto. unfold rankB, nstrong. cbv zeta.
    destruct (Nat.eqb_spec (c_rankObj c + (c_nEq c + c_nSI c + c_nSB c) - c_shared c) (c_nVar c)); lia.
  - apply Hr. apply Hind; auto. intros a Ha. rewrite EM. exact (stack_null_inv c (d_A d) (d_Ca d) red S1 a Ha).
Qed.

(** (c) strictlyFeasible needs exactly one strongly active constraint *)
Theorem C40_strict_needs_one : forall qr d c, c_strict c = true -> (c_nEq c + c_nSI c + c_nSB c <> 1)%nat -> randomProblem qr d c = UB.
Proof.
  intros qr d c Hs H. unfold randomProblem. destruct (check c); auto. cbn [guard]. destruct (step_one qr d c) as [[[A Ca] red]|]; auto. cbn [bind].
  unfold rows_of_C. rewrite Hs. cbn [negb orb]. unfold nstrong. destruct (Nat.eqb_spec (c_nEq c + c_nSI c + c_nSB c) 1); [lia|]. reflexivity.
Qed.
(** (d) A shared rank larger than the number of strongly active constraints
    passes the check of the characteristics and asserts *)
Theorem C40_shared_rank_undefined : forall qr d c, (0 < c_nObj c)%nat -> (0 < c_nEq c + c_nSI c + c_nSB c)%nat ->
  (c_nEq c + c_nSI c + c_nSB c < c_shared c)%nat -> randomProblem qr d c = UB.
Proof.
  intros qr d c H1 H2 H3. unfold randomProblem. destruct (check c) eqn:Hc; auto. cbn [guard]. unfold step_one.
  unfold check in Hc. repeat (apply andb_prop in Hc as [Hc ?]). repeat match goal with H : (_ <=? _)%nat = true |- _ => apply Nat.leb_le in H end.
  unfold nstrong. destruct (Nat.eqb_spec (c_nObj c) 0); [lia|]. destruct (Nat.eqb_spec (c_nEq c + c_nSI c + c_nSB c) 0); [lia|].
  assert (HU : forall rk, (rk < c_rankObj c)%nat -> dep_ok (c_nVar c) (c_nObj c) (c_rankObj c) (c_nEq c + c_nSI c + c_nSB c) (c_nEq c + c_nSI c + c_nSB c) rk = false).
  { intros rk Hrk. unfold dep_ok. destruct (Nat.leb_spec (c_rankObj c) rk); [lia|]. rewrite !andb_false_r. reflexivity. }
  destruct (c_nVar c <? _)%nat; rewrite HU; auto.
  - unfold rankA, nstrong. cbv zeta. destruct (Nat.ltb_spec (c_nVar c) (c_rankObj c + (c_nEq c + c_nSI c + c_nSB c) - c_shared c)); lia.
  - unfold rankB, nstrong. cbv zeta. destruct (Nat.eqb_spec (c_rankObj c + (c_nEq c + c_nSI c + c_nSB c) - c_shared c) (c_nVar c)); lia.
Qed.

(** (e) A weakly active double-sided inequality can be given a lower bound the
    announced point violates: the row and the upper bound are negated, not the
    lower bound *)
Definition flip_c : characs := Ch 1 0 1 1 0 0 0 1 0 0 false true false.
Definition flip_d : draws := Dr (fun _ _ => 0) (fun _ _ => 1) (fun _ => 0) (fun _ _ => 1) (fun _ _ => 0) (fun _ => 1) (fun _ => 1) (fun _ => 1)
  (fun _ => 0) (fun _ => 0) (fun _ => 0) (fun _ => 0) (fun i => i) (fun i => i).
Theorem C40_double_sided_wrong : forall qr, check flip_c = true /\ good_draw qr flip_d flip_c /\
  exists p, randomProblem qr flip_d flip_c = Ok p /\ ~ satisfies p (va (r_x p)).
Proof.
  intros qr. split; [reflexivity|]. split; [left; reflexivity|].
  unfold randomProblem. change (check flip_c) with true. cbn [guard]. change (step_one qr flip_d flip_c) with (Ok (d_A flip_d, d_Ca flip_d, (fun _ : nat => 0))).
  cbn [bind]. unfold rows_of_C. change (negb (c_strict flip_c) || (nstrong flip_c =? 1)%nat)%bool with true. cbn [guard bind].
  change (c_nIneq flip_c - 1)%nat with 0%nat. cbn [shuffle bind]. change (c_bounds flip_c) with false. cbv iota. cbn [bind].
  eexists. split; [reflexivity|]. intros (_ & HC & _).
  specialize (HC 0%nat). unfold pC, pl, pu, prod in HC. cbn [r_pb r_x lsF sbase fC fl fu mr mc ma ba va] in HC.
  change (c_nVar flip_c) with 1%nat in HC. change (c_nIneq flip_c) with 1%nat in HC. destruct (HC ltac:(lia)) as [HC1 _]. clear HC.
  unfold step_five in HC1. cbn [g_l g_C g_x] in HC1. change (c_double flip_c) with true in HC1. change (c_nSI flip_c) with 0%nat in HC1. change (c_nWI flip_c) with 1%nat in HC1.
  change (c_nVar flip_c) with 1%nat in HC1. change (c_strict flip_c) with false in HC1. change (nstrong flip_c) with 1%nat in HC1.
  cbn [Nat.ltb Nat.leb Nat.add Nat.sub andb] in HC1. change (d_rl flip_d 0%nat) with 1 in HC1. change (d_ru flip_d 0%nat) with 1 in HC1.
  destruct (Rltb_spec (Rabs 1) (Rabs 1)); [lra|]. cbn [negb] in HC1. specialize (HC1 _ eq_refl). rewrite !sum_S, !sum_0 in HC1.
  change (d_W flip_d 0%nat 0%nat) with 1 in HC1. change (d_x flip_d 0%nat) with 1 in HC1. unfold step_two_Ca in HC1. change (flip flip_c (fun _ => 0) 0) with false in HC1. cbv iota in HC1.
  change (d_Ca flip_d 0%nat 0%nat) with 1 in HC1. lra.
Qed.

(** * The hypotheses can be met *)
Definition ex_qr (rows cols : nat) (M : rmat) : cpqr := QRF (fun i j => if (i =? j)%nat then 1 else 0) M (fun j => j).
Definition mk_d (A Ca : rmat) : draws := Dr A Ca (fun _ => 1) (fun _ _ => 1) (fun _ _ => 0) (fun _ => 1) (fun _ => 2) (fun _ => 1)
  (fun _ => 0) (fun _ => 0) (fun _ => 0) (fun _ => 0) (fun i => i) (fun i => i).
Lemma ex_cpqr rows cols M : (forall i j, (i < rows)%nat -> (j < i)%nat -> M i j = 0) ->
  (forall i j, (i < rows)%nat -> (i <= j < cols)%nat -> rsum (rows - i) (fun k => M (i + k)%nat j * M (i + k)%nat j) <= M i i * M i i) ->
  is_cpqr rows cols M (ex_qr rows cols M).
Proof.
  intros HU HP. split; cbn [ex_qr f_Q f_R f_p]; auto.
  - intros i j Hi Hj. rewrite (sum_ext rows _ (fun k => if (k =? i)%nat then (if (i =? j)%nat then 1 else 0) else 0)); [rewrite sum_delta; auto|].
    intros k _. destruct (Nat.eqb_spec k i) as [->|]; [destruct (i =? j)%nat; ring|ring].
  - intros i j Hi Hj. rewrite (sum_ext rows _ (fun k => if (k =? i)%nat then M k j else 0)).
    + rewrite sum_delta; auto.
    + intros k _. rewrite Nat.eqb_sym. destruct (k =? i)%nat; ring.
  - split; auto. exists (fun j => j). auto.
Qed.
(** min |x - b|^2 in two variables with one equality: A = I, E = (1 0) *)
Definition good_c : characs := Ch 2 2 1 0 2 0 0 0 0 0 false false false.
Definition good_d : draws := mk_d (fun i j => if (i =? j)%nat then 1 else 0) (fun _ j => if (j =? 0)%nat then 1 else 0).
Example C40_nonvacuous : check good_c = true /\ good_draw ex_qr good_d good_c /\
  (forall i, (d_ji good_d i <= i)%nat /\ (d_jb good_d i <= i)%nat) /\ c_strict good_c = false /\ c_double good_c = false.
Proof.
  split; [reflexivity|]. split; [|split; [intros i; cbn; lia|split; reflexivity]].
  right. right. split; [cbn; lia|]. left. split; [cbn; lia|]. cbv zeta. change (c_nVar good_c) with 2%nat. change (rows_total good_c) with 3%nat.
  change (Nat.min _ 2) with 2%nat. split.
  - apply ex_cpqr.
    + intros [|[|i]] j Hi Hj; [lia| |lia]. destruct j; [reflexivity|lia].
    + intros [|[|i]] j Hi Hj; [| |lia]; cbn [Nat.sub]; rewrite !sum_S, !sum_0.
      * destruct j as [|[|[|j]]]; [..|lia]; cbn; lra.
      * destruct j as [|[|[|j]]]; [lia| | |lia]; cbn; lra.
  - split.
    + exists (fun i k => if (i =? k)%nat then 1 else 0), (fun i j => drawn good_d good_c j i). intros i j Hi Hj. rewrite !sum_S, sum_0.
      destruct i as [|[|i]]; [| |lia]; cbn [Nat.eqb]; ring.
    + exists (fun j k => if (j =? k)%nat then 1 else 0). intros t H [|[|k]] Hk; [| |lia].
      * specialize (H 0%nat ltac:(lia)). rewrite !sum_S, !sum_0 in H. cbn in H. lra.
      * specialize (H 1%nat ltac:(lia)). rewrite !sum_S, !sum_0 in H. cbn in H. lra.
Qed.
(** three variables, A = (1 0 0), E = (0 1 0): case (b) *)
Definition bad_c : characs := Ch 3 1 1 0 1 0 0 0 0 0 false false false.
Definition bad_d : draws := mk_d (fun _ j => if (j =? 0)%nat then 1 else 0) (fun _ j => if (j =? 1)%nat then 1 else 0).
Example C40_wrong_nonvacuous : check bad_c = true /\ exists p, randomProblem ex_qr bad_d bad_c = Ok p /\ ~ announced p.
Proof.
  split; [reflexivity|]. assert (E : exists p, randomProblem ex_qr bad_d bad_c = Ok p).
  { unfold randomProblem. change (check bad_c) with true. cbn [guard]. unfold step_one. cbn -[rsum rows_of_C step_five]. unfold rows_of_C. cbn -[rsum step_five]. eexists. reflexivity. }
  destruct E as [p E]. exists p. split; auto. apply (C40_independent_rows_wrong ex_qr bad_d bad_c p); auto; try (cbn; lia).
  - change (rows_total bad_c) with 2%nat. change (c_nVar bad_c) with 3%nat. apply ex_cpqr.
    + intros [|[|i]] j Hi Hj; [lia| |lia]. destruct j; [reflexivity|lia].
    + intros [|[|i]] j Hi Hj; [| |lia]; cbn [Nat.sub]; rewrite !sum_S, !sum_0.
      * destruct j as [|[|[|j]]]; [..|lia]; cbn; lra.
      * destruct j as [|[|[|j]]]; [lia| | |lia]; cbn; lra.
  - change (rows_total bad_c) with 2%nat. change (c_nVar bad_c) with 3%nat. intros w H [|[|i]] Hi; [| |lia].
    + specialize (H 0%nat ltac:(lia)). rewrite !sum_S, !sum_0 in H. cbn in H. lra.
    + specialize (H 1%nat ltac:(lia)). rewrite !sum_S, !sum_0 in H. cbn in H. lra.
  - exists 0%nat. split; [cbn; lia|]. cbn. lra.
Qed.

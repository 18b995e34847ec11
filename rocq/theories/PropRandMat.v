(** C53-C55: the random matrices (randomMatrices.h), for every value of the random
    numbers, and their use by the problem generator (C40).  Exact arithmetic. *)
From Coq Require Import List Arith ZArith Lia Bool Reals Lra FunctionalExtensionality.
From Verif Require Import Base Num LinAlg TestPb Random RandomProofs RandomRank RandomMain PropRandom Det RandMat RandMatProofs.
Local Open Scope R_scope.

(** * Specification *)
(** Q^T Q = Q Q^T = I *)
Definition orthogonal (n : nat) (Q : rmat) : Prop :=
  (forall a b, (a < n)%nat -> (b < n)%nat -> rsum n (fun k => Q k a * Q k b) = if (a =? b)%nat then 1 else 0) /\
  (forall a b, (a < n)%nat -> (b < n)%nat -> rsum n (fun k => Q a k * Q b k) = if (a =? b)%nat then 1 else 0).
(** the rank is at most r: M = X Y with r columns in X *)
Definition rank_at_most (rows cols : nat) (M : rmat) (r : nat) : Prop :=
  exists X Y : rmat, forall i j, (i < rows)%nat -> (j < cols)%nat -> M i j = rsum r (fun k => X i k * Y k j).
(** the numbers drawn by randn(rows, cols, r) are not exceptional: the singular
    values are not zero, or the matrix of normal numbers has full rank *)
Definition ordinary (rows cols r : nat) (d : ndraws) : Prop :=
  if (r =? Nat.min rows cols)%nat then has_rank rows cols (nd_M d) r else forall k, (k < r)%nat -> nd_s d k <> 0.

(** * C53: randOrtho *)
Theorem C53_orthogonal : forall size special d, orthogonal size (randOrtho size special d).
Proof. intros. apply randOrtho_ok. Qed.
Theorem C53_determinant : forall size special d,
  det size (randOrtho size special d) = 1 \/ (special = false /\ det size (randOrtho size special d) = -1).
Proof. intros. apply randOrtho_ok. Qed.
(** both signs are possible in every dimension, depending on the first number drawn only *)
Theorem C53_both_signs : forall size d, (0 < size)%nat ->
  det size (randOrtho size false (OD (negb (od_pos d)) (od_v d))) = - det size (randOrtho size false d).
Proof.
  intros size d Hs.
  assert (H : forall d1, det size (randOrtho size false d1) = if snd (ortho_loop size d1 (size - 1)
     (fun r c => if (r =? size - 1)%nat && (c =? size - 1)%nat then (if od_pos d1 then 1 else -1) else idm r c, od_pos d1)) then 1 else -1).
  { intros d1. unfold randOrtho. destruct (Nat.eqb_spec size 0); [lia|].
    pose proof (ortho_loop_ok size d1 _ (od_pos d1) Hs (oinv_init size d1 Hs) (size - 1) ltac:(lia)) as HI.
    destruct (ortho_loop size d1 (size - 1) _) as [Q pd]. cbn [fst snd] in *. destruct HI as [_ _ HD]. exact HD. }
  rewrite !H.
  assert (HF : forall k Q1 Q2 p1 p2 d1 d2, od_v d1 = od_v d2 -> xorb p1 p2 = true -> xorb (snd (ortho_loop size d1 k (Q1, p1))) (snd (ortho_loop size d2 k (Q2, p2))) = true).
  { induction k as [|k IH]; intros Q1 Q2 p1 p2 d1 d2 Hv Hp; [exact Hp|]. cbn [ortho_loop]. specialize (IH Q1 Q2 p1 p2 d1 d2 Hv Hp).
    destruct (ortho_loop size d1 k (Q1, p1)) as [R1 q1], (ortho_loop size d2 k (Q2, p2)) as [R2 q2]. cbn [fst snd] in IH |- *. unfold ortho_step. cbv zeta. cbn [snd].
    rewrite Hv. destruct (Rleb _ _); [destruct (_ =? 0)%nat|]; destruct q1, q2; cbn in *; congruence. }
  set (Q1 := fun r c => if _ && _ then (if od_pos (OD _ _) then _ else _) else _). set (Q2 := fun r c => if _ && _ then (if od_pos d then _ else _) else _).
  specialize (HF (size - 1)%nat Q1 Q2 (od_pos (OD (negb (od_pos d)) (od_v d))) (od_pos d) (OD (negb (od_pos d)) (od_v d)) d eq_refl).
  assert (Hx : xorb (od_pos (OD (negb (od_pos d)) (od_v d))) (od_pos d) = true) by (cbn; destruct (od_pos d); reflexivity).
  specialize (HF Hx). destruct (snd (ortho_loop size (OD _ _) _ _)), (snd (ortho_loop size d _ _)); cbn in HF; try discriminate; ring.
Qed.

(** * C54: randn *)
(** defined exactly when the assertion on the rank holds *)
Theorem C54_defined : forall rows cols rank d, (exists M, randn rows cols rank d = Ok M) <-> (rank <= Z.of_nat rows /\ rank <= Z.of_nat cols)%Z.
Proof.
  intros rows cols rank d. unfold randn. split.
  - intros (M & H). apply guard_ok in H as [H _]. apply andb_prop in H as [H1 H2]. lia.
  - intros [H1 H2]. rewrite (proj2 (Z.leb_le _ _) H1), (proj2 (Z.leb_le _ _) H2). cbn [andb guard]. destruct (_ =? 0)%nat; eauto. destruct (_ =? Nat.min _ _)%nat; eauto.
    destruct (rows <=? cols)%nat; eauto.
Qed.
(** a negative rank means full rank *)
Theorem C54_default : forall rows cols rank d, (rank < 0)%Z -> randn rows cols rank d = randn rows cols (Z.of_nat (Nat.min rows cols)) d.
Proof.
  intros rows cols rank d H. unfold randn. rewrite (proj2 (Z.leb_le rank (Z.of_nat rows))), (proj2 (Z.leb_le rank (Z.of_nat cols))) by lia.
  rewrite (proj2 (Z.leb_le (Z.of_nat (Nat.min rows cols)) (Z.of_nat rows))), (proj2 (Z.leb_le (Z.of_nat (Nat.min rows cols)) (Z.of_nat cols))) by lia.
  rewrite (proj2 (Z.ltb_lt rank 0) H). destruct (Z.ltb_spec (Z.of_nat (Nat.min rows cols)) 0); [lia|]. rewrite Nat2Z.id. reflexivity.
Qed.
Theorem C54_rank_at_most : forall rows cols r d M, randn rows cols (Z.of_nat r) d = Ok M -> rank_at_most rows cols M r.
Proof.
  intros rows cols r d M H. assert (Hd : (Z.of_nat r <= Z.of_nat rows /\ Z.of_nat r <= Z.of_nat cols)%Z) by (apply (C54_defined rows cols (Z.of_nat r) d); eauto).
  exact (proj1 (randn_ok rows cols r d M ltac:(lia) ltac:(lia) H)).
Qed.
Lemma randn_rank rows cols r d M : randn rows cols (Z.of_nat r) d = Ok M -> ordinary rows cols r d -> has_rank rows cols M r.
Proof.
  intros H Ho. assert (Hd : (Z.of_nat r <= Z.of_nat rows /\ Z.of_nat r <= Z.of_nat cols)%Z) by (apply (C54_defined rows cols (Z.of_nat r) d); eauto).
  destruct (Nat.eq_dec r 0) as [->|H0]; [apply (proj2 (randn_ok rows cols 0 d M ltac:(lia) ltac:(lia) H)); intros; lia|].
  unfold ordinary in Ho. destruct (Nat.eqb_spec r (Nat.min rows cols)) as [E|E].
  - unfold randn in H. apply guard_ok in H as [_ H]. destruct (Z.ltb_spec (Z.of_nat r) 0); [lia|]. rewrite Nat2Z.id in H.
    destruct (Nat.eqb_spec r 0); [lia|]. destruct (Nat.eqb_spec r (Nat.min rows cols)); [|lia]. injection H as <-. exact Ho.
  - apply (proj2 (randn_ok rows cols r d M ltac:(lia) ltac:(lia) H)); auto. lia.
Qed.
Theorem C54_rank_exact : forall rows cols r d M, randn rows cols (Z.of_nat r) d = Ok M -> ordinary rows cols r d -> has_rank rows cols M r.
Proof. exact randn_rank. Qed.

(** * C55: randDependent *)
Theorem C55_ranks : forall cols rowsA ra rowsB rb rab d A B, randDependent cols rowsA ra rowsB rb rab d = Ok (A, B) ->
  rank_at_most rowsA cols A ra /\ rank_at_most rowsB cols B rb /\
  rank_at_most (rowsA + rowsB) cols (fun i j => if (i <? rowsA)%nat then A i j else B (i - rowsA)%nat j) rab /\
  (ordinary (ra + rb) cols rab (pd_M d) -> has_rank (rowsA + rowsB) cols (fun i j => if (i <? rowsA)%nat then A i j else B (i - rowsA)%nat j) rab).
Proof.
  intros cols rowsA ra rowsB rb rab d A B H. destruct (randDependent_ok _ _ _ _ _ _ _ _ _ H) as (Hs & M & UA & UB & HM & IA & IB & EA & EB).
  split; [exists UA, M; exact EA|]. split; [exists UB, (fun k j => M (ra + k)%nat j); exact EB|].
  destruct (stack_rank cols rowsA rowsB ra rb rab UA UB M A B IA IB EA EB) as [S1 S2]. split.
  - apply S1. apply (C54_rank_at_most _ _ _ _ _ HM).
  - intros Ho. destruct (randn_rank _ _ _ _ _ HM Ho) as [R1 R2]. split; [apply S1; exact R1|apply S2; exact R2].
Qed.
Theorem C55_defined : forall cols rowsA ra rowsB rb rab d, (exists A B, randDependent cols rowsA ra rowsB rb rab d = Ok (A, B)) <->
  (ra <= rowsA /\ ra <= cols /\ rb <= rowsB /\ rb <= cols /\ ra <= rab /\ rb <= rab /\ rab <= ra + rb /\ rab <= cols)%nat.
Proof.
  intros. unfold randDependent. split.
  - intros (A & B & H). apply guard_ok in H as [Hg _]. repeat (apply andb_prop in Hg as [Hg ?]). repeat match goal with H : (_ <=? _)%nat = true |- _ => apply Nat.leb_le in H end. lia.
  - intros (H1 & H2 & H3 & H4 & H5 & H6 & H7 & H8). apply Nat.leb_le in H1 as ->, H2 as ->, H3 as ->, H4 as ->, H5 as ->, H6 as ->. rewrite (proj2 (Nat.leb_le _ _) H7), (proj2 (Nat.leb_le _ _) H8). cbn [andb guard].
    destruct (proj2 (C54_defined (ra + rb) cols (Z.of_nat rab) (pd_M d))) as (M & ->); [lia|]. cbn [bind]. eauto.
Qed.

(** * The problem generator fed by randDependent (lines 50 and 76 of randomProblems.cpp) *)
(** Without strongly active bounds, ordinary random numbers are good draws *)
Lemma good_draw_of_dependent qr d c pd : check c = true -> c_nSB c = 0%nat -> (c_nVar c <= rows_total c)%nat ->
  (0 < c_nObj c)%nat -> (0 < c_nEq c + c_nSI c)%nat ->
  let ns := (c_nEq c + c_nSI c)%nat in
  let rk := if (c_nVar c <? rows_total c)%nat then Nat.min (c_rankObj c + ns - c_shared c) (c_nVar c)
            else if (c_rankObj c + ns - c_shared c =? c_nVar c)%nat then (c_nVar c - 1)%nat else (c_rankObj c + ns - c_shared c)%nat in
  randDependent (c_nVar c) (c_nObj c) (c_rankObj c) ns ns rk pd = Ok (d_A d, d_Ca d) ->
  ordinary (c_rankObj c + ns) (c_nVar c) rk (pd_M pd) ->
  (forall rows cols M, is_cpqr rows cols M (qr rows cols M)) -> good_draw qr d c.
Proof.
  intros Hc HSB Hle Hobj Hns ns rk HD Ho Hqr.
  assert (Hd : exists A B, randDependent (c_nVar c) (c_nObj c) (c_rankObj c) ns ns rk pd = Ok (A, B)) by eauto. apply C55_defined in Hd.
  apply C55_ranks in HD as (_ & _ & _ & HR). specialize (HR Ho).
  set (S := fun i j => if (i <? c_nObj c)%nat then d_A d i j else d_Ca d (i - c_nObj c)%nat j) in HR.
  assert (ES : forall i j, (i < c_nObj c + ns)%nat -> S i j = drawn d c i j).
  { intros i j Hi. unfold S, drawn. destruct (Nat.ltb_spec i (c_nObj c)); auto. destruct (Nat.ltb_spec i (c_nObj c + (c_nEq c + c_nSI c))); auto. unfold ns in Hi. lia. }
  assert (Hm : rows_total c = (c_nObj c + ns)%nat) by (unfold rows_total, ns; lia).
  assert (Hsh : (c_shared c <= ns)%nat). { unfold check in Hc. repeat (apply andb_prop in Hc as [Hc ?]). repeat match goal with H : (_ <=? _)%nat = true |- _ => apply Nat.leb_le in H end.
    unfold rk in Hd. destruct (c_nVar c <? rows_total c)%nat; [lia|]. destruct (Nat.eqb_spec (c_rankObj c + ns - c_shared c) (c_nVar c)); lia. }
  right. right. rewrite HSB, Nat.add_0_r. fold ns. split; [exact Hsh|]. unfold rk in HR. rewrite Hm in *.
  destruct (Nat.ltb_spec (c_nVar c) (c_nObj c + ns)).
  - left. split; auto. cbv zeta. split; [apply Hqr|]. apply (has_rank_ext _ _ (fun i j => S j i)); [intros; apply ES; auto|]. apply has_rank_transpose. exact HR.
  - right. assert (En : (c_nObj c + ns)%nat = c_nVar c) by lia. split; auto. cbv zeta. split; [apply Hqr|]. apply (has_rank_ext _ _ S); [intros; apply ES; lia|].
    rewrite <- En at 1. exact HR.
Qed.
(** so the generator announces a true solution for all ordinary random numbers *)
Theorem C40_ordinary_draws : forall qr d c pd, check c = true -> c_nSB c = 0%nat -> (c_nVar c <= rows_total c)%nat ->
  (0 < c_nObj c)%nat -> (0 < c_nEq c + c_nSI c)%nat ->
  let ns := (c_nEq c + c_nSI c)%nat in
  let rk := if (c_nVar c <? rows_total c)%nat then Nat.min (c_rankObj c + ns - c_shared c) (c_nVar c)
            else if (c_rankObj c + ns - c_shared c =? c_nVar c)%nat then (c_nVar c - 1)%nat else (c_rankObj c + ns - c_shared c)%nat in
  randDependent (c_nVar c) (c_nObj c) (c_rankObj c) ns ns rk pd = Ok (d_A d, d_Ca d) ->
  ordinary (c_rankObj c + ns) (c_nVar c) rk (pd_M pd) ->
  (forall rows cols M, is_cpqr rows cols M (qr rows cols M)) ->
  (forall i, (d_ji d i <= i)%nat /\ (d_jb d i <= i)%nat) -> c_strict c = false -> (c_double c = true -> c_nWI c = 0%nat) ->
  exists p, randomProblem qr d c = Ok p /\ dims_as_asked c p /\ announced p.
Proof.
  intros qr d c pd Hc HSB Hle Hobj Hns ns rk HD Ho Hqr Hj Hst Hdb.
  apply C40_announced_solution; auto; [|congruence|intros H i Hi; specialize (Hdb H); lia].
  apply (good_draw_of_dependent qr d c pd); auto.
Qed.

(** * Examples *)
(** dimension 2, drawing the vector (-3,4): Q is a genuine rotation or reflection *)
Example C53_ex : randOrtho 2 false (OD true (fun _ k => if (k =? 0)%nat then -3 else 4)) 0 0 = -(3/5) /\
  randOrtho 2 false (OD true (fun _ k => if (k =? 0)%nat then -3 else 4)) 1 0 = 4/5.
Proof.
  unfold randOrtho. cbn [Nat.eqb Nat.sub ortho_loop od_pos]. unfold ortho_step. cbn [od_v]. cbv zeta.
  assert (N1 : normalize 2 (fun k => if (k =? 0)%nat then -3 else 4) = fun k => if (k =? 0)%nat then - (3/5) else 4/5).
  { apply functional_extensionality. intros k. unfold normalize. cbv zeta. rewrite !sum_S, sum_0. cbn [Nat.eqb].
    replace (0 + -3 * -3 + 4 * 4) with (5 * 5) by ring. destruct (Rltb_spec 0 (5 * 5)); [|lra]. rewrite sqrt_square by lra. destruct (k =? 0)%nat; field. }
  rewrite N1. cbn [Nat.eqb]. destruct (Rleb_spec 0 (- (3/5))); [lra|].
  match goal with |- context [normalize 2 ?f] => set (v1 := f) end.
  assert (N2 : forall k, normalize 2 v1 k = v1 k / sqrt (16/5)).
  { intros k. unfold normalize. cbv zeta. rewrite !sum_S, sum_0. unfold v1. cbn [Nat.eqb]. replace (0 + (- (3/5) - 1) * (- (3/5) - 1) + 4/5 * (4/5)) with (16/5) by field.
    destruct (Rltb_spec 0 (16/5)); [reflexivity|lra]. }
  cbn -[normalize rsum]. rewrite !sum_S, !sum_0, !N2. unfold v1. cbn -[sqrt].
  assert (Hs : sqrt (16/5) * sqrt (16/5) = 16/5) by (apply sqrt_sqrt; lra). assert (Hn : sqrt (16/5) <> 0) by (intros E; rewrite E in Hs; lra).
  assert (HI : / sqrt (16/5) * / sqrt (16/5) = 5/16) by (rewrite <- Rinv_mult, Hs; field).
  split; [transitivity (1 - 128/25 * (/ sqrt (16/5) * / sqrt (16/5)))|transitivity (64/25 * (/ sqrt (16/5) * / sqrt (16/5)))];
    first [rewrite HI; field|field; auto].
Qed.
(** ordinary draws exist: randn(2,2,1) with first singular value 1 *)
Example C54_nonvacuous : ordinary 2 2 1 (ND (fun _ _ => 0) (fun _ => 1) (OD true (fun _ _ => 1)) (OD true (fun _ _ => 1))).
Proof. unfold ordinary. cbn. intros; lra. Qed.

(** Facts on the structured Hessian, factor and QR (StructG.v), in exact arithmetic. *)
From Coq Require Import List Arith ZArith Lia Bool Reals Lra.
From Verif Require Import Base Num LinAlg Solver Util Block BlockElim BlockSpec BlockLLT BlockSolve BlockDense PropBlock Ortho OrthoProofs PropOrtho StructC PropStructC StructG.
Import ListNotations.
Local Open Scope R_scope.
Notation rstG := (structG Rops).
Notation rqrs := (qrs Rops).

(** the matrix a StructuredG stands for *)
Definition up_of (t : gtype) : bool := match t with BlockArrowUp => true | _ => false end.
Definition hessian_of (G : rstG) (H : rmat) : Prop :=
  g_n G = total (g_diag G) /\ symmetric (g_n G) H /\
  match g_type G with
  | TriBlockDiagonal => tri_ok (g_diag G) (g_off G) /\ tri_half (g_diag G) (g_off G) H
  | t => arrow_ok (up_of t) (g_diag G) (g_off G) /\ arrow_half (up_of t) (g_diag G) (g_off G) H
  end.

Lemma sum_one n k (f : nat -> R) : (k < n)%nat -> (forall i, (i < n)%nat -> i <> k -> f i = 0) -> rsum n f = f k.
Proof.
  intros Hk Hf. rewrite <- (sum_delta n k f Hk). apply sum_ext. intros i Hi. destruct (Nat.eqb_spec i k); [reflexivity|]. apply Hf; auto.
Qed.
(** ** From two triangular solves to the inverse of the factor *)
Section Factor.
Variables (n n0 : nat) (Lm H : rmat) (Lf Lt : rvec -> rvec).
Hypothesis Hn0 : (n0 <= n)%nat.
Hypothesis HI : inv_lower n Lm.
Hypothesis HC : is_cholesky n (fun i j => H (perm n n0 i) (perm n n0 j)) Lm.
Hypothesis HLf : forall v i, (i < n)%nat -> rsum n (fun k => Lm i k * Lf v k) = v (perm n n0 i).
Hypothesis HLt : forall v i, (i < n)%nat -> rsum n (fun k => Lm k i * Lt v (perm n n0 k)) = v i.
Definition Mi_of (i k : nat) : R := Lf (basis k) i.
Lemma low_unique (x y : rvec) : (forall i, (i < n)%nat -> rsum n (fun k => Lm i k * x k) = rsum n (fun k => Lm i k * y k)) -> forall i, (i < n)%nat -> x i = y i.
Proof.
  intros E i Hi. enough (x i - y i = 0) by lra. revert i Hi. destruct HI as [H1 H2].
  apply (lower_inj n Lm (fun i => x i - y i) H2). intros i Hi.
  rewrite (sum_ext n _ (fun k => Lm i k * x k - Lm i k * y k)).
  - rewrite sum_minus, E by auto. lra.
  - intros k Hk. replace (lower Lm i k) with (Lm i k); [rring|]. unfold lower. destruct (Nat.leb_spec k i); auto.
Qed.
Lemma Mi_sol v (x : rvec) : (forall i, (i < n)%nat -> rsum n (fun k => Lm i k * x k) = v (perm n n0 i)) -> forall i, (i < n)%nat -> x i = mvec n Mi_of v i.
Proof.
  intros Hx. apply low_unique. intros i Hi. rewrite Hx by auto. unfold mvec.
  rewrite (sum_ext n _ (fun k => rsum n (fun j => Lm i k * Mi_of k j * v j))).
  - rewrite sum_swap. rewrite (sum_ext n _ (fun j => (if (perm n n0 i =? j)%nat then 1 else 0) * v j)).
    + symmetry. rewrite (sum_one n (perm n n0 i)); [|apply perm_lt; auto|].
      * rewrite Nat.eqb_refl. lra.
      * intros j Hj Hne. rewrite (proj2 (Nat.eqb_neq _ _)) by auto. lra.
    + intros j Hj. rewrite sum_scal_r. f_equal. unfold Mi_of. rewrite HLf by auto. unfold basis. rewrite Nat.eqb_sym. reflexivity.
  - intros k Hk. rewrite <- sum_scal. apply sum_ext. intros j Hj. rring.
Qed.
Lemma Lf_Mi v i : (i < n)%nat -> Lf v i = mvec n Mi_of v i.
Proof. apply Mi_sol. intros. apply HLf; auto. Qed.
Lemma Lt_Mi v i : (i < n)%nat -> Lt v i = mvec n (mt Mi_of) v i.
Proof.
  intros Hi. unfold mvec, mt. symmetry.
  rewrite (sum_ext n _ (fun k => rsum n (fun t => Lf (basis i) k * (Lm t k * Lt v (perm n n0 t))))).
  - rewrite sum_swap. rewrite (sum_ext n _ (fun t => basis i (perm n n0 t) * Lt v (perm n n0 t))).
    + rewrite (rsum_perm n n0 (fun t => basis i t * Lt v t)) by auto. rewrite (sum_one n i); auto.
      * unfold basis. rewrite Nat.eqb_refl. lra.
      * intros j Hj Hne. unfold basis. rewrite (proj2 (Nat.eqb_neq _ _)) by auto. lra.
    + intros t Ht. rewrite <- (HLf (basis i) t) by auto. rewrite <- sum_scal_r. apply sum_ext. intros k Hk. rring.
  - intros k Hk. rewrite sum_scal. rewrite HLt by auto. reflexivity.
Qed.
Lemma H_Mi w a : (a < n)%nat -> mvec n H (mvec n (mt Mi_of) (mvec n Mi_of w)) a = w a.
Proof.
  intros Ha. set (y := Lf w). set (x := Lt y).
  rewrite (mvec_ext n H _ x).
  2: { intros j Hj. unfold x. rewrite Lt_Mi by auto. apply mvec_ext. intros k Hk. unfold y. rewrite Lf_Mi by auto. reflexivity. }
  destruct HC as [_ HA]. rewrite <- (perm_unperm n n0 a) by auto. set (b := unperm n n0 a).
  assert (Hb : (b < n)%nat) by (unfold b, unperm; destruct (Nat.ltb_spec a n0); lia).
  unfold mvec. rewrite <- (rsum_perm n n0) by auto. rewrite <- HLf by auto. fold y.
  rewrite (sum_ext n _ (fun k => rsum n (fun t => Lm b t * (Lm k t * x (perm n n0 k))))).
  - rewrite sum_swap. apply sum_ext. intros t Ht. rewrite sum_scal. f_equal. unfold x. apply HLt; auto.
  - intros k Hk. rewrite <- HA by auto. rewrite <- sum_scal_r. apply sum_ext. intros t Ht. rring.
Qed.
End Factor.

(** ** The factorised Hessian *)
(** dense content of a segment *)
Definition seg_vec (z : snz Rops) : rvec := fun i => if ((z_start z <=? i) && (i <? z_end z))%nat then z_v z (i - z_start z)%nat else 0.
Record solver_ok (isz : R -> bool) (n : nat) (G : rstG) (Mi : rmat) : Prop := {
  so_n : g_n G = n;
  so_dec : g_dec G = true;
  so_L : forall v, exists x, stg_solveL isz G n n v = Ok x /\ forall i, (i < n)%nat -> x i = mvec n Mi v i;
  so_nz : forall z out, z_size z = n -> (z_end z <= n)%nat -> exists x, stg_solveL_nz isz G n out z = Ok x /\ forall i, (i < n)%nat -> x i = mvec n Mi (seg_vec z) i;
  so_Lt : forall v, exists x, stg_solveLt G n v = Ok x /\ forall i, (i < n)%nat -> x i = mvec n (mt Mi) v i }.
Definition inverse_of (n : nat) (H Mi : rmat) : Prop := forall w a, (a < n)%nat -> mvec n H (mvec n (mt Mi) (mvec n Mi w)) a = w a.

Lemma of_col_at (X : rblk) i : of_col X i = bm X i 0%nat.
Proof. unfold of_col. rewrite vm_at. reflexivity. Qed.
Lemma seg_full z n out : z_size z = n -> (z_end z <= n)%nat -> exists v, toFullVector z n out = Ok v /\ forall i, (i < n)%nat -> v i = seg_vec z i.
Proof.
  intros Hz He. unfold toFullVector, guard. rewrite (proj2 (Nat.eqb_eq _ _)) by auto. eexists. split; [reflexivity|]. intros i Hi. rewrite vm_at. unfold seg_vec.
  destruct (Nat.ltb_spec i (z_start z)); [rewrite (proj2 (Nat.leb_gt _ _)) by auto; reflexivity|]. rewrite (proj2 (Nat.leb_le _ _)) by auto. cbn [andb].
  destruct (Nat.ltb_spec i (z_end z)); [reflexivity|]. rewrite (proj2 (Nat.ltb_lt _ _)) by lia. reflexivity.
Qed.

Lemma make_solver isz n n0 Lm H (G : rstG) : (n0 <= n)%nat -> inv_lower n Lm -> is_cholesky n (fun i j => H (perm n n0 i) (perm n n0 j)) Lm -> g_n G = n -> g_dec G = true ->
  (forall v, exists x, stg_solveL isz G n n v = Ok x /\ forall i, (i < n)%nat -> rsum n (fun k => Lm i k * x k) = v (perm n n0 i)) ->
  (forall z out, z_size z = n -> (z_end z <= n)%nat -> exists x, stg_solveL_nz isz G n out z = Ok x /\ forall i, (i < n)%nat -> rsum n (fun k => Lm i k * x k) = seg_vec z (perm n n0 i)) ->
  (forall v, exists x, stg_solveLt G n v = Ok x /\ forall i, (i < n)%nat -> rsum n (fun k => Lm k i * x (perm n n0 k)) = v i) ->
  exists Mi, solver_ok isz n G Mi /\ inverse_of n H Mi.
Proof.
  intros Hn0 HI HC Hn Hd H1 H2 H3.
  set (Lf := fun v => match stg_solveL isz G n n v with Ok x => x | UB => fun _ => 0 end).
  set (Lt := fun v => match stg_solveLt G n v with Ok x => x | UB => fun _ => 0 end).
  assert (HLf : forall v i, (i < n)%nat -> rsum n (fun k => Lm i k * Lf v k) = v (perm n n0 i)).
  { intros v. unfold Lf. destruct (H1 v) as (x & -> & Hx). exact Hx. }
  assert (HLt : forall v i, (i < n)%nat -> rsum n (fun k => Lm k i * Lt v (perm n n0 k)) = v i).
  { intros v. unfold Lt. destruct (H3 v) as (x & -> & Hx). exact Hx. }
  exists (Mi_of Lf). split; [split; auto|].
  - intros v. destruct (H1 v) as (x & E & Hx). exists x. split; [exact E|]. apply (Mi_sol n n0 Lm Lf); auto.
  - intros z out Hz He. destruct (H2 z out Hz He) as (x & E & Hx). exists x. split; [exact E|]. apply (Mi_sol n n0 Lm Lf); auto.
  - intros v. destruct (H3 v) as (x & E & Hx). exists x. split; [exact E|]. intros i Hi.
    rewrite <- (Lt_Mi n n0 Lm Lf Lt) by auto. unfold Lt. rewrite E. reflexivity.
  - intros w a Ha. apply (H_Mi n n0 Lm H Lf Lt); auto.
Qed.
Lemma zero_seg n (out : rvec) z v : z_size z = n -> (z_end z <= n)%nat -> (forall i, (i < n)%nat -> v i = seg_vec z i) ->
  zero_before (z_start z) (@col_of Rops n v) /\ zero_from (Some (z_end z)) (@col_of Rops n v).
Proof.
  intros Hz He Hv. clear out. split; [|split]; cbn [col_of brow bcol bm].
  - intros i j Hi Hi' Hj. cbn. rewrite Hv by auto. unfold seg_vec. rewrite (proj2 (Nat.leb_gt _ _)) by auto. reflexivity.
  - auto.
  - intros i j Hi Hi' Hj. rewrite Hv by auto. unfold seg_vec. rewrite (proj2 (Nat.ltb_ge i (z_end z))) by auto. rewrite andb_false_r. reflexivity.
Qed.
Lemma factorised_arrow isz up (diag off_ : list rblk) dec H : isz 0 = true -> symmetric (total diag) H -> arrow_ok up diag off_ -> arrow_half up diag off_ H -> posdef (total diag) H -> tip_fits up diag ->
  exists G' Mi, stg_llt (StG (if up then BlockArrowUp else BlockArrowDown) diag off_ (total diag) dec) = Ok (true, G') /\ solver_ok isz (total diag) G' Mi /\ inverse_of (total diag) H Mi.
Proof.
  intros Hz Hsym Hok HA HP Htip. unfold stg_llt. cbn [g_type g_diag g_off g_n].
  destruct (C21_arrow_cholesky up diag off_ H Hok HA Hsym) as (ok & dl & sl & E & Hok' & HF & _ & HC). destruct (HC HP) as [-> HL].
  assert (Ht : total dl = total diag). { clear - HF. induction HF as [|D D' l l' (H & _) _ IH]; cbn [total]; [reflexivity|]. lia. }
  assert (Htip' : tip_fits up dl).
  { intros Hup D' E' HD' HE'. assert (Hlen : length dl = length diag) by (clear - HF; induction HF; cbn; congruence).
    assert (Hnth : forall k D', nth_error dl k = Some D' -> exists D, nth_error diag k = Some D /\ brow D' = brow D).
    { clear - HF. induction HF as [|D D' l l' (H & _) _ IH]; intros [|k] D0 H0; try discriminate; cbn in H0; [injection H0 as <-; exists D; auto|]. exact (IH k D0 H0). }
    rewrite Hlen in HE'. destruct (Hnth _ _ HD') as (D0 & H1 & ->). destruct (Hnth _ _ HE') as (E0 & H2 & ->). apply (Htip Hup); auto. }
  assert (Htz : tip_size up dl = tip_size up diag). { destruct up; [|reflexivity]. inversion HF as [|? ? ? ? (H0 & _) _]; subst; cbn; auto. }
  destruct (lower_half_exists_arrow _ _ (ordered_ok up dl sl Hok')) as (Lm & HL1 & HL2). rewrite ordered_total, Ht in HL2. specialize (HL Lm HL1 HL2). pose proof (cholesky_inv _ _ _ HL2 HL) as HI.
  set (G' := StG (if up then BlockArrowUp else BlockArrowDown) dl sl (total diag) true).
  assert (HG : (do r <- match (if up then BlockArrowUp else BlockArrowDown) with TriBlockDiagonal => triBlockDiagLLT diag off_ | BlockArrowUp => blockArrowLLT diag off_ true | BlockArrowDown => blockArrowLLT diag off_ false end;
     (let '(done, dl, ol) := r in Ok (done, StG (if up then BlockArrowUp else BlockArrowDown) dl ol (total diag) done))) = Ok (true, G')) by (destruct up; rewrite E; reflexivity).
  rewrite HG. clear HG E HC.
  assert (HS1 : forall s e v, zero_before s (col_of (total diag) v) -> zero_from e (col_of (total diag) v) ->
    exists X, blockArrowLSolve isz dl sl up (col_of (total diag) v) s e = Ok X /\ forall i, (i < total diag)%nat -> rsum (total diag) (fun k => Lm i k * of_col X k) = v (perm (total diag) (tip_size up diag) i)).
  { intros s e v Z1 Z2. destruct (C21_arrow_solve isz up dl sl Lm (col_of (total diag) v) s e) as (X & EX & HX); auto; try (rewrite Ht; auto).
    exists X. split; [exact EX|]. intros i Hi. rewrite Ht, Htz in HX. destruct HX as (_ & _ & HX). rewrite (sum_ext _ _ (fun k => Lm i k * bm X k 0%nat)) by (intros k Hk; rewrite of_col_at; reflexivity).
    apply (HX i 0%nat); auto. }
  destruct (make_solver isz (total diag) (tip_size up diag) Lm H G') as (Mi & H1 & H2); auto; [apply tip_le| | | |exists G', Mi; auto].
  - intros v. destruct (HS1 0%nat None v) as (X & EX & HX); [intros i j Hi; lia|exact I|].
    exists (of_col X). unfold stg_solveL, G'. cbn [g_dec g_n g_type g_diag g_off guard]. rewrite Nat.eqb_refl. cbn [andb guard]. split; [destruct up; rewrite EX; reflexivity|exact HX].
  - intros z out Hz1 Hz2. destruct (seg_full z (total diag) out Hz1 Hz2) as (v & Ev & Hv). destruct (zero_seg _ out z v Hz1 Hz2 Hv) as [Z1 Z2].
    destruct (HS1 _ _ v Z1 Z2) as (X & EX & HX).
    exists (of_col X). unfold stg_solveL_nz, G'. cbn [g_dec g_n g_type g_diag g_off guard]. rewrite Hz1, Nat.eqb_refl. cbn [andb guard]. rewrite Ev. cbn [bind]. split; [destruct up; rewrite EX; reflexivity|].
    intros i Hi. rewrite HX by auto. apply Hv. apply perm_lt; auto. apply tip_le.
  - intros v. destruct (C21_arrow_transpose_solve up dl sl Lm (col_of (total diag) v) 0 None) as (X & EX & HX); auto; try (rewrite Ht; auto); [intros i j Hi; lia|exact I|].
    exists (of_col X). unfold stg_solveLt, G'. cbn [g_dec g_n g_type g_diag g_off guard]. rewrite Nat.eqb_refl. cbn [guard]. split; [destruct up; rewrite EX; reflexivity|].
    intros i Hi. rewrite Ht, Htz in HX. destruct HX as (HX1 & _ & HX). cbn [rows_perm brow col_of] in HX1. rewrite (sum_ext _ _ (fun k => Lm k i * bm (rows_perm (tip_size up diag) X) k 0%nat)).
    + apply (HX i 0%nat); auto.
    + intros k Hk. rewrite of_col_at. cbn [rows_perm bm]. rewrite HX1. reflexivity.
Qed.
Lemma same_upper_total diag dl : Forall2 same_upper diag dl -> total dl = total diag.
Proof. intros HF. induction HF as [|D D' l l' (H0 & _) _ IH]; cbn [total]; [reflexivity|]. rewrite H0, IH. reflexivity. Qed.
Lemma factorised isz (G : rstG) H : isz 0 = true -> hessian_of G H -> posdef (g_n G) H -> tip_fits (up_of (g_type G)) (g_diag G) ->
  exists G' Mi, stg_llt G = Ok (true, G') /\ solver_ok isz (g_n G) G' Mi /\ inverse_of (g_n G) H Mi.
Proof.
  intros Hz (Hn & Hsym & Ht) HP Htip. unfold stg_llt. destruct G as [t diag off_ n dec]. cbn [g_n g_type g_diag g_off g_dec] in *. subst n.
  destruct t.
  - destruct Ht as [Hok HA]. destruct (C19_tridiagonal_cholesky diag off_ H Hok HA Hsym) as (ok & dl & sl & E & Hok' & HF & _ & HC). destruct (HC HP) as [-> HL].
    pose proof (same_upper_total _ _ HF) as Ht. destruct (lower_half_exists_tri dl sl Hok') as (Lm & HL1 & HL2). rewrite Ht in HL2. specialize (HL Lm HL1 HL2).
    pose proof (cholesky_inv _ _ _ HL2 HL) as HI. rewrite E. cbn [bind]. set (G' := StG _ _ _ _ _).
    destruct (make_solver isz (total diag) 0 Lm H G') as (Mi & H1 & H2); auto; [lia| | | | |exists G', Mi; auto].
    + destruct HL as [HL3 HL4]. split; [exact HL3|]. intros i j Hi Hj. rewrite !perm_0 by auto. auto.
    + intros v. destruct (C20_tridiagonal_solve dl sl Lm (col_of (total diag) v) 0) as (X & EX & HX); auto; try (rewrite Ht; auto); [intros i j Hi; lia|].
      exists (of_col X). unfold stg_solveL, G'. cbn [g_dec g_n g_type g_diag g_off guard]. rewrite Nat.eqb_refl. cbn [andb guard]. rewrite EX. split; [reflexivity|].
      intros i Hi. rewrite perm_0 by auto. rewrite Ht in HX. destruct HX as (_ & _ & HX). rewrite (sum_ext _ _ (fun k => Lm i k * bm X k 0%nat)) by (intros k Hk; rewrite of_col_at; reflexivity).
      apply (HX i 0%nat); auto.
    + intros z out Hz1 Hz2. destruct (seg_full z (total diag) out Hz1 Hz2) as (v & Ev & Hv). destruct (zero_seg _ out z v Hz1 Hz2 Hv) as [Z1 Z2].
      destruct (C20_tridiagonal_solve dl sl Lm (col_of (total diag) v) (z_start z)) as (X & EX & HX); auto; try (rewrite Ht; auto).
      exists (of_col X). unfold stg_solveL_nz, G'. cbn [g_dec g_n g_type g_diag g_off guard]. rewrite Hz1, Nat.eqb_refl. cbn [andb guard]. rewrite Ev. cbn [bind]. rewrite EX. split; [reflexivity|].
      intros i Hi. rewrite perm_0 by auto. rewrite Ht in HX. destruct HX as (_ & _ & HX). rewrite (sum_ext _ _ (fun k => Lm i k * bm X k 0%nat)) by (intros k Hk; rewrite of_col_at; reflexivity).
      rewrite <- Hv by auto. apply (HX i 0%nat); auto.
    + intros v. destruct (C20_tridiagonal_transpose_solve dl sl Lm (col_of (total diag) v) None) as (X & EX & HX); auto; try (rewrite Ht; auto); [exact I|].
      exists (of_col X). unfold stg_solveLt, G'. cbn [g_dec g_n g_type g_diag g_off guard]. rewrite Nat.eqb_refl. cbn [guard]. rewrite EX. split; [reflexivity|].
      intros i Hi. rewrite Ht in HX. destruct HX as (_ & _ & HX). rewrite (sum_ext _ _ (fun k => Lm k i * bm X k 0%nat)) by (intros k Hk; rewrite perm_0 by auto; rewrite of_col_at; reflexivity).
      apply (HX i 0%nat); auto.
  - apply (factorised_arrow isz true diag off_ dec); auto; apply Ht.
  - apply (factorised_arrow isz false diag off_ dec); auto; apply Ht.
Qed.

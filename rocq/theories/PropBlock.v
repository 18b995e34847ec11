(** C19-C22: block Cholesky factorisations and triangular solves
    (triBlockDiagLLT.cpp, blockArrowLLT.cpp), in exact arithmetic. *)
From Coq Require Import List Arith ZArith Lia Bool Reals Lra.
From Verif Require Import Base Num LinAlg Block BlockElim BlockSpec BlockLLT BlockSolve BlockDense.
Import ListNotations.
Local Open Scope R_scope.

(** ** Statements in terms of dense matrices *)
(** [Lm Lm^T = A], with positive diagonal *)
Definition is_cholesky (n : nat) (A Lm : rmat) : Prop :=
  (forall i, (i < n)%nat -> 0 < Lm i i) /\ (forall i j, (i < n)%nat -> (j < n)%nat -> rsum n (fun t => Lm i t * Lm j t) = A i j).
Definition inv_lower (n : nat) (Lm : rmat) : Prop := lower_triangular n Lm /\ forall i, (i < n)%nat -> Lm i i <> 0.
(** [A X = V] and [A^T X = V] *)
Definition solves (n : nat) (A : rmat) (X V : rblk) : Prop :=
  brow X = brow V /\ bcol X = bcol V /\ forall i j, (i < n)%nat -> (j < bcol V)%nat -> rsum n (fun k => A i k * bm X k j) = bm V i j.
Definition solves_t (n : nat) (A : rmat) (X V : rblk) : Prop := solves n (fun i k => A k i) X V.
(** the rows of [V] before [start] and from [end_] on are zero *)
Definition zero_before (start : nat) (V : rblk) : Prop := forall i j, (i < start)%nat -> (i < brow V)%nat -> (j < bcol V)%nat -> bm V i j = 0.
Definition zero_from (end_ : option nat) (V : rblk) : Prop :=
  match end_ with None => True | Some e => (e <= brow V)%nat /\ forall i j, (e <= i)%nat -> (i < brow V)%nat -> (j < bcol V)%nat -> bm V i j = 0 end.
(** rows permuted by P resp. P^T *)
Definition rows_perm (n0 : nat) (V : rblk) : rblk := Bk (brow V) (bcol V) (fun i j => bm V (perm (brow V) n0 i) j).

(** ** From halves to dense *)
Lemma low_gsym n (A M : rmat) : symmetric n A -> (forall i j, (i < n)%nat -> (j <= i)%nat -> A i j = M i j) -> forall i j, (i < n)%nat -> (j < n)%nat -> gsym M i j = A i j.
Proof.
  intros Hs H i j Hi Hj. unfold gsym. destruct (Nat.leb_spec j i); [symmetry; apply H; auto|]. rewrite (Hs i j) by auto. symmetry. apply H; auto. lia.
Qed.
Lemma low_lower n (A M : rmat) : lower_triangular n A -> (forall i j, (i < n)%nat -> (j <= i)%nat -> A i j = M i j) -> forall i j, (i < n)%nat -> (j < n)%nat -> lower M i j = A i j.
Proof.
  intros Hs H i j Hi Hj. unfold lower. destruct (Nat.leb_spec j i); [symmetry; apply H; auto|]. symmetry. apply Hs; auto.
Qed.
Lemma cholesky_dense n (A M Lm Lx : rmat) : (forall i j, (i < n)%nat -> (j < n)%nat -> gsym M i j = A i j) -> (forall i j, (i < n)%nat -> (j < n)%nat -> lower Lx i j = Lm i j) ->
  cholesky_factor n M Lx -> is_cholesky n A Lm.
Proof.
  intros H1 H2 [H3 H4]. split.
  - intros i Hi. rewrite <- H2 by auto. unfold lower. rewrite Nat.leb_refl. auto.
  - intros i j Hi Hj. rewrite <- H1 by auto. rewrite <- H4 by auto. apply sum_ext. intros t Ht. rewrite !H2 by auto. reflexivity.
Qed.
Lemma solves_unique n (Lm : rmat) X Y V : inv_lower n Lm -> solves n Lm X V -> solves n Lm Y V -> forall i j, (i < n)%nat -> (j < bcol V)%nat -> bm X i j = bm Y i j.
Proof.
  intros [H1 H2] (_ & _ & HX) (_ & _ & HY) i j Hi Hj. enough (H : bm X i j - bm Y i j = 0) by lra. revert i Hi.
  apply (lower_inj n Lm (fun i => bm X i j - bm Y i j) H2). intros i Hi.
  rewrite (sum_ext n _ (fun k => Lm i k * bm X k j - Lm i k * bm Y k j)).
  - rewrite sum_minus. rewrite HX, HY by auto. lra.
  - intros k Hk. replace (lower Lm i k) with (Lm i k); [rring|]. unfold lower. destruct (Nat.leb_spec k i); auto.
Qed.
Lemma solves_t_unique n (Lm : rmat) X Y V : inv_lower n Lm -> solves_t n Lm X V -> solves_t n Lm Y V -> forall i j, (i < n)%nat -> (j < bcol V)%nat -> bm X i j = bm Y i j.
Proof.
  intros [H1 H2] (_ & _ & HX) (_ & _ & HY) i j Hi Hj. enough (H : bm X i j - bm Y i j = 0) by lra. revert i Hi.
  apply (upper_inj n (fun i k => Lm k i) (fun i => bm X i j - bm Y i j) H2). intros i Hi.
  rewrite (sum_ext n _ (fun k => Lm k i * bm X k j - Lm k i * bm Y k j)).
  - rewrite sum_minus. rewrite HX, HY by auto. lra.
  - intros k Hk. replace (upper (fun i k => Lm k i) i k) with (Lm k i); [rring|]. unfold upper. destruct (Nat.leb_spec i k); auto.
Qed.
(** solving with L then L^T solves with A = L L^T *)
Lemma solves_twice n (A Lm : rmat) (X Y V : rblk) : is_cholesky n A Lm -> solves n Lm Y V -> solves_t n Lm X Y -> solves n A X V.
Proof.
  intros [_ HA] (HY1 & HY2 & HY) (HX1 & HX2 & HX). split; [congruence|]. split; [congruence|]. intros i j Hi Hj.
  rewrite (sum_ext n _ (fun k => rsum n (fun t => Lm i t * (Lm k t * bm X k j)))).
  - rewrite sum_swap. rewrite <- HY by auto. apply sum_ext. intros t Ht. rewrite sum_scal. f_equal. rewrite <- (HX t j Ht) by (rewrite HY2; auto). reflexivity.
  - intros k Hk. rewrite <- HA by auto. rewrite <- sum_scal_r. apply sum_ext. intros t Ht. rring.
Qed.

(** ** C19, C22: block tridiagonal *)
Lemma tri_dense_facts diag sub A : tri_ok diag sub -> tri_half diag sub A -> exists D ds, diag = D :: ds /\ tri_sizes D ds sub /\
  forall i j, (i < total diag)%nat -> (j <= i)%nat -> A i j = tri_low D ds sub i j.
Proof.
  intros Hok HA. destruct diag as [|D ds]; [destruct Hok as [H _]; cbn in H; lia|]. exists D, ds. split; [reflexivity|].
  apply tri_ok_sizes in Hok. split; [exact Hok|]. apply (tri_half_low sub D ds A Hok HA).
Qed.
Lemma triLLT_loop (D : rblk) ds sub : tri_sizes D ds sub -> triBlockDiagLLT (D :: ds) sub = tri_llt_loop D ds sub.
Proof.
  intros H. unfold triBlockDiagLLT, guard. apply tri_ok_sizes in H. destruct H as [H _]. rewrite (proj2 (Nat.eqb_eq _ _) H). reflexivity.
Qed.
Theorem C19_tridiagonal_cholesky (diag sub : list rblk) (A : rmat) :
  tri_ok diag sub -> tri_half diag sub A -> symmetric (total diag) A ->
  exists ok dl sl, triBlockDiagLLT diag sub = Ok (ok, dl, sl) /\ tri_ok dl sl /\ Forall2 same_upper diag dl /\ map (fun B => (brow B, bcol B)) sl = map (fun B => (brow B, bcol B)) sub /\
    (posdef (total diag) A -> ok = true /\ forall Lm, tri_half dl sl Lm -> lower_triangular (total diag) Lm -> is_cholesky (total diag) A Lm).
Proof.
  intros Hok HA Hsym. destruct (tri_dense_facts _ _ _ Hok HA) as (D & ds & -> & Hs & Hlow). rewrite (triLLT_loop _ _ _ Hs).
  destruct (tri_llt_loop_correct sub D ds Hs) as (ok & D' & dl & bl & E & HD & Hdl & Hs' & HF & Hsz & Hiff & Hch). exists ok, (D' :: dl), bl.
  split; [exact E|]. split; [apply tri_ok_sizes; exact Hs'|]. split; [exact HF|]. split; [exact Hsz|]. intros HP.
  pose proof (low_gsym _ _ _ Hsym Hlow) as HG. cbn [total] in *.
  assert (HP' : posdef (brow D + total ds) (gsym (tri_low D ds sub))). { apply (posdef_ext _ A); auto. intros. symmetry. apply HG; auto. }
  split; [apply (proj2 Hiff HP')|]. intros Lm HL Htri.
  apply (cholesky_dense _ _ _ _ (tri_low D' dl bl) HG); [|apply Hch; exact HP']. apply low_lower; [exact Htri|].
  rewrite <- HD, <- Hdl. apply tri_half_low; auto.
Qed.
Theorem C22_tridiagonal_status (diag sub : list rblk) (A : rmat) :
  tri_ok diag sub -> tri_half diag sub A -> symmetric (total diag) A ->
  exists ok dl sl, triBlockDiagLLT diag sub = Ok (ok, dl, sl) /\
    (ok = false -> ~ posdef (total diag) A) /\ (ok = true /\ Forall head_pos dl <-> posdef (total diag) A).
Proof.
  intros Hok HA Hsym. destruct (tri_dense_facts _ _ _ Hok HA) as (D & ds & -> & Hs & Hlow). rewrite (triLLT_loop _ _ _ Hs).
  destruct (tri_llt_loop_correct sub D ds Hs) as (ok & D' & dl & bl & E & HD & Hdl & Hs' & HF & Hsz & Hiff & Hch). exists ok, (D' :: dl), bl.
  split; [exact E|]. pose proof (low_gsym _ _ _ Hsym Hlow) as HG. cbn [total] in *.
  assert (HQ : posdef (brow D + total ds) A <-> posdef (brow D + total ds) (gsym (tri_low D ds sub))).
  { split; apply posdef_ext; intros; [symmetry|]; apply HG; auto. }
  rewrite HQ, <- Hiff. split; [|tauto]. intros -> [H _]. discriminate.
Qed.

(** ** C20 *)
Lemma forall_col (P : nat -> nat -> Prop) c : (forall i (j : col c), P i j) -> forall i j, (j < c)%nat -> P i j.
Proof. intros H i j Hj. exact (H i (mkcol Hj)). Qed.
Theorem C20_tridiagonal_solve (diag sub : list rblk) (Lm : rmat) (V : rblk) (start : nat) :
  tri_ok diag sub -> tri_half diag sub Lm -> inv_lower (total diag) Lm -> brow V = total diag -> zero_before start V ->
  exists X, triBlockDiagLSolve diag sub V start = Ok X /\ solves (total diag) Lm X V.
Proof.
  intros Hok HL [Htri Hd] HV Hz. destruct (tri_dense_facts _ _ _ Hok HL) as (D & ds & -> & Hs & Hlow). cbn [total] in *.
  unfold triBlockDiagLSolve, guard. rewrite (proj2 (Nat.eqb_eq _ _) (proj1 Hok)).
  destruct (tri_lsolve_loop_correct (bcol V) start sub D ds None 0 0 0 true V Hs) as (X & E & _ & HX).
  - intros i Hi. rewrite <- Hlow by auto. auto.
  - auto.
  - discriminate.
  - intros _. split; [lia|]. intros i j Hi Hi'. apply Hz; auto. apply col_lt.
  - exists (Bk (brow V) (bcol V) X). split; [exact E|]. split; [reflexivity|]. split; [reflexivity|]. intros i j Hi Hj. cbn [bm].
    specialize (HX i (mkcol Hj) Hi). cbn [contrib mkcol col_nat Nat.add] in HX. rewrite Rminus_0_r in HX. rewrite <- HX. apply sum_ext. intros k Hk.
    rewrite (low_lower _ _ _ Htri Hlow) by auto. reflexivity.
Qed.
Theorem C20_tridiagonal_transpose_solve (diag sub : list rblk) (Lm : rmat) (V : rblk) (end_ : option nat) :
  tri_ok diag sub -> tri_half diag sub Lm -> inv_lower (total diag) Lm -> brow V = total diag -> zero_from end_ V ->
  exists X, triBlockDiagLTransposeSolve diag sub V end_ = Ok X /\ solves_t (total diag) Lm X V.
Proof.
  intros Hok HL [Htri Hd] HV Hz. destruct (tri_dense_facts _ _ _ Hok HL) as (D & ds & -> & Hs & Hlow). cbn [total] in *.
  unfold triBlockDiagLTransposeSolve. set (e := match end_ with Some e => e | None => brow V end).
  assert (He : (e <= brow V)%nat /\ forall i (j : col (bcol V)), (e <= i)%nat -> (i < brow V)%nat -> bm V i j = 0).
  { unfold e. destruct end_ as [e0|]; cbn in Hz; [split; [apply Hz|intros i j H1 H2; apply Hz; auto; apply col_lt]|split; [auto|intros; lia]]. }
  destruct He as [He1 He2]. destruct (tri_q_rev sub D ds Hs) as [Q1 Q2]. rewrite Q1, Q2, tri_ltloop_steps.
  destruct (tri_ltsolve_correct (bcol V) e sub D ds 0 V Hs) as (X & z & E & _ & _ & _ & HX); auto.
  - intros i Hi. rewrite <- Hlow by auto. auto.
  - cbn [Nat.add] in *. destruct (tri_ltstep e (last (D :: ds) D) None (LT (brow V) 0 0 true V)) as [st|]; [|discriminate]. cbn [bind] in E |- *. rewrite E. cbn [bind t_n t_M guard Nat.eqb].
    exists (Bk (brow V) (bcol V) X). split; [reflexivity|]. split; [reflexivity|]. split; [reflexivity|]. intros i j Hi Hj. cbn [bm].
    specialize (HX i (mkcol Hj) Hi). cbn [mkcol col_nat] in HX. rewrite <- HX. apply sum_ext. intros k Hk. rewrite (low_lower _ _ _ Htri Hlow) by auto. reflexivity.
Qed.
(** the hints only save work *)
Theorem C20_hints_irrelevant (diag sub : list rblk) (Lm : rmat) (V : rblk) (start : nat) (end_ : option nat) :
  tri_ok diag sub -> tri_half diag sub Lm -> inv_lower (total diag) Lm -> brow V = total diag -> zero_before start V -> zero_from end_ V ->
  (exists X Y, triBlockDiagLSolve diag sub V start = Ok X /\ triBlockDiagLSolve diag sub V 0 = Ok Y /\ forall i j, (i < brow V)%nat -> (j < bcol V)%nat -> bm X i j = bm Y i j) /\
  (exists X Y, triBlockDiagLTransposeSolve diag sub V end_ = Ok X /\ triBlockDiagLTransposeSolve diag sub V None = Ok Y /\ forall i j, (i < brow V)%nat -> (j < bcol V)%nat -> bm X i j = bm Y i j).
Proof.
  intros Hok HL Hi HV Hz1 Hz2. split.
  - destruct (C20_tridiagonal_solve diag sub Lm V start) as (X & EX & HX); auto. destruct (C20_tridiagonal_solve diag sub Lm V 0) as (Y & EY & HY); auto; [intros i j H; lia|].
    exists X, Y. split; [exact EX|]. split; [exact EY|]. rewrite HV. apply (solves_unique _ Lm _ _ V); auto.
  - destruct (C20_tridiagonal_transpose_solve diag sub Lm V end_) as (X & EX & HX); auto. destruct (C20_tridiagonal_transpose_solve diag sub Lm V None) as (Y & EY & HY); auto; [exact I|].
    exists X, Y. split; [exact EX|]. split; [exact EY|]. rewrite HV. apply (solves_t_unique _ Lm _ _ V); auto.
Qed.
Lemma cholesky_inv n A Lm : lower_triangular n Lm -> is_cholesky n A Lm -> inv_lower n Lm.
Proof. intros H [H1 _]. split; [auto|]. intros i Hi. specialize (H1 i Hi). lra. Qed.
Lemma lower_half_exists_tri diag sub : tri_ok diag sub -> exists Lm, tri_half diag sub Lm /\ lower_triangular (total diag) Lm.
Proof.
  intros Hok. destruct diag as [|D ds]; [destruct Hok as [H _]; cbn in H; lia|]. apply tri_ok_sizes in Hok. pose proof (tri_low_half sub D ds Hok) as (H1 & H2 & H3).
  exists (lower (tri_low D ds sub)). split; [|intros i j Hi Hj; unfold lower; rewrite (proj2 (Nat.leb_gt _ _)) by auto; reflexivity].
  assert (Hoff : forall k E, nth_error (D :: ds) k = Some E -> forall k' E', nth_error (D :: ds) k' = Some E' -> (k' < k)%nat -> (off (D :: ds) k' + brow E' <= off (D :: ds) k)%nat).
  { clear. generalize (D :: ds). induction l as [|D' l IH]; intros [|k] E HE [|k'] E' HE' Hk; try discriminate; try lia; cbn in HE, HE'.
    - injection HE' as ->. rewrite off_S. cbn. lia.
    - rewrite !off_S. specialize (IH k E HE k' E' HE'). lia. }
  split; [|split].
  - intros k E i j HE Hi Hj. unfold lower. rewrite (proj2 (Nat.leb_le _ _)) by lia. apply H1; auto.
  - intros k B i j HB Hi Hj. unfold lower. pose proof (nth_lt _ _ _ HB) as Hk. apply tri_ok_sizes in Hok. destruct Hok as (Hl & _ & Hsz).
    destruct (nth_error (D :: ds) k) as [E|] eqn:HE; [|apply nth_error_None in HE; lia]. destruct (nth_error (D :: ds) (k + 1)) as [E1|] eqn:HE1; [|apply nth_error_None in HE1; lia].
    destruct (Hsz k B E E1 HB HE HE1). specialize (Hoff _ _ HE1 _ _ HE ltac:(lia)). rewrite (proj2 (Nat.leb_le _ _)) by lia. apply (H2 k B); auto.
  - intros k k' E E' i j HE HE' Hk Hi Hj. unfold lower. destruct (_ <=? _)%nat; auto. apply (H3 k k' E E'); auto.
Qed.
(** factorising a positive definite matrix, then the two solves, solves A X = V *)
Theorem C20_tridiagonal_system (diag sub : list rblk) (A : rmat) (V : rblk) (start : nat) :
  tri_ok diag sub -> tri_half diag sub A -> symmetric (total diag) A -> posdef (total diag) A -> brow V = total diag -> zero_before start V ->
  exists dl sl Y X, triBlockDiagLLT diag sub = Ok (true, dl, sl) /\ triBlockDiagLSolve dl sl V start = Ok Y /\ triBlockDiagLTransposeSolve dl sl Y None = Ok X /\ solves (total diag) A X V.
Proof.
  intros Hok HA Hsym HP HV Hz. destruct (C19_tridiagonal_cholesky diag sub A Hok HA Hsym) as (ok & dl & sl & E & Hok' & HF & Hsz & HC). destruct (HC HP) as [-> HL].
  assert (Ht : total dl = total diag). { clear - HF. induction HF as [|D D' l l' (H & _) _ IH]; cbn [total]; [reflexivity|]. lia. }
  destruct (lower_half_exists_tri dl sl Hok') as (Lm & HL1 & HL2). rewrite Ht in HL2. specialize (HL Lm HL1 HL2). pose proof (cholesky_inv _ _ _ HL2 HL) as HI.
  destruct (C20_tridiagonal_solve dl sl Lm V start) as (Y & EY & HY); auto; try (rewrite Ht; auto).
  destruct (C20_tridiagonal_transpose_solve dl sl Lm Y None) as (X & EX & HX); auto; try (rewrite Ht; auto); [destruct HY; congruence|exact I|].
  exists dl, sl, Y, X. split; [exact E|]. split; [exact EY|]. split; [exact EX|]. rewrite Ht in *. apply (solves_twice _ _ Lm _ Y); auto.
Qed.

(** ** C21, C22: arrow matrices.  For an arrow pointing up everything is stated
    for the permuted matrix P^T A P, in which the first block is moved to the end. *)
Definition tip_size (up : bool) (diag : list rblk) : nat := if up then brow (hd (Bk 0 0 (fun _ _ => 0)) diag) else 0%nat.
Definition permuted (up : bool) (diag : list rblk) (A : rmat) : rmat :=
  fun i j => A (perm (total diag) (tip_size up diag) i) (perm (total diag) (tip_size up diag) j).
(** the diagonal blocks in the order of the permuted matrix, and the blocks of its last row *)
Definition ordered (up : bool) (diag : list rblk) : list rblk := if up then tl diag ++ firstn 1 diag else diag.
Definition bottom (up : bool) (side : list rblk) : list rblk := if up then map tblk side else side.

Lemma perm_0 n i : (i < n)%nat -> perm n 0 i = i.
Proof. intros H. unfold perm. rewrite Nat.sub_0_r. rewrite (proj2 (Nat.ltb_lt _ _) H). reflexivity. Qed.
Lemma map_getB_false (ss : list rblk) : map (get_B false) ss = ss.
Proof. induction ss; cbn; f_equal; auto. Qed.
Lemma bottom_map up (ss : list rblk) : bottom up ss = map (get_B up) ss.
Proof. destruct up; [reflexivity|]. symmetry. apply map_getB_false. Qed.
Lemma arrow_split_inv up (diag side : list rblk) : length diag = (length side + 1)%nat -> exists ds Db, arrow_split up diag = Some (ds, Db) /\ ordered up diag = ds ++ [Db] /\ diag = arrow_join up ds Db /\
  total diag = (total ds + brow Db)%nat.
Proof.
  intros H. destruct diag as [|D ds]; [cbn in H; lia|]. destruct up.
  - exists ds, D. cbn. repeat split; auto. lia.
  - exists (removelast (D :: ds)), (last (D :: ds) D). split; [reflexivity|]. assert (E : D :: ds = removelast (D :: ds) ++ [last (D :: ds) D]) by (apply app_removelast_last; discriminate).
    split; [exact E|]. split; [exact E|]. rewrite E at 1. rewrite total_app. cbn [total]. lia.
Qed.
Lemma arrow_ok_split up (diag side : list rblk) ds Db : arrow_split up diag = Some (ds, Db) -> diag = arrow_join up ds Db ->
  arrow_ok up diag side <-> arrow_sizes ds (map (get_B up) side) Db.
Proof.
  intros H1 ->. destruct up; cbn [arrow_join].
  - apply arrow_ok_up.
  - rewrite map_getB_false. apply arrow_ok_sizes.
Qed.
Lemma arrow_dense_facts up diag side A ds Db : arrow_split up diag = Some (ds, Db) -> diag = arrow_join up ds Db -> arrow_ok up diag side -> arrow_half up diag side A -> symmetric (total diag) A ->
  forall i j, (i < total diag)%nat -> (j < total diag)%nat -> gsym (arrow_low ds (map (get_B up) side) Db) i j = permuted up diag A i j.
Proof.
  intros Hsp Hj Hok HA Hsym. apply (arrow_ok_split up diag side ds Db Hsp Hj) in Hok.
  assert (Ht : total diag = (total ds + brow Db)%nat). { rewrite Hj. destruct up; cbn [arrow_join total]; [lia|]. rewrite total_app. cbn. lia. }
  assert (Hn0 : (tip_size up diag <= total diag)%nat). { subst diag. destruct up; cbn; lia. }
  apply low_gsym.
  - intros i j Hi Hj'. unfold permuted. apply Hsym; apply perm_lt; auto.
  - intros a b Ha Hb. rewrite Ht in Ha. revert a b Ha Hb. subst diag. destruct up; cbn [arrow_join] in *.
    + apply (arrow_half_low ds _ Db (permuted true (Db :: ds) A)); auto. apply (arrow_half_up Db ds side A); auto.
    + apply (arrow_half_low ds _ Db (permuted false (ds ++ [Db]) A)); auto. rewrite map_getB_false. destruct HA as (H1 & H2 & H3). unfold permuted. cbn [tip_size].
      assert (Hlim : forall k E, nth_error (ds ++ [Db]) k = Some E -> (off (ds ++ [Db]) k + brow E <= total (ds ++ [Db]))%nat).
      { clear. generalize (ds ++ [Db]). induction l as [|D l IH]; intros [|k] E HE; try discriminate; cbn in HE; [injection HE as ->; cbn; lia|]. rewrite off_S. cbn [total]. specialize (IH _ _ HE). lia. }
      split; [|split].
      * intros k E i j HE Hi Hjj. specialize (Hlim _ _ HE). rewrite !perm_0 by lia. apply H1; auto.
      * intros k B i j HB Hi Hjj. pose proof (nth_lt _ _ _ HB) as Hk. rewrite map_getB_false in Hok. apply arrow_ok_sizes in Hok. destruct Hok as (Hl & _ & Hsz).
        destruct (nth_error (ds ++ [Db]) k) as [E|] eqn:HE; [|apply nth_error_None in HE; lia]. destruct (nth_error (ds ++ [Db]) (length side)) as [T|] eqn:HT; [|apply nth_error_None in HT; lia].
        destruct (Hsz k B E T HB HE eq_refl). pose proof (Hlim _ _ HE). pose proof (Hlim _ _ HT). rewrite !perm_0 by lia. apply (H2 k B); auto.
      * intros k k' E E' i j HE HE' Hk1 Hk Hi Hjj. pose proof (Hlim _ _ HE). pose proof (Hlim _ _ HE'). rewrite !perm_0 by lia. apply (H3 k k' E E'); auto.
Qed.
(** positive definiteness does not depend on the order of the rows and columns *)
Lemma rsum_perm n n0 (f : nat -> R) : (n0 <= n)%nat -> rsum n (fun i => f (perm n n0 i)) = rsum n f.
Proof.
  intros H. transitivity (rsum (n - n0 + n0) (fun i => f (perm n n0 i))); [f_equal; lia|]. transitivity (rsum (n0 + (n - n0)) f); [|f_equal; lia].
  rewrite !sum_app, Rplus_comm. f_equal; apply sum_ext; intros k Hk; unfold perm.
  - rewrite (proj2 (Nat.ltb_ge _ _)) by lia. f_equal. lia.
  - rewrite (proj2 (Nat.ltb_lt _ _)) by lia. reflexivity.
Qed.
Definition unperm (n n0 i : nat) : nat := if (i <? n0)%nat then (n - n0 + i)%nat else (i - n0)%nat.
Lemma perm_unperm n n0 i : (n0 <= n)%nat -> (i < n)%nat -> perm n n0 (unperm n n0 i) = i.
Proof. intros H Hi. unfold perm, unperm. destruct (Nat.ltb_spec i n0); [rewrite (proj2 (Nat.ltb_ge _ _)) by lia; lia|rewrite (proj2 (Nat.ltb_lt _ _)) by lia; lia]. Qed.
Lemma unperm_perm n n0 i : (n0 <= n)%nat -> (i < n)%nat -> unperm n n0 (perm n n0 i) = i.
Proof. intros H Hi. unfold perm, unperm. destruct (Nat.ltb_spec i (n - n0)); [rewrite (proj2 (Nat.ltb_ge _ _)) by lia; lia|rewrite (proj2 (Nat.ltb_lt _ _)) by lia; lia]. Qed.
Lemma posdef_perm n n0 A : (n0 <= n)%nat -> posdef n A <-> posdef n (fun i j => A (perm n n0 i) (perm n n0 j)).
Proof.
  intros Hn. assert (HQ : forall v, quad n (fun i j => A (perm n n0 i) (perm n n0 j)) (fun i => v (perm n n0 i)) = quad n A v).
  { intros v. unfold quad. rewrite <- (rsum_perm n n0 (fun i => v i * rsum n (fun j => A i j * v j))) by auto. apply sum_ext. intros i Hi. f_equal.
    apply (rsum_perm n n0 (fun j => A (perm n n0 i) j * v j)); auto. }
  split; intros HP v (i & Hi & Hv).
  - rewrite (quad_ext_v n _ v (fun i => (fun k => v (unperm n n0 k)) (perm n n0 i))) by (intros k Hk; cbn beta; rewrite unperm_perm; auto).
    rewrite (HQ (fun k => v (unperm n n0 k))). apply HP. exists (perm n n0 i). split; [apply perm_lt; auto|]. rewrite unperm_perm; auto.
  - rewrite <- HQ. apply (HP (fun i => v (perm n n0 i))). exists (unperm n n0 i). rewrite perm_unperm by auto. split; [unfold unperm; destruct (Nat.ltb_spec i n0); lia|auto].
Qed.
Lemma tip_le up diag : (tip_size up diag <= total diag)%nat.
Proof. destruct up; destruct diag; cbn; lia. Qed.
Lemma permuted_posdef up diag A : posdef (total diag) (permuted up diag A) <-> posdef (total diag) A.
Proof. symmetry. apply posdef_perm. apply tip_le. Qed.
Lemma Forall2_join up ds dl (Db Db' : rblk) : Forall2 same_upper ds dl -> same_upper Db Db' -> Forall2 same_upper (arrow_join up ds Db) (arrow_join up dl Db').
Proof. intros H1 H2. destruct up; cbn [arrow_join]; [constructor; auto|]. apply Forall2_app; auto. Qed.
Lemma split_join up ds (Db : rblk) : arrow_split up (arrow_join up ds Db) = Some (ds, Db).
Proof.
  destruct up; cbn [arrow_join]; [reflexivity|]. destruct ds as [|D ds]; [reflexivity|]. cbn [app arrow_split]. rewrite app_comm_cons, removelast_last, last_last. reflexivity.
Qed.
Lemma ordered_join up ds (Db : rblk) : ordered up (arrow_join up ds Db) = ds ++ [Db].
Proof. destruct up; reflexivity. Qed.
Lemma total_join up ds (Db : rblk) : total (arrow_join up ds Db) = (total ds + brow Db)%nat.
Proof. destruct up; cbn [arrow_join total]; [lia|]. rewrite total_app. cbn. lia. Qed.
Lemma blockArrowLLT_loop up (diag side : list rblk) : arrow_ok up diag side -> exists ds Db, arrow_split up diag = Some (ds, Db) /\ diag = arrow_join up ds Db /\ arrow_sizes ds (map (get_B up) side) Db /\
  blockArrowLLT diag side up = (do t <- arrow_llt_loop up ds side Db; let '(ok, dl, bl, db) := t in Ok (ok, arrow_join up dl db, bl)).
Proof.
  intros Hok. destruct (arrow_split_inv up diag side (proj1 Hok)) as (ds & Db & Hsp & _ & Hj & _). exists ds, Db. split; [exact Hsp|]. split; [exact Hj|].
  split; [apply (arrow_ok_split up diag side ds Db Hsp Hj); exact Hok|]. unfold blockArrowLLT, guard. rewrite (proj2 (Nat.eqb_eq _ _) (proj1 Hok)), Hsp. reflexivity.
Qed.
(** the factor: dense lower triangular arrow matrix (pointing down) with the blocks of the result *)
Theorem C21_arrow_cholesky (up : bool) (diag side : list rblk) (A : rmat) :
  arrow_ok up diag side -> arrow_half up diag side A -> symmetric (total diag) A ->
  exists ok dl sl, blockArrowLLT diag side up = Ok (ok, dl, sl) /\ arrow_ok up dl sl /\ Forall2 same_upper diag dl /\ map (fun B => (brow B, bcol B)) sl = map (fun B => (brow B, bcol B)) side /\
    (posdef (total diag) A -> ok = true /\ forall Lm, arrow_half false (ordered up dl) (bottom up sl) Lm -> lower_triangular (total diag) Lm -> is_cholesky (total diag) (permuted up diag A) Lm).
Proof.
  intros Hok HA Hsym. destruct (blockArrowLLT_loop up diag side Hok) as (ds & Db & Hsp & Hj & Hs & ->).
  pose proof (arrow_dense_facts up diag side A ds Db Hsp Hj Hok HA Hsym) as HG.
  destruct (arrow_llt_loop_correct up side ds Db Hs) as (ok & dl & sl & Db' & E & Hdl & Hs' & HF & HF' & Hsz & Hiff & Hch). rewrite E. cbn [bind].
  exists ok, (arrow_join up dl Db'), sl. split; [reflexivity|]. split; [apply (arrow_ok_split up _ sl dl Db' (split_join _ _ _) eq_refl); exact Hs'|].
  split; [rewrite Hj; apply Forall2_join; auto|]. split; [exact Hsz|]. intros HP.
  assert (Ht : total diag = (total ds + brow Db)%nat) by (rewrite Hj; apply total_join).
  assert (HP' : posdef (total ds + brow Db) (gsym (arrow_low ds (map (get_B up) side) Db))).
  { rewrite <- Ht. apply (posdef_ext _ (permuted up diag A)); [intros; symmetry; apply HG; auto|]. apply permuted_posdef. exact HP. }
  split; [apply (proj2 Hiff HP')|]. intros Lm HL Htri. rewrite ordered_join, bottom_map in HL.
  apply (cholesky_dense _ _ _ _ (arrow_low dl (map (get_B up) sl) Db') HG); [|rewrite Ht; apply Hch; exact HP']. apply low_lower; [exact Htri|].
  rewrite Ht, <- Hdl. destruct HF' as (HF' & _). rewrite <- HF'. apply arrow_half_low; auto.
Qed.
Theorem C22_arrow_status (up : bool) (diag side : list rblk) (A : rmat) :
  arrow_ok up diag side -> arrow_half up diag side A -> symmetric (total diag) A ->
  exists ok dl sl, blockArrowLLT diag side up = Ok (ok, dl, sl) /\
    (ok = false -> ~ posdef (total diag) A) /\ (ok = true /\ Forall head_pos dl <-> posdef (total diag) A).
Proof.
  intros Hok HA Hsym. destruct (blockArrowLLT_loop up diag side Hok) as (ds & Db & Hsp & Hj & Hs & ->).
  pose proof (arrow_dense_facts up diag side A ds Db Hsp Hj Hok HA Hsym) as HG.
  destruct (arrow_llt_loop_correct up side ds Db Hs) as (ok & dl & sl & Db' & E & Hdl & Hs' & HF & HF' & Hsz & Hiff & Hch). rewrite E. cbn [bind].
  exists ok, (arrow_join up dl Db'), sl. split; [reflexivity|].
  assert (Ht : total diag = (total ds + brow Db)%nat) by (rewrite Hj; apply total_join).
  assert (HQ : posdef (total diag) A <-> posdef (total ds + brow Db) (gsym (arrow_low ds (map (get_B up) side) Db))).
  { rewrite <- (permuted_posdef up), <- Ht. split; apply posdef_ext; intros; [symmetry|]; apply HG; auto. }
  rewrite HQ, <- Hiff. assert (HFA : Forall head_pos (arrow_join up dl Db') <-> Forall head_pos (Db' :: dl)).
  { destruct up; cbn [arrow_join]; [tauto|]. rewrite Forall_app. split; [intros [H1 H2]; inversion H2; constructor; auto|intros H; inversion H; split; auto]. }
  rewrite HFA. split; [|tauto]. intros -> [H _]. discriminate.
Qed.
(** finding 5: a failure at the first pivot of a block is not reported *)
Definition neg1 : rblk := Bk 1 1 (fun _ _ => -1).
Theorem C22_first_pivot_undetected : exists (diag : list rblk) (A : rmat), tri_ok diag [] /\ tri_half diag [] A /\ symmetric (total diag) A /\ arrow_ok false diag [] /\
  ~ posdef (total diag) A /\ (exists dl sl, triBlockDiagLLT diag [] = Ok (true, dl, sl)) /\ (forall up, exists dl sl, blockArrowLLT diag [] up = Ok (true, dl, sl)).
Proof.
  exists [neg1], (fun _ _ => -1). split.
  { split; [reflexivity|]. split; [repeat constructor|]. intros [|k]; discriminate. }
  split. { split; [|split]; [intros [|[|k]] D i j H; try discriminate; injection H as <-; reflexivity|intros [|k]; discriminate|intros [|k] [|k'] D D' i j H H' Hk; try lia; destruct k; discriminate]. }
  split; [intros i j _ _; reflexivity|]. split. { split; [reflexivity|]. split; [repeat constructor|]. intros [|k]; discriminate. }
  split. { intros H. specialize (H (fun _ => 1)). assert (0 < quad 1 (fun _ _ => -1) (fun _ => 1)); [|cbv [total neg1 brow quad rsum sumn seval so_tree order left_order comb Rops add mul zero carrier] in *; lra].
    apply H. exists 0%nat. split; [cbn; lia|lra]. }
  assert (EL : @blk_llt Rops neg1 = Ok (0%Z, neg1)).
  { unfold blk_llt, llt. cbn [neg1 brow bcol Nat.eqb guard llt_loop bm]. replace (leb Rops _ _) with true; [reflexivity|].
    symmetry. cbn. apply Rleb_true. unfold rsum. rops. lra. }
  split; [|intros [|]]; eexists; eexists;
    cbn [triBlockDiagLLT blockArrowLLT length Nat.add Nat.eqb guard tri_llt_loop arrow_split removelast last arrow_llt_loop]; rewrite EL; reflexivity.
Qed.

(** ** C21: the solves *)
(** for an arrow pointing up the code needs the first and the last blocks to have the same size (finding 6) *)
Definition tip_fits {S : ops} (up : bool) (diag : list (blk S)) : Prop :=
  up = true -> forall D E, nth_error diag 0 = Some D -> nth_error diag (length diag - 1) = Some E -> brow E = brow D.
Lemma nth_error_last {X} (l : list X) (a d : X) : nth_error (a :: l) (length (a :: l) - 1) = Some (last (a :: l) d).
Proof.
  revert a. induction l as [|b l IH]; intros a; [reflexivity|]. cbn [length Nat.sub nth_error] in *. rewrite Nat.sub_0_r in *. destruct (length l) eqn:El; [destruct l; [reflexivity|discriminate]|].
  cbn. exact (IH b).
Qed.
Lemma arrow_factor_facts up diag side Lm ds Db : arrow_split up diag = Some (ds, Db) -> diag = arrow_join up ds Db -> arrow_ok up diag side ->
  arrow_half false (ordered up diag) (bottom up side) Lm -> inv_lower (total diag) Lm ->
  arrow_sizes ds (map (get_B up) side) Db /\ (forall i, (i < total ds + brow Db)%nat -> arrow_low ds (map (get_B up) side) Db i i <> 0) /\
  (forall i j, (i < total diag)%nat -> (j < total diag)%nat -> lower (arrow_low ds (map (get_B up) side) Db) i j = Lm i j).
Proof.
  intros Hsp Hj Hok HL [Htri Hd]. apply (arrow_ok_split up diag side ds Db Hsp Hj) in Hok. split; [exact Hok|].
  assert (Ht : total diag = (total ds + brow Db)%nat) by (rewrite Hj; apply total_join).
  assert (HA : forall i j, (i < total diag)%nat -> (j <= i)%nat -> Lm i j = arrow_low ds (map (get_B up) side) Db i j).
  { rewrite Ht. apply arrow_half_low; auto. rewrite <- bottom_map, <- (ordered_join up), <- Hj. exact HL. }
  split; [|apply low_lower; auto]. intros i Hi. rewrite <- Ht in Hi. rewrite <- HA by auto. auto.
Qed.
Theorem C21_arrow_solve (isz : R -> bool) (up : bool) (diag side : list rblk) (Lm : rmat) (V : rblk) (start : nat) (end_ : option nat) : isz 0 = true ->
  arrow_ok up diag side -> arrow_half false (ordered up diag) (bottom up side) Lm -> inv_lower (total diag) Lm -> brow V = total diag -> zero_before start V -> zero_from end_ V ->
  tip_fits up diag ->
  exists X, @blockArrowLSolve Rops isz diag side up V start end_ = Ok X /\ solves (total diag) Lm X (rows_perm (tip_size up diag) V).
Proof.
  intros Hz Hok HL HI HV Hz1 Hz2 Htip. destruct (arrow_split_inv up diag side (proj1 Hok)) as (ds & Db & Hsp & _ & Hj & Ht).
  destruct (arrow_factor_facts up diag side Lm ds Db Hsp Hj Hok HL HI) as (Hs & Hdiag & HLow).
  unfold blockArrowLSolve. set (e := match end_ with Some e => e | None => brow V end).
  assert (He : (e <= brow V)%nat /\ forall i j, (e <= i)%nat -> (i < brow V)%nat -> (j < bcol V)%nat -> bm V i j = 0).
  { unfold e. destruct end_ as [e0|]; cbn in Hz2; [auto|split; [auto|intros; lia]]. }
  destruct He as [He1 He2].
  assert (Hlast : brow (last diag Db) = brow Db).
  { destruct up.
    - cbn [arrow_join] in Hj. pose proof (Htip eq_refl Db (last diag Db)) as H. rewrite Hj in H |- *. apply H; [reflexivity|]. apply nth_error_last.
    - cbn [arrow_join] in Hj. rewrite Hj, last_last. reflexivity. }
  assert (Hgen : forall M s' e', brow M = total diag -> bcol M = bcol V -> (forall i (j : col (bcol V)), (i < total ds)%nat -> (i < s')%nat \/ (e' <= i)%nat -> bm M i j = 0) ->
    exists X, @arrow_lsolve_ Rops isz up diag side M s' e' = Ok (Bk (brow M) (bcol M) X) /\ forall i j, (i < total diag)%nat -> (j < bcol V)%nat -> rsum (total diag) (fun k => Lm i k * X k j) = bm M i j).
  { intros M s' e' HM1 HM2 HM. unfold arrow_lsolve_, guard at 1. rewrite (proj2 (Nat.eqb_eq _ _) (proj1 Hok)), Hsp, Hlast.
    destruct (arrow_lsolve_loop_correct (bcol V) isz up s' e' Hz ds side Db 0 M) as (X & E & _ & HX); auto; [lia|]. exists X. split; [exact E|].
    intros i j Hi Hjj. rewrite Ht in Hi. pose proof (HX i (mkcol Hjj) Hi) as H. cbn [Nat.add mkcol col_nat] in H. rewrite <- H, <- Ht. rewrite <- Ht in Hi. apply sum_ext. intros k Hk. rewrite HLow by auto. reflexivity. }
  destruct up.
  - cbn [arrow_join] in Hj. subst diag. cbn [tip_size hd]. unfold guard at 1. rewrite (proj2 (Nat.leb_le _ _)) by (rewrite HV, Ht; lia).
    destruct (Hgen (rotate_up (brow Db) V) (start - brow Db)%nat (e - brow Db)%nat) as (X & E & HX); auto.
    + intros i j Hi Hor. cbn [rotate_up bm]. rewrite (proj2 (Nat.ltb_lt _ _)) by lia. destruct Hor; [apply Hz1|apply He2]; try lia; apply col_lt.
    + exists (Bk (brow V) (bcol V) X). split; [exact E|]. split; [reflexivity|]. split; [reflexivity|]. intros i j Hi Hjj. cbn [rows_perm bcol bm] in *. rewrite HX by auto.
      cbn [rotate_up bm]. unfold perm. destruct (i <? brow V - brow Db)%nat; reflexivity.
  - cbn [tip_size]. destruct (Hgen V start e) as (X & E & HX); auto.
    + intros i j Hi Hor. destruct Hor; [apply Hz1|apply He2]; try lia; apply col_lt.
    + exists (Bk (brow V) (bcol V) X). split; [exact E|]. split; [reflexivity|]. split; [reflexivity|]. intros i j Hi Hjj. cbn [rows_perm bcol bm] in *. rewrite HX by auto.
      rewrite perm_0 by lia. reflexivity.
Qed.
Theorem C21_arrow_transpose_solve (up : bool) (diag side : list rblk) (Lm : rmat) (V : rblk) (start : nat) (end_ : option nat) :
  arrow_ok up diag side -> arrow_half false (ordered up diag) (bottom up side) Lm -> inv_lower (total diag) Lm -> brow V = total diag -> zero_before start V -> zero_from end_ V ->
  exists X, @blockArrowLTransposeSolve Rops diag side up V start end_ = Ok X /\ solves_t (total diag) Lm (rows_perm (tip_size up diag) X) V.
Proof.
  intros Hok HL HI HV Hz1 Hz2. destruct (arrow_split_inv up diag side (proj1 Hok)) as (ds & Db & Hsp & _ & Hj & Ht).
  destruct (arrow_factor_facts up diag side Lm ds Db Hsp Hj Hok HL HI) as (Hs & Hdiag & HLow).
  unfold blockArrowLTransposeSolve. set (e := match end_ with Some e => e | None => brow V end).
  assert (He : (e <= brow V)%nat /\ forall i j, (e <= i)%nat -> (i < brow V)%nat -> (j < bcol V)%nat -> bm V i j = 0).
  { unfold e. destruct end_ as [e0|]; cbn in Hz2; [auto|split; [auto|intros; lia]]. }
  destruct He as [He1 He2].
  destruct (arrow_ltsolve_correct (bcol V) up start e ds side Db V diag) as (X & E & HX); auto; [lia| |].
  { intros i j Hi Hor. destruct Hor; [apply Hz1|apply He2]; auto; apply col_lt. }
  assert (HX' : forall i j, (i < total diag)%nat -> (j < bcol V)%nat -> rsum (total diag) (fun k => Lm k i * X k j) = bm V i j).
  { intros i j Hi Hjj. rewrite <- HV in Hi. pose proof (HX i (mkcol Hjj) Hi) as H. cbn [mkcol col_nat] in H. rewrite <- H, <- HV. apply sum_ext. intros k Hk. rewrite HLow by lia. reflexivity. }
  destruct up.
  - rewrite E. cbn [bind]. cbn [arrow_join] in Hj. subst diag. cbn [tip_size hd] in *. unfold guard. cbn [brow]. rewrite (proj2 (Nat.leb_le _ _)) by lia.
    exists (rotate_down (brow Db) (Bk (brow V) (bcol V) X)). split; [reflexivity|]. split; [reflexivity|]. split; [reflexivity|]. intros i j Hi Hjj. rewrite <- HX' by auto.
    apply sum_ext. intros k Hk. f_equal. cbn [rows_perm rotate_down brow bcol bm]. unfold perm. destruct (Nat.ltb_spec k (brow V - brow Db)).
    + rewrite (proj2 (Nat.ltb_ge _ _)) by lia. f_equal. lia.
    + rewrite (proj2 (Nat.ltb_lt _ _)) by lia. f_equal. lia.
  - rewrite E. exists (Bk (brow V) (bcol V) X). split; [reflexivity|]. split; [reflexivity|]. split; [reflexivity|]. intros i j Hi Hjj. rewrite <- HX' by auto.
    apply sum_ext. intros k Hk. f_equal. cbn [rows_perm brow bcol bm tip_size]. rewrite perm_0 by lia. reflexivity.
Qed.
Lemma lower_half_exists_arrow (diag side : list rblk) : arrow_ok false diag side -> exists Lm, arrow_half false diag side Lm /\ lower_triangular (total diag) Lm.
Proof.
  intros Hok. destruct (arrow_split_inv false diag side (proj1 Hok)) as (ds & Db & _ & _ & Hj & Ht). cbn [arrow_join] in Hj. subst diag.
  pose proof (proj1 (arrow_ok_sizes _ _ _) Hok) as Hs. pose proof (arrow_low_half ds side Db Hs) as (H1 & H2 & H3).
  exists (lower (arrow_low ds side Db)). split; [|intros i j Hi Hj; unfold lower; rewrite (proj2 (Nat.leb_gt _ _)) by auto; reflexivity].
  assert (Hoff : forall k E, nth_error (ds ++ [Db]) k = Some E -> forall k' E', nth_error (ds ++ [Db]) k' = Some E' -> (k' < k)%nat -> (off (ds ++ [Db]) k' + brow E' <= off (ds ++ [Db]) k)%nat).
  { clear. generalize (ds ++ [Db]). induction l as [|D' l IH]; intros [|k] E HE [|k'] E' HE' Hk; try discriminate; try lia; cbn in HE, HE'.
    - injection HE' as ->. rewrite off_S. cbn. lia.
    - rewrite !off_S. specialize (IH k E HE k' E' HE'). lia. }
  split; [|split].
  - intros k E i j HE Hi Hj. unfold lower. rewrite (proj2 (Nat.leb_le _ _)) by lia. apply H1; auto.
  - intros k B i j HB Hi Hj. unfold lower. pose proof (nth_lt _ _ _ HB) as Hk. destruct Hok as (Hl & _ & Hsz).
    destruct (nth_error (ds ++ [Db]) k) as [E|] eqn:HE; [|apply nth_error_None in HE; lia]. destruct (nth_error (ds ++ [Db]) (length side)) as [T|] eqn:HT; [|apply nth_error_None in HT; lia].
    destruct (Hsz k B E T HB HE eq_refl). specialize (Hoff _ _ HT _ _ HE ltac:(lia)). rewrite (proj2 (Nat.leb_le _ _)) by lia. apply (H2 k B); auto.
  - intros k k' E E' i j HE HE' Hk1 Hk Hi Hj. unfold lower. destruct (_ <=? _)%nat; auto. apply (H3 k k' E E'); auto.
Qed.
Lemma ordered_ok up (diag side : list rblk) : arrow_ok up diag side -> arrow_ok false (ordered up diag) (bottom up side).
Proof.
  intros Hok. destruct (arrow_split_inv up diag side (proj1 Hok)) as (ds & Db & Hsp & Ho & Hj & Ht). rewrite Ho, bottom_map. apply arrow_ok_sizes. apply (arrow_ok_split up diag side ds Db Hsp Hj). exact Hok.
Qed.
Lemma ordered_total up (diag : list rblk) : total (ordered up diag) = total diag.
Proof. destruct up; [|reflexivity]. destruct diag as [|D ds]; [reflexivity|]. cbn [ordered tl firstn]. apply total_rot. Qed.
(** factorising a positive definite arrow matrix, then the two solves, solves A X = V *)
Theorem C21_arrow_system (isz : R -> bool) (up : bool) (diag side : list rblk) (A : rmat) (V : rblk) (start : nat) (end_ : option nat) : isz 0 = true ->
  arrow_ok up diag side -> arrow_half up diag side A -> symmetric (total diag) A -> posdef (total diag) A -> brow V = total diag -> zero_before start V -> zero_from end_ V -> tip_fits up diag ->
  exists dl sl Y X, blockArrowLLT diag side up = Ok (true, dl, sl) /\ @blockArrowLSolve Rops isz dl sl up V start end_ = Ok Y /\
    @blockArrowLTransposeSolve Rops dl sl up Y 0 None = Ok X /\ solves (total diag) A X V.
Proof.
  intros Hz Hok HA Hsym HP HV Hz1 Hz2 Htip. destruct (C21_arrow_cholesky up diag side A Hok HA Hsym) as (ok & dl & sl & E & Hok' & HF & Hsz & HC). destruct (HC HP) as [-> HL].
  assert (Ht : total dl = total diag). { clear - HF. induction HF as [|D D' l l' (H & _) _ IH]; cbn [total]; [reflexivity|]. lia. }
  assert (Htip' : tip_fits up dl).
  { intros Hup D' E' HD' HE'. assert (Hlen : length dl = length diag) by (clear - HF; induction HF; cbn; congruence).
    assert (Hnth : forall k D', nth_error dl k = Some D' -> exists D, nth_error diag k = Some D /\ brow D' = brow D).
    { clear - HF. induction HF as [|D D' l l' (H & _) _ IH]; intros [|k] D0 H0; try discriminate; cbn in H0; [injection H0 as <-; exists D; auto|]. exact (IH k D0 H0). }
    rewrite Hlen in HE'. destruct (Hnth _ _ HD') as (D0 & H1 & ->). destruct (Hnth _ _ HE') as (E0 & H2 & ->). apply (Htip Hup); auto. }
  assert (Htz : tip_size up dl = tip_size up diag). { destruct up; [|reflexivity]. inversion HF as [|? ? ? ? (H & _) _]; subst; cbn; auto. }
  destruct (lower_half_exists_arrow _ _ (ordered_ok up dl sl Hok')) as (Lm & HL1 & HL2). rewrite ordered_total, Ht in HL2. specialize (HL Lm HL1 HL2). pose proof (cholesky_inv _ _ _ HL2 HL) as HI.
  destruct (C21_arrow_solve isz up dl sl Lm V start end_) as (Y & EY & HY); auto; try (rewrite Ht; auto).
  destruct (C21_arrow_transpose_solve up dl sl Lm Y 0 None) as (X & EX & HX); auto; try (rewrite Ht; auto).
  { destruct HY as [HY _]. cbn in HY. congruence. }
  { intros i j Hi. lia. }
  { exact I. }
  exists dl, sl, Y, X. split; [exact E|]. split; [exact EY|]. split; [exact EX|]. rewrite Ht, Htz in *.
  pose proof (solves_twice _ _ Lm _ Y _ HL HY HX) as (S1 & S2 & S3). cbn [rows_perm brow bcol bm] in *. split; [exact S1|]. split; [exact S2|].
  intros i j Hi Hj. set (n0 := tip_size up diag) in *. assert (Hn0 : (n0 <= total diag)%nat) by apply tip_le.
  specialize (S3 (unperm (total diag) n0 i) j). rewrite HV, perm_unperm in S3 by auto. rewrite <- S3; auto; [|unfold unperm; destruct (Nat.ltb_spec i n0); lia].
  rewrite <- (rsum_perm (total diag) n0) by auto. apply sum_ext. intros k Hk. unfold permuted. fold n0. rewrite perm_unperm by auto. rewrite S1, HV. reflexivity.
Qed.
(** finding 6: with an arrow pointing up whose first and last blocks have different sizes, the solve is undefined *)
Theorem C21_up_solve_undefined (isz : R -> bool) (diag side : list rblk) (V : rblk) (D E : rblk) :
  arrow_ok true diag side -> brow V = total diag -> nth_error diag 0 = Some D -> nth_error diag (length diag - 1) = Some E -> brow D <> brow E -> (brow D < total diag)%nat ->
  @blockArrowLSolve Rops isz diag side true V 0 None = UB.
Proof.
  intros Hok HV HD HE Hne Hlt. destruct diag as [|D' ds]; [discriminate|]. injection HD as ->. rewrite (nth_error_last ds D D) in HE. injection HE as <-.
  unfold blockArrowLSolve, guard at 1. destruct (brow D <=? brow V)%nat; [|reflexivity]. unfold arrow_lsolve_, guard at 1. rewrite (proj2 (Nat.eqb_eq _ _) (proj1 Hok)). cbn [arrow_split].
  cbn [total] in *. destruct ds as [|D1 ds]; [cbn in Hlt; lia|]. destruct side as [|X side]; [destruct Hok as [H _]; cbn in H; lia|]. rewrite arrow_loop_step. unfold guard at 1.
  destruct (brow D1 =? bcol D1)%nat; [|reflexivity]. unfold arrow_lstep. rewrite Nat.sub_0_l, Nat.sub_0_l. cbn [Nat.ltb Nat.leb orb].
  replace (brow V - brow D <=? 0)%nat with false by (symmetry; apply Nat.leb_gt; lia).
  replace (brow D1 <? 0)%nat with false by (symmetry; apply Nat.ltb_ge; lia). cbn [orb].
  unfold rows_solve, guard at 1. destruct (0 + 0 + (brow D1 - 0) <=? _)%nat; [|reflexivity]. cbn [bind].
  assert (HX : brow (get_B true X) <> brow (last (D :: D1 :: ds) D)).
  { destruct Hok as (_ & _ & Hsz). destruct (Hsz 0%nat X D1 D eq_refl eq_refl eq_refl) as [_ H]. cbn [get_B tblk brow]. intros K. apply Hne. rewrite <- H. exact K. }
  unfold guard at 1. rewrite (proj2 (Nat.eqb_neq _ _) HX), andb_false_r. reflexivity.
Qed.

(** ** Non-vacuity: concrete systems *)
Lemma gram_posdef n (A Lm : rmat) : lower_triangular n Lm -> is_cholesky n A Lm -> posdef n A.
Proof.
  intros Htri [Hd HA] v (i0 & Hi0 & Hv0).
  assert (HQ : quad n A v = rsum n (fun t => rsum n (fun i => Lm i t * v i) * rsum n (fun i => Lm i t * v i))).
  { unfold quad. rewrite (sum_ext n _ (fun i => rsum n (fun t => v i * (Lm i t * rsum n (fun j => Lm j t * v j))))).
    - rewrite sum_swap. apply sum_ext. intros t Ht. rewrite <- sum_scal_r. apply sum_ext. intros i Hi. rring.
    - intros i Hi. rewrite sum_scal. f_equal. rewrite (sum_ext n _ (fun j => rsum n (fun t => Lm i t * (Lm j t * v j)))).
      + rewrite sum_swap. apply sum_ext. intros t Ht. apply sum_scal.
      + intros j Hj. rewrite <- HA by auto. rewrite <- sum_scal_r. apply sum_ext. intros t Ht. rring. }
  rewrite HQ. destruct (Rle_lt_or_eq_dec 0 (rsum n (fun t => rsum n (fun i => Lm i t * v i) * rsum n (fun i => Lm i t * v i)))) as [H|H]; auto.
  { apply sum_nonneg. intros. nra. }
  exfalso. apply Hv0. apply (upper_inj n (fun i k => Lm k i) v); auto.
  - intros i Hi. specialize (Hd i Hi). lra.
  - intros t Ht. pose proof (sum_nonneg_zero n (fun t => rsum n (fun i => Lm i t * v i) * rsum n (fun i => Lm i t * v i)) ltac:(intros; nra) (eq_sym H) t Ht) as H1.
    cbn beta in H1. assert (H2 : rsum n (fun i => Lm i t * v i) = 0) by nra. transitivity (rsum n (fun i => Lm i t * v i)); [|exact H2]. apply sum_ext. intros k Hk. unfold upper. destruct (Nat.leb_spec t k); auto.
    rewrite (Htri k t) by auto. rring.
Qed.
Definition lit (r c : nat) (rows : list (list R)) : rblk := Bk r c (fun i j => nth j (nth i rows []) 0).
(** block sizes 2 and 1; L = [2 0 0; 1 2 0; 1 1 2] *)
Definition ex_L : rmat := fun i j => nth j (nth i [[2;0;0];[1;2;0];[1;1;2]] []) 0.
Definition ex_A : rmat := fun i j => nth j (nth i [[4;2;2];[2;5;3];[2;3;6]] []) 0.
Definition ex_diag := [lit 2 2 [[4;7];[2;5]]; lit 1 1 [[6]]].
Definition ex_sub := [lit 1 2 [[2;3]]].
Lemma ex_cholesky : lower_triangular 3 ex_L /\ is_cholesky 3 ex_A ex_L.
Proof.
  split; [|split].
  - intros i j Hi Hj. destruct i as [|[|[|i]]]; destruct j as [|[|[|j]]]; try lia; reflexivity.
  - intros i Hi. destruct i as [|[|[|i]]]; try lia; cbn; lra.
  - intros i j Hi Hj. destruct i as [|[|[|i]]]; try lia; destruct j as [|[|[|j]]]; try lia; unfold rsum, ex_L, ex_A; cbn; rops; lra.
Qed.
Example C19_C20_nonvacuous : tri_ok ex_diag ex_sub /\ tri_half ex_diag ex_sub ex_A /\ symmetric (total ex_diag) ex_A /\ posdef (total ex_diag) ex_A /\
  zero_before 1 (lit 3 2 [[0;0];[1;2];[3;4]]) /\ brow (lit 3 2 [[0;0];[1;2];[3;4]]) = total ex_diag.
Proof.
  split. { split; [reflexivity|]. split; [repeat constructor|]. intros [|k] B D D1 HB HD HD1; [|destruct k; discriminate]. cbn in *. injection HB as <-. injection HD as <-. injection HD1 as <-. auto. }
  split. { split; [|split].
    - intros [|[|k]] D i j HD Hi Hj; try (destruct k; discriminate); cbn in HD; injection HD as <-; cbn in Hi; destruct i as [|[|i]]; try lia; destruct j as [|[|j]]; try lia; reflexivity.
    - intros [|k] B i j HB Hi Hj; try (destruct k; discriminate). cbn in HB. injection HB as <-. cbn in Hi, Hj. destruct i; try lia. destruct j as [|[|j]]; try lia; reflexivity.
    - intros [|[|k]] k' D D' i j HD HD' Hk; try lia. destruct k; discriminate. }
  split. { intros i j Hi Hj. cbn in Hi, Hj. destruct i as [|[|[|i]]]; try lia; destruct j as [|[|[|j]]]; try lia; reflexivity. }
  split. { apply (gram_posdef 3 ex_A ex_L); apply ex_cholesky. }
  split; [|reflexivity]. intros i j Hi _ Hj. cbn in Hj. destruct i; try lia. destruct j as [|[|j]]; try lia; reflexivity.
Qed.
(** arrow pointing up, three blocks of size 1 *)
Definition ex_LU : rmat := fun i j => nth j (nth i [[2;0;0];[0;2;0];[1;1;2]] []) 0.
Definition ex_AU : rmat := fun i j => nth j (nth i [[6;2;2];[2;4;0];[2;0;4]] []) 0.
Definition ex_diagU := [lit 1 1 [[6]]; lit 1 1 [[4]]; lit 1 1 [[4]]].
Definition ex_sideU := [lit 1 1 [[2]]; lit 1 1 [[2]]].
Example C21_nonvacuous : arrow_ok true ex_diagU ex_sideU /\ arrow_half true ex_diagU ex_sideU ex_AU /\ symmetric (total ex_diagU) ex_AU /\ posdef (total ex_diagU) ex_AU /\
  tip_fits true ex_diagU /\ zero_before 1 (lit 3 1 [[0];[1];[0]]) /\ zero_from (Some 2%nat) (lit 3 1 [[0];[1];[0]]).
Proof.
  split. { split; [reflexivity|]. split; [repeat constructor|]. intros k B D T HB HD HT. destruct k as [|[|k]]; cbn in *; try (destruct k; discriminate); injection HB as <-; injection HD as <-; injection HT as <-; auto. }
  split. { split; [|split].
    - intros [|[|[|k]]] D i j HD Hi Hj; try (destruct k; discriminate); cbn in HD; injection HD as <-; cbn in Hi; destruct i; try lia; destruct j; try lia; reflexivity.
    - intros [|[|k]] B i j HB Hi Hj; try (destruct k; discriminate); cbn in HB; injection HB as <-; cbn in Hi, Hj; destruct i; try lia; destruct j; try lia; reflexivity.
    - intros [|[|[|k]]] [|[|k']] D D' i j HD HD' H1 H2 Hi Hj; cbn in H1; try lia; try (destruct k; discriminate); cbn in HD, HD'; injection HD as <-; injection HD' as <-; cbn in Hi, Hj; destruct i; try lia; destruct j; try lia; reflexivity. }
  split. { intros i j Hi Hj. cbn in Hi, Hj. destruct i as [|[|[|i]]]; try lia; destruct j as [|[|[|j]]]; try lia; reflexivity. }
  split. { apply (permuted_posdef true). apply (gram_posdef 3 _ ex_LU).
    - intros i j Hi Hj. destruct i as [|[|[|i]]]; destruct j as [|[|[|j]]]; try lia; reflexivity.
    - split.
      + intros i Hi. destruct i as [|[|[|i]]]; try lia; cbn; lra.
      + intros i j Hi Hj. destruct i as [|[|[|i]]]; try lia; destruct j as [|[|[|j]]]; try lia; unfold rsum, ex_LU, permuted, ex_AU; cbn; rops; lra. }
  split. { intros _ D E HD HE. cbn in HD, HE. injection HD as <-. injection HE as <-. reflexivity. }
  split; [intros i j Hi _ Hj|split; [cbn; lia|intros i j Hi Hi' Hj]]; cbn in *; destruct j; try lia; destruct i as [|[|[|i]]]; try lia; reflexivity.
Qed.
Example C21_up_undefined_nonvacuous : exists (diag side : list rblk) (V D E : rblk), arrow_ok true diag side /\ brow V = total diag /\ nth_error diag 0 = Some D /\ nth_error diag (length diag - 1) = Some E /\ brow D <> brow E /\ (brow D < total diag)%nat.
Proof.
  exists [lit 1 1 [[6]]; lit 2 2 [[4;0];[0;4]]], [lit 2 1 [[2];[2]]], (lit 3 1 []), (lit 1 1 [[6]]), (lit 2 2 [[4;0];[0;4]]). split.
  - split; [reflexivity|]. split; [repeat constructor|]. intros [|k] B D T HB HD HT; [|destruct k; discriminate]. cbn in *. injection HB as <-. injection HD as <-. injection HT as <-. auto.
  - cbn. repeat split; auto.
Qed.

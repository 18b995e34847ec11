(** Correctness of the block triangular solves (exact arithmetic). *)
From Coq Require Import List Arith ZArith Lia Bool Reals Lra.
From Verif Require Import Base Num LinAlg Block BlockElim BlockSpec BlockLLT.
Import ListNotations.
Local Open Scope R_scope.

(** ** Truncated substitutions *)
Lemma fwd_shift_eq n (Lm : rmat) (b : rvec) s (w : rvec) : (s <= n)%nat -> (forall i, (i < n)%nat -> Lm i i <> 0) -> (forall i, (i < s)%nat -> b i = 0) ->
  (forall i, (i < s)%nat -> w i = 0) -> (forall t, (t < n - s)%nat -> w (s + t)%nat = @fwd Rops (n - s) (shift s Lm) (fun k => b (s + k)%nat) t) ->
  forall i, (i < n)%nat -> rsum n (fun k => lower Lm i k * w k) = b i.
Proof.
  intros Hs Hd Hb Hw Hw' i Hi. replace n with (s + (n - s))%nat by lia. rewrite sum_app. rewrite (sum_zero s) by (intros; rewrite Hw by auto; lra). rewrite Rplus_0_l.
  destruct (Nat.lt_ge_cases i s) as [Hi1|Hi1].
  - rewrite Hb by auto. apply sum_zero. intros k Hk. unfold lower. rewrite (proj2 (Nat.leb_gt _ _)) by lia. lra.
  - set (t := (i - s)%nat). replace i with (s + t)%nat by (unfold t; lia).
    rewrite (sum_ext (n - s) _ (fun k => lower (shift s Lm) t k * @fwd Rops (n - s) (shift s Lm) (fun k => b (s + k)%nat) k)).
    + rewrite fwd_correct; auto; [|unfold t; lia]. intros j Hj. apply Hd. lia.
    + intros k Hk. rewrite Hw' by auto. f_equal. unfold lower, shift. destruct (Nat.leb_spec (s + k) (s + t)), (Nat.leb_spec k t); auto; lia.
Qed.
Lemma bwd_trunc_eq n (Lm : rmat) (b : rvec) r (w : rvec) : (r <= n)%nat -> (forall i, (i < n)%nat -> Lm i i <> 0) -> (forall i, (r <= i < n)%nat -> b i = 0) ->
  (forall i, (r <= i < n)%nat -> w i = 0) -> (forall t, (t < r)%nat -> w t = @bwd Rops r r (tr Lm) b t) ->
  forall i, (i < n)%nat -> rsum n (fun k => lower Lm k i * w k) = b i.
Proof.
  intros Hr Hd Hb Hw Hw' i Hi. replace n with (r + (n - r))%nat by lia. rewrite sum_app. rewrite (sum_zero (n - r)) by (intros; rewrite Hw by lia; lra). rewrite Rplus_0_r.
  destruct (Nat.lt_ge_cases i r) as [Hi1|Hi1].
  - rewrite (sum_ext r _ (fun k => upper (tr Lm) i k * @bwd Rops r r (tr Lm) b k)) by (intros; rewrite Hw', tr_lower_upper by auto; reflexivity).
    apply bwd_correct; auto. intros j Hj. unfold tr. apply Hd. lia.
  - rewrite Hb by lia. apply sum_zero. intros k Hk. unfold lower. rewrite (proj2 (Nat.leb_gt _ _)) by lia. lra.
Qed.

(** ** Row operations *)
Lemma rows_solve_spec a r Lm (M : rblk) : (a + r <= brow M)%nat -> exists X, rows_solve a r Lm M = Ok (Bk (brow M) (bcol M) X) /\
  (forall i j, (i < a)%nat \/ (a + r <= i)%nat -> X i j = bm M i j) /\
  (forall t j, (t < r)%nat -> X (a + t)%nat j = @fwd Rops r Lm (fun k => bm M (a + k)%nat j) t).
Proof.
  intros H. unfold rows_solve, guard. rewrite (proj2 (Nat.leb_le _ _) H). eexists. split; [reflexivity|]. split; cbn beta.
  - intros i j Hi. destruct (Nat.leb_spec a i), (Nat.ltb_spec i (a + r)); cbn [andb]; auto; lia.
  - intros t j Ht. rewrite (proj2 (Nat.leb_le _ _)), (proj2 (Nat.ltb_lt _ _)) by lia. cbn [andb]. f_equal. lia.
Qed.
Lemma rows_solve_t_spec a r Lm (M : rblk) : (a + r <= brow M)%nat -> exists X, rows_solve_t a r Lm M = Ok (Bk (brow M) (bcol M) X) /\
  (forall i j, (i < a)%nat \/ (a + r <= i)%nat -> X i j = bm M i j) /\
  (forall t j, (t < r)%nat -> X (a + t)%nat j = @bwd Rops r r (tr Lm) (fun k => bm M (a + k)%nat j) t).
Proof.
  intros H. unfold rows_solve_t, guard. rewrite (proj2 (Nat.leb_le _ _) H). eexists. split; [reflexivity|]. split; cbn beta.
  - intros i j Hi. destruct (Nat.leb_spec a i), (Nat.ltb_spec i (a + r)); cbn [andb]; auto; lia.
  - intros t j Ht. rewrite (proj2 (Nat.leb_le _ _)), (proj2 (Nat.ltb_lt _ _)) by lia. cbn [andb]. f_equal. lia.
Qed.
Lemma rows_sub_spec a r B l k (M : rblk) : (a + r <= brow M)%nat -> (l + k <= brow M)%nat -> exists X, rows_sub a r B l k M = Ok (Bk (brow M) (bcol M) X) /\
  (forall i j, (i < a)%nat \/ (a + r <= i)%nat -> X i j = bm M i j) /\
  (forall t j, (t < r)%nat -> X (a + t)%nat j = bm M (a + t)%nat j - rsum k (fun c => B t c * bm M (l + c)%nat j)).
Proof.
  intros H1 H2. unfold rows_sub, guard. rewrite (proj2 (Nat.leb_le _ _) H1), (proj2 (Nat.leb_le _ _) H2). cbn [andb]. eexists. split; [reflexivity|]. split; cbn beta.
  - intros i j Hi. destruct (Nat.leb_spec a i), (Nat.ltb_spec i (a + r)); cbn [andb]; auto; lia.
  - intros t j Ht. rewrite (proj2 (Nat.leb_le _ _)), (proj2 (Nat.ltb_lt _ _)) by lia. cbn [andb]. replace (a + t - a)%nat with t by lia. reflexivity.
Qed.

(** ** rows of a two by two block system *)
Lemma row2_top n p D K E (w : rvec) i : (i < n)%nat -> rsum (n + p) (fun k => lower (blk2 n D K E) i k * w k) = rsum n (fun k => lower D i k * w k).
Proof.
  intros Hi. rewrite sum_app. rewrite (sum_zero p) by (intros; rewrite lower2_01 by auto; lra). rewrite Rplus_0_r.
  apply sum_ext. intros k Hk. rewrite lower2_00 by auto. reflexivity.
Qed.
Lemma row2_bot n p D K E (w : rvec) i : rsum (n + p) (fun k => lower (blk2 n D K E) (n + i)%nat k * w k) =
  rsum n (fun k => K i k * w k) + rsum p (fun k => lower E i k * w (n + k)%nat).
Proof.
  rewrite sum_app. f_equal; apply sum_ext; intros k Hk; [rewrite lower2_10 by auto; reflexivity|rewrite lower2_11; reflexivity].
Qed.
Lemma col2_top n p D K E (w : rvec) i : (i < n)%nat -> rsum (n + p) (fun k => lower (blk2 n D K E) k i * w k) =
  rsum n (fun k => lower D k i * w k) + rsum p (fun k => K k i * w (n + k)%nat).
Proof.
  intros Hi. rewrite sum_app. f_equal; apply sum_ext; intros k Hk; [rewrite lower2_00 by auto; reflexivity|rewrite lower2_10 by auto; reflexivity].
Qed.
Lemma col2_bot n p D K E (w : rvec) i : rsum (n + p) (fun k => lower (blk2 n D K E) k (n + i)%nat * w k) = rsum p (fun k => lower E k i * w (n + k)%nat).
Proof.
  rewrite sum_app. rewrite (sum_zero n) by (intros; rewrite lower2_01 by auto; lra). rewrite Rplus_0_l.
  apply sum_ext. intros k Hk. rewrite lower2_11. reflexivity.
Qed.

(** ** triBlockDiagLSolve *)
Lemma pad_below_row r (B : rmat) n (w : rvec) i : rsum n (fun k => pad_below r B i k * w k) = if (i <? r)%nat then rsum n (fun k => B i k * w k) else 0.
Proof. unfold pad_below. destruct (i <? r)%nat; [reflexivity|]. apply sum_zero. intros. lra. Qed.

Definition contrib (zero : bool) (prev : option rblk) (r l li : nat) (M : rblk) (i j : nat) : R :=
  if zero then 0 else match prev with Some B => if (i <? r)%nat then rsum li (fun t => bm B i t * bm M (l + t)%nat j) else 0 | None => 0 end.

(** one block *)
Definition tri_lstep (start : nat) (D : rblk) (prev : option rblk) (n l li : nat) (zero : bool) (M : rblk) : res (rblk * bool) :=
  let ni := brow D in
  if (start <=? n + ni)%nat then
    if zero then
      let r := (n + ni - start)%nat in
      guard (r <=? ni)%nat (do M <- rows_solve start r (shift (ni - r) (bm D)) M; Ok (M, false))
    else match prev with
         | None => UB
         | Some B => guard ((brow B =? ni) && (bcol B =? li))%nat
             (do M <- rows_sub n ni (bm B) l li M; do M <- rows_solve n ni (bm D) M; Ok (M, false))
         end
  else Ok (M, zero).
(** the columns of a right-hand side with [c] columns *)
Record col (c : nat) := mkcol_ { col_nat :> nat; col_lt : (col_nat < c)%nat }.
Arguments col_nat {c}. Arguments mkcol_ {c}.
Definition mkcol {c j} (H : (j < c)%nat) : col c := mkcol_ j H.
Lemma tri_lstep_spec c start (D : rblk) prev n l li zero (M : rblk) :
  (forall i, (i < brow D)%nat -> bm D i i <> 0) -> (n + brow D <= brow M)%nat ->
  (zero = false -> (start <= n)%nat /\ (l + li = n)%nat /\ exists B, prev = Some B /\ brow B = brow D /\ bcol B = li) ->
  (zero = true -> (n <= start)%nat /\ forall i (j : col c), (i < start)%nat -> (i < brow M)%nat -> bm M i j = 0) ->
  exists X zero', tri_lstep start D prev n l li zero M = Ok (Bk (brow M) (bcol M) X, zero') /\
    (zero' = false -> (start <= n + brow D)%nat) /\ (zero' = true -> (n + brow D < start)%nat /\ zero = true /\ (forall i (j : col c), X i j = bm M i j)) /\
    (forall i (j : col c), (i < n)%nat \/ (n + brow D <= i)%nat -> X i j = bm M i j) /\
    (forall i (j : col c), (i < brow D)%nat -> rsum (brow D) (fun k => lower (bm D) i k * X (n + k)%nat j) = bm M (n + i)%nat j - contrib zero prev (brow D) l li M i j).
Proof.
  intros Hd Hn Hz0 Hz1. unfold tri_lstep. set (ni := brow D) in *. destruct (Nat.leb_spec start (n + ni)) as [Hs|Hs].
  - destruct zero.
    + destruct (Hz1 eq_refl) as [Hns HM]. set (r := (n + ni - start)%nat). unfold guard. rewrite (proj2 (Nat.leb_le r ni)) by lia.
      destruct (rows_solve_spec start r (shift (ni - r) (bm D)) M) as (X & EX & HX1 & HX2); [lia|]. rewrite EX. cbn [bind].
      exists X, false. split; [reflexivity|]. split; [auto|]. split; [discriminate|]. split; [intros i j Hi|].
      * destruct (Nat.lt_ge_cases i start); [apply HX1; lia|]. apply HX1. lia.
      * intros i j Hi. cbn [contrib]. rewrite Rminus_0_r.
        apply (fwd_shift_eq ni (bm D) (fun i => bm M (n + i)%nat j) (ni - r) (fun k => X (n + k)%nat j)); auto; try lia.
        -- intros t Ht. apply HM; lia.
        -- intros t Ht. rewrite HX1 by lia. apply HM; lia.
        -- intros t Ht. replace (n + (ni - r + t))%nat with (start + t)%nat by lia. rewrite HX2 by lia. replace (ni - (ni - r))%nat with r by lia.
           apply (fwd_ext' r); try lia. intros k Hk. f_equal. lia.
    + destruct (Hz0 eq_refl) as (Hst & Hl & B & -> & HB1 & HB2). unfold guard. rewrite (proj2 (Nat.eqb_eq _ _) HB1), (proj2 (Nat.eqb_eq _ _) HB2). cbn [andb].
      destruct (rows_sub_spec n ni (bm B) l li M) as (X1 & E1 & HX1 & HX2); [lia|lia|]. rewrite E1. cbn [bind].
      destruct (rows_solve_spec n ni (bm D) (Bk (brow M) (bcol M) X1)) as (X & EX & HX3 & HX4); [cbn [brow]; lia|]. rewrite EX. cbn [bind brow bcol bm] in *.
      exists X, false. split; [reflexivity|]. split; [auto|]. split; [discriminate|]. split; [intros i j Hi; rewrite HX3, HX1 by lia; auto|].
      intros i j Hi. cbn [contrib]. rewrite (proj2 (Nat.ltb_lt _ _) Hi).
      rewrite (sum_ext ni _ (fun k => lower (bm D) i k * @fwd Rops ni (bm D) (fun k => X1 (n + k)%nat j) k)) by (intros; rewrite HX4 by auto; reflexivity).
      rewrite fwd_correct by auto. apply HX2. auto.
  - exists (bm M), zero. split; [destruct M; reflexivity|]. split. { intros ->. destruct (Hz0 eq_refl) as (? & _). lia. }
    assert (Hzt : zero = true). { destruct zero; auto. destruct (Hz0 eq_refl); lia. }
    split; [auto|]. split; [auto|]. subst zero. destruct (Hz1 eq_refl) as [Hns HM]. intros i j Hi. cbn [contrib]. rewrite HM by lia. rewrite Rminus_0_r.
    apply sum_zero. intros k Hk. rewrite HM by lia. lra.
Qed.
Theorem tri_lsolve_loop_correct c start : forall ss (D : rblk) ds prev n l li zero (M : rblk), tri_sizes D ds ss ->
  (forall i, (i < brow D + total ds)%nat -> tri_low D ds ss i i <> 0) -> (n + (brow D + total ds) = brow M)%nat ->
  (zero = false -> (start <= n)%nat /\ (l + li = n)%nat /\ exists B, prev = Some B /\ brow B = brow D /\ bcol B = li) ->
  (zero = true -> (n <= start)%nat /\ forall i (j : col c), (i < start)%nat -> (i < brow M)%nat -> bm M i j = 0) ->
  exists X, tri_lsolve_loop start (D :: ds) prev ss n l li zero M = Ok (Bk (brow M) (bcol M) X) /\
    (forall i (j : col c), (i < n)%nat -> X i j = bm M i j) /\
    (forall i (j : col c), (i < brow D + total ds)%nat -> rsum (brow D + total ds) (fun k => lower (tri_low D ds ss) i k * X (n + k)%nat j) = bm M (n + i)%nat j - contrib zero prev (brow D) l li M i j).
Proof.
  induction ss as [|B ss IH]; intros D ds prev n l li zero M Hs Hd Hn Hz0 Hz1.
  - destruct ds as [|D1 ds]; [|destruct Hs as [_ []]]. destruct Hs as [Hs _]. cbn [total tri_low] in *. rewrite Nat.add_0_r in *.
    destruct (tri_lstep_spec c start D prev n l li zero M) as (X & z' & E & _ & _ & HX1 & HX2); auto; [lia|].
    unfold tri_lstep in E. cbn [tri_lsolve_loop]. unfold guard at 1. rewrite (proj2 (Nat.eqb_eq _ _) Hs). cbv zeta. cbv zeta in E. rewrite E. cbn [bind fst snd brow].
    rewrite Hn, Nat.eqb_refl. cbn [guard]. exists X. split; [reflexivity|]. auto.
  - destruct ds as [|D1 ds]; [destruct Hs as [_ []]|]. destruct Hs as (Hs & HB1 & HB2 & Hs1). cbn [total] in *.
    assert (Hd0 : forall i, (i < brow D)%nat -> bm D i i <> 0). { intros i Hi. specialize (Hd i ltac:(lia)). cbn [tri_low] in Hd. rewrite blk2_00 in Hd by auto. exact Hd. }
    assert (Hd1 : forall i, (i < brow D1 + total ds)%nat -> tri_low D1 ds ss i i <> 0). { intros i Hi. specialize (Hd (brow D + i)%nat ltac:(lia)). cbn [tri_low] in Hd. rewrite blk2_11 in Hd. exact Hd. }
    destruct (tri_lstep_spec c start D prev n l li zero M) as (X1 & z' & E & HZ1 & HZ2 & HX1 & HX2); auto; [lia|].
    remember (D1 :: ds) as dd. cbn [tri_lsolve_loop]. unfold guard at 1. rewrite (proj2 (Nat.eqb_eq _ _) Hs). unfold tri_lstep in E. cbv zeta. cbv zeta in E. rewrite E. cbn [bind fst snd hd_error tl]. subst dd.
    destruct (IH D1 ds (Some B) (n + brow D)%nat n (brow D) z' (Bk (brow M) (bcol M) X1)) as (X & EX & HX3 & HX4); cbn [brow bcol bm]; auto.
    + lia.
    + intros ->. split; [auto|]. split; [reflexivity|]. exists B. auto.
    + intros ->. destruct (HZ2 eq_refl) as (H1 & H2 & H3). split; [lia|]. intros i j Hi Hi'. rewrite H3. apply Hz1; auto.
    + cbn [brow bcol bm] in *. exists X. split; [exact EX|]. split; [intros i j Hi; rewrite HX3, HX1 by lia; reflexivity|].
      set (n0 := brow D) in *. set (p := (brow D1 + total ds)%nat) in *. cbn [tri_low]. fold n0. rewrite HB1.
      intros i j Hi. destruct (Nat.lt_ge_cases i n0) as [Hi1|Hi1].
      * rewrite row2_top by auto. rewrite (sum_ext n0 _ (fun k => lower (bm D) i k * X1 (n + k)%nat j)) by (intros; rewrite HX3 by lia; reflexivity). apply HX2. auto.
      * set (i' := (i - n0)%nat). replace i with (n0 + i')%nat by (unfold i'; lia). rewrite row2_bot.
        rewrite (sum_ext p _ (fun k => lower (tri_low D1 ds ss) i' k * X (n + n0 + k)%nat j)) by (intros; rewrite Nat.add_assoc; reflexivity).
        rewrite HX4 by (unfold i'; lia). rewrite pad_below_row.
        assert (HC : contrib zero prev n0 l li M (n0 + i') j = 0). { unfold contrib. destruct zero; auto. destruct prev; auto. rewrite (proj2 (Nat.ltb_ge _ _)) by lia. reflexivity. }
        rewrite HC. replace (n + n0 + i')%nat with (n + (n0 + i'))%nat by lia. rewrite HX1 by lia.
        assert (HC2 : contrib z' (Some B) (brow D1) n n0 (Bk (brow M) (bcol M) X1) i' j = if (i' <? brow D1)%nat then rsum n0 (fun k => bm B i' k * X (n + k)%nat j) else 0).
        { unfold contrib. cbn [bm]. destruct z'.
          - destruct (HZ2 eq_refl) as (H1 & H2 & H3). destruct (i' <? brow D1)%nat; auto. symmetry. apply sum_zero. intros k Hk. rewrite HX3, H3 by lia.
            destruct (Hz1 H2) as [_ HM]. rewrite HM by lia. lra.
          - destruct (i' <? brow D1)%nat; auto. apply sum_ext. intros k Hk. rewrite HX3 by lia. reflexivity. }
        rewrite HC2. lra.
Qed.

(** ** triBlockDiagLTransposeSolve *)
Record ltst := LT { t_n : nat; t_l : nat; t_li : nat; t_zero : bool; t_M : rblk }.
Definition tri_ltstep (e : nat) (D : rblk) (prev : option rblk) (st : ltst) : res ltst :=
  let '(LT n l li zero M) := st in
  guard ((brow D =? bcol D) && (brow D <=? n))%nat (
  let ni := brow D in
  do r <- (if (n - ni <? e)%nat then
             if zero then
               let r := (e + ni - n)%nat in
               guard (r <=? ni)%nat (do M <- rows_solve_t (n - ni) r (bm D) M; Ok (M, false))
             else match prev with
                  | None => UB
                  | Some B => guard ((bcol B =? ni) && (brow B =? li))%nat
                      (do M <- rows_sub (n - ni) ni (fun i k => bm B k i) (l - li) li M; do M <- rows_solve_t (n - ni) ni (bm D) M; Ok (M, false))
                  end
           else Ok (M, zero));
  Ok (LT (n - ni) n ni (snd r) (fst r))).
Fixpoint tri_ltsteps (e : nat) (Q : list (rblk * rblk)) (st : ltst) : res ltst :=
  match Q with
  | [] => Ok st
  | (D, B) :: Q' => do st <- tri_ltstep e D (Some B) st; tri_ltsteps e Q' st
  end.
Lemma tri_ltloop_steps e Q : forall D prev n l li zero M,
  tri_ltsolve_loop e (D :: map fst Q) prev (map snd Q) n l li zero M =
  do st <- tri_ltstep e D prev (LT n l li zero M); do st <- tri_ltsteps e Q st; guard (t_n st =? 0)%nat (Ok (t_M st)).
Proof.
  induction Q as [|[D1 B1] Q IH]; intros D prev n l li zero M.
  - cbn [map tri_ltsolve_loop tri_ltstep tri_ltsteps]. destruct ((brow D =? bcol D) && (brow D <=? n))%nat; cbn [guard]; [|reflexivity].
    match goal with |- bind ?x _ = _ => destruct x as [[M1 z1]|] end; reflexivity.
  - remember (map fst ((D1, B1) :: Q)) as dd. cbn [tri_ltsolve_loop tri_ltstep]. subst dd. cbn [map fst snd hd_error tl].
    destruct ((brow D =? bcol D) && (brow D <=? n))%nat; cbn [guard]; [|reflexivity].
    match goal with |- bind ?x _ = _ => destruct x as [[M1 z1]|] end; [|reflexivity]. cbn [bind fst snd]. rewrite IH. cbn [tri_ltsteps].
    destruct (tri_ltstep e D1 (Some B1) (LT (n - brow D) n (brow D) z1 M1)); reflexivity.
Qed.
Lemma tri_ltsteps_app e Q Q' : forall st, tri_ltsteps e (Q ++ Q') st = do st <- tri_ltsteps e Q st; tri_ltsteps e Q' st.
Proof.
  induction Q as [|[D B] Q IH]; intros st; [reflexivity|]. cbn [app tri_ltsteps]. destruct (tri_ltstep e D (Some B) st); [apply IH|reflexivity].
Qed.
(** the blocks before the last one, from the last to the first, with the block below each *)
Fixpoint tri_q (D : rblk) (ds ss : list rblk) : list (rblk * rblk) :=
  match ss, ds with
  | B :: ss', D1 :: ds' => tri_q D1 ds' ss' ++ [(D, B)]
  | _, _ => []
  end.
Lemma last_indep {X} (l : list X) a b c : last (a :: l) b = last (a :: l) c.
Proof. revert a. induction l as [|d l IH]; intros a; [reflexivity|]. change (last (d :: l) b = last (d :: l) c). apply IH. Qed.
Lemma tri_q_rev ss : forall D ds, tri_sizes D ds ss -> rev (D :: ds) = last (D :: ds) D :: map fst (tri_q D ds ss) /\ rev ss = map snd (tri_q D ds ss).
Proof.
  induction ss as [|B ss IH]; intros D [|D1 ds] Hs; try (destruct Hs as [_ []]; fail); [split; reflexivity|].
  destruct Hs as (_ & _ & _ & Hs). destruct (IH D1 ds Hs) as [H1 H2].
  change (rev (D :: D1 :: ds)) with (rev (D1 :: ds) ++ [D]). rewrite H1. cbn [tri_q]. rewrite !map_app. cbn [map fst snd rev]. rewrite H2.
  split; [|reflexivity]. change (last (D :: D1 :: ds) D) with (last (D1 :: ds) D). rewrite (app_comm_cons). f_equal. f_equal.
  apply last_indep.
Qed.

Definition contrib_t (zero : bool) (prev : option rblk) (l li : nat) (M : rblk) (i j : nat) : R :=
  if zero then 0 else match prev with Some B => rsum li (fun t => bm B t i * bm M (l - li + t)%nat j) | None => 0 end.
Lemma tri_ltstep_spec c e (D : rblk) prev n l li zero (M : rblk) :
  brow D = bcol D -> (brow D <= n)%nat -> (forall i, (i < brow D)%nat -> bm D i i <> 0) -> (n <= brow M)%nat -> (e <= brow M)%nat ->
  (zero = false -> (n < e)%nat /\ (l - li = n)%nat /\ (l <= brow M)%nat /\ (li <= l)%nat /\ exists B, prev = Some B /\ bcol B = brow D /\ brow B = li) ->
  (zero = true -> (e <= n)%nat /\ forall i (j : col c), (e <= i)%nat -> (i < brow M)%nat -> bm M i j = 0) ->
  exists X zero', tri_ltstep e D prev (LT n l li zero M) = Ok (LT (n - brow D) n (brow D) zero' (Bk (brow M) (bcol M) X)) /\
    (zero' = false -> (n - brow D < e)%nat) /\ (zero' = true -> (e <= n - brow D)%nat /\ zero = true /\ (forall i (j : col c), X i j = bm M i j)) /\
    (forall i (j : col c), (i < n - brow D)%nat \/ (n <= i)%nat -> X i j = bm M i j) /\
    (forall i (j : col c), (i < brow D)%nat -> rsum (brow D) (fun k => lower (bm D) k i * X (n - brow D + k)%nat j) = bm M (n - brow D + i)%nat j - contrib_t zero prev l li M i j).
Proof.
  intros Hs Hle Hd Hn He Hz0 Hz1. unfold tri_ltstep. set (ni := brow D) in *. unfold guard at 1. rewrite (proj2 (Nat.eqb_eq _ _) Hs), (proj2 (Nat.leb_le _ _) Hle). cbn [andb].
  destruct (Nat.ltb_spec (n - ni) e) as [Hs1|Hs1].
  - destruct zero.
    + destruct (Hz1 eq_refl) as [Hns HM]. set (r := (e + ni - n)%nat). unfold guard. rewrite (proj2 (Nat.leb_le r ni)) by lia.
      destruct (rows_solve_t_spec (n - ni) r (bm D) M) as (X & EX & HX1 & HX2); [lia|]. rewrite EX. cbn [bind fst snd].
      exists X, false. split; [reflexivity|]. split; [auto|]. split; [discriminate|]. split; [intros i j Hi; apply HX1; lia|].
      intros i j Hi. cbn [contrib_t]. rewrite Rminus_0_r.
      apply (bwd_trunc_eq ni (bm D) (fun i => bm M (n - ni + i)%nat j) r (fun k => X (n - ni + k)%nat j)); auto; try lia.
      * intros t Ht. apply HM; lia.
      * intros t Ht. rewrite HX1 by lia. apply HM; lia.
    + destruct (Hz0 eq_refl) as (Hst & Hl & Hl1 & Hl2 & B & -> & HB1 & HB2). unfold guard at 1. rewrite (proj2 (Nat.eqb_eq _ _) HB1), (proj2 (Nat.eqb_eq _ _) HB2). cbn [andb].
      destruct (rows_sub_spec (n - ni) ni (fun i k => bm B k i) (l - li) li M) as (X1 & E1 & HX1 & HX2); [lia|lia|]. rewrite E1. cbn [bind].
      destruct (rows_solve_t_spec (n - ni) ni (bm D) (Bk (brow M) (bcol M) X1)) as (X & EX & HX3 & HX4); [cbn [brow]; lia|]. rewrite EX. cbn [bind brow bcol bm fst snd] in *.
      exists X, false. split; [reflexivity|]. split; [auto|]. split; [discriminate|]. split; [intros i j Hi; rewrite HX3, HX1 by lia; auto|].
      intros i j Hi. cbn [contrib_t].
      rewrite (sum_ext ni _ (fun k => upper (tr (bm D)) i k * @bwd Rops ni ni (tr (bm D)) (fun k => X1 (n - ni + k)%nat j) k)) by (intros; rewrite HX4, tr_lower_upper by auto; reflexivity).
      rewrite bwd_correct by auto. apply HX2. auto.
  - exists (bm M), zero. split; [destruct M; reflexivity|]. split. { intros ->. destruct (Hz0 eq_refl) as (? & _). lia. }
    assert (Hzt : zero = true). { destruct zero; auto. destruct (Hz0 eq_refl); lia. }
    split; [auto|]. split; [auto|]. subst zero. destruct (Hz1 eq_refl) as [Hns HM]. intros i j Hi. cbn [contrib_t]. rewrite HM by lia. rewrite Rminus_0_r.
    apply sum_zero. intros k Hk. rewrite HM by lia. lra.
Qed.
Theorem tri_ltsolve_correct c e : forall ss (D : rblk) ds base (M : rblk), tri_sizes D ds ss ->
  (forall i, (i < brow D + total ds)%nat -> tri_low D ds ss i i <> 0) -> (base + (brow D + total ds) = brow M)%nat -> (e <= brow M)%nat ->
  (forall i (j : col c), (e <= i)%nat -> (i < brow M)%nat -> bm M i j = 0) ->
  exists X zero, (do st <- tri_ltstep e (last (D :: ds) D) None (LT (brow M) 0 0 true M); tri_ltsteps e (tri_q D ds ss) st) =
      Ok (LT base (base + brow D) (brow D) zero (Bk (brow M) (bcol M) X)) /\
    (zero = false -> (base < e)%nat) /\ (zero = true -> (e <= base)%nat /\ (forall i (j : col c), X i j = bm M i j)) /\
    (forall i (j : col c), (i < base)%nat -> X i j = bm M i j) /\
    (forall i (j : col c), (i < brow D + total ds)%nat -> rsum (brow D + total ds) (fun k => lower (tri_low D ds ss) k i * X (base + k)%nat j) = bm M (base + i)%nat j).
Proof.
  induction ss as [|B ss IH]; intros D ds base M Hs Hd Hn He HM.
  - destruct ds as [|D1 ds]; [|destruct Hs as [_ []]]. destruct Hs as [Hs _]. cbn [total tri_low last tri_q tri_ltsteps] in *. rewrite Nat.add_0_r in *.
    destruct (tri_ltstep_spec c e D None (brow M) 0 0 true M) as (X & z' & E & HZ1 & HZ2 & HX1 & HX2); auto; try lia; try discriminate.
    rewrite E. cbn [bind]. replace (brow M - brow D)%nat with base in * by lia. exists X, z'. rewrite Hn. split; [reflexivity|]. split; [auto|]. split; [intros Hz; destruct (HZ2 Hz); tauto|]. split; [intros; apply HX1; lia|].
    intros i j Hi. rewrite HX2 by auto. cbn [contrib_t]. lra.
  - destruct ds as [|D1 ds]; [destruct Hs as [_ []]|]. destruct Hs as (Hs & HB1 & HB2 & Hs1). cbn [total] in *.
    assert (Hd0 : forall i, (i < brow D)%nat -> bm D i i <> 0). { intros i Hi. specialize (Hd i ltac:(lia)). cbn [tri_low] in Hd. rewrite blk2_00 in Hd by auto. exact Hd. }
    assert (Hd1 : forall i, (i < brow D1 + total ds)%nat -> tri_low D1 ds ss i i <> 0). { intros i Hi. specialize (Hd (brow D + i)%nat ltac:(lia)). cbn [tri_low] in Hd. rewrite blk2_11 in Hd. exact Hd. }
    destruct (IH D1 ds (base + brow D)%nat M) as (X1 & z1 & E1 & HZ1 & HZ2 & HX1 & HX2); auto; [lia|].
    change (last (D :: D1 :: ds) D) with (last (D1 :: ds) D). rewrite (last_indep ds D1 D D1).
    cbn [tri_q]. destruct (tri_ltstep e (last (D1 :: ds) D1) None (LT (brow M) 0 0 true M)) as [st|] eqn:E0; [|discriminate]. cbn [bind] in *.
    rewrite tri_ltsteps_app, E1. cbn [bind tri_ltsteps].
    set (n0 := brow D) in *. set (p := (brow D1 + total ds)%nat) in *.
    destruct (tri_ltstep_spec c e D (Some B) (base + n0) (base + n0 + brow D1) (brow D1) z1 (Bk (brow M) (bcol M) X1)) as (X & z' & E & HZ3 & HZ4 & HX3 & HX4); cbn [brow bcol bm]; auto; try (fold n0; lia).
    + intros Hz. split; [auto|]. split; [lia|]. split; [lia|]. split; [lia|]. exists B. auto.
    + intros Hz. destruct (HZ2 Hz) as [H1 H2]. split; [auto|]. intros i j Hi Hi'. rewrite H2. apply HM; auto.
    + rewrite E. cbn [bind]. cbn [brow bcol bm] in *. fold n0 in HX3, HX4, HZ3, HZ4 |- *. replace (base + n0 - n0)%nat with base in * by lia.
      exists X, z'. split; [reflexivity|]. split; [auto|]. split.
      { intros Hz. destruct (HZ4 Hz) as (H1 & H2 & H3). split; [auto|]. intros i j. rewrite H3. apply HZ2. auto. }
      split; [intros i j Hi; rewrite HX3 by lia; apply HX1; lia|].
      cbn [tri_low]. fold n0. rewrite HB1. intros i j Hi. destruct (Nat.lt_ge_cases i n0) as [Hi1|Hi1].
      * rewrite col2_top by auto. rewrite HX4 by auto. rewrite HX1 by lia.
        assert (HC : contrib_t z1 (Some B) (base + n0 + brow D1) (brow D1) (Bk (brow M) (bcol M) X1) i j = rsum p (fun k => pad_below (brow D1) (bm B) k i * X (base + (n0 + k))%nat j)).
        { unfold contrib_t. cbn [bm].
          assert (HR : rsum p (fun k => pad_below (brow D1) (bm B) k i * X (base + (n0 + k))%nat j) = rsum (brow D1) (fun k => bm B k i * X1 (base + n0 + k)%nat j)).
          { unfold p. rewrite sum_app. rewrite (sum_zero (total ds)).
            - rewrite Rplus_0_r. apply sum_ext. intros k Hk. unfold pad_below. rewrite (proj2 (Nat.ltb_lt _ _)) by auto. rewrite HX3 by lia. f_equal. f_equal. lia.
            - intros k Hk. unfold pad_below. rewrite (proj2 (Nat.ltb_ge _ _)) by lia. lra. }
          rewrite HR. destruct z1.
          - symmetry. apply sum_zero. intros k Hk. destruct (HZ2 eq_refl) as [H1 H2]. rewrite H2. rewrite HM by lia. lra.
          - apply sum_ext. intros k Hk. f_equal. f_equal. lia. }
        rewrite HC. lra.
      * set (i' := (i - n0)%nat). replace i with (n0 + i')%nat by (unfold i'; lia). rewrite col2_bot.
        rewrite (sum_ext p _ (fun k => lower (tri_low D1 ds ss) k i' * X1 (base + n0 + k)%nat j)).
        -- rewrite HX2 by (unfold i'; lia). f_equal. lia.
        -- intros k Hk. rewrite HX3 by lia. f_equal. f_equal. lia.
Qed.

(** ** blockArrowLSolve *)
Lemma pad_above_row r (B : rmat) n (w : rvec) i : rsum n (fun k => pad_above r B i k * w k) = if (i <? r)%nat then 0 else rsum n (fun k => B (i - r)%nat k * w k).
Proof. unfold pad_above. destruct (i <? r)%nat; [|reflexivity]. apply sum_zero. intros. lra. Qed.
Lemma rows_zero_true c (isz : R -> bool) a r (M : rblk) : bcol M = c -> isz 0 = true -> (forall i (j : col c), (i < r)%nat -> bm M (a + i)%nat j = 0) -> @rows_zero Rops isz a r M = true.
Proof.
  intros Hc Hz H. unfold rows_zero. apply forallb_forall. intros i Hi. apply in_seq in Hi. apply forallb_forall. intros j Hj. apply in_seq in Hj.
  assert (Hj' : (j < c)%nat) by lia. change j with (col_nat (mkcol Hj')). rewrite H by lia. exact Hz.
Qed.
Lemma rows_zero_false (isz : R -> bool) a r (M : rblk) i j : (i < r)%nat -> (j < bcol M)%nat -> isz (bm M (a + i)%nat j) = false -> @rows_zero Rops isz a r M = false.
Proof.
  intros Hi Hj H. apply not_true_iff_false. intros E. unfold rows_zero in E. rewrite forallb_forall in E. specialize (E i). rewrite in_seq in E. specialize (E ltac:(lia)).
  rewrite forallb_forall in E. specialize (E j). rewrite in_seq in E. specialize (E ltac:(lia)). cbn in *. congruence.
Qed.

Definition arrow_lstep (isz : R -> bool) up (start e nlast : nat) (D X : rblk) (n : nat) (M : rblk) : res rblk :=
  let ni := brow D in
  let s := (start - n)%nat in
  if ((ni <? s) || (e <=? n))%nat then
    guard (n + ni <=? brow M)%nat (guard (@rows_zero Rops isz n ni M) (Ok M))
  else
    do M <- rows_solve (n + s) (ni - s) (shift s (bm D)) M;
    let B := get_B up X in
    guard ((nlast <=? brow M) && (brow B =? nlast) && (s + (ni - s) <=? bcol B))%nat
      (rows_sub (brow M - nlast) nlast (fun i k => bm B i (s + k)%nat) (n + s) (ni - s) M).
Lemma arrow_lstep_spec c (isz : R -> bool) up start e nb (D X : rblk) n (M : rblk) : bcol M = c -> isz 0 = true ->
  (forall i, (i < brow D)%nat -> bm D i i <> 0) -> (n + brow D + nb <= brow M)%nat -> brow (get_B up X) = nb -> bcol (get_B up X) = brow D ->
  (forall i (j : col c), (n <= i)%nat -> (i < n + brow D)%nat -> (i < start)%nat \/ (e <= i)%nat -> bm M i j = 0) ->
  exists X1, arrow_lstep isz up start e nb D X n M = Ok (Bk (brow M) (bcol M) X1) /\
    (forall i (j : col c), (i < n)%nat \/ (n + brow D <= i)%nat -> (i < brow M - nb)%nat -> X1 i j = bm M i j) /\
    (forall i (j : col c), (i < brow D)%nat -> rsum (brow D) (fun k => lower (bm D) i k * X1 (n + k)%nat j) = bm M (n + i)%nat j) /\
    (forall i (j : col c), (i < nb)%nat -> X1 (brow M - nb + i)%nat j = bm M (brow M - nb + i)%nat j - rsum (brow D) (fun k => bm (get_B up X) i k * X1 (n + k)%nat j)).
Proof.
  intros Hc Hz Hd Hn HB1 HB2 HM. unfold arrow_lstep. set (ni := brow D) in *. set (s := (start - n)%nat). cbv zeta.
  destruct ((ni <? s) || (e <=? n))%nat eqn:Esk.
  - assert (HM0 : forall i (j : col c), (i < ni)%nat -> bm M (n + i)%nat j = 0).
    { intros i j Hi. apply HM; try lia. apply orb_prop in Esk. destruct Esk as [Es|Es]; [apply Nat.ltb_lt in Es|apply Nat.leb_le in Es]; unfold s in *; lia. }
    unfold guard. rewrite (proj2 (Nat.leb_le _ _)) by lia. rewrite (rows_zero_true c) by auto.
    exists (bm M). split; [destruct M; reflexivity|]. split; [auto|]. split.
    + intros i j Hi. rewrite HM0 by auto. apply sum_zero. intros k Hk. rewrite HM0 by auto. lra.
    + intros i j Hi. rewrite (sum_zero ni); [lra|]. intros k Hk. rewrite HM0 by auto. lra.
  - apply orb_false_elim in Esk. destruct Esk as [Es1 Es2]. apply Nat.ltb_ge in Es1. apply Nat.leb_gt in Es2.
    destruct (rows_solve_spec (n + s) (ni - s) (shift s (bm D)) M) as (X0 & E0 & HX1 & HX2); [lia|]. rewrite E0. cbn [bind brow].
    unfold guard. rewrite (proj2 (Nat.leb_le nb _)), (proj2 (Nat.eqb_eq _ _) HB1), (proj2 (Nat.leb_le _ (bcol _))) by lia. cbn [andb].
    destruct (rows_sub_spec (brow M - nb) nb (fun i k => bm (get_B up X) i (s + k)%nat) (n + s) (ni - s) (Bk (brow M) (bcol M) X0)) as (X1 & E1 & HX3 & HX4); cbn [brow bcol bm]; [lia|lia|].
    rewrite E1. cbn [brow bcol bm] in *. exists X1. split; [reflexivity|].
    assert (HX3' : forall i (j : col c), (i < brow M - nb)%nat -> X1 i j = X0 i j). { intros i j Hi. apply HX3. lia. }
    assert (HX00 : forall k (j : col c), (k < s)%nat -> X0 (n + k)%nat j = 0). { intros k j Hk. rewrite HX1 by lia. apply HM; unfold s in *; lia. }
    split; [|split].
    + intros i j Hi Hi'. rewrite HX3' by auto. apply HX1. lia.
    + intros i j Hi. apply (fwd_shift_eq ni (bm D) (fun i => bm M (n + i)%nat j) s (fun k => X1 (n + k)%nat j)); auto.
      * intros t Ht. apply HM; unfold s in *; lia.
      * intros t Ht. rewrite HX3' by lia. apply HX00. auto.
      * intros t Ht. rewrite HX3' by lia. replace (n + (s + t))%nat with (n + s + t)%nat by lia. rewrite HX2 by lia.
        apply (fwd_ext' (ni - s)); try lia. intros k Hk. f_equal. lia.
    + intros i j Hi. rewrite HX4 by auto. f_equal; [rewrite HX1 by lia; reflexivity|].
      replace ni with (s + (ni - s))%nat at 2 by lia. rewrite sum_app. rewrite (sum_zero s) by (intros k Hk; rewrite HX3', HX00 by lia; lra). rewrite Rplus_0_l.
      apply sum_ext. intros k Hk. rewrite HX3' by lia. f_equal. f_equal. lia.
Qed.
Lemma arrow_loop_step isz up start e nlast D ds X ss n M :
  @arrow_lsolve_loop Rops isz up start e nlast (D :: ds) (X :: ss) n M =
  guard (brow D =? bcol D)%nat (do M <- arrow_lstep isz up start e nlast D X n M; @arrow_lsolve_loop Rops isz up start e nlast ds ss (n + brow D) M).
Proof. reflexivity. Qed.
Theorem arrow_lsolve_loop_correct c isz up start e : isz 0 = true -> forall ds ss (Db : rblk) n (M : rblk), bcol M = c -> arrow_sizes ds (map (get_B up) ss) Db ->
  (forall i, (i < total ds + brow Db)%nat -> arrow_low ds (map (get_B up) ss) Db i i <> 0) -> (n + (total ds + brow Db) = brow M)%nat ->
  (forall i (j : col c), (n <= i)%nat -> (i < n + total ds)%nat -> (i < start)%nat \/ (e <= i)%nat -> bm M i j = 0) ->
  exists X, (do t <- @arrow_lsolve_loop Rops isz up start e (brow Db) ds ss n M; guard (brow Db =? bcol Db)%nat (rows_solve (fst t) (brow Db) (bm Db) (snd t))) = Ok (Bk (brow M) (bcol M) X) /\
    (forall i (j : col c), (i < n)%nat -> X i j = bm M i j) /\
    (forall i (j : col c), (i < total ds + brow Db)%nat -> rsum (total ds + brow Db) (fun k => lower (arrow_low ds (map (get_B up) ss) Db) i k * X (n + k)%nat j) = bm M (n + i)%nat j).
Proof.
  intros Hz. induction ds as [|D ds IH]; intros ss Db n M Hc Hs Hd Hn HM.
  - destruct ss as [|B ss]; [|destruct Hs]. cbn [map arrow_sizes arrow_low total arrow_lsolve_loop bind fst snd] in *. rewrite Nat.add_0_l in *.
    unfold guard at 1. rewrite (proj2 (Nat.eqb_eq _ _) Hs). destruct (rows_solve_spec n (brow Db) (bm Db) M) as (X & E & HX1 & HX2); [lia|].
    exists X. split; [exact E|]. split; [intros; apply HX1; lia|]. intros i j Hi.
    rewrite (sum_ext (brow Db) _ (fun k => lower (bm Db) i k * @fwd Rops (brow Db) (bm Db) (fun k => bm M (n + k)%nat j) k)) by (intros; rewrite HX2 by auto; reflexivity).
    apply (fwd_correct (brow Db) (bm Db) (fun k => bm M (n + k)%nat j)); auto.
  - destruct ss as [|B ss]; [destruct Hs|]. cbn [map arrow_sizes] in Hs. destruct Hs as (Hs & HB1 & HB2 & Hs1). cbn [total] in *.
    assert (Hd0 : forall i, (i < brow D)%nat -> bm D i i <> 0). { intros i Hi. specialize (Hd i ltac:(lia)). cbn [map arrow_low] in Hd. rewrite blk2_00 in Hd by auto. exact Hd. }
    assert (Hd1 : forall i, (i < total ds + brow Db)%nat -> arrow_low ds (map (get_B up) ss) Db i i <> 0). { intros i Hi. specialize (Hd (brow D + i)%nat ltac:(lia)). cbn [map arrow_low] in Hd. rewrite blk2_11 in Hd. exact Hd. }
    rewrite arrow_loop_step. unfold guard at 1. rewrite (proj2 (Nat.eqb_eq _ _) Hs).
    destruct (arrow_lstep_spec c isz up start e (brow Db) D B n M) as (X1 & E1 & HX1 & HX2 & HX3); auto; [lia|intros; apply HM; lia|]. rewrite E1. cbn [bind].
    destruct (IH ss Db (n + brow D)%nat (Bk (brow M) (bcol M) X1)) as (X & EX & HX4 & HX5); cbn [brow bcol bm]; auto; [lia| |].
    + intros i j Hi1 Hi2 Hi3. rewrite HX1 by lia. apply HM; lia.
    + rewrite EX. cbn [brow bcol bm] in *. exists X. split; [reflexivity|]. split; [intros i j Hi; rewrite HX4, HX1 by lia; reflexivity|].
      cbn [map arrow_low]. set (n0 := brow D) in *. set (p := (total ds + brow Db)%nat) in *.
      rewrite <- Nat.add_assoc. fold p. intros i j Hi. destruct (Nat.lt_ge_cases i n0) as [Hi1|Hi1].
      * rewrite row2_top by auto. rewrite <- HX2 by auto. apply sum_ext. intros k Hk. rewrite HX4 by lia. reflexivity.
      * set (i' := (i - n0)%nat). replace i with (n0 + i')%nat by (unfold i'; lia). rewrite row2_bot.
        rewrite (sum_ext p _ (fun k => lower (arrow_low ds (map (get_B up) ss) Db) i' k * X (n + n0 + k)%nat j)) by (intros; rewrite Nat.add_assoc; reflexivity).
        rewrite HX5 by (unfold i'; lia). rewrite pad_above_row. destruct (Nat.ltb_spec i' (total ds)) as [Hi2|Hi2].
        -- rewrite HX1 by (unfold p in *; lia). rewrite Nat.add_assoc. lra.
        -- rewrite (sum_ext n0 _ (fun k => bm (get_B up B) (i' - total ds)%nat k * X1 (n + k)%nat j)) by (intros; rewrite HX4 by lia; reflexivity).
           replace (n + n0 + i')%nat with (brow M - brow Db + (i' - total ds))%nat by (unfold p in *; lia). rewrite HX3 by (unfold i', p in *; lia).
           replace (n + (n0 + i'))%nat with (brow M - brow Db + (i' - total ds))%nat by (unfold p in *; lia). lra.
Qed.

(** ** blockArrowLTransposeSolve *)
Definition arrow_ltstep up (start e : nat) (zero : bool) (nb : nat) (D X : rblk) (n : nat) (M : rblk) : res rblk :=
  let ni := brow D in
  if zero && (n + ni <=? start)%nat then Ok M
  else
    do M <- (if zero then Ok M
             else let B := get_B up X in
               guard ((bcol B =? ni) && (brow B =? nb))%nat (rows_sub n ni (fun i k => bm B k i) (brow M - nb) nb M));
    if (n <=? e)%nat then
      if (n + ni <=? e)%nat then rows_solve_t n ni (bm D) M
      else guard zero (rows_solve_t n (e - n) (bm D) M)
    else Ok M.
Lemma arrow_ltloop_step up start e zero nb D ds X ss n M :
  @arrow_ltsolve_loop Rops up start e zero nb (D :: ds) (X :: ss) n M =
  guard ((brow D =? bcol D) && (n + brow D <=? brow M))%nat (do M <- arrow_ltstep up start e zero nb D X n M; @arrow_ltsolve_loop Rops up start e zero nb ds ss (n + brow D) M).
Proof.
  cbn [arrow_ltsolve_loop]. destruct ((brow D =? bcol D) && (n + brow D <=? brow M))%nat; [|reflexivity]. cbn [guard]. unfold arrow_ltstep. cbv zeta.
  destruct (zero && (n + brow D <=? start)%nat); [reflexivity|].
  match goal with |- bind ?x _ = bind (bind ?x _) _ => destruct x end; reflexivity.
Qed.
Lemma arrow_ltstep_spec c up start e zero nb (D X : rblk) n (M : rblk) :
  (forall i, (i < brow D)%nat -> bm D i i <> 0) -> (n + brow D + nb <= brow M)%nat -> brow (get_B up X) = nb -> bcol (get_B up X) = brow D ->
  (zero = false -> (brow M - nb < e)%nat) -> (zero = true -> (e <= brow M - nb)%nat /\ forall i (j : col c), (i < nb)%nat -> bm M (brow M - nb + i)%nat j = 0) ->
  (forall i (j : col c), (n <= i)%nat -> (i < n + brow D)%nat -> (i < start)%nat \/ (e <= i)%nat -> bm M i j = 0) ->
  exists X1, arrow_ltstep up start e zero nb D X n M = Ok (Bk (brow M) (bcol M) X1) /\
    (forall i (j : col c), (i < n)%nat \/ (n + brow D <= i)%nat -> X1 i j = bm M i j) /\
    (forall i (j : col c), (i < brow D)%nat -> rsum (brow D) (fun k => lower (bm D) k i * X1 (n + k)%nat j) + rsum nb (fun k => bm (get_B up X) k i * bm M (brow M - nb + k)%nat j) = bm M (n + i)%nat j).
Proof.
  intros Hd Hn HB1 HB2 Hz0 Hz1 HM. unfold arrow_ltstep. set (ni := brow D) in *. cbv zeta. destruct zero; cbn [andb].
  - destruct (Hz1 eq_refl) as [He Hb].
    assert (HR : forall i (j : col c), rsum nb (fun k => bm (get_B up X) k i * bm M (brow M - nb + k)%nat j) = 0). { intros i j. apply sum_zero. intros k Hk. rewrite Hb by auto. lra. }
    assert (HT : forall r (X1 : rmat), (r <= ni)%nat -> (forall i (j : col c), (r <= i)%nat -> (i < ni)%nat -> bm M (n + i)%nat j = 0) ->
        (forall i (j : col c), (i < n)%nat \/ (n + r <= i)%nat -> X1 i j = bm M i j) -> (forall t (j : col c), (t < r)%nat -> X1 (n + t)%nat j = @bwd Rops r r (tr (bm D)) (fun k => bm M (n + k)%nat j) t) ->
        forall i (j : col c), (i < ni)%nat -> rsum ni (fun k => lower (bm D) k i * X1 (n + k)%nat j) + rsum nb (fun k => bm (get_B up X) k i * bm M (brow M - nb + k)%nat j) = bm M (n + i)%nat j).
    { intros r X1 Hr Hr0 HX1 HX2 i j Hi. rewrite HR, Rplus_0_r. apply (bwd_trunc_eq ni (bm D) (fun i => bm M (n + i)%nat j) r (fun k => X1 (n + k)%nat j)); auto.
      - intros t Ht. apply Hr0; lia.
      - intros t Ht. rewrite HX1 by lia. apply Hr0; lia. }
    assert (HZ : (forall i (j : col c), (i < ni)%nat -> bm M (n + i)%nat j = 0) -> forall i (j : col c), (i < ni)%nat -> rsum ni (fun k => lower (bm D) k i * bm M (n + k)%nat j) + rsum nb (fun k => bm (get_B up X) k i * bm M (brow M - nb + k)%nat j) = bm M (n + i)%nat j).
    { intros H0 i j Hi. apply (HT 0%nat (bm M)); auto; intros; lia. }
    destruct (Nat.leb_spec (n + ni) start) as [Hst|Hst].
    + exists (bm M). split; [destruct M; reflexivity|]. split; [auto|]. apply HZ. intros i j Hi. apply HM; lia.
    + cbn [bind]. destruct (Nat.leb_spec n e) as [He1|He1].
      * destruct (Nat.leb_spec (n + ni) e) as [He2|He2].
        -- destruct (rows_solve_t_spec n ni (bm D) M) as (X1 & E & HX1 & HX2); [lia|]. exists X1. split; [exact E|]. split; [auto|]. apply (HT ni); auto; intros; lia.
        -- cbn [guard]. destruct (rows_solve_t_spec n (e - n) (bm D) M) as (X1 & E & HX1 & HX2); [lia|]. exists X1. split; [exact E|]. split; [intros; apply HX1; lia|].
           apply (HT (e - n)%nat); auto; [lia|]. intros i j H1 H2. apply HM; lia.
      * exists (bm M). split; [destruct M; reflexivity|]. split; [auto|]. apply HZ. intros i j Hi. apply HM; lia.
  - specialize (Hz0 eq_refl). unfold guard at 1. rewrite (proj2 (Nat.eqb_eq _ _) HB1), (proj2 (Nat.eqb_eq _ _) HB2). cbn [andb].
    destruct (rows_sub_spec n ni (fun i k => bm (get_B up X) k i) (brow M - nb) nb M) as (X0 & E0 & HX1 & HX2); [lia|lia|]. rewrite E0. cbn [bind].
    rewrite (proj2 (Nat.leb_le n e)), (proj2 (Nat.leb_le (n + ni) e)) by lia.
    destruct (rows_solve_t_spec n ni (bm D) (Bk (brow M) (bcol M) X0)) as (X1 & E & HX3 & HX4); cbn [brow]; [lia|]. cbn [brow bcol bm] in *. exists X1. split; [exact E|].
    split; [intros; rewrite HX3, HX1 by lia; reflexivity|]. intros i j Hi.
    rewrite (sum_ext ni _ (fun k => upper (tr (bm D)) i k * @bwd Rops ni ni (tr (bm D)) (fun k => X0 (n + k)%nat j) k)) by (intros; rewrite HX4, tr_lower_upper by auto; reflexivity).
    rewrite bwd_correct; auto. rewrite HX2 by auto. lra.
Qed.
Theorem arrow_ltsolve_loop_correct c up start e zero (bb : rmat) : forall ds ss (Db : rblk) n (M : rblk), arrow_sizes ds (map (get_B up) ss) Db ->
  (forall i, (i < total ds + brow Db)%nat -> arrow_low ds (map (get_B up) ss) Db i i <> 0) -> (n + (total ds + brow Db) = brow M)%nat ->
  (zero = false -> (brow M - brow Db < e)%nat) -> (zero = true -> (e <= brow M - brow Db)%nat /\ forall i (j : col c), (i < brow Db)%nat -> bm M (brow M - brow Db + i)%nat j = 0) ->
  (forall i (j : col c), (n <= i)%nat -> (i < n + total ds)%nat -> (i < start)%nat \/ (e <= i)%nat -> bm M i j = 0) ->
  (forall i (j : col c), (i < brow Db)%nat -> rsum (brow Db) (fun k => lower (bm Db) k i * bm M (brow M - brow Db + k)%nat j) = bb i j) ->
  exists X, @arrow_ltsolve_loop Rops up start e zero (brow Db) ds ss n M = Ok (Bk (brow M) (bcol M) X) /\
    (forall i (j : col c), (i < n)%nat \/ (n + total ds <= i)%nat -> X i j = bm M i j) /\
    (forall i (j : col c), (i < total ds + brow Db)%nat -> rsum (total ds + brow Db) (fun k => lower (arrow_low ds (map (get_B up) ss) Db) k i * X (n + k)%nat j) =
       if (i <? total ds)%nat then bm M (n + i)%nat j else bb (i - total ds)%nat j).
Proof.
  induction ds as [|D ds IH]; intros ss Db n M Hs Hd Hn Hz0 Hz1 HM Hb.
  - destruct ss as [|B ss]; [|destruct Hs]. cbn [map arrow_sizes arrow_low total arrow_ltsolve_loop] in *. rewrite Nat.add_0_l in *.
    exists (bm M). split; [destruct M; reflexivity|]. split; [auto|]. intros i j Hi. cbn [Nat.ltb Nat.leb]. rewrite Nat.sub_0_r. rewrite <- Hb by auto.
    apply sum_ext. intros k Hk. f_equal. f_equal. lia.
  - destruct ss as [|B ss]; [destruct Hs|]. cbn [map arrow_sizes] in Hs. destruct Hs as (Hs & HB1 & HB2 & Hs1). cbn [total] in *.
    assert (Hd0 : forall i, (i < brow D)%nat -> bm D i i <> 0). { intros i Hi. specialize (Hd i ltac:(lia)). cbn [map arrow_low] in Hd. rewrite blk2_00 in Hd by auto. exact Hd. }
    assert (Hd1 : forall i, (i < total ds + brow Db)%nat -> arrow_low ds (map (get_B up) ss) Db i i <> 0). { intros i Hi. specialize (Hd (brow D + i)%nat ltac:(lia)). cbn [map arrow_low] in Hd. rewrite blk2_11 in Hd. exact Hd. }
    rewrite arrow_ltloop_step. unfold guard at 1. rewrite (proj2 (Nat.eqb_eq _ _) Hs), (proj2 (Nat.leb_le _ _)) by lia. cbn [andb].
    destruct (arrow_ltstep_spec c up start e zero (brow Db) D B n M) as (X1 & E1 & HX1 & HX2); auto; [lia|intros; apply HM; lia|]. rewrite E1. cbn [bind].
    destruct (IH ss Db (n + brow D)%nat (Bk (brow M) (bcol M) X1)) as (X & EX & HX4 & HX5); cbn [brow bcol bm]; auto; [lia| | | |].
    + intros Hzt. destruct (Hz1 Hzt) as [H1 H2]. split; [auto|]. intros i j Hi. rewrite HX1 by lia. auto.
    + intros i j Hi1 Hi2 Hi3. rewrite HX1 by lia. apply HM; lia.
    + intros i j Hi. rewrite <- Hb by auto. apply sum_ext. intros k Hk. rewrite HX1 by lia. reflexivity.
    + rewrite EX. cbn [brow bcol bm] in *. exists X. split; [reflexivity|]. split; [intros i j Hi; rewrite HX4, HX1 by lia; reflexivity|].
      cbn [map arrow_low]. set (n0 := brow D) in *. set (p := (total ds + brow Db)%nat) in *.
      rewrite <- Nat.add_assoc. fold p. intros i j Hi. destruct (Nat.lt_ge_cases i n0) as [Hi1|Hi1].
      * rewrite (proj2 (Nat.ltb_lt _ _)) by lia. rewrite col2_top by auto. rewrite <- HX2 by auto. f_equal.
        -- apply sum_ext. intros k Hk. rewrite HX4 by lia. reflexivity.
        -- unfold p. rewrite sum_app. rewrite (sum_zero (total ds)) by (intros k Hk; unfold pad_above; rewrite (proj2 (Nat.ltb_lt _ _) Hk); lra).
           rewrite Rplus_0_l. apply sum_ext. intros k Hk. unfold pad_above. rewrite (proj2 (Nat.ltb_ge _ _)) by lia. f_equal; [f_equal; lia|].
           rewrite HX4, HX1 by lia. f_equal. unfold p in *. lia.
      * set (i' := (i - n0)%nat). replace i with (n0 + i')%nat by (unfold i'; lia). rewrite col2_bot.
        rewrite (sum_ext p _ (fun k => lower (arrow_low ds (map (get_B up) ss) Db) k i' * X (n + n0 + k)%nat j)) by (intros; rewrite Nat.add_assoc; reflexivity).
        rewrite HX5 by (unfold i'; lia). destruct (Nat.ltb_spec i' (total ds)), (Nat.ltb_spec (n0 + i') (n0 + total ds)); try lia.
        -- rewrite HX1 by lia. f_equal. lia.
        -- f_equal. lia.
Qed.
Theorem arrow_ltsolve_correct c up start e ds ss (Db : rblk) (M : rblk) diag : arrow_split up diag = Some (ds, Db) -> arrow_sizes ds (map (get_B up) ss) Db ->
  (forall i, (i < total ds + brow Db)%nat -> arrow_low ds (map (get_B up) ss) Db i i <> 0) -> (total ds + brow Db = brow M)%nat -> (e <= brow M)%nat ->
  (forall i (j : col c), (i < brow M)%nat -> (i < start)%nat \/ (e <= i)%nat -> bm M i j = 0) ->
  exists X, @arrow_ltsolve_ Rops up diag ss M start e = Ok (Bk (brow M) (bcol M) X) /\
    (forall i (j : col c), (i < brow M)%nat -> rsum (brow M) (fun k => lower (arrow_low ds (map (get_B up) ss) Db) k i * X k j) = bm M i j).
Proof.
  intros Hsp Hs Hd Hn He HM. unfold arrow_ltsolve_. rewrite Hsp. set (nb := brow Db) in *.
  assert (HDb : brow Db = bcol Db). { clear - Hs. revert ss Hs. induction ds as [|D ds IH]; intros [|B ss] Hs; cbn in Hs; try contradiction; auto. apply (IH ss). tauto. }
  assert (Hdb : forall i, (i < nb)%nat -> bm Db i i <> 0).
  { intros i Hi. rewrite <- (arrow_low_last' ds (map (get_B up) ss) Db Hs i i) by auto. apply Hd. lia. }
  unfold guard at 1. fold nb. rewrite (proj2 (Nat.leb_le nb _)) by lia. rewrite (proj2 (Nat.eqb_eq nb (bcol Db)) HDb). cbn [andb].
  set (bb := fun i j => bm M (brow M - nb + i)%nat j).
  destruct (Nat.ltb_spec (brow M - nb) e) as [He1|He1].
  - unfold guard at 1. rewrite (proj2 (Nat.leb_le _ nb)) by lia. set (r := (e + nb - brow M)%nat).
    destruct (rows_solve_t_spec (brow M - nb) r (bm Db) M) as (X0 & E0 & HX1 & HX2); [lia|]. rewrite E0. cbn [bind fst snd].
    destruct (arrow_ltsolve_loop_correct c up start e false bb ds ss Db 0 (Bk (brow M) (bcol M) X0)) as (X & E & _ & HX); cbn [brow bcol bm]; auto; try discriminate.
    + intros i j H1 H2 H3. rewrite HX1 by lia. apply HM; auto; lia.
    + intros i j Hi. fold nb. apply (bwd_trunc_eq nb (bm Db) (fun i => bb i j) r (fun k => X0 (brow M - nb + k)%nat j)); auto; try lia; unfold bb.
      * intros t Ht. apply HM; lia.
      * intros t Ht. rewrite HX1 by lia. apply HM; lia.
      * intros t Ht. apply (HX2 t j Ht).
    + cbn [brow bcol bm] in *. fold nb in E, HX. rewrite Hn in HX. exists X. split; [exact E|]. intros i j Hi. rewrite (sum_ext _ _ (fun k => lower (arrow_low ds (map (get_B up) ss) Db) k i * X (0 + k)%nat j)) by reflexivity.
      rewrite HX by auto. unfold bb. destruct (Nat.ltb_spec i (total ds)); [rewrite HX1 by lia; reflexivity|f_equal; lia].
  - cbn [bind fst snd].
    destruct (arrow_ltsolve_loop_correct c up start e true bb ds ss Db 0 M) as (X & E & _ & HX); cbn [brow bcol bm]; auto; try discriminate.
    + intros _. split; [auto|]. intros i j Hi. fold nb in Hi |- *. apply HM; lia.
    + intros i j H1 H2 H3. apply HM; auto; lia.
    + intros i j Hi. fold nb. unfold bb. fold nb in Hi. rewrite HM by lia. apply sum_zero. intros k Hk. rewrite HM by lia. lra.
    + fold nb in E, HX. rewrite Hn in HX. exists X. split; [exact E|]. intros i j Hi. rewrite (sum_ext _ _ (fun k => lower (arrow_low ds (map (get_B up) ss) Db) k i * X (0 + k)%nat j)) by reflexivity.
      rewrite HX by auto. unfold bb. destruct (Nat.ltb_spec i (total ds)); [reflexivity|f_equal; lia].
Qed.

(** Orders of summation: over the exact reals the order does not matter; an order other than left to right. *)
From Coq Require Import List Arith ZArith Lia Bool Reals Lra Permutation.
From Flocq Require Import Core IEEE754.BinarySingleNaN.
From Verif Require Import Base ActiveSet Num Solver LinAlg DoubleOps PropDouble.
Import ListNotations.

(** ** Exact reals *)
(** the real numbers with another order of summation *)
Definition Rw (wo : sumorder) : ops := Ops R 0%R 1%R Rplus Rminus Rmult Rdiv Ropp sqrt (ltb Rops) (leb Rops) (eqb Rops) (eps14 Rops) wo.
Definition lsumR (f : nat -> R) (l : list nat) : R := fold_right (fun i a => f i + a)%R 0%R l.
Lemma lsumR_app f l1 l2 : (lsumR f (l1 ++ l2) = lsumR f l1 + lsumR f l2)%R.
Proof. unfold lsumR. induction l1 as [|i l1 IH]; cbn [fold_right app]; [lra|]. rewrite IH. lra. Qed.
Lemma lsumR_perm f l1 l2 : Permutation l1 l2 -> lsumR f l1 = lsumR f l2.
Proof. unfold lsumR. induction 1; cbn [fold_right]; try congruence. lra. Qed.
Lemma lsumR_seq f n : lsumR f (seq 0 n) = rsum n f.
Proof. induction n as [|n IH]; [rewrite sum_0; reflexivity|]. rewrite seq_S, lsumR_app, IH, sum_S. cbn [lsumR fold_right]. rewrite Nat.add_0_l. lra. Qed.
Lemma seval_leaves wo f t : @seval (Rw wo) f t = lsumR f (leaves t).
Proof. induction t as [|i|l IHl r IHr]; cbn [seval leaves]; [reflexivity|unfold lsumR; cbn; lra|]. rewrite IHl, IHr, lsumR_app. reflexivity. Qed.
Theorem real_order_irrelevant : forall (wo : sumorder) key n (f : nat -> R), @sumn (Rw wo) key n f = rsum n f.
Proof.
  intros wo key n f. unfold sumn. rewrite seval_leaves. change (order (Rw wo)) with wo. rewrite (lsumR_perm f _ _ (proj1 (so_tree_ok wo key n))). apply lsumR_seq.
Qed.
Theorem real_order_irrelevant_sub : forall (wo : sumorder) key n (a : R) (f : nat -> R), @subn (Rw wo) key n a f = (a - rsum n f)%R.
Proof.
  intros wo key n a f. unfold subn. change (order (Rw wo)) with wo. rewrite <- lsumR_seq, <- (lsumR_perm f _ _ (proj1 (so_sub_ok wo key n))).
  generalize (so_sub wo key n) as l. intros l. revert a. induction l as [|t l IH]; intros a; [unfold lsumR; cbn; lra|].
  cbn [fold_left flat_map]. rewrite IH, seval_leaves, lsumR_app. change (sub (Rw wo)) with Rminus. lra.
Qed.

(** ** Two lanes, as a vectorised reduction does: the even terms, the odd terms, then the two results;
    a subtraction takes the terms away one by one. *)
Definition lane (l : list nat) : stree := match l with [] => SZero | x :: r => fold_left (fun t i => SAdd t (SLeaf i)) r (SLeaf x) end.
Definition two_lanes (n : nat) : stree :=
  match n with 0 | 1 => lane (seq 0 n) | _ => SAdd (lane (filter Nat.even (seq 0 n))) (lane (filter (fun i => negb (Nat.even i)) (seq 0 n))) end.
Lemma lane_aux r : forall t, leaves (fold_left (fun t i => SAdd t (SLeaf i)) r t) = leaves t ++ r /\
  depth (fold_left (fun t i => SAdd t (SLeaf i)) r t) = depth t + length r.
Proof.
  induction r as [|i r IH]; intros t; cbn [fold_left length]; [rewrite app_nil_r; split; [reflexivity|lia]|].
  destruct (IH (SAdd t (SLeaf i))) as (H1 & H2). rewrite H1, H2. cbn [leaves depth]. rewrite <- app_assoc. split; [reflexivity|lia].
Qed.
Lemma lane_leaves l : leaves (lane l) = l.
Proof. destruct l as [|x r]; [reflexivity|]. unfold lane. rewrite (proj1 (lane_aux r (SLeaf x))). reflexivity. Qed.
Lemma lane_depth l : depth (lane l) = length l - 1.
Proof. destruct l as [|x r]; [reflexivity|]. unfold lane. rewrite (proj2 (lane_aux r (SLeaf x))). cbn. lia. Qed.
Lemma filter_both (f : nat -> bool) l : Permutation (filter f l ++ filter (fun i => negb (f i)) l) l.
Proof.
  induction l as [|i l IH]; [constructor|]. cbn [filter]. destruct (f i); cbn [negb].
  - cbn. constructor. exact IH.
  - apply Permutation_sym, Permutation_cons_app, Permutation_sym. exact IH.
Qed.
Lemma filter_len (f : nat -> bool) l : length (filter f l) + length (filter (fun i => negb (f i)) l) = length l.
Proof. rewrite <- app_length. apply Permutation_length, filter_both. Qed.
Lemma two_lanes_ok n : tree_ok n (two_lanes n).
Proof.
  unfold tree_ok, two_lanes. destruct n as [|[|k]].
  - split; [constructor|cbn; lia].
  - split; [apply Permutation_refl|cbn; lia].
  - set (n := S (S k)). cbn [leaves depth]. rewrite !lane_leaves, !lane_depth. split; [apply filter_both|].
    pose proof (filter_len Nat.even (seq 0 n)) as H. rewrite seq_length in H. lia.
Qed.
Definition lanes_order : sumorder.
Proof.
  refine (SumOrder (fun _ n => two_lanes n) (fun _ n => map SLeaf (seq 0 n)) _ _); intros _ n; [apply two_lanes_ok|].
  split; [|split].
  - replace (flat_map leaves (map SLeaf (seq 0 n))) with (seq 0 n); [apply Permutation_refl|]. induction (seq 0 n) as [|i l IH]; [reflexivity|]. cbn. rewrite <- IH. reflexivity.
  - rewrite map_length, seq_length. lia.
  - intros m t H. assert (m < n) by (rewrite <- (seq_length n 0), <- (map_length SLeaf); apply nth_error_Some; rewrite H; discriminate).
    apply nth_error_In, in_map_iff in H as (i & <- & _). cbn. lia.
Defined.

(** The order matters in doubles: 2^53 + 1 + 1 is 2^53 left to right and 2^53 + 2 in two lanes... *)
Definition three : nat -> double := dv [dlit 1 0; dlit 1 53; dlit 1 0].
Theorem order_matters : @sumn Dops [] 3 three <> @sumn (Dw lanes_order) [] 3 three.
Proof. intros H. assert (E : B2SF (@sumn Dops [] 3 three) = B2SF (@sumn (Dw lanes_order) [] 3 three)) by (rewrite H; reflexivity). vm_compute in E. discriminate E. Qed.
(** ... and the hypotheses of C64_success_double are met there too: the example of the paper *)
Definition reordered (wo : sumorder) (pb : problem Dops) : problem (Dw wo) :=
  @Pb (Dw wo) (p_G pb) (p_Grows pb) (p_Gcols pb) (p_a pb) (p_asize pb) (p_C pb) (p_Crows pb) (p_Ccols pb) (p_bl pb) (p_blsize pb) (p_bu pb) (p_busize pb)
    (p_xl pb) (p_xlsize pb) (p_xu pb) (p_xusize pb).
Definition lanes_ok : bool := match @gi_solve (Dw lanes_order) junkd (reordered lanes_order paper) (@Opt (Dw lanes_order) 50 (dlit 1 300) false true) (sol_new (Dw lanes_order)) with
  | Ok (SUCCESS, s) => match solution s, activeSet s with Ok [x; y], [LOWER; INACTIVE; INACTIVE] => between d0 x (dlit 10 0) && between d0 y (dlit 10 0) | _, _ => false end
  | _ => false end.
Example C64_nonvacuous_lanes : lanes_ok = true.
Proof. vm_compute. reflexivity. Qed.

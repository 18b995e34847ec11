(** Lemmas on the builders of BlockTest.v *)
From Coq Require Import List Arith Lia Bool Reals Lra.
From Verif Require Import Base Num LinAlg Block BlockSpec BlockDense BlockTest.
Import ListNotations.
Local Open Scope R_scope.

(** ** Positions *)
Lemma start_0 ns : start ns 0 = 0%nat. Proof. reflexivity. Qed.
Lemma start_cons a ns k : start (a :: ns) (S k) = (a + start ns k)%nat. Proof. reflexivity. Qed.
Lemma start_S ns k : (k < length ns)%nat -> start ns (S k) = (start ns k + nth k ns 0)%nat.
Proof. revert k. induction ns as [|a ns IH]; intros k Hk; cbn in Hk; [lia|]. destruct k as [|k]; [unfold start; cbn; lia|]. rewrite !start_cons, IH by lia. cbn [nth]. lia. Qed.
Lemma start_all ns k : (length ns <= k)%nat -> start ns k = list_sum ns.
Proof. intros H. unfold start. rewrite firstn_all2 by lia. reflexivity. Qed.
Lemma start_mono ns k k' : (k <= k')%nat -> (start ns k <= start ns k')%nat.
Proof. revert k k'. induction ns as [|a ns IH]; intros [|k] [|k'] H; try lia; try (unfold start; cbn; lia). rewrite !start_cons. specialize (IH k k'). lia. Qed.
Lemma start_le ns k : (start ns k <= list_sum ns)%nat.
Proof. destruct (Nat.le_gt_cases (length ns) k) as [H|H]; [rewrite start_all by auto; lia|]. rewrite <- (start_all ns (length ns)) by lia. apply start_mono. lia. Qed.
Lemma start_end ns k : (k < length ns)%nat -> (start ns k + nth k ns 0 <= list_sum ns)%nat.
Proof. intros H. rewrite <- start_S by auto. apply start_le. Qed.
Lemma locate ns x : (x < list_sum ns)%nat -> exists k i, (k < length ns)%nat /\ (i < nth k ns 0)%nat /\ x = (start ns k + i)%nat.
Proof.
  revert x. induction ns as [|a ns IH]; intros x H; cbn in H; [lia|]. destruct (Nat.lt_ge_cases x a) as [Hx|Hx].
  - exists 0%nat, x. cbn. split; [lia|]. auto.
  - destruct (IH (x - a)%nat ltac:(unfold list_sum in *; lia)) as (k & i & Hk & Hi & E). exists (S k), i. rewrite start_cons. cbn [length nth]. split; [lia|]. split; [auto|lia].
Qed.
(** a row of block [k] lies in the rows of block [b] only if [b = k] *)
Lemma same_block ns k i b : (k < length ns)%nat -> (i < nth k ns 0)%nat -> (start ns b <= start ns k + i < start ns (S b))%nat -> b = k.
Proof.
  intros Hk Hi H. pose proof (start_S ns k Hk). destruct (Nat.lt_trichotomy b k) as [L|[E|G]]; auto.
  - pose proof (start_mono ns (S b) k ltac:(lia)). lia.
  - pose proof (start_mono ns (S k) b ltac:(lia)). lia.
Qed.
Lemma place_inj ns k i k' i' : (k < length ns)%nat -> (i < nth k ns 0)%nat -> (k' < length ns)%nat -> (i' < nth k' ns 0)%nat ->
  (start ns k + i)%nat = (start ns k' + i')%nat -> k = k' /\ i = i'.
Proof.
  intros Hk Hi Hk' Hi' E. assert (k' = k) as ->; [|split; [auto|lia]]. apply (same_block ns k i); auto. rewrite start_S by auto. lia.
Qed.
Lemma last_nth (ns : list nat) : last ns 0%nat = nth (length ns - 1) ns 0%nat.
Proof. induction ns as [|a ns IH]; auto. destruct ns as [|b ns]; auto. cbn [last length Nat.sub nth] in *. rewrite Nat.sub_0_r in *. exact IH. Qed.
Lemma last_start ns : ns <> [] -> (list_sum ns - last ns 0)%nat = start ns (length ns - 1) /\ (start ns (length ns - 1) + last ns 0)%nat = list_sum ns.
Proof.
  intros H. assert (Hl : (0 < length ns)%nat) by (destruct ns; [congruence|cbn; lia]). pose proof (start_S ns (length ns - 1) ltac:(lia)) as E.
  rewrite start_all in E by lia. rewrite <- last_nth in E. lia.
Qed.

Lemma in_block_iff r c nr nc i j : in_block r c nr nc i j = true <-> (r <= i < r + nr)%nat /\ (c <= j < c + nc)%nat.
Proof. unfold in_block. rewrite !andb_true_iff, !Nat.leb_le, !Nat.ltb_lt. lia. Qed.
Lemma set_ok rows cols B r c nr nc X : (r + nr <= rows)%nat -> (c + nc <= cols)%nat -> set_block rows cols B r c nr nc X = Ok (put B r c nr nc X).
Proof. intros H1 H2. unfold set_block. rewrite (proj2 (Nat.leb_le _ _) H1), (proj2 (Nat.leb_le _ _) H2). reflexivity. Qed.
Lemma put_cases B r c nr nc X i j : put B r c nr nc X i j = B i j \/ ((r <= i < r + nr)%nat /\ (c <= j < c + nc)%nat).
Proof. unfold put. destruct (in_block r c nr nc i j) eqn:E; auto. right. apply in_block_iff. exact E. Qed.

(** ** Where the generators write *)
Lemma bi_loop_zero s d ns : forall i k B, (k + list_sum ns <= s)%nat ->
  exists B', bi_loop s d i k ns B = Ok B' /\ forall x y, B' x y = B x y \/
    exists b, (b + 1 < length ns)%nat /\ (k + start ns b <= y < k + start ns (S b))%nat /\ (k + start ns b <= x < k + start ns (S (S b)))%nat.
Proof.
  induction ns as [|a ns IH]; intros i k B Hs; [exists B; split; [reflexivity|auto]|].
  destruct ns as [|n1 r]; [exists B; split; [reflexivity|auto]|].
  cbn [bi_loop]. cbn [list_sum fold_right] in Hs. rewrite set_ok by lia. cbn [bind]. rewrite set_ok by lia. cbn [bind].
  destruct (IH (S i) (k + a)%nat (put (put B k k a a (d (2 * i)%nat)) (k + a) k n1 a (d (2 * i + 1)%nat))) as (B' & E & HB); [cbn [list_sum fold_right]; lia|].
  exists B'. split; [exact E|]. intros x y. destruct (HB x y) as [H|(b & H1 & H2 & H3)].
  - rewrite H. destruct (put_cases (put B k k a a (d (2 * i)%nat)) (k + a) k n1 a (d (2 * i + 1)%nat) x y) as [H'|H'].
    + rewrite H'. destruct (put_cases B k k a a (d (2 * i)%nat) x y) as [H''|H'']; auto. right. exists 0%nat. rewrite !start_cons, !start_0. cbn [length]. unfold start. cbn. lia.
    + right. exists 0%nat. rewrite !start_cons, !start_0. cbn [length]. unfold start. cbn. lia.
  - right. exists (S b). rewrite !(start_cons a). cbn [length] in *. lia.
Qed.
(** lower block bidiagonal *)
Definition bidiagonal (ns : list nat) (A : rmat) : Prop := forall k i k' j, (k < length ns)%nat -> (k' < length ns)%nat -> (i < nth k ns 0)%nat -> (j < nth k' ns 0)%nat ->
  k <> k' -> k <> (k' + 1)%nat -> A (start ns k + i)%nat (start ns k' + j)%nat = 0.
Lemma biBlockDiag_zero ns d : ns <> [] -> exists A, biBlockDiagRandom ns d = Ok A /\ bidiagonal ns A.
Proof.
  intros Hn. unfold biBlockDiagRandom. destruct (bi_loop_zero (list_sum ns) d ns 0 0 (fun _ _ => 0) ltac:(lia)) as (B & E & HB).
  destruct (last_start ns Hn) as [L1 L2]. destruct ns as [|a r]; [congruence|]. set (ns := a :: r) in *. rewrite E. cbn [bind]. rewrite L1.
  eexists. split; [apply set_ok; lia|]. intros k i k' j Hk Hk' Hi Hj N1 N2.
  assert (HL : (0 < length ns)%nat) by (subst ns; cbn; lia).
  pose proof (start_all ns (S (length ns - 1)) ltac:(lia)) as EA.
  destruct (put_cases B (start ns (length ns - 1)) (start ns (length ns - 1)) (last ns 0%nat) (last ns 0%nat) (d (2 * (length ns - 1))%nat) (start ns k + i) (start ns k' + j)) as [H|[H1 H2]].
  - rewrite H. destruct (HB (start ns k + i)%nat (start ns k' + j)%nat) as [H'|(b & H1 & H2 & H3)]; [exact H'|]. exfalso.
    assert (b = k') by (apply (same_block ns k' j); auto; lia). subst b.
    destruct (Nat.lt_ge_cases (start ns k + i) (start ns (S k'))) as [Hc|Hc]; [apply N1; symmetry; apply (same_block ns k i); auto; lia|].
    assert (S k' = k) by (apply (same_block ns k i); auto; lia). lia.
  - exfalso. assert (length ns - 1 = k)%nat by (apply (same_block ns k i); auto; lia). assert (length ns - 1 = k')%nat by (apply (same_block ns k' j); auto; lia). lia.
Qed.

(** block diagonal, plus the first or the last column of blocks *)
Definition one_column (first : bool) (ns : list nat) (A : rmat) : Prop := forall k i k' j, (k < length ns)%nat -> (k' < length ns)%nat -> (i < nth k ns 0)%nat -> (j < nth k' ns 0)%nat ->
  k <> k' -> k' <> (if first then 0 else length ns - 1)%nat -> A (start ns k + i)%nat (start ns k' + j)%nat = 0.
Lemma col_loop_zero s n0 nb first d ns : forall i k B, (k + list_sum ns <= s)%nat -> (n0 <= s)%nat -> (nb <= s)%nat ->
  exists B', col_loop s n0 nb first d i k ns B = Ok B' /\ forall x y, B' x y = B x y \/ (if first then y < n0 else s - nb <= y < s)%nat \/
    exists b, (b < length ns)%nat /\ (k + start ns b <= y < k + start ns (S b))%nat /\ (k + start ns b <= x < k + start ns (S b))%nat.
Proof.
  induction ns as [|a ns IH]; intros i k B Hs H0 Hb; [exists B; split; [reflexivity|auto]|].
  cbn [list_sum fold_right] in Hs. cbn [col_loop]. rewrite set_ok by lia. cbn [bind].
  set (B1 := put B k k a a (d (2 * i)%nat)).
  set (B2 := if first then put B1 k 0 a n0 (d (2 * i + 1)%nat) else put B1 k (s - nb) a nb (d (2 * i + 1)%nat)).
  replace (if first then _ else _) with (@Ok rmat B2) by (unfold B2; destruct first; rewrite set_ok by (try rewrite Nat.sub_add by lia; lia); reflexivity).
  cbn [bind]. destruct (IH (S i) (k + a)%nat B2) as (B' & E & HB); [unfold list_sum; lia|auto|auto|]. exists B'. split; [exact E|]. intros x y.
  destruct (HB x y) as [H|[H|(b & H1 & H2 & H3)]]; [|auto|].
  - rewrite H. assert (K : B2 x y = B1 x y \/ (if first then y < n0 else s - nb <= y < s)%nat).
    { unfold B2. destruct first; [destruct (put_cases B1 k 0 a n0 (d (2 * i + 1)%nat) x y)|destruct (put_cases B1 k (s - nb) a nb (d (2 * i + 1)%nat) x y)]; auto; right; lia. }
    destruct K as [K|K]; auto. rewrite K. destruct (put_cases B k k a a (d (2 * i)%nat) x y) as [H''|H'']; [left; exact H''|]. right. right. exists 0%nat. rewrite !start_cons, !start_0. cbn [length]. lia.
  - right. right. exists (S b). rewrite !(start_cons a). cbn [length] in *. lia.
Qed.
Lemma oneCol_zero ns first d : ns <> [] -> exists A, blockDiagAndOneColDiagRandom ns first d = Ok A /\ one_column first ns A.
Proof.
  intros Hn. unfold blockDiagAndOneColDiagRandom. destruct (last_start ns Hn) as [L1 L2].
  destruct ns as [|a r]; [congruence|]. set (ns := a :: r) in *.
  destruct (col_loop_zero (list_sum ns) a (last ns 0%nat) first d ns 0 0 (fun _ _ => 0)) as (B & E & HB); [lia|subst ns; cbn; lia|lia|].
  rewrite E. cbn [bind]. rewrite L1.
  eexists. split; [apply set_ok; lia|]. intros k i k' j Hk Hk' Hi Hj N1 N2.
  assert (HL : (0 < length ns)%nat) by (subst ns; cbn; lia).
  pose proof (start_all ns (S (length ns - 1)) ltac:(lia)) as EA.
  destruct (put_cases B (start ns (length ns - 1)) (start ns (length ns - 1)) (last ns 0%nat) (last ns 0%nat) (d (2 * length ns)%nat) (start ns k + i) (start ns k' + j)) as [H|[H1 H2]].
  - rewrite H. destruct (HB (start ns k + i)%nat (start ns k' + j)%nat) as [H'|[H'|(b & H1 & H2 & H3)]]; [exact H'| |]; exfalso.
    + apply N2. symmetry. destruct first; apply (same_block ns k' j); auto.
      * rewrite start_S by auto. rewrite start_0. subst ns. cbn [nth]. lia.
      * rewrite EA, <- L1. lia.
    + assert (b = k') by (apply (same_block ns k' j); auto; lia). subst b. apply N1. symmetry. apply (same_block ns k i); auto; lia.
  - exfalso. assert (length ns - 1 = k)%nat by (apply (same_block ns k i); auto; lia). assert (length ns - 1 = k')%nat by (apply (same_block ns k' j); auto; lia). lia.
Qed.

(** ** The packed blocks *)
Lemma nth_error_tab {X} (f : nat -> X) n k x : nth_error (map f (seq 0 n)) k = Some x <-> (k < n)%nat /\ x = f k.
Proof.
  split.
  - intros H. assert (Hk : (k < n)%nat) by (apply (f_equal (fun o => match o with Some _ => true | None => false end)) in H; rewrite <- (seq_length n 0), <- (map_length f); apply nth_error_Some; intros E; rewrite E in H; discriminate H).
    split; [exact Hk|]. rewrite nth_error_map in H. rewrite (nth_error_nth' (seq 0 n) 0%nat) in H by (rewrite seq_length; auto). cbn in H. rewrite seq_nth in H by auto. cbn in H. injection H as <-. reflexivity.
  - intros [Hk ->]. rewrite nth_error_map, (nth_error_nth' (seq 0 n) 0%nat) by (rewrite seq_length; auto). rewrite seq_nth by auto. reflexivity.
Qed.
Lemma total_sum {S : ops} (l : list (blk S)) : total l = list_sum (map brow l).
Proof. induction l as [|D l IH]; [reflexivity|]. cbn [total map list_sum fold_right]. unfold list_sum in IH. lia. Qed.
Lemma off_start {S : ops} (l : list (blk S)) k : off l k = start (map brow l) k.
Proof. unfold off, start. rewrite total_sum, firstn_map. reflexivity. Qed.
Lemma tab_nth (ns : list nat) : map (fun k => nth k ns 0%nat) (seq 0 (length ns)) = ns.
Proof. induction ns as [|a ns IH]; [reflexivity|]. cbn [length seq map nth]. f_equal. rewrite <- seq_shift, map_map. exact IH. Qed.
Lemma pack_rows ns H : map brow (pack_diag ns H) = ns.
Proof. unfold pack_diag. rewrite map_map. cbn [brow block_at]. apply tab_nth. Qed.
Lemma pack_total ns H : total (pack_diag ns H) = list_sum ns. Proof. rewrite total_sum, pack_rows. reflexivity. Qed.
Lemma pack_off ns H k : off (pack_diag ns H) k = start ns k. Proof. rewrite off_start, pack_rows. reflexivity. Qed.
Lemma pack_length ns H : length (pack_diag ns H) = length ns. Proof. unfold pack_diag. rewrite map_length, seq_length. reflexivity. Qed.
Lemma pack_square ns H : Forall square (pack_diag ns H).
Proof. apply Forall_forall. intros D HD. apply in_map_iff in HD. destruct HD as (k & <- & _). reflexivity. Qed.

Lemma tri_pack_ok ns H : ns <> [] -> tri_ok (pack_diag ns H) (pack_sub ns H).
Proof.
  intros Hn. assert (0 < length ns)%nat by (destruct ns; [congruence|cbn; lia]). split; [|split; [apply pack_square|]].
  - rewrite pack_length. unfold pack_sub. rewrite map_length, seq_length. lia.
  - intros k B D D1 E1 E2 E3. apply nth_error_tab in E1 as [? ->]. apply nth_error_tab in E2 as [? ->]. apply nth_error_tab in E3 as [? ->]. split; reflexivity.
Qed.
Lemma tri_pack_half ns H : (forall k i k' j, (k < length ns)%nat -> (i < nth k ns 0)%nat -> (j < nth k' ns 0)%nat -> (k' + 1 < k)%nat -> H (start ns k + i)%nat (start ns k' + j)%nat = 0) ->
  tri_half (pack_diag ns H) (pack_sub ns H) H.
Proof.
  intros HZ. split; [|split].
  - intros k D i j E _ _. apply nth_error_tab in E as [Hk ->]. rewrite pack_off. reflexivity.
  - intros k B i j E _ _. apply nth_error_tab in E as [Hk ->]. rewrite !pack_off. reflexivity.
  - intros k k' D D' i j E E' Hkk Hi Hj. apply nth_error_tab in E as [Hk ->]. apply nth_error_tab in E' as [Hk' ->]. rewrite !pack_off. apply HZ; auto.
Qed.
Lemma arrow_pack_ok up ns H : ns <> [] -> arrow_ok up (pack_diag ns H) (pack_side up ns H).
Proof.
  intros Hn. assert (0 < length ns)%nat by (destruct ns; [congruence|cbn; lia]). assert (EL : length (pack_side up ns H) = (length ns - 1)%nat) by (unfold pack_side; cbv zeta; rewrite map_length, seq_length; reflexivity).
  split; [|split; [apply pack_square|]].
  - rewrite pack_length, EL. lia.
  - rewrite EL. intros k B D T E1 E2 E3. apply nth_error_tab in E1 as [? ->]. apply nth_error_tab in E2 as [? ->]. apply nth_error_tab in E3 as [? ->]. destruct up; split; reflexivity.
Qed.
Lemma arrow_pack_half (up : bool) ns H : ns <> [] -> (forall k i k' j, (k < length ns)%nat -> (i < nth k ns 0)%nat -> (j < nth k' ns 0)%nat -> (if up then (0 < k')%nat else (k < length ns - 1)%nat) -> (k' < k)%nat -> H (start ns k + i)%nat (start ns k' + j)%nat = 0) ->
  arrow_half up (pack_diag ns H) (pack_side up ns H) H.
Proof.
  intros Hn HZ. assert (EL : length (pack_side up ns H) = (length ns - 1)%nat) by (unfold pack_side; cbv zeta; rewrite map_length, seq_length; reflexivity). split; [|split].
  - intros k D i j E _ _. apply nth_error_tab in E as [Hk ->]. rewrite pack_off. reflexivity.
  - rewrite EL. intros k B i j E _ _. apply nth_error_tab in E as [Hk ->]. destruct up; rewrite !pack_off; reflexivity.
  - rewrite EL. intros k k' D D' i j E E' Hkk Hlt Hi Hj. apply nth_error_tab in E as [Hk ->]. apply nth_error_tab in E' as [Hk' ->]. rewrite !pack_off. apply HZ; auto.
Qed.

(** ** The products *)
Lemma mul_At_sym n A m : symmetric m (mul_At n A). Proof. intros i j _ _. unfold mul_At. apply sum_ext. intros. rring. Qed.
Lemma mul_tA_sym n A m : symmetric m (mul_tA n A). Proof. intros i j _ _. unfold mul_tA. apply sum_ext. intros. rring. Qed.
Lemma bidiagonal_product ns A : bidiagonal ns A -> forall k i k' j, (k < length ns)%nat -> (i < nth k ns 0)%nat -> (j < nth k' ns 0)%nat -> (k' + 1 < k)%nat ->
  mul_At (list_sum ns) A (start ns k + i) (start ns k' + j) = 0.
Proof.
  intros HA k i k' j Hk Hi Hj Hkk. unfold mul_At. apply sum_zero. intros t Ht. destruct (locate ns t Ht) as (b & r & Hb & Hr & ->).
  destruct (Nat.eq_dec k b) as [->|N1]; [rewrite (HA k' j b r) by (auto; lia); apply Rmult_0_r|].
  destruct (Nat.eq_dec k (b + 1)) as [->|N2]; [rewrite (HA k' j b r) by (auto; lia); apply Rmult_0_r|].
  rewrite (HA k i b r) by (auto; lia). apply Rmult_0_l.
Qed.
Lemma one_column_product (first : bool) ns A : one_column first ns A -> forall k i k' j, (k < length ns)%nat -> (i < nth k ns 0)%nat -> (j < nth k' ns 0)%nat -> 
  (if first then (0 < k')%nat else (k < length ns - 1)%nat) -> (k' < k)%nat -> mul_tA (list_sum ns) A (start ns k + i) (start ns k' + j) = 0.
Proof.
  intros HA k i k' j Hk Hi Hj Hc Hkk. unfold mul_tA. apply sum_zero. intros t Ht. destruct (locate ns t Ht) as (b & r & Hb & Hr & ->).
  destruct (Nat.eq_dec b k) as [->|N1]; [rewrite (HA k r k' j) by (auto; destruct first; lia); apply Rmult_0_r|].
  rewrite (HA b r k i) by (auto; destruct first; lia). apply Rmult_0_l.
Qed.
(** ** Positive definiteness *)
Lemma gram_pos n (Lo G : rmat) : (forall i j, (i < n)%nat -> (j < n)%nat -> rsum n (fun t => Lo i t * Lo j t) = G i j) ->
  posdef n G <-> (forall v, (forall t, (t < n)%nat -> rsum n (fun i => Lo i t * v i) = 0) -> forall i, (i < n)%nat -> v i = 0).
Proof.
  intros HG. split.
  - intros HP v Hv i Hi. destruct (Req_dec (v i) 0) as [|N]; auto. exfalso. assert (Hq : 0 < quad n G v) by (apply HP; exists i; auto).
    rewrite (quad_gram n Lo G v HG) in Hq. rewrite (sum_zero n) in Hq; [lra|]. intros t Ht. rewrite Hv by auto. lra.
  - intros HI v (i & Hi & Hv). rewrite (quad_gram n Lo G v HG).
    assert (P : forall t, (t < n)%nat -> 0 <= rsum n (fun i => Lo i t * v i) * rsum n (fun i => Lo i t * v i)) by (intros; nra).
    destruct (Rle_lt_or_eq_dec _ _ (sum_nonneg n _ P)) as [|E]; auto. exfalso. apply Hv. apply HI; auto. intros t Ht.
    pose proof (sum_nonneg_zero _ _ P (eq_sym E) t Ht) as K. cbv beta in K. nra.
Qed.

(** ** Writing the blocks back *)
Definition covers (p : place) (i j : nat) : Prop := let '(r, c, b) := p in (r <= i < r + brow b)%nat /\ (c <= j < c + bcol b)%nat.
Definition value (p : place) (i j : nat) : R := let '(r, c, b) := p in bm b (i - r)%nat (j - c)%nat.
Lemma write_out l : forall H i j, (forall p, In p l -> ~ covers p i j) -> write_back H l i j = H i j.
Proof.
  unfold write_back. induction l as [|[[r c] b] l IH]; intros H i j HN; [reflexivity|]. cbn [fold_left]. rewrite IH by (intros p Hp; apply HN; right; auto).
  destruct (put_cases H r c (brow b) (bcol b) (bm b) i j) as [E|E]; [exact E|]. exfalso. apply (HN (r, c, b)); [left; auto|exact E].
Qed.
Lemma write_in l : forall H i j v, (forall p, In p l -> covers p i j -> value p i j = v) -> H i j = v \/ (exists p, In p l /\ covers p i j) -> write_back H l i j = v.
Proof.
  unfold write_back. induction l as [|[[r c] b] l IH]; intros H i j v HV HC; cbn [fold_left].
  - destruct HC as [E|(p & [] & _)]. exact E.
  - apply IH; [intros p Hp; apply HV; right; auto|].
    destruct (in_block r c (brow b) (bcol b) i j) eqn:EB.
    + left. unfold put. rewrite EB. apply (HV (r, c, b)); [left; auto|]. apply in_block_iff in EB. exact EB.
    + destruct HC as [E|(p & [Hp|Hp] & Hc)]; [left; unfold put; rewrite EB; exact E| |right; exists p; auto].
      subst p. apply in_block_iff in Hc. rewrite Hc in EB. discriminate EB.
Qed.

(** ** Uniqueness of the Cholesky factor *)
Lemma chol_unique n (A L1 L2 : rmat) : 
  lower_triangular n L1 -> lower_triangular n L2 -> (forall i, (i < n)%nat -> 0 < L1 i i) -> (forall i, (i < n)%nat -> 0 < L2 i i) ->
  (forall i j, (i < n)%nat -> (j < n)%nat -> rsum n (fun t => L1 i t * L1 j t) = A i j) -> (forall i j, (i < n)%nat -> (j < n)%nat -> rsum n (fun t => L2 i t * L2 j t) = A i j) ->
  forall i j, (i < n)%nat -> (j < n)%nat -> L1 i j = L2 i j.
Proof.
  intros T1 T2 P1 P2 E1 E2.
  assert (Tr : forall (Lx : rmat) i j, lower_triangular n Lx -> (j <= i)%nat -> (i < n)%nat -> rsum n (fun t => Lx i t * Lx j t) = rsum j (fun t => Lx i t * Lx j t) + Lx i j * Lx j j).
  { intros Lx i j HT Hj Hi. replace n with (j + (1 + (n - j - 1)))%nat at 1 by lia. rewrite !sum_app. rewrite !sum_S, sum_0. cbn [Nat.add]. rewrite (sum_zero (n - j - 1)).
    - rewrite Nat.add_0_r. lra.
    - intros t Ht. rewrite (HT j (j + S t)%nat) by lia. apply Rmult_0_r. }
  assert (K : forall j, (j < n)%nat -> (forall i, (i < n)%nat -> (j <= i)%nat -> L1 i j = L2 i j)).
  { intros j. induction j as [j IH] using lt_wf_ind. intros Hj.
    assert (D : L1 j j = L2 j j).
    { pose proof (E1 j j Hj Hj) as A1. pose proof (E2 j j Hj Hj) as A2. rewrite Tr in A1, A2 by auto.
      rewrite (sum_ext j _ (fun t => L2 j t * L2 j t)) in A1 by (intros t Ht; rewrite (IH t) by lia; reflexivity).
      specialize (P1 j Hj). specialize (P2 j Hj). nra. }
    intros i Hi Hji. pose proof (E1 i j Hi Hj) as A1. pose proof (E2 i j Hi Hj) as A2. rewrite Tr in A1, A2 by auto.
    rewrite (sum_ext j _ (fun t => L2 i t * L2 j t)) in A1 by (intros t Ht; rewrite (IH t), (IH t) by lia; reflexivity).
    rewrite D in A1. specialize (P2 j Hj). nra. }
  intros i j Hi Hj. destruct (Nat.le_gt_cases j i) as [H|H]; [apply K; auto|]. rewrite T1, T2 by auto. reflexivity.
Qed.

(** ** The constraints *)
Notation rows_at ps := (map pc_n ps).
Notation cols_at ps := (map pc_m ps).
Definition pc0 : piece := Piece 0 0 (fun _ _ => 0) (fun _ => None) (fun _ => None).
(** the block of [C] made of piece [p] *)
Definition is_piece (b : blk Rops) (p : piece) : Prop := brow b = pc_n p /\ bcol b = pc_m p /\ forall i j, (i < pc_n p)%nat -> (j < pc_m p)%nat -> bm b i j = pc_C p j i.
Lemma c_loop_spec N M ps : forall r c x, (r + list_sum (rows_at ps) <= N)%nat -> (c + list_sum (cols_at ps) <= M)%nat ->
  exists y, c_loop N M ps r c x = Ok y /\
    (exists bl, cs_blocks y = cs_blocks x ++ bl /\ Forall2 is_piece bl ps) /\
    (forall i j, (i < r)%nat \/ (j < c)%nat -> cs_C y i j = cs_C x i j) /\
    (forall j, (j < c)%nat -> cs_l y j = cs_l x j /\ cs_u y j = cs_u x j) /\
    (forall k k' i j, (k < length ps)%nat -> (k' < length ps)%nat -> (i < pc_n (nth k ps pc0))%nat -> (j < pc_m (nth k' ps pc0))%nat ->
       cs_C y (r + (start (rows_at ps) k + i))%nat (c + (start (cols_at ps) k' + j))%nat =
       if (k =? k')%nat then pc_C (nth k ps pc0) j i else cs_C x (r + (start (rows_at ps) k + i))%nat (c + (start (cols_at ps) k' + j))%nat) /\
    (forall k j, (k < length ps)%nat -> (j < pc_m (nth k ps pc0))%nat ->
       cs_l y (c + (start (cols_at ps) k + j))%nat = pc_l (nth k ps pc0) j /\ cs_u y (c + (start (cols_at ps) k + j))%nat = pc_u (nth k ps pc0) j).
Proof.
  induction ps as [|p ps IH]; intros r c x HN HM.
  - exists x. split; [reflexivity|]. split; [exists []; rewrite app_nil_r; auto|]. split; [auto|]. split; [auto|]. split; intros; cbn in *; lia.
  - cbn [map list_sum fold_right] in HN, HM. cbn [c_loop]. rewrite set_ok by lia. cbn [bind].
    set (C1 := put (cs_C x) r c (pc_n p) (pc_m p) (fun i j => pc_C p j i)).
    destruct (IH (r + pc_n p)%nat (c + pc_m p)%nat (Cstrs C1 (cs_blocks x ++ [block_at C1 r c (pc_n p) (pc_m p)]) (seg_put (cs_l x) c (pc_m p) (pc_l p)) (seg_put (cs_u x) c (pc_m p) (pc_u p))))
      as (y & E & (bl & B1 & B2) & Y1 & Y2 & Y3 & Y4); [unfold list_sum; lia|unfold list_sum; lia|]. cbn [cs_C cs_blocks cs_l cs_u] in *.
    assert (CI : forall i j, (i < pc_n p)%nat -> (j < pc_m p)%nat -> C1 (r + i)%nat (c + j)%nat = pc_C p j i).
    { intros i j Hi Hj. unfold C1, put. rewrite (proj2 (in_block_iff _ _ _ _ _ _)) by lia. replace (r + i - r)%nat with i by lia. replace (c + j - c)%nat with j by lia. reflexivity. }
    assert (CO : forall i j, ((i < r \/ r + pc_n p <= i) \/ (j < c \/ c + pc_m p <= j))%nat -> C1 i j = cs_C x i j).
    { intros i j Ho. destruct (put_cases (cs_C x) r c (pc_n p) (pc_m p) (fun i j => pc_C p j i) i j) as [|[]]; [auto|lia]. }
    assert (SI : forall (v w : nat -> option R) j, (j < pc_m p)%nat -> seg_put v c (pc_m p) w (c + j)%nat = w j).
    { intros v w j Hj. unfold seg_put. rewrite (proj2 (Nat.leb_le c (c + j)) ltac:(lia)), (proj2 (Nat.ltb_lt (c + j) (c + pc_m p)) ltac:(lia)). cbn [andb]. f_equal. lia. }
    assert (SO : forall (v w : nat -> option R) j, (j < c)%nat -> seg_put v c (pc_m p) w j = v j).
    { intros v w j Hj. unfold seg_put. rewrite (proj2 (Nat.leb_gt c j) ltac:(lia)). reflexivity. }
    exists y. split; [exact E|]. split; [|split; [|split; [|split]]].
    + exists (block_at C1 r c (pc_n p) (pc_m p) :: bl). rewrite B1, <- app_assoc. split; [reflexivity|]. constructor; [|exact B2]. split; [reflexivity|]. split; [reflexivity|]. intros i j Hi Hj. apply CI; auto.
    + intros i j Ho. rewrite Y1 by lia. apply CO. lia.
    + intros j Hj. destruct (Y2 j ltac:(lia)) as [-> ->]. rewrite !SO by auto. auto.
    + intros k k' i j Hk Hk' Hi Hj. cbn [length] in Hk, Hk'. destruct k as [|k], k' as [|k']; cbn [nth map] in *; rewrite ?start_cons, ?start_0; cbn [Nat.add Nat.eqb].
      * rewrite Y1 by lia. apply CI; auto.
      * rewrite Y1 by lia. apply CO. lia.
      * rewrite Y1 by lia. apply CO. lia.
      * specialize (Y3 k k' i j ltac:(lia) ltac:(lia) Hi Hj). rewrite <- !Nat.add_assoc in *. rewrite Y3. destruct (k =? k')%nat; [reflexivity|]. apply CO. lia.
    + intros k j Hk Hj. cbn [length] in Hk. destruct k as [|k]; cbn [nth map] in *; rewrite ?start_cons, ?start_0; cbn [Nat.add].
      * destruct (Y2 (c + j)%nat ltac:(lia)) as [-> ->]. rewrite !SI by auto. auto.
      * specialize (Y4 k j ltac:(lia) Hj). rewrite <- !Nat.add_assoc in *. exact Y4.
Qed.

(** ** The scan *)
Lemma first_nz_spec C rows i fuel : forall j, (rows < j + fuel)%nat -> (exists r, (j <= r < rows)%nat /\ C r i <> 0) ->
  exists r, first_nz C rows i j fuel = Ok r /\ (j <= r < rows)%nat /\ C r i <> 0.
Proof.
  induction fuel as [|f IH]; intros j Hf (r & Hr & Hn); [lia|]. cbn [first_nz]. rewrite (proj2 (Nat.ltb_lt j rows)) by lia. cbn [guard].
  destruct (Reqb_spec (C j i) 0) as [E|E]; [|exists j; split; [reflexivity|]; split; [lia|exact E]].
  destruct (IH (S j) ltac:(lia)) as (r' & E1 & E2 & E3); [exists r; split; [|exact Hn]; assert (r <> j) by (intros ->; auto); lia|]. exists r'. split; [exact E1|]. split; [lia|exact E3].
Qed.
Lemma incr_last_app l x : incr_last (l ++ [x]) = l ++ [S x].
Proof. induction l as [|a l IH]; [reflexivity|]. cbn [app]. destruct l as [|b l]; [reflexivity|]. cbn [app incr_last] in *. rewrite IH. reflexivity. Qed.
Section Scan.
Variables (C : rmat) (rows nD : nat).
Lemma scan_block cnt : forall rest i nb t, (forall r, (r < cnt)%nat -> exists j, first_nz C rows (i + r) 0 (S rows) = Ok j /\ (j < (length nb + 1) * nD)%nat) ->
  scan_loop C rows nD i (cnt + rest) (nb ++ [t]) = scan_loop C rows nD (i + cnt) rest (nb ++ [(t + cnt)%nat]).
Proof.
  induction cnt as [|cnt IH]; intros rest i nb t HF; [rewrite !Nat.add_0_r; reflexivity|]. cbn [Nat.add scan_loop].
  destruct (HF 0%nat ltac:(lia)) as (j & E & Hj). rewrite Nat.add_0_r in E. rewrite E. cbn [bind]. rewrite app_length. cbn [length].
  rewrite (proj2 (Nat.leb_gt _ _) Hj). rewrite incr_last_app. rewrite IH; [f_equal; [lia|do 2 f_equal; lia]|].
  intros r Hr. replace (S i + r)%nat with (i + S r)%nat by lia. apply HF. lia.
Qed.
Lemma scan_blocks ms : forall i nb, (forall k t, (k < length ms)%nat -> (t < nth k ms 0)%nat -> exists j, first_nz C rows (i + (start ms k + t)) 0 (S rows) = Ok j /\ ((length nb + k) * nD <= j < (length nb + k + 1) * nD)%nat) ->
  (forall m, In m ms -> (0 < m)%nat) -> scan_loop C rows nD i (list_sum ms) nb = Ok (nb ++ ms).
Proof.
  induction ms as [|m ms IH]; intros i nb HF HP; [rewrite app_nil_r; reflexivity|].
  destruct m as [|m]; [exfalso; specialize (HP 0%nat (or_introl eq_refl)); lia|]. change (list_sum (S m :: ms)) with (S (m + list_sum ms)). cbn [scan_loop].
  destruct (HF 0%nat 0%nat) as (j & E & Hj); [cbn; lia|cbn; lia|]. rewrite start_0, Nat.add_0_r in E. rewrite E. cbn [bind]. rewrite Nat.add_0_r in Hj. rewrite (proj2 (Nat.leb_le _ _) (proj1 Hj)).
  rewrite (scan_block m (list_sum ms) (S i) nb 1).
  - rewrite IH.
    + rewrite <- app_assoc. reflexivity.
    + intros k t Hk Ht. destruct (HF (S k) t) as (j' & E' & Hj'); [cbn; lia|exact Ht|]. rewrite start_cons in E'. exists j'. split; [rewrite <- E'; f_equal; lia|]. rewrite app_length. cbn [length]. nia.
    + intros m' Hm. apply HP. right. exact Hm.
  - intros r Hr. destruct (HF 0%nat (S r)) as (j' & E' & Hj'); [cbn; lia|cbn; lia|]. rewrite start_0 in E'. exists j'. split; [rewrite <- E'; f_equal; lia|]. nia.
Qed.
End Scan.

(** ** Every matrix of the class can be drawn *)
Lemma put_in B r c nr nc X i j : (i < nr)%nat -> (j < nc)%nat -> put B r c nr nc X (r + i)%nat (c + j)%nat = X i j.
Proof. intros Hi Hj. unfold put. rewrite (proj2 (in_block_iff _ _ _ _ _ _)) by lia. f_equal; lia. Qed.
Lemma put_in' B r c nr nc X i j : (r <= i < r + nr)%nat -> (c <= j < c + nc)%nat -> put B r c nr nc X i j = X (i - r)%nat (j - c)%nat.
Proof. intros Hi Hj. unfold put. rewrite (proj2 (in_block_iff _ _ _ _ _ _)) by lia. reflexivity. Qed.
Lemma bi_loop_fill s d M ns : forall i k B, (k + list_sum ns <= s)%nat ->
  (forall b x y, (b + 1 < length ns)%nat -> (x < nth b ns 0)%nat -> (y < nth b ns 0)%nat -> d (2 * (i + b))%nat x y = M (k + start ns b + x)%nat (k + start ns b + y)%nat) ->
  (forall b x y, (b + 1 < length ns)%nat -> (x < nth (S b) ns 0)%nat -> (y < nth b ns 0)%nat -> d (2 * (i + b) + 1)%nat x y = M (k + start ns (S b) + x)%nat (k + start ns b + y)%nat) ->
  exists B', bi_loop s d i k ns B = Ok B' /\ forall b x y, (b + 1 < length ns)%nat -> (k + start ns b <= y < k + start ns (S b))%nat -> (k + start ns b <= x < k + start ns (S (S b)))%nat -> B' x y = M x y.
Proof.
  induction ns as [|a ns IH]; intros i k B Hs H1 H2; [exists B; split; [reflexivity|intros b x y Hb; cbn in Hb; lia]|].
  destruct ns as [|n1 r]; [exists B; split; [reflexivity|intros b x y Hb; cbn in Hb; lia]|].
  cbn [bi_loop]. cbn [list_sum fold_right] in Hs. rewrite set_ok by lia. cbn [bind]. rewrite set_ok by lia. cbn [bind].
  set (B2 := put (put B k k a a (d (2 * i)%nat)) (k + a) k n1 a (d (2 * i + 1)%nat)).
  destruct (IH (S i) (k + a)%nat B2) as (B' & E & HB).
  { cbn [list_sum fold_right]. lia. }
  { intros b x y Hb Hx Hy. specialize (H1 (S b) x y ltac:(cbn [length] in *; lia) Hx Hy). rewrite start_cons in H1. replace (i + S b)%nat with (S i + b)%nat in H1 by lia. rewrite H1. f_equal; lia. }
  { intros b x y Hb Hx Hy. specialize (H2 (S b) x y ltac:(cbn [length] in *; lia) Hx Hy). rewrite !(start_cons a) in H2. replace (i + S b)%nat with (S i + b)%nat in H2 by lia. rewrite H2. f_equal; lia. }
  exists B'. split; [exact E|]. intros b x y Hb Hy Hx. destruct b as [|b].
  - rewrite !start_cons, ?start_0 in *. change (start (n1 :: r) 0) with 0%nat in *. rewrite Nat.add_0_r in *.
    assert (EB : B' x y = B2 x y).
    { destruct (bi_loop_zero s d (n1 :: r) (S i) (k + a) B2) as (B'' & E'' & HZ); [cbn [list_sum fold_right]; lia|]. rewrite E in E''. injection E'' as <-.
      destruct (HZ x y) as [|(b' & _ & Hy' & _)]; [auto|exfalso; lia]. }
    rewrite EB. unfold B2. unfold start in Hx. cbn in Hx. rewrite Nat.add_0_r in *. destruct (Nat.lt_ge_cases x (k + a)) as [Hc|Hc].
    + destruct (put_cases (put B k k a a (d (2 * i)%nat)) (k + a) k n1 a (d (2 * i + 1)%nat) x y) as [->|]; [|lia].
      rewrite put_in' by lia. specialize (H1 0%nat (x - k)%nat (y - k)%nat ltac:(cbn; lia) ltac:(cbn; lia) ltac:(cbn; lia)). rewrite start_0, !Nat.add_0_r in H1. rewrite H1. f_equal; lia.
    + rewrite put_in' by lia. specialize (H2 0%nat (x - (k + a))%nat (y - k)%nat ltac:(cbn; lia) ltac:(cbn; lia) ltac:(cbn; lia)). rewrite start_cons, !start_0, !Nat.add_0_r in H2. rewrite H2. f_equal; lia.
  - rewrite !(start_cons a) in *. apply (HB b); cbn [length] in *; lia.
Qed.
Definition bi_draws (ns : list nat) (A : rmat) : nat -> rmat := fun k x y => A (start ns (k / 2 + k mod 2) + x)%nat (start ns (k / 2) + y)%nat.
Lemma half_even i : ((2 * i) / 2 = i /\ (2 * i) mod 2 = 0)%nat.
Proof. rewrite Nat.mul_comm, Nat.div_mul, Nat.mod_mul by lia. auto. Qed.
Lemma half_odd i : ((2 * i + 1) / 2 = i /\ (2 * i + 1) mod 2 = 1)%nat.
Proof. rewrite Nat.add_comm, Nat.mul_comm, Nat.div_add, Nat.mod_add by lia. auto. Qed.
Lemma bi_every ns A : ns <> [] -> bidiagonal ns A -> exists A', biBlockDiagRandom ns (bi_draws ns A) = Ok A' /\ forall i j, (i < list_sum ns)%nat -> (j < list_sum ns)%nat -> A' i j = A i j.
Proof.
  intros Hn HA. destruct (biBlockDiag_zero ns (bi_draws ns A) Hn) as (A' & E & HZ). exists A'. split; [exact E|].
  destruct (bi_loop_fill (list_sum ns) (bi_draws ns A) A ns 0 0 (fun _ _ => 0)) as (B & EB & HB).
  { lia. }
  { intros b x y Hb Hx Hy. unfold bi_draws. destruct (half_even b) as [E1 E2]. cbn [Nat.add]. change (b + (b + 0))%nat with (2 * b)%nat. rewrite E1, E2, Nat.add_0_r. reflexivity. }
  { intros b x y Hb Hx Hy. unfold bi_draws. destruct (half_odd b) as [E1 E2]. rewrite Nat.add_0_l, E1, E2. replace (b + 1)%nat with (S b) by lia. reflexivity. }
  unfold biBlockDiagRandom in E. destruct ns as [|a r]; [congruence|]. set (ns := a :: r) in *. rewrite EB in E. cbn [bind] in E.
  destruct (last_start ns Hn) as [L1 L2]. rewrite L1 in E. rewrite set_ok in E by lia. match type of E with Ok ?p = _ => assert (EE : p = A') by congruence end. clear E. subst A'.
  assert (HL : (0 < length ns)%nat) by (subst ns; cbn; lia). pose proof (start_all ns (S (length ns - 1)) ltac:(lia)) as EA.
  intros x y Hx Hy. destruct (locate ns x Hx) as (k & i & Hk & Hi & ->). destruct (locate ns y Hy) as (k' & j & Hk' & Hj & ->).
  destruct (Nat.eq_dec k k') as [Ek|Nk].
  - subst k'. destruct (Nat.eq_dec k (length ns - 1)) as [El|Nl].
    + rewrite El in *. rewrite <- last_nth in Hi, Hj. rewrite put_in by auto. unfold bi_draws. destruct (half_even (length ns - 1)) as [E1 E2]. rewrite E1, E2, Nat.add_0_r. reflexivity.
    + pose proof (start_S ns k Hk). pose proof (start_mono ns (S k) (length ns - 1) ltac:(lia)). pose proof (start_mono ns (S k) (S (S k)) ltac:(lia)).
      destruct (put_cases B (start ns (length ns - 1)) (start ns (length ns - 1)) (last ns 0%nat) (last ns 0%nat) (bi_draws ns A (2 * (length ns - 1))%nat) (start ns k + i) (start ns k + j)) as [->|]; [|lia].
      apply (HB k); lia.
  - destruct (Nat.eq_dec k (k' + 1)) as [Ek|Nk2].
    + pose proof (start_S ns k' Hk'). pose proof (start_S ns k Hk). pose proof (start_mono ns (S k') (length ns - 1) ltac:(lia)). pose proof (start_mono ns k' k ltac:(lia)). replace k with (S k') in * by lia.
      destruct (put_cases B (start ns (length ns - 1)) (start ns (length ns - 1)) (last ns 0%nat) (last ns 0%nat) (bi_draws ns A (2 * (length ns - 1))%nat) (start ns (S k') + i) (start ns k' + j)) as [->|]; [|lia].
      apply (HB k'); lia.
    + rewrite (HZ k i k' j), (HA k i k' j) by auto. reflexivity.
Qed.

Lemma col_loop_fill s n0 nb first d M ns : forall i k B, (k + list_sum ns <= s)%nat -> (n0 <= s)%nat -> (nb <= s)%nat ->
  (forall b x y, (b < length ns)%nat -> (x < nth b ns 0)%nat -> (y < nth b ns 0)%nat -> d (2 * (i + b))%nat x y = M (k + start ns b + x)%nat (k + start ns b + y)%nat) ->
  (forall b x y, (b < length ns)%nat -> (x < nth b ns 0)%nat -> (y < if first : bool then n0 else nb)%nat -> d (2 * (i + b) + 1)%nat x y = M (k + start ns b + x)%nat ((if first then 0 else s - nb) + y)%nat) ->
  exists B', col_loop s n0 nb first d i k ns B = Ok B' /\ 
    (forall x y, (x < k)%nat -> B' x y = B x y) /\
    forall b x y, (b < length ns)%nat -> (k + start ns b <= x < k + start ns (S b))%nat -> 
    (k + start ns b <= y < k + start ns (S b))%nat \/ (if first then y < n0 else s - nb <= y < s)%nat -> B' x y = M x y.
Proof.
  induction ns as [|a ns IH]; intros i k B Hs H0 Hb H1 H2; [exists B; split; [reflexivity|]; split; [auto|intros b x y Hb'; cbn in Hb'; lia]|].
  cbn [list_sum fold_right] in Hs. cbn [col_loop]. rewrite set_ok by lia. cbn [bind].
  set (B1 := put B k k a a (d (2 * i)%nat)).
  set (B2 := if first then put B1 k 0 a n0 (d (2 * i + 1)%nat) else put B1 k (s - nb) a nb (d (2 * i + 1)%nat)).
  replace (if first then _ else _) with (@Ok rmat B2) by (unfold B2; destruct first; rewrite set_ok by (try rewrite Nat.sub_add by lia; lia); reflexivity).
  cbn [bind]. destruct (IH (S i) (k + a)%nat B2) as (B' & E & HK & HB); [unfold list_sum; lia|auto|auto| | |].
  { intros b x y Hb' Hx Hy. specialize (H1 (S b) x y ltac:(cbn [length] in *; lia) Hx Hy). rewrite start_cons in H1. replace (i + S b)%nat with (S i + b)%nat in H1 by lia. rewrite H1. f_equal; lia. }
  { intros b x y Hb' Hx Hy. specialize (H2 (S b) x y ltac:(cbn [length] in *; lia) Hx Hy). rewrite !(start_cons a) in H2. replace (i + S b)%nat with (S i + b)%nat in H2 by lia. rewrite H2. f_equal; lia. }
  exists B'. split; [exact E|]. split.
  { intros x y Hx. rewrite HK by lia. unfold B2. assert (E1 : B1 x y = B x y) by (destruct (put_cases B k k a a (d (2 * i)%nat) x y) as [|]; [auto|lia]).
    destruct first; [destruct (put_cases B1 k 0 a n0 (d (2 * i + 1)%nat) x y) as [->|]|destruct (put_cases B1 k (s - nb) a nb (d (2 * i + 1)%nat) x y) as [->|]]; try exact E1; lia. }
  intros b x y Hb' Hx Hy. destruct b as [|b].
  - rewrite !start_cons, ?start_0 in *. change (start ns 0) with 0%nat in *. rewrite !Nat.add_0_r in *. rewrite HK by lia.
    assert (E1 : (k <= y < k + a)%nat -> B1 x y = M x y).
    { intros Hyy. unfold B1. rewrite put_in' by lia. specialize (H1 0%nat (x - k)%nat (y - k)%nat ltac:(cbn; lia) ltac:(cbn; lia) ltac:(cbn; lia)). rewrite start_0, !Nat.add_0_r in H1. rewrite H1. f_equal; lia. }
    assert (E2 : (if first then y < n0 else s - nb <= y < s)%nat -> B2 x y = M x y).
    { intros Hyy. unfold B2. destruct first; rewrite put_in' by lia.
      - specialize (H2 0%nat (x - k)%nat (y - 0)%nat ltac:(cbn; lia) ltac:(cbn; lia) ltac:(lia)). rewrite start_0, !Nat.add_0_r in H2. rewrite H2. f_equal; lia.
      - specialize (H2 0%nat (x - k)%nat (y - (s - nb))%nat ltac:(cbn; lia) ltac:(cbn; lia) ltac:(lia)). rewrite start_0, !Nat.add_0_r in H2. rewrite H2. f_equal; lia. }
    destruct Hy as [Hy|Hy]; [|auto]. unfold B2 in *. destruct first.
    + destruct (put_cases B1 k 0 a n0 (d (2 * i + 1)%nat) x y) as [->|[_ Hc]]; [auto|]. apply E2. lia.
    + destruct (put_cases B1 k (s - nb) a nb (d (2 * i + 1)%nat) x y) as [->|[_ Hc]]; [auto|]. apply E2. lia.
  - rewrite !(start_cons a) in *. apply (HB b); [cbn [length] in *; lia|lia|]. destruct Hy; [left; lia|right; auto].
Qed.
Definition col_draws (first : bool) (ns : list nat) (A : rmat) : nat -> rmat := fun k x y =>
  let l := (length ns - 1)%nat in
  if (k =? 2 * length ns)%nat then A (start ns l + x)%nat (start ns l + y)%nat
  else A (start ns (k / 2) + x)%nat (if (k mod 2 =? 0)%nat then start ns (k / 2) + y else (if first then 0 else start ns l) + y)%nat.
Lemma col_every (first : bool) ns A : ns <> [] -> one_column first ns A -> exists A', blockDiagAndOneColDiagRandom ns first (col_draws first ns A) = Ok A' /\ forall i j, (i < list_sum ns)%nat -> (j < list_sum ns)%nat -> A' i j = A i j.
Proof.
  intros Hn HA. destruct (oneCol_zero ns first (col_draws first ns A) Hn) as (A' & E & HZ). exists A'. split; [exact E|].
  destruct (last_start ns Hn) as [L1 L2]. unfold blockDiagAndOneColDiagRandom in E.
  destruct ns as [|a r]; [congruence|]. set (ns := a :: r) in *. assert (HL : (0 < length ns)%nat) by (subst ns; cbn; lia).
  destruct (col_loop_fill (list_sum ns) a (last ns 0%nat) first (col_draws first ns A) A ns 0 0 (fun _ _ => 0)) as (B & EB & _ & HB).
  { lia. } { subst ns; cbn; lia. } { lia. }
  { intros b x y Hb Hx Hy. unfold col_draws. cbv zeta. destruct (half_even b) as [E1 E2]. rewrite !Nat.add_0_l, E1, E2. rewrite (proj2 (Nat.eqb_neq (2 * b) (2 * length ns)) ltac:(lia)). reflexivity. }
  { intros b x y Hb Hx Hy. unfold col_draws. cbv zeta. destruct (half_odd b) as [E1 E2]. rewrite !Nat.add_0_l, E1, E2. rewrite (proj2 (Nat.eqb_neq (2 * b + 1) (2 * length ns)) ltac:(lia)). cbn [Nat.eqb]. rewrite L1. reflexivity. }
  rewrite EB in E. cbn [bind] in E. rewrite L1 in E. rewrite set_ok in E by lia. match type of E with Ok ?p = _ => assert (EE : p = A') by congruence end. clear E. subst A'.
  pose proof (start_all ns (S (length ns - 1)) ltac:(lia)) as EA.
  intros x y Hx Hy. destruct (locate ns x Hx) as (k & i & Hk & Hi & ->). destruct (locate ns y Hy) as (k' & j & Hk' & Hj & ->).
  assert (EX : col_draws first ns A (2 * length ns)%nat = fun x y => A (start ns (length ns - 1) + x)%nat (start ns (length ns - 1) + y)%nat) by (unfold col_draws; cbv zeta; rewrite Nat.eqb_refl; reflexivity).
  pose proof (start_S ns k Hk) as Sk. pose proof (start_S ns k' Hk') as Sk'.
  destruct (put_cases B (start ns (length ns - 1)) (start ns (length ns - 1)) (last ns 0%nat) (last ns 0%nat) (col_draws first ns A (2 * length ns)%nat) (start ns k + i) (start ns k' + j)) as [EP|[Hc1 Hc2]].
  - destruct (Nat.eq_dec k k') as [Ek|Nk].
    + rewrite EP. subst k'. apply (HB k); [lia|lia|left; lia].
    + destruct (Nat.eq_dec k' (if first then 0 else length ns - 1)%nat) as [Ec|Nc].
      * rewrite EP. apply (HB k); [lia|lia|]. right. destruct first; subst k'; [rewrite start_0 in *; subst ns; cbn [nth] in *; lia|]. rewrite EA in Sk'. rewrite last_nth. lia.
      * rewrite (HZ k i k' j), (HA k i k' j) by auto. reflexivity.
  - rewrite put_in' by auto. rewrite EX. f_equal; lia.
Qed.

(** C05 (changeLd), C30 (log filter), C39 (status names). *)
From Coq Require Import List Arith NArith ZArith Lia Bool String.
From Verif Require Import Base Util.
Import ListNotations.

(** ** C05 *)
Section C05.
Context {X : Type}.
Implicit Types b : list X.
Lemma nth_skipn n (l : list X) i : nth_error (skipn n l) i = nth_error l (n + i).
Proof. revert l; induction n as [|n IH]; intros [|x l]; simpl; auto. destruct i; auto. Qed.
Lemma nth_firstn n (l : list X) i : nth_error (firstn n l) i = if i <? n then nth_error l i else None.
Proof.
  revert l i; induction n as [|n IH]; intros [|x l] i; cbn [firstn].
  - destruct i; auto.
  - destruct i; auto.
  - destruct i; simpl; auto. destruct (S i <? S n); auto.
  - destruct i; simpl; auto. rewrite IH. auto.
Qed.
Lemma memmove_spec b dst src n : dst + n <= List.length b -> src + n <= List.length b ->
  exists b', memmove b dst src n = Ok b' /\ List.length b' = List.length b /\
  forall k, nth_error b' k = if (dst <=? k) && (k <? dst + n) then nth_error b (k - dst + src) else nth_error b k.
Proof.
  intros H1 H2. unfold memmove, guard.
  rewrite (proj2 (Nat.leb_le _ _) H1), (proj2 (Nat.leb_le _ _) H2). simpl. eexists. split; [reflexivity|]. split.
  - rewrite !app_length, !firstn_length, !skipn_length. lia.
  - intros k. assert (Ld : List.length (firstn dst b) = dst) by (rewrite firstn_length; lia).
    assert (Ln : List.length (firstn n (skipn src b)) = n) by (rewrite firstn_length, skipn_length; lia).
    destruct (Nat.leb_spec dst k).
    + rewrite nth_error_app2 by lia. rewrite Ld. destruct (Nat.ltb_spec k (dst + n)); simpl.
      * rewrite nth_error_app1 by lia. rewrite nth_firstn. destruct (Nat.ltb_spec (k - dst) n); [|lia].
        rewrite nth_skipn. f_equal. lia.
      * rewrite nth_error_app2 by lia. rewrite Ln, nth_skipn. f_equal. lia.
    + simpl. rewrite nth_error_app1 by lia. rewrite nth_firstn. destruct (Nat.ltb_spec k dst); [auto|lia].
Qed.
Lemma move_col_spec rows o n i b : i * o + rows <= List.length b -> i * n + rows <= List.length b -> i * o < List.length b -> i * n < List.length b ->
  exists b', move_col rows o n i b = Ok b' /\ List.length b' = List.length b /\
  forall k, nth_error b' k = if (i * n <=? k) && (k <? i * n + rows) then nth_error b (k - i * n + i * o) else nth_error b k.
Proof.
  intros H1 H2 H3 H4. unfold move_col, guard. rewrite (proj2 (Nat.ltb_lt _ _) H3), (proj2 (Nat.ltb_lt _ _) H4). simpl. apply memmove_spec; auto.
Qed.

(** column j of the view, row i *)
Lemma col_disjoint rows ld i j p q : p < rows -> q < rows -> rows <= ld -> p + i * ld = q + j * ld -> i = j /\ p = q.
Proof.
  intros Hp Hq Hl H. assert (i = j) by (destruct (Nat.lt_trichotomy i j) as [|[|]]; nia). subst. lia.
Qed.

Lemma grow_spec rows o n : rows <= o -> o < n -> forall k b, S k * n < List.length b ->
  exists b', grow_loop rows o n k b = Ok b' /\ List.length b' = List.length b /\
   (forall i j, j <= k -> i < rows -> nth_error b' (i + j * n) = nth_error b (i + j * o)) /\
   (forall p, (forall i j, 1 <= j -> j <= k -> i < rows -> p <> i + j * n) -> nth_error b' p = nth_error b p).
Proof.
  intros Hr Ho. induction k as [|k IH]; intros b Hb.
  - exists b. split; auto. split; auto. split; [|auto]. intros i j Hj Hi. replace j with 0 by lia. auto.
  - cbn [grow_loop]. destruct (move_col_spec rows o n (S k) b) as (b1 & E1 & L1 & N1); try nia.
    rewrite E1. cbn [bind]. destruct (IH b1) as (b2 & E2 & L2 & N2 & F2); [nia|].
    exists b2. split; auto. split; [congruence|]. split.
    + intros i j Hj Hi. destruct (Nat.eq_dec j (S k)) as [->|].
      * rewrite F2.
        -- rewrite N1. rewrite (proj2 (Nat.leb_le _ _)), (proj2 (Nat.ltb_lt _ _)) by lia. simpl andb. cbv iota. f_equal. lia.
        -- intros i' j' H1 H2 H3 H4. apply col_disjoint with (rows := rows) in H4; lia.
      * rewrite N2 by lia. rewrite N1.
        assert (~ (S k * n <= i + j * o)) by nia. rewrite (proj2 (Nat.leb_gt _ _)) by lia. auto.
    + intros p Hp. rewrite F2 by (intros; apply Hp; lia). rewrite N1.
      destruct (Nat.leb_spec (S k * n) p); auto. destruct (Nat.ltb_spec p (S k * n + rows)); auto.
      exfalso. apply (Hp (p - S k * n) (S k)); lia.
Qed.
Lemma shrink_spec rows o n : rows <= n -> n < o -> forall k b, S k * o <= List.length b ->
  exists b', shrink_loop rows o n k b = Ok b' /\ List.length b' = List.length b /\
   (forall i j, j <= k -> i < rows -> nth_error b' (i + j * n) = nth_error b (i + j * o)) /\
   (forall p, (forall i j, 1 <= j -> j <= k -> i < rows -> p <> i + j * n) -> nth_error b' p = nth_error b p).
Proof.
  intros Hr Ho. induction k as [|k IH]; intros b Hb.
  - exists b. split; auto. split; auto. split; [|auto]. intros i j Hj Hi. replace j with 0 by lia. auto.
  - cbn [shrink_loop]. destruct (IH b) as (b1 & E1 & L1 & N1 & F1); [nia|]. rewrite E1. cbn [bind].
    destruct (move_col_spec rows o n (S k) b1) as (b2 & E2 & L2 & N2); try nia.
    exists b2. split; auto. split; [congruence|]. split.
    + intros i j Hj Hi. rewrite N2. destruct (Nat.eq_dec j (S k)) as [->|].
      * rewrite (proj2 (Nat.leb_le _ _)), (proj2 (Nat.ltb_lt _ _)) by lia. simpl andb. cbv iota.
        replace (i + S k * n - S k * n + S k * o) with (i + S k * o) by lia. apply F1.
        intros i' j' H1 H2 H3 H4. nia.
      * assert (H : j * n + n <= S k * n) by nia. rewrite (proj2 (Nat.leb_gt _ _)) by lia. simpl. apply N1; lia.
    + intros p Hp. rewrite N2. destruct (Nat.leb_spec (S k * n) p); cbn [andb].
      * destruct (Nat.ltb_spec p (S k * n + rows)).
        -- exfalso. apply (Hp (p - S k * n) (S k)); lia.
        -- apply F1. intros; apply Hp; lia.
      * apply F1. intros; apply Hp; lia.
Qed.

(** Under the preconditions (both views fit; growing needs one spare element),
    nothing is out of range, the matrix seen through the new leading dimension is
    the one seen before, and the entries outside of it are untouched. *)
Theorem C05_changeLd : forall rows cols oldLd newLd b,
  rows <= oldLd -> rows <= newLd -> cols * oldLd <= List.length b -> cols * newLd <= List.length b ->
  (oldLd < newLd -> cols * newLd < List.length b) ->
  exists b', changeLd rows cols oldLd newLd b = Ok b' /\ List.length b' = List.length b /\
   (forall i j, i < rows -> j < cols -> nth_error b' (i + newLd * j) = nth_error b (i + oldLd * j)) /\
   (forall p, (forall i j, i < rows -> j < cols -> p <> i + newLd * j) -> nth_error b' p = nth_error b p).
Proof.
  intros rows cols o n b H1 H2 H3 H4 H5. unfold changeLd.
  destruct (Nat.eq_dec cols 0) as [->|Hc].
  { exists b. destruct (Nat.ltb_spec o n).
    - unfold guard. rewrite (proj2 (Nat.ltb_lt _ _)) by auto. simpl. split; auto. split; auto. split; auto. intros; lia.
    - destruct (n <? o); simpl; split; auto; split; auto; split; auto; intros; lia. }
  destruct (Nat.ltb_spec o n) as [Ho|Ho].
  - unfold guard. rewrite (proj2 (Nat.ltb_lt _ _)) by auto.
    destruct (grow_spec rows o n H1 Ho (cols - 1) b) as (b' & E & L & N & F); [replace (S (cols - 1)) with cols by lia; auto|].
    exists b'. split; auto. split; auto. split.
    + intros i j Hi Hj. rewrite (Nat.mul_comm n), (Nat.mul_comm o). apply N; lia.
    + intros p Hp. apply F. intros i j _ Hj Hi. rewrite (Nat.mul_comm j). apply Hp; lia.
  - destruct (Nat.ltb_spec n o) as [Hn|Hn].
    + destruct (shrink_spec rows o n H2 Hn (cols - 1) b) as (b' & E & L & N & F); [replace (S (cols - 1)) with cols by lia; auto|].
      exists b'. split; auto. split; auto. split.
      * intros i j Hi Hj. rewrite (Nat.mul_comm n), (Nat.mul_comm o). apply N; lia.
      * intros p Hp. apply F. intros i j _ Hj Hi. rewrite (Nat.mul_comm j). apply Hp; lia.
    + assert (o = n) by lia. subst o. exists b. split; auto.
Qed.
(** The spare element is required: growing into an exactly fitting buffer stops
    on the assert, although both views are legal. *)
Theorem C05_grow_exact_fit_asserts : forall rows cols oldLd newLd b, oldLd < newLd -> cols * newLd = List.length b ->
  changeLd rows cols oldLd newLd b = UB.
Proof.
  intros rows cols o n b H1 H2. unfold changeLd. rewrite (proj2 (Nat.ltb_lt _ _)) by auto. rewrite H2, Nat.ltb_irrefl. auto.
Qed.
End C05.
Example C05_nonvacuous : changeLd 2 3 2 3 [1;2;3;4;5;6;7;8;9;10] = Ok [1;2;3;3;4;6;5;6;9;10] /\
  changeLd 2 3 3 2 [1;2;0;3;4;0;5;6;0;10] = Ok [1;2;3;4;5;6;5;6;0;10].
Proof. split; reflexivity. Qed.

(** ** C30 *)
Local Open Scope N_scope.
Lemma testbit_all32 i : N.testbit all32 i = (i <? 32).
Proof.
  change all32 with (N.ones 32). destruct (N.ltb_spec i 32).
  - apply N.ones_spec_low; auto.
  - apply N.ones_spec_high; auto.
Qed.
(** setFlag sets or clears exactly the bits of [flag] *)
Theorem C30_setFlag_bits : forall l flag add i, i < 32 ->
  N.testbit (lg_flags (setFlag l flag add)) i = if N.testbit flag i then add else N.testbit (lg_flags l) i.
Proof.
  intros l flag add i Hi. unfold setFlag. destruct add; cbn [lg_flags].
  - rewrite N.lor_spec. destruct (N.testbit flag i); auto using orb_true_r, orb_false_r.
  - rewrite N.land_spec, N.lxor_spec, testbit_all32, (proj2 (N.ltb_lt _ _) Hi).
    destruct (N.testbit flag i); simpl; auto using andb_false_r, andb_true_r.
Qed.
Lemma lor_nz f a b : N.land f (N.lor a b) = 0 <-> N.land f a = 0 /\ N.land f b = 0.
Proof. rewrite N.land_lor_distr_r. split; [intros H; apply N.lor_eq_0_iff in H; auto|intros [-> ->]; auto]. Qed.
Lemma after_flags os l : lg_flags (fold_left set_options os l) = fold_left (fun a o => N.lor a (lo_flags o)) os (lg_flags l).
Proof. revert l; induction os as [|o os IH]; intros l; simpl; auto. rewrite IH. reflexivity. Qed.
Lemma fold_lor_nz f os a : N.land f (fold_left (fun a o => N.lor a (lo_flags o)) os a) = 0 <->
  N.land f a = 0 /\ forall o, In o os -> N.land f (lo_flags o) = 0.
Proof.
  revert a; induction os as [|o os IH]; intros a; simpl.
  - split; [intros H; split; auto; tauto|tauto].
  - rewrite IH, lor_nz. split.
    + intros [[H1 H2] H3]. split; auto. intros o' [->|]; auto.
    + intros [H1 H2]. split; [split; auto|]. intros; apply H2; auto.
Qed.
(** After any sequence of options() calls a message is emitted iff one of its
    flags was enabled by some (not only the last) of the options passed; it
    goes to the stream of the last options. *)
Theorem C30_emitted_iff : forall os flag,
  (log (after_options os) flag <> None <-> exists o, In o os /\ N.land flag (lo_flags o) <> 0) /\
  (comment (after_options os) flag <> None <-> exists o, In o os /\ N.land flag (lo_flags o) <> 0).
Proof.
  intros os flag. set (F := lg_flags (after_options os)).
  assert (H : (negb (N.land flag F =? 0) = true <-> exists o, In o os /\ N.land flag (lo_flags o) <> 0)).
  { rewrite negb_true_iff, N.eqb_neq. unfold F, after_options. rewrite after_flags, fold_lor_nz. split.
    - intros H. destruct (existsb (fun o => negb (N.land flag (lo_flags o) =? 0)) os) eqn:E.
      + apply existsb_exists in E as (o & Ho & E). exists o. split; auto. rewrite negb_true_iff, N.eqb_neq in E. auto.
      + exfalso. apply H. split; [apply N.land_0_r|]. intros o Ho.
        destruct (N.eqb_spec (N.land flag (lo_flags o)) 0) as [|Hn]; auto. exfalso.
        rewrite <- not_true_iff_false in E. apply E. apply existsb_exists. exists o. split; auto.
        rewrite negb_true_iff, N.eqb_neq. auto.
    - intros (o & Ho & Hn) [_ H]. apply Hn. auto. }
  unfold log, comment. fold F. destruct (negb (N.land flag F =? 0)); split; (split; [intros K|intros K]); try (apply H; auto; fail); try congruence; apply H in K; discriminate.
Qed.
Theorem C30_stream : forall os o flag, (match log (after_options (os ++ [o])) flag with Some (st, _) => st = lo_os o | None => True end).
Proof.
  intros os o flag. unfold after_options. rewrite fold_left_app. simpl. unfold log. destruct (negb _); simpl; auto.
Qed.
(** The options object: addLogFlag and removeLogFlag change exactly the given bits, and leave the stream alone *)
Theorem C30_option_flags : forall o f i, i < 32 ->
  N.testbit (lo_flags (addLogFlag o f)) i = (N.testbit (lo_flags o) i || N.testbit f i)%bool /\
  N.testbit (lo_flags (removeLogFlag o f)) i = (N.testbit (lo_flags o) i && negb (N.testbit f i))%bool /\
  lo_os (addLogFlag o f) = lo_os o /\ lo_os (removeLogFlag o f) = lo_os o.
Proof.
  intros o f i Hi. unfold addLogFlag, removeLogFlag. cbn [lo_flags lo_os]. split; [apply N.lor_spec|]. split; auto.
  rewrite N.land_spec, N.lxor_spec, testbit_all32, (proj2 (N.ltb_lt _ _) Hi). destruct (N.testbit f i); reflexivity.
Qed.
(** so a message whose bits were all removed is not emitted by the solver that gets these options, and one that was added is *)
Theorem C30_removed_added : forall o f flag, lo_flags o < 2 ^ 32 ->
  (N.land flag f = flag -> log (after_options [removeLogFlag o f]) flag = None) /\
  (N.land flag f <> 0 -> log (after_options [addLogFlag o f]) flag <> None).
Proof.
  intros o f flag Ho. split.
  - intros H. unfold log. cbn [after_options fold_left set_options setOutputStream setFlag lg_flags log_new removeLogFlag lo_flags].
    rewrite N.lor_0_l. replace (N.land flag (N.land (lo_flags o) (N.lxor f all32))) with 0; [reflexivity|].
    symmetry. apply N.bits_inj_iff. intros i. rewrite N.bits_0, !N.land_spec, N.lxor_spec, testbit_all32.
    assert (Hb : N.testbit flag i = (N.testbit flag i && N.testbit f i)%bool) by (rewrite <- N.land_spec, H; auto).
    destruct (N.ltb_spec i 32) as [Hi|Hi].
    + destruct (N.testbit flag i), (N.testbit f i); cbn in *; auto; try discriminate Hb. destruct (N.testbit (lo_flags o) i); reflexivity.
    + assert (E : N.testbit (lo_flags o) i = false); [|rewrite E; destruct (N.testbit flag i); reflexivity].
      destruct (N.eq_dec (lo_flags o) 0) as [->|Hz]; [apply N.bits_0|]. apply N.bits_above_log2. apply N.log2_lt_pow2 in Ho; lia.
  - intros H E. unfold log in E. cbn [after_options fold_left set_options setOutputStream setFlag lg_flags log_new addLogFlag lo_flags] in E.
    rewrite N.lor_0_l in E. destruct (N.eqb_spec (N.land flag (N.lor (lo_flags o) f)) 0) as [Z|Z]; [|discriminate E].
    apply lor_nz in Z as [_ Z]. contradiction.
Qed.
(** With one call the claim of the documentation holds: emitted iff enabled. *)
Theorem C30_single_options : forall o flag, log (after_options [o]) flag <> None <-> N.land flag (lo_flags o) <> 0.
Proof.
  intros o flag. rewrite (proj1 (C30_emitted_iff [o] flag)). split.
  - intros (o' & [->|[]] & H); auto.
  - intros H. exists o. simpl. auto.
Qed.
(** Flags are never cleared: after options(o1) and options(o2) a message of o1 that
    o2 does not enable is still emitted. *)
Theorem C30_flags_never_cleared : forall o1 o2 flag, N.land flag (lo_flags o1) <> 0 -> log (after_options [o1; o2]) flag <> None.
Proof. intros o1 o2 flag H. apply (proj1 (C30_emitted_iff _ _)). exists o1. simpl. auto. Qed.
(** startIter: its "it" record is written iff some flag is enabled, and always as
    general data, never as data of the iteration (all 32 bits are passed). *)
Theorem C30_startIter : forall l i, lg_flags l < 2 ^ 32 ->
  snd (startIter l i) = (if lg_flags l =? 0 then None else Some (lg_os l, General (lg_name l))) /\ lg_iter (fst (startIter l i)) = i.
Proof.
  intros l i H. split; auto. unfold startIter, log. cbn [snd lg_flags lg_os lg_name lg_iter].
  assert (E : N.land all32 (lg_flags l) = lg_flags l).
  { rewrite N.land_comm. change all32 with (N.ones 32). rewrite N.land_ones. apply N.mod_small. auto. }
  rewrite E. destruct (N.eqb_spec (lg_flags l) 0); auto.
Qed.
Example C30_nonvacuous : log (after_options [LO 4 0; LO 0 1]) 4 = Some (1%nat, PerIteration "log" 0) /\ log (after_options [LO 3 0]) 4 = None.
Proof. split; reflexivity. Qed.

(** ** C39 *)
Lemma names_prefix show s : (s < 0 \/ 6 < s)%Z -> status_name show s = ("unknown failure (" ++ show s ++ ")")%string.
Proof. intros H. destruct s as [|p|p]; try lia; auto. destruct p as [[[p|p|]|[p|p|]|]|[[p|p|]|[p|p|]|]|]; auto; lia. Qed.
(** Every integer value of the enum has a non-empty name and different values have
    different names (if decimal printing is injective). *)
Lemma append_inj_r a b c : (a ++ c = b ++ c -> a = b)%string.
Proof.
  intros H. assert (HL : forall x y : string, String.length (x ++ y) = (String.length x + String.length y)%nat).
  { induction x; intros; simpl; auto. }
  revert b H; induction a as [|x a IH]; intros [|y b] H; simpl in H; auto.
  - exfalso. apply (f_equal String.length) in H. simpl in H. rewrite HL in H. lia.
  - exfalso. apply (f_equal String.length) in H. simpl in H. rewrite HL in H. lia.
  - injection H as <- H. f_equal. auto.
Qed.
Theorem C39_status_names : forall show, (forall a b, show a = show b -> a = b) ->
  (forall a, status_name show a <> ""%string) /\ (forall a b, status_name show a = status_name show b -> a = b).
Proof.
  intros show Hs.
  assert (D : forall s, (s = 0 \/ s = 1 \/ s = 2 \/ s = 3 \/ s = 4 \/ s = 5 \/ s = 6)%Z \/ (s < 0 \/ 6 < s)%Z) by lia.
  split.
  - intros a. destruct (D a) as [[-> | [-> | [-> | [-> | [-> | [-> | ->]]]]]]|H]; try discriminate. rewrite names_prefix by auto. discriminate.
  - intros a b. destruct (D a) as [Ha|Ha]; destruct (D b) as [Hb|Hb].
    + destruct Ha as [-> | [-> | [-> | [-> | [-> | [-> | ->]]]]]]; destruct Hb as [-> | [-> | [-> | [-> | [-> | [-> | ->]]]]]]; simpl; congruence.
    + rewrite (names_prefix show b) by auto. destruct Ha as [-> | [-> | [-> | [-> | [-> | [-> | ->]]]]]]; simpl; discriminate.
    + rewrite (names_prefix show a) by auto. destruct Hb as [-> | [-> | [-> | [-> | [-> | [-> | ->]]]]]]; simpl; discriminate.
    + rewrite !names_prefix by auto. intros H. simpl in H. repeat (injection H as H). apply append_inj_r in H. auto.
Qed.
Theorem C39_statuses : forall show, (forall a b, show a = show b -> a = b) -> forall s t,
  status_name show (term_code s) = status_name show (term_code t) -> s = t.
Proof. intros show Hs s t H. apply (proj2 (C39_status_names show Hs)) in H. destruct s, t; simpl in H; congruence. Qed.

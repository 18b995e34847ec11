(** What [init_] of the box solver computes, and memory safety of its calls,
    for any scalar arithmetic satisfying [safe_ops]. *)
From Coq Require Import List Arith ZArith Lia Bool.
From Verif Require Import Base ActiveSet ActiveSetProofs Num Solver LinAlg GIBase GIInv GISafe GICall GIHist Box.
Import ListNotations.

Section BoxSafe.
Variable S : ops.
Notation T := (carrier S).
Notation problem := (problem S).
Notation sol := (sol S).

(** Bound [i] after the initialisation, and the coordinate of the projection on the box *)
Definition bkind (pb : problem) (i : nat) : status :=
  if lt_lo (p_a pb i) (p_xl pb i) then LOWER_BOUND else if gt_up (p_a pb i) (p_xu pb i) then UPPER_BOUND else INACTIVE.
Definition bval (o : option T) : T := match o with Some v => v | None => zero S end.
Definition bclamp (pb : problem) (i : nat) : T :=
  match bkind pb i with LOWER_BOUND => bval (p_xl pb i) | UPPER_BOUND => bval (p_xu pb i) | _ => p_a pb i end.
Definition bmul (pb : problem) (i : nat) : T :=
  match bkind pb i with LOWER_BOUND => sub S (bval (p_xl pb i)) (p_a pb i) | _ => sub S (p_a pb i) (bval (p_xu pb i)) end.
Definition bsgn (pb : problem) (i : nat) : T :=
  match bkind pb i with LOWER_BOUND => one S | _ => opp S (one S) end.

Record binv (pb : problem) (n k : nat) (b : box_st S) : Prop := {
  bv_good : good (bs_A b); bv_nc : a_nc (bs_A b) = 1%nat; bv_nb : a_nb (bs_A b) = n;
  bv_q : nact (bs_A b) = bs_q b; bv_le : (bs_q b <= k)%nat;
  bv_stt : forall i, stt (bs_A b) i = if (1 <=? i)%nat && (i - 1 <? k)%nat then bkind pb (i - 1) else INACTIVE;
  bv_x : forall i, (i < k)%nat -> bs_x b i = bclamp pb i;
  bv_act : forall j, (j < bs_q b)%nat -> (1 <= act (bs_A b) j <= k)%nat /\ bkind pb (act (bs_A b) j - 1) <> INACTIVE;
  bv_all : forall i, (i < k)%nat -> bkind pb i <> INACTIVE -> exists j, (j < bs_q b)%nat /\ act (bs_A b) j = (i + 1)%nat;
  bv_u : forall j, (j < bs_q b)%nat -> bs_u b j = bmul pb (act (bs_A b) j - 1);
  bv_R : forall a j, (a <= j)%nat -> (j < bs_q b)%nat ->
     bs_R b a j = if (a =? j)%nat then bsgn pb (act (bs_A b) j - 1) else zero S;
  bv_J : exists col : nat -> nat,
     (forall i j, bs_J b i j = if (i <? k)%nat && (j =? col i)%nat then one S else zero S) /\
     (forall j, (j < bs_q b)%nat -> col (act (bs_A b) j - 1)%nat = j) /\
     (forall i, (i < k)%nat -> bkind pb i = INACTIVE -> (n - (k - bs_q b) <= col i < n)%nat) /\
     (forall i i', (i < k)%nat -> (i' < k)%nat -> col i = col i' -> i = i')
}.

Lemma lt_lo_some x (o : option T) : lt_lo x o = true -> exists v, o = Some v.
Proof. destruct o; [eauto|discriminate]. Qed.
Lemma gt_up_some x (o : option T) : gt_up x o = true -> exists v, o = Some v.
Proof. destruct o; [eauto|discriminate]. Qed.

Lemma bkind_cases pb i : bkind pb i = LOWER_BOUND \/ bkind pb i = UPPER_BOUND \/ bkind pb i = INACTIVE.
Proof. unfold bkind. destruct (lt_lo _ _); auto. destruct (gt_up _ _); auto. Qed.

(** Activation of bound [k] *)
Lemma binv_activate pb n k b v uk sg : binv pb n k b -> (k < n)%nat -> bkind pb k <> INACTIVE ->
  v = bclamp pb k -> uk = bmul pb k -> sg = bsgn pb k ->
  exists A, as_activate (bs_A b) (k + 1)%nat (bkind pb k) = Ok A /\
    forall f, binv pb n (Datatypes.S k) (BS A (bs_q b + 1)%nat f (vm n (upd (bs_x b) k v)) (vm n (upd (bs_u b) (bs_q b) uk))
               (mm n (box_R (bs_R b) (bs_q b) sg)) (mm n (mupd (bs_J b) k (bs_q b) (one S)))).
Proof.
  intros [B1 B2 B3 B4 B5 B6 B7 B8 B9 B10 B11 (col & C1 & C2 & C3 & C4)] Hk Hne -> -> ->.
  assert (Hin : stt (bs_A b) (k + 1) = INACTIVE).
  { rewrite B6. replace (k + 1 - 1)%nat with k by lia. rewrite Nat.ltb_irrefl, andb_false_r. reflexivity. }
  destruct (activate_added (bs_A b) (SC (k + 1)%nat (bkind pb k))) as (A & E & HA).
  - exact B1.
  - simpl. rewrite B2, B3. lia.
  - simpl. rewrite B2. unfold kind_ok. destruct (bkind_cases pb k) as [Ek|[Ek|Ek]]; [| |congruence]; rewrite Ek;
      destruct (Nat.ltb_spec (k + 1) 1); try lia; reflexivity.
  - exact Hin.
  - cbn [sc_idx sc_st] in E. exists A. split; [exact E|]. intros f.
    destruct HA as [A1 A2 A3 A4 A5 A6 A7 A8]. cbn [sc_idx sc_st] in *. rewrite B4 in *.
    assert (Eact : forall j, (j < bs_q b + 1)%nat -> act A j = if (j =? bs_q b)%nat then (k + 1)%nat else act (bs_A b) j).
    { intros j Hj. destruct (Nat.eqb_spec j (bs_q b)) as [->|]; [exact A6|]. apply A5. lia. }
    split; cbn [bs_A bs_q bs_f bs_x bs_u bs_R bs_J]; rewrite ?vm_id, ?mm_id; auto; try congruence; try lia.
    + intros i. rewrite A7, B6. destruct (Nat.eqb_spec i (k + 1)) as [->|Hne'].
      * replace (k + 1 - 1)%nat with k by lia. destruct (Nat.leb_spec 1 (k + 1)); [|lia].
        destruct (Nat.ltb_spec k (Datatypes.S k)); [|lia]. reflexivity.
      * destruct (Nat.leb_spec 1 i); simpl; auto. destruct (Nat.ltb_spec (i - 1) k), (Nat.ltb_spec (i - 1) (Datatypes.S k)); auto; lia.
    + intros i Hi. unfold upd. destruct (Nat.eqb_spec i k) as [->|]; auto. apply B7. lia.
    + intros j Hj. rewrite Eact by auto. destruct (Nat.eqb_spec j (bs_q b)).
      * replace (k + 1 - 1)%nat with k by lia. split; [lia|auto].
      * destruct (B8 j) as [? ?]; [lia|]. split; [lia|auto].
    + intros i Hi Hn. destruct (Nat.eq_dec i k) as [->|].
      * exists (bs_q b). split; [lia|]. exact A6.
      * destruct (B9 i) as (j & Hj & Ej); auto; [lia|]. exists j. split; [lia|]. rewrite A5; auto.
    + intros j Hj. rewrite Eact by auto. unfold upd. destruct (Nat.eqb_spec j (bs_q b)).
      * replace (k + 1 - 1)%nat with k by lia. reflexivity.
      * apply B10. lia.
    + intros a j Ha Hj. rewrite Eact by auto. unfold box_R. destruct (Nat.eqb_spec j (bs_q b)) as [->|].
      * replace (k + 1 - 1)%nat with k by lia. destruct (Nat.eqb_spec a (bs_q b)); auto. destruct (Nat.ltb_spec a (bs_q b)); auto. lia.
      * apply B11; lia.
    + exists (fun i => if (i =? k)%nat then bs_q b else col i). split; [|split; [|split]].
      * intros i j. unfold mupd. destruct (Nat.eqb_spec i k) as [->|Hne'].
        -- destruct (Nat.ltb_spec k (Datatypes.S k)); [|lia]. cbn [andb]. destruct (j =? bs_q b)%nat; auto.
           rewrite C1, Nat.ltb_irrefl. reflexivity.
        -- cbn [andb]. rewrite C1. destruct (Nat.ltb_spec i k), (Nat.ltb_spec i (Datatypes.S k)); auto; lia.
      * intros j Hj. rewrite Eact by auto. destruct (Nat.eqb_spec j (bs_q b)) as [->|].
        -- replace (k + 1 - 1)%nat with k by lia. rewrite Nat.eqb_refl. reflexivity.
        -- destruct (B8 j) as [? ?]; [lia|]. destruct (Nat.eqb_spec (act (bs_A b) j - 1) k); [lia|]. apply C2. lia.
      * intros i Hi Hn. destruct (Nat.eqb_spec i k) as [->|]; [congruence|]. specialize (C3 i ltac:(lia) Hn). lia.
      * assert (Hlow : forall i, (i < k)%nat -> col i <> bs_q b).
        { intros i Hi Ec. destruct (status_eq_dec (bkind pb i) INACTIVE) as [Hn|Hn].
          - specialize (C3 i Hi Hn). lia.
          - destruct (B9 i Hi Hn) as (j & Hj & Ej). specialize (C2 j Hj). rewrite Ej in C2. replace (i + 1 - 1)%nat with i in C2 by lia. lia. }
        intros i i' Hi Hi'. destruct (Nat.eqb_spec i k), (Nat.eqb_spec i' k); intros Ec; try lia.
        -- exfalso. apply (Hlow i'); [lia|auto].
        -- exfalso. apply (Hlow i); [lia|auto].
        -- apply C4; auto; lia.
Qed.

(** Bound [k] not reached *)
Lemma binv_skip pb n k b f : binv pb n k b -> (k < n)%nat -> bkind pb k = INACTIVE ->
  (n - k + bs_q b - 1 < n)%nat /\
  binv pb n (Datatypes.S k) (BS (bs_A b) (bs_q b) f (vm n (upd (bs_x b) k (p_a pb k))) (bs_u b) (bs_R b)
               (mm n (mupd (bs_J b) k (n - k + bs_q b - 1)%nat (one S)))).
Proof.
  intros [B1 B2 B3 B4 B5 B6 B7 B8 B9 B10 B11 (col & C1 & C2 & C3 & C4)] Hk Hn. split; [lia|].
  split; cbn [bs_A bs_q bs_f bs_x bs_u bs_R bs_J]; rewrite ?vm_id, ?mm_id; auto.
  - intros i. rewrite B6. destruct (Nat.leb_spec 1 i); simpl; auto.
    destruct (Nat.ltb_spec (i - 1) k), (Nat.ltb_spec (i - 1) (Datatypes.S k)); auto; try lia.
    replace (i - 1)%nat with k by lia. auto.
  - intros i Hi. unfold upd. destruct (Nat.eqb_spec i k) as [->|]; [|apply B7; lia]. unfold bclamp. rewrite Hn. reflexivity.
  - intros j Hj. destruct (B8 j Hj) as [? ?]. split; auto. lia.
  - intros i Hi Hne. apply B9; auto. destruct (Nat.eq_dec i k); [subst; congruence|lia].
  - exists (fun i => if (i =? k)%nat then (n - k + bs_q b - 1)%nat else col i). split; [|split; [|split]].
    + intros i j. unfold mupd. destruct (Nat.eqb_spec i k) as [->|Hne'].
      * destruct (Nat.ltb_spec k (Datatypes.S k)); [|lia]. cbn [andb]. destruct (j =? n - k + bs_q b - 1)%nat; auto.
        rewrite C1, Nat.ltb_irrefl. reflexivity.
      * cbn [andb]. rewrite C1. destruct (Nat.ltb_spec i k), (Nat.ltb_spec i (Datatypes.S k)); auto; lia.
    + intros j Hj. destruct (B8 j Hj) as [? ?]. destruct (Nat.eqb_spec (act (bs_A b) j - 1) k); [lia|]. auto.
    + intros i Hi Hn'. destruct (Nat.eqb_spec i k); [lia|]. specialize (C3 i ltac:(lia) Hn'). lia.
    + assert (Hlow : forall i, (i < k)%nat -> col i <> (n - k + bs_q b - 1)%nat).
      { intros i Hi Ec. destruct (status_eq_dec (bkind pb i) INACTIVE) as [Hn'|Hn'].
        - specialize (C3 i Hi Hn'). lia.
        - destruct (B9 i Hi Hn') as (j & Hj & Ej). specialize (C2 j Hj). rewrite Ej in C2. replace (i + 1 - 1)%nat with i in C2 by lia. lia. }
      intros i i' Hi Hi'. destruct (Nat.eqb_spec i k), (Nat.eqb_spec i' k); intros Ec; try lia.
      * exfalso. apply (Hlow i'); [lia|auto].
      * exfalso. apply (Hlow i); [lia|auto].
      * apply C4; auto; lia.
Qed.

(** What one step adds to f *)
Definition bcost (pb : problem) (i : nat) (f : T) : T :=
  match bkind pb i with INACTIVE => f | _ => add S f (mul S (mul S (half S) (bmul pb i)) (bmul pb i)) end.

Lemma box_step_spec pb n k b : binv pb n k b -> (k < n)%nat -> p_asize pb = n -> p_xlsize pb = n -> p_xusize pb = n ->
  exists b', box_step pb n k b = Ok b' /\ binv pb n (Datatypes.S k) b' /\ bs_f b' = bcost pb k (bs_f b).
Proof.
  intros HB Hk E1 E2 E3. unfold box_step. rewrite E1, E2, E3. apply Nat.ltb_lt in Hk as Hk'. rewrite Hk'. cbn [andb guard].
  pose proof (bv_le _ _ _ _ HB) as Hle. assert (Hq : (bs_q b <? n)%nat = true) by (apply Nat.ltb_lt; lia).
  destruct (lt_lo (p_a pb k) (p_xl pb k)) eqn:El.
  - assert (Ek : bkind pb k = LOWER_BOUND) by (unfold bkind; rewrite El; reflexivity).
    destruct (lt_lo_some _ _ El) as (l & Exl). rewrite Exl, Hq. cbn [guard].
    destruct (binv_activate pb n k b l (sub S l (p_a pb k)) (one S) HB Hk) as (A & EA & HA).
    + congruence.
    + unfold bclamp. rewrite Ek, Exl. reflexivity.
    + unfold bmul. rewrite Ek, Exl. reflexivity.
    + unfold bsgn. rewrite Ek. reflexivity.
    + rewrite Ek in EA. rewrite EA. cbn [bind]. eexists. split; [reflexivity|]. split; [apply HA|].
      unfold bcost, bmul. rewrite Ek, Exl. reflexivity.
  - destruct (gt_up (p_a pb k) (p_xu pb k)) eqn:Eu.
    + assert (Ek : bkind pb k = UPPER_BOUND) by (unfold bkind; rewrite El, Eu; reflexivity).
      destruct (gt_up_some _ _ Eu) as (l & Exl). rewrite Exl, Hq. cbn [guard].
      destruct (binv_activate pb n k b l (sub S (p_a pb k) l) (opp S (one S)) HB Hk) as (A & EA & HA).
      * congruence.
      * unfold bclamp. rewrite Ek, Exl. reflexivity.
      * unfold bmul. rewrite Ek, Exl. reflexivity.
      * unfold bsgn. rewrite Ek. reflexivity.
      * rewrite Ek in EA. rewrite EA. cbn [bind]. eexists. split; [reflexivity|]. split; [apply HA|].
        unfold bcost, bmul. rewrite Ek, Exl. reflexivity.
    + assert (Ek : bkind pb k = INACTIVE) by (unfold bkind; rewrite El, Eu; reflexivity).
      destruct (binv_skip pb n k b (bs_f b) HB Hk Ek) as [Hc HB']. apply Nat.ltb_lt in Hc. rewrite Hc. cbn [guard].
      eexists. split; [reflexivity|]. split; [exact HB'|]. unfold bcost. rewrite Ek. reflexivity.
Qed.

Fixpoint bcosts (pb : problem) (k : nat) (f : T) : T :=
  match k with O => f | Datatypes.S i => bcost pb i (bcosts pb i f) end.

Lemma box_loop_spec pb n b : binv pb n 0 b -> p_asize pb = n -> p_xlsize pb = n -> p_xusize pb = n ->
  forall k, (k <= n)%nat -> exists b', box_loop pb n k b = Ok b' /\ binv pb n k b' /\ bs_f b' = bcosts pb k (bs_f b).
Proof.
  intros HB E1 E2 E3. induction k as [|k IH]; intros Hk; cbn [box_loop].
  - exists b. auto.
  - destruct IH as (b1 & E & H1 & F1); [lia|]. rewrite E. cbn [bind].
    destruct (box_step_spec pb n k b1 H1) as (b2 & E' & H2 & F2); auto. exists b2. split; auto. split; auto.
    cbn [bcosts]. rewrite <- F1. auto.
Qed.

Lemma nact_reset A : nact (as_reset A) = 0%nat.
Proof. reflexivity. Qed.

(** The state in which the main loop is entered *)
Record bstart (pb : problem) (s : sol) (s' : sol) : Prop := {
  bt_sh : gsh S pb s';
  bt_it : s_it s' = s_it s; bt_exp : s_exp s' = s_exp s; bt_G : s_G s' = s_G s;
  bt_f : s_f s' = bcosts pb (gn S pb) (zero S);
  bt_b : exists b, binv pb (gn S pb) (gn S pb) b /\ s_A s' = bs_A b /\ s_x s' = wset (s_x s) (bs_x b) /\
     s_u s' = wset (s_u s) (bs_u b) /\
     w_buf (s_J s') = unview (gn S pb) (gn S pb) (bs_J b) (w_buf (s_J s)) /\
     w_buf (s_R s') = unview (gn S pb) (gn S pb) (bs_R b) (w_buf (s_R s))
}.

Lemma box_init_spec a o s : box_sizes a = true -> gsh S (box_pb a) s ->
  exists s', box_init (box_pb a) o s = Ok (SUCCESS, s') /\ bstart (box_pb a) s s'.
Proof.
  intros Hsz HS. unfold box_sizes in Hsz. rewrite !andb_true_iff, !Nat.eqb_eq in Hsz. destruct Hsz as ((Z1 & Z2) & Z3).
  pose proof HS as [H1 H2 H3 H4 H5 H6 H7 H8 H9 H10 H11 H12].
  unfold box_init. cbn [s_J s_R s_x s_u s_A set_A]. rewrite H5. set (n := gn S (box_pb a)) in *.
  assert (Hnb : gb S (box_pb a) = n) by exact Z2. assert (Hu : (n <= w_size (s_u s))%nat) by (unfold gcb in H11; lia).
  rewrite ggetM by (auto; lia). cbn [bind]. rewrite ggetM by (auto; lia). cbn [bind]. rewrite ggetV by auto. cbn [bind].
  rewrite ggetV by auto. cbn [bind].
  set (b0 := BS _ _ _ _ _ _ _).
  assert (HB0 : binv (box_pb a) n 0 b0).
  { unfold b0. split; cbn [bs_A bs_q bs_f bs_x bs_u bs_R bs_J]; auto; try (intros; lia).
    - apply good_reset, H2.
    - simpl. rewrite H4. exact Hnb.
    - intros i. rewrite gstt_reset. destruct (1 <=? i)%nat; simpl; auto.
    - exists (fun i => i). split; [auto|]. split; [intros; lia|]. split; intros; lia. }
  assert (Z4 : ba_xusize a = ba_n a) by congruence.
  destruct (box_loop_spec (box_pb a) n b0 HB0 eq_refl Z2 Z4 n (le_n n)) as (b & E & HB & Ef).
  rewrite E. cbn [bind]. eexists. split; [reflexivity|]. split.
  - eapply gsh_trans; eauto; try reflexivity; simpl.
    + apply HB.
    + rewrite H3. apply HB.
    + rewrite H4, Hnb. apply HB.
  - reflexivity.
  - reflexivity.
  - reflexivity.
  - simpl. exact Ef.
  - exists b. split; auto.
Qed.

Lemma box_sizes_ok a : box_sizes a = true -> sizes_ok (box_pb (S:=S) a) = true.
Proof.
  unfold box_sizes. rewrite !andb_true_iff, !Nat.eqb_eq. intros ((Z1 & Z2) & Z3).
  unfold sizes_ok. simpl. rewrite Z1, Z3, Z2, !Nat.eqb_refl. reflexivity.
Qed.

Lemma bstart_q pb s s' : bstart pb s s' -> (nact (s_A s') <= gn S pb)%nat.
Proof. intros H. destruct (bt_b _ _ _ H) as (b & HB & -> & _). rewrite (bv_q _ _ _ _ HB). apply HB. Qed.

(** A whole call: the initialisation, then the loop *)
Lemma box_solve_spec junk a o s : safe_ops S -> leb S (o_bigBnd o) (o_bigBnd o) = true -> gwf S s ->
  if box_sizes a then exists s2 s0, s_it s2 = 0%nat /\ s_exp s2 = true /\ gsh S (box_pb a) s2 /\ bstart (box_pb a) s2 s0 /\
     dual_init box_init (box_pb a) o (resize junk s (ba_n a) 1 (0 <? ba_xlsize a)%nat) = Ok (SUCCESS, s0) /\
     box_solve junk a o s = loop (box_pb a) o (o_maxIter o) (L s0 false (SC 0 INACTIVE))
  else box_solve junk a o s = UB.
Proof.
  intros HO HB HW. unfold box_solve. destruct (box_sizes a) eqn:Hsz; [|reflexivity]. cbn [guard].
  pose proof (gresize_sh S junk (box_pb a) s HW (box_sizes_ok a Hsz)) as HS.
  change (p_Grows (box_pb a)) with (ba_n a) in HS. change (p_Ccols (box_pb a)) with 1%nat in HS. change (p_xlsize (box_pb a)) with (ba_xlsize a) in HS.
  set (s1 := resize junk s _ _ _) in *. unfold dual_solve, dual_init.
  set (s2 := set_it (if o_warm o then set_exp s1 true else set_A (set_exp s1 true) (as_reset (s_A (set_exp s1 true)))) 0).
  assert (HS2 : gsh S (box_pb a) s2).
  { unfold s2. destruct (o_warm o); eapply gsh_trans; eauto; try reflexivity; simpl; [apply HS|apply good_reset, HS]. }
  assert (Eit : s_it s2 = 0%nat) by (unfold s2; destruct (o_warm o); auto).
  assert (Eex : s_exp s2 = true) by (unfold s2; destruct (o_warm o); auto).
  destruct (box_init_spec a o s2 Hsz HS2) as (s0 & E & H0). exists s2, s0. split; [auto|]. split; [auto|]. split; [auto|]. split; [auto|].
  split; [exact E|]. rewrite E. cbn [bind]. pose proof (bt_sh _ _ _ H0) as HS0. rewrite (g_n _ _ _ HS0).
  rewrite ggetV by apply HS0. cbn [bind]. rewrite ggetV by apply HS0. cbn [bind].
  rewrite ggetV by (pose proof (gnact_le _ _ _ HS0); pose proof (g_u _ _ _ HS0); lia). cbn [bind].
  rewrite (bt_it _ _ _ H0), Eit, Nat.sub_0_r.
  destruct (gloop_inv S (box_pb a) o (fun _ => True) HO HB) with (fuel := o_maxIter o) (l := L s0 false (SC 0 INACTIVE))
    as (st & s' & El & _ & _ & _ & _ & _ & Hst); auto.
  { split; simpl; auto; [|discriminate]. exact (bstart_q _ _ _ H0). }
  rewrite El. cbn [bind]. destruct Hst as [[-> _]|[[-> | ->] _]]; auto.
Qed.

Lemma box_solve_result junk a o s : safe_ops S -> leb S (o_bigBnd o) (o_bigBnd o) = true -> gwf S s -> box_sizes a = true ->
  exists st s', box_solve junk a o s = Ok (st, s') /\ gsh S (box_pb a) s' /\ s_exp s' = true /\ (nact (s_A s') <= ba_n a)%nat /\
    ((st = MAX_ITER_REACHED /\ s_it s' = o_maxIter o) \/ ((st = SUCCESS \/ st = INFEASIBLE) /\ (s_it s' < o_maxIter o)%nat)).
Proof.
  intros HO HB HW Hsz. pose proof (box_solve_spec junk a o s HO HB HW) as H. rewrite Hsz in H.
  destruct H as (s2 & s0 & I2 & X2 & HS2 & H0 & _ & E). rewrite E.
  destruct (gloop_inv S (box_pb a) o (fun _ => True) HO HB) with (fuel := o_maxIter o) (l := L s0 false (SC 0 INACTIVE))
    as (st & s' & El & R1 & _ & R3 & R4 & _ & Hst); auto.
  { split; simpl; [apply H0|exact (bstart_q _ _ _ H0)|discriminate]. }
  exists st, s'. split; auto. split; auto. split; [rewrite R4; simpl; rewrite (bt_exp _ _ _ H0); auto|].
  split; [exact R3|]. simpl in Hst. rewrite (bt_it _ _ _ H0), I2 in Hst. destruct Hst as [[? ?]|[? ?]]; [left|right]; split; auto; lia.
Qed.

Lemma box_hist_wf s : safe_ops S -> box_history S s -> gwf S s.
Proof.
  intros HO H. induction H as [|junk n|junk s n m ub H IH|s H IH|s l s' H IH E|junk a o s st s' H IH HB E].
  - apply gwf_new.
  - apply gresize_wf, gwf_new.
  - apply gresize_wf; auto.
  - apply gwf_reset; auto.
  - eapply gwf_mult; eauto.
  - destruct (box_sizes a) eqn:Hsz; [|unfold box_solve in E; rewrite Hsz in E; discriminate].
    destruct (box_solve_result junk a o s HO HB IH Hsz) as (st1 & s1 & E1 & HS & _).
    assert (s1 = s') by congruence. subst. eapply gsh_wf; eauto.
Qed.
End BoxSafe.

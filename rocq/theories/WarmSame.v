(** Non-interference for the warm-startable solver: what it returns depends only
    on the problem (only the lower triangle of G), the options and the statuses
    given to the call, for any scalar arithmetic. *)
From Coq Require Import List Arith ZArith Lia Bool.
From Verif Require Import Base ActiveSet ActiveSetProofs Num Solver LinAlg GIBase GIInv GISafe GICall GIHist GISame Warm WarmAS WarmSafe WarmHist.
Import ListNotations.

Section Same.
Variable S : ops.
Notation problem := (problem S).
Notation sol := (sol S).
Notation xsol := (xsol S).
Notation vec := (vec S).
Notation mat := (mat S).

(** rows [< n] of the columns [< q] *)
Definition ragr (n q : nat) (B B' : mat) : Prop := forall i j, (i < n)%nat -> (j < q)%nat -> B i j = B' i j.

(** ** The initial active set does not look at G *)
Lemma re_pia_bnd pb G o ws k A : pia_bnd (regraph S pb G) o ws k A = pia_bnd pb o ws k A.
Proof. induction k as [|k IH]; auto. cbn [pia_bnd]. rewrite IH. reflexivity. Qed.
Lemma re_pia_cstr pb G o ws k A : pia_cstr (regraph S pb G) o ws k A = pia_cstr pb o ws k A.
Proof. induction k as [|k IH]; auto. cbn [pia_cstr]. rewrite IH. reflexivity. Qed.
Lemma re_pia pb G o ws n A : processInitialActiveSet (regraph S pb G) o ws n A = processInitialActiveSet pb o ws n A.
Proof.
  unfold processInitialActiveSet. rewrite re_pia_bnd. destruct (pia_bnd pb o ws _ _); auto. cbn [bind]. rewrite re_pia_cstr. reflexivity.
Qed.
Lemma re_fill pb G n A k N b : fill (regraph S pb G) n A k N b = fill pb n A k N b.
Proof. induction k as [|k IH]; auto. cbn [fill]. rewrite IH. reflexivity. Qed.
Lemma re_comp pb G Lm x : initComputationData (regraph S pb G) Lm x = initComputationData pb Lm x.
Proof.
  unfold initComputationData. destruct (getM _ _ _ _); auto. cbn [bind]. destruct (getV (x_b x) _); auto. cbn [bind].
  rewrite re_fill. reflexivity.
Qed.
Lemma re_drop pb G fuel : forall x, drop_loop (regraph S pb G) fuel x = drop_loop pb fuel x.
Proof.
  induction fuel as [|f IH]; intros x; auto. cbn [drop_loop].
  destruct (getV (s_u (x_s x)) _); auto. cbn [bind]. destruct (getV (x_b x) _); auto. cbn [bind].
  destruct (neg_min _ _ _) as [[m [l|]]|]; auto. cbn [bind snd].
  destruct (as_deactivate _ _); auto. cbn [bind]. destruct (removeConstraint_ _ _); auto. cbn [bind].
  change (initPrimalDual (regraph S pb G)) with (initPrimalDual pb). destruct (initPrimalDual pb _); auto. cbn [bind]. auto.
Qed.

(** ** Householder kernels *)
Lemma house_agr n q k B B' : (k < n)%nat -> (k < q)%nat -> ragr n q B B' ->
  fst (house n k B) = fst (house n k B') /\ vagr S n (snd (house n k B)) (snd (house n k B')).
Proof.
  intros Hn Hq H. unfold house, hh_tail. rewrite (H k k) by auto.
  rewrite (gsum_ext S (n - 1 - k) _ (fun t => mul S (B' (k + 1 + t)%nat k) (B' (k + 1 + t)%nat k))).
  2:{ intros t Ht. rewrite (H (k + 1 + t)%nat k) by lia. auto. }
  destruct (leb S _ (dblmin S)); cbn [fst snd]; split; auto; intros i Hi; auto. rewrite (H i k) by auto. auto.
Qed.
Lemma qr_col_agr n q k B B' : (k < n)%nat -> (k < q)%nat -> ragr n q B B' ->
  fst (qr_col n q k B) = fst (qr_col n q k B') /\ ragr n q (snd (qr_col n q k B)) (snd (qr_col n q k B')).
Proof.
  intros Hn Hq H. destruct (house_agr n q k B B' Hn Hq H) as [E1 E2]. unfold qr_col.
  destruct (house n k B) as ((tau, beta), ess), (house n k B') as ((tau', beta'), ess'). cbn [fst snd] in E1, E2.
  injection E1 as <- <-. rewrite !vm_id, !mm_id. cbn [fst snd]. split; auto. intros i j Hi Hj.
  assert (Et : forall j, (j < q)%nat ->
    add S (sumn [31; k; j]%nat (n - 1 - k) (fun r => mul S (ess (k + 1 + r)%nat) (B (k + 1 + r)%nat j))) (B k j) =
    add S (sumn [31; k; j]%nat (n - 1 - k) (fun r => mul S (ess' (k + 1 + r)%nat) (B' (k + 1 + r)%nat j))) (B' k j)).
  { intros a Ha. rewrite (H k a) by auto. f_equal. apply gsum_ext. intros r Hr. rewrite E2, (H (k + 1 + r)%nat a) by lia. auto. }
  rewrite (Et j Hj), (E2 i Hi), (H i j), (H k j) by auto. auto.
Qed.
Lemma qr_loop_agr n q cnt : forall k B B' h h', (k + cnt <= n)%nat -> (k + cnt <= q)%nat -> ragr n q B B' -> vagr S k h h' ->
  ragr n q (fst (qr_loop n q cnt k B h)) (fst (qr_loop n q cnt k B' h')) /\
  vagr S (k + cnt) (snd (qr_loop n q cnt k B h)) (snd (qr_loop n q cnt k B' h')).
Proof.
  induction cnt as [|cnt IH]; intros k B B' h h' Hn Hq HB Hh; cbn [qr_loop].
  - rewrite Nat.add_0_r. auto.
  - destruct (qr_col_agr n q k B B') as [E1 E2]; try lia; auto.
    destruct (qr_col n q k B) as (tau, B1), (qr_col n q k B') as (tau', B1'). cbn [fst snd] in E1, E2. subst tau'.
    replace (k + Datatypes.S cnt)%nat with (Datatypes.S k + cnt)%nat by lia. apply IH; try lia; auto.
    intros i Hi. unfold upd. destruct (Nat.eqb_spec i k); auto. apply Hh. lia.
Qed.
Lemma hh_right_agr n k tau ess ess' J J' : (k < n)%nat -> vagr S n ess ess' -> magr S n J J' -> magr S n (hh_right n k tau ess J) (hh_right n k tau ess' J').
Proof.
  intros Hk He HJ i j Hi Hj. unfold hh_right. rewrite !vm_id, !mm_id.
  assert (Et : add S (sumn [32; k; i]%nat (n - 1 - k) (fun r => mul S (J i (k + 1 + r)%nat) (ess (k + 1 + r)%nat))) (J i k) =
               add S (sumn [32; k; i]%nat (n - 1 - k) (fun r => mul S (J' i (k + 1 + r)%nat) (ess' (k + 1 + r)%nat))) (J' i k)).
  { rewrite (HJ i k) by auto. f_equal. apply gsum_ext. intros r Hr. rewrite He, (HJ i (k + 1 + r)%nat) by lia. auto. }
  rewrite Et, (He j Hj), (HJ i j), (HJ i k) by auto. auto.
Qed.
Lemma app_q_agr n q cnt : forall k B B' h h' J J', (k + cnt <= n)%nat -> (k + cnt <= q)%nat -> ragr n q B B' -> vagr S (k + cnt) h h' -> magr S n J J' ->
  magr S n (app_q n cnt k B h J) (app_q n cnt k B' h' J').
Proof.
  induction cnt as [|cnt IH]; intros k B B' h h' J J' Hn Hq HB Hh HJ; cbn [app_q]; auto.
  apply IH; try lia; auto.
  - intros i Hi. apply Hh. lia.
  - rewrite (Hh k) by lia. apply hh_right_agr; auto; try lia. intros i Hi. apply HB; lia.
Qed.

(** ** Related states: everything computed so far that is looked at later *)
Record fsim (s s' : sol) : Prop := {
  fm_n : s_n s = s_n s'; fm_A : s_A s = s_A s'; fm_good : good (s_A s);
  fm_it : s_it s = s_it s'; fm_exp : s_exp s = s_exp s';
  fm_J : magr S (s_n s) (view (s_n s) (w_buf (s_J s))) (view (s_n s) (w_buf (s_J s')));
  fm_R : (nact (s_A s) <= s_n s)%nat -> uagr S (nact (s_A s)) (view (s_n s) (w_buf (s_R s))) (view (s_n s) (w_buf (s_R s')))
}.
Definition bagr (x x' : xsol) : Prop := vagr S (nact (s_A (x_s x))) (w_buf (x_b x)) (w_buf (x_b x')).

Lemma fill_agr pb n A k N N' b b' : good A -> (k <= nact A)%nat ->
  pr (fun r r' => (forall i j, (j < k)%nat -> fst r i j = fst r' i j) /\ vagr S k (snd r) (snd r')) (fill pb n A k N b) (fill pb n A k N' b').
Proof.
  intros HG Hk. induction k as [|k IH]; cbn [fill].
  - apply pr_ok. split; [intros; lia|intros i Hi; lia].
  - eapply pr_bind; [apply IH; lia|]. intros r r' [H1 H2].
    destruct (good_get A k HG ltac:(lia)) as (Eg & Hin & Hlt). rewrite Eg. cbn [bind]. rewrite (good_as_stat A _ HG Hlt). cbn [bind].
    destruct (fill_col pb n (a_nc A) (act A k) (stt A (act A k))) as [c|] eqn:Ec; [|intros a a' E; discriminate]. cbn [bind].
    pose proof (good_kind A _ HG Hin) as HK.
    destruct c as [(v, w)|].
    + apply pr_ok. cbn [fst snd]. split.
      * intros i j Hj. destruct (Nat.eqb_spec j k); auto. apply H1. lia.
      * intros i Hi. unfold upd. destruct (Nat.eqb_spec i k); auto. apply H2. lia.
    + exfalso. unfold fill_col in Ec. destruct (stt A (act A k)) eqn:Es; try discriminate;
        repeat match type of Ec with
        | guard ?c _ = _ => destruct c; cbn [guard] in Ec; try discriminate
        | (match ?m with _ => _ end) = _ => destruct m; try discriminate
        end.
Qed.

Lemma comp_sim pb L L' x x' : let n := s_n (x_s x) in lagr S n L L' -> s_n (x_s x) = s_n (x_s x') -> s_A (x_s x) = s_A (x_s x') -> good (s_A (x_s x)) ->
  s_it (x_s x) = s_it (x_s x') -> s_exp (x_s x) = s_exp (x_s x') ->
  pr (fun y y' => fsim (x_s y) (x_s y') /\ bagr y y') (initComputationData pb L x) (initComputationData pb L' x').
Proof.
  intros n HL En EA HG Eit Eex. unfold initComputationData. rewrite <- En, <- EA. fold n. set (q := nact (s_A (x_s x))).
  eapply pr_bind; [apply pr_getM|]. intros N0m N0m' _.
  eapply pr_bind; [apply pr_getV|]. intros b0 b0' _.
  eapply pr_bind; [apply fill_agr; [exact HG|apply Nat.le_refl]|]. intros r r' [HN Hb].
  eapply pr_bind; [apply pr_getM|]. intros J0 J0' _.
  eapply pr_bind; [apply pr_getV|]. intros h0 h0' _.
  eapply pr_bind; [apply pr_getV|]. intros t0 t0' _.
  rewrite !mm_id.
  set (B := fun i j => fwd n L (fun k => fst r k j) i). set (B' := fun i j => fwd n L' (fun k => fst r' k j) i).
  set (J := fun i j => bwd n n (tr L) (fun k => idm S k j) i). set (J' := fun i j => bwd n n (tr L') (fun k => idm S k j) i).
  assert (HU : uagr S n (tr L) (tr L')) by (intros i j Hij Hj; unfold tr; apply HL; auto).
  assert (HB : ragr n q B B').
  { intros i j Hi Hj. unfold B, B'. apply (fwd_agr S n n L L'); auto. intros k Hk. apply HN. exact Hj. }
  assert (HJ : magr S n J J').
  { intros i j Hi Hj. apply bwd_agr; auto. intros ? ?; auto. }
  destruct (qr_loop_agr n q (Nat.min n q) 0 B B' h0 h0') as [Q1 Q2]; auto; try lia. { intros i Hi. lia. }
  assert (Q3 := app_q_agr n q (Nat.min n q) 0 _ _ _ _ J J' (Nat.le_min_l n q) (Nat.le_min_r n q) Q1 Q2 HJ).
  destruct (qr_loop n q (Nat.min n q) 0 B h0) as (B1, h1), (qr_loop n q (Nat.min n q) 0 B' h0') as (B1', h1'). cbn [fst snd] in *.
  apply pr_ok. rewrite !vm_id. split.
  - split; cbn [x_s s_n s_A s_it s_exp s_J s_R set_R set_J wset w_buf w_size]; auto.
    + fold n. intros i j Hi Hj. rewrite !view_unview by auto. auto.
    + fold n q. intros Hq i j Hij Hj. rewrite !view_unview by lia. apply Q1; lia.
  - exact Hb.
Qed.

Lemma pd_sim pb x x' : fsim (x_s x) (x_s x') -> bagr x x' ->
  pr (fun y y' => sim S 0 (x_s y) (x_s y') /\ bagr y y') (initPrimalDual pb x) (initPrimalDual pb x').
Proof.
  intros [H1 H2 H3 H4 H5 H6 H7] Hb. unfold bagr in Hb. unfold initPrimalDual. rewrite <- H1, <- H2.
  set (n := s_n (x_s x)) in *. set (q := nact (s_A (x_s x))) in *.
  eapply pr_bind; [apply pr_getM|]. intros J J' (-> & -> & _).
  eapply pr_bind; [apply pr_getM|]. intros R R' (-> & -> & Hq). specialize (H7 Hq).
  eapply pr_bind; [apply pr_getV|]. intros b b' (-> & ->).
  eapply pr_bind; [apply pr_getV|]. intros al0 al0' (-> & ->).
  eapply pr_bind; [apply pr_getV|]. intros be0 be0' (-> & ->).
  eapply pr_bind; [apply pr_getV|]. intros x0 x0' (-> & ->).
  eapply pr_bind; [apply pr_getV|]. intros u0 u0' (-> & ->).
  apply pr_guard. intros _ _. cbv zeta. rewrite !vm_id.
  set (J := view n (w_buf (s_J (x_s x)))) in *. set (J' := view n (w_buf (s_J (x_s x')))) in *.
  set (R := view n (w_buf (s_R (x_s x)))) in *. set (R' := view n (w_buf (s_R (x_s x')))) in *.
  set (al := vhead n (fun k => sumn [33; k]%nat n (fun i => mul S (J i k) (p_a pb i))) (w_buf (x_tmp x))).
  set (al' := vhead n (fun k => sumn [33; k]%nat n (fun i => mul S (J' i k) (p_a pb i))) (w_buf (x_tmp x'))).
  set (be := vhead q (fwd q (tr R) (w_buf (x_b x))) (w_buf (s_r (x_s x)))).
  set (be' := vhead q (fwd q (tr R') (w_buf (x_b x'))) (w_buf (s_r (x_s x')))).
  assert (Ha : vagr S n al al').
  { intros i Hi. unfold al, al', vhead. apply Nat.ltb_lt in Hi as Hi'. rewrite Hi'. apply gsum_ext. intros t Ht. rewrite H6 by auto. auto. }
  assert (Hbe : vagr S q be be').
  { intros i Hi. unfold be, be', vhead. apply Nat.ltb_lt in Hi as Hi'. rewrite Hi'. apply (fwd_agr S q q (tr R) (tr R')); auto.
    intros a c Hac Hc. unfold tr. apply H7; auto. }
  assert (Hu : vagr S q (bwd q q R (fun k => add S (al k) (be k))) (bwd q q R' (fun k => add S (al' k) (be' k)))).
  { apply bwd_agr; auto. intros k Hk. rewrite Ha, Hbe by lia. auto. }
  apply pr_ok. split; [|exact Hb].
  split; cbn [x_s s_n s_A s_it s_exp s_J s_R s_u s_x s_f s_r set_u set_x set_f set_r wset w_buf w_size]; auto; fold n q.
  - f_equal; [|f_equal]; apply gsum_ext; intros k Hk; [rewrite Hbe, Ha by lia|rewrite Ha by lia]; auto.
  - intros i Hi. unfold vhead. apply Nat.ltb_lt in Hi as Hi'. rewrite Hi'. f_equal; apply gsum_ext; intros k Hk.
    + rewrite H6, Hbe by lia. auto.
    + rewrite H6, Ha by lia. auto.
  - rewrite Nat.add_0_r. intros i Hi. unfold vhead. apply Nat.ltb_lt in Hi as Hi'. rewrite Hi'. apply Hu. auto.
Qed.

Lemma neg_min_agr A (u u' : vec) k : vagr S k u u' -> neg_min A u k = neg_min A u' k.
Proof.
  intros H. induction k as [|k IH]; auto. cbn [neg_min]. rewrite IH by (intros i Hi; apply H; lia). rewrite (H k) by lia. auto.
Qed.

(** removal of the column of a constraint already deactivated *)
Lemma remove__sim s s' l A : fsim s s' -> as_deactivate (s_A s) l = Ok A ->
  pr (fun t t' => fsim t t' /\ s_A t = A) (removeConstraint_ (set_A s A) l) (removeConstraint_ (set_A s' A) l).
Proof.
  intros [H1 H2 H3 H4 H5 H6 H7] E. pose proof (good_deactivate _ _ _ H3 E) as HG.
  assert (Hl : (l < nact (s_A s))%nat) by (rewrite nact_length by auto; apply (deactivate_legal _ l H3); eauto).
  destruct (deactivate_removed (s_A s) l H3 Hl) as (A2 & E2 & HA2). assert (A2 = A) by congruence. subst A2.
  pose proof (ar_nact _ _ _ HA2) as EN.
  unfold removeConstraint_. cbn [s_n s_A s_d s_J s_R s_u set_A]. rewrite <- H1.
  set (n := s_n s) in *. set (q := nact A) in *.
  eapply pr_bind; [apply pr_getM|]. intros J J' (-> & -> & _).
  eapply pr_bind; [apply pr_getM|]. intros R R' (-> & -> & Hq). specialize (H7 ltac:(lia)).
  destruct (rem_loop_agr S n q (q - l) l (view n (w_buf (s_R s))) (view n (w_buf (s_R s'))) (view n (w_buf (s_J s))) (view n (w_buf (s_J s')))) as [L1 L2]; auto; try lia.
  { intros a b Hab Hb _. apply H7; lia. }
  destruct (rem_loop n q (q - l) l (view n (w_buf (s_R s)), view n (w_buf (s_J s)))) as (R1, J1).
  destruct (rem_loop n q (q - l) l (view n (w_buf (s_R s')), view n (w_buf (s_J s')))) as (R1', J1'). simpl in L1, L2.
  apply pr_ok. split; [|reflexivity]. split; simpl; auto; fold n; fold q.
  - intros i j Hi Hj. rewrite !view_unview by auto. auto.
  - intros _ i j Hij Hj. rewrite !view_unview by lia. apply L1; lia.
Qed.
Lemma sim_fsim e s s' : sim S e s s' -> fsim s s'.
Proof. intros []. split; auto. Qed.

Lemma drop_sim pb fuel : forall x x', sim S 0 (x_s x) (x_s x') -> bagr x x' ->
  pr (fun y y' => sim S 0 (x_s y) (x_s y')) (drop_loop pb fuel x) (drop_loop pb fuel x').
Proof.
  induction fuel as [|f IH]; intros x x' Hs Hb; cbn [drop_loop]. { intros a b E; discriminate. }
  pose proof Hs as [H1 H2 H3 H4 H5 H6 H7 H8 H9 H10]. rewrite Nat.add_0_r in H10. unfold bagr in Hb.
  rewrite <- H2. set (q := nact (s_A (x_s x))) in *.
  eapply pr_bind; [apply pr_getV|]. intros u u' (-> & ->).
  eapply pr_bind; [apply pr_getV|]. intros b b' (-> & ->).
  rewrite (neg_min_agr (s_A (x_s x)) _ (w_buf (s_u (x_s x'))) q) by exact H10.
  destruct (neg_min _ _ q) as [[m [l|]]|]; [| |intros a b E; discriminate]; cbn [bind snd].
  2:{ apply pr_ok. exact Hs. }
  cbn [s_A set_it]. rewrite <- H2.
  destruct (as_deactivate (s_A (x_s x)) l) as [A|] eqn:ED; [|intros a b E; discriminate]. cbn [bind].
  assert (EN : q = Datatypes.S (nact A)).
  { assert (Hl : (l < nact (s_A (x_s x)))%nat) by (rewrite nact_length by auto; apply (deactivate_legal _ l H3); eauto).
    destruct (deactivate_removed (s_A (x_s x)) l H3 Hl) as (A2 & E2 & HA2). assert (A2 = A) by congruence. subst A2.
    exact (eq_sym (eq_sym (ar_nact _ _ _ HA2))). }
  rewrite H4. eapply pr_bind.
  { apply (remove__sim (set_it (x_s x) (Datatypes.S (s_it (x_s x')))) (set_it (x_s x') (Datatypes.S (s_it (x_s x')))) l A); auto.
    split; cbn [s_n s_A s_it s_exp s_J s_R set_it]; auto. }
  intros t t' [Ht EA].
  eapply pr_bind; [apply pd_sim; cbn [x_s]; [exact Ht|]|].
  { unfold bagr. cbn [x_s x_b wset w_buf]. rewrite EA. rewrite !vm_id. intros i Hi.
    destruct ((l <=? i)%nat && (i <? q - 1)%nat) eqn:Ec; [|apply Hb; lia].
    apply Hb. lia. }
  intros y y' [Y1 Y2]. apply IH; auto.
Qed.

(** ** Initialisation and call *)
Definition isim (a b : term_status * xsol) : Prop :=
  fst a = fst b /\ s_it (x_s (snd a)) = s_it (x_s (snd b)) /\ s_A (x_s (snd a)) = s_A (x_s (snd b)) /\ (fst a = SUCCESS -> sim S 0 (x_s (snd a)) (x_s (snd b))).

Lemma xinit_sim pb G' o ws x x' : lagr S (s_n (x_s x)) (p_G pb) G' -> s_n (x_s x) = s_n (x_s x') ->
  good (s_A (x_s x)) -> good (s_A (x_s x')) -> a_nc (s_A (x_s x)) = a_nc (s_A (x_s x')) -> a_nb (s_A (x_s x)) = a_nb (s_A (x_s x')) ->
  s_it (x_s x) = s_it (x_s x') -> s_exp (x_s x) = s_exp (x_s x') ->
  (forall st A, processInitialActiveSet pb o ws (s_n (x_s x)) (s_A (x_s x)) = Ok (st, A) -> good A) ->
  pr isim (xinit pb o ws x) (xinit (regraph S pb G') o ws x').
Proof.
  intros HG En HA HA' Ec Eb Eit Eex HP. unfold xinit. rewrite re_pia.
  assert (ER : processInitialActiveSet pb o ws (s_n (x_s x')) (s_A (x_s x')) = processInitialActiveSet pb o ws (s_n (x_s x)) (s_A (x_s x))).
  { unfold processInitialActiveSet. rewrite (reset_eq _ _ HA HA' Ec Eb), En. reflexivity. }
  rewrite ER. destruct (processInitialActiveSet pb o ws (s_n (x_s x)) (s_A (x_s x))) as [(st, A)|] eqn:EP; [|intros a b E; discriminate].
  specialize (HP st A eq_refl). cbn [bind fst snd].
  destruct st; try (apply pr_ok; split; [reflexivity|split; [exact Eit|split; [reflexivity|discriminate]]]).
  cbn [s_n set_A]. rewrite <- En. set (n := s_n (x_s x)) in *.
  destruct (llt_lagr S n n 0 (p_G pb) G') as [L1 L2]; auto. cbn [p_G regraph].
  change (llt_loop n 0 n (p_G pb)) with (llt n (p_G pb)) in L1, L2. change (llt_loop n 0 n G') with (llt n G') in L1, L2.
  destruct (llt n (p_G pb)) as (ret, L), (llt n G') as (ret', L'). simpl in L1, L2. subst ret'.
  destruct ret as [p|]. { apply pr_ok. split; [reflexivity|split; [exact Eit|split; [reflexivity|discriminate]]]. }
  rewrite re_comp. eapply pr_bind; [apply comp_sim; cbn [x_s xset_s s_n s_A s_it s_exp set_G set_A]; auto|]. intros y y' [Y1 Y2].
  change (initPrimalDual (regraph S pb G')) with (initPrimalDual pb).
  eapply pr_bind; [apply pd_sim; eauto|]. intros z z' [Z1 Z2]. rewrite <- (sm_A _ _ _ _ Z1), re_drop.
  eapply pr_bind; [apply drop_sim; eauto|]. intros w w' W1. apply pr_ok. split; [reflexivity|]. split; [apply W1|]. split; [apply W1|auto].
Qed.

Lemma prep_sh junk pb o x0 : xwf S x0 -> sizes_ok pb = true ->
  let x1 := xprep S junk pb o x0 in gsh S pb (x_s x1) /\ s_it (x_s x1) = 0%nat /\ s_exp (x_s x1) = true.
Proof.
  intros H0 Hsz. pose proof (xh_s _ _ _ (xresize_sh S junk pb x0 H0 Hsz)) as HS1. unfold xprep. cbn [x_s xset_s].
  set (x1 := x_s (xresize junk x0 _ _ _)) in *. clearbody x1.
  split; [destruct (o_warm o); eapply gsh_trans; eauto; try reflexivity; simpl; [apply HS1|apply good_reset, HS1]|]. destruct (o_warm o); auto.
Qed.
Lemma xinit_success junk pb o ws x y : xwf S x -> args_ok S pb o ws = true ->
  xinit pb o (ws_eff S junk pb o ws x) (xprep S junk pb o x) = Ok (SUCCESS, y) ->
  (n_eq S pb o (ws_eff S junk pb o ws x) <= gn S pb)%nat /\ fst (llt (gn S pb) (p_G pb)) = None.
Proof.
  intros HW Hargs E. pose proof (ws_eff_size S junk pb o ws x HW Hargs) as Hsize. set (w := ws_eff S junk pb o ws x) in *. clearbody w.
  assert (Hsz : sizes_ok pb = true) by (unfold args_ok in Hargs; rewrite !andb_true_iff in Hargs; apply Hargs).
  destruct (prep_sh junk pb o x HW Hsz) as (P1 & _). set (z := xprep S junk pb o x) in *. clearbody z.
  unfold xinit in E. cbn [s_n set_A] in E. rewrite (g_n _ _ _ P1) in E.
  pose proof (processInitialActiveSet_spec S pb o w _ (gstat_len _ _ _ P1) (g_nc _ _ _ P1) (g_nb _ _ _ P1) Hsize) as HP.
  destruct (forallb _ _); [|rewrite HP in E; discriminate]. destruct HP as (st1 & A1 & E1 & HG1 & _ & _ & HP).
  rewrite E1 in E. cbn [bind fst snd] in E.
  destruct (Nat.ltb_spec (gn S pb) (n_eq S pb o w)).
  - subst st1. discriminate.
  - split; [lia|]. destruct HP as [-> _]. destruct (llt (gn S pb) (p_G pb)) as ([p|] & Lm); [discriminate|reflexivity].
Qed.
Lemma prep_same junk junk' pb o ws ws2 x x' G' st y st' y' : safe_ops S -> xwf S x -> xwf S x' -> args_ok S pb o ws = true ->
  lagr S (p_Grows pb) (p_G pb) G' -> ws_eff S junk pb o ws x = ws_eff S junk' pb o ws2 x' ->
  xinit pb o (ws_eff S junk pb o ws x) (xprep S junk pb o x) = Ok (st, y) ->
  xinit (regraph S pb G') o (ws_eff S junk' pb o ws2 x') (xprep S junk' pb o x') = Ok (st', y') -> isim (st, y) (st', y').
Proof.
  intros HO HW HW' Hargs HG Ews E E'.
  pose proof (ws_eff_size S junk pb o ws x HW Hargs) as Hsize. rewrite Ews in E, Hsize. set (w := ws_eff S junk' pb o ws2 x') in *. clearbody w. clear Ews.
  assert (Hsz : sizes_ok pb = true) by (unfold args_ok in Hargs; rewrite !andb_true_iff in Hargs; apply Hargs).
  destruct (prep_sh junk pb o x HW Hsz) as (P1 & P2 & P3). destruct (prep_sh junk' pb o x' HW' Hsz) as (P1' & P2' & P3').
  set (z := xprep S junk pb o x) in *. set (z' := xprep S junk' pb o x') in *. clearbody z z'.
  refine (xinit_sim pb G' o w z z' _ _ _ _ _ _ _ _ _ _ _ E E').
  - rewrite (g_n _ _ _ P1). exact HG.
  - rewrite (g_n _ _ _ P1), (g_n _ _ _ P1'). reflexivity.
  - apply P1.
  - apply P1'.
  - rewrite (g_nc _ _ _ P1), (g_nc _ _ _ P1'). reflexivity.
  - rewrite (g_nb _ _ _ P1), (g_nb _ _ _ P1'). reflexivity.
  - congruence.
  - congruence.
  - intros st0 A0 EA. rewrite (g_n _ _ _ P1) in EA.
    pose proof (processInitialActiveSet_spec S pb o w _ (gstat_len _ _ _ P1) (g_nc _ _ _ P1) (g_nb _ _ _ P1) Hsize) as HP.
    destruct (forallb _ _); [|congruence]. destruct HP as (st1 & A1 & E1 & HG1 & _). rewrite EA in E1. injection E1 as _ <-. exact HG1.
Qed.

Definition xrsim (a b : term_status * xsol) : Prop :=
  fst a = fst b /\ s_it (x_s (snd a)) = s_it (x_s (snd b)) /\ s_A (x_s (snd a)) = s_A (x_s (snd b)) /\
  (fst a <> NON_POS_HESSIAN -> fst a <> OVERCONSTRAINED_PROBLEM -> sim S 0 (x_s (snd a)) (x_s (snd b))).

Lemma xsolve_same junk junk' pb G' o ws ws2 x x' : safe_ops S -> leb S (o_bigBnd o) (o_bigBnd o) = true -> xwf S x -> xwf S x' ->
  lagr S (p_Grows pb) (p_G pb) G' -> ws_eff S junk pb o ws x = ws_eff S junk' pb o ws2 x' ->
  pr xrsim (xgi_solve junk pb o ws x) (xgi_solve junk' (regraph S pb G') o ws2 x').
Proof.
  intros HO HB HW HW' HG Ews (st, a) (st', b) Ea Eb.
  pose proof (xgi_args _ _ _ _ _ _ _ Ea) as Hargs.
  pose proof (xsolve_ok S junk pb o ws x st a HO HB HW Ea) as HK. cbv zeta in HK. destruct HK as (_ & _ & _ & HK).
  unfold xgi_solve in Ea, Eb.
  do 3 apply guard_ok in Ea as [_ Ea]. do 3 apply guard_ok in Eb as [_ Eb].
  cbv zeta in Ea, Eb. cbn [p_Grows p_Ccols p_xlsize regraph] in Eb.
  change (bind (xinit pb o (ws_eff S junk pb o ws x) (xprep S junk pb o x)) (fun rs => match rs with
    | (SUCCESS, x) => do x0 <- getV (s_x (x_s x)) (s_n (x_s x)); do z <- getV (s_z (x_s x)) (s_n (x_s x)); do u <- getV (s_u (x_s x)) (nact (s_A (x_s x)));
       do rs <- loop pb o (o_maxIter o - s_it (x_s x))%nat (L (x_s x) false (SC 0 INACTIVE)); let '(st, s) := rs in do r <- terminate o st s; Ok (fst r, xset_s x (snd r))
    | (st, x) => do r <- terminate o st (x_s x); Ok (fst r, xset_s x (snd r)) end) = Ok (st, a)) in Ea.
  change (bind (xinit (regraph S pb G') o (ws_eff S junk' pb o ws2 x') (xprep S junk' pb o x')) (fun rs => match rs with
    | (SUCCESS, x) => do x0 <- getV (s_x (x_s x)) (s_n (x_s x)); do z <- getV (s_z (x_s x)) (s_n (x_s x)); do u <- getV (s_u (x_s x)) (nact (s_A (x_s x)));
       do rs <- loop (regraph S pb G') o (o_maxIter o - s_it (x_s x))%nat (L (x_s x) false (SC 0 INACTIVE)); let '(st, s) := rs in do r <- terminate o st s; Ok (fst r, xset_s x (snd r))
    | (st, x) => do r <- terminate o st (x_s x); Ok (fst r, xset_s x (snd r)) end) = Ok (st', b)) in Eb.
  apply bind_ok in Ea as ((sa & y) & Ia & Ea). apply bind_ok in Eb as ((sb & y') & Ib & Eb).
  destruct (prep_same junk junk' pb o ws ws2 x x' G' sa y sb y' HO HW HW' Hargs HG Ews Ia Ib) as (E1 & E2 & E3 & E4). cbn [fst snd] in *. subst sb.
  assert (HT : forall st s r, terminate o st s = Ok r -> r = (st, s)).
  { intros s0 s1 r. unfold terminate. destruct s0; try (intros E; injection E as <-; auto); destruct (o_debug o); try discriminate; intros E; injection E as <-; auto. }
  assert (HF : sa <> SUCCESS -> (do r <- terminate o sa (x_s y); Ok (fst r, xset_s y (snd r))) = Ok (st, a) ->
    (do r <- terminate o sa (x_s y'); Ok (fst r, xset_s y' (snd r))) = Ok (st', b) -> xrsim (st, a) (st', b)).
  { intros Hsa Fa Fb. apply bind_ok in Fa as (r & Fr & Fa). apply HT in Fr. subst r. injection Fa as <- <-.
    apply bind_ok in Fb as (r & Fr & Fb). apply HT in Fr. subst r. injection Fb as <- <-.
    split; [reflexivity|]. split; [exact E2|]. split; [exact E3|]. cbn [fst]. intros N1 N2. exfalso.
    clear - Ia Hsa N1 N2. unfold xinit in Ia. apply bind_ok in Ia as ((s0 & A0) & EP & Ia). cbn [fst snd] in Ia.
    assert (HS0 : s0 = SUCCESS \/ s0 = OVERCONSTRAINED_PROBLEM).
    { unfold processInitialActiveSet in EP. apply bind_ok in EP as (? & _ & EP). apply bind_ok in EP as (? & _ & EP).
      destruct (_ <? _)%nat; [|injection EP as <- _; auto]. destruct (_ <? _)%Z; [injection EP as <- _; auto|].
      apply bind_ok in EP as (? & _ & EP). injection EP as <- _. auto. }
    destruct HS0 as [-> | ->]; [|injection Ia as <- _; congruence].
    destruct (llt _ _) as ([p|] & Lm); [injection Ia as <- _; congruence|].
    repeat (apply bind_ok in Ia as (? & _ & Ia)). injection Ia as <- _. congruence. }
  destruct sa; try (apply HF; [discriminate|exact Ea|exact Eb]). clear HF. specialize (E4 eq_refl).
  do 3 apply bind_ok in Ea as (? & _ & Ea). do 3 apply bind_ok in Eb as (? & _ & Eb).
  apply bind_ok in Ea as ((st3 & s3) & E5 & Ea). apply bind_ok in Eb as ((st3' & s3') & E5' & Eb).
  rewrite re_loop, <- E2 in E5'.
  assert (HL : glinv S pb (L (x_s y) false (SC 0 INACTIVE))).
  { destruct HK as [(_ & HK)|[(_ & _ & HK)|(_ & HK & k4 & k5 & k6 & k0 & HXI & Hbeg & _)]].
    - exfalso. destruct (xinit_success junk pb o ws x y HW Hargs Ia) as [K _]. lia.
    - exfalso. destruct (xinit_success junk pb o ws x y HW Hargs Ia) as [_ K]. congruence.
    - unfold xbegins in Hbeg. rewrite Ia in Hbeg. injection Hbeg as <-. destruct (xi_start _ _ _ _ _ _ _ _ HXI) as [H1 H2 _ _ _ _ _].
      split; simpl; [apply H1|exact H2|discriminate]. }
  assert (HLS : lsim S (L (x_s y) false (SC 0 INACTIVE)) (L (x_s y') false (SC 0 INACTIVE))) by (split; [reflexivity|split; [reflexivity|exact E4]]).
  destruct (loop_sim S pb o HO HB _ _ _ HL HLS (st3, s3) (st3', s3') E5 E5') as [F1 F2].
  cbn [fst snd] in F1, F2. subst st3'.
  apply bind_ok in Ea as (r & Er & Ea). apply HT in Er. subst r. injection Ea as <- <-.
  apply bind_ok in Eb as (r & Er & Eb). apply HT in Er. subst r. injection Eb as <- <-.
  split; [reflexivity|]. split; [apply F2|]. split; [apply F2|]. intros _ _. exact F2.
Qed.
End Same.

(** The initialisation of the warm-startable solver, over exact reals: the QR
    factorisation of the initial active set, the primal-dual point it defines,
    and the removal of the constraints with a negative multiplier. *)
From Coq Require Import List Arith ZArith Lia Bool Reals Lra.
From Verif Require Import Base ActiveSet ActiveSetProofs Num Solver LinAlg QRUpdate QPSpec GIMath GIBase GIInv GIDual GIRun GIOpt GIMult GIInit GISafe GICall Warm WarmAS WarmSafe WarmQR.
Import ListNotations.
Local Open Scope R_scope.

Notation rxsol := (xsol Rops).

Lemma gsh_shape pb s : gsh Rops pb s -> shape pb s.
Proof. intros D. destruct D; split; auto. Qed.
Lemma shape_gsh pb s : shape pb s -> gsh Rops pb s.
Proof. intros D. destruct D; split; auto. Qed.

(** ** Normals and right-hand sides of the active constraints *)
Lemma fill_col_spec pb A k v : good A -> a_nc A = nc pb -> a_nb A = nb pb -> (nb pb <= nv pb)%nat -> (k < nact A)%nat ->
  fill_col pb (nv pb) (a_nc A) (act A k) (stt A (act A k)) = Ok v ->
  exists c b, v = Some (c, b) /\ (forall r, (r < nv pb)%nat -> c r = Nact pb A k r) /\ Bact pb A k = Some b.
Proof.
  intros HG Hc Hb Hn Hk. destruct (good_get A k HG Hk) as (_ & HI & Hlt).
  pose proof (good_kind A _ HG HI) as HK. unfold nbAll in Hlt. rewrite Hc, Hb in *. apply kind_lt in HK.
  unfold Nact, Bact, nsign, nrhs, cvec, clo, cup, fill_col. set (i := act A k) in *.
  destruct (stt A i); try contradiction;
    (destruct (Nat.ltb_spec i (nc pb)); try lia);
    try (destruct (Nat.ltb_spec (i - nc pb) (nv pb)); [|lia]); cbn [guard];
    match goal with |- context[match ?b with Some _ => _ | None => _ end] => destruct b; [|discriminate] end;
    intros E; injection E as <-; eexists _, _; split; try reflexivity; split; try reflexivity;
    intros r Hr; auto.
  destruct (r =? i - nc pb)%nat; rring.
Qed.

Lemma fill_spec pb A k N b Nb : good A -> a_nc A = nc pb -> a_nb A = nb pb -> (nb pb <= nv pb)%nat -> (k <= nact A)%nat ->
  fill pb (nv pb) A k N b = Ok Nb ->
  forall j, (j < k)%nat -> (forall r, (r < nv pb)%nat -> fst Nb r j = Nact pb A j r) /\ Bact pb A j = Some (snd Nb j).
Proof.
  intros HG Hc Hb Hn. revert Nb. induction k as [|k IH]; intros Nb Hk E j Hj; [lia|]. cbn [fill] in E.
  apply bind_ok in E as (Nb1 & E1 & E). destruct (good_get A k HG) as (Eg & HI & Hlt); [lia|]. rewrite Eg in E. cbn [bind] in E.
  rewrite good_as_stat in E by auto. cbn [bind] in E. apply bind_ok in E as (v & Ev & E).
  destruct (fill_col_spec pb A k v HG Hc Hb Hn ltac:(lia) Ev) as (c & w & -> & Hcol & Hrhs).
  injection E as <-. cbn [fst snd]. unfold upd. destruct (Nat.eqb_spec j k) as [->|Hne].
  - split; auto.
  - apply IH; auto; lia.
Qed.

(** ** [qr_calm] only depends on the entries of the matrix *)
Definition lagrees (n q : nat) (B B' : rmat) : Prop := forall i j, (i < n)%nat -> (j < q)%nat -> B i j = B' i j.
Lemma hh_tail_ext n q k B B' : (k < q)%nat -> lagrees n q B B' -> @hh_tail Rops n k B = @hh_tail Rops n k B'.
Proof. intros Hk H. unfold hh_tail. apply sum_ext. intros t Ht. rewrite !H by lia. auto. Qed.
Lemma house_ext n q k B B' : (k < n)%nat -> (k < q)%nat -> lagrees n q B B' ->
  let '(t, b, e) := @house Rops n k B in let '(t', b', e') := @house Rops n k B' in
  t = t' /\ b = b' /\ forall i, (i < n)%nat -> e i = e' i.
Proof.
  intros Hn Hk H. unfold house. rewrite (hh_tail_ext n q k B B') by auto. rewrite (H k k) by auto.
  destruct (leb Rops (hh_tail n k B') (dblmin Rops)); auto. split; auto. split; auto. intros i Hi. rewrite (H i k); auto.
Qed.
Lemma qr_col_ext n q k B B' : (k < n)%nat -> (k < q)%nat -> lagrees n q B B' ->
  lagrees n q (snd (@qr_col Rops n q k B)) (snd (@qr_col Rops n q k B')).
Proof.
  intros Hn Hk H. pose proof (house_ext n q k B B' Hn Hk H) as HH. unfold qr_col.
  destruct (@house Rops n k B) as ((t, b), e). destruct (@house Rops n k B') as ((t', b'), e').
  destruct HH as (<- & <- & He). cbn [snd]. intros i j Hi Hj. rewrite !mm_at.
  destruct (j =? k)%nat.
  - destruct (i =? k)%nat; auto. destruct ((k <? i)%nat && (i <? n)%nat); auto. rewrite !vm_at. auto.
  - destruct ((k <? j)%nat && (j <? q)%nat && (k <=? i)%nat && (i <? n)%nat); auto.
    rewrite !vm_at. rewrite (H i j), (H k j) by auto. rewrite (He i) by auto.
    erewrite (sum_ext (n - 1 - k)); [reflexivity|]. intros r Hr. cbn beta. rewrite !vm_at, (He (k + 1 + r)%nat), (H (k + 1 + r)%nat j) by lia. reflexivity.
Qed.
Lemma qr_calm_ext cnt : forall n q k B B', (k + cnt <= n)%nat -> (k + cnt <= q)%nat -> lagrees n q B B' -> qr_calm n q cnt k B -> qr_calm n q cnt k B'.
Proof.
  induction cnt as [|c IH]; intros n q k B B' H1 H2 H; cbn [qr_calm]; auto. intros [C1 C2].
  rewrite <- (hh_tail_ext n q k B B') by (auto; lia). split; auto.
  apply (IH n q (S k) (snd (@qr_col Rops n q k B))); auto; try lia. apply qr_col_ext; auto; lia.
Qed.
Lemma fwd_ext n Lm (v w : rvec) : (forall i, (i < n)%nat -> v i = w i) -> forall k i, (k <= n)%nat -> (i < n)%nat -> @fwd Rops k Lm v i = @fwd Rops k Lm w i.
Proof.
  intros H. induction k as [|k IH]; intros i Hk Hi; simpl; auto. unfold upd. destruct (Nat.eqb_spec i k) as [->|]; [|apply IH; lia].
  rewrite H by lia. f_equal. apply subn_ext. intros t Ht. rewrite IH by lia. reflexivity.
Qed.

(** ** The state of the factorisation *)
Record facd (pb : rproblem) (x : rxsol) : Prop := {
  fd_sh : xsh Rops pb x;
  fd_qr : qr (nv pb) (nact (s_A (x_s x))) (Jof (x_s x)) (Rof (x_s x)) (Nact pb (s_A (x_s x)));
  fd_G : forall a c, (a < nv pb)%nat -> (c < nv pb)%nat ->
     rsum (nv pb) (fun b => hess pb a b * gram (nv pb) (Jof (x_s x)) b c) = if (a =? c)%nat then 1 else 0;
  fd_b : forall k, (k < nact (s_A (x_s x)))%nat -> Bact pb (s_A (x_s x)) k = Some (w_buf (x_b x) k)
}.

(** The matrix handed to the Householder QR: L^{-1} N *)
Definition qr_input (pb : rproblem) (A : aset) : rmat := fun i j => @fwd Rops (nv pb) (snd (@llt Rops (nv pb) (p_G pb))) (Nact pb A j) i.

Lemma initComp_facd pb x x' : xsh Rops pb x -> fst (@llt Rops (nv pb) (p_G pb)) = None -> (nact (s_A (x_s x)) <= nv pb)%nat ->
  initComputationData pb (snd (@llt Rops (nv pb) (p_G pb))) x = Ok x' -> xsh Rops pb x' -> keeps Rops (x_s x) (x_s x') ->
  independent (nv pb) (nact (s_A (x_s x))) (Nact pb (s_A (x_s x))) ->
  qr_calm (nv pb) (nact (s_A (x_s x))) (nact (s_A (x_s x))) 0 (qr_input pb (s_A (x_s x))) ->
  facd pb x'.
Proof.
  intros HX Hl Hq E HX' HK Hind Hcalm.
  pose proof (llt_spec (nv pb) (p_G pb)) as HL. destruct (@llt Rops (nv pb) (p_G pb)) as (ret, Lm) eqn:El. simpl in Hl. subst ret.
  assert (Hn : s_n (x_s x) = nv pb) by apply HX.
  assert (EA : s_A (x_s x') = s_A (x_s x)) by apply HK.
  pose proof HX as [[K1 K2 K3 K4 K5 K6 K7 K8 K9 K10 K11 K12] H1 H2 H3].
  unfold initComputationData in E. rewrite Hn in E. set (n := nv pb) in *. set (A := s_A (x_s x)) in *. set (q := nact A) in *.
  rewrite getM_ok in E; [|unfold gn in K10; change (p_Grows pb) with n in K10; nia|auto]. cbn [bind] in E.
  rewrite getV_ok in E by (unfold gn in H3; change (p_Grows pb) with n in H3; lia). cbn [bind] in E.
  apply bind_ok in E as (Nb & EF & E).
  rewrite getM_ok in E by auto. cbn [bind] in E.
  rewrite getV_ok in E by (unfold gn in H2; change (p_Grows pb) with n in H2; lia). cbn [bind] in E.
  rewrite getV_ok in E by (unfold gn in H1; change (p_Grows pb) with n in H1; lia). cbn [bind] in E.
  pose proof (fill_spec pb A q _ _ Nb K2 K3 K4 (sizes_nb _ K1) (le_n _) EF) as HF.
  rewrite Nat.min_r in E by auto. rewrite !mm_id in E. cbn [snd] in E.
  set (J0 := fun i j => @bwd Rops n n (tr Lm) (fun k => idm Rops k j) i) in *.
  set (B0 := fun i j => @fwd Rops n Lm (fun k => fst Nb k j) i) in *.
  assert (EB : lagrees n q (fun i j => @fwd Rops n Lm (Nact pb A j) i) B0).
  { intros i j Hi Hj. unfold B0. apply (fwd_ext n); auto. intros r Hr. symmetry. apply HF; auto. }
  assert (Hcalm' : qr_calm n q q 0 B0).
  { apply (qr_calm_ext q n q 0 (fun i j => @fwd Rops n Lm (Nact pb A j) i)); auto.
    unfold qr_input in Hcalm. fold n in Hcalm. rewrite El in Hcalm. exact Hcalm. }
  assert (HI0 : qinv n q 0 B0 J0 (Nact pb A)).
  { intros i j Hi Hj. cbn [Nat.ltb Nat.leb]. destruct (j <? 0)%nat eqn:E0; [apply Nat.ltb_lt in E0; lia|].
    unfold J0. rewrite (start_tdot n (p_G pb) Lm) by auto. apply EB; auto. }
  destruct (@qr_loop Rops n q q 0 B0 (w_buf (x_h x))) as (B, h) eqn:EQ.
  pose proof (qr_loop_spec q n q 0 B0 (w_buf (x_h x)) J0 (Nact pb A) B h eq_refl Hq Hcalm' HI0 EQ) as [HI HG].
  set (J := @app_q Rops n q 0 B h J0) in *.
  injection E as <-. rewrite ?vm_id in HX' |- *.
  assert (HGJ : forall a c, (a < n)%nat -> (c < n)%nat -> rsum n (fun b => hess pb a b * gram n J b c) = if (a =? c)%nat then 1 else 0).
  { intros a c Ha Hc. rewrite <- (start_G n (p_G pb) Lm HL a c Ha Hc). apply sum_ext. intros b Hb. rewrite HG by auto. reflexivity. }
  assert (HJv : forall a b, (a < n)%nat -> (b < n)%nat -> view n (unview n n J (w_buf (s_J (x_s x)))) a b = J a b)
    by (intros; apply view_unview; auto).
  split; auto.
  - cbn [x_s set_R set_J s_A]. fold A q. unfold Jof, Rof. cbn [s_n s_J s_R set_R set_J wset w_buf]. rewrite Hn. fold n.
    apply (qr_ext n q J B (Nact pb A)); auto.
    + intros i k Hik Hk. apply view_unview; lia.
    + split; auto.
      * intros k i Hk Hik. rewrite (HI i k) by lia. destruct (Nat.ltb_spec k q); [|lia]. destruct (Nat.leb_spec i k); [auto|lia].
      * intros k i Hk Hik Hin. rewrite (HI i k) by lia. destruct (Nat.ltb_spec k q); [|lia]. destruct (Nat.leb_spec i k); [lia|auto].
      * intros k Hk. apply (qinv_diag n q B J (Nact pb A) (hess pb)); auto.
  - intros a c Ha Hc. rewrite <- HGJ by auto. apply sum_ext. intros b Hb. f_equal. unfold Jof.
    cbn [x_s s_n s_J s_R set_R set_J wset w_buf]. rewrite Hn. fold n. apply gram_ext; auto.
  - intros k Hk. cbn [x_s set_R set_J s_A x_b wset w_buf] in *. fold A in Hk |- *. apply HF. auto.
Qed.

(** ** The primal-dual point *)
Section Point.
Variables (n q : nat) (J Rm : rmat) (N : nat -> rvec) (G : rmat) (b a0 be al x u : rvec).
Hypothesis Hqr : qr n q J Rm N.
Hypothesis HG : forall a c, (a < n)%nat -> (c < n)%nat -> rsum n (fun b => G a b * gram n J b c) = if (a =? c)%nat then 1 else 0.
Hypothesis Hal : forall k, (k < n)%nat -> al k = tdot n J k a0.
Hypothesis Hbe : forall k, (k < q)%nat -> rsum q (fun j => lower (tr Rm) k j * be j) = b k.
Hypothesis Hx : forall i, (i < n)%nat -> x i = rsum q (fun k => J i k * be k) - rsum (n - q) (fun t => J i (q + t)%nat * al (q + t)%nat).
Hypothesis Hu : forall i, (i < q)%nat -> rsum q (fun k => upper Rm i k * u k) = al i + be i.

Definition py (k : nat) : R := if (k <? q)%nat then be k else - al k.
Lemma sum_split_q (f : nat -> R) : rsum n f = rsum q f + rsum (n - q) (fun t => f (q + t)%nat).
Proof. rewrite <- sum_app. f_equal. pose proof (qr_le _ _ _ _ _ Hqr). lia. Qed.
Lemma px i : (i < n)%nat -> x i = rsum n (fun k => J i k * py k).
Proof.
  intros Hi. rewrite Hx by auto. rewrite (sum_split_q (fun k => J i k * py k)). unfold Rminus. f_equal.
  - apply sum_ext. intros k Hk. unfold py. destruct (Nat.ltb_spec k q); [auto|lia].
  - rewrite <- sum_opp. apply sum_ext. intros t Ht. unfold py. destruct (Nat.ltb_spec (q + t) q); [lia|rring].
Qed.
Lemma pdot (v : rvec) : rdot n v x = rsum n (fun k => tdot n J k v * py k).
Proof.
  rewrite dot_def. rewrite (sum_ext n _ (fun i => rsum n (fun k => J i k * v i * py k))).
  - rewrite sum_swap. apply sum_ext. intros k Hk. unfold tdot. rewrite <- sum_scal_r. auto.
  - intros i Hi. rewrite px by auto. rewrite <- sum_scal. apply sum_ext. intros; rring.
Qed.
Lemma point_tight k : (k < q)%nat -> rdot n (N k) x = b k.
Proof.
  intros Hk. rewrite pdot, sum_split_q. rewrite (sum_zero (n - q)).
  - rewrite Rplus_0_r. rewrite <- Hbe by auto. apply sum_ext. intros j Hj. unfold py, lower, tr. destruct (Nat.ltb_spec j q); [|lia].
    destruct (Nat.leb_spec j k); [rewrite (qr_up _ _ _ _ _ Hqr) by auto; auto|].
    rewrite (qr_zero _ _ _ _ _ Hqr) by (auto; pose proof (qr_le _ _ _ _ _ Hqr); lia). auto.
  - intros t Ht. rewrite (qr_zero _ _ _ _ _ Hqr) by lia. rring.
Qed.
Definition pw (a : nat) : R := rsum q (fun k => u k * N k a) - a0 a.
Lemma pw_tdot k : (k < n)%nat -> tdot n J k pw = py k.
Proof.
  intros Hk. unfold pw.
  assert (E : tdot n J k (fun a => rsum q (fun j => u j * N j a) - a0 a) = tdot n J k (fun a => rsum q (fun j => u j * N j a)) - tdot n J k a0).
  { unfold tdot. rewrite <- sum_minus. apply sum_ext. intros; rring. }
  rewrite E, tdot_comb, <- Hal by auto. unfold py. destruct (Nat.ltb_spec k q) as [Hkq|Hkq].
  - rewrite (sum_ext q _ (fun j => upper Rm k j * u j)); [rewrite Hu by auto; rring|].
    intros j Hj. unfold upper. destruct (Nat.leb_spec k j); [rewrite (qr_up _ _ _ _ _ Hqr) by auto; rring|].
    rewrite (qr_zero _ _ _ _ _ Hqr) by auto. rring.
  - rewrite sum_zero; [rring|]. intros j Hj. rewrite (qr_zero _ _ _ _ _ Hqr) by lia. rring.
Qed.
Lemma point_G a : (a < n)%nat -> rsum n (fun c => G a c * x c) = pw a.
Proof.
  intros Ha. rewrite (sum_ext n _ (fun c => rsum n (fun e => G a c * gram n J c e * pw e))).
  - rewrite sum_swap. rewrite (sum_ext n _ (fun e => if (e =? a)%nat then pw e else 0)).
    + apply (sum_delta n a pw Ha).
    + intros e He. rewrite sum_scal_r, HG by auto. rewrite Nat.eqb_sym. destruct (e =? a)%nat; rring.
  - intros c Hc. rewrite px by auto.
    rewrite (sum_ext n (fun k => J c k * py k) (fun k => J c k * tdot n J k pw)) by (intros; rewrite pw_tdot by auto; auto).
    rewrite gram_apply. rewrite <- sum_scal. apply sum_ext. intros; rring.
Qed.
Lemma point_f : / 2 * rsum n (fun a => x a * rsum n (fun c => G a c * x c)) + rdot n a0 x =
  rsum q (fun k => be k * (/ 2 * be k + al k)) - / 2 * rsum (n - q) (fun t => al (q + t)%nat * al (q + t)%nat).
Proof.
  rewrite (sum_ext n _ (fun a => pw a * x a)) by (intros; rewrite point_G by auto; rring).
  rewrite <- dot_def, !pdot. rewrite <- sum_scal, <- sum_plus.
  rewrite sum_split_q. unfold Rminus. f_equal.
  - apply sum_ext. intros k Hk. pose proof (qr_le _ _ _ _ _ Hqr). rewrite pw_tdot, <- Hal by lia. unfold py.
    destruct (Nat.ltb_spec k q); [rring|lia].
  - rewrite <- sum_scal, <- sum_opp. apply sum_ext. intros t Ht. rewrite pw_tdot, <- Hal by lia. unfold py.
    destruct (Nat.ltb_spec (q + t) q); [lia|field].
Qed.
End Point.

Record pointed (pb : rproblem) (x : rxsol) : Prop := {
  pt_fac : facd pb x;
  pt_tight : forall k, (k < nact (s_A (x_s x)))%nat -> Bact pb (s_A (x_s x)) k = Some (rdot (nv pb) (Nact pb (s_A (x_s x)) k) (xof (x_s x)));
  pt_stat : dstat pb (x_s x) None
}.

Lemma vhead_lt (k : nat) (f g : rvec) i : (i < k)%nat -> @vhead Rops k f g i = f i.
Proof. intros H. unfold vhead. destruct (Nat.ltb_spec i k); [auto|lia]. Qed.

Lemma initPD_pointed pb x x' : facd pb x -> initPrimalDual pb x = Ok x' -> xsh Rops pb x' -> keeps Rops (x_s x) (x_s x') -> pointed pb x'.
Proof.
  intros HF E HX' HK. pose proof HF as [HX HQ HG HB].
  assert (Hn : s_n (x_s x) = nv pb) by apply HX.
  assert (EA : s_A (x_s x') = s_A (x_s x)) by apply HK.
  pose proof HX as [[K1 K2 K3 K4 K5 K6 K7 K8 K9 K10 K11 K12] H1 H2 H3].
  pose proof (shape_nact_le pb (x_s x) (gsh_shape _ _ (xh_s _ _ _ HX))) as Hqm.
  pose proof (qr_le _ _ _ _ _ HQ) as Hq.
  unfold initPrimalDual in E. rewrite Hn in E.
  change (gn Rops pb) with (nv pb) in *. change (gcb Rops pb) with (ncb pb) in *.
  set (n := nv pb) in *. set (A := s_A (x_s x)) in *. set (q := nact A) in *.
  rewrite getM_ok in E by auto. cbn [bind] in E. rewrite getM_ok in E; [|nia|auto]. cbn [bind] in E.
  rewrite !getV_ok in E by lia. cbn [bind] in E.
  destruct (q <=? n)%nat; [|discriminate]. cbn [guard] in E. rewrite !vm_id in E.
  fold (uof (x_s x)) (xof (x_s x)) (rof (x_s x)) in E.
  assert (EJ : view n (w_buf (s_J (x_s x))) = Jof (x_s x)) by (unfold Jof; rewrite Hn; auto).
  assert (ER : view n (w_buf (s_R (x_s x))) = Rof (x_s x)) by (unfold Rof; rewrite Hn; auto).
  rewrite EJ, ER in E. set (J := Jof (x_s x)) in *. set (R := Rof (x_s x)) in *.
  set (al := vhead n (fun k => @sumn Rops [33; k]%nat n (fun i => mul Rops (J i k) (p_a pb i))) (w_buf (x_tmp x))) in *.
  set (be := vhead q (fwd q (tr R) (w_buf (x_b x))) (rof (x_s x))) in *.
  set (x1 := vhead n _ (xof (x_s x))) in E. set (u1 := vhead q (bwd q q R _) (uof (x_s x))) in E.
  assert (Hal : forall k, (k < n)%nat -> al k = tdot n J k (p_a pb)) by (intros k Hk; unfold al; rewrite vhead_lt by auto; reflexivity).
  assert (HRd : forall i, (i < q)%nat -> R i i <> 0) by (intros; apply (qr_diag _ _ _ _ _ HQ); auto).
  assert (Hbe : forall k, (k < q)%nat -> rsum q (fun j => lower (tr R) k j * be j) = w_buf (x_b x) k).
  { intros k Hk. rewrite <- (fwd_correct q (tr R) (w_buf (x_b x)) HRd k Hk). apply sum_ext. intros j Hj. unfold be. rewrite vhead_lt by auto. auto. }
  assert (Hx : forall i, (i < n)%nat -> x1 i = rsum q (fun k => J i k * be k) - rsum (n - q) (fun t => J i (q + t)%nat * al (q + t)%nat)).
  { intros i Hi. unfold x1. rewrite vhead_lt by auto. reflexivity. }
  assert (Hu : forall i, (i < q)%nat -> rsum q (fun k => upper R i k * u1 k) = al i + be i).
  { intros i Hi. rewrite (sum_ext q _ (fun j => upper R i j * @bwd Rops q q R (fun k => al k + be k) j)).
    - apply (bwd_correct q R (fun k => al k + be k)); auto.
    - intros k Hk. unfold u1. rewrite vhead_lt by auto. reflexivity. }
  pose proof (point_tight n q J R (Nact pb A) (w_buf (x_b x)) be al x1 HQ Hbe Hx) as PT.
  pose proof (point_G n q J R (Nact pb A) (hess pb) (p_a pb) be al x1 u1 HQ HG Hal Hx Hu) as PG.
  pose proof (point_f n q J R (Nact pb A) (hess pb) (p_a pb) be al x1 u1 HQ HG Hal Hx Hu) as PF.
  clearbody x1 u1 al be. injection E as <-.
  split.
  - split; auto.
  - cbn [x_s set_u set_x set_f set_r s_A]. fold A q. intros k Hk. unfold xof. cbn [s_x set_u set_x set_f set_r wset w_buf]. fold n.
    rewrite PT by auto. apply HB. auto.
  - split.
    + cbn [x_s set_u set_x set_f set_r s_A]. fold A q. intros a Ha. unfold gradient, xof, uof. cbn [s_x s_u set_u set_x set_f set_r wset w_buf].
      fold n. rewrite PG by auto. unfold pw. rring.
    + cbn [x_s set_u set_x set_f set_r s_f]. unfold xof. cbn [s_x set_u set_x set_f set_r wset w_buf].
      unfold objective, quad. fold n. rewrite PF. replace (1 / (1 + 1)) with (/ 2) by lra. reflexivity.
Qed.

(** ** Removal of the constraints with a negative multiplier *)
Lemma remove_facd pb x l A' s1 : facd pb x -> (l < nact (s_A (x_s x)))%nat -> act_removed (s_A (x_s x)) l A' ->
  removeConstraint_ (set_A (set_it (x_s x) (S (s_it (x_s x)))) A') l = Ok s1 -> gsh Rops pb s1 -> s_A s1 = A' ->
  facd pb (XS s1 (x_tmp x) (x_h x) (wset (x_b x) (vm (nact (s_A (x_s x)))
     (fun i => if (l <=? i)%nat && (i <? nact (s_A (x_s x)) - 1)%nat then w_buf (x_b x) (i + 1)%nat else w_buf (x_b x) i)))).
Proof.
  intros HF Hl HA E HS1 EA. pose proof HF as [HX HQ HG HB]. pose proof HX as [HS H1 H2 H3].
  pose proof (gsh_shape _ _ HS) as Hsh. pose proof Hsh as [K1 K2 K3 K4 K5 K6 K7 K8 K9 K10 K11 K12].
  pose proof (ar_nact _ _ _ HA) as EN. pose proof (qr_le _ _ _ _ _ HQ) as Hq.
  unfold removeConstraint_ in E. cbn [s_n s_A s_J s_R set_A set_it] in E. rewrite K5 in E.
  set (n := nv pb) in *. set (q := nact A') in *.
  rewrite getM_ok in E by auto. cbn [bind] in E. rewrite getM_ok in E; [|nia|lia]. cbn [bind] in E.
  destruct (rem_loop n q (q - l) l (view n (w_buf (s_R (x_s x))), view n (w_buf (s_J (x_s x))))) as (R', J') eqn:EL.
  assert (EJ : view n (w_buf (s_J (x_s x))) = Jof (x_s x)) by (unfold Jof; rewrite K5; auto).
  assert (ER : view n (w_buf (s_R (x_s x))) = Rof (x_s x)) by (unfold Rof; rewrite K5; auto).
  rewrite EJ, ER in EL. rewrite EN in HQ.
  destruct (qr_remove n q l _ _ _ R' J' HQ ltac:(lia) EL) as [Q HGm].
  injection E as E.
  assert (HJ1 : forall a b, (a < n)%nat -> (b < n)%nat -> Jof s1 a b = J' a b).
  { intros a b Ha Hb. rewrite <- E. unfold Jof. cbn [s_n s_J set_A set_J set_R wset w_buf set_it]. rewrite K5. fold n. apply view_unview; auto. }
  assert (HR1 : forall a b, (a <= b)%nat -> (b < q)%nat -> Rof s1 a b = R' a b).
  { intros a b Ha Hb. rewrite <- E. unfold Rof. cbn [s_n s_R set_A set_J set_R wset w_buf set_it]. rewrite K5. fold n. apply view_unview; lia. }
  split; cbn [x_s x_b wset w_buf].
  - split; auto.
  - rewrite EA. fold q n. eapply qr_ext; [exact HJ1|exact HR1| |exact Q].
    intros k a Hk Ha. destruct (Nact_removed pb (x_s x) l A' k Hsh HA Hl Hk) as (-> & _). auto.
  - intros a c Ha Hc. rewrite <- HG by auto. apply sum_ext. intros b Hb. f_equal. fold n.
    rewrite (gram_ext n J' (Jof s1)) by auto. apply HGm.
  - rewrite EA. fold q. intros k Hk. destruct (Nact_removed pb (x_s x) l A' k Hsh HA Hl Hk) as (_ & -> & _).
    rewrite vm_at. rewrite EN. fold q. replace (S q - 1)%nat with q by lia. rewrite Nat.add_1_r.
    destruct (Nat.ltb_spec k l), (Nat.leb_spec l k), (Nat.ltb_spec k q); try lia; cbn [andb]; apply HB; lia.
Qed.

Definition eps14r : R := / 10 ^ 14.
Lemma neg_min_none pb s (u : rvec) k m : gsh Rops pb s -> (k <= nact (s_A s))%nat -> neg_min (S:=Rops) (s_A s) u k = Ok m -> snd m = None ->
  fst m = - eps /\ forall l, (l < k)%nat -> isEq (stt (s_A s) (act (s_A s) l)) = false -> - eps <= u l.
Proof.
  intros HS. revert m. induction k as [|k IH]; intros m Hk E Hm; cbn [neg_min] in E.
  - injection E as <-. split; [reflexivity|]. intros; lia.
  - apply bind_ok in E as (m1 & E1 & E).
    destruct (good_get (s_A s) k (g_good _ _ _ HS)) as (Eg & HI & Hlt); [lia|]. rewrite Eg in E. cbn [bind] in E.
    rewrite good_as_stat in E by (auto; apply HS). cbn [bind] in E. injection E as <-.
    revert Hm. match goal with |- context[if ?c then _ else _] => destruct c eqn:EB end; intros Hm; [discriminate Hm|].
    destruct (IH m1 ltac:(lia) E1 Hm) as [F1 F2]. split; auto. intros l Hl He.
    destruct (Nat.eq_dec l k) as [->|]; [|apply F2; auto; lia].
    rewrite He, andb_true_r in EB. change (Rltb (u k) (fst m1) = false) in EB. rewrite F1 in EB. destruct (Rltb_spec (u k) (- eps)); [discriminate|lra].
Qed.

(** the smallest candidate is chosen, and it is below the threshold *)
Lemma neg_min_some pb s (u : rvec) k m l : gsh Rops pb s -> (k <= nact (s_A s))%nat -> neg_min (S:=Rops) (s_A s) u k = Ok m -> snd m = Some l ->
  fst m = u l /\ u l < - eps /\ (l < k)%nat /\ isEq (stt (s_A s) (act (s_A s) l)) = false.
Proof.
  intros HS. revert m.
  assert (H : forall m, (k <= nact (s_A s))%nat -> neg_min (S:=Rops) (s_A s) u k = Ok m ->
     fst m <= - eps /\ (snd m = Some l -> fst m = u l /\ u l < - eps /\ (l < k)%nat /\ isEq (stt (s_A s) (act (s_A s) l)) = false)).
  { induction k as [|k IH]; intros m Hk E; cbn [neg_min] in E.
    - injection E as <-. cbn [fst snd]. split; [change (- eps <= - eps); lra|discriminate].
    - apply bind_ok in E as (m1 & E1 & E).
      destruct (good_get (s_A s) k (g_good _ _ _ HS)) as (Eg & HI & Hlt); [lia|]. rewrite Eg in E. cbn [bind] in E.
      rewrite good_as_stat in E by (auto; apply HS). cbn [bind] in E. injection E as <-.
      destruct (IH m1 ltac:(lia) E1) as [F1 F2].
      match goal with |- context[if ?c then _ else _] => destruct c eqn:EB end; cbn [fst snd].
      + apply andb_true_iff in EB as [EB1 EB2]. change (Rltb (u k) (fst m1) = true) in EB1.
        destruct (Rltb_spec (u k) (fst m1)) as [Hlt'|]; [|discriminate]. split; [lra|]. intros El. injection El as <-.
        apply negb_true_iff in EB2. repeat split; auto; try lra; lia.
      + split; auto. intros El. destruct (F2 El) as (G1 & G2 & G3 & G4). repeat split; auto. }
  intros m Hk E El. apply (H m Hk E). auto.
Qed.

Lemma drop_pointed pb : forall fuel x x', pointed pb x -> drop_loop pb fuel x = Ok x' ->
  pointed pb x' /\ (forall k, (k < nact (s_A (x_s x')))%nat -> isEq (stt (s_A (x_s x')) (act (s_A (x_s x')) k)) = false -> - eps <= uof (x_s x') k) /\
  ((forall k, (k < nact (s_A (x_s x)))%nat -> isEq (stt (s_A (x_s x)) (act (s_A (x_s x)) k)) = false -> - eps <= uof (x_s x) k) -> x' = x).
Proof.
  induction fuel as [|f IH]; intros x x' HP E; [discriminate|]. cbn [drop_loop] in E.
  pose proof HP as [HF HT HD]. pose proof (fd_sh _ _ HF) as HX. pose proof HX as [HS H1 H2 H3].
  apply bind_ok in E as (u & Eu & E). apply bind_ok in E as (b & Eb & E). apply bind_ok in E as (m & Em & E).
  apply getV_inv in Eu as [_ ->]. apply getV_inv in Eb as [_ ->].
  destruct (snd m) as [l|] eqn:El.
  - destruct (neg_min_some pb (x_s x) _ _ m l HS (le_n _) Em El) as (F1 & F2 & Hl & He).
    destruct (deactivate_removed (s_A (x_s x)) l) as (A' & EA & HA); [apply HS|auto|].
    cbn [s_A set_it] in E. rewrite EA in E. cbn [bind] in E.
    pose proof (qr_le _ _ _ _ _ (fd_qr _ _ HF)) as Hq. pose proof (ar_nact _ _ _ HA) as EN.
    destruct (gremove_ Rops pb (set_it (x_s x) (S (s_it (x_s x)))) l A') as (s1 & E1 & HS1 & A1 & _); auto.
    { apply gsh_set_it; auto. }
    rewrite E1 in E. cbn [bind] in E.
    pose proof (remove_facd pb x l A' s1 HF Hl HA E1 HS1 A1) as HF1.
    match type of E with bind (initPrimalDual pb ?y) _ = _ => set (x1 := y) in * end.
    destruct (xinitPD Rops pb x1) as (x2 & E2 & HX2 & K2).
    { apply HF1. } { unfold x1. cbn [x_s]. rewrite A1. change (gn Rops pb) with (nv pb). lia. }
    rewrite E2 in E. cbn [bind] in E. pose proof (initPD_pointed pb x1 x2 HF1 E2 HX2 K2) as HP2.
    destruct (IH x2 x' HP2 E) as (R1 & R2 & _). split; [exact R1|]. split; [exact R2|].
    intros Hpos. exfalso. specialize (Hpos l Hl He). unfold uof in Hpos. lra.
  - injection E as <-. destruct (neg_min_none pb (x_s x) _ _ m HS (le_n _) Em El) as (F1 & F2). split; [exact HP|]. split; [exact F2|auto].
Qed.

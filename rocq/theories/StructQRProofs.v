(** Facts on the structured QR (StructG.v), in exact arithmetic: the factorisation of the active normals that it
    maintains, through the orthonormal sequence of its Q. *)
From Coq Require Import List Arith ZArith Lia Bool Reals Lra.
From Verif Require Import Base Num LinAlg Solver QRUpdate Util PropUtil Block PropBlock Ortho OrthoProofs PropOrtho StructC StructG StructGProofs.
Import ListNotations.
Local Open Scope R_scope.

(** ** The columns of J = L^-T Q, for the commands [cs] given to Q *)
Definition bJof (n : nat) (Mi : rmat) (cs : list cmd) : rmat := fun a k => mvec n (mt Mi) (facts cs (basis k)) a.
Lemma facts_t_app cs : forall cs' v, facts_t (cs ++ cs') v = facts_t cs' (facts_t cs v).
Proof. induction cs as [|c cs IH]; intros cs' v; [reflexivity|]. cbn [app facts_t]. apply IH. Qed.
Lemma facts_dot n cs k m : Forall (c_in n) cs -> (k < n)%nat -> rdot n (facts cs (basis k)) m = facts_t cs m k.
Proof. intros HC Hk. rewrite facts_adjoint by auto. rewrite dot_comm. apply dot_basis; auto. Qed.
Lemma bJ_t n Mi cs a k : Forall (c_in n) cs -> (k < n)%nat -> bJof n Mi cs a k = facts_t cs (fun j => Mi j a) k.
Proof. intros HC Hk. rewrite <- (facts_dot n) by auto. rewrite dot_def. unfold bJof, mvec, mt. apply sum_ext. intros j Hj. rring. Qed.
Lemma tdot_bJ n Mi cs k w : Forall (c_in n) cs -> (k < n)%nat -> tdot n (bJof n Mi cs) k w = facts_t cs (mvec n Mi w) k.
Proof.
  intros HC Hk. rewrite <- (facts_dot n) by auto. rewrite dot_def. unfold tdot, bJof, mvec, mt.
  rewrite (sum_ext n _ (fun a => rsum n (fun j => facts cs (basis k) j * (Mi j a * w a)))).
  - rewrite sum_swap. apply sum_ext. intros j Hj. rewrite sum_scal. reflexivity.
  - intros a Ha. rewrite <- sum_scal_r. apply sum_ext. intros j Hj. rring.
Qed.
Lemma gram_bJ n Mi cs a b : Forall (c_in n) cs -> Forall orthogonal_factor cs -> gram n (bJof n Mi cs) a b = rsum n (fun k => Mi k a * Mi k b).
Proof.
  intros HC HO. unfold gram. rewrite (sum_ext n _ (fun k => facts_t cs (fun j => Mi j a) k * facts_t cs (fun j => Mi j b) k)) by (intros k Hk; rewrite !bJ_t by auto; reflexivity).
  rewrite <- dot_def. rewrite <- facts_adjoint by auto. rewrite (proj2 (facts_inverse cs HO _)). apply dot_def.
Qed.
Lemma bJ_apply n Mi cs w a : Forall (c_in n) cs -> mvec n (mt Mi) (facts cs w) a = rsum n (fun k => bJof n Mi cs a k * w k).
Proof.
  intros HC. unfold bJof. rewrite (mvec_ext n _ _ (mvec n (product n cs) w)) by (intros; apply facts_mvec; auto).
  rewrite <- mvec_assoc. unfold mvec at 1. apply sum_ext. intros k Hk. f_equal. unfold mprod, mvec. apply sum_ext. intros j Hj.
  f_equal. rewrite (facts_mvec n) by auto. rewrite mvec_basis by auto. reflexivity.
Qed.

(** ** What the object keeps *)
Definition hist (junk : rvec) (n : nat) (cs : list cmd) (Q : roseq) : Prop := exec junk (os_new n) cs = Ok Q /\ segments_fit Q /\ Forall orthogonal_factor cs.
Lemma hist_nil junk n : hist junk n [] (os_new n).
Proof. split; [reflexivity|]. split; [intros st e []|constructor]. Qed.
Lemma hist_in junk n cs Q : hist junk n cs Q -> Forall (c_in n) cs.
Proof. intros (H1 & H2 & _). destruct (history_apply junk n cs Q H1 H2) as (_ & H & _). exact H. Qed.
Lemma hist_n junk n cs Q : hist junk n cs Q -> q_n Q = n.
Proof. intros (H1 & H2 & _). destruct (history_apply junk n cs Q H1 H2) as (H & _). exact H. Qed.
Lemma hist_apply junk n cs Q v : hist junk n cs Q -> os_apply Q n v = Ok (facts cs v) /\ os_apply_t Q n v = Ok (facts_t cs v).
Proof. intros (H1 & H2 & _). destruct (history_apply junk n cs Q H1 H2) as (_ & _ & H3 & H4). auto. Qed.
Record qwf (n : nat) (r : rqrs) : Prop := {
  qw_n : r_n r = n; qw_Q : q_n (r_Q r) = n; qw_ld : (r_ld r <= n)%nat \/ n = 0%nat; qw_ld1 : (1 <= r_ld r)%nat \/ n = 0%nat;
  qw_R : (n * n <= w_size (r_R r))%nat; qw_e : (n <= w_size (r_ess r))%nat }.
Definition bRof (r : rqrs) : rmat := view (r_ld r) (w_buf (r_R r)).

Lemma w_list_len (w : work Rops) : length (w_list w) = w_size w.
Proof. unfold w_list. rewrite map_length, seq_length. reflexivity. Qed.
Lemma w_list_nth (w : work Rops) k : (k < w_size w)%nat -> nth_error (w_list w) k = Some (w_buf w k).
Proof.
  intros H. unfold w_list. rewrite (nth_error_nth' _ (w_buf w 0%nat)) by (rewrite map_length, seq_length; auto). rewrite map_nth, seq_nth by auto. reflexivity.
Qed.
Lemma getM_fit (w : work Rops) a b ld : (ld * b <= w_size w)%nat -> (a <= ld)%nat -> getM w a b ld = Ok (view ld (w_buf w)).
Proof. intros H1 H2. unfold getM, mat_fits, guard. rewrite (proj2 (Nat.leb_le _ _) H1), (proj2 (Nat.leb_le _ _) H2). reflexivity. Qed.
Lemma getV_fit (w : work Rops) a : (a <= w_size w)%nat -> getV w a = Ok (w_buf w).
Proof. intros H1. unfold getV, vec_fits, guard. rewrite (proj2 (Nat.leb_le _ _) H1). reflexivity. Qed.

Lemma getR_spec n r q' : qwf n r -> (r_q r <= r_ld r)%nat -> (q' <= r_q r + 1)%nat -> (q' <= n)%nat ->
  exists r', getR r q' = Ok (bRof r', r') /\ qwf n r' /\ (q' <= r_ld r')%nat /\ r_q r' = r_q r /\ (r_q r <= r_ld r')%nat /\ r_Q r' = r_Q r /\ (q' <= r_q r -> r' = r)%nat /\
    forall i j, (i < r_q r)%nat -> (j < r_q r)%nat -> bRof r' i j = bRof r i j.
Proof.
  intros [W1 W2 W3 W4 W5 W6] Hq Hq' Hn. unfold getR, adjustLdR, guard at 1. rewrite W1. rewrite (proj2 (Nat.leb_le _ _) Hn).
  destruct (Nat.ltb_spec (r_ld r) q') as [Hlt|Hge].
  - assert (E : r_q r = r_ld r) by lia. assert (Hq1 : q' = (r_ld r + 1)%nat) by lia. set (m := Nat.min (2 * r_ld r) n).
    assert (Hm : (r_ld r < m)%nat) by (unfold m; lia). assert (Hmn : (m <= n)%nat) by (unfold m; lia).
    destruct (C05_changeLd (r_q r) (r_q r) (r_ld r) m (w_list (r_R r))) as (b & Eb & Hlen & Hb & _); try rewrite w_list_len; try lia; try nia.
    rewrite Eb. cbn [bind]. set (r' := QRs _ _ _ _ _ _). cbn [r_R r_ld r']. rewrite getM_fit; [|cbn [w_of w_size]; nia|lia].
    cbn [bind]. exists r'. split; [reflexivity|]. split; [|split; [|split; [|split; [|split; [|split]]]]]; try reflexivity.
    + split; cbn [r' r_n r_Q r_ld r_R r_ess w_of w_size]; auto; lia.
    + cbn [r' r_ld]. lia.
    + cbn [r' r_ld]. lia.
    + intros H. lia.
    + intros i j Hi Hj. unfold bRof. cbn [r' r_R r_ld]. unfold view at 1. cbn [w_of w_buf]. rewrite w_list_len in Hlen.
      pose proof (Hb i j Hi Hj) as HH. rewrite w_list_nth in HH by nia. apply nth_error_nth with (d := w_buf (r_R r) (i + m * j)%nat) in HH. exact HH.
  - cbn [bind]. rewrite getM_fit; auto; [|nia]. cbn [bind]. exists r. split; [reflexivity|]. split; [split; auto|]. repeat split; auto.
Qed.

(** ** RSolve *)
Lemma RSolve_spec n r out inp : qwf n r -> (r_q r <= r_ld r)%nat -> (r_q r <= n)%nat ->
  exists x, sqr_RSolve r (r_q r) out (r_q r) inp = Ok (x, r) /\ forall i, (i < r_q r)%nat -> x i = @bwd Rops (r_q r) (r_q r) (bRof r) inp i.
Proof.
  intros HW Hq Hn. unfold sqr_RSolve, guard. rewrite Nat.eqb_refl. cbn [andb].
  destruct (getR_spec n r (r_q r) HW Hq ltac:(lia) Hn) as (r' & E & _ & _ & _ & _ & _ & H & _). rewrite H in E by auto. rewrite E. cbn [bind fst snd].
  eexists. split; [reflexivity|]. intros i Hi. rewrite vm_at. unfold vhead. rewrite (proj2 (Nat.ltb_lt _ _) Hi). reflexivity.
Qed.

(** ** add *)
Lemma mkHouse_spec tiny m (c : rvec) tau beta ess : 0 <= tiny -> (1 <= m)%nat -> @mkHouse Rops tiny m c = (tau, beta, ess) ->
  leb Rops (tail_sq m c) tiny && ltb Rops (zero Rops) (tail_sq m c) = false ->
  let v0 := c 0%nat + rsum (m - 1) (fun r => ess r * c (1 + r)%nat) in
  c 0%nat - tau * v0 = beta /\ (forall r, (r < m - 1)%nat -> c (1 + r)%nat - tau * ess r * v0 = 0) /\
  (tau * (1 + rsum (m - 1) (fun r => ess r * ess r)) = 2 \/ tau = 0) /\ beta * beta = rsum m (fun t => c t * c t).
Proof.
  intros Ht Hm E Hfl v0. assert (Esum : rsum m (fun t => c t * c t) = c 0%nat * c 0%nat + @tail_sq Rops m c).
  { unfold tail_sq. replace m with (1 + (m - 1))%nat at 1 by lia. rewrite sum_app. rewrite sum_S, sum_0. rops. replace (1 + (m - 1) - 1)%nat with (m - 1)%nat by lia. unfold rsum. lra. }
  assert (Etail : @tail_sq Rops m c = rsum (m - 1) (fun t => c (1 + t)%nat * c (1 + t)%nat)) by reflexivity.
  assert (Hpos : 0 <= @tail_sq Rops m c) by (rewrite Etail; apply sum_nonneg; intros; apply Rle_0_sqr).
  unfold mkHouse in E. rops. set (tsq := @tail_sq Rops m c) in *. set (c0 := c 0%nat) in *.
  destruct (Rleb_spec tsq tiny) as [Hle|Hgt].
  - cbn [andb] in Hfl. assert (E0 : tsq = 0) by (destruct (Rltb_spec 0 tsq); [discriminate|lra]). injection E as <- <- <-. split; [lra|]. split; [|split; [right; reflexivity|lra]].
    intros r Hr. assert (Hz : c (1 + r)%nat * c (1 + r)%nat = 0).
    { rewrite Etail in E0. apply (sum_nonneg_zero (m - 1) (fun t => c (1 + t)%nat * c (1 + t)%nat)); auto. intros. apply Rle_0_sqr. }
    nra.
  - injection E as <- <- <-. set (b0 := sqrt (c0 * c0 + tsq)).
    assert (Hp : 0 < c0 * c0 + tsq) by (pose proof (Rle_0_sqr c0) as Hs; unfold Rsqr in Hs; lra).
    assert (Hb0 : 0 < b0) by (apply sqrt_lt_R0; auto).
    assert (Hbb : b0 * b0 = c0 * c0 + tsq) by (apply sqrt_sqrt; lra).
    set (beta := if Rleb 0 c0 then - b0 else b0).
    assert (HB : beta * beta = c0 * c0 + tsq) by (unfold beta; destruct (Rleb 0 c0); lra).
    assert (Hbn : beta <> 0) by (unfold beta; destruct (Rleb 0 c0); lra).
    assert (Hbc : c0 - beta <> 0) by (unfold beta; destruct (Rleb_spec 0 c0); lra).
    assert (Hv : v0 = - beta).
    { unfold v0. rewrite (sum_ext (m - 1) _ (fun t => (c (1 + t)%nat * c (1 + t)%nat) * / (c0 - beta))).
      - rewrite sum_scal_r, <- Etail. apply (Rmult_eq_reg_r (c0 - beta)); auto. fold c0.
        replace ((c0 + tsq * / (c0 - beta)) * (c0 - beta)) with (tsq + c0 * (c0 - beta)) by (field; auto). lra.
      - intros t _. unfold Rdiv. rops. fold b0. fold beta. cbn [Nat.add]. ring. }
    rops. fold b0. fold beta. rewrite Hv. split; [fold c0; field; auto|]. split; [intros r Hr; cbn [Nat.add]; field; auto|]. split; [|lra].
    left. rewrite (sum_ext (m - 1) _ (fun t => (c (1 + t)%nat * c (1 + t)%nat) * (/ (c0 - beta) * / (c0 - beta)))) by (intros; unfold Rdiv; rops; fold b0; fold beta; cbn [Nat.add]; ring).
    rewrite sum_scal_r, <- Etail. replace tsq with (beta * beta - c0 * c0) by lra. field. auto.
Qed.
Lemma exec_snoc junk q cs c q1 q2 : exec junk q cs = Ok q1 -> exec1 junk q1 c = Ok q2 -> exec junk q (cs ++ [c]) = Ok q2.
Proof. intros H1 H2. rewrite exec_app, H1. cbn [bind exec]. rewrite H2. reflexivity. Qed.
Lemma hist_house junk n cs Q q e tau : hist junk n cs Q -> (q < n)%nat -> orthogonal_factor (AddHouseholder q (n - q - 1) e tau) ->
  exists Q1 Q2, os_prepare junk Q OHouseholder (n - q) 1 = Ok Q1 /\ os_addH Q1 q (n - q - 1) e tau = Ok Q2 /\
    hist junk n (cs ++ [Prepare OHouseholder (n - q) 1; AddHouseholder q (n - q - 1) e tau]) Q2.
Proof.
  intros H Hq HO. pose proof (hist_n _ _ _ _ H) as Hn. destruct H as (H1 & H2 & H3). unfold os_prepare, elem_new. cbn [bind].
  eexists. eexists. split; [reflexivity|]. split.
  { unfold os_addH, os_back. cbn [q_seq e_ty otype_eqb guard e_size Nat.eqb bind]. unfold elem_addH. cbn [e_ty otype_eqb guard e_n e_size e_w1 e_w2].
    unfold guard at 1. rewrite (proj2 (Nat.eqb_eq _ _)) by lia. rewrite getM_fit by (cbn [w_size]; lia). cbn [bind]. rewrite getV_fit by (cbn [w_size]; lia). cbn [bind]. reflexivity. }
  split; [|split].
  - rewrite exec_app, H1. cbn [bind exec exec1]. unfold os_prepare at 1, elem_new. cbn [bind].
    unfold os_addH, os_back. cbn [q_seq e_ty otype_eqb guard e_size Nat.eqb bind]. unfold elem_addH. cbn [e_ty otype_eqb guard e_n e_size e_w1 e_w2].
    unfold guard at 1. rewrite (proj2 (Nat.eqb_eq _ _)) by lia. rewrite getM_fit by (cbn [w_size]; lia). cbn [bind]. rewrite getV_fit by (cbn [w_size]; lia). cbn [bind]. reflexivity.
  - intros st e0 [E|Hin]; [injection E as <- <-; cbn [q_n e_n e_ty]; rewrite Hn; split; [lia|discriminate]|]. apply (H2 st e0 Hin).
  - apply Forall_app. split; [exact H3|]. constructor; [exact I|]. constructor; [exact HO|constructor].
Qed.
Lemma qr_ext' n q J R J' R' N N' : qr n q J R N -> (forall k i, (k < q)%nat -> (i < n)%nat -> tdot n J' i (N' k) = tdot n J i (N k)) -> (forall i k, (i <= k)%nat -> (k < q)%nat -> R' i k = R i k) -> qr n q J' R' N'.
Proof.
  intros [Q1 Q2 Q3 Q4] HJ HR. split; auto.
  - intros k i Hk Hi. rewrite HJ, HR by lia. auto.
  - intros k i Hk Hi Hn. rewrite HJ by lia. auto.
  - intros k Hk. rewrite HR by lia. auto.
Qed.
Lemma sqr_add_spec tiny junk n Mi cs r N w d : 0 <= tiny -> qwf n r -> (r_q r <= r_ld r)%nat -> (r_q r < n)%nat -> hist junk n cs (r_Q r) -> qr n (r_q r) (bJof n Mi cs) (bRof r) N ->
  (forall j, (j < n)%nat -> d j = tdot n (bJof n Mi cs) j w) -> (exists j, (r_q r <= j)%nat /\ (j < n)%nat /\ d j <> 0) ->
  (exists r', sqr_add tiny junk r n d = Ok (true, r')) \/ exists r' cs', sqr_add tiny junk r n d = Ok (false, r') /\ qwf n r' /\ r_q r' = (r_q r + 1)%nat /\ (r_q r' <= r_ld r')%nat /\ hist junk n cs' (r_Q r') /\
    qr n (r_q r + 1) (bJof n Mi cs') (bRof r') (fun k => if (k =? r_q r)%nat then w else N k).
Proof.
  intros Ht HW Hld Hq HH HQ Hd (j0 & Hj0 & Hj0n & Hnz). pose proof HW as [W1 W2 W3 W4 W5 W6]. unfold sqr_add. rewrite W1. unfold guard at 1 2 3 4. rewrite Nat.eqb_refl. rewrite (proj2 (Nat.leb_le _ _)) by lia.
  rewrite getV_fit by lia. cbn [bind]. set (q := r_q r) in *. set (c := fun t => d (q + t)%nat).
  destruct (@mkHouse Rops tiny (n - q) c) as [[tau beta] ess] eqn:EH.
  set (e := @vm Rops (n - q - 1) (vhead (n - q - 1) ess (w_buf (r_ess r)))).
  assert (He : forall k, (k < n - q - 1)%nat -> e k = ess k). { intros k Hk. unfold e. rewrite vm_at. unfold vhead. rewrite (proj2 (Nat.ltb_lt _ _) Hk). reflexivity. }
  destruct (getR_spec n r (q + 1) HW Hld ltac:(unfold q; lia) ltac:(lia)) as (r1 & E1 & HW1 & Hl1 & Hq1 & Hq2 & HQ1 & _ & HR1). rewrite E1. cbn [bind].
  destruct (leb Rops (tail_sq (n - q) c) tiny && ltb Rops (zero Rops) (tail_sq (n - q) c)) eqn:Hfl.
  { left. rewrite HQ1. unfold os_prepare, elem_new. cbn [bind]. unfold os_addH, os_back. cbn [q_seq e_ty otype_eqb guard e_size Nat.eqb bind]. unfold elem_addH. cbn [e_ty otype_eqb guard e_n e_size e_w1 e_w2].
    unfold guard at 1. rewrite (proj2 (Nat.eqb_eq _ _)) by lia. rewrite getM_fit by (cbn [w_size]; lia). cbn [bind]. rewrite getV_fit by (cbn [w_size]; lia). cbn [bind]. eexists. reflexivity. }
  right. destruct (mkHouse_spec tiny (n - q) c tau beta ess Ht ltac:(lia) EH Hfl) as (K1 & K2 & K3 & K4).
  rewrite (sum_ext (n - q - 1) _ (fun t => e t * c (1 + t)%nat)) in K1 by (intros; rewrite He by auto; reflexivity).
  rewrite (sum_ext (n - q - 1) _ (fun t => e t * e t)) in K3 by (intros; rewrite He by auto; reflexivity).
  assert (K2' : forall t, (t < n - q - 1)%nat -> c (1 + t)%nat - tau * e t * (c 0%nat + rsum (n - q - 1) (fun t => e t * c (1 + t)%nat)) = 0).
  { intros t Htt. rewrite <- (K2 t) by auto. rewrite He by auto. do 3 f_equal. apply sum_ext. intros. rewrite He by auto. reflexivity. }
  clear K2. rewrite HQ1. destruct (hist_house junk n cs (r_Q r) q e tau HH Hq K3) as (Q1 & Q2 & P1 & P2 & HH2). rewrite P1. cbn [bind]. rewrite P2. cbn [bind].
  set (cs' := cs ++ _) in HH2. set (R' := fun i j : nat => _). set (r' := QRs _ _ _ _ _ _). exists r', cs'. split; [reflexivity|].
  destruct HW1 as [V1 V2 V3 V4 V5 V6].
  split; [|split; [|split; [|split]]].
  - split; cbn [r' r_n r_Q r_ld r_R r_ess wset w_size]; auto. apply (hist_n _ _ _ _ HH2).
  - reflexivity.
  - cbn [r' r_q r_ld]. lia.
  - exact HH2.
  - pose proof (hist_in _ _ _ _ HH) as HC. pose proof (hist_in _ _ _ _ HH2) as HC2. destruct HQ as [Q1' Q2' Q3' Q4'].
    assert (HT : forall k v, (k < n)%nat -> tdot n (bJof n Mi cs') k v = fact (AddHouseholder q (n - q - 1) e tau) (facts_t cs (mvec n Mi v)) k).
    { intros k v Hk. rewrite tdot_bJ by auto. unfold cs'. rewrite facts_t_app. reflexivity. }
    assert (HRv : forall i j, (i <= j)%nat -> (j <= q)%nat -> bRof r' i j = R' i j).
    { intros i j Hi Hj. unfold bRof. cbn [r' r_R r_ld wset w_buf]. apply view_unview; lia. }
    assert (Hold : forall k, (k < q)%nat -> forall i, (i < n)%nat -> tdot n (bJof n Mi cs') i (N k) = tdot n (bJof n Mi cs) i (N k)).
    { intros k Hk i Hi. rewrite HT, tdot_bJ by auto. cbn [fact]. cbv zeta.
      assert (Z : forall i, (q <= i)%nat -> (i < n)%nat -> facts_t cs (mvec n Mi (N k)) i = 0). { intros i0 H0 H1. rewrite <- tdot_bJ by auto. apply Q3'; lia. }
      rewrite (Z q) by lia. rewrite (sum_zero (n - q - 1)) by (intros t Htt; rewrite Z by lia; rring).
      destruct (Nat.eqb_spec i q) as [->|]; [rewrite Z by lia; ring|]. destruct ((q <? i)%nat && (i <=? q + (n - q - 1))%nat); [|reflexivity]. ring. }
    assert (Hd' : forall j, (j < n)%nat -> facts_t cs (mvec n Mi w) j = d j). { intros j Hj. rewrite <- tdot_bJ by auto. symmetry. auto. }
    assert (Hnew : forall i, (i < n)%nat -> tdot n (bJof n Mi cs') i w = if (i <? q)%nat then d i else if (i =? q)%nat then beta else 0).
    { intros i Hi. rewrite HT by auto. cbn [fact]. cbv zeta. rewrite (sum_ext (n - q - 1) _ (fun t => e t * c (1 + t)%nat)) by (intros t Htt; rewrite Hd' by lia; unfold c; do 2 f_equal; lia).
      rewrite !Hd' by lia. replace (d q) with (c 0%nat) by (unfold c; f_equal; lia).
      destruct (Nat.ltb_spec i q); [rewrite (proj2 (Nat.eqb_neq _ _)) by lia; rewrite (proj2 (Nat.ltb_ge _ _)) by lia; reflexivity|].
      destruct (Nat.eqb_spec i q) as [->|]; [exact K1|]. rewrite (proj2 (Nat.ltb_lt _ _)) by lia. rewrite (proj2 (Nat.leb_le _ _)) by lia. cbn [andb].
      rewrite <- (K2' (i - q - 1)%nat) by lia. replace (c (1 + (i - q - 1))%nat) with (d i) by (unfold c; f_equal; lia). reflexivity. }
    assert (Hb : beta <> 0).
    { intros E0. rewrite E0 in K4. apply Hnz. assert (Z : d j0 * d j0 = 0); [|nra]. replace (d j0) with (c (j0 - q)%nat) by (unfold c; f_equal; lia).
      apply (sum_nonneg_zero (n - q) (fun t => c t * c t)); [intros; apply Rle_0_sqr|lra|lia]. }
    split.
    + lia.
    + intros k i Hk Hi. rewrite HRv by lia. unfold R'. destruct (Nat.eqb_spec k q) as [->|Hne].
      * rewrite Hnew by lia. destruct (i <? q)%nat eqn:Ei; [reflexivity|]. apply Nat.ltb_ge in Ei. rewrite (proj2 (Nat.eqb_eq _ _)) by lia. reflexivity.
      * rewrite Hold by lia. rewrite Q2' by lia. rewrite HR1 by (fold q; lia). reflexivity.
    + intros k i Hk Hi Hin. destruct (Nat.eqb_spec k q) as [->|Hne].
      * rewrite Hnew by lia. rewrite (proj2 (Nat.ltb_ge _ _)) by lia. rewrite (proj2 (Nat.eqb_neq _ _)) by lia. reflexivity.
      * rewrite Hold by lia. apply Q3'; lia.
    + intros k Hk. rewrite HRv by lia. unfold R'. destruct (Nat.eqb_spec k q) as [->|Hne].
      * rewrite Nat.ltb_irrefl. exact Hb.
      * rewrite HR1 by (fold q; lia). apply Q4'. lia.
Qed.

(** ** remove *)
Lemma rinv_ext n q l i J J' R N : (q < n)%nat -> (i <= q)%nat -> rinv n q l i J R N -> (forall a v, (a < n)%nat -> tdot n J' a v = tdot n J a v) -> rinv n q l i J' R N.
Proof.
  intros Hq Hi [U Z D OU OZ OD] HJ. split; auto; intros k a; intros.
  - rewrite HJ by lia. apply U; auto.
  - rewrite HJ by lia. apply Z; auto.
  - rewrite HJ by lia. apply OU; auto.
  - rewrite HJ by lia. apply OZ; auto.
Qed.
(** the element being extended *)
Definition gv_head (l q i : nat) (Q : roseq) : Prop :=
  match q_seq Q with
  | (st, e) :: _ => e_ty e = OGivens /\ e_n e = (q - l + 1)%nat /\ e_size e = (i - l)%nat /\ w_size (e_w1 e) = (q - l)%nat /\ w_size (e_w2 e) = (q - l)%nat /\ (i = l \/ st = l)
  | [] => False
  end.
Lemma hist_givens junk n l q i cs Q g : hist junk n cs Q -> gv_head l q i Q -> (l <= i)%nat -> (i < q)%nat -> (q < n)%nat -> gc g * gc g + gs g * gs g = 1 ->
  exists Q', os_addG Q i g = Ok Q' /\ gv_head l q (S i) Q' /\ hist junk n (cs ++ [AddGivens i g]) Q'.
Proof.
  intros H Hg Hl Hi Hq HO. pose proof (hist_n _ _ _ _ H) as Hn. destruct H as (H1 & H2 & H3). unfold gv_head in Hg. destruct Q as [nq [|[st e] rest]]; cbn [q_seq q_n] in *; [contradiction|]. subst nq.
  destruct Hg as (G1 & G2 & G3 & G4 & G5 & G6).
  assert (E : exists e', os_addG (OS n ((st, e) :: rest)) i g = Ok (OS n ((l, e') :: rest)) /\ e_ty e' = OGivens /\ e_n e' = (q - l + 1)%nat /\ e_size e' = (S i - l)%nat /\ w_size (e_w1 e') = (q - l)%nat /\ w_size (e_w2 e') = (q - l)%nat).
  { unfold os_addG, os_back. cbn [q_seq q_n]. rewrite G1. cbn [otype_eqb guard].
    assert (E1 : (if (e_size e =? 0)%nat then Ok (i, e, rest) else guard (st + e_size e =? i)%nat (Ok (st, e, rest))) = Ok (l, e, rest)).
    { destruct (Nat.eqb_spec (e_size e) 0); [do 3 f_equal; lia|]. unfold guard. rewrite (proj2 (Nat.eqb_eq _ _)) by lia. do 3 f_equal. lia. }
    rewrite E1. cbn [bind]. unfold elem_addG. rewrite G1. cbn [otype_eqb guard]. rewrite !getV_fit by lia. cbn [bind]. eexists. split; [reflexivity|]. cbn [e_ty e_n e_size e_w1 e_w2 wset w_size]. repeat split; auto. lia. }
  destruct E as (e' & E & F1 & F2 & F3 & F4 & F5). exists (OS n ((l, e') :: rest)). split; [exact E|]. split; [unfold gv_head; cbn [q_seq]; repeat split; auto|]. split; [|split].
  - apply (exec_snoc _ _ _ _ _ _ H1). exact E.
  - intros st0 e0 [E0|Hin]; [injection E0 as <- <-; cbn [q_n]; rewrite F2; split; [lia|intros _; right; lia]|]. apply (H2 st0 e0). right. exact Hin.
  - apply Forall_app. split; [exact H3|]. constructor; [exact HO|constructor].
Qed.
Lemma rem_loop_ok junk n Mi l q ld N : (q < n)%nat -> forall cnt i cs R Q, (l <= i)%nat -> (i + cnt = q)%nat -> hist junk n cs Q -> gv_head l q i Q -> rinv n q l i (bJof n Mi cs) R N ->
  exists R' Q' cs', @sqr_rem_loop Rops ld q cnt i R Q = Ok (R', Q') /\ hist junk n cs' Q' /\ rinv n q l q (bJof n Mi cs') R' N.
Proof.
  intros Hq cnt. induction cnt as [|cnt IH]; intros i cs R Q Hl Hc HH Hg HI; cbn [sqr_rem_loop].
  - replace i with q in HI by lia. exists R, Q, cs. auto.
  - destruct (@makeGivens Rops (R i (S i)) (R (S i) (S i))) as [g rr] eqn:EG.
    pose proof (makeGivens_spec _ _ _ _ EG) as (G1 & _ & _).
    destruct (hist_givens junk n l q i cs Q g HH Hg Hl ltac:(lia) Hq G1) as (Q' & E & Hg' & HH'). rewrite E. cbn [bind]. rewrite mm_id.
    apply (IH (S i) (cs ++ [AddGivens i g])); auto; try lia.
    assert (ER : @rem_step Rops q i (R, bJof n Mi cs) = (rem_R q i R g rr, rot_cols (bJof n Mi cs) i g)). { unfold rem_step. rewrite EG. reflexivity. }
    apply (rem_step_spec n q l i _ _ N _ _ Hl ltac:(lia) Hq HI) in ER as [ER _].
    apply (rinv_ext n q l (S i) (rot_cols (bJof n Mi cs) i g)); auto; try lia. intros a v Ha.
    pose proof (hist_in _ _ _ _ HH) as HC. pose proof (hist_in _ _ _ _ HH') as HC'.
    rewrite tdot_rot, tdot_bJ by auto. rewrite facts_t_app. cbn [facts_t fact_t fact gc gs]. rewrite !tdot_bJ by (auto; lia).
    destruct (Nat.eqb_spec a i); [ring|]. destruct (Nat.eqb_spec a (S i)); [ring|]. reflexivity.
Qed.
Lemma sqr_remove_spec junk n Mi cs r N l q : qwf n r -> r_q r = S q -> (S q <= r_ld r)%nat -> hist junk n cs (r_Q r) -> qr n (S q) (bJof n Mi cs) (bRof r) N -> (l <= q)%nat ->
  exists r' cs', sqr_remove junk r l = Ok r' /\ qwf n r' /\ r_q r' = q /\ (q <= r_ld r')%nat /\ hist junk n cs' (r_Q r') /\ qr n q (bJof n Mi cs') (bRof r') (shiftN l N).
Proof.
  intros HW Eq Hld HH [Q1 Q2 Q3 Q4] Hl. unfold sqr_remove. rewrite Eq. cbn [Nat.leb guard]. replace (S q - 1)%nat with q by lia. set (r1 := QRs q _ _ _ _ _).
  assert (HW1 : qwf n r1) by (destruct HW; split; auto). 
  assert (E1 : getR r1 (q + 1) = Ok (bRof r, r1)).
  { destruct HW1 as [W1 W2 W3 W4 W5 W6]. unfold getR, adjustLdR, guard at 1. rewrite W1. rewrite (proj2 (Nat.leb_le _ _)) by lia. cbn [r1 r_ld]. rewrite (proj2 (Nat.ltb_ge _ _)) by lia. cbn [bind r_R r_ld r1].
    destruct HW as [_ _ [X|X] _ X5 _]; [|lia]. rewrite getM_fit by (try lia; nia). reflexivity. }
  rewrite E1. cbn [bind]. unfold guard at 1. rewrite (proj2 (Nat.leb_le _ _) Hl). cbn [r1 r_Q]. unfold os_prepare, elem_new. cbn [bind].
  assert (Hn : q_n (r_Q r) = n) by apply HW.
  set (Q1' := OS _ _). assert (HQ1 : hist junk n (cs ++ [Prepare OGivens (q - l + 1) (q - l)]) Q1').
  { destruct HH as (H1 & H2 & H3). split; [|split].
    - apply (exec_snoc _ _ _ _ _ _ H1). reflexivity.
    - intros st e [E|Hin]; [injection E as <- <-; cbn [Q1' q_n e_n e_ty e_size]; rewrite Hn; split; [lia|auto]|]. apply (H2 st e Hin).
    - apply Forall_app. split; [exact H3|]. constructor; [exact I|constructor]. }
  destruct (rem_loop_ok junk n Mi l q (r_ld r1) N ltac:(lia) (q - l) l (cs ++ [Prepare OGivens (q - l + 1) (q - l)]) (bRof r) Q1') as (R' & Q' & cs' & E & HH' & HI); auto; try lia.
  { unfold gv_head. cbn [Q1' q_seq e_ty e_n e_size e_w1 e_w2 w_size]. repeat split; auto. lia. }
  { apply (rinv_ext n q l l (bJof n Mi cs)); auto; try lia.
    - split.
      + intros k a Hk Ha. unfold shiftN. rewrite (proj2 (Nat.ltb_lt _ _) Hk). apply Q2; lia.
      + intros k a Hk Ha Han. unfold shiftN. rewrite (proj2 (Nat.ltb_lt _ _) Hk). apply Q3; lia.
      + intros k Hk. apply Q4. lia.
      + intros k a Hk Hkq Ha. apply Q2; lia.
      + intros k a Hk Hkq Ha Han. apply Q3; lia.
      + intros k Hk Hkq. apply Q4. lia.
    - intros a v Ha. rewrite !tdot_bJ; auto; [|apply (hist_in _ _ _ _ HH)|apply (hist_in _ _ _ _ HQ1)]. rewrite facts_t_app. reflexivity. }
  cbn [r1 r_ld] in E |- *. rewrite E. cbn [bind fst snd]. set (r' := QRs _ _ _ _ _ _). exists r', cs'. split; [reflexivity|].
  split; [destruct HW; split; cbn [r' r_n r_Q r_ld r_R r_ess r1 wset w_size]; auto; apply (hist_n _ _ _ _ HH')|]. split; [reflexivity|]. split; [cbn [r' r_ld r1]; lia|]. split; [exact HH'|].
  destruct HI as [U Z D _ _ _].
  assert (HR : forall i j, (i < r_ld r)%nat -> (j < q + 1)%nat -> bRof r' i j = R' i j). { intros i j Hi Hj. unfold bRof. cbn [r' r_R r_ld r1 wset w_buf]. apply view_unview; auto. }
  split; [lia| | |].
  - intros k i Hk Hi. rewrite HR by lia. apply U; auto.
  - intros k i Hk Hi Hin. apply Z; auto.
  - intros k Hk. rewrite HR by lia. apply D; auto.
Qed.

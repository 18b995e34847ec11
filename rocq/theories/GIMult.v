(** multipliers(), and optimality on SUCCESS. *)
From Coq Require Import List Arith ZArith Lia Bool Reals Lra.
From Verif Require Import Base ActiveSet ActiveSetProofs Num Solver LinAlg QRUpdate QPSpec GIMath GIBase GIInv GIDual GIRun GIOpt.
Import ListNotations.
Local Open Scope R_scope.

(** Sign given by multipliers() to the multiplier of a constraint with this status *)
Definition msign (st : status) (v : R) : R := match st with UPPER | UPPER_BOUND => v | _ => - v end.

(** The vector returned: entry [act k] is [± u_k], everything else 0 *)
Record is_mult (pb : rproblem) (s : rsol) (u lam : rvec) : Prop := {
  im_act : forall k, (k < nact (s_A s))%nat -> lam (act (s_A s) k) = msign (stt (s_A s) (act (s_A s) k)) (u k);
  im_zero : forall i, stt (s_A s) i = INACTIVE -> lam i = 0
}.

Lemma expand_spec pb s (r : rvec) : shape pb s -> forall k, (k <= nact (s_A s))%nat ->
  exists v, @expand Rops (s_A s) r k (fun _ => 0) = Ok v /\
   (forall j, (j < k)%nat -> v (act (s_A s) j) = msign (stt (s_A s) (act (s_A s) j)) (r j)) /\
   (forall i, (forall j, (j < k)%nat -> act (s_A s) j <> i) -> v i = 0).
Proof.
  intros HS. induction k as [|k IH]; intros Hk.
  - exists (fun _ => 0). split; auto. split; auto; intros; lia.
  - destruct IH as (v & E & H1 & H2); [lia|]. cbn [expand]. rewrite E. cbn [bind].
    rewrite (as_get_ok pb) by (auto; lia). cbn [bind].
    destruct (act_props pb s k HS ltac:(lia)) as (Hi & _). rewrite (as_stat_ok pb) by auto. cbn [bind].
    eexists. split; [reflexivity|]. split.
    + intros j Hj. unfold upd. destruct (Nat.eqb_spec (act (s_A s) j) (act (s_A s) k)) as [Ea|Ea].
      * apply (act_inj pb s) in Ea; auto; try lia. subst j. unfold msign. destruct (stt (s_A s) (act (s_A s) k)); auto.
      * apply H1. destruct (Nat.eq_dec j k); [congruence|lia].
    + intros i Hi'. unfold upd. destruct (Nat.eqb_spec i (act (s_A s) k)) as [Ea|Ea].
      * exfalso. apply (Hi' k); auto.
      * apply H2. intros j Hj. apply Hi'. lia.
Qed.

Lemma nbAll_ncb pb s : shape pb s -> nbAll (s_A s) = ncb pb.
Proof. intros HS. unfold nbAll, ncb. rewrite (sh_nc _ _ HS), (sh_nb _ _ HS). auto. Qed.

(** First call after a solve *)
Lemma multipliers_fresh pb s : shape pb s -> s_exp s = true ->
  exists v s', multipliers s = Ok (map v (seq 0 (ncb pb)), s') /\ is_mult pb s (uof s) v /\
    s_exp s' = false /\ s_A s' = s_A s /\ s_x s' = s_x s /\ s_f s' = s_f s /\ s_it s' = s_it s /\ s_n s' = s_n s /\
    uof s' = v /\ shape pb s'.
Proof.
  intros HS He. unfold multipliers. rewrite (nbAll_ncb pb s HS), He. cbn [s_A s_r s_u s_exp set_exp].
  pose proof (shape_nact_le _ _ HS) as Hq.
  rewrite getV_ok by (pose proof (sh_r _ _ HS); lia). cbn [bind].
  rewrite getV_ok by (pose proof (sh_u _ _ HS); lia). cbn [bind].
  rewrite getV_ok by (pose proof (sh_u _ _ HS); lia). cbn [bind].
  destruct (expand_spec pb s (vm (nact (s_A s)) (vhead (nact (s_A s)) (w_buf (s_u s)) (w_buf (s_r s)))) HS (nact (s_A s)) (le_n _)) as (v & E & H1 & H2).
  rops. rewrite E. cbn [bind].
  unfold set_u, set_r. cbn [s_it s_n s_A s_f s_x s_z s_u s_r s_exp s_d s_J s_R s_G set_exp wset].
  rewrite getV_ok by (simpl; apply HS). cbn [bind w_buf]. rewrite vm_id.
  exists v. eexists. split; [reflexivity|]. split.
  - split.
    + intros k Hk. rewrite H1 by auto. f_equal. rewrite vm_at. unfold vhead, uof. apply Nat.ltb_lt in Hk. rewrite Hk. auto.
    + intros i Hi. apply H2. intros j Hj Ej. destruct (act_props pb s j HS Hj) as (_ & Hn & _). congruence.
  - repeat (split; [reflexivity|]). destruct HS as [K1 K2 K3 K4 K5 K6 K7 K8 K9 K10 K11 K12]. split; auto.
Qed.
(** Later calls *)
Lemma multipliers_again pb s : shape pb s -> s_exp s = false -> multipliers s = Ok (map (uof s) (seq 0 (ncb pb)), s).
Proof.
  intros HS He. unfold multipliers. rewrite (nbAll_ncb pb s HS), He. cbn [bind].
  rewrite getV_ok by apply HS. cbn [bind]. auto.
Qed.

(** ** KKT *)
Lemma sum_act pb s (w : nat -> R) (f : nat -> R) : shape pb s ->
  rsum (ncb pb) (fun i => rsum (nact (s_A s)) (fun k => if (i =? act (s_A s) k)%nat then w k else 0) * f i)
  = rsum (nact (s_A s)) (fun k => w k * f (act (s_A s) k)).
Proof.
  intros HS.
  rewrite (sum_ext (ncb pb) _ (fun i => rsum (nact (s_A s)) (fun k => if (i =? act (s_A s) k)%nat then w k * f i else 0))).
  - rewrite sum_swap. apply sum_ext. intros k Hk. destruct (act_props pb s k HS Hk) as (Hi & _).
    apply (sum_delta (ncb pb) (act (s_A s) k) (fun i => w k * f i)). auto.
  - intros i Hi. rewrite <- sum_scal_r. apply sum_ext. intros k Hk. destruct (i =? act (s_A s) k)%nat; rring.
Qed.

Lemma mult_as_sum pb s u lam i : shape pb s -> is_mult pb s u lam ->
  lam i = rsum (nact (s_A s)) (fun k => if (i =? act (s_A s) k)%nat then msign (stt (s_A s) (act (s_A s) k)) (u k) else 0).
Proof.
  intros HS [H1 H2]. destruct (status_eqb_spec (stt (s_A s) i) INACTIVE) as [E|E].
  - rewrite H2 by auto. symmetry. apply sum_zero. intros k Hk.
    destruct (Nat.eqb_spec i (act (s_A s) k)) as [->|]; auto.
    destruct (act_props pb s k HS Hk) as (_ & Hn & _). congruence.
  - destruct (act_surj pb s i HS E) as (k & Hk & <-). rewrite H1 by auto.
    rewrite (sum_ext _ _ (fun j => if (j =? k)%nat then msign (stt (s_A s) (act (s_A s) j)) (u j) else 0)).
    + rewrite (sum_delta _ k (fun j => msign (stt (s_A s) (act (s_A s) j)) (u j))) by auto. auto.
    + intros j Hj. destruct (Nat.eqb_spec j k) as [->|Hne]; [rewrite Nat.eqb_refl; auto|].
      destruct (Nat.eqb_spec (act (s_A s) k) (act (s_A s) j)) as [Ea|]; auto.
      apply (act_inj pb s) in Ea; auto. congruence.
Qed.

Lemma cvec_sum pb (lam : rvec) a : (nb pb <= nv pb)%nat ->
  rsum (ncb pb) (fun i => lam i * cvec pb i a)
  = rsum (nc pb) (fun j => p_C pb a j * lam j) + (if (a <? nb pb)%nat then lam (nc pb + a)%nat else 0).
Proof.
  intros Hb. unfold ncb. rewrite sum_app. f_equal.
  - apply sum_ext. intros j Hj. unfold cvec. apply Nat.ltb_lt in Hj. rewrite Hj. rring.
  - destruct (Nat.ltb_spec a (nb pb)) as [Ha|Ha].
    + rewrite (sum_ext _ _ (fun i => if (i =? a)%nat then lam (nc pb + i)%nat else 0)).
      * apply (sum_delta (nb pb) a (fun i => lam (nc pb + i)%nat)). auto.
      * intros i Hi. unfold cvec. destruct (Nat.ltb_spec (nc pb + i) (nc pb)); [lia|].
        replace (nc pb + i - nc pb)%nat with i by lia. rewrite (Nat.eqb_sym a i). destruct (i =? a)%nat; rring.
    + apply sum_zero. intros i Hi. unfold cvec. destruct (Nat.ltb_spec (nc pb + i) (nc pb)); [lia|].
      replace (nc pb + i - nc pb)%nat with i by lia. destruct (Nat.eqb_spec a i); [lia|]. rring.
Qed.

Lemma dinv_kkt pb s lam : pinv pb s -> dinv pb s None -> feasible pb (xof s) -> is_mult pb s (uof s) lam -> kkt pb (xof s) lam.
Proof.
  intros HP [[D1 D2] D3 D4] HF HM. pose proof (pi_shape _ _ HP) as HS.
  assert (Hnb : (nb pb <= nv pb)%nat) by apply sizes_nb, HP.
  assert (Hcomp : forall i, (i < ncb pb)%nat ->
     (0 < lam i -> cup pb i = Some (rdot (nv pb) (cvec pb i) (xof s))) /\
     (lam i < 0 -> clo pb i = Some (rdot (nv pb) (cvec pb i) (xof s)))).
  { intros i Hi. destruct (status_eqb_spec (stt (s_A s) i) INACTIVE) as [E|E].
    - rewrite (im_zero _ _ _ _ HM) by auto. split; intros; lra.
    - destruct (act_surj pb s i HS E) as (k & Hk & <-).
      pose proof (tight_value pb s k HP Hk) as HT. simpl in HT.
      rewrite (im_act _ _ _ _ HM) by auto. specialize (D3 k Hk).
      destruct (stt (s_A s) (act (s_A s) k)); simpl in *; try (specialize (D3 eq_refl));
        try (split; intros; [solve [auto|lra|tauto]|solve [auto|lra|tauto]]). }
  split; auto.
  - intros a Ha. rewrite <- (Rplus_assoc) || idtac.
    assert (E : rsum (ncb pb) (fun i => lam i * cvec pb i a) = - rsum (nact (s_A s)) (fun k => uof s k * Nact pb (s_A s) k a)).
    { rewrite (sum_ext (ncb pb) _ (fun i => rsum (nact (s_A s)) (fun k => if (i =? act (s_A s) k)%nat then
          msign (stt (s_A s) (act (s_A s) k)) (uof s k) else 0) * cvec pb i a)).
      - rewrite sum_act by auto. rewrite <- sum_opp. apply sum_ext. intros k Hk.
        unfold Nact, nsign, msign. destruct (stt (s_A s) (act (s_A s) k)); rring.
      - intros i Hi. rewrite (mult_as_sum pb s (uof s) lam i) by auto. auto. }
    rewrite cvec_sum in E by auto. rewrite D1 by auto. rewrite Rplus_assoc, E. rring.
  - intros j Hj. destruct (Hcomp j) as [K1 K2]; [unfold ncb; lia|].
    apply Nat.ltb_lt in Hj as Hj'. unfold clo, cup, cvec in K1, K2. rewrite Hj' in K1, K2. auto.
  - intros i Hi. destruct (Hcomp (nc pb + i)%nat) as [K1 K2]; [unfold ncb; lia|].
    unfold clo, cup, cvec in K1, K2. destruct (Nat.ltb_spec (nc pb + i) (nc pb)); [lia|].
    replace (nc pb + i - nc pb)%nat with i in K1, K2 by lia. rewrite dot_delta in K1, K2 by lia. auto.
Qed.

Lemma kkt_ext pb x x' lam lam' : (forall i, (i < nv pb)%nat -> x i = x' i) -> (forall i, (i < ncb pb)%nat -> lam i = lam' i) ->
  (nb pb <= nv pb)%nat -> kkt pb x lam -> kkt pb x' lam'.
Proof.
  intros Hx Hl Hb [K1 K2 K3 K4]. 
  assert (HD : forall w, rdot (nv pb) w x' = rdot (nv pb) w x) by (intros; apply dot_ext; auto; intros; symmetry; auto).
  split.
  - intros i Hi. specialize (K1 i Hi). unfold gradient in *.
    rewrite (sum_ext (nv pb) (fun j => hess pb i j * x j) (fun j => hess pb i j * x' j)) in K1 by (intros; rewrite Hx by auto; auto).
    rewrite (sum_ext (nc pb) (fun j => p_C pb i j * lam j) (fun j => p_C pb i j * lam' j)) in K1 by (intros; rewrite Hl by (unfold ncb; lia); auto).
    destruct (Nat.ltb_spec i (nb pb)); auto. rewrite Hl in K1 by (unfold ncb; lia). auto.
  - destruct K2 as [F1 F2]. split.
    + intros j Hj. rewrite HD. auto.
    + intros i Hi. rewrite <- Hx by lia. auto.
  - intros j Hj. rewrite HD, <- Hl by (unfold ncb; lia). auto.
  - intros i Hi. rewrite <- Hl by (unfold ncb; lia). rewrite <- Hx by lia. auto.
Qed.

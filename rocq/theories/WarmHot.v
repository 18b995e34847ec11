(** Warm start with the active set of the solution: no iteration is needed. *)
From Coq Require Import List Arith ZArith Lia Bool Reals Lra Permutation.
From Verif Require Import Base ActiveSet ActiveSetProofs Num Solver LinAlg QRUpdate QPSpec GIMath GIBase GIInv GIDual GIRun GIOpt GIMult GIInit GISafe GICall GIHist GIFinal Warm WarmAS WarmSafe WarmQR WarmInit WarmHist WarmOpt.
Import ListNotations.
Local Open Scope R_scope.

(** ** What it means for statuses [w] to describe an optimal active set at [(xs, lam)] *)
Definition optimal_set (pb : rproblem) (xs lam : rvec) (w : nat -> status) : Prop :=
  forall i, (i < ncb pb)%nat ->
  match w i with
  | INACTIVE => lam i = 0
  | LOWER | LOWER_BOUND => lam i <= 0 /\ clo pb i = Some (rdot (nv pb) (cvec pb i) xs)
  | UPPER | UPPER_BOUND => 0 <= lam i /\ cup pb i = Some (rdot (nv pb) (cvec pb i) xs)
  | EQUALITY | FIXED => is_equality pb i
  end.
(** the normals of the constraints in the set are linearly independent *)
Definition indep_set (pb : rproblem) (w : nat -> status) : Prop :=
  forall c : rvec, (forall a, (a < nv pb)%nat -> rsum (ncb pb) (fun i => if isact (w i) then c i * cvec pb i a else 0) = 0) ->
  forall i, (i < ncb pb)%nat -> w i <> INACTIVE -> c i = 0.

Lemma list_sum_delta (l : list nat) (g f : nat -> R) m : (forall i, In i l -> (i < m)%nat) ->
  rsum m (fun i => rsum (length l) (fun k => if (i =? nth k l 0)%nat then g k else 0) * f i) = rsum (length l) (fun k => g k * f (nth k l 0%nat)).
Proof.
  intros H.
  rewrite (sum_ext m _ (fun i => rsum (length l) (fun k => if (i =? nth k l 0)%nat then g k * f i else 0))).
  - rewrite sum_swap. apply sum_ext. intros k Hk.
    apply (sum_delta m (nth k l 0%nat) (fun i => g k * f i)). apply H, nth_In. auto.
  - intros i Hi. rewrite <- sum_scal_r. apply sum_ext. intros k Hk. destruct (i =? nth k l 0)%nat; rring.
Qed.
Lemma list_delta_at (l : list nat) (g : nat -> R) k : NoDup l -> (k < length l)%nat ->
  rsum (length l) (fun j => if (nth k l 0 =? nth j l 0)%nat then g j else 0) = g k.
Proof.
  intros HN Hk. rewrite (sum_ext _ _ (fun j => if (j =? k)%nat then g j else 0)).
  - apply sum_delta; auto.
  - intros j Hj. destruct (Nat.eqb_spec j k) as [->|Hne]; [rewrite Nat.eqb_refl; auto|].
    destruct (Nat.eqb_spec (nth k l 0%nat) (nth j l 0%nat)) as [E|]; auto.
    exfalso. apply Hne. symmetry. eapply NoDup_nth; eauto.
Qed.

Lemma msign_inv st v : msign st (msign st v) = v.
Proof. destruct st; simpl; lra. Qed.
Lemma nsign_m pb i st c a : st <> INACTIVE -> c * nsign pb i st a = - (msign st c * cvec pb i a).
Proof. intros H. unfold nsign, msign. destruct st; try congruence; rring. Qed.

Lemma indep_list pb (w : nat -> status) l : indep_set pb w -> NoDup l -> (forall i, In i l -> (i < ncb pb)%nat /\ w i <> INACTIVE) ->
  independent (nv pb) (length l) (fun k => nsign pb (nth k l 0%nat) (w (nth k l 0%nat))).
Proof.
  intros HI HN Hl c Hc k Hk.
  set (g := fun k => msign (w (nth k l 0%nat)) (c k)).
  set (d := fun i => rsum (length l) (fun k => if (i =? nth k l 0)%nat then g k else 0)).
  assert (Hd : forall a, (a < nv pb)%nat -> rsum (ncb pb) (fun i => if isact (w i) then d i * cvec pb i a else 0) = 0).
  { intros a Ha. rewrite (sum_ext _ _ (fun i => d i * cvec pb i a)).
    - unfold d. rewrite (list_sum_delta l g (fun i => cvec pb i a)) by apply Hl.
      specialize (Hc a Ha). rewrite (sum_ext _ _ (fun k => - (g k * cvec pb (nth k l 0%nat) a))) in Hc.
      + rewrite sum_opp in Hc. lra.
      + intros j Hj. unfold g. apply nsign_m. apply Hl, nth_In. auto.
    - intros i Hi. unfold isact. destruct (status_eqb_spec (w i) INACTIVE) as [E|]; simpl; auto.
      unfold d. rewrite sum_zero; [rring|]. intros j Hj. destruct (Nat.eqb_spec i (nth j l 0%nat)) as [->|]; auto.
      exfalso. apply (Hl (nth j l 0%nat)); auto. apply nth_In. auto. }
  assert (Hin : In (nth k l 0%nat) l) by (apply nth_In; auto). destruct (Hl _ Hin) as [Hi Hw].
  pose proof (HI d Hd _ Hi Hw) as E. unfold d in E. rewrite (list_delta_at l g k) in E by auto.
  unfold g in E. rewrite <- (msign_inv (w (nth k l 0%nat)) (c k)), E. unfold msign. destruct (w _); lra.
Qed.

(** ** Uniqueness of the point defined by a set of independent tight constraints *)
Lemma point_unique pb q (N : nat -> rvec) (x y u v : rvec) : posdef (nv pb) (hess pb) -> independent (nv pb) q N ->
  (forall k, (k < q)%nat -> rdot (nv pb) (N k) x = rdot (nv pb) (N k) y) ->
  (forall a, (a < nv pb)%nat -> gradient pb x a = rsum q (fun k => u k * N k a)) ->
  (forall a, (a < nv pb)%nat -> gradient pb y a = rsum q (fun k => v k * N k a)) ->
  (forall a, (a < nv pb)%nat -> x a = y a) /\ (forall k, (k < q)%nat -> u k = v k).
Proof.
  intros HP HI HT Hx Hy. set (e := fun a => x a - y a).
  assert (HG : forall a, (a < nv pb)%nat -> rsum (nv pb) (fun j => hess pb a j * e j) = rsum q (fun k => (u k - v k) * N k a)).
  { intros a Ha. specialize (Hx a Ha). specialize (Hy a Ha). unfold gradient in Hx, Hy.
    rewrite (sum_ext (nv pb) _ (fun j => hess pb a j * x j - hess pb a j * y j)) by (intros; unfold e; rring).
    rewrite (sum_ext q _ (fun k => u k * N k a - v k * N k a)) by (intros; rring). rewrite !sum_minus. lra. }
  assert (HE : forall k, (k < q)%nat -> rdot (nv pb) (N k) e = 0).
  { intros k Hk. specialize (HT k Hk). rewrite dot_def in *. rewrite (dot_def (nv pb) (N k) y) in HT.
    rewrite (sum_ext _ _ (fun a => N k a * x a - N k a * y a)) by (intros; unfold e; rring). rewrite sum_minus. lra. }
  assert (HQ : quad (nv pb) (hess pb) e = 0).
  { unfold quad. rewrite (sum_ext _ _ (fun a => (rsum q (fun k => (u k - v k) * N k a)) * e a)) by (intros; rewrite HG by auto; rring).
    change (rdot (nv pb) (fun a => rsum q (fun k => (u k - v k) * N k a)) e = 0) || rewrite <- dot_def.
    rewrite (rdot_sum (nv pb) q (fun k => u k - v k) N _ e) by auto. apply sum_zero. intros k Hk. rewrite HE by auto. rring. }
  assert (He : forall a, (a < nv pb)%nat -> e a = 0).
  { intros a Ha. destruct (Req_dec (e a) 0) as [|Hne]; auto. exfalso.
    specialize (HP e (ex_intro _ a (conj Ha Hne))). rewrite HQ in HP. lra. }
  split.
  - intros a Ha. specialize (He a Ha). unfold e in He. lra.
  - intros k Hk. assert (u k - v k = 0); [|lra]. apply (HI (fun k => u k - v k)); auto.
    intros a Ha. rewrite <- HG by auto. apply sum_zero. intros j Hj. rewrite He by auto. rring.
Qed.

(** the gradient as a combination of the normals of the active constraints *)
Lemma opt_gradient pb s xs lam : shape pb s -> kkt pb xs lam -> optimal_set pb xs lam (stt (s_A s)) ->
  forall a, (a < nv pb)%nat -> gradient pb xs a = rsum (nact (s_A s)) (fun k => msign (stt (s_A s) (act (s_A s) k)) (lam (act (s_A s) k)) * Nact pb (s_A s) k a).
Proof.
  intros HS HK HO a Ha. assert (Hnb : (nb pb <= nv pb)%nat) by apply sizes_nb, HS.
  pose proof (kkt_stat _ _ _ HK a Ha) as H1. rewrite Rplus_assoc in H1. rewrite <- (cvec_sum pb lam a) in H1 by auto.
  assert (E : rsum (ncb pb) (fun i => lam i * cvec pb i a) = rsum (nact (s_A s)) (fun k => lam (act (s_A s) k) * cvec pb (act (s_A s) k) a)).
  { rewrite <- (sum_act pb s (fun k => lam (act (s_A s) k)) (fun i => cvec pb i a) HS). apply sum_ext. intros i Hi. f_equal.
    destruct (status_eqb_spec (stt (s_A s) i) INACTIVE) as [Ei|Ei].
    - specialize (HO i Hi). rewrite Ei in HO. rewrite HO. symmetry. apply sum_zero. intros k Hk.
      destruct (Nat.eqb_spec i (act (s_A s) k)) as [->|]; [exact HO|auto].
    - destruct (act_surj pb s i HS Ei) as (k & Hk & <-).
      rewrite (sum_ext _ _ (fun j => if (j =? k)%nat then lam (act (s_A s) j) else 0)).
      + rewrite (sum_delta _ k (fun j => lam (act (s_A s) j))) by auto. auto.
      + intros j Hj. destruct (Nat.eqb_spec j k) as [->|Hne]; [rewrite Nat.eqb_refl; auto|].
        destruct (Nat.eqb_spec (act (s_A s) k) (act (s_A s) j)) as [Ea|]; auto. apply (act_inj pb s) in Ea; auto. congruence. }
  rewrite E in H1. assert (H2 : gradient pb xs a = - rsum (nact (s_A s)) (fun k => lam (act (s_A s) k) * cvec pb (act (s_A s) k) a)) by lra.
  rewrite H2, <- sum_opp. apply sum_ext. intros k Hk. destruct (act_props pb s k HS Hk) as (_ & Hne & _).
  unfold Nact. rewrite nsign_m by auto. rewrite msign_inv. auto.
Qed.
Lemma opt_tight pb s xs lam k : shape pb s -> feasible pb xs -> optimal_set pb xs lam (stt (s_A s)) -> (k < nact (s_A s))%nat ->
  Bact pb (s_A s) k = Some (rdot (nv pb) (Nact pb (s_A s) k) xs).
Proof.
  intros HS HF HO Hk. destruct (act_props pb s k HS Hk) as (Hi & Hne & _). specialize (HO _ Hi).
  assert (Hnb : (nb pb <= nv pb)%nat) by apply sizes_nb, HS.
  pose proof (proj1 (feasible_iff pb xs Hnb) HF _ Hi) as [F1 F2].
  unfold Bact, Nact, nrhs, nsign. set (i := act (s_A s) k) in *.
  destruct (stt (s_A s) i); try congruence.
  - apply HO.
  - destruct HO as [_ ->]. simpl. rewrite rdot_opp. auto.
  - destruct HO as (b & E1 & E2). rewrite E1, E2 in *. simpl in *. f_equal. lra.
  - apply HO.
  - destruct HO as [_ ->]. simpl. rewrite rdot_opp. auto.
  - destruct HO as (b & E1 & E2). rewrite E1, E2 in *. simpl in *. f_equal. lra.
Qed.

Lemma filter_len_id {X} (p : X -> bool) l : length (filter p l) = length l -> filter p l = l.
Proof.
  induction l as [|a l IH]; simpl; auto. destruct (p a); simpl; intros H; [f_equal; auto|].
  exfalso. pose proof (filter_split_le p l) as Hl. lia.
Qed.
Lemma start_list_initial pb o ws l : (length (rinitial pb o ws) <= nv pb)%nat -> start_list pb o ws l -> l = rinitial pb o ws.
Proof.
  intros Hle ((k & ->) & Hlen). rewrite Nat.min_r in Hlen by auto. unfold kept in *.
  rewrite <- (firstn_skipn k (rinitial pb o ws)) in Hlen at 3. rewrite !app_length in Hlen.
  rewrite filter_len_id by lia. apply firstn_skipn.
Qed.

(** ** The call *)
Section Hot.
Variables (junk : vec Rops) (pb : rproblem) (o : ropt) (ws : list status) (x : rxsol) (xs lam : rvec).
Let ws' := ws_eff Rops junk pb o ws x.
Hypothesis HH : xhistory Rops x.
Hypothesis Hargs : args_ok Rops pb o ws = true.
Hypothesis Hkind : forallb (kind1 Rops pb o ws') (order Rops pb) = true.
Hypothesis HPd : posdef (nv pb) (hess pb).
Hypothesis HK : kkt pb xs lam.
Hypothesis HO : optimal_set pb xs lam (rwanted pb o ws').
Hypothesis Hlen : (length (rinitial pb o ws') <= nv pb)%nat.
Hypothesis Hind : indep_set pb (rwanted pb o ws').
Hypothesis Hqr : exact_qr pb o ws'.
Hypothesis Hmax : (1 <= o_maxIter o)%nat.

Lemma hot_posed : well_posed pb o ws'.
Proof.
  intros l Hl. apply start_list_initial in Hl; auto. subst l. unfold wnormal. apply indep_list; auto.
  - apply NoDup_filter'. unfold order.
    apply (Permutation_NoDup (Permutation_app_comm (seq 0 (gc_ Rops pb)) (seq (gc_ Rops pb) (gb Rops pb)))).
    rewrite <- seq_app. apply seq_NoDup.
  - intros i Hi. apply initial_in in Hi. auto.
Qed.
Lemma hot_eq : forall i, (i < ncb pb)%nat -> isEq (rwanted pb o ws' i) = true -> is_equality pb i.
Proof. intros i Hi He. specialize (HO i Hi). destruct (rwanted pb o ws' i); try discriminate; auto. Qed.

Lemma hot_neq : (n_eq Rops pb o ws' <= nv pb)%nat.
Proof.
  unfold n_eq. etransitivity; [|exact Hlen]. unfold initial.
  rewrite (filter_ext_in' (fun i => isEq (rwanted pb o ws' i)) (fun i => isact (rwanted pb o ws' i) && isEq (rwanted pb o ws' i))).
  - rewrite <- filter_filter. apply filter_split_le.
  - intros i Hi. destruct (rwanted pb o ws' i); auto.
Qed.

Lemma hot_start : exists x', xgi_solve junk pb o ws x = Ok (SUCCESS, x') /\ iterations (x_s x') = 0%nat /\ shape pb (x_s x') /\
  (forall i, (i < nv pb)%nat -> xof (x_s x') i = xs i) /\ (forall i, (i < ncb pb)%nat -> nth i (activeSet (x_s x')) INACTIVE = rwanted pb o ws' i) /\
  (forall m, is_mult pb (x_s x') (uof (x_s x')) m -> forall i, (i < ncb pb)%nat -> m i = lam i).
Proof.
  pose proof (xhist_wf Rops x real_safe HH) as HW.
  assert (HE : eq_lo Rops pb ws').
  { intros i Hi. pose proof (HO i) as HOi. unfold wanted in HOi.
    destruct (geq_spec pb i) as [Hq|Hq]; [destruct Hq as (b & E & _); change (glo Rops pb i) with (clo pb i); congruence|].
    assert (Hw : warm_on Rops o ws' = true).
    { unfold warm_on. unfold ws', ws_eff in Hi |- *. destruct (o_warm o); [|destruct i; discriminate Hi].
      destruct (if is_nil ws then _ else ws); [destruct i; discriminate Hi|reflexivity]. }
    rewrite Hw, Hi in HOi. cbn [beyond] in HOi.
    destruct (Nat.lt_ge_cases i (ncb pb)) as [Hlt|Hge].
    - destruct (HOi Hlt) as (b & E & _). change (glo Rops pb i) with (clo pb i). congruence.
    - exfalso. pose proof (ws_eff_size Rops junk pb o ws x HW Hargs Hw) as Hs. fold ws' in Hs.
      rewrite nth_overflow in Hi; [discriminate|]. change (gcb Rops pb) with (ncb pb) in Hs. lia. }
  pose proof (xsolve Rops junk pb o ws x real_safe (leb_refl_R _) HW Hargs (or_introl HE)) as HX. cbv zeta in HX. fold ws' in HX.
  rewrite Hkind in HX. cbn [negb] in HX. change (gn Rops pb) with (nv pb) in HX.
  pose proof hot_neq as Hn. destruct (Nat.ltb_spec (nv pb) (n_eq Rops pb o ws')); [lia|].
  assert (Hl : fst (@llt Rops (nv pb) (p_G pb)) = None) by (apply llt_iff; exact HPd).
  rewrite Hl in HX. destruct HX as (x4 & x5 & x6 & x0 & HXI & Hbeg & E).
  destruct (xinits_pointed _ _ _ _ _ _ _ HXI Hl hot_posed Hqr) as [HP6 EA6].
  pose proof (xi_A _ _ _ _ _ _ _ _ HXI) as HA4.
  assert (EL : a_active (s_A (x_s x4)) = rinitial pb o ws') by (destruct (pk_list _ _ _ _ _ HA4) as (k & _ & HL); apply HL; exact Hlen).
  assert (Hst : forall i, (i < ncb pb)%nat -> stt (s_A (x_s x6)) i = rwanted pb o ws' i).
  { intros i Hi. rewrite EA6, (pk_stt _ _ _ _ _ HA4), EL. destruct (existsb (Nat.eqb i) (rinitial pb o ws')) eqn:Ex; auto.
    destruct (status_eqb_spec (rwanted pb o ws' i) INACTIVE) as [Ei|Ei]; auto. exfalso.
    apply Bool.not_true_iff_false in Ex. apply Ex, existsb_exists. exists i. split; [apply initial_in; auto|apply Nat.eqb_refl]. }
  assert (HO6 : optimal_set pb xs lam (stt (s_A (x_s x6)))) by (intros i Hi; rewrite Hst by auto; apply HO; auto).
  assert (HP : pinv pb (x_s x6)).
  { apply pointed_pinv; auto. intros i Hi He. rewrite Hst in He by auto. apply hot_eq; auto. }
  pose proof (pi_shape _ _ HP) as HS6.
  assert (HI6 : independent (nv pb) (nact (s_A (x_s x6))) (Nact pb (s_A (x_s x6)))).
  { rewrite EA6, nact_length by apply HA4. eapply independent_ext; [|apply (hot_posed (a_active (s_A (x_s x4))))].
    - intros k a Hk Ha. rewrite (pia_Nact pb o ws'); auto. rewrite nact_length by apply HA4. auto.
    - apply pia_start_list. exact HA4. }
  destruct (point_unique pb (nact (s_A (x_s x6))) (Nact pb (s_A (x_s x6))) (xof (x_s x6)) xs (uof (x_s x6))
      (fun k => msign (stt (s_A (x_s x6)) (act (s_A (x_s x6)) k)) (lam (act (s_A (x_s x6)) k))) HPd HI6) as [Hx Hu].
  { intros k Hk. pose proof (pt_tight _ _ HP6 k Hk) as T1. rewrite (opt_tight pb (x_s x6) xs lam k HS6 (kkt_feas _ _ _ HK) HO6 Hk) in T1. congruence. }
  { intros a Ha. rewrite (ds_grad _ _ _ (pt_stat _ _ HP6) a Ha). rring. }
  { apply (opt_gradient pb (x_s x6) xs lam HS6 HK HO6). }
  destruct (drop_pointed pb _ x6 x0 HP6 (xi_0 _ _ _ _ _ _ _ _ HXI)) as (_ & _ & Hno).
  assert (Ex0 : x0 = x6).
  { apply Hno. intros k Hk He. rewrite Hu by auto. pose proof eps_gt0. destruct (act_props pb (x_s x6) k HS6 Hk) as (Hi & Hne & _).
    specialize (HO6 _ Hi). destruct (stt (s_A (x_s x6)) (act (s_A (x_s x6)) k)); simpl in *; try congruence; try discriminate; lra. }
  subst x0.
  assert (It : s_it (x_s x6) = 0%nat).
  { rewrite (kp_it _ _ _ (xi_k6 _ _ _ _ _ _ _ _ HXI)), (kp_it _ _ _ (xi_k5 _ _ _ _ _ _ _ _ HXI)). apply HXI. }
  assert (HL : linv pb (start (x_s x6))) by (split; simpl; auto; discriminate).
  assert (Hnb : (nb pb <= nv pb)%nat) by apply sizes_nb, HS6.
  assert (EI : iter pb o (start (x_s x6)) = Ok (Stop SUCCESS (x_s x6))).
  { destruct (iter_spec pb o _ HL) as (out & Eo & HC). rewrite Eo. f_equal.
    destruct HC as [smin sc Hsk HI Hst'|sc b s1 t1 i out' Es Ec Hsel Hb Hs HS HL1 HC]; auto. exfalso.
    destruct Hsel as [V1 V2 V3 (b' & Vb & Vlt)]. rewrite enter_x in Vlt. simpl in Vlt.
    assert (HF : feasible pb (xof (x_s x6))).
    { apply (feasible_ext pb xs); auto; [intros; symmetry; apply Hx; auto|apply HK]. }
    pose proof (signed_feasible pb (sc_idx sc) (sc_st sc) b' (xof (x_s x6))) as HSF. unfold scb, scn in *.
    assert (b' <= rdot (nv pb) (nsign pb (sc_idx sc) (sc_st sc)) (xof (x_s x6))); [|lra]. apply HSF; auto. apply V1. }
  rewrite It, Nat.sub_0_r in E. destruct (o_maxIter o) as [|f] eqn:Ef; [lia|]. cbn [loop] in E.
  change (L (x_s x6) false (SC 0 INACTIVE)) with (start (x_s x6)) in E. rewrite EI in E. cbn [bind fst snd] in E.
  exists (xset_s x6 (x_s x6)). split; [exact E|]. cbn [x_s xset_s]. split; [exact It|]. split; [exact HS6|]. split; [exact Hx|]. split; [exact Hst|].
  intros m [Ma Mz] i Hi. destruct (status_eqb_spec (stt (s_A (x_s x6)) i) INACTIVE) as [Ei|Ei].
  - rewrite (Mz i Ei). specialize (HO6 i Hi). rewrite Ei in HO6. symmetry. exact HO6.
  - destruct (act_surj pb (x_s x6) i HS6 Ei) as (k & Hk & <-). rewrite (Ma k Hk), (Hu k Hk). apply msign_inv.
Qed.
End Hot.

(** ** In terms of the arguments of the call *)
Record active_set_at (pb : rproblem) (o : ropt) (ws : list status) (xs lam : rvec) : Prop := {
  aa_len : length ws = ncb pb;
  aa_kind : forall i, (i < ncb pb)%nat -> nth i ws INACTIVE <> INACTIVE -> kind_ok (nc pb) i (nth i ws INACTIVE) = true;
  aa_opt : optimal_set pb xs lam (fun i => nth i ws INACTIVE);
  aa_eq : forall i, (i < ncb pb)%nat -> is_equality pb i -> nth i ws INACTIVE <> INACTIVE;
  aa_indep : indep_set pb (fun i => nth i ws INACTIVE);
  aa_num : (length (filter (fun i => isact (nth i ws INACTIVE)) (seq 0 (ncb pb))) <= nv pb)%nat
}.
(** the finite sides of the constraints are within [-bigBnd, bigBnd] *)
Definition moderate (pb : rproblem) (o : ropt) : Prop :=
  forall i b, (i < ncb pb)%nat -> clo pb i = Some b \/ cup pb i = Some b -> - o_bigBnd o <= b <= o_bigBnd o.

Lemma kind_int n i st : kind_ok n i st = true -> if (i <? n)%nat then (status_int st <=? 3)%nat = true else (4 <=? status_int st)%nat = true.
Proof. intros H. apply kind_ok_spec in H. unfold general_status, bound_status in H. destruct (Nat.ltb_spec i n); destruct st; simpl in *; auto; intuition (try lia; try discriminate). Qed.

Lemma aa_wanted pb o ws xs lam i : active_set_at pb o ws xs lam -> moderate pb o -> o_warm o = true -> ws <> [] -> (i < ncb pb)%nat ->
  rwanted pb o ws i = nth i ws INACTIVE \/ is_equality pb i.
Proof.
  intros [A1 A2 A3 A4 A5 A6] Hm Ho Hne Hi. destruct (geq_spec pb i) as [Hq|Hq]; auto. left.
  unfold wanted. destruct (geq_spec pb i) as [|_]; [contradiction|].
  assert (Hw : warm_on Rops o ws = true) by (unfold warm_on; rewrite Ho; destruct ws; [congruence|reflexivity]).
  rewrite Hw. specialize (A3 i Hi). cbn beta in A3.
  assert (HL : forall v, clo pb i = Some v -> lo_inf (S:=Rops) (o_bigBnd o) (glo Rops pb i) = false).
  { intros v Hv. change (glo Rops pb i) with (clo pb i). rewrite Hv. unfold lo_inf. rops. apply Rltb_false. destruct (Hm i v Hi); auto; lra. }
  assert (HU : forall v, cup pb i = Some v -> up_inf (S:=Rops) (o_bigBnd o) (gup Rops pb i) = false).
  { intros v Hv. change (gup Rops pb i) with (cup pb i). rewrite Hv. unfold up_inf. rops. apply Rltb_false. destruct (Hm i v Hi); auto; lra. }
  destruct (nth i ws INACTIVE); cbn [beyond]; auto; try (exfalso; apply Hq; exact A3); destruct A3 as [_ A3];
    first [rewrite (HL _ A3); reflexivity | rewrite (HU _ A3); reflexivity].
Qed.

Lemma filter_len_perm (p : nat -> bool) a b : length (filter p (seq b a ++ seq 0 b)) = length (filter p (seq 0 (b + a))).
Proof. rewrite seq_app. simpl. rewrite !filter_app, !app_length. lia. Qed.

Lemma hot_restart junk pb o ws0 ws x xs lam : xhistory Rops x -> args_ok Rops pb o ws0 = true -> o_warm o = true ->
  ws_eff Rops junk pb o ws0 x = ws -> (1 <= o_maxIter o)%nat ->
  posdef (nv pb) (hess pb) -> kkt pb xs lam -> active_set_at pb o ws xs lam -> moderate pb o -> exact_qr pb o ws ->
  exists x', xgi_solve junk pb o ws0 x = Ok (SUCCESS, x') /\ iterations (x_s x') = 0%nat /\ shape pb (x_s x') /\
    (forall i, (i < nv pb)%nat -> xof (x_s x') i = xs i) /\
    (forall i, (i < ncb pb)%nat -> nth i (activeSet (x_s x')) INACTIVE = if eqb_c pb i then eqstat pb i else nth i ws INACTIVE) /\
    (forall m, is_mult pb (x_s x') (uof (x_s x')) m -> forall i, (i < ncb pb)%nat -> m i = lam i).
Proof.
  intros HH Hargs Ho Ews Hmax HPd HK HA Hm Hq. pose proof HA as [A1 A2 A3 A4 A5 A6].
  assert (Hne : forall i, (i < ncb pb)%nat -> ws <> []) by (intros i Hi ->; simpl in A1; lia).
  assert (Hact : forall i, (i < ncb pb)%nat -> isact (rwanted pb o ws i) = isact (nth i ws INACTIVE)).
  { intros i Hi. destruct (aa_wanted pb o ws xs lam i HA Hm Ho (Hne i Hi) Hi) as [->|He]; auto.
    rewrite wanted_equality by auto. pose proof (A4 i Hi He) as Hn. unfold isact. destruct (status_eqb_spec (nth i ws INACTIVE) INACTIVE); [contradiction|].
    unfold eqstat. destruct (i <? nc pb)%nat; auto. }
  assert (HL : length (rinitial pb o ws) = length (filter (fun i => isact (nth i ws INACTIVE)) (seq 0 (ncb pb)))).
  { unfold initial, order. change (gc_ Rops pb) with (nc pb). change (gb Rops pb) with (nb pb). rewrite filter_len_perm.
    f_equal. apply filter_ext_in'. intros i Hi. apply in_seq in Hi. apply Hact. lia. }
  destruct (hot_start junk pb o ws0 x xs lam) as (x' & E & R1 & R2 & R3 & R4 & R5); rewrite ?Ews; auto.
  - apply forallb_forall. intros i Hi. apply order_lt in Hi. unfold kind1. destruct (geq Rops pb i); auto.
    assert (Hw : warm_on Rops o ws = true) by (unfold warm_on; rewrite Ho; specialize (Hne i Hi); destruct ws; [congruence|reflexivity]).
    rewrite Hw. cbn [negb orb]. unfold isact. destruct (status_eqb_spec (nth i ws INACTIVE) INACTIVE) as [|Hn]; auto.
    cbn [negb orb]. pose proof (kind_int _ _ _ (A2 i Hi Hn)) as Hk. change (gc_ Rops pb) with (nc pb). destruct (i <? nc pb)%nat; auto.
  - intros i Hi. destruct (aa_wanted pb o ws xs lam i HA Hm Ho (Hne i Hi) Hi) as [->|He]; [apply A3; auto|].
    rewrite wanted_equality by auto. unfold eqstat. destruct (i <? nc pb)%nat; auto.
  - rewrite HL. auto.
  - intros c Hc i Hi Hn. apply (A5 c); auto.
    + intros a Ha. eapply eq_trans; [|exact (Hc a Ha)]. apply sum_ext. intros j Hj. rewrite Hact by auto. auto.
    + intros E. specialize (Hact i Hi). rewrite E in Hact. unfold isact in Hact. simpl in Hact. destruct (status_eqb_spec (rwanted pb o ws i) INACTIVE); [contradiction|discriminate].
  - exists x'. split; [exact E|]. split; [exact R1|]. split; [exact R2|]. split; [exact R3|]. split; [|exact R5].
    intros i Hi. rewrite R4 by auto. rewrite Ews. destruct (eqb_c_spec pb i) as [He|He]; [apply wanted_equality; auto|].
    destruct (aa_wanted pb o ws xs lam i HA Hm Ho (Hne i Hi) Hi) as [->|]; auto; contradiction.
Qed.

(** ** The final active set of a successful call *)
Lemma qr_independent n q J Rm N : qr n q J Rm N -> independent n q N.
Proof.
  intros HQ c Hc. apply (upper_inj q Rm c).
  - intros i Hi. apply (qr_diag _ _ _ _ _ HQ). auto.
  - intros i Hi. pose proof (qr_le _ _ _ _ _ HQ).
    assert (E : tdot n J i (fun a => rsum q (fun k => c k * N k a)) = 0).
    { unfold tdot. apply sum_zero. intros a Ha. rewrite Hc by auto. rring. }
    rewrite tdot_comb in E. rewrite <- E. apply sum_ext. intros k Hk. unfold upper.
    destruct (Nat.leb_spec i k); [rewrite (qr_up _ _ _ _ _ HQ) by auto|rewrite (qr_zero _ _ _ _ _ HQ) by lia]; rring.
Qed.

Lemma active_indep pb s : pinv pb s -> indep_set pb (stt (s_A s)).
Proof.
  intros HP c Hc i Hi Hn. pose proof (pi_shape _ _ HP) as HS. destruct (act_surj pb s i HS Hn) as (k & Hk & <-).
  pose proof (qr_independent _ _ _ _ _ (pi_qr _ _ HP)) as HI.
  set (d := fun k => msign (stt (s_A s) (act (s_A s) k)) (c (act (s_A s) k))).
  assert (Hd : d k = 0).
  { apply (HI d); auto. intros a Ha. specialize (Hc a Ha).
    rewrite (sum_ext _ _ (fun k => - (c (act (s_A s) k) * cvec pb (act (s_A s) k) a))).
    - rewrite sum_opp, <- (sum_act pb s (fun k => c (act (s_A s) k)) (fun i => cvec pb i a) HS).
      rewrite (sum_ext (ncb pb) _ (fun i => if isact (stt (s_A s) i) then c i * cvec pb i a else 0)); [rewrite Hc; rring|].
      intros j Hj. unfold isact. destruct (status_eqb_spec (stt (s_A s) j) INACTIVE) as [Ej|Ej]; simpl.
      + rewrite sum_zero; [rring|]. intros k' Hk'. destruct (Nat.eqb_spec j (act (s_A s) k')) as [->|]; auto.
        destruct (act_props pb s k' HS Hk') as (_ & Hne & _). congruence.
      + destruct (act_surj pb s j HS Ej) as (k' & Hk' & <-). f_equal.
        rewrite (sum_ext _ _ (fun j => if (j =? k')%nat then c (act (s_A s) j) else 0)).
        * rewrite (sum_delta _ k' (fun j => c (act (s_A s) j))) by auto. auto.
        * intros m Hm. destruct (Nat.eqb_spec m k') as [->|Hne]; [rewrite Nat.eqb_refl; auto|].
          destruct (Nat.eqb_spec (act (s_A s) k') (act (s_A s) m)) as [Ea|]; auto. apply (act_inj pb s) in Ea; auto. congruence.
    - intros k' Hk'. destruct (act_props pb s k' HS Hk') as (_ & Hne & _). unfold d, Nact. rewrite nsign_m by auto. rewrite msign_inv. auto. }
  unfold d in Hd. rewrite <- (msign_inv (stt (s_A s) (act (s_A s) k)) (c (act (s_A s) k))), Hd. unfold msign. destruct (stt _ _); lra.
Qed.

Lemma nact_filter pb s : shape pb s -> length (filter (fun i => isact (stt (s_A s) i)) (seq 0 (ncb pb))) = nact (s_A s).
Proof.
  intros HS. rewrite nact_length by apply HS. apply Permutation_length. apply NoDup_Permutation.
  - apply NoDup_filter', seq_NoDup.
  - apply (sh_good _ _ HS).
  - intros i. rewrite filter_In, in_seq, (good_in _ i (sh_good _ _ HS)). unfold nbAll. rewrite (sh_nc _ _ HS), (sh_nb _ _ HS). fold (ncb pb).
    unfold isact. split; intros [H1 H2]; (split; [lia|]); destruct (status_eqb_spec (stt (s_A s) i) INACTIVE); simpl in *; congruence.
Qed.

Lemma final_active_set pb o e s lam : pinv pb s -> dinv pb s None -> ali pb e (s_A s) -> eq_first pb e -> feasible pb (xof s) -> is_mult pb s (uof s) lam ->
  active_set_at pb o (activeSet s) (xof s) lam /\ (forall i, (i < ncb pb)%nat -> is_equality pb i -> nth i (activeSet s) INACTIVE = eqstat pb i).
Proof.
  intros HP HD HAl He HF HM. pose proof (pi_shape _ _ HP) as HS.
  assert (En : forall i, nth i (activeSet s) INACTIVE = stt (s_A s) i) by reflexivity.
  assert (Hact : forall i, stt (s_A s) i <> INACTIVE -> exists k, (k < nact (s_A s))%nat /\ act (s_A s) k = i) by (intros; apply (act_surj pb); auto).
  split; [|intros i Hi Hq; rewrite En; apply He in Hq; auto; destruct (al_pre _ _ _ HAl i Hq) as [_ H];
    assert (Hn : stt (s_A s) i <> INACTIVE) by (intros E; rewrite E in H; discriminate);
    destruct (Hact i Hn) as (k & Hk & Ek); pose proof (proj2 (proj2 (act_props pb s k HS Hk))) as HKd; rewrite Ek in HKd;
    unfold eqstat; destruct (stt (s_A s) i); simpl in H; try discriminate H; simpl in HKd; destruct (i <? nc pb)%nat; simpl in HKd; auto; discriminate HKd].
  split.
  - apply (shape_status_len pb s HS).
  - intros i Hi. rewrite En. intros Hn. destruct (Hact i Hn) as (k & Hk & <-). apply (act_props pb s k HS Hk).
  - intros i Hi. cbn beta. rewrite En.
    destruct (status_eqb_spec (stt (s_A s) i) INACTIVE) as [E|E]; [rewrite E; apply (im_zero _ _ _ _ HM); auto|].
    destruct (Hact i E) as (k & Hk & Ek). pose proof (tight_value pb s k HP Hk) as HT. pose proof (di_pos _ _ _ HD k Hk) as Hpos.
    pose proof (im_act _ _ _ _ HM k Hk) as Hl. pose proof (pi_eqst _ _ HP i Hi) as Heq. rewrite Ek in *. simpl in HT.
    destruct (stt (s_A s) i); simpl in *; try congruence; auto; try (specialize (Hpos eq_refl)); (split; [lra|auto]).
  - intros i Hi Hq. rewrite En. apply He in Hq; auto. destruct (al_pre _ _ _ HAl i Hq) as [_ H]. intros E. rewrite E in H. discriminate.
  - apply (active_indep pb s HP).
  - pose proof (nact_filter pb s HS) as HNF. change (fun i => isact (nth i (activeSet s) INACTIVE)) with (fun i => isact (stt (s_A s) i)). rewrite HNF. apply (qr_le _ _ _ _ _ (pi_qr _ _ HP)).
Qed.

(** After a successful call of the dense solver *)
Lemma solved_active_set junk pb o o' s s' x lam s'' : history Rops s -> gi_solve junk pb o s = Ok (SUCCESS, s') -> solution s' = Ok x ->
  multipliers s' = Ok (lam, s'') -> ordered pb -> eq_separated pb -> equalities_first pb -> exact_tests junk pb o s ->
  active_set_at pb o' (activeSet s') (vec_of x) (vec_of lam) /\ (forall i, (i < ncb pb)%nat -> is_equality pb i -> nth i (activeSet s') INACTIVE = eqstat pb i).
Proof.
  intros HH E Ex Em Hord Hsep Hfirst Hcalm. destruct (equalities_first_ex pb Hfirst) as (e & Hle & He).
  pose proof (solve_ended _ _ _ _ _ _ HH E Hsep) as HE.
  destruct (solution_spec pb s' x (ended_shape _ _ _ _ _ _ HE) Ex) as [_ Hx].
  inversion HE as [| |s0 k l Hb H0 Hk HR HL Hexp HC|]; subst.
  destruct (mult_vec pb (l_s l) lam s'') as (v & HM & Hlam & Hv & _ & _); auto; [apply HL|].
  assert (HFi : finv pb e l).
  { eapply (reach_finv pb o e k (start s0)); eauto; [apply start_finv; auto|].
    intros j l1 Hj HR1. eapply (Hcalm s0 Hb j); eauto. lia. }
  assert (HA : active_set_at pb o' (activeSet (l_s l)) (xof (l_s l)) v /\ (forall i, (i < ncb pb)%nat -> is_equality pb i -> nth i (activeSet (l_s l)) INACTIVE = eqstat pb i)).
  { apply (final_active_set pb o' e); auto; try apply HFi; try apply HL; [|eapply success_feasible; eauto].
    pose proof (fi_dinv _ _ _ HFi) as HD. inversion HC as [smin sc Hsk _ _|]; subst; [rewrite Hsk in HD; auto|].
    exfalso. match goal with H : step2_case _ _ _ _ _ _ _ _ _ |- _ => inversion H end. }
  destruct HA as [[A1 A2 A3 A4 A5 A6] HE2]. split; [|exact HE2]. split; auto.
  intros i Hi. specialize (A3 i Hi). cbn beta in *. rewrite Hv by auto.
  rewrite (dot_ext (nv pb) (cvec pb i) (cvec pb i) (vec_of x) (xof (l_s l))) by auto. exact A3.
Qed.

(** After a successful call of the warm-startable solver *)
Lemma xsolved_active_set junk pb o o' ws x x' v lam s'' : xhistory Rops x -> xgi_solve junk pb o ws x = Ok (SUCCESS, x') -> solution (x_s x') = Ok v ->
  multipliers (x_s x') = Ok (lam, s'') -> warm_ok junk pb o ws x -> ordered pb -> equalities_first pb ->
  bounds_later pb o (ws_eff Rops junk pb o ws x) -> xexact_tests junk pb o ws x ->
  active_set_at pb o' (activeSet (x_s x')) (vec_of v) (vec_of lam) /\ (forall i, (i < ncb pb)%nat -> is_equality pb i -> nth i (activeSet (x_s x')) INACTIVE = eqstat pb i).
Proof.
  intros HH E Ev Em Hw Hord Hfirst Hb Hex. destruct (equalities_first_ex pb Hfirst) as (e & Hle & He).
  pose proof (xsolve_ended _ _ _ _ _ _ _ HH E Hw) as HE.
  inversion HE as [| |st s' x4 x5 x6 x0 HPd HXI Hbeg HSt Hexp HS HC]; subst st s'.
  destruct (solution_spec pb (x_s x') v HS Ev) as [_ Hx].
  destruct HC as [(H & _)|(k & l & Hk & HR & HL & [(_ & Es & HC)|(H & _)])]; try discriminate.
  destruct (mult_vec pb (x_s x') lam s'') as (w & HM & Hlam & Hv & _ & _); auto.
  assert (HFi : finv pb e l) by (apply (xreach_finv junk pb o ws x e x4 x5 x6 x0 k l); auto; lia).
  rewrite Es in *.
  assert (HA : active_set_at pb o' (activeSet (l_s l)) (xof (l_s l)) w /\ (forall i, (i < ncb pb)%nat -> is_equality pb i -> nth i (activeSet (l_s l)) INACTIVE = eqstat pb i)).
  { apply (final_active_set pb o' e); auto; try apply HFi; try apply HL; [|eapply success_feasible; eauto].
    pose proof (fi_dinv _ _ _ HFi) as HD. inversion HC as [smin sc Hsk _ _|]; subst; [rewrite Hsk in HD; auto|].
    exfalso. match goal with H : step2_case _ _ _ _ _ _ _ _ _ |- _ => inversion H end. }
  destruct HA as [[A1 A2 A3 A4 A5 A6] HE2]. split; [|exact HE2]. split; auto.
  intros i Hi. specialize (A3 i Hi). cbn beta in *. rewrite Hv by auto.
  rewrite (dot_ext (nv pb) (cvec pb i) (cvec pb i) (vec_of v) (xof (l_s l))) by auto. exact A3.
Qed.

(** The statuses a call with an empty vector starts from: those of the object, when the sizes are unchanged *)
Lemma resize_same_AA (S : ops) junk (pb : problem S) (x y : xsol S) : xsh S pb y -> s_n (x_s x) = s_n (x_s y) -> s_A (x_s x) = s_A (x_s y) ->
  activeSet (x_s (xresize junk x (p_Grows pb) (p_Ccols pb) (0 <? p_xlsize pb)%nat)) = activeSet (x_s x).
Proof.
  intros HX XN XA. pose proof (xh_s _ _ _ HX) as HS. unfold xresize, activeSet, resize, resize_p, resize_d. cbn [x_s].
  pose proof (g_n _ _ _ HS) as En. rewrite <- XN in En. unfold gn in En. rewrite En, Nat.eqb_refl. rewrite En, Nat.eqb_refl.
  assert (Eb : (if (0 <? p_xlsize pb)%nat then p_Grows pb else 0%nat) = p_xlsize pb).
  { pose proof (g_sizes _ _ _ HS) as Hs. unfold sizes_ok in Hs. rewrite !andb_true_iff, orb_true_iff, !Nat.eqb_eq in Hs.
    destruct (Nat.ltb_spec 0 (p_xlsize pb)); lia. }
  rewrite Eb. pose proof (g_nc _ _ _ HS) as E1. pose proof (g_nb _ _ _ HS) as E2. rewrite <- XA in E1, E2. unfold gc_, gb in *. unfold nbAll.
  rewrite E1, E2, Nat.eqb_refl. rewrite E1, E2, !Nat.eqb_refl. reflexivity.
Qed.
Lemma resize_same_A (S : ops) junk (pb : problem S) (x : xsol S) : xsh S pb x ->
  activeSet (x_s (xresize junk x (p_Grows pb) (p_Ccols pb) (0 <? p_xlsize pb)%nat)) = activeSet (x_s x).
Proof. intros H. apply (resize_same_AA S junk pb x x); auto. Qed.
Lemma mult_keeps (S : ops) (s : sol S) l s' : multipliers s = Ok (l, s') -> s_n s' = s_n s /\ s_A s' = s_A s.
Proof.
  unfold multipliers. destruct (s_exp s); cbn zeta.
  - intros E. apply bind_ok in E as (t & E1 & E2). apply bind_ok in E1 as (r0 & _ & E1). apply bind_ok in E1 as (u0 & _ & E1).
    apply bind_ok in E1 as (u1 & _ & E1). apply bind_ok in E1 as (u & _ & E1). injection E1 as <-.
    apply bind_ok in E2 as (w & _ & E2). injection E2 as _ <-. split; reflexivity.
  - intros E. cbn [bind] in E. apply bind_ok in E as (w & _ & E). injection E as _ <-. split; reflexivity.
Qed.

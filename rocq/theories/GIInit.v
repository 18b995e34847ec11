(** The initialisation of the dense solver: factorisation of G, unconstrained
    minimiser, activation of the equality constraints. *)
From Coq Require Import List Arith ZArith Lia Bool Reals Lra.
From Verif Require Import Base ActiveSet ActiveSetProofs Num Solver LinAlg QRUpdate QPSpec GIMath GIBase GIInv GIDual GIRun GIOpt GIMult.
Import ListNotations.
Local Open Scope R_scope.

(** ** One equality constraint *)
Definition zeroed (s : rsol) : rsol := set_u s (wset (s_u s) (upd (uof s) (nact (s_A s)) 0)).

Lemma dstat_zeroed pb s sc : dstat pb s None -> dstat pb (zeroed s) (Some sc).
Proof.
  intros [D1 D2]. unfold zeroed. set (q := nact (s_A s)) in *. split; cbn [s_A s_f set_u]; auto.
  intros a Ha. change (xof (set_u s (wset (s_u s) (upd (uof s) q 0)))) with (xof s). rewrite D1 by auto. f_equal.
  - apply sum_ext. intros k Hk. unfold uof at 2. simpl. unfold upd. destruct (Nat.eqb_spec k q); [fold q in Hk; lia|auto].
  - fold q. unfold uof. simpl. unfold upd. rewrite Nat.eqb_refl. rring.
Qed.

(** The normal of the candidate is far enough from the span of the active ones *)
Definition apart (pb : rproblem) (s : rsol) (sc : selcstr) : Prop :=
  forall s1, stepped pb (zeroed s) sc s1 -> eps < znorm pb s1.

Record init_added (pb : rproblem) (s : rsol) (sc : selcstr) (s' : rsol) : Prop := {
  ia_pinv : pinv pb s';
  ia_dstat : dstat pb s None -> dstat pb s' None;
  ia_A : act_added (s_A s) sc (s_A s');
  ia_it : s_it s' = s_it s; ia_exp : s_exp s' = s_exp s; ia_G : s_G s' = s_G s
}.

Lemma addInitial_spec pb s sc : pinv pb s -> sel_valid pb sc -> stt (s_A s) (sc_idx sc) = INACTIVE ->
  isEq (sc_st sc) = true -> is_equality pb (sc_idx sc) -> apart pb s sc ->
  exists s', addInitialConstraint pb s sc = Ok s' /\ init_added pb s sc s'.
Proof.
  intros HP Hv Hin HE (b & Eb1 & Eb2) Hap. pose proof HP as [P1 P2 P3 P4 P5].
  pose proof P1 as [H1 H2 H3 H4 H5 H6 H7 H8 H9 H10 H11 H12].
  assert (Hqlt : (nact (s_A s) < ncb pb)%nat) by (apply (inactive_lt pb s (sc_idx sc)); auto; apply Hv).
  unfold addInitialConstraint. rewrite H5. set (n := nv pb) in *. set (q := nact (s_A s)) in *.
  rewrite getV_ok by auto. cbn [bind]. rewrite getV_ok by auto. cbn [bind].
  rewrite getV_ok by lia. cbn [bind]. rewrite getV_ok by lia. cbn [bind].
  change (set_u s (wset (s_u s) (upd (w_buf (s_u s)) q (zero Rops)))) with (zeroed s).
  assert (HP0 : pinv pb (zeroed s)) by (apply pinv_set_u; auto).
  destruct (computeStep_pinv pb (zeroed s) sc HP0 Hv) as (s1 & E1 & HS1 & Hr).
  assert (HS : stepped pb (zeroed s) sc s1) by (split; auto). clear HS1 Hr.
  rewrite E1. cbn [bind]. rewrite HE. cbn [guard]. rewrite cn_ok_valid by auto. cbn [guard].
  pose proof (Hap _ HS) as Hz. unfold znorm in Hz. fold n in Hz.
  assert (Hnz : 0 < nz pb sc s1) by (apply (nz_pos pb (zeroed s) sc s1); auto; apply HS).
  change (w_buf (s_z s1)) with (zof s1).
  replace (ltb Rops (eps14 Rops) (norm n (zof s1))) with true by (symmetry; apply Rltb_true; exact Hz).
  assert (Hscb : scb pb sc = Some b) by (unfold scb, nrhs; destruct (sc_st sc); try discriminate; auto).
  assert (Hi : (sc_idx sc < ncb pb)%nat) by apply Hv.
  assert (Hnb : (nb pb <= nv pb)%nat) by (apply sizes_nb; auto).
  set (t := t2of pb sc s s1 b).
  assert (Et : (if status_eqb (sc_st sc) EQUALITY then
      match p_bl pb (sc_idx sc) with
      | Some b0 => Ok (div Rops (sub Rops b0 (dot [21%nat; sc_idx sc] n (fun i => p_C pb i (sc_idx sc)) (w_buf (s_x s)))) (dot [22%nat; sc_idx sc] n (fun i => p_C pb i (sc_idx sc)) (zof s1)))
      | None => UB end
    else guard (sc_idx sc - p_Ccols pb <? n)%nat
      match p_xl pb (sc_idx sc - p_Ccols pb)%nat with
      | Some b0 => Ok (div Rops (sub Rops b0 (w_buf (s_x s) (sc_idx sc - p_Ccols pb)%nat)) (zof s1 (sc_idx sc - p_Ccols pb)%nat))
      | None => UB end) = Ok t).
  { destruct Hv as (_ & HK). apply kind_lt in HK. unfold t, t2of, nz, scn, nsign. unfold ncb in Hi.
    unfold clo in Eb1. unfold cvec. change (p_Ccols pb) with (nc pb).
    destruct (sc_st sc); try discriminate; (destruct (Nat.ltb_spec (sc_idx sc) (nc pb)); try lia); simpl.
    - rewrite Eb1. reflexivity.
    - unfold n. destruct (Nat.ltb_spec (sc_idx sc - nc pb) (nv pb)); [|lia]. simpl. rewrite Eb1.
      rewrite !dot_delta by auto. reflexivity. }
  rewrite Et. cbn [bind]. clear Et.
  unfold n. rewrite cn_dot_spec; auto. fold n. cbn [bind]. fold (nz pb sc s1).
  pose proof (st_rel _ _ _ _ HS) as [S1 S2 S3 S4 S5 S6 S7 S8 S9 S10 S11 S12 S13 _].
  rewrite half_R.
  unfold set_u, set_f, set_x. cbn [s_it s_n s_A s_f s_x s_z s_u s_r s_exp s_d s_J s_R s_G]. rewrite ?S5, ?S6, ?S7.
  match goal with |- context[addConstraint ?st sc] => set (s2 := st) end.
  assert (Hmv : moved pb (zeroed s) sc s1 t t s2).
  { unfold s2. rewrite S2, S3, S4, S8, S9, S10, S11. rewrite !vm_id.
    pose proof S1 as [K1 K2 K3 K4 K5 K6 K7 K8 K9 K10 K11 K12].
    unfold zeroed in *. cbn [s_it s_n s_A s_f s_x s_z s_u s_r s_exp s_d s_J s_R s_G set_u].
    split; try reflexivity.
    - split; auto.
    - intros i Hi'. unfold xof at 1. simpl. unfold vhead. fold n in Hi'. destruct (Nat.ltb_spec i n); [auto|lia].
    - intros i. unfold uof at 1. simpl. fold q. unfold uof. simpl. rops.
      destruct (i <? q)%nat eqn:Elt; auto. destruct (Nat.eqb_spec i q) as [->|]; auto. }
  clearbody s2.
  assert (EA2 : s_A s2 = s_A s) by apply Hmv.
  destruct (addConstraint_spec pb s2 sc) as (s' & Ea & Had); auto.
  { apply Hmv. } { rewrite EA2. auto. }
  { rewrite EA2. fold q n. destruct (full_room pb (zeroed s) sc s1 HP0) as (j & Hj1 & Hj2 & _); auto; [apply HS|].
    unfold zeroed in Hj1. cbn [s_A set_u] in Hj1. fold q in Hj1. fold n in Hj2. lia. }
  exists s'. split; auto.
  assert (HP2 : pinv pb s2) by (eapply moved_pinv; eauto).
  assert (Hx : scb pb sc = Some (rdot (nv pb) (scn pb sc) (xof s2))).
  { rewrite Hscb. f_equal. rewrite (rdot_axpy _ _ _ _ _ _ (mv_x _ _ _ _ _ _ _ Hmv)). fold (nz pb sc s1).
    change (xof (zeroed s)) with (xof s). unfold t, t2of. field. lra. }
  split.
  - apply (added_pinv pb s2 sc); auto.
    + rewrite EA2. auto.
    + eapply moved_dof; eauto.
    + rewrite (mv_d _ _ _ _ _ _ _ Hmv), EA2. apply (full_room pb (zeroed s) sc s1); auto. apply HS.
    + intros _. exists b. auto.
  - intros HD. apply (added_dstat pb s2 sc); auto; [rewrite EA2; auto|].
    apply (moved_dstat pb (zeroed s) sc s1 t t s2); auto. apply dstat_zeroed. auto.
  - rewrite <- EA2. apply Had.
  - rewrite (ad_it _ _ _ _ Had). rewrite (mv_it _ _ _ _ _ _ _ Hmv). auto.
  - rewrite (ad_exp _ _ _ _ Had). rewrite (mv_exp _ _ _ _ _ _ _ Hmv). auto.
  - rewrite (ad_G _ _ _ _ Had). rewrite (mv_G _ _ _ _ _ _ _ Hmv). auto.
Qed.

(** ** All equality constraints *)
(** [bl[i] == bu[i]] / [xl[i] == xu[i]] *)
Definition eqb_c (pb : rproblem) (i : nat) : bool := @bounds_eq Rops (clo pb i) (cup pb i).
Lemma eqb_c_spec pb i : reflect (is_equality pb i) (eqb_c pb i).
Proof.
  unfold eqb_c, bounds_eq, is_equality. destruct (clo pb i) as [l|], (cup pb i) as [u|];
    try (constructor; intros (b & ? & ?); congruence).
  rops. destruct (Reqb_spec l u) as [->|Hne]; constructor; [eauto|].
  intros (b & E1 & E2). congruence.
Qed.

(** Hypothesis on the problem: the normal of each equality constraint, projected
    (in the metric of G) on the null space of the previous ones, is longer
    than the tolerance 1e-14 used by the code. *)
Definition eq_separated (pb : rproblem) : Prop :=
  forall i (z r : rvec), (i < ncb pb)%nat -> is_equality pb i ->
  (forall j, ~ ((j < i)%nat /\ is_equality pb j) -> r j = 0) ->
  (forall a, (a < nv pb)%nat ->
     rsum (nv pb) (fun b => hess pb a b * z b) = cvec pb i a - rsum (ncb pb) (fun j => r j * cvec pb j a)) ->
  (forall j, (j < i)%nat -> is_equality pb j -> rdot (nv pb) (cvec pb j) z = 0) ->
  / 10 ^ 14 < sqrt (rdot (nv pb) z z).

Definition eqstat (pb : rproblem) (i : nat) : status := if (i <? nc pb)%nat then EQUALITY else FIXED.

(** After the first [k] constraints *)
Record einv (pb : rproblem) (k : nat) (s : rsol) : Prop := {
  ei_pinv : pinv pb s;
  ei_dstat : dstat pb s None;
  ei_list : a_active (s_A s) = filter (eqb_c pb) (seq 0 k);
  ei_stt : forall i, stt (s_A s) i = if (i <? k)%nat && eqb_c pb i then eqstat pb i else INACTIVE
}.

Lemma einv_act pb k s j : einv pb k s -> (j < nact (s_A s))%nat -> (act (s_A s) j < k)%nat /\ is_equality pb (act (s_A s) j).
Proof.
  intros [E1 E2 E3 E4] Hj. rewrite (shape_nact pb) in Hj by apply E1.
  assert (HI : In (act (s_A s) j) (a_active (s_A s))) by (apply nth_In; auto).
  rewrite E3 in HI. apply filter_In in HI as [HI HE]. apply in_seq in HI. split; [lia|].
  destruct (eqb_c_spec pb (act (s_A s) j)); auto; discriminate.
Qed.

Lemma eqstat_eq pb i : isEq (eqstat pb i) = true.
Proof. unfold eqstat. destruct (i <? nc pb)%nat; auto. Qed.
Lemma scn_eqstat pb i : scn pb (SC i (eqstat pb i)) = cvec pb i.
Proof. unfold scn, nsign, eqstat. simpl. destruct (i <? nc pb)%nat; auto. Qed.

Lemma einv_Nact pb k s j : einv pb k s -> (j < nact (s_A s))%nat -> Nact pb (s_A s) j = cvec pb (act (s_A s) j).
Proof.
  intros HE Hj. destruct (einv_act _ _ _ _ HE Hj) as [H1 H2]. unfold Nact.
  rewrite (ei_stt _ _ _ HE). apply Nat.ltb_lt in H1. rewrite H1.
  destruct (eqb_c_spec pb (act (s_A s) j)); [|contradiction]. unfold nsign, eqstat. destruct (act (s_A s) j <? nc pb)%nat; auto.
Qed.

Lemma einv_apart pb i s : einv pb i s -> (i < ncb pb)%nat -> is_equality pb i -> eq_separated pb ->
  apart pb s (SC i (eqstat pb i)).
Proof.
  intros HE Hi Heq Hsep s1 HS. pose proof (ei_pinv _ _ _ HE) as HP.
  assert (HP0 : pinv pb (zeroed s)) by (apply pinv_set_u; auto; apply HP).
  unfold znorm, norm. rops.
  set (r := fun j => rsum (nact (s_A s)) (fun k => if (j =? act (s_A s) k)%nat then rof s1 k else 0)).
  apply (Hsep i (zof s1) r); auto.
  - intros j Hj. unfold r. apply sum_zero. intros k Hk. destruct (Nat.eqb_spec j (act (s_A s) k)) as [->|]; auto.
    exfalso. apply Hj. apply (einv_act pb i s); auto.
  - intros a Ha. rewrite (st_Gz pb (zeroed s) (SC i (eqstat pb i)) s1) by auto. rewrite scn_eqstat. f_equal.
    unfold r. rewrite (sum_act pb s (rof s1) (fun j => cvec pb j a)) by apply HP.
    apply sum_ext. intros k Hk. change (s_A (zeroed s)) with (s_A s). rewrite (einv_Nact pb i s) by auto. auto.
  - intros j Hj Hej. destruct (act_surj pb s j (pi_shape _ _ HP)) as (k & Hk & Ek).
    { rewrite (ei_stt _ _ _ HE). apply Nat.ltb_lt in Hj. rewrite Hj. destruct (eqb_c_spec pb j); [|contradiction].
      simpl. intros E. pose proof (eqstat_eq pb j) as H. rewrite E in H. discriminate. }
    rewrite <- Ek, <- (einv_Nact pb i s) by auto. apply (st_orth pb (zeroed s) (SC i (eqstat pb i)) s1); auto.
Qed.

Lemma seq_snoc a k : seq a (S k) = seq a k ++ [(a + k)%nat].
Proof. rewrite <- (Nat.add_1_r k). rewrite seq_app. auto. Qed.
Lemma filter_seq_S (p : nat -> bool) k : filter p (seq 0 (S k)) = filter p (seq 0 k) ++ (if p k then [k] else []).
Proof. rewrite seq_snoc. rewrite filter_app. simpl. destruct (p k); auto. Qed.

Lemma einv_skip pb k s : einv pb k s -> eqb_c pb k = false -> einv pb (S k) s.
Proof.
  intros [E1 E2 E3 E4] Hk. split; auto.
  - rewrite filter_seq_S, Hk, app_nil_r. auto.
  - intros i. rewrite E4. destruct (Nat.ltb_spec i k), (Nat.ltb_spec i (S k)); auto; try lia.
    assert (i = k) by lia. subst. rewrite Hk. auto.
Qed.

Record sameio (s s' : rsol) : Prop := { so_it : s_it s' = s_it s; so_exp : s_exp s' = s_exp s; so_G : s_G s' = s_G s }.
Lemma sameio_refl s : sameio s s. Proof. split; auto. Qed.
Lemma sameio_trans s1 s2 s3 : sameio s1 s2 -> sameio s2 s3 -> sameio s1 s3.
Proof. intros [] []. split; congruence. Qed.

Lemma einv_add pb k s : einv pb k s -> (k < ncb pb)%nat -> eqb_c pb k = true -> eq_separated pb ->
  exists s', addInitialConstraint pb s (SC k (eqstat pb k)) = Ok s' /\ einv pb (S k) s' /\ sameio s s'.
Proof.
  intros HE Hk Heq Hsep. destruct (eqb_c_spec pb k) as [Hi|]; [|discriminate].
  assert (Hin : stt (s_A s) k = INACTIVE) by (rewrite (ei_stt _ _ _ HE), Nat.ltb_irrefl; auto).
  destruct (addInitial_spec pb s (SC k (eqstat pb k))) as (s' & E & [A1 A2 A3 A4 A5 A6]); auto.
  - apply HE.
  - split; auto. simpl. unfold kind_ok, eqstat. destruct (k <? nc pb)%nat; auto.
  - apply eqstat_eq.
  - apply einv_apart; auto.
  - exists s'. split; auto. split; [|split; auto]. split; auto.
    + apply A2. apply HE.
    + rewrite (aa_list _ _ _ A3), (ei_list _ _ _ HE), filter_seq_S.
      destruct (eqb_c_spec pb k); [auto|contradiction].
    + intros i. rewrite (aa_stt _ _ _ A3). simpl. rewrite (ei_stt _ _ _ HE).
      destruct (Nat.eqb_spec i k) as [->|].
      * destruct (Nat.ltb_spec k (S k)); [|lia]. destruct (eqb_c_spec pb k); [auto|contradiction].
      * destruct (Nat.ltb_spec i k), (Nat.ltb_spec i (S k)); auto; lia.
Qed.

Lemma init_cstr_spec pb s k : einv pb 0 s -> (k <= nc pb)%nat -> eq_separated pb ->
  exists s', init_cstr pb k s = Ok s' /\ einv pb k s' /\ sameio s s'.
Proof.
  intros H0 Hk Hsep. induction k as [|k IH].
  - exists s. split; auto. split; auto. apply sameio_refl.
  - destruct IH as (s1 & E & H1 & S1); [lia|]. cbn [init_cstr]. rewrite E. cbn [bind].
    assert (Ec : bounds_eq (p_bl pb k) (p_bu pb k) = eqb_c pb k).
    { unfold eqb_c, clo, cup. destruct (Nat.ltb_spec k (nc pb)); [auto|lia]. }
    rewrite Ec. destruct (eqb_c pb k) eqn:Eq.
    + destruct (einv_add pb k s1) as (s2 & E2 & H2 & S2); auto; [unfold ncb; lia|].
      unfold eqstat in E2. destruct (Nat.ltb_spec k (nc pb)); [|lia]. exists s2. split; auto. split; auto.
      eapply sameio_trans; eauto.
    + exists s1. split; auto. split; auto. apply einv_skip; auto.
Qed.
Lemma init_bnd_spec pb s k : einv pb (nc pb) s -> (k <= nb pb)%nat -> eq_separated pb ->
  exists s', init_bnd pb k s = Ok s' /\ einv pb (nc pb + k) s' /\ sameio s s'.
Proof.
  intros H0 Hk Hsep. induction k as [|k IH].
  - exists s. rewrite Nat.add_0_r. split; auto. split; auto. apply sameio_refl.
  - destruct IH as (s1 & E & H1 & S1); [lia|]. cbn [init_bnd]. rewrite E. cbn [bind].
    assert (Ec : bounds_eq (p_xl pb k) (p_xu pb k) = eqb_c pb (nc pb + k)).
    { unfold eqb_c, clo, cup. destruct (Nat.ltb_spec (nc pb + k) (nc pb)); [lia|].
      replace (nc pb + k - nc pb)%nat with k by lia. auto. }
    rewrite Ec. rewrite Nat.add_succ_r. destruct (eqb_c pb (nc pb + k)) eqn:Eq.
    + destruct (einv_add pb (nc pb + k) s1) as (s2 & E2 & H2 & S2); auto; [unfold ncb; lia|].
      unfold eqstat in E2. destruct (Nat.ltb_spec (nc pb + k) (nc pb)); [lia|].
      rewrite (sh_nc _ _ (pi_shape _ _ (ei_pinv _ _ _ H1))). exists s2. split; auto. split; auto.
      eapply sameio_trans; eauto.
    + exists s1. split; auto. split; auto. apply einv_skip; auto.
Qed.

Lemma initActiveSet_spec pb s : einv pb 0 s -> eq_separated pb ->
  exists s', initActiveSet pb s = Ok s' /\ einv pb (ncb pb) s' /\ sameio s s'.
Proof.
  intros H0 Hsep. unfold initActiveSet. rewrite (sh_nc _ _ (pi_shape _ _ (ei_pinv _ _ _ H0))).
  destruct (init_cstr_spec pb s (nc pb) H0) as (s1 & E & H1 & S1); auto.
  rewrite E. cbn [bind]. rewrite (sh_nb _ _ (pi_shape _ _ (ei_pinv _ _ _ H1))).
  destruct (init_bnd_spec pb s1 (nb pb) H1) as (s2 & E2 & H2 & S2); auto.
  exists s2. split; auto. split; auto. eapply sameio_trans; eauto.
Qed.

Lemma filter_all {X} (p : X -> bool) l : (forall x, In x l -> p x = true) -> filter p l = l.
Proof. induction l as [|x l IH]; intros H; simpl; auto. rewrite H by (left; auto). f_equal. apply IH. intros; apply H; right; auto. Qed.

(** The initial active set is aligned when equalities come first *)
Lemma einv_ali pb e s : einv pb (ncb pb) s -> eq_first pb e -> (e <= ncb pb)%nat -> ali pb e (s_A s).
Proof.
  intros HE He Hle. pose proof (ei_list _ _ _ HE) as HL.
  assert (HF : filter (eqb_c pb) (seq 0 (ncb pb)) = seq 0 e).
  { replace (ncb pb) with (e + (ncb pb - e))%nat by lia. rewrite seq_app, filter_app. simpl.
    assert (F1 : filter (eqb_c pb) (seq 0 e) = seq 0 e).
    { apply filter_all. intros x Hx. apply in_seq in Hx.
      destruct (eqb_c_spec pb x) as [|Hn]; auto. exfalso. apply Hn. apply He; lia. }
    assert (F2 : filter (eqb_c pb) (seq e (ncb pb - e)) = []).
    { destruct (filter (eqb_c pb) (seq e (ncb pb - e))) as [|x l] eqn:E; auto. exfalso.
      assert (HI : In x (filter (eqb_c pb) (seq e (ncb pb - e)))) by (rewrite E; left; auto).
      apply filter_In in HI as [HI HQ]. apply in_seq in HI. destruct (eqb_c_spec pb x) as [Hx|]; [|discriminate].
      apply He in Hx; lia. }
    rewrite F1, F2, app_nil_r. auto. }
  rewrite HF in HL. split.
  - rewrite (shape_nact pb) by apply HE. rewrite HL, seq_length. auto.
  - intros k Hk. split.
    + unfold act. rewrite HL. rewrite seq_nth; auto.
    + rewrite (ei_stt _ _ _ HE). destruct (Nat.ltb_spec k (ncb pb)); [|lia].
      destruct (eqb_c_spec pb k) as [|Hn]; [apply eqstat_eq|]. exfalso. apply Hn. apply He; lia.
  - intros k Hk Hkn. rewrite (shape_nact pb) in Hkn by apply HE. rewrite HL, seq_length in Hkn. lia.
  - intros i Hi. rewrite (ei_stt _ _ _ HE) in Hi. destruct (Nat.ltb_spec i (ncb pb)); [|discriminate].
    destruct (eqb_c_spec pb i) as [Hq|]; [|discriminate]. apply He in Hq; auto.
Qed.

(** ** Factorisation and unconstrained minimiser *)
Lemma stt_reset A i : stt (as_reset A) i = INACTIVE.
Proof.
  unfold stt, as_reset. simpl. destruct (nth_in_or_default i (map (fun _ => INACTIVE) (a_status A)) INACTIVE) as [H|H]; auto.
  apply in_map_iff in H as (x & <- & _). auto.
Qed.
Lemma nact_reset A : nact (as_reset A) = 0%nat.
Proof. reflexivity. Qed.

Lemma gi_init_spec pb o s : shape pb s -> 
  (~ posdef (nv pb) (hess pb) /\ exists L, gi_init pb o s = Ok (NON_POS_HESSIAN, set_G s L)) \/
  (posdef (nv pb) (hess pb) /\ exists s0, gi_init pb o s = (do s1 <- initActiveSet pb s0; Ok (SUCCESS, s1)) /\
     einv pb 0 s0 /\ s_it s0 = s_it s /\ s_exp s0 = s_exp s).
Proof.
  intros HS. pose proof HS as [H1 H2 H3 H4 H5 H6 H7 H8 H9 H10 H11 H12].
  unfold gi_init. rewrite H5. set (n := nv pb) in *.
  pose proof (llt_spec n (p_G pb)) as HL. destruct (llt n (p_G pb)) as ([p|] & L).
  - left. destruct HL as (Hp & HI & Hle). split; [|exists L; auto].
    destruct (llt_failure_witness n p (p_G pb) L Hp HI Hle) as (v & Hv & Hq). intros HPd.
    specialize (HPd v Hv). unfold hess in HPd. lra.
  - right. split; [apply (llt_success_posdef n _ L); auto|].
    cbn [s_J s_x s_A set_G].
    rewrite getM_ok by (auto; lia). cbn [bind].
    unfold set_J. cbn [s_it s_n s_A s_f s_x s_z s_u s_r s_exp s_d s_J s_R s_G].
    rewrite getV_ok by auto. cbn [bind].
    eexists. split; [reflexivity|]. split; [|split; reflexivity].
    unfold set_A, set_f, set_x. cbn [s_it s_n s_A s_f s_x s_z s_u s_r s_exp s_d s_J s_R s_G].
    rewrite ?vm_id, mm_id.
    set (Jm := fun i j => @bwd Rops n n (tr L) (fun k => idm Rops k j) i).
    set (w := @bwd Rops n n (tr L) (@fwd Rops n L (p_a pb))).
    match goal with |- einv pb 0 ?st => set (s0 := st) end.
    assert (Hsh : shape pb s0).
    { unfold s0. split; auto; simpl. apply good_reset. apply H2. }
    assert (HJ : forall a b, (a < n)%nat -> (b < n)%nat -> Jof s0 a b = Jm a b).
    { intros a b Ha Hb. unfold Jof, s0. simpl. rewrite H5. apply view_unview; auto. }
    assert (Hx : forall i, (i < n)%nat -> xof s0 i = - w i).
    { intros i Hi. unfold xof, s0. simpl. unfold vhead. apply Nat.ltb_lt in Hi. rewrite Hi. auto. }
    assert (Hgrad : forall a, (a < n)%nat -> gradient pb (xof s0) a = 0).
    { intros a Ha. unfold gradient. fold n.
      rewrite (sum_ext n _ (fun j => - (hess pb a j * w j))) by (intros; rewrite Hx by auto; rring).
      rewrite sum_opp. unfold hess. unfold w. rewrite (start_Gw n (p_G pb) L HL (p_a pb) a Ha). lra. }
    assert (EA : s_A s0 = as_reset (s_A s)) by reflexivity.
    split.
    + split; auto.
      * rewrite EA, nact_reset. split; intros; lia.
      * intros a c Ha Hc. fold n in Ha, Hc |- *.
        rewrite <- (start_G n (p_G pb) L HL a c Ha Hc). apply sum_ext. intros b Hb. unfold hess. f_equal.
        apply gram_ext; auto.
      * rewrite EA, nact_reset. intros; lia.
      * intros i Hi HE. rewrite EA, stt_reset in HE. discriminate.
    + split.
      * intros a Ha. rewrite EA, nact_reset, sum_0. rewrite Hgrad by auto. rring.
      * unfold s0 at 1. simpl. unfold objective, quad. fold n.
        assert (Eq : forall i, (i < n)%nat -> rsum n (fun j => hess pb i j * xof s0 j) = - p_a pb i).
        { intros i Hi. specialize (Hgrad i Hi). unfold gradient in Hgrad. fold n in Hgrad. lra. }
        rewrite (sum_ext n _ (fun i => - (p_a pb i * xof s0 i))).
        2:{ intros i Hi. rewrite Eq by auto. rring. }
        rewrite sum_opp. change (rsum n (fun i => p_a pb i * xof s0 i)) with (rdot n (p_a pb) (xof s0)).
        change (xof s0) with (vhead n (fun i => - w i) (w_buf (s_x s))). unfold rdot. rops. lra.
    + rewrite EA. reflexivity.
    + intros i. rewrite EA, stt_reset. reflexivity.
Qed.

(** ** The whole call *)
(** A solver object between calls *)
Record wf_sol (s : rsol) : Prop := {
  wf_good : good (s_A s);
  wf_x : (s_n s <= w_size (s_x s))%nat; wf_z : (s_n s <= w_size (s_z s))%nat; wf_d : (s_n s <= w_size (s_d s))%nat;
  wf_J : (s_n s * s_n s <= w_size (s_J s))%nat; wf_R : (s_n s * s_n s <= w_size (s_R s))%nat;
  wf_u : (nbAll (s_A s) <= w_size (s_u s))%nat; wf_r : (nbAll (s_A s) <= w_size (s_r s))%nat
}.
Lemma wf_new : wf_sol (sol_new Rops).
Proof. split; simpl; auto. apply good_new. Qed.
Lemma shape_wf pb s : shape pb s -> wf_sol s.
Proof.
  intros HS. pose proof (nbAll_ncb pb s HS) as E. destruct HS as [H1 H2 H3 H4 H5 H6 H7 H8 H9 H10 H11 H12].
  rewrite <- H5 in *. split; auto; rewrite E; auto.
Qed.
Lemma w_resize_size (j : vec Rops) w k : (k <= w_size (w_resize j w k))%nat /\ (w_size w <= w_size (w_resize j w k))%nat.
Proof. unfold w_resize. destruct (Nat.ltb_spec (w_size w) k); simpl; lia. Qed.

Lemma resize_shape pb junk s : wf_sol s -> sizes_ok pb = true ->
  let s' := resize junk s (p_Grows pb) (p_Ccols pb) (0 <? p_xlsize pb)%nat in
  shape pb s'.
Proof.
  intros HW Hsz. destruct HW as [H1 H2 H3 H4 H5 H6 H7 H8]. simpl.
  change (p_Grows pb) with (nv pb). change (p_Ccols pb) with (nc pb). change (p_xlsize pb) with (nb pb).
  assert (Hnb : (if (0 <? nb pb)%nat then nv pb else 0%nat) = nb pb).
  { apply sizes_ok_spec in Hsz as (_ & _ & _ & _ & _ & [E|E] & _); rewrite E; auto.
    destruct (Nat.ltb_spec 0 (nv pb)); auto; lia. }
  unfold resize, resize_p. rewrite Hnb.
  assert (HR : forall w k, (k <= w_size (w_resize junk w k))%nat) by (intros; apply w_resize_size).
  set (s1 := resize_d junk s (nv pb)).
  assert (D : (nv pb <= w_size (s_d s1))%nat /\ (nv pb * nv pb <= w_size (s_J s1))%nat /\ (nv pb * nv pb <= w_size (s_R s1))%nat /\
     s_A s1 = s_A s /\ s_n s1 = s_n s /\ s_x s1 = s_x s /\ s_z s1 = s_z s /\ s_u s1 = s_u s /\ s_r s1 = s_r s).
  { unfold s1, resize_d. destruct (Nat.eqb_spec (nv pb) (s_n s)) as [E|E].
    - rewrite E. repeat (split; [assumption||reflexivity|]). reflexivity.
    - repeat (split; [apply HR||reflexivity|]). reflexivity. }
  clearbody s1. destruct D as (D1 & D2 & D3 & D4 & D5 & D6 & D7 & D8 & D9). rewrite D5.
  set (s2 := if (nv pb =? s_n s)%nat then s1 else _).
  assert (F : (nv pb <= w_size (s_d s2))%nat /\ (nv pb * nv pb <= w_size (s_J s2))%nat /\ (nv pb * nv pb <= w_size (s_R s2))%nat /\
     (nv pb <= w_size (s_x s2))%nat /\ (nv pb <= w_size (s_z s2))%nat /\
     s_A s2 = s_A s /\ s_n s2 = nv pb /\ s_u s2 = s_u s /\ s_r s2 = s_r s).
  { unfold s2. destruct (Nat.eqb_spec (nv pb) (s_n s)) as [E|E].
    - split; [auto|]. split; [auto|]. split; [auto|]. split; [rewrite D6, E; auto|]. split; [rewrite D7, E; auto|].
      repeat split; auto. congruence.
    - repeat (split; [assumption || apply HR|]). repeat split; auto. }
  clearbody s2. clear D1 D2 D3 D4 D5 D6 D7 D8 D9. destruct F as (F1 & F2 & F3 & F4 & F5 & F6 & F7 & F8 & F9).
  rewrite F6.
  set (s3 := if (nc pb + nb pb =? nbAll (s_A s))%nat then s2 else _).
  assert (K : (nv pb <= w_size (s_d s3))%nat /\ (nv pb * nv pb <= w_size (s_J s3))%nat /\ (nv pb * nv pb <= w_size (s_R s3))%nat /\
     (nv pb <= w_size (s_x s3))%nat /\ (nv pb <= w_size (s_z s3))%nat /\
     s_A s3 = s_A s /\ s_n s3 = nv pb /\ (ncb pb <= w_size (s_u s3))%nat /\ (ncb pb <= w_size (s_r s3))%nat).
  { unfold s3. destruct (Nat.eqb_spec (nc pb + nb pb) (nbAll (s_A s))) as [E|E].
    - repeat (split; [assumption|]). unfold ncb. rewrite E, F8, F9. auto.
    - repeat (split; [assumption|]). split; apply HR. }
  clearbody s3. destruct K as (K1 & K2 & K3 & K4 & K5 & K6 & K7 & K8 & K9). rewrite K6.
  destruct (Nat.eqb_spec (nc pb) (a_nc (s_A s))) as [Ec|Ec]; cbn [andb].
  1: destruct (Nat.eqb_spec (nb pb) (a_nb (s_A s))) as [Eb|Eb]; cbn [andb].
  - split; rewrite ?K6; auto.
  - split; auto. apply good_resize.
  - split; auto. apply good_resize.
Qed.

Definition start (s0 : rsol) : rlst := L s0 false (SC 0 INACTIVE).

(** [s0] is the state in which the main loop of the call is entered *)
Definition begins (junk : vec Rops) (pb : rproblem) (o : ropt) (s s0 : rsol) : Prop :=
  dual_init gi_init pb o (resize junk s (p_Grows pb) (p_Ccols pb) (0 <? p_xlsize pb)%nat) = Ok (SUCCESS, s0).

Lemma solve_spec junk pb o s : wf_sol s -> sizes_ok pb = true ->
  (~ posdef (nv pb) (hess pb) /\ exists s', gi_solve junk pb o s = Ok (NON_POS_HESSIAN, s') /\ shape pb s') \/
  (posdef (nv pb) (hess pb) /\ (eq_separated pb ->
    exists s0, begins junk pb o s s0 /\ gi_solve junk pb o s = loop pb o (o_maxIter o) (start s0) /\
     einv pb (ncb pb) s0 /\ s_it s0 = 0%nat /\ s_exp s0 = true)).
Proof.
  intros HW Hsz. unfold begins, gi_solve. rewrite Hsz. cbn [guard].
  pose proof (resize_shape pb junk s HW Hsz) as HS. cbv zeta in HS.
  set (s1 := resize junk s _ _ _) in *. unfold dual_solve.
  set (s2 := set_it (if o_warm o then set_exp s1 true else set_A (set_exp s1 true) (as_reset (s_A (set_exp s1 true)))) 0).
  assert (Ebeg : dual_init gi_init pb o s1 = gi_init pb o s2) by reflexivity. rewrite Ebeg.
  assert (HS2 : shape pb s2).
  { destruct HS as [H1 H2 H3 H4 H5 H6 H7 H8 H9 H10 H11 H12]. unfold s2. destruct (o_warm o); split; auto.
    simpl. apply good_reset. apply H2. }
  assert (Eit : s_it s2 = 0%nat) by (unfold s2; destruct (o_warm o); auto).
  assert (Eex : s_exp s2 = true) by (unfold s2; destruct (o_warm o); auto).
  clearbody s2.
  destruct (gi_init_spec pb o s2 HS2) as [(Hn & Lm & E)|(Hp & s0 & E & HE & E1 & E2)].
  - left. split; auto. rewrite E. cbn [bind]. simpl. exists (set_G s2 Lm). split; auto.
    destruct HS2. split; auto.
  - right. split; auto. intros Hsep. rewrite E.
    destruct (initActiveSet_spec pb s0 HE Hsep) as (s3 & E3 & H3 & [S1 S2 S3]). rewrite E3. cbn [bind].
    pose proof (pi_shape _ _ (ei_pinv _ _ _ H3)) as HS3.
    exists s3. split; [auto|]. rewrite (sh_n _ _ HS3).
    rewrite getV_ok by apply HS3. cbn [bind]. rewrite getV_ok by apply HS3. cbn [bind].
    rewrite getV_ok by (pose proof (shape_nact_le _ _ HS3); pose proof (sh_u _ _ HS3); lia). cbn [bind].
    split; [|split; [auto|split; congruence]].
    rewrite S1, E1, Eit, Nat.sub_0_r. fold (start s3).
    destruct (loop_total pb o (o_maxIter o) (start s3)) as (st & s' & El & Hst & _).
    { split; simpl; [apply H3|discriminate]. }
    rewrite El. cbn [bind]. destruct Hst as [-> | [-> | ->]]; auto.
Qed.

(** Memory safety of a whole call [solve(...)] of the dense solver and of
    histories of calls, for any scalar arithmetic satisfying [safe_ops]. *)
From Coq Require Import List Arith ZArith Lia Bool.
From Verif Require Import Base ActiveSet ActiveSetProofs Num Solver LinAlg GIBase GIInv GISafe.
Import ListNotations.

Section Call.
Variable S : ops.
Notation problem := (problem S).
Notation sol := (sol S).

(** [bl[i] == bu[i]] or [xl[i] == xu[i]] *)
Definition geq (pb : problem) (i : nat) : bool := bounds_eq (glo S pb i) (gup S pb i).
Definition gstat (pb : problem) (i : nat) : status := if (i <? gc_ S pb)%nat then EQUALITY else FIXED.
(** the equality constraints among the first [k] *)
Definition geqs (pb : problem) (k : nat) : list nat := filter (geq pb) (seq 0 k).

Lemma geq_lo pb i : geq pb i = true -> glo S pb i <> None.
Proof. unfold geq, bounds_eq. destruct (glo S pb i); [discriminate|]. discriminate. Qed.

Lemma ginit_one pb s i : gsh S pb s -> (i < gcb S pb)%nat -> geq pb i = true -> stt (s_A s) i = INACTIVE ->
  (nact (s_A s) <= gn S pb)%nat ->
  if (nact (s_A s) <? gn S pb)%nat then
    exists s', addInitialConstraint pb s (SC i (gstat pb i)) = Ok s' /\ gsh S pb s' /\ act_added (s_A s) (SC i (gstat pb i)) (s_A s') /\
      s_it s' = s_it s /\ s_exp s' = s_exp s /\ s_G s' = s_G s
  else addInitialConstraint pb s (SC i (gstat pb i)) = UB.
Proof.
  intros HS Hi Hq Hin Hle. pose proof HS as [H1 H2 H3 H4 H5 H6 H7 H8 H9 H10 H11 H12].
  assert (Hqlt : (nact (s_A s) < gcb S pb)%nat) by (eapply ginactive_lt; eauto).
  assert (Hv : gvalid S pb (SC i (gstat pb i))).
  { split; auto. simpl. unfold gstat. unfold kind_ok. destruct (i <? gc_ S pb)%nat; auto. }
  pose proof (gsizes_nb S pb H1) as Hnb.
  unfold addInitialConstraint. rewrite H5. set (n := gn S pb) in *. set (q := nact (s_A s)) in *.
  rewrite ggetV by auto. cbn [bind]. rewrite ggetV by auto. cbn [bind].
  rewrite ggetV by lia. cbn [bind]. rewrite ggetV by lia. cbn [bind].
  set (s0 := set_u s _).
  assert (HS0 : gsh S pb s0) by (unfold s0; eapply gsh_trans; eauto; reflexivity).
  assert (A0 : s_A s0 = s_A s /\ s_it s0 = s_it s /\ s_exp s0 = s_exp s /\ s_G s0 = s_G s) by (unfold s0; auto).
  clearbody s0. destruct A0 as (A0 & I0 & P0 & G0).
  destruct (gstep S pb s0 (SC i (gstat pb i)) HS0 Hv) as (s1 & E1 & HS1 & A1 & I1 & X1 & U1 & F1 & P1 & G1 & _); [rewrite A0; auto|].
  rewrite E1. cbn [bind].
  replace (isEq (sc_st (SC i (gstat pb i)))) with true by (unfold gstat; simpl; destruct (i <? gc_ S pb)%nat; auto).
  cbn [guard]. rewrite gcn_ok by auto. cbn [guard].
  match goal with |- context[bind (if ltb S (eps14 S) ?a then ?b else ?c)] =>
    assert (Ht : exists t, (if ltb S (eps14 S) a then b else c) = Ok t) end.
  { destruct (ltb S _ _); [|eexists; reflexivity]. cbn [sc_st sc_idx]. pose proof (geq_lo pb i Hq) as Hlo.
    unfold gstat, glo in *. unfold gcb in Hi. change (p_Ccols pb) with (gc_ S pb).
    destruct (Nat.ltb_spec i (gc_ S pb)); simpl.
    - destruct (p_bl pb i); [eexists; reflexivity|congruence].
    - destruct (Nat.ltb_spec (i - gc_ S pb) n); [|lia]. simpl.
      destruct (p_xl pb (i - gc_ S pb)); [eexists; reflexivity|congruence]. }
  destruct Ht as (t & Et). rewrite Et. cbn [bind]. clear Et.
  destruct (gcn_dot S pb (SC i (gstat pb i)) (w_buf (s_z s1)) H1 Hv) as (nzv & En). fold n in En. rewrite En. cbn [bind].
  match goal with |- context[addConstraint ?st _] => set (s2 := st) end.
  assert (HS2 : gsh S pb s2).
  { unfold s2. eapply gsh_trans; eauto; try reflexivity. apply HS1. }
  assert (A2 : s_A s2 = s_A s /\ s_it s2 = s_it s /\ s_exp s2 = s_exp s /\ s_G s2 = s_G s)
    by (unfold s2; simpl; repeat split; congruence).
  clearbody s2. destruct A2 as (A2 & I2 & P2 & G2).
  destruct (Nat.ltb_spec q n) as [Hlt|Hge].
  - destruct (gadd S pb s2 (SC i (gstat pb i)) HS2 Hv) as (s3 & E3 & HS3 & HA3 & I3 & P3 & _ & _ & _ & G3);
      [rewrite A2; auto|rewrite A2; auto|].
    exists s3. rewrite A2 in HA3. split; [auto|]. split; [auto|]. split; [auto|]. split; [congruence|]. split; congruence.
  - apply (gadd_full S pb); auto; rewrite A2; auto. fold q n. lia.
Qed.

Record ginv (pb : problem) (k : nat) (s : sol) : Prop := {
  gi_sh : gsh S pb s;
  gi_list : a_active (s_A s) = geqs pb k;
  gi_stt : forall i, stt (s_A s) i = if (i <? k)%nat && geq pb i then gstat pb i else INACTIVE
}.
Record gsame (s s' : sol) : Prop := { gs_it : s_it s' = s_it s; gs_exp : s_exp s' = s_exp s; gs_G : s_G s' = s_G s }.

Lemma geqs_S pb k : geqs pb (Datatypes.S k) = geqs pb k ++ (if geq pb k then [k] else []).
Proof.
  unfold geqs. replace (seq 0 (Datatypes.S k)) with (seq 0 k ++ [k]).
  - rewrite filter_app. simpl. destruct (geq pb k); auto.
  - rewrite <- (Nat.add_1_r k). rewrite seq_app. auto.
Qed.
Lemma ginv_nact pb k s : ginv pb k s -> nact (s_A s) = length (geqs pb k).
Proof. intros [H1 H2 H3]. rewrite (gnact_len S pb) by auto. rewrite H2. auto. Qed.

Lemma geqs_mono pb k k' : (k <= k')%nat -> (length (geqs pb k) <= length (geqs pb k'))%nat.
Proof. induction 1; auto. rewrite geqs_S, app_length. lia. Qed.

(** One position: the constraint is activated exactly when it is an equality *)
Lemma ginit_pos pb k s : ginv pb k s -> (k < gcb S pb)%nat -> (length (geqs pb k) <= gn S pb)%nat ->
  (if geq pb k then addInitialConstraint pb s (SC k (gstat pb k)) else Ok s) =
  (if geq pb k then addInitialConstraint pb s (SC k (gstat pb k)) else Ok s) /\
  if (length (geqs pb (Datatypes.S k)) <=? gn S pb)%nat then
    exists s', (if geq pb k then addInitialConstraint pb s (SC k (gstat pb k)) else Ok s) = Ok s' /\ ginv pb (Datatypes.S k) s' /\ gsame s s'
  else (if geq pb k then addInitialConstraint pb s (SC k (gstat pb k)) else Ok s) = UB.
Proof.
  intros HI Hk Hle. split; auto. pose proof HI as [I1 I2 I3]. rewrite geqs_S, app_length.
  pose proof (ginv_nact _ _ _ HI) as EN.
  assert (Hin : stt (s_A s) k = INACTIVE) by (rewrite I3, Nat.ltb_irrefl; auto).
  destruct (geq pb k) eqn:Eq; simpl.
  - pose proof (ginit_one pb s k I1 Hk Eq Hin) as H1. rewrite EN in H1. specialize (H1 Hle).
    destruct (Nat.ltb_spec (length (geqs pb k)) (gn S pb)), (Nat.leb_spec (length (geqs pb k) + 1) (gn S pb)); try lia; auto.
    destruct H1 as (s' & E & HS & HA & K1 & K2 & K3). exists s'. split; auto. split; [|split; auto].
    split; auto.
    + rewrite (aa_list _ _ _ HA), I2, geqs_S, Eq. auto.
    + intros i. rewrite (aa_stt _ _ _ HA). simpl. rewrite I3. destruct (Nat.eqb_spec i k) as [->|].
      * destruct (Nat.ltb_spec k (Datatypes.S k)); [|lia]. rewrite Eq. auto.
      * destruct (Nat.ltb_spec i k), (Nat.ltb_spec i (Datatypes.S k)); auto; lia.
  - rewrite Nat.add_0_r. apply Nat.leb_le in Hle. rewrite Hle. exists s. split; auto. split; [|split; auto].
    split; auto.
    + rewrite geqs_S, Eq, app_nil_r. auto.
    + intros i. rewrite I3. destruct (Nat.ltb_spec i k), (Nat.ltb_spec i (Datatypes.S k)); auto; try lia.
      assert (i = k) by lia. subst. rewrite Eq. auto.
Qed.

Lemma gsame_refl s : gsame s s. Proof. split; auto. Qed.
Lemma gsame_trans s1 s2 s3 : gsame s1 s2 -> gsame s2 s3 -> gsame s1 s3.
Proof. intros [] []. split; congruence. Qed.

Lemma ginit_cstr pb s k : ginv pb 0 s -> (k <= gc_ S pb)%nat ->
  if (length (geqs pb k) <=? gn S pb)%nat then exists s', init_cstr pb k s = Ok s' /\ ginv pb k s' /\ gsame s s'
  else init_cstr pb k s = UB.
Proof.
  intros H0 Hk. induction k as [|k IH].
  - simpl. exists s. split; auto. split; auto. apply gsame_refl.
  - specialize (IH ltac:(lia)). cbn [init_cstr].
    assert (Ec : bounds_eq (p_bl pb k) (p_bu pb k) = geq pb k /\ gstat pb k = EQUALITY).
    { unfold geq, gstat, glo, gup. destruct (Nat.ltb_spec k (gc_ S pb)); [auto|lia]. }
    destruct Ec as [Ec Es]. rewrite Ec, <- Es.
    pose proof (geqs_mono pb k (Datatypes.S k)) as Hm.
    destruct (Nat.leb_spec (length (geqs pb k)) (gn S pb)) as [Hle|Hgt].
    + destruct IH as (s1 & E & H1 & S1). rewrite E. cbn [bind].
      destruct (ginit_pos pb k s1 H1) as (_ & H2); [unfold gcb; lia|auto|].
      destruct (length (geqs pb (Datatypes.S k)) <=? gn S pb)%nat; auto.
      destruct H2 as (s2 & E2 & H2 & S2). exists s2. split; auto. split; auto. eapply gsame_trans; eauto.
    + rewrite IH. cbn [bind]. destruct (Nat.leb_spec (length (geqs pb (Datatypes.S k))) (gn S pb)); auto. lia.
Qed.
Lemma ginit_bnd pb s k : ginv pb (gc_ S pb) s -> (k <= gb S pb)%nat -> (length (geqs pb (gc_ S pb)) <= gn S pb)%nat ->
  if (length (geqs pb (gc_ S pb + k)) <=? gn S pb)%nat then exists s', init_bnd pb k s = Ok s' /\ ginv pb (gc_ S pb + k) s' /\ gsame s s'
  else init_bnd pb k s = UB.
Proof.
  intros H0 Hk Hc. induction k as [|k IH].
  - rewrite Nat.add_0_r. apply Nat.leb_le in Hc. rewrite Hc. simpl. exists s. split; auto. split; auto. apply gsame_refl.
  - specialize (IH ltac:(lia)). cbn [init_bnd]. rewrite Nat.add_succ_r.
    assert (Ec : bounds_eq (p_xl pb k) (p_xu pb k) = geq pb (gc_ S pb + k) /\ gstat pb (gc_ S pb + k) = FIXED).
    { unfold geq, gstat, glo, gup. destruct (Nat.ltb_spec (gc_ S pb + k) (gc_ S pb)); [lia|].
      replace (gc_ S pb + k - gc_ S pb)%nat with k by lia. auto. }
    destruct Ec as [Ec Es].
    pose proof (geqs_mono pb (gc_ S pb + k) (Datatypes.S (gc_ S pb + k))) as Hm.
    destruct (Nat.leb_spec (length (geqs pb (gc_ S pb + k))) (gn S pb)) as [Hle|Hgt].
    + destruct IH as (s1 & E & H1 & S1). rewrite E. cbn [bind]. rewrite Ec, <- Es.
      rewrite (g_nc _ _ _ (gi_sh _ _ _ H1)).
      destruct (ginit_pos pb (gc_ S pb + k) s1 H1) as (_ & H2); [unfold gcb; lia|auto|].
      destruct (length (geqs pb (Datatypes.S (gc_ S pb + k))) <=? gn S pb)%nat; auto.
      destruct H2 as (s2 & E2 & H2 & S2). exists s2. split; auto. split; auto. eapply gsame_trans; eauto.
    + rewrite IH. cbn [bind]. destruct (Nat.leb_spec (length (geqs pb (Datatypes.S (gc_ S pb + k)))) (gn S pb)); auto. lia.
Qed.

Lemma ginitActiveSet pb s : ginv pb 0 s ->
  if (length (geqs pb (gcb S pb)) <=? gn S pb)%nat then exists s', initActiveSet pb s = Ok s' /\ ginv pb (gcb S pb) s' /\ gsame s s'
  else initActiveSet pb s = UB.
Proof.
  intros H0. unfold initActiveSet. rewrite (g_nc _ _ _ (gi_sh _ _ _ H0)).
  pose proof (ginit_cstr pb s (gc_ S pb) H0) as H1. specialize (H1 ltac:(lia)).
  pose proof (geqs_mono pb (gc_ S pb) (gcb S pb)) as Hm. unfold gcb in *. specialize (Hm ltac:(lia)).
  destruct (Nat.leb_spec (length (geqs pb (gc_ S pb))) (gn S pb)) as [Hle|Hgt].
  - destruct H1 as (s1 & E & H1 & S1). rewrite E. cbn [bind]. rewrite (g_nb _ _ _ (gi_sh _ _ _ H1)).
    pose proof (ginit_bnd pb s1 (gb S pb) H1 ltac:(lia) Hle) as H2.
    destruct (_ <=? _)%nat; auto. destruct H2 as (s2 & E2 & H2 & S2). exists s2. split; auto. split; auto. eapply gsame_trans; eauto.
  - rewrite H1. cbn [bind]. destruct (Nat.leb_spec (length (geqs pb (gc_ S pb + gb S pb))) (gn S pb)); auto. lia.
Qed.

Lemma act_inj_aset A j k : good A -> (j < nact A)%nat -> (k < nact A)%nat -> act A j = act A k -> j = k.
Proof.
  intros HG Hj Hk E. rewrite (nact_length _ HG) in *. pose proof (coh_nodup _ (proj1 HG)) as HN.
  eapply NoDup_nth; eauto.
Qed.
Lemma gstt_reset A i : stt (as_reset A) i = INACTIVE.
Proof.
  unfold stt, as_reset. simpl. destruct (nth_in_or_default i (map (fun _ => INACTIVE) (a_status A)) INACTIVE) as [H|H]; auto.
  apply in_map_iff in H as (x & <- & _). auto.
Qed.

Lemma ggi_init pb o s : gsh S pb s ->
  let L := snd (llt (gn S pb) (p_G pb)) in
  match fst (llt (gn S pb) (p_G pb)) with
  | Some _ => gi_init pb o s = Ok (NON_POS_HESSIAN, set_G s L)
  | None => exists s0, gi_init pb o s = (do s1 <- initActiveSet pb s0; Ok (SUCCESS, s1)) /\
     ginv pb 0 s0 /\ s_it s0 = s_it s /\ s_exp s0 = s_exp s /\ s_G s0 = L
  end.
Proof.
  intros HS. pose proof HS as [H1 H2 H3 H4 H5 H6 H7 H8 H9 H10 H11 H12].
  unfold gi_init. rewrite H5. destruct (llt (gn S pb) (p_G pb)) as ([p|] & L); simpl; auto.
  rewrite ggetM by (auto; lia). cbn [bind]. rewrite ggetV by auto. cbn [bind].
  eexists. split; [reflexivity|]. split; [|repeat split; reflexivity].
  split.
  - eapply gsh_trans; eauto; try reflexivity. simpl. apply good_reset. apply H2.
  - reflexivity.
  - intros i. simpl. rewrite gstt_reset. reflexivity.
Qed.

(** A solver object between calls *)
Record gwf (s : sol) : Prop := {
  gw_good : good (s_A s);
  gw_x : (s_n s <= w_size (s_x s))%nat; gw_z : (s_n s <= w_size (s_z s))%nat; gw_d : (s_n s <= w_size (s_d s))%nat;
  gw_J : (s_n s * s_n s <= w_size (s_J s))%nat; gw_R : (s_n s * s_n s <= w_size (s_R s))%nat;
  gw_u : (nbAll (s_A s) <= w_size (s_u s))%nat; gw_r : (nbAll (s_A s) <= w_size (s_r s))%nat
}.
Lemma gwf_new : gwf (sol_new S).
Proof. split; simpl; auto. apply good_new. Qed.
Lemma gsh_wf pb s : gsh S pb s -> gwf s.
Proof.
  intros HS. assert (E : nbAll (s_A s) = gcb S pb) by (unfold nbAll; rewrite (g_nc _ _ _ HS), (g_nb _ _ _ HS); auto).
  destruct HS as [H1 H2 H3 H4 H5 H6 H7 H8 H9 H10 H11 H12].
  rewrite <- H5 in *. split; auto; rewrite E; auto.
Qed.

Lemma gw_resize (j : vec S) w k : (k <= w_size (w_resize j w k))%nat.
Proof. unfold w_resize. destruct (Nat.ltb_spec (w_size w) k); simpl; lia. Qed.

(** What [resize] guarantees, also for the public call [resize(nbVar, nbCstr, useBounds)] *)
Lemma gresize junk s n m ub : gwf s ->
  let s' := resize junk s n m ub in
  s_n s' = n /\ a_nc (s_A s') = m /\ a_nb (s_A s') = (if ub then n else 0)%nat /\ good (s_A s') /\
  (n <= w_size (s_x s'))%nat /\ (n <= w_size (s_z s'))%nat /\ (n <= w_size (s_d s'))%nat /\
  (n * n <= w_size (s_J s'))%nat /\ (n * n <= w_size (s_R s'))%nat /\
  (m + (if ub then n else 0) <= w_size (s_u s'))%nat /\ (m + (if ub then n else 0) <= w_size (s_r s'))%nat.
Proof.
  intros [H1 H2 H3 H4 H5 H6 H7 H8]. simpl. unfold resize, resize_p.
  assert (HR : forall w k, (k <= w_size (w_resize junk w k))%nat) by (intros; apply gw_resize).
  set (nb := if ub then n else 0%nat).
  set (s1 := resize_d junk s n).
  assert (D : (n <= w_size (s_d s1))%nat /\ (n * n <= w_size (s_J s1))%nat /\ (n * n <= w_size (s_R s1))%nat /\
     s_A s1 = s_A s /\ s_n s1 = s_n s /\ s_x s1 = s_x s /\ s_z s1 = s_z s /\ s_u s1 = s_u s /\ s_r s1 = s_r s).
  { unfold s1, resize_d. destruct (Nat.eqb_spec n (s_n s)) as [E|E].
    - rewrite E. repeat (split; [assumption||reflexivity|]). reflexivity.
    - repeat (split; [apply HR||reflexivity|]). reflexivity. }
  clearbody s1. destruct D as (D1 & D2 & D3 & D4 & D5 & D6 & D7 & D8 & D9). rewrite D5.
  set (s2 := if (n =? s_n s)%nat then s1 else _).
  assert (F : (n <= w_size (s_d s2))%nat /\ (n * n <= w_size (s_J s2))%nat /\ (n * n <= w_size (s_R s2))%nat /\
     (n <= w_size (s_x s2))%nat /\ (n <= w_size (s_z s2))%nat /\
     s_A s2 = s_A s /\ s_n s2 = n /\ s_u s2 = s_u s /\ s_r s2 = s_r s).
  { unfold s2. destruct (Nat.eqb_spec n (s_n s)) as [E|E].
    - split; [auto|]. split; [auto|]. split; [auto|]. split; [rewrite D6, E; auto|]. split; [rewrite D7, E; auto|].
      repeat split; auto. congruence.
    - repeat (split; [assumption || apply HR|]). repeat split; auto. }
  clearbody s2. clear D1 D2 D3 D4 D5 D6 D7 D8 D9. destruct F as (F1 & F2 & F3 & F4 & F5 & F6 & F7 & F8 & F9).
  rewrite F6.
  set (s3 := if (m + nb =? nbAll (s_A s))%nat then s2 else _).
  assert (K : (n <= w_size (s_d s3))%nat /\ (n * n <= w_size (s_J s3))%nat /\ (n * n <= w_size (s_R s3))%nat /\
     (n <= w_size (s_x s3))%nat /\ (n <= w_size (s_z s3))%nat /\
     s_A s3 = s_A s /\ s_n s3 = n /\ (m + nb <= w_size (s_u s3))%nat /\ (m + nb <= w_size (s_r s3))%nat).
  { unfold s3. destruct (Nat.eqb_spec (m + nb) (nbAll (s_A s))) as [E|E].
    - repeat (split; [assumption|]). rewrite E, F8, F9. auto.
    - repeat (split; [assumption|]). split; apply HR. }
  clearbody s3. destruct K as (K1 & K2 & K3 & K4 & K5 & K6 & K7 & K8 & K9). rewrite K6.
  destruct (Nat.eqb_spec m (a_nc (s_A s))) as [Ec|Ec]; cbn [andb].
  1: destruct (Nat.eqb_spec nb (a_nb (s_A s))) as [Eb|Eb]; cbn [andb].
  - rewrite K6. repeat (split; auto).
  - cbn [s_n s_A s_x s_z s_d s_J s_R s_u s_r set_A]. repeat (split; [assumption || reflexivity || apply good_resize|]). assumption.
  - cbn [s_n s_A s_x s_z s_d s_J s_R s_u s_r set_A]. repeat (split; [assumption || reflexivity || apply good_resize|]). assumption.
Qed.
Lemma gresize_wf junk s n m ub : gwf s -> gwf (resize junk s n m ub).
Proof.
  intros H. destruct (gresize junk s n m ub H) as (E1 & E2 & E3 & E4 & F1 & F2 & F3 & F4 & F5 & F6 & F7).
  split; auto; rewrite ?E1; auto; unfold nbAll; rewrite E2, E3; auto.
Qed.
Lemma gresize_sh junk pb s : gwf s -> sizes_ok pb = true -> gsh S pb (resize junk s (p_Grows pb) (p_Ccols pb) (0 <? p_xlsize pb)%nat).
Proof.
  intros H Hs. destruct (gresize junk s (p_Grows pb) (p_Ccols pb) (0 <? p_xlsize pb)%nat H) as (E1 & E2 & E3 & E4 & F1 & F2 & F3 & F4 & F5 & F6 & F7).
  assert (Hnb : (if (0 <? p_xlsize pb)%nat then p_Grows pb else 0%nat) = gb S pb).
  { unfold gb. clear -Hs. unfold sizes_ok in Hs. rewrite !andb_true_iff, orb_true_iff, !Nat.eqb_eq in Hs.
    destruct Hs as ((_ & [E|E]) & _); rewrite E; auto. destruct (Nat.ltb_spec 0 (p_Grows pb)); auto; lia. }
  rewrite Hnb in *. split; auto.
Qed.

(** ** The whole call *)
Record gdone (pb : problem) (o : options S) (st : term_status) (s : sol) : Prop := {
  gd_sh : gsh S pb s;
  gd_exp : s_exp s = true;
  gd_G : s_G s = snd (llt (gn S pb) (p_G pb))
}.

(** equality constraints are an initial segment of the constraint indices *)
Definition geq_first (pb : problem) : Prop := forall i j, (i < j)%nat -> (j < gcb S pb)%nat -> geq pb j = true -> geq pb i = true.
(** equality [k] is active, as the [k]-th active constraint, for all k < e *)
Definition galigned (e : nat) (A : aset) : Prop :=
  (e <= nact A)%nat /\ forall k, (k < e)%nat -> act A k = k /\ isEq (stt A k) = true.

Lemma gsolve junk pb o s : safe_ops S -> leb S (o_bigBnd o) (o_bigBnd o) = true -> gwf s ->
  if negb (sizes_ok pb) then gi_solve junk pb o s = UB
  else match fst (llt (gn S pb) (p_G pb)) with
  | Some _ => exists s', gi_solve junk pb o s = Ok (NON_POS_HESSIAN, s') /\ gdone pb o NON_POS_HESSIAN s' /\ s_it s' = 0%nat
  | None => if (length (geqs pb (gcb S pb)) <=? gn S pb)%nat then
      exists s0, ginv pb (gcb S pb) s0 /\ s_it s0 = 0%nat /\ s_exp s0 = true /\ s_G s0 = snd (llt (gn S pb) (p_G pb)) /\
        gi_solve junk pb o s = loop pb o (o_maxIter o) (L s0 false (SC 0 INACTIVE))
    else gi_solve junk pb o s = UB
  end.
Proof.
  intros HO HB HW. unfold gi_solve. destruct (sizes_ok pb) eqn:Hsz; [|reflexivity]. cbn [guard negb].
  pose proof (gresize_sh junk pb s HW Hsz) as HS.
  set (s1 := resize junk s _ _ _) in *. unfold dual_solve, dual_init.
  set (s2 := set_it (if o_warm o then set_exp s1 true else set_A (set_exp s1 true) (as_reset (s_A (set_exp s1 true)))) 0).
  assert (HS2 : gsh S pb s2).
  { unfold s2. destruct (o_warm o); eapply gsh_trans; eauto; try reflexivity; simpl; [apply HS|apply good_reset, HS]. }
  assert (Eit : s_it s2 = 0%nat) by (unfold s2; destruct (o_warm o); auto).
  assert (Eex : s_exp s2 = true) by (unfold s2; destruct (o_warm o); auto).
  clearbody s2. pose proof (ggi_init pb o s2 HS2) as HI. cbv zeta in HI.
  destruct (fst (llt (gn S pb) (p_G pb))) as [p|].
  - rewrite HI. cbn [bind]. simpl. eexists. split; [reflexivity|]. split; auto. split; auto.
    eapply gsh_trans; eauto; try reflexivity. apply HS2.
  - destruct HI as (s0 & E & H0 & I0 & P0 & G0). rewrite E. pose proof (ginitActiveSet pb s0 H0) as HA.
    destruct (length (geqs pb (gcb S pb)) <=? gn S pb)%nat eqn:EL.
    + destruct HA as (s3 & E3 & H3 & [K1 K2 K3]). exists s3. split; auto. split; [congruence|]. split; [congruence|]. split; [congruence|].
      rewrite E3. cbn [bind]. pose proof (gi_sh _ _ _ H3) as HS3. rewrite (g_n _ _ _ HS3).
      rewrite ggetV by apply HS3. cbn [bind]. rewrite ggetV by apply HS3. cbn [bind].
      rewrite ggetV by (pose proof (gnact_le _ _ _ HS3); pose proof (g_u _ _ _ HS3); lia). cbn [bind].
      rewrite K1, I0, Eit, Nat.sub_0_r.
      destruct (gloop_inv S pb o (fun _ => True) HO HB) with (fuel := o_maxIter o) (l := L s3 false (SC 0 INACTIVE))
        as (st & s' & El & _ & _ & _ & _ & _ & Hst); auto.
      { split; simpl; auto; [|discriminate]. rewrite (ginv_nact _ _ _ H3). apply Nat.leb_le. auto. }
      rewrite El. cbn [bind]. destruct Hst as [[-> _]|[[-> | ->] _]]; auto.
    + rewrite HA. auto.
Qed.

(** Result of a call: never UB unless the sizes are wrong or there are more
    equality constraints than variables. *)
Lemma gsolve_result junk pb o s : safe_ops S -> leb S (o_bigBnd o) (o_bigBnd o) = true -> gwf s ->
  sizes_ok pb = true -> (fst (llt (gn S pb) (p_G pb)) = None -> (length (geqs pb (gcb S pb)) <= gn S pb)%nat) ->
  exists st s', gi_solve junk pb o s = Ok (st, s') /\ gdone pb o st s' /\
    ((st = NON_POS_HESSIAN /\ fst (llt (gn S pb) (p_G pb)) <> None /\ s_it s' = 0%nat) \/
     (fst (llt (gn S pb) (p_G pb)) = None /\ (nact (s_A s') <= gn S pb)%nat /\
      (geq_first pb -> galigned (length (geqs pb (gcb S pb))) (s_A s')) /\
      ((st = MAX_ITER_REACHED /\ s_it s' = o_maxIter o) \/ ((st = SUCCESS \/ st = INFEASIBLE) /\ (s_it s' < o_maxIter o)%nat)))).
Proof.
  intros HO HB HW Hsz Hle. pose proof (gsolve junk pb o s HO HB HW) as HG. rewrite Hsz in HG. cbn [negb] in HG.
  destruct (fst (llt (gn S pb) (p_G pb))) as [p|] eqn:El.
  - destruct HG as (s' & E & HD & I). exists NON_POS_HESSIAN, s'. split; auto. split; auto. left. split; auto. split; auto. discriminate.
  - specialize (Hle eq_refl). destruct (Nat.leb_spec (length (geqs pb (gcb S pb))) (gn S pb)) as [_|]; [|lia].
    destruct HG as (s0 & H0 & I0 & P0 & G0 & E). rewrite E.
    set (e := length (geqs pb (gcb S pb))) in *.
    assert (HL : glinv S pb (L s0 false (SC 0 INACTIVE))).
    { split; simpl; [apply H0| |discriminate]. rewrite (ginv_nact _ _ _ H0). auto. }
    assert (Halign0 : geq_first pb -> galigned e (s_A s0)).
    { intros HF. assert (EQ : geqs pb (gcb S pb) = seq 0 e).
      { unfold e. clear -HF. unfold geqs. assert (H : forall k, (k <= gcb S pb)%nat -> exists j, filter (geq pb) (seq 0 k) = seq 0 j /\ (j <= k)%nat /\ forall i, (i < k)%nat -> (j <= i)%nat -> geq pb i = false).
        { induction k as [|k IH]; intros Hk; [exists 0%nat; simpl; repeat split; auto; lia|].
          destruct IH as (j & E & Hj & Hn); [lia|]. change (filter (geq pb) (seq 0 (Datatypes.S k))) with (geqs pb (Datatypes.S k)). rewrite geqs_S. unfold geqs. rewrite E.
          destruct (geq pb k) eqn:Ek.
          - assert (j = k). { destruct (Nat.eq_dec j k); auto. exfalso. assert (Hg : geq pb j = true) by (apply (HF j k); auto; lia).
              rewrite Hn in Hg; auto; [discriminate|lia]. } subst j.
            exists (Datatypes.S k). rewrite <- (Nat.add_1_r k), seq_app. repeat split; auto; lia.
          - exists j. rewrite app_nil_r. repeat split; auto. intros i Hi Hji. destruct (Nat.eq_dec i k) as [->|]; auto. apply Hn; lia. }
        destruct (H (gcb S pb)) as (j & E & _); auto. rewrite E, seq_length. auto. }
      split; [rewrite (ginv_nact _ _ _ H0); fold e; auto|]. intros k Hk.
      assert (Hin : In k (geqs pb (gcb S pb))) by (rewrite EQ; apply in_seq; lia).
      apply filter_In in Hin as [Hin Hgk]. apply in_seq in Hin. split.
      - unfold act. rewrite (gi_list _ _ _ H0), EQ. rewrite seq_nth; auto.
      - rewrite (gi_stt _ _ _ H0). destruct (Nat.ltb_spec k (gcb S pb)); [|lia]. rewrite Hgk. unfold gstat. simpl.
        destruct (k <? gc_ S pb)%nat; auto. }
    assert (HI : exists st s', loop pb o (o_maxIter o) (L s0 false (SC 0 INACTIVE)) = Ok (st, s') /\ gsh S pb s' /\
       (geq_first pb -> galigned e (s_A s')) /\ (nact (s_A s') <= gn S pb)%nat /\ s_exp s' = s_exp s0 /\ s_G s' = s_G s0 /\
       ((st = MAX_ITER_REACHED /\ s_it s' = (s_it s0 + o_maxIter o)%nat) \/
        ((st = SUCCESS \/ st = INFEASIBLE) /\ (s_it s0 <= s_it s' < s_it s0 + o_maxIter o)%nat))).
    { apply (gloop_inv S pb o (fun A => geq_first pb -> galigned e A) HO HB); auto.
      - intros A sc A' HA Hin Hne Hadd HF. destruct (HA HF) as [A1 A2]. split; [rewrite (aa_nact _ _ _ Hadd); lia|].
        intros k Hk. destruct (A2 k Hk) as [B1 B2]. split.
        + rewrite (aa_act _ _ _ Hadd) by lia. auto.
        + rewrite (aa_stt _ _ _ Hadd). destruct (Nat.eqb_spec k (sc_idx sc)) as [->|]; auto. rewrite Hin in B2. discriminate.
      - intros A i A' HA HGd Hi Hie Hrem HF. destruct (HA HF) as [A1 A2].
        assert (Hei : (e <= i)%nat). { destruct (Nat.le_gt_cases e i); auto. destruct (A2 i) as [_ B]; auto. rewrite B in Hie. discriminate. }
        pose proof (ar_nact _ _ _ Hrem) as EN. split; [lia|]. intros k Hk. destruct (A2 k Hk) as [B1 B2]. split.
        + rewrite (ar_act _ _ _ Hrem). destruct (Nat.ltb_spec k i); [auto|lia].
        + rewrite (ar_stt _ _ _ Hrem). destruct (Nat.eqb_spec k (act A i)) as [E1|]; auto. exfalso.
          assert (i = k). { apply (act_inj_aset A); auto; first [lia | congruence]. } lia. }
    destruct HI as (st & s' & E1 & R1 & R2 & R3 & R4 & R5 & R6). exists st, s'. split; auto.
    rewrite I0 in R6. simpl in R6. rewrite P0 in R4. rewrite G0 in R5. split; [split; auto|]. right. split; auto. split; auto. split; auto.
    destruct R6 as [[-> R6]|[R6 R7]]; [left|right]; split; auto; lia.
Qed.
End Call.

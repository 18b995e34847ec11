(** Invariants of the dense Goldfarb-Idnani iteration: adding / removing a
    constraint, and the primal invariant. *)
From Coq Require Import List Arith ZArith Lia Bool Reals Lra.
From Verif Require Import Base ActiveSet ActiveSetProofs Num Solver LinAlg QRUpdate QPSpec GIMath GIBase.
Import ListNotations.
Local Open Scope R_scope.

Lemma qr_ext n q J R N J' R' N' :
  (forall a b, (a < n)%nat -> (b < n)%nat -> J' a b = J a b) ->
  (forall i k, (i <= k)%nat -> (k < q)%nat -> R' i k = R i k) ->
  (forall k a, (k < q)%nat -> (a < n)%nat -> N' k a = N k a) ->
  qr n q J R N -> qr n q J' R' N'.
Proof.
  intros HJ HR HN [Q1 Q2 Q3 Q4]. split; auto.
  - intros k i Hk Hi. rewrite HR by auto. rewrite <- Q2 by auto. apply tdot_ext; intros; [apply HJ|apply HN]; auto; lia.
  - intros k i Hk Hi Hin. rewrite <- (Q3 k i) by auto. apply tdot_ext; intros; [apply HJ|apply HN]; auto.
  - intros k Hk. rewrite HR by auto. auto.
Qed.
Lemma gram_ext n J J' a b : (forall a b, (a < n)%nat -> (b < n)%nat -> J' a b = J a b) ->
  (a < n)%nat -> (b < n)%nat -> gram n J' a b = gram n J a b.
Proof. intros H Ha Hb. apply sum_ext. intros k Hk. rewrite !H by auto. auto. Qed.

(** ** Active-set changes *)
Lemma nth_set_nth {X} (l : list X) i j x d : (i < length l)%nat ->
  nth j (set_nth l i x) d = if (j =? i)%nat then x else nth j l d.
Proof.
  intros Hi. destruct (Nat.eqb_spec j i) as [->|Hne].
  - apply nth_error_nth. apply set_nth_same. auto.
  - destruct (Nat.lt_ge_cases j (length l)) as [Hj|Hj].
    + apply nth_error_nth. rewrite set_nth_other by auto. apply nth_error_nth'. auto.
    + rewrite !nth_overflow; auto. rewrite set_nth_length. auto.
Qed.

Record act_added (A : aset) (sc : selcstr) (A' : aset) : Prop := {
  aa_good : good A'; aa_nc : a_nc A' = a_nc A; aa_nb : a_nb A' = a_nb A;
  aa_nact : nact A' = S (nact A);
  aa_act : forall k, (k < nact A)%nat -> act A' k = act A k;
  aa_last : act A' (nact A) = sc_idx sc;
  aa_stt : forall i, stt A' i = if (i =? sc_idx sc)%nat then sc_st sc else stt A i;
  aa_list : a_active A' = a_active A ++ [sc_idx sc]
}.
Lemma activate_added A sc : good A -> (sc_idx sc < a_nc A + a_nb A)%nat -> kind_ok (a_nc A) (sc_idx sc) (sc_st sc) = true ->
  stt A (sc_idx sc) = INACTIVE ->
  exists A', as_activate A (sc_idx sc) (sc_st sc) = Ok A' /\ act_added A sc A'.
Proof.
  intros HG Hi HK Hst.
  assert (HL : length (a_status A) = (a_nc A + a_nb A)%nat) by apply HG.
  destruct (proj2 (activate_legal A (sc_idx sc) (sc_st sc) HG)) as (A' & E).
  { split.
    - rewrite <- Hst. unfold stt. apply nth_error_nth'. lia.
    - apply kind_ok_spec in HK. destruct HK as [[? ?]|[? ?]]; [left|right]; auto. }
  exists A'. split; auto. pose proof (good_activate _ _ _ _ HG E) as HG'.
  apply activate_inv in E as (_ & _ & _ & ES & EA & EC & EN & _).
  assert (En : nact A' = S (nact A)) by (rewrite !nact_length, EA, app_length by auto; simpl; lia).
  split; auto.
  - intros k Hk. rewrite nact_length in Hk by auto. unfold act. rewrite EA, app_nth1; auto.
  - unfold act. rewrite EA, nact_length by auto. rewrite app_nth2, Nat.sub_diag by lia. auto.
  - intros i. unfold stt. rewrite ES. rewrite nth_set_nth by lia. auto.
Qed.

Record act_removed (A : aset) (l : nat) (A' : aset) : Prop := {
  ar_good : good A'; ar_nc : a_nc A' = a_nc A; ar_nb : a_nb A' = a_nb A;
  ar_nact : nact A = S (nact A');
  ar_act : forall k, act A' k = if (k <? l)%nat then act A k else act A (S k);
  ar_stt : forall i, stt A' i = if (i =? act A l)%nat then INACTIVE else stt A i
}.
Lemma nth_remove_nth {X} (l : list X) k j d : (k < length l)%nat ->
  nth j (remove_nth l k) d = if (j <? k)%nat then nth j l d else nth (S j) l d.
Proof.
  intros Hk. destruct (nth_error l k) as [x|] eqn:E; [|apply nth_error_None in E; lia].
  destruct (remove_nth_split _ _ _ E) as (l1 & l2 & -> & <- & ->).
  destruct (Nat.ltb_spec j (length l1)).
  - rewrite !app_nth1; auto.
  - rewrite !app_nth2 by lia. replace (S j - length l1)%nat with (S (j - length l1)) by lia. auto.
Qed.
Lemma deactivate_removed A l : good A -> (l < nact A)%nat ->
  exists A', as_deactivate A l = Ok A' /\ act_removed A l A'.
Proof.
  intros HG Hl. rewrite nact_length in Hl by auto.
  destruct (proj2 (deactivate_legal A l HG)) as (A' & E); auto.
  exists A'. split; auto. pose proof (good_deactivate _ _ _ HG E) as HG'.
  apply deactivate_inv in E as (i & st & E1 & E2 & Hst & ES & EA & EC & EN & _).
  assert (Ei : act A l = i) by (unfold act; apply nth_error_nth; auto).
  split; auto.
  - rewrite !nact_length, EA by auto. destruct (remove_nth_split _ _ _ E1) as (l1 & l2 & -> & _ & ->).
    rewrite !app_length. simpl. lia.
  - intros k. unfold act. rewrite EA. apply nth_remove_nth. auto.
  - intros j. rewrite Ei. unfold stt. rewrite ES. apply nth_set_nth. apply nth_error_Some. congruence.
Qed.

(** ** addConstraint *)
Record added (pb : rproblem) (s : rsol) (sc : selcstr) (s' : rsol) : Prop := {
  ad_shape : shape pb s';
  ad_A : act_added (s_A s) sc (s_A s');
  ad_it : s_it s' = s_it s; ad_f : s_f s' = s_f s; ad_x : s_x s' = s_x s; ad_u : s_u s' = s_u s;
  ad_exp : s_exp s' = s_exp s; ad_G : s_G s' = s_G s; ad_r : s_r s' = s_r s;
  ad_qr : qr (nv pb) (nact (s_A s)) (Jof s) (Rof s) (Nact pb (s_A s)) ->
     (forall j, (j < nv pb)%nat -> dof s j = tdot (nv pb) (Jof s) j (scn pb sc)) ->
     (exists j, (nact (s_A s) <= j)%nat /\ (j < nv pb)%nat /\ dof s j <> 0) ->
     qr (nv pb) (nact (s_A s')) (Jof s') (Rof s') (Nact pb (s_A s')) /\
     (forall a b, (a < nv pb)%nat -> (b < nv pb)%nat -> gram (nv pb) (Jof s') a b = gram (nv pb) (Jof s) a b)
}.

Lemma Nact_added pb s sc A' k : shape pb s -> act_added (s_A s) sc A' -> stt (s_A s) (sc_idx sc) = INACTIVE ->
  (k <= nact (s_A s))%nat ->
  Nact pb A' k = (if (k =? nact (s_A s))%nat then scn pb sc else Nact pb (s_A s) k) /\
  Bact pb A' k = (if (k =? nact (s_A s))%nat then scb pb sc else Bact pb (s_A s) k) /\
  (stt A' (act A' k) = if (k =? nact (s_A s))%nat then sc_st sc else stt (s_A s) (act (s_A s) k)).
Proof.
  intros Hs [H1 H2 H3 H4 H5 H6 H7 _] Hst Hk. unfold Nact, Bact.
  assert (E : act A' k = (if (k =? nact (s_A s))%nat then sc_idx sc else act (s_A s) k) /\
     stt A' (act A' k) = (if (k =? nact (s_A s))%nat then sc_st sc else stt (s_A s) (act (s_A s) k))).
  { destruct (Nat.eqb_spec k (nact (s_A s))) as [->|Hne].
    - rewrite H6, H7, Nat.eqb_refl. auto.
    - rewrite H5 by lia. rewrite H7. destruct (Nat.eqb_spec (act (s_A s) k) (sc_idx sc)) as [E|]; auto.
      exfalso. destruct (act_props pb s k Hs ltac:(lia)) as (_ & H & _). congruence. }
  destruct E as [-> ->]. destruct (k =? nact (s_A s))%nat; auto.
Qed.

Lemma addConstraint_spec pb s sc : shape pb s -> sel_valid pb sc -> stt (s_A s) (sc_idx sc) = INACTIVE ->
  (nact (s_A s) < nv pb)%nat ->
  exists s', addConstraint s sc = Ok s' /\ added pb s sc s'.
Proof.
  intros Hs (Hi & HK) Hst Hq. unfold addConstraint.
  destruct (activate_added (s_A s) sc) as (A' & EA & HA); auto.
  { apply Hs. } { rewrite (sh_nc _ _ Hs), (sh_nb _ _ Hs). auto. } { rewrite (sh_nc _ _ Hs). auto. }
  rewrite EA. cbn [bind]. unfold addConstraint_. cbn [s_n s_A s_d s_J s_R set_A].
  pose proof Hs as [H1 H2 H3 H4 H5 H6 H7 H8 H9 H10 H11 H12].
  rewrite (aa_nact _ _ _ HA), H5. set (n := nv pb) in *. set (q := nact (s_A s)) in *.
  rewrite getV_ok by auto. cbn [bind].
  rewrite getM_ok by (auto; lia). cbn [bind].
  destruct (add_loop n (n - S q) (n - 2) (w_buf (s_d s)) (view n (w_buf (s_J s)))) as (d', J') eqn:EL.
  rewrite getM_ok; [|nia|lia]. cbn [bind].
  replace (S q <=? n)%nat with true by (symmetry; apply Nat.leb_le; lia). cbn [guard].
  eexists. split; [reflexivity|].
  split; try reflexivity.
  - split; auto; simpl.
    + apply HA. + rewrite (aa_nc _ _ _ HA). auto. + rewrite (aa_nb _ _ _ HA). auto.
  - apply HA.
  - intros Hqr Hd Hd2. cbn [s_A set_A set_d set_J set_R]. rewrite (aa_nact _ _ _ HA).
    unfold Jof, Rof in *. cbn [s_n s_J s_R set_A set_d set_J set_R wset w_buf]. rewrite H5 in *. fold n in Hqr, Hd, Hd2 |- *.
    fold q in Hqr, Hd2 |- *.
    destruct (qr_add n q (w_buf (s_d s)) (view n (w_buf (s_J s))) (view n (w_buf (s_R s))) (Nact pb (s_A s)) (scn pb sc) d' J' Hqr Hq Hd Hd2 EL) as [Q HGm].
    split.
    + eapply qr_ext; [| | |exact Q].
      * intros a b Ha Hb. rewrite view_unview by auto. auto.
      * intros i k Hik Hk. rewrite view_unview by lia. simpl. rewrite Nat.sub_0_r. auto.
      * intros k a Hk Ha. destruct (Nact_added pb s sc A' k Hs HA Hst ltac:(fold q; lia)) as (-> & _). fold q. destruct (k =? q)%nat; auto.
    + intros a b Ha Hb. rewrite <- (HGm a b). apply gram_ext; auto. intros. apply view_unview; auto.
Qed.

(** ** removeConstraint *)
Record removed (pb : rproblem) (s : rsol) (l : nat) (s' : rsol) : Prop := {
  rm_shape : shape pb s';
  rm_A : act_removed (s_A s) l (s_A s');
  rm_it : s_it s' = s_it s; rm_f : s_f s' = s_f s; rm_x : s_x s' = s_x s;
  rm_exp : s_exp s' = s_exp s; rm_G : s_G s' = s_G s; rm_z : s_z s' = s_z s; rm_r : s_r s' = s_r s;
  rm_u : forall i, uof s' i = if (l <=? i)%nat && (i <? nact (s_A s))%nat then uof s (S i) else uof s i;
  rm_qr : qr (nv pb) (nact (s_A s)) (Jof s) (Rof s) (Nact pb (s_A s)) ->
     qr (nv pb) (nact (s_A s')) (Jof s') (Rof s') (Nact pb (s_A s')) /\
     (forall a b, (a < nv pb)%nat -> (b < nv pb)%nat -> gram (nv pb) (Jof s') a b = gram (nv pb) (Jof s) a b)
}.

Lemma Nact_removed pb s l A' k : shape pb s -> act_removed (s_A s) l A' -> (l < nact (s_A s))%nat ->
  (k < nact A')%nat ->
  Nact pb A' k = shiftN l (Nact pb (s_A s)) k /\
  Bact pb A' k = (if (k <? l)%nat then Bact pb (s_A s) k else Bact pb (s_A s) (S k)) /\
  stt A' (act A' k) = (if (k <? l)%nat then stt (s_A s) (act (s_A s) k) else stt (s_A s) (act (s_A s) (S k))).
Proof.
  intros Hs [H1 H2 H3 H4 H5 H6] Hl Hk. unfold Nact, Bact, shiftN.
  assert (E : act A' k = (if (k <? l)%nat then act (s_A s) k else act (s_A s) (S k)) /\
     stt A' (act A' k) = (if (k <? l)%nat then stt (s_A s) (act (s_A s) k) else stt (s_A s) (act (s_A s) (S k)))).
  { rewrite H6, H5. destruct (Nat.ltb_spec k l).
    - split; auto. destruct (Nat.eqb_spec (act (s_A s) k) (act (s_A s) l)) as [E|]; auto.
      apply (act_inj pb s) in E; auto; lia.
    - split; auto. destruct (Nat.eqb_spec (act (s_A s) (S k)) (act (s_A s) l)) as [E|]; auto.
      apply (act_inj pb s) in E; auto; lia. }
  destruct E as [-> ->]. destruct (k <? l)%nat; auto.
Qed.

Lemma removeConstraint_spec pb s l : shape pb s -> (l < nact (s_A s))%nat -> (nact (s_A s) <= nv pb)%nat ->
  exists s', removeConstraint s l = Ok s' /\ removed pb s l s'.
Proof.
  intros Hs Hl Hq. unfold removeConstraint.
  replace (l <=? nact (s_A s))%nat with true by (symmetry; apply Nat.leb_le; lia). cbn [guard s_A set_u].
  destruct (deactivate_removed (s_A s) l) as (A' & EA & HA); [apply Hs|auto|].
  rewrite EA. cbn [bind]. unfold removeConstraint_. cbn [s_n s_A s_d s_J s_R s_u set_A set_u].
  pose proof Hs as [H1 H2 H3 H4 H5 H6 H7 H8 H9 H10 H11 H12].
  pose proof (ar_nact _ _ _ HA) as EN.
  rewrite H5. set (n := nv pb) in *. set (q := nact A') in *.
  rewrite getM_ok by (auto; lia). cbn [bind].
  rewrite getM_ok; [|nia|lia]. cbn [bind].
  destruct (rem_loop n q (q - l) l (view n (w_buf (s_R s)), view n (w_buf (s_J s)))) as (R', J') eqn:EL.
  eexists. split; [reflexivity|].
  split; try reflexivity.
  - split; auto; simpl.
    + apply HA. + rewrite (ar_nc _ _ _ HA). auto. + rewrite (ar_nb _ _ _ HA). auto.
  - apply HA.
  - intros i. unfold uof. simpl. rewrite vm_at. rewrite Nat.add_1_r. auto.
  - intros Hqr. cbn [s_A set_A set_u set_J set_R]. fold q.
    unfold Jof, Rof in *. cbn [s_n s_J s_R set_A set_u set_J set_R wset w_buf]. rewrite H5 in *. fold n in Hqr |- *.
    rewrite EN in Hqr.
    destruct (qr_remove n q l _ _ _ R' J' Hqr ltac:(lia) EL) as [Q HGm].
    split.
    + eapply qr_ext; [| | |exact Q].
      * intros a b Ha Hb. rewrite view_unview by auto. auto.
      * intros i k Hik Hk. rewrite view_unview by lia. auto.
      * intros k a Hk Ha. destruct (Nact_removed pb s l A' k Hs HA Hl Hk) as (-> & _). auto.
    + intros a b Ha Hb. rewrite <- (HGm a b). apply gram_ext; auto. intros. apply view_unview; auto.
Qed.

(** ** The primal invariant *)
Record pinv (pb : rproblem) (s : rsol) : Prop := {
  pi_shape : shape pb s;
  pi_qr : qr (nv pb) (nact (s_A s)) (Jof s) (Rof s) (Nact pb (s_A s));
  pi_G : forall a c, (a < nv pb)%nat -> (c < nv pb)%nat ->
     rsum (nv pb) (fun b => hess pb a b * gram (nv pb) (Jof s) b c) = if (a =? c)%nat then 1 else 0;
  pi_tight : forall k, (k < nact (s_A s))%nat -> Bact pb (s_A s) k = Some (rdot (nv pb) (Nact pb (s_A s) k) (xof s));
  pi_eqst : forall i, (i < ncb pb)%nat -> isEq (stt (s_A s) i) = true -> is_equality pb i
}.

(** The selected constraint while it is being processed *)
Record selected (pb : rproblem) (s : rsol) (sc : selcstr) : Prop := {
  se_valid : sel_valid pb sc;
  se_inact : stt (s_A s) (sc_idx sc) = INACTIVE;
  se_neq : isEq (sc_st sc) = false;
  se_viol : exists b, scb pb sc = Some b /\ rdot (nv pb) (scn pb sc) (xof s) < b
}.

Lemma inactive_lt pb s i : shape pb s -> (i < ncb pb)%nat -> stt (s_A s) i = INACTIVE -> (nact (s_A s) < ncb pb)%nat.
Proof.
  intros Hs Hi Hst. rewrite (shape_nact _ _ Hs).
  assert (HN : NoDup (i :: a_active (s_A s))).
  { constructor; [|apply Hs]. intros HIn. apply Hs in HIn as (st & E & Hne).
    apply Hne. unfold stt in Hst. rewrite (nth_error_nth _ _ INACTIVE E) in Hst. auto. }
  assert (HI : incl (i :: a_active (s_A s)) (seq 0 (ncb pb))).
  { intros j [<-|Hj]; apply in_seq; [lia|]. apply Hs in Hj as (st & E & _).
    assert ((j < length (a_status (s_A s)))%nat) by (apply nth_error_Some; congruence).
    rewrite (shape_status_len _ _ Hs) in *. lia. }
  pose proof (NoDup_incl_length HN HI) as H. rewrite seq_length in H. simpl in H. lia.
Qed.

Lemma computeStep_pinv pb s sc : pinv pb s -> sel_valid pb sc ->
  exists s', computeStep pb s sc = Ok s' /\ step_rel pb s sc s' /\
    (forall i, (i < nact (s_A s))%nat -> rsum (nact (s_A s)) (fun k => upper (Rof s) i k * rof s' k) = dof s' i).
Proof.
  intros [P1 P2 P3 P4 P5] Hv.
  destruct (computeStep_spec pb s sc P1 Hv) as (s' & E & HS); [apply (qr_le _ _ _ _ _ P2)|].
  exists s'. split; auto. split; auto. apply (sr_rof _ _ _ _ HS). intros i Hi. apply (qr_diag _ _ _ _ _ P2); auto.
Qed.

(** ** One execution of step 2, described on the mathematical objects *)
Definition znorm (pb : rproblem) (s : rsol) : R := @norm Rops (nv pb) (zof s).
Definition eps : R := / 10 ^ 14.
Definition nz (pb : rproblem) (sc : selcstr) (s1 : rsol) : R := rdot (nv pb) (scn pb sc) (zof s1).

(** State between the computation of the step and the update of the factorisation *)
Record moved (pb : rproblem) (s : rsol) (sc : selcstr) (s1 : rsol) (tau t : R) (s2 : rsol) : Prop := {
  mv_shape : shape pb s2; mv_A : s_A s2 = s_A s; mv_J : Jof s2 = Jof s; mv_R : Rof s2 = Rof s;
  mv_it : s_it s2 = s_it s; mv_exp : s_exp s2 = s_exp s; mv_d : dof s2 = dof s1; mv_G : s_G s2 = s_G s;
  mv_x : forall i, (i < nv pb)%nat -> xof s2 i = xof s i + tau * zof s1 i;
  mv_f : s_f s2 = s_f s + tau * nz pb sc s1 * (/ 2 * t + uof s (nact (s_A s)));
  mv_u : forall i, uof s2 i = if (i <? nact (s_A s))%nat then uof s i - t * rof s1 i
                              else if (i =? nact (s_A s))%nat then uof s i + t else uof s i
}.

(** [blocked]: no primal step is made, because z is (numerically) zero or the step too long *)
Definition blocked (pb : rproblem) (big : R) (sc : selcstr) (s s1 : rsol) (b : R) : Prop :=
  znorm pb s1 <= eps \/ big <= (b - rdot (nv pb) (scn pb sc) (xof s)) / nz pb sc s1.
Definition t2of (pb : rproblem) (sc : selcstr) (s s1 : rsol) (b : R) : R :=
  (b - rdot (nv pb) (scn pb sc) (xof s)) / nz pb sc s1.

Inductive step2_case (pb : rproblem) (big : R) (s : rsol) (sc : selcstr) (s1 : rsol) (b t1 : R) (l : nat) :
    iter_out Rops -> Prop :=
| case_infeasible : big <= t1 -> blocked pb big sc s s1 b ->
    step2_case pb big s sc s1 b t1 l (Stop INFEASIBLE s1)
| case_dual s2 s' : t1 < big -> blocked pb big sc s s1 b -> (l < nact (s_A s))%nat ->
    moved pb s sc s1 0 t1 s2 -> removed pb s2 l s' ->
    step2_case pb big s sc s1 b t1 l (Continue (L s' true sc))
| case_full s2 s' : eps < znorm pb s1 -> t2of pb sc s s1 b < big -> t2of pb sc s s1 b <= t1 ->
    moved pb s sc s1 (t2of pb sc s s1 b) (t2of pb sc s s1 b) s2 -> added pb s2 sc s' ->
    step2_case pb big s sc s1 b t1 l (Continue (L s' false sc))
| case_partial s2 s' : eps < znorm pb s1 -> t2of pb sc s s1 b < big -> t1 < t2of pb sc s s1 b ->
    (l < nact (s_A s))%nat ->
    moved pb s sc s1 t1 t1 s2 -> removed pb s2 l s' ->
    step2_case pb big s sc s1 b t1 l (Continue (L s' true sc)).

Lemma nz_pos pb s sc s1 : pinv pb s -> step_rel pb s sc s1 -> eps < znorm pb s1 -> 0 < nz pb sc s1.
Proof.
  intros [P1 P2 P3 P4 P5] HS Hz. unfold nz.
  apply (step_nz_pos (nv pb) (nact (s_A s)) (Jof s) (Rof s) (Nact pb (s_A s)) (scn pb sc) (dof s1) (zof s1) P2);
    try apply HS.
  apply (norm_pos_nz _ _ eps); [pose proof eps_pos; unfold eps; lra|auto].
Qed.

Lemma full_room pb s sc s1 : pinv pb s -> step_rel pb s sc s1 -> 0 < nz pb sc s1 ->
  exists j, (nact (s_A s) <= j)%nat /\ (j < nv pb)%nat /\ dof s1 j <> 0.
Proof.
  intros [P1 P2 P3 P4 P5] HS Hz.
  apply (step_d2 (nv pb) (nact (s_A s)) (Jof s) (Rof s) (Nact pb (s_A s)) (scn pb sc) (dof s1) (zof s1) P2);
    try apply HS. exact Hz.
Qed.

Lemma half_R : half Rops = / 2.
Proof. unfold half. rops. lra. Qed.

Lemma step2_spec pb o s sk sc b : pinv pb s -> selected pb s sc -> scb pb sc = Some b ->
  exists s1 t1 l out, step2 pb o (L s sk sc) = Ok out /\ computeStep pb s sc = Ok s1 /\
    step_rel pb s sc s1 /\
    (forall i, (i < nact (s_A s))%nat -> rsum (nact (s_A s)) (fun k => upper (Rof s) i k * rof s1 k) = dof s1 i) /\
    len1_ok (s_A s) (uof s) (rof s1) (o_bigBnd o) (nact (s_A s)) t1 l /\
    step2_case pb (o_bigBnd o) s sc s1 b t1 l out.
Proof.
  intros HP HSel Hb. pose proof HP as [P1 P2 P3 P4 P5]. pose proof HSel as [Hv Hin Hneq _].
  unfold step2. cbn [l_s l_sc].
  destruct (computeStep_pinv pb s sc HP Hv) as (s1 & E1 & HS & Hr). rewrite E1. cbn [bind].
  unfold computeStepLength. pose proof HS as [S1 S2 S3 S4 S5 S6 S7 S8 S9 S10 S11 S12 S13 _].
  rewrite S4, S3, S6, S7. fold (uof s) (xof s) (rof s1) (zof s1).
  destruct (len1_spec pb s (uof s) (rof s1) (o_bigBnd o) (nact (s_A s)) P1) as (t1 & l & EL & HL).
  { apply shape_nact_le. auto. }
  rewrite EL. cbn [bind]. rewrite cn_ok_valid by auto. cbn [guard].
  rewrite (sh_n _ _ P1). set (n := nv pb) in *. set (q := nact (s_A s)) in *.
  exists s1, t1, l.
  assert (Et2 : exists t2,
    (if ltb Rops (eps14 Rops) (norm n (zof s1)) then len2 pb n (xof s) (zof s1) sc else Ok (o_bigBnd o)) = Ok t2 /\
    ((znorm pb s1 <= eps /\ t2 = o_bigBnd o) \/ (eps < znorm pb s1 /\ t2 = t2of pb sc s s1 b))).
  { rops. unfold znorm. fold n. change (/ 10 ^ 14) with eps. destruct (Rltb_spec eps (norm n (zof s1))) as [Hz|Hz].
    - destruct (len2_spec pb (xof s) (zof s1) sc b) as (t2 & E & Et); auto.
      { apply P1. } { pose proof (nz_pos pb s sc s1 HP HS Hz) as H. unfold nz in H. apply Rgt_not_eq. exact H. }
      exists t2. split; auto.
    - exists (o_bigBnd o). split; auto. left. split; [|auto]. apply Rnot_lt_le. auto. }
  destruct Et2 as (t2 & Et2 & Ht2). rewrite Et2. cbn [bind fst snd].
  assert (Hblk : o_bigBnd o <= t2 -> blocked pb (o_bigBnd o) sc s s1 b).
  { intros H. unfold blocked. destruct Ht2 as [[? ?]|[? Et]]; [left; auto|]. right. rewrite Et in H. exact H. }
  assert (Hnb : t2 < o_bigBnd o -> eps < znorm pb s1 /\ t2 = t2of pb sc s s1 b).
  { intros H. destruct Ht2 as [[? ?]|[? ?]]; auto. lra. }
  destruct HL as [HL1 HL2 HL3].
  assert (Hqm := shape_nact_le _ _ P1). fold q in Hqm.
  assert (Hqn : (q <= n)%nat) by apply (qr_le _ _ _ _ _ P2).
  assert (Hqlt : (q < ncb pb)%nat) by (apply (inactive_lt pb s (sc_idx sc)); auto; apply Hv).
  rops.
  set (t := if Rltb t2 t1 then t2 else t1).
  assert (Et : (t2 < t1 /\ t = t2) \/ (t1 <= t2 /\ t = t1)).
  { unfold t. destruct (Rltb_spec t2 t1); [left|right]; split; auto. lra. }
  assert (Hlen : len1_ok (s_A s) (uof s) (rof s1) (o_bigBnd o) q t1 l) by (split; auto).
  destruct (Rleb_spec (o_bigBnd o) t) as [Hbt|Hbt].
  { eexists. split; [reflexivity|]. repeat (split; [assumption || reflexivity|]). apply case_infeasible; [lra|].
    apply Hblk. lra. }
  assert (Hmoved : forall tau, (tau = 0 \/ tau = t) -> forall s2,
    s2 = St (s_it s) n (s_A s) (if Req_EM_T tau 0 then s_f s else s_f s + tau * nz pb sc s1 * (/2 * t + uof s q))
            (if Req_EM_T tau 0 then s_x s else wset (s_x s) (vhead n (fun i => xof s i + tau * zof s1 i) (xof s)))
            (s_z s1) (wset (s_u s) (dual_step q t (uof s) (rof s1))) (s_r s1) (s_exp s) (s_d s1) (s_J s) (s_R s) (s_G s) ->
    moved pb s sc s1 tau t s2).
  { intros tau Htau s2 ->. unfold Jof, Rof. pose proof P1 as [H1 H2 H3 H4 H5 H6 H7 H8 H9 H10 H11 H12].
    pose proof S1 as [K1 K2 K3 K4 K5 K6 K7 K8 K9 K10 K11 K12].
    split; simpl; auto.
    - split; auto; simpl; auto. destruct (Req_EM_T tau 0); auto.
    - unfold Jof. simpl. rewrite H5. auto.
    - unfold Rof. simpl. rewrite H5. auto.
    - intros i Hi. unfold xof at 1. simpl. destruct (Req_EM_T tau 0) as [->|].
      + fold (xof s). rring.
      + simpl. unfold vhead. fold n in Hi. destruct (Nat.ltb_spec i n); [auto|lia].
    - fold q. destruct (Req_EM_T tau 0) as [->|]; [rring|auto].
    - intros i. unfold uof at 1. simpl. unfold dual_step. rewrite vm_at. fold q.
      destruct (i <? q)%nat; auto. destruct (Nat.eqb_spec i q) as [->|]; auto. }
  destruct (Rleb_spec (o_bigBnd o) t2) as [Hb2|Hb2].
  - (* dual step only *)
    assert (Ett : t = t1) by lra. assert (Ht1 : t1 < o_bigBnd o) by lra.
    destruct HL3 as [HL3|(Hl & _)]; [lra|].
    assert (Hmv : moved pb s sc s1 0 t1 (set_u s1 (wset (s_u s1) (dual_step q t (uof s) (rof s1))))).
    { rewrite <- Ett. apply Hmoved; auto. destruct (Req_EM_T 0 0); [|lra].
      unfold set_u. rewrite S2, S3, S4, S5, S6, S7, S8, S9, S10, S11, (sh_n _ _ P1). auto. }
    rewrite <- S7 in *.
    destruct (removeConstraint_spec pb (set_u s1 (wset (s_u s1) (dual_step q t (uof s) (rof s1)))) l) as (s' & Er & Hrm).
    { apply Hmv. } { rewrite (mv_A _ _ _ _ _ _ _ Hmv). auto. } { rewrite (mv_A _ _ _ _ _ _ _ Hmv). auto. }
    replace (w_buf (s_u s1)) with (uof s) by (unfold uof; rewrite S7; auto). rewrite Er. cbn [bind].
    rewrite getV_ok by (pose proof (sh_r _ _ (rm_shape _ _ _ _ Hrm)); lia). cbn [bind].
    rewrite getV_ok by (pose proof (sh_u _ _ (rm_shape _ _ _ _ Hrm)); lia). cbn [bind].
    eexists. split; [reflexivity|]. repeat (split; [assumption || reflexivity|]).
    eapply case_dual; eauto.
  - (* primal and dual step *)
    destruct Hnb as (Hz & Et2'); [lra|].
    unfold n. rewrite cn_dot_spec; [|apply P1|auto]. fold n. cbn [bind]. fold (nz pb sc s1).
    rewrite half_R.
    unfold set_u, set_f, set_x. cbn [s_it s_n s_A s_f s_x s_z s_u s_r s_exp s_d s_J s_R s_G]. rewrite ?S5, ?S6, ?S7.
    match goal with |- context[addConstraint ?st sc] => set (s2 := st) end.
    assert (Hmv : moved pb s sc s1 t t s2).
    { assert (Hcl : 0 < nz pb sc s1) by (eapply nz_pos; eauto).
      unfold s2. rewrite S2, S3, S4, S8, S9, S10, S11, (sh_n _ _ P1). fold n. rewrite vm_id.
      destruct (Req_EM_T t 0) as [E0|E0].
      - (* t = 0 *)
        unfold Jof, Rof. pose proof P1 as [H1 H2 H3 H4 H5 H6 H7 H8 H9 H10 H11 H12].
        pose proof S1 as [K1 K2 K3 K4 K5 K6 K7 K8 K9 K10 K11 K12].
        split; simpl; auto.
        + split; auto.
        + unfold Jof. simpl. rewrite H5. auto.
        + unfold Rof. simpl. rewrite H5. auto.
        + intros i Hi. unfold xof at 1. simpl. unfold vhead. fold n in Hi. destruct (Nat.ltb_spec i n); [auto|lia].
        + intros i. unfold uof at 1. simpl. unfold dual_step. rewrite vm_at. fold q.
          destruct (i <? q)%nat; auto. destruct (Nat.eqb_spec i q) as [->|]; auto.
      - apply Hmoved; auto. destruct (Req_EM_T t 0); [contradiction|]. auto. }
    clearbody s2.
    destruct (Reqb_spec t t2) as [Ett|Ett].
    + assert (Ht2t1 : t2 <= t1) by lra.
      destruct (addConstraint_spec pb s2 sc) as (s' & Ea & Had).
      { apply Hmv. } { auto. } { rewrite (mv_A _ _ _ _ _ _ _ Hmv). auto. }
      { rewrite (mv_A _ _ _ _ _ _ _ Hmv). fold q n.
        destruct (full_room pb s sc s1 HP HS) as (j & Hj1 & Hj2 & _); [eapply nz_pos; eauto|]. fold q in Hj1. fold n in Hj2. lia. }
      rewrite Ea. cbn [bind]. eexists. split; [reflexivity|]. repeat (split; [assumption || reflexivity|]).
      rewrite Ett, Et2' in Hmv. eapply case_full; eauto; lra.
    + assert (Ett1 : t = t1) by lra. assert (Ht1 : t1 < o_bigBnd o) by lra.
      destruct HL3 as [HL3|(Hl & _)]; [lra|].
      destruct (removeConstraint_spec pb s2 l) as (s' & Er & Hrm).
      { apply Hmv. } { rewrite (mv_A _ _ _ _ _ _ _ Hmv). auto. } { rewrite (mv_A _ _ _ _ _ _ _ Hmv). auto. }
      rewrite Er. cbn [bind].
      rewrite getV_ok by (pose proof (sh_r _ _ (rm_shape _ _ _ _ Hrm)); lia). cbn [bind].
      rewrite getV_ok by (pose proof (sh_u _ _ (rm_shape _ _ _ _ Hrm)); lia). cbn [bind].
      eexists. split; [reflexivity|]. repeat (split; [assumption || reflexivity|]).
      rewrite Ett1 in Hmv. eapply case_partial; eauto; lra.
Qed.

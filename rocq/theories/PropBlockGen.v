(** C63: the block solver never does anything undefined, whatever the arithmetic (exact reals or IEEE doubles), the data, the
    options and the calls made before; and exactly when a call is undefined (a failed assertion included). *)
From Coq Require Import PrimFloat.
From Coq Require Import List Arith ZArith Lia Bool Permutation.
From Verif Require Import Base ActiveSet ActiveSetProofs Num Solver LinAlg GIBase GISafe GICall GIFinal Warm WarmAS RunFloat FloatLaws FloatNull
  Block BlockSpec BlockDense PropBlock Ortho StructC PropStructC StructG BlockGI BlockGen BlockGenQR BlockGenGI.
Import ListNotations.

(** * Specification *)
(** The arithmetic: [a < b] implies [a == a]; the values a computation started from zeros can produce have a square root that is
    not > 1e-14; the test [isZero] is true of 0. *)
Definition usable (S : ops) (isz : carrier S -> bool) : Prop :=
  safe_ops S /\ (exists nul, null_ops S nul) /\ isz (zero S) = true.

Section Spec.
Variable S : ops.
(** The blocks of the Hessian have the sizes the structure calls for: BlockDense.v *)
Definition block_sizes (t : gtype) (diag off : list (blk S)) : Prop :=
  match t with
  | TriBlockDiagonal => tri_ok diag off
  | BlockArrowDown => arrow_ok false diag off
  | BlockArrowUp => arrow_ok true diag off /\ tip_fits true diag
  end.
(** The Hessian and the constraint matrix are built by the constructors of StructuredG and StructuredC *)
Definition block_data (bp : bproblem S) : Prop :=
  (exists t diag off, stg_new t diag off = Ok (bp_G bp) /\ block_sizes t diag off) /\ (exists Cs, bp_C bp = stc_new Cs).
Definition nvar (bp : bproblem S) := g_n (bp_G bp).
Definition ncst (bp : bproblem S) := c_nbCstr (bp_C bp).
Definition nbnd (bp : bproblem S) := bp_xlsize bp.
Definition all (bp : bproblem S) := (ncst bp + nbnd bp)%nat.
(** The vectors have the sizes of the problem; bounds on all the variables or on none *)
Definition sizes_fit (bp : bproblem S) : Prop :=
  bp_asize bp = nvar bp /\ c_nbVar (bp_C bp) = nvar bp /\ bp_blsize bp = ncst bp /\ bp_busize bp = ncst bp /\
  (nbnd bp = nvar bp \/ nbnd bp = 0%nat) /\ bp_xusize bp = nbnd bp.
Definition lower_of (bp : bproblem S) (i : nat) := if (i <? ncst bp)%nat then bp_bl bp i else bp_xl bp (i - ncst bp)%nat.
Definition upper_of (bp : bproblem S) (i : nat) := if (i <? ncst bp)%nat then bp_bu bp i else bp_xu bp (i - ncst bp)%nat.
(** both bounds are given and compare equal *)
Definition equality (bp : bproblem S) (i : nat) : Prop :=
  exists l u, lower_of bp i = Some l /\ upper_of bp i = Some u /\ eqb S l u = true.
(** no warm start, or a list of statuses that are all INACTIVE *)
Definition cold_start (bp : bproblem S) (o : options S) (ws : list status) : Prop :=
  (o_warm o = false /\ ws = []) \/ (o_warm o = true /\ ws <> [] /\ length ws = all bp /\ forall st, In st ws -> st = INACTIVE).
(** the statuses that are looked at: the argument; or, for a warm start without argument, those of the object *)
Definition used (junk : vec S) (bp : bproblem S) (o : options S) (ws : list status) (b : bsol S) : list status :=
  if o_warm o then (match ws with [] => activeSet (b_s (bresize junk b (nvar bp) (ncst bp) (0 <? nbnd bp)%nat)) | _ => ws end) else [].
Definition general_status (st : status) : Prop := st = LOWER \/ st = UPPER \/ st = EQUALITY.
Definition bound_status (st : status) : Prop := st = LOWER_BOUND \/ st = UPPER_BOUND \/ st = FIXED.
(** a status that does not suit its constraint *)
Definition wrong_kind (bp : bproblem S) (us : list status) : Prop :=
  exists i st, (i < all bp)%nat /\ ~ equality bp i /\ nth_error us i = Some st /\
    ((i < ncst bp)%nat /\ bound_status st \/ (ncst bp <= i)%nat /\ general_status st).
(** the side named by the status has no bound of magnitude at most [bigBnd] *)
Definition no_bound (bp : bproblem S) (o : options S) (i : nat) (st : status) : Prop :=
  ((st = LOWER \/ st = LOWER_BOUND) /\ forall v, lower_of bp i = Some v -> ltb S v (opp S (o_bigBnd o)) = true) \/
  ((st = UPPER \/ st = UPPER_BOUND) /\ forall v, upper_of bp i = Some v -> ltb S (o_bigBnd o) v = true).
(** the constraint is active at the start *)
Definition starts_active (bp : bproblem S) (o : options S) (us : list status) (i : nat) : Prop :=
  (i < all bp)%nat /\ (equality bp i \/ exists st, nth_error us i = Some st /\ st <> INACTIVE /\ st <> FIXED /\ ~ no_bound bp o i st).
(** the constraint is an equality, or is announced as one *)
Definition starts_equal (bp : bproblem S) (us : list status) (i : nat) : Prop :=
  (i < all bp)%nat /\ (equality bp i \/ nth_error us i = Some EQUALITY).
Definition too_many_equalities (bp : bproblem S) (us : list status) : Prop :=
  exists l, NoDup l /\ (nvar bp < length l)%nat /\ forall i, In i l -> starts_equal bp us i.
(** lltInPlace succeeds on the Hessian *)
Definition factorises (bp : bproblem S) : Prop := exists G', stg_llt (bp_G bp) = Ok (true, G').
Definition count_active (l : list status) : nat := length (filter (fun st => match st with INACTIVE => false | _ => true end) l).
End Spec.
Arguments block_sizes {S}. Arguments block_data {S}. Arguments nvar {S}. Arguments ncst {S}. Arguments nbnd {S}. Arguments all {S}. Arguments sizes_fit {S}. Arguments lower_of {S}. Arguments upper_of {S}.
Arguments equality {S}. Arguments cold_start {S}. Arguments used {S}. Arguments wrong_kind {S}. Arguments no_bound {S}. Arguments starts_active {S}. Arguments starts_equal {S}.
Arguments too_many_equalities {S}. Arguments factorises {S}.

(** The two arithmetics of interest *)
Lemma usable_real (isz : carrier Rops -> bool) : isz (zero Rops) = true -> usable Rops isz.
Proof. intros H. split; [apply real_safe|]. split; [exists (fun x => x = (zero Rops)); apply real_null|exact H]. Qed.
Lemma usable_float (isz : carrier Fops -> bool) : isz (zero Fops) = true -> usable Fops isz.
Proof. intros H. split; [apply float_safe|]. split; [exists fnul; apply float_null|exact H]. Qed.

(** * From the specification to the model *)
Section Link.
Variable S : ops.
Lemma sizes_fit_ok (bp : bproblem S) : sizes_fit bp <-> sizes_ok (bounds_only bp) = true.
Proof. symmetry. apply gsizes_spec. Qed.
Lemma stg_loop_spec (diag : list (blk S)) : forall acc k r, stg_loop diag acc k = Ok r -> fst r = acc ++ diag /\ snd r = (k + total diag)%nat.
Proof.
  induction diag as [|D ds IH]; intros acc k r E; cbn [stg_loop] in E.
  - injection E as <-. cbn. rewrite app_nil_r. auto.
  - apply guard_ok in E as [Hs E]. apply Nat.eqb_eq in Hs. apply IH in E as [E1 E2]. cbn [total]. rewrite E1, <- app_assoc, E2. split; [reflexivity|lia].
Qed.
Lemma data_shape (bp : bproblem S) : block_data bp -> gshape S (bp_G bp).
Proof.
  intros [(t & diag & off & E & HB) _]. unfold stg_new in E. apply bind_ok in E as (r & E1 & E). injection E as E. apply stg_loop_spec in E1 as [E1 E2]. rewrite <- E, E1, E2.
  unfold gshape. cbn [g_n g_diag g_type g_off app Nat.add]. split; [reflexivity|]. destruct t; cbn in HB |- *.
  - split; [intros HF; discriminate|exact HB].
  - split; [apply HB|apply arrow_ok_sz; apply HB].
  - split; [intros HF; discriminate|apply arrow_ok_sz; exact HB].
Qed.
Lemma used_eff junk (bp : bproblem S) o ws b : used junk bp o ws b = eff_ws S junk bp o ws b.
Proof. unfold used, eff_ws. destruct (o_warm o), ws; reflexivity. Qed.
Lemma geq_equality (bp : bproblem S) i : geq S (bounds_only bp) i = true <-> equality bp i.
Proof.
  unfold geq, equality, bounds_eq. change (glo S (bounds_only bp) i) with (lower_of bp i). change (gup S (bounds_only bp) i) with (upper_of bp i).
  destruct (lower_of bp i) as [l|], (upper_of bp i) as [u|]; split; try discriminate; try (intros (l' & u' & E1 & E2 & E3); congruence).
  intros E. exists l, u. auto.
Qed.
Lemma geq_not (bp : bproblem S) i : geq S (bounds_only bp) i = false <-> ~ equality bp i.
Proof. rewrite <- geq_equality. destruct (geq _ _ _); split; congruence. Qed.
Lemma all_gcb (bp : bproblem S) : gcb S (bounds_only bp) = all bp. Proof. reflexivity. Qed.
Lemma beyond_no_bound (bp : bproblem S) o st i : beyond S (bounds_only bp) o st i = true <-> no_bound bp o i st.
Proof.
  unfold beyond, no_bound, lo_inf, up_inf. change (glo S (bounds_only bp) i) with (lower_of bp i). change (gup S (bounds_only bp) i) with (upper_of bp i).
  assert (H : forall (b : option (carrier S)) f, (match b with Some v => f v | None => true end = true) <-> (forall v, b = Some v -> f v = true)).
  { intros [v|] f; split; intros HF; try congruence; try (intros v' E; congruence). apply HF. reflexivity. }
  destruct st; try (split; [discriminate|]; intros [([E|E] & _)|([E|E] & _)]; discriminate);
    rewrite (H _ (fun v => ltb S v (opp S (o_bigBnd o)))) || rewrite (H _ (fun v => ltb S (o_bigBnd o) v)); intuition discriminate.
Qed.
(** statuses in use: a full list, or none *)
Definition fits (bp : bproblem S) (o : options S) (us : list status) : Prop := ws_size S (bounds_only bp) o us /\ (o_warm o = false -> us = []) /\ (us <> [] -> length us = all bp).
Lemma nth_used (bp : bproblem S) o us i : fits bp o us -> (i < all bp)%nat -> warm_on S o us = true -> nth_error us i = Some (nth i us INACTIVE).
Proof. intros (H1 & H2 & H3) Hi HW. apply nth_error_nth'. rewrite (H1 HW). exact Hi. Qed.
Lemma not_on (bp : bproblem S) o us : fits bp o us -> warm_on S o us = false -> us = [].
Proof. intros (_ & H2 & _) HW. unfold warm_on in HW. destruct (o_warm o); [|auto]. destruct us; [auto|discriminate]. Qed.
Lemma wanted_active (bp : bproblem S) o us i : fits bp o us -> (i < all bp)%nat -> (wanted S (bounds_only bp) o us i <> INACTIVE <-> starts_active bp o us i).
Proof.
  intros HF Hi. unfold wanted, starts_active. destruct (geq S (bounds_only bp) i) eqn:Eg.
  - split; [|intros _]. + intros _. split; [exact Hi|]. left. apply geq_equality. exact Eg. + unfold gstat. destruct (i <? _)%nat; discriminate.
  - apply geq_not in Eg. destruct (warm_on S o us) eqn:EW.
    + rewrite (nth_used bp o us i HF Hi EW). set (st := nth i us INACTIVE). pose proof (beyond_no_bound bp o st i) as HB.
      split.
      * intros H. split; [exact Hi|]. right. exists st. split; [reflexivity|]. destruct st; try congruence; try (exfalso; destruct (beyond S (bounds_only bp) o INACTIVE i); congruence); (split; [discriminate|]); (split; [discriminate|]); intros HN; apply HB in HN; rewrite HN in H; congruence.
      * intros (_ & [H|(st' & E & H1 & H2 & H3)]); [contradiction|]. injection E as <-. rewrite <- HB in H3. destruct st; try congruence; destruct (beyond _ _ _ _ _); congruence.
    + rewrite (not_on bp o us HF EW). split; [congruence|]. intros (_ & [H|(st' & E & _)]); [contradiction|]. destruct i; discriminate.
Qed.
Lemma wanted_equal (bp : bproblem S) o us i : fits bp o us -> (i < all bp)%nat -> (isEq (wanted S (bounds_only bp) o us i) = true <-> starts_equal bp us i).
Proof.
  intros HF Hi. unfold wanted, starts_equal. destruct (geq S (bounds_only bp) i) eqn:Eg.
  - split; [|intros _]. + intros _. split; [exact Hi|]. left. apply geq_equality. exact Eg. + unfold gstat. destruct (i <? _)%nat; reflexivity.
  - apply geq_not in Eg. destruct (warm_on S o us) eqn:EW.
    + rewrite (nth_used bp o us i HF Hi EW). set (st := nth i us INACTIVE). split.
      * intros H. split; [exact Hi|]. right. destruct st; try discriminate; try reflexivity; destruct (beyond _ _ _ _ _); discriminate.
      * intros (_ & [H|E]); [contradiction|]. injection E as ->. reflexivity.
    + rewrite (not_on bp o us HF EW). split; [discriminate|]. intros (_ & [H|E]); [contradiction|]. destruct i; discriminate.
Qed.
Lemma initial_none (bp : bproblem S) o us : fits bp o us -> (initial S (bounds_only bp) o us = [] <-> forall i, ~ starts_active bp o us i).
Proof.
  intros HF. split.
  - intros E i HS. assert (Hi : (i < all bp)%nat) by apply HS. apply (wanted_active bp o us i HF Hi) in HS.
    assert (HI : In i (initial S (bounds_only bp) o us)) by (apply initial_in; auto). rewrite E in HI. exact HI.
  - intros H. destruct (initial S (bounds_only bp) o us) as [|i l] eqn:E; [reflexivity|]. exfalso. assert (HI : In i (initial S (bounds_only bp) o us)) by (rewrite E; left; auto).
    apply initial_in in HI as [Hi HW]. apply (H i). apply (wanted_active bp o us i HF Hi). exact HW.
Qed.
Lemma order_nodup (bp : bproblem S) : NoDup (order S (bounds_only bp)).
Proof.
  unfold order. set (c := gc_ S (bounds_only bp)). apply (Permutation_NoDup (l := seq 0 c ++ seq c (gb S (bounds_only bp)))); [apply Permutation_app_comm|]. rewrite <- seq_app. apply seq_NoDup.
Qed.
Lemma many_equal (bp : bproblem S) o us : fits bp o us -> ((nvar bp <? n_eq S (bounds_only bp) o us)%nat = true <-> too_many_equalities bp us).
Proof.
  intros HF. rewrite Nat.ltb_lt. unfold too_many_equalities, n_eq. set (l0 := filter _ _).
  assert (H0 : forall i, In i l0 <-> starts_equal bp us i).
  { intros i. unfold l0. rewrite filter_In, order_lt, all_gcb. split.
    - intros [Hi H]. apply (wanted_equal bp o us i HF Hi). exact H.
    - intros H. assert (Hi : (i < all bp)%nat) by apply H. split; [exact Hi|]. apply (wanted_equal bp o us i HF Hi). exact H. }
  split.
  - intros H. exists l0. split; [apply NoDup_filter, order_nodup|]. split; [exact H|]. intros i. apply H0.
  - intros (l & HN & Hl & H). eapply Nat.lt_le_trans; [exact Hl|]. apply NoDup_incl_length; [exact HN|]. intros i Hi. apply H0, H, Hi.
Qed.
Lemma kinds_wrong (bp : bproblem S) o us : fits bp o us -> (forallb (kind1 S (bounds_only bp) o us) (order S (bounds_only bp)) = false <-> wrong_kind bp us).
Proof.
  intros HF. split.
  - intros H. assert (HE : exists i, In i (order S (bounds_only bp)) /\ kind1 S (bounds_only bp) o us i = false).
    { induction (order S (bounds_only bp)) as [|i l IH]; [discriminate|]. cbn [forallb] in H. destruct (kind1 S (bounds_only bp) o us i) eqn:E; [|exists i; split; [left|]; auto].
      destruct (IH H) as (j & Hj & Ej). exists j. split; [right|]; auto. }
    destruct HE as (i & Hi & E). apply order_lt in Hi. unfold kind1 in E. destruct (geq S (bounds_only bp) i) eqn:Eg; [discriminate|]. apply geq_not in Eg.
    destruct (warm_on S o us) eqn:EW; [|discriminate]. cbn [negb orb] in E.
    pose proof (nth_used bp o us i HF Hi EW) as En. set (st := nth i us INACTIVE) in *. change (gc_ S (bounds_only bp)) with (ncst bp) in E.
    exists i, st. split; [exact Hi|]. split; [exact Eg|]. split; [exact En|]. unfold bound_status, general_status.
    destruct (Nat.ltb_spec i (ncst bp)) as [Hc|Hc]; [left|right]; (split; [exact Hc|]); destruct st; try discriminate; auto.
  - intros (i & st & Hi & He & E & HK). apply not_true_is_false. intros H. rewrite forallb_forall in H. specialize (H i (proj2 (order_lt S (bounds_only bp) i) Hi)). unfold kind1 in H. apply geq_not in He. rewrite He in H. cbn [orb] in H.
    destruct (warm_on S o us) eqn:EW; [|rewrite (not_on bp o us HF EW) in E; destruct i; discriminate]. cbn [negb orb] in H.
    rewrite (nth_used bp o us i HF Hi EW) in E. injection E as E. rewrite E in H. change (gc_ S (bounds_only bp)) with (ncst bp) in H.
    destruct HK as [(Hc & [->|[->| ->]])|(Hc & [->|[->| ->]])]; rewrite ?(proj2 (Nat.ltb_lt _ _) Hc), ?(proj2 (Nat.ltb_ge _ _) Hc) in H; discriminate.
Qed.
Lemma initial_some (bp : bproblem S) o us : fits bp o us -> ((length (initial S (bounds_only bp) o us) <> 0)%nat <-> exists i, starts_active bp o us i).
Proof.
  intros HF. split.
  - intros H. destruct (initial S (bounds_only bp) o us) as [|i l] eqn:E; [cbn in H; congruence|]. assert (HI : In i (initial S (bounds_only bp) o us)) by (rewrite E; left; auto).
    apply initial_in in HI as [Hi HW]. exists i. apply (wanted_active bp o us i HF Hi). exact HW.
  - intros (i & HS) E. apply length_zero_iff_nil in E. apply (proj1 (initial_none bp o us HF) E i HS).
Qed.
Lemma used_fits isz tiny junk (bp : bproblem S) o ws b : bghistory S isz tiny b -> sizes_fit bp -> ws = [] \/ (length ws = all bp /\ o_warm o = true) -> fits bp o (used junk bp o ws b).
Proof.
  intros HB Hs Hw. apply sizes_fit_ok in Hs. apply bghistory_wf in HB. rewrite used_eff.
  assert (Hl : ((length ws =? c_nbCstr (bp_C bp) + bp_xlsize bp)%nat || is_nil ws = true)).
  { destruct Hw as [->|(Hw & _)]; [apply orb_true_r|]. apply orb_true_iff. left. apply Nat.eqb_eq. exact Hw. }
  pose proof (eff_size S junk bp o ws b HB Hs Hl) as H1. split; [exact H1|]. split.
  - intros Ho. unfold eff_ws. rewrite Ho. reflexivity.
  - intros Hne. apply H1. unfold warm_on, eff_ws in *. destruct (o_warm o); [|congruence]. destruct (if is_nil ws then _ else ws); [congruence|reflexivity].
Qed.
Lemma count_nact A : good A -> count_active (a_status A) = nact A.
Proof.
  intros HG. rewrite (nact_length _ HG). pose proof (proj1 HG) as [CL CN CI CK]. unfold count_active. set (f := fun st : status => _).
  assert (H : forall l k, length (filter f l) = length (filter (fun i => f (nth (i - k) l INACTIVE)) (seq k (length l)))).
  { induction l as [|s l IH]; intros k; [reflexivity|]. cbn [length seq filter]. rewrite Nat.sub_diag. change (nth 0 (s :: l) INACTIVE) with s.
    assert (E : filter (fun i => f (nth (i - k) (s :: l) INACTIVE)) (seq (Datatypes.S k) (length l)) = filter (fun i => f (nth (i - Datatypes.S k) l INACTIVE)) (seq (Datatypes.S k) (length l))).
    { apply filter_ext_in. intros i Hi. apply in_seq in Hi. replace (i - k)%nat with (Datatypes.S (i - Datatypes.S k)) by lia. reflexivity. }
    rewrite E. destruct (f s); cbn [length]; rewrite (IH (Datatypes.S k)); reflexivity. }
  rewrite (H _ 0%nat). apply Permutation_length. apply NoDup_Permutation; [apply NoDup_filter, seq_NoDup|exact CN|].
  intros i. rewrite filter_In, in_seq, CI, Nat.sub_0_r. split.
  - intros [Hi Hf]. exists (nth i (a_status A) INACTIVE). split; [apply nth_error_nth'; lia|]. intros E. rewrite E in Hf. discriminate.
  - intros (s & E & Hs). assert (Hi : (i < length (a_status A))%nat) by (apply nth_error_Some; congruence). split; [lia|]. rewrite (nth_error_nth _ _ INACTIVE E). destruct s; auto; congruence.
Qed.
End Link.

(** * C63 *)
(** What can be read from the object after a call that returns *)
Definition readable {S : ops} (bp : bproblem S) (b : bsol S) : Prop :=
  (exists x, solution (b_s b) = Ok x /\ length x = nvar bp) /\
  (exists lam s', multipliers (b_s b) = Ok (lam, s') /\ length lam = all bp) /\
  length (activeSet (b_s b)) = all bp.
Lemma sh_readable (S : ops) (bp : bproblem S) b : gbsh S (nvar bp) (ncst bp) (nbnd bp) b -> readable bp b.
Proof.
  intros H. split; [apply (bsolution S b _ _ _ H)|]. split; [destruct (bmult S b _ _ _ H) as (l & s' & E & El); exists l, s'; auto|].
  unfold activeSet. rewrite (coh_len _ (proj1 (bh_good _ _ _ _ _ H))), (bh_c _ _ _ _ _ H), (bh_m _ _ _ _ _ H). reflexivity.
Qed.

(** Every call that respects the documented sizes, starts with no active constraint and has no equality returns. *)
Theorem C63_never_undefined : forall (S : ops) isz tiny junk bp o ws b,
  usable S isz -> bghistory S isz tiny b -> block_data bp -> sizes_fit bp -> leb S (o_bigBnd o) (o_bigBnd o) = true ->
  cold_start bp o ws -> (forall i, (i < all bp)%nat -> ~ equality bp i) ->
  exists st b', bgi_solve isz tiny junk bp o ws b = Ok (st, b') /\ readable bp b' /\
    (count_active (activeSet (b_s b')) <= nvar bp)%nat /\
    ((st = NON_POS_HESSIAN /\ ~ factorises bp /\ iterations (b_s b') = 0%nat) \/
     (factorises bp /\ st = MAX_ITER_REACHED /\ iterations (b_s b') = o_maxIter o) \/
     (factorises bp /\ (st = SUCCESS \/ st = INFEASIBLE) /\ (iterations (b_s b') < o_maxIter o)%nat)).
Proof.
  intros S isz tiny junk bp o ws b (HO & (nul & HN) & Hz) HB HD Hs Hbig Hcold Hne.
  pose proof (bghistory_wf S isz tiny b HB) as HW. pose proof (data_shape S bp HD) as HG. destruct HD as (_ & (Cs & HC)). pose proof (proj1 (sizes_fit_ok S bp) Hs) as Hsz.
  assert (Hw : ws = [] \/ (length ws = all bp /\ o_warm o = true)) by (destruct Hcold as [(_ & ->)|(H1 & H2 & H3 & H4)]; auto).
  pose proof (used_fits S isz tiny junk bp o ws b HB Hs Hw) as HF.
  assert (Hin : forall i st, nth_error (used junk bp o ws b) i = Some st -> st = INACTIVE).
  { intros i st E. unfold used in E. destruct Hcold as [(Ho & ->)|(Ho & H2 & H3 & H4)]; rewrite Ho in E; [destruct i; discriminate|]. destruct ws; [congruence|]. apply H4. eapply nth_error_In; eauto. }
  assert (Ha : forall i, ~ starts_active bp o (used junk bp o ws b) i).
  { intros i (Hi & [He|(st & E & H1 & _)]); [exact (Hne i Hi He)|]. apply H1. eauto. }
  assert (Hk : ~ wrong_kind bp (used junk bp o ws b)).
  { intros (i & st & Hi & _ & E & HK). apply Hin in E. subst st. destruct HK as [(_ & [E|[E|E]])|(_ & [E|[E|E]])]; discriminate. }
  assert (Ht : ~ too_many_equalities bp (used junk bp o ws b)).
  { intros (l & _ & Hl & H). destruct l as [|i l]; [cbn in Hl; lia|]. destruct (H i (or_introl eq_refl)) as (Hi & [He|E]); [exact (Hne i Hi He)|]. apply Hin in E. discriminate. }
  apply (initial_none S bp o _ HF) in Ha. rewrite <- (kinds_wrong S bp o _ HF) in Hk. apply not_false_is_true in Hk. rewrite <- (many_equal S bp o _ HF) in Ht. apply not_true_is_false in Ht.
  destruct (bsolve_ok S isz tiny nul junk bp Cs o HO HN Hz Hbig HC Hsz ws b HW HG) as (ok & G' & EL & HR).
  { destruct Hw as [->|(Hw & _)]; [apply orb_true_r|]. apply orb_true_iff. left. apply Nat.eqb_eq. exact Hw. }
  { destruct Hw as [->|(_ & ->)]; [apply orb_true_r|reflexivity]. }
  cbv zeta in HR. rewrite <- used_eff in HR. rewrite Hk in HR. change (g_n (bp_G bp)) with (nvar bp) in HR. rewrite Ht, Ha, Nat.min_0_r in HR. cbn [Nat.eqb] in HR. destruct ok.
  - destruct HR as (st & b' & E & H1 & H2 & H3 & H4). exists st, b'. split; [exact E|]. split; [apply sh_readable; exact H1|]. split; [unfold activeSet; rewrite count_nact by apply H1; exact H2|]. right.
    assert (HFa : factorises bp) by (exists G'; exact EL). destruct H4 as [(-> & H4)|(H4 & H5)]; [left|right]; auto.
  - destruct HR as (b' & E & H1 & H2 & H3 & H4). exists NON_POS_HESSIAN, b'. split; [exact E|]. split; [apply sh_readable; exact H1|]. split; [unfold activeSet; rewrite count_nact by apply H1; exact H4|]. left.
    split; [reflexivity|]. split; [|exact H2]. intros (G2 & E2). rewrite EL in E2. discriminate.
Qed.

(** The undefined calls (failed assertions included) are exactly these. *)
Theorem C63_undefined_exactly : forall (S : ops) isz tiny junk bp o ws b,
  usable S isz -> bghistory S isz tiny b -> block_data bp -> leb S (o_bigBnd o) (o_bigBnd o) = true ->
  let us := used junk bp o ws b in
  bgi_solve isz tiny junk bp o ws b = UB <->
    (~ sizes_fit bp \/ (ws <> [] /\ (length ws <> all bp \/ o_warm o = false)) \/ wrong_kind bp us \/
     (too_many_equalities bp us /\ o_debug o = true) \/
     (~ too_many_equalities bp us /\ factorises bp /\ (0 < nvar bp)%nat /\ exists i, starts_active bp o us i)).
Proof.
  intros S isz tiny junk bp o ws b (HO & (nul & HN) & Hz) HB HD Hbig us.
  pose proof (bghistory_wf S isz tiny b HB) as HW. pose proof (data_shape S bp HD) as HG. destruct HD as (_ & (Cs & HC)).
  destruct (sizes_ok (bounds_only bp)) eqn:Hsz.
  2:{ assert (Hn : ~ sizes_fit bp) by (rewrite sizes_fit_ok; congruence). split; [auto|]. intros _. unfold bgi_solve. rewrite Hsz. reflexivity. }
  assert (Hs : sizes_fit bp) by (apply sizes_fit_ok; exact Hsz).
  destruct ((length ws =? c_nbCstr (bp_C bp) + bp_xlsize bp)%nat || is_nil ws) eqn:El.
  2:{ apply orb_false_iff in El as [E1 E2]. apply Nat.eqb_neq in E1. split; [intros _; right; left; split; [intros ->; discriminate|left; exact E1]|]. intros _. unfold bgi_solve. rewrite Hsz. cbn [guard]. rewrite (proj2 (Nat.eqb_neq _ _) E1), E2. reflexivity. }
  destruct (o_warm o || is_nil ws) eqn:Ew.
  2:{ apply orb_false_iff in Ew as [E1 E2]. split; [intros _; right; left; split; [intros ->; discriminate|right; exact E1]|]. intros _. unfold bgi_solve. rewrite Hsz. cbn [guard]. rewrite El. cbn [guard]. rewrite E1, E2. reflexivity. }
  assert (Hw : ws = [] \/ (length ws = all bp /\ o_warm o = true)).
  { destruct ws as [|w0 ws0]; [auto|]. right. cbn [is_nil] in El, Ew. rewrite orb_false_r in El, Ew. apply Nat.eqb_eq in El. auto. }
  pose proof (used_fits S isz tiny junk bp o ws b HB Hs Hw) as HF. fold us in HF.
  destruct (bsolve_ok S isz tiny nul junk bp Cs o HO HN Hz Hbig HC Hsz ws b HW HG El Ew) as (ok & G' & EL & HR).
  cbv zeta in HR. rewrite <- used_eff in HR. fold us in HR. change (g_n (bp_G bp)) with (nvar bp) in HR.
  pose proof (kinds_wrong S bp o us HF) as HK. pose proof (many_equal S bp o us HF) as HT. pose proof (initial_none S bp o us HF) as HI.
  assert (Hdrop : forall P : Prop, (~ sizes_fit bp \/ (ws <> [] /\ (length ws <> all bp \/ o_warm o = false)) \/ P) <-> P).
  { intros P. split; [|auto]. intros [H|[(H1 & H2)|H]]; [contradiction| |exact H]. exfalso. destruct Hw as [->|(H3 & H4)]; [congruence|]. destruct H2; congruence. }
  rewrite Hdrop. destruct (forallb (kind1 S (bounds_only bp) o us) (order S (bounds_only bp))).
  2:{ split; [|intros _; exact HR]. intros _. left. apply HK. reflexivity. }
  assert (HK' : ~ wrong_kind bp us) by (rewrite <- HK; discriminate).
  destruct (nvar bp <? n_eq S (bounds_only bp) o us)%nat.
  { pose proof (proj1 HT eq_refl) as HT'. destruct (o_debug o).
    - split; [|intros _; exact HR]. intros _. right. left. auto.
    - destruct HR as (b' & E & _). rewrite E. split; [discriminate|]. intros [H|[(_ & H)|(H & _)]]; [contradiction|discriminate|contradiction]. }
  assert (HT' : ~ too_many_equalities bp us) by (rewrite <- HT; discriminate).
  destruct ok.
  - destruct (Nat.eqb_spec (Nat.min (nvar bp) (length (initial S (bounds_only bp) o us))) 0) as [Ez|Ez].
    + destruct HR as (st & b' & E & _). rewrite E. split; [discriminate|]. intros [H|[(H & _)|(_ & _ & H1 & H2)]]; [contradiction|contradiction|]. apply (initial_some S bp o us HF) in H2. lia.
    + split; [|intros _; exact HR]. intros _. right. right. split; [exact HT'|]. split; [exists G'; exact EL|]. split; [lia|]. apply (initial_some S bp o us HF). lia.
  - destruct HR as (b' & E & _). rewrite E. split; [discriminate|]. intros [H|[(H & _)|(_ & (G2 & E2) & _)]]; [contradiction|contradiction|]. rewrite EL in E2. discriminate.
Qed.

(** Whatever the start, the statuses a call can return and what they mean. *)
Theorem C63_statuses : forall (S : ops) isz tiny junk bp o ws b st b',
  usable S isz -> bghistory S isz tiny b -> block_data bp -> leb S (o_bigBnd o) (o_bigBnd o) = true ->
  bgi_solve isz tiny junk bp o ws b = Ok (st, b') ->
  readable bp b' /\
  ((st = OVERCONSTRAINED_PROBLEM /\ too_many_equalities bp (used junk bp o ws b) /\ iterations (b_s b') = 0%nat) \/
   (~ too_many_equalities bp (used junk bp o ws b) /\ (count_active (activeSet (b_s b')) <= nvar bp)%nat /\
    ((st = NON_POS_HESSIAN /\ ~ factorises bp /\ iterations (b_s b') = 0%nat) \/
     (factorises bp /\ st = MAX_ITER_REACHED /\ iterations (b_s b') = o_maxIter o) \/
     (factorises bp /\ (st = SUCCESS \/ st = INFEASIBLE) /\ (iterations (b_s b') < o_maxIter o)%nat)))).
Proof.
  intros S isz tiny junk bp o ws b st b' (HO & (nul & HN) & Hz) HB HD Hbig Hrun.
  pose proof (bghistory_wf S isz tiny b HB) as HW. pose proof (data_shape S bp HD) as HG. destruct HD as (_ & (Cs & HC)).
  assert (HA : sizes_ok (bounds_only bp) = true /\ (length ws =? c_nbCstr (bp_C bp) + bp_xlsize bp)%nat || is_nil ws = true /\ o_warm o || is_nil ws = true).
  { unfold bgi_solve in Hrun. apply guard_ok in Hrun as [H1 H]. apply guard_ok in H as [H2 H]. apply guard_ok in H as [H3 _]. auto. }
  destruct HA as (Hsz & El & Ew). assert (Hs : sizes_fit bp) by (apply sizes_fit_ok; exact Hsz).
  assert (Hw : ws = [] \/ (length ws = all bp /\ o_warm o = true)).
  { destruct ws as [|w0 ws0]; [auto|]. right. cbn [is_nil] in El, Ew. rewrite orb_false_r in El, Ew. apply Nat.eqb_eq in El. auto. }
  pose proof (used_fits S isz tiny junk bp o ws b HB Hs Hw) as HF.
  destruct (bsolve_ok S isz tiny nul junk bp Cs o HO HN Hz Hbig HC Hsz ws b HW HG El Ew) as (ok & G' & EL & HR).
  cbv zeta in HR. rewrite <- used_eff in HR. change (g_n (bp_G bp)) with (nvar bp) in HR. pose proof (many_equal S bp o _ HF) as HT.
  destruct (forallb _ _); [|congruence]. destruct (nvar bp <? n_eq S (bounds_only bp) o (used junk bp o ws b))%nat.
  { destruct (o_debug o); [congruence|]. destruct HR as (b2 & E & H1 & H2 & H3). rewrite Hrun in E. injection E as -> ->. split; [apply sh_readable; exact H1|]. left. split; [reflexivity|]. split; [apply HT; reflexivity|exact H2]. }
  assert (HT' : ~ too_many_equalities bp (used junk bp o ws b)) by (rewrite <- HT; discriminate). destruct ok.
  - destruct (Nat.eqb_spec (Nat.min (nvar bp) (length (initial S (bounds_only bp) o (used junk bp o ws b)))) 0); [|congruence]. destruct HR as (st2 & b2 & E & H1 & H2 & H3 & H4). rewrite Hrun in E. injection E as -> ->. split; [apply sh_readable; exact H1|]. right. split; [exact HT'|].
    split; [unfold activeSet; rewrite count_nact by apply H1; exact H2|]. right. assert (HFa : factorises bp) by (exists G'; exact EL). destruct H4 as [(-> & H4)|(H4 & H5)]; [left|right]; auto.
  - destruct HR as (b2 & E & H1 & H2 & H3 & H4). rewrite Hrun in E. injection E as -> ->. split; [apply sh_readable; exact H1|]. right. split; [exact HT'|].
    split; [unfold activeSet; rewrite count_nact by apply H1; exact H4|]. left. split; [reflexivity|]. split; [|exact H2]. intros (G2 & E2). rewrite EL in E2. discriminate.
Qed.

(** * Examples: IEEE doubles *)
Section Examples.
Local Open Scope float_scope.
Definition fz (x : float) : bool := (abs x <=? 1e-12)%float.
Definition f1 (x : float) : blk Fops := @Bk Fops 1 1 (fun _ _ => x).
Definition exGf (d : float) : structG Fops := @StG Fops TriBlockDiagonal [f1 d; f1 2] [f1 1] 2 false.
(** min x0^2 + x0 x1 + x1^2 subject to x0 >= 1, - x0 >= lo (and <= up), x1 >= 1 *)
Definition exf (d lo : float) (up : option float) : bproblem Fops :=
  @BP Fops (exGf d) (fun _ => 0) 2 (stc_new [@Bk Fops 1 2 (fun _ j => if (j =? 0)%nat then 1 else -1); f1 1])
    (fun i => Some (if (i =? 1)%nat then lo else 1)) 3 (fun i => if (i =? 1)%nat then up else None) 3 (fun _ => None) 0 (fun _ => None) 0.
Definition exG2 : structG Fops := @StG Fops TriBlockDiagonal [@Bk Fops 2 2 (fun i j => if (i =? j)%nat then 1 else 2)] [] 2 false.
Definition with_G (G : structG Fops) (bp : bproblem Fops) : bproblem Fops :=
  BP G (bp_a bp) (bp_asize bp) (bp_C bp) (bp_bl bp) (bp_blsize bp) (bp_bu bp) (bp_busize bp) (bp_xl bp) (bp_xlsize bp) (bp_xu bp) (bp_xusize bp).
Definition exo (dbg : bool) : options Fops := @Opt Fops 50 1e100 false dbg.
Definition seen (r : res (term_status * bsol Fops)) : res (term_status * nat * list status) :=
  do x <- r; Ok (fst x, iterations (b_s (snd x)), activeSet (b_s (snd x))).
Lemma exf_data d lo up : block_data (exf d lo up) /\ sizes_fit (exf d lo up).
Proof.
  split; [split|].
  - exists TriBlockDiagonal, [f1 d; f1 2], [f1 1]. split; [reflexivity|]. split; [reflexivity|]. split; [repeat constructor|].
    intros k B D D1 E E1 E2. destruct k as [|[|]]; [|discriminate|discriminate]. injection E as <-. injection E1 as <-. injection E2 as <-. auto.
  - eexists. reflexivity.
  - cbn. repeat split; auto.
Qed.
Lemma exf_no_equality d lo up : up = None -> forall i, (i < all (exf d lo up))%nat -> ~ equality (exf d lo up) i.
Proof. intros -> i Hi (l & u & E1 & E2 & E3). change (all (exf d lo None)) with 3%nat in Hi. destruct i as [|[|[|i]]]; [discriminate| discriminate|discriminate|lia]. Qed.
Example C63_nonvacuous :
  usable Fops fz /\ bghistory Fops fz 0 bsol_new /\ (forall d lo, block_data (exf d lo None) /\ sizes_fit (exf d lo None) /\ (forall i, (i < all (exf d lo None))%nat -> ~ equality (exf d lo None) i)) /\
  (forall d lo, cold_start (exf d lo None) (exo true) []) /\ leb Fops (o_bigBnd (exo true)) (o_bigBnd (exo true)) = true /\
  seen (bgi_solve (S := Fops) fz 0 (fun _ => 7) (exf 2 (-5) None) (exo true) [] bsol_new) = Ok (SUCCESS, 2%nat, [LOWER; INACTIVE; LOWER]) /\
  seen (bgi_solve (S := Fops) fz 0 (fun _ => 7) (exf 2 0 None) (exo true) [] bsol_new) = Ok (INFEASIBLE, 3%nat, [LOWER; INACTIVE; INACTIVE]) /\
  (* an indefinite Hessian *)
  seen (bgi_solve (S := Fops) fz 0 (fun _ => 7) (with_G exG2 (exf 2 0 None)) (exo true) [] bsol_new) = Ok (NON_POS_HESSIAN, 0%nat, [INACTIVE; INACTIVE; INACTIVE]) /\
  (* an infinity in the Hessian *)
  seen (bgi_solve (S := Fops) fz 0 (fun _ => 7) (exf infinity 0 None) (exo true) [] bsol_new) = Ok (INFEASIBLE, 0%nat, [INACTIVE; INACTIVE; INACTIVE]).
Proof.
  split; [apply usable_float; reflexivity|]. split; [apply bgh_new|]. split; [intros d lo; split; [apply exf_data|split; [apply exf_data|apply exf_no_equality; reflexivity]]|].
  split; [intros d lo; left; split; reflexivity|]. split; [reflexivity|]. repeat (split; [vm_compute; reflexivity|]). vm_compute. reflexivity.
Qed.
(** an equality constraint: undefined as soon as the Hessian factorises, and only then *)
Example C63_equality :
  bgi_solve (S := Fops) fz 0 (fun _ => 7) (exf 2 (-5) (Some (-5))) (exo true) [] bsol_new = UB /\
  seen (bgi_solve (S := Fops) fz 0 (fun _ => 7) (with_G exG2 (exf 2 (-5) (Some (-5)))) (exo true) [] bsol_new) = Ok (NON_POS_HESSIAN, 0%nat, [INACTIVE; EQUALITY; INACTIVE]).
Proof. split; vm_compute; reflexivity. Qed.
End Examples.

(** C64 for the block solver: what SUCCESS guarantees when it runs on IEEE doubles. *)
From Coq Require Import List Arith ZArith Lia Bool Reals Lra.
From Flocq Require Import Core IEEE754.BinarySingleNaN.
From Verif Require Import Base ActiveSet Num Solver LinAlg GIInv GIBase GISafe Block Ortho OrthoProofs StructC StructG PropStructC Warm WarmAS WarmSafe BlockGI BlockGen BlockGenQR BlockGenGI PropBlockGen ActiveSetProofs FloatStd DoubleOps DoubleLaws FloatSolve PropDouble Box BoxSafe.
Import ListNotations.

(** doubles, whatever the order of the sums, are one of the arithmetics of C63 and C66 *)
Lemma usable_double wo (isz : carrier (Dw wo) -> bool) : isz (zero (Dw wo)) = true -> usable (Dw wo) isz.
Proof. intros H. split; [apply double_safe|]. split; [exists dnul; apply double_null|exact H]. Qed.

Section Any.
Variable S : ops.
Notation blk := (blk S).
Notation vec := (vec S).

(** transposeMult: each entry is one dot product with a column of one block *)
Lemma col_off_next (C : list blk) k D : nth_error C k = Some D -> col_off C (k + 1) = (col_off C k + bcol D)%nat.
Proof.
  revert k. induction C as [|E C IH]; intros [|k] HD; try discriminate; cbn in HD; [injection HD as ->; unfold col_off; cbn; lia|]. specialize (IH k HD).
  replace (col_off (E :: C) (Datatypes.S k + 1)) with (bcol E + col_off C (k + 1))%nat by reflexivity. replace (col_off (E :: C) (Datatypes.S k)) with (bcol E + col_off C k)%nat by reflexivity. lia.
Qed.
Lemma tmult_val (C : list blk) u osize isize : forall ds k out w, (forall j D, nth_error ds j = Some D -> nth_error C (k + j) = Some D) -> (k + length ds = length C)%nat ->
  tmult_loop ds k (stc_new C) osize out isize u = Ok w ->
    (forall i, (i < col_off C k)%nat -> w i = out i) /\
    (forall k' D j, (k <= k')%nat -> nth_error C k' = Some D -> (j < bcol D)%nat ->
       exists key, w (col_off C k' + j)%nat = @dot S key (brow D) (fun t => bm D t j) (fun t => u (row_off C k' + t)%nat)).
Proof.
  induction ds as [|D ds IH]; intros k out w Hnth Hlen E; cbn [tmult_loop] in E.
  - injection E as <-. split; [auto|]. intros k' D j Hk HD. assert (k' < length C)%nat by (apply nth_error_Some; congruence). cbn in Hlen. lia.
  - assert (HD : nth_error C k = Some D). { rewrite <- (Nat.add_0_r k). apply Hnth. reflexivity. }
    rewrite cumC_eq, cumV_eq in E. rewrite (at_Ok _ _ _ (cums_nth bcol C 0 k D _ HD)), (at_Ok _ _ _ (cums_nth brow C 0 k D _ HD)) in E. cbn [bind Nat.add] in E.
    apply guard_ok in E as [_ E]. rewrite vm_id in E. fold (col_off C k) in E. fold (row_off C k) in E.
    assert (Hn1 : forall j D', nth_error ds j = Some D' -> nth_error C (k + 1 + j) = Some D').
    { intros j D' Hj. replace (k + 1 + j)%nat with (k + Datatypes.S j)%nat by lia. apply Hnth. exact Hj. }
    destruct (IH (k + 1)%nat _ w Hn1 ltac:(cbn in Hlen; lia) E) as (Hlow & Hw).
    pose proof (col_off_next C k D HD) as Hnext. split.
    + intros i Hi. rewrite Hlow by lia. rewrite (proj2 (Nat.leb_gt _ _)) by lia. reflexivity.
    + intros k' D' j Hk' HD' Hj. destruct (Nat.eq_dec k' k) as [->|Hne]; [|apply Hw; auto; lia].
      rewrite HD in HD'. injection HD' as <-. rewrite Hlow by lia. rewrite (proj2 (Nat.leb_le _ _)) by lia. rewrite (proj2 (Nat.ltb_lt _ _)) by lia. cbn [andb].
      eexists. unfold dot. replace (col_off C k + j - col_off C k)%nat with j by lia. reflexivity.
Qed.

Definition bnone (bp : bproblem S) (A : aset) (cx : vec) (k : nat) : Prop :=
  forall i, (i < k)%nat -> isActive A i = Ok false -> not_below S (cx i) (bp_bl bp i) /\ not_above S (cx i) (bp_bu bp i).
Lemma bsel_cstr_none (bp : bproblem S) A cx k : forall acc r, bsel_cstr bp A cx k acc = Ok r -> sc_st (snd r) = INACTIVE ->
  r = acc /\ (fst acc = zero S -> bnone bp A cx k).
Proof.
  induction k as [|k IH]; intros acc r; cbn [bsel_cstr].
  - intros E _. injection E as <-. split; auto. intros _ i Hi. lia.
  - intros E. apply bind_ok in E as (acc1 & E1 & E). apply bind_ok in E as (act & E2 & E). intros Hr.
    destruct act.
    + injection E as E. subst r. destruct (IH _ _ E1 Hr) as (-> & H). split; auto. intros Z i Hi Ha.
      destruct (Nat.eq_dec i k) as [->|]; [congruence|]. apply H; auto; lia.
    + apply guard_ok in E as [_ E]. injection E as E.
      destruct (sel_one_none S _ _ _ _ LOWER UPPER _ _ ltac:(discriminate) ltac:(discriminate) E Hr) as (-> & Hk).
      destruct (IH _ _ E1 Hr) as (-> & H). split; auto. intros Z i Hi Ha.
      destruct (Nat.eq_dec i k) as [->|]; [auto|]. apply H; auto; lia.
Qed.

Variable isz : carrier S -> bool.
Variable tiny : carrier S.
Lemma bstep2_not_success junk (bp : bproblem S) o l st b : bstep2 isz tiny junk bp o l = Ok (BStop st b) -> st = INFEASIBLE.
Proof.
  unfold bstep2. intros E. apply bind_ok in E as (s1 & _ & E). apply bind_ok in E as (((t1, t2), li) & _ & E).
  destruct (leb S (o_bigBnd o) _); [injection E; auto|]. destruct (leb S (o_bigBnd o) t2).
  - apply bind_ok in E as (? & _ & E). apply bind_ok in E as (? & _ & E). apply bind_ok in E as (? & _ & E). discriminate.
  - apply bind_ok in E as (? & _ & E). destruct (eqb S _ t2).
    + apply bind_ok in E as (? & _ & E). discriminate.
    + apply bind_ok in E as (? & _ & E). apply bind_ok in E as (? & _ & E). apply bind_ok in E as (? & _ & E). discriminate.
Qed.
Lemma bloop_success junk (bp : bproblem S) o fuel : forall l b, bloop isz tiny junk bp o fuel l = Ok (SUCCESS, b) ->
  exists b0 sc, bselect bp b0 = Ok (sc, b) /\ sc_st sc = INACTIVE.
Proof.
  induction fuel as [|f IH]; intros l b; cbn [bloop]; [discriminate|].
  intros E. apply bind_ok in E as (r & E1 & E). destruct r as [l'|st s'].
  - eapply IH; exact E.
  - injection E as -> ->. unfold biter in E1. apply bind_ok in E1 as ((l1, b1) & E1 & E2). cbn [fst snd] in E2. destruct l1 as [l1|].
    + apply bstep2_not_success in E2. discriminate.
    + injection E2 as <-. unfold bstep1 in E1. destruct (bl_skip l); [discriminate|].
      apply bind_ok in E1 as ((sc, b2) & Es & E1). exists (bl_s l), sc.
      destruct (sc_st sc) eqn:Est; try (apply bind_ok in E1 as (? & _ & E1); apply bind_ok in E1 as (? & _ & E1); discriminate). injection E1 as <-. auto.
Qed.
Lemma bterminate_eq o st b st' b' : @bterminate S o st b = Ok (st', b') -> st' = st /\ b' = b.
Proof. unfold bterminate. destruct st, (o_debug o); intros E; try discriminate; injection E; auto. Qed.
Lemma bgi_success junk (bp : bproblem S) o ws b b' : bgi_solve isz tiny junk bp o ws b = Ok (SUCCESS, b') -> exists b0 sc, bselect bp b0 = Ok (sc, b') /\ sc_st sc = INACTIVE.
Proof.
  unfold bgi_solve. intros E. apply guard_ok in E as [_ E]. apply guard_ok in E as [_ E]. apply guard_ok in E as [_ E]. cbv zeta in E.
  apply bind_ok in E as ((st, b1) & _ & E). destruct st; try (apply bterminate_eq in E as (E & _); discriminate).
  apply bind_ok in E as (? & _ & E). apply bind_ok in E as (? & _ & E). apply bind_ok in E as (? & _ & E). apply bind_ok in E as ((st, b2) & EL & E).
  apply bterminate_eq in E as (Est & Eb). cbn [fst snd] in Est, Eb. subst. eapply bloop_success; eauto.
Qed.

(** the sizes of the object after a call that returns *)
Lemma bgi_shape junk (bp : bproblem S) o ws b st b' :
  usable S isz -> bghistory S isz tiny b -> block_data bp -> leb S (o_bigBnd o) (o_bigBnd o) = true ->
  bgi_solve isz tiny junk bp o ws b = Ok (st, b') -> sizes_fit bp /\ gbsh S (nvar bp) (ncst bp) (nbnd bp) b' /\ s_exp (b_s b') = true.
Proof.
  intros (HO & (nul & HN) & Hz) HB HD Hbig Hrun.
  pose proof (bghistory_wf S isz tiny b HB) as HW. pose proof (data_shape S bp HD) as HG. destruct HD as (_ & (Cs & HC)).
  assert (HA : sizes_ok (bounds_only bp) = true /\ (length ws =? c_nbCstr (bp_C bp) + bp_xlsize bp)%nat || is_nil ws = true /\ o_warm o || is_nil ws = true).
  { unfold bgi_solve in Hrun. apply guard_ok in Hrun as [H1 H]. apply guard_ok in H as [H2 H]. apply guard_ok in H as [H3 _]. auto. }
  destruct HA as (Hsz & El & Ew). split; [apply sizes_fit_ok; exact Hsz|].
  destruct (bsolve_ok S isz tiny nul junk bp Cs o HO HN Hz Hbig HC Hsz ws b HW HG El Ew) as (ok & G' & EL & HR). cbv zeta in HR.
  destruct (forallb _ _); [|congruence]. destruct (_ <? _)%nat.
  { destruct (o_debug o); [congruence|]. destruct HR as (b2 & E & H1 & H2 & H3). rewrite Hrun in E. injection E as -> ->. auto. }
  destruct ok.
  - destruct (Nat.min _ _ =? 0)%nat; [|congruence]. destruct HR as (st2 & b2 & E & H1 & H2 & H3 & H4). rewrite Hrun in E. injection E as -> ->. auto.
  - destruct HR as (b2 & E & H1 & H2 & H3 & H4). rewrite Hrun in E. injection E as -> ->. auto.
Qed.
End Any.

(** ** Specification: the constraint [j] of the block [D] whose rows (columns) come after [r0] variables ([c0] constraints) *)
Local Open Scope R_scope.
Definition block_lhs {wo} (D : blk (Dw wo)) (r0 j : nat) (xs : list double) : R := rsum (brow D) (fun t => dval (bm D t j) * comp xs (r0 + t)).
Definition block_magnitude {wo} (D : blk (Dw wo)) (r0 j : nat) (xs : list double) : R := rsum (brow D) (fun t => Rabs (dval (bm D t j) * comp xs (r0 + t))).
Definition block_inactive_hold {wo} (bp : bproblem (Dw wo)) (Cs : list (blk (Dw wo))) (act : list status) (xs : list double) : Prop :=
  (forall i, (i < nbnd bp)%nat -> is_inactive act (ncst bp + i) -> dfin (nth i xs d0) ->
     above_bound (bp_xl bp i) (comp xs i) 0 /\ below_bound (bp_xu bp i) (comp xs i) 0) /\
  (forall k D j, nth_error Cs k = Some D -> (j < bcol D)%nat -> let r0 := row_off Cs k in let i := (col_off Cs k + j)%nat in is_inactive act i ->
     (forall t, (t < brow D)%nat -> dfin (bm D t j) /\ dfin (nth (r0 + t) xs d0)) -> block_magnitude D r0 j xs <= 2 ^ 1000 ->
     let e := rounding (brow D) (block_magnitude D r0 j xs) in
     above_bound (bp_bl bp i) (block_lhs D r0 j xs) e /\ below_bound (bp_bu bp i) (block_lhs D r0 j xs) e).

(** C64: the block solver; the error is that of a dot product of the length of one block *)
Theorem C64_success_double_block : forall (wo : sumorder) isz tiny junk (bp : bproblem (Dw wo)) Cs (o : options (Dw wo)) ws b b' xs,
  isz (zero (Dw wo)) = true -> bghistory (Dw wo) isz tiny b -> block_data bp -> bp_C bp = stc_new Cs -> not_nan (o_bigBnd o) ->
  (forall D, In D Cs -> (brow D < 2 ^ 26)%nat) ->
  bgi_solve isz tiny junk bp o ws b = Ok (SUCCESS, b') -> solution (b_s b') = Ok xs -> block_inactive_hold bp Cs (activeSet (b_s b')) xs.
Proof.
  intros wo isz tiny junk bp Cs o ws b b' xs Hz HH HD HC HB Hn E Hx.
  destruct (bgi_shape (Dw wo) isz tiny junk bp o ws b SUCCESS b' (usable_double wo isz Hz) HH HD HB E) as (HF & HS & _).
  destruct (bgi_success (Dw wo) isz tiny junk bp o ws b b' E) as (b0 & sc & Es & Hi).
  unfold bselect in Es. apply bind_ok in Es as (xv & Ex & Es). apply bind_ok in Es as (cx0 & _ & Es). apply bind_ok in Es as (cx & Ecx & Es).
  apply bind_ok in Es as (a1 & E1 & Es). apply bind_ok in Es as (a2 & E2 & Es). injection Es as <- <-.
  assert (xv = w_buf (s_x (b_s b0))) as -> by (unfold getV in Ex; destruct (vec_fits _ _); [injection Ex; auto|discriminate]).
  destruct (sel_bnd_none _ _ _ _ _ _ _ E2 Hi) as (-> & HBd). destruct (bsel_cstr_none _ _ _ _ _ _ _ E1 Hi) as (-> & HCs).
  specialize (HBd eq_refl). specialize (HCs eq_refl). set (s := b_s b0) in *.
  destruct HS as [S1 S2 S3 S4 _ _ _ _ _ _ _ _]. change (b_s (bset_cx b0 _)) with s in *.
  assert (Hx' : forall i, (i < nvar bp)%nat -> nth i xs d0 = w_buf (s_x s) i).
  { intros i Hlt. unfold solution in Hx. rewrite Ex in Hx. cbn [bind] in Hx. injection Hx as <-. rewrite S1.
    rewrite (nth_indep _ d0 (w_buf (s_x s) 0%nat)) by (rewrite map_length, seq_length; auto). rewrite map_nth, seq_nth by auto. reflexivity. }
  assert (Hact : forall i, (i < ncst bp)%nat -> is_inactive (activeSet s) i -> isActive (s_A s) i = Ok false).
  { intros i Hlt Ha. unfold isActive, as_stat. unfold is_inactive, activeSet in Ha. rewrite Ha. unfold nbAll. rewrite S3. destruct (Nat.ltb_spec i (ncst bp + a_nb (s_A s))); [reflexivity|lia]. }
  destruct HF as (_ & F2 & _ & _ & F5 & _). split.
  - intros i Hlt Ha Hf. rewrite S4 in HBd. destruct (HBd i Hlt) as (H1 & H2).
    { unfold isActiveBnd, as_statBnd. rewrite S4, S3. destruct (Nat.ltb_spec i (nbnd bp)); [|lia]. cbn [guard]. unfold is_inactive, activeSet in Ha. rewrite Ha. reflexivity. }
    cbn [p_xl p_xu bounds_only dense_of] in H1, H2. unfold comp, above_bound, below_bound. rewrite Hx' in * by lia. split.
    + intros v Eb Fb. unfold not_below in H1. rewrite Eb in H1. pose proof (not_below_le _ _ Hf Fb H1). lra.
    + intros v Eb Fb. unfold not_above in H2. rewrite Eb in H2. pose proof (not_below_le _ _ Fb Hf H2). lra.
  - intros k D j HDk Hj r0 i Ha Hf Hm e. unfold stc_transposeMult in Ecx. apply guard_ok in Ecx as [_ Ecx]. rewrite HC in Ecx.
    replace (c_diag (stc_new Cs)) with Cs in Ecx by (rewrite stc_new_spec; reflexivity).
    destruct (tmult_val (Dw wo) Cs _ _ _ Cs 0%nat _ cx ltac:(auto) eq_refl Ecx) as (_ & Hval). destruct (Hval k D j ltac:(lia) HDk Hj) as (key & Ei). fold i r0 in Ei.
    assert (Hic : (i < ncst bp)%nat).
    { pose proof (off_end bcol Cs k D HDk) as H1. unfold ncst. rewrite HC, nbC_eq. unfold i, col_off, cols_of. lia. }
    assert (Hrn : (r0 + brow D <= nvar bp)%nat).
    { pose proof (off_end brow Cs k D HDk) as H1. rewrite <- F2, HC, nbV_eq. unfold r0, row_off, rows_of. lia. }
    rewrite S3 in HCs. destruct (HCs i Hic (Hact i Hic Ha)) as (H1 & H2). rewrite Ei in H1, H2.
    assert (Hf' : forall t, (t < brow D)%nat -> dfin (bm D t j) /\ dfin (w_buf (s_x s) (r0 + t)%nat)).
    { intros t Ht. destruct (Hf t Ht) as (? & Hx1). rewrite Hx' in Hx1 by lia. auto. }
    assert (Em : block_magnitude D r0 j xs = rsum (brow D) (fun t => Rabs (dval (bm D t j) * dval (w_buf (s_x s) (r0 + t)%nat)))).
    { apply sum_ext. intros t Ht. unfold comp. rewrite Hx' by lia. reflexivity. }
    assert (El : block_lhs D r0 j xs = rsum (brow D) (fun t => dval (bm D t j) * dval (w_buf (s_x s) (r0 + t)%nat))).
    { apply sum_ext. intros t Ht. unfold comp. rewrite Hx' by lia. reflexivity. }
    rewrite Em in Hm.
    destruct (row_error wo key (brow D) (fun t => bm D t j) (fun t => w_buf (s_x s) (r0 + t)%nat) (Hn D (nth_error_In _ _ HDk)) Hf' Hm) as (F & Dd). cbv beta in Dd.
    rewrite <- Em, <- El in Dd. fold e in Dd. apply Rabs_le_inv in Dd. split.
    + intros v Eb Fb. unfold not_below in H1. rewrite Eb in H1. pose proof (not_below_le _ _ F Fb H1) as K. lra.
    + intros v Eb Fb. unfold not_above in H2. rewrite Eb in H2. pose proof (not_below_le _ _ Fb F H2) as K. lra.
Qed.

(** C64: the multipliers of the inactive constraints of the block solver are exactly zero, in any arithmetic *)
Theorem C64_inactive_multiplier_block : forall (S : ops) isz tiny junk (bp : bproblem S) (o : options S) ws b st b' lam s'' i,
  usable S isz -> bghistory S isz tiny b -> block_data bp -> leb S (o_bigBnd o) (o_bigBnd o) = true ->
  bgi_solve isz tiny junk bp o ws b = Ok (st, b') -> multipliers (b_s b') = Ok (lam, s'') -> is_inactive (activeSet (b_s b')) i -> nth_error lam i = Some (zero S).
Proof.
  intros S isz tiny junk bp o ws b st b' lam s'' i HU HH HD HB E Em Hi.
  destruct (bgi_shape S isz tiny junk bp o ws b st b' HU HH HD HB E) as (_ & HS & He). eapply mult_inactive; eauto. apply HS.
Qed.

(** ** A concrete case: min x0^2 + x0 x1 + x1^2, two blocks of constraints: x0 >= 1, -x0 >= -5; x1 >= 1; the second one stays inactive *)
Definition b1x1 (x : double) : blk Dops := @Bk Dops 1 1 (fun _ _ => x).
Definition exC : list (blk Dops) := [@Bk Dops 1 2 (fun _ j => if (j =? 0)%nat then d1 else dlit (-1) 0); b1x1 d1].
Definition exGd : structG Dops := @StG Dops TriBlockDiagonal [b1x1 (dlit 2 0); b1x1 (dlit 2 0)] [b1x1 d1] 2 false.
Definition exb : bproblem Dops :=
  @BP Dops exGd (fun _ => d0) 2 (stc_new exC) (fun i => Some (if (i =? 1)%nat then dlit (-5) 0 else d1)) 3 (fun _ => None) 3 (fun _ => None) 0 (fun _ => None) 0.
Definition dz (x : double) : bool := Bleb (Babs x) (dlit 1 (-40)).
Definition run_block (bp : bproblem Dops) : option (term_status * list double * list status) :=
  match bgi_solve (S := Dops) dz d0 junkd bp dopt [] bsol_new with
  | Ok (st, b) => match solution (b_s b) with Ok xs => Some (st, xs, activeSet (b_s b)) | UB => None end
  | UB => None
  end.
Definition block_run_ok (r : option (term_status * list double * list status)) : bool :=
  match r with
  | Some (SUCCESS, [x; y], [LOWER; INACTIVE; LOWER]) => between d0 x (dlit 10 0) && between d0 y (dlit 10 0)
  | _ => false end.
Lemma block_runs : block_run_ok (run_block exb) = true.
Proof. vm_compute. reflexivity. Qed.
Lemma run_block_inv bp st xs act : run_block bp = Some (st, xs, act) ->
  exists b', bgi_solve (S := Dops) dz d0 junkd bp dopt [] bsol_new = Ok (st, b') /\ solution (b_s b') = Ok xs /\ activeSet (b_s b') = act.
Proof.
  unfold run_block. destruct (bgi_solve _ _ _ bp _ _ _) as [(st1, s1)|]; [|discriminate]. destruct (solution (b_s s1)) as [xs1|] eqn:E; [|discriminate].
  intros H. injection H as -> -> <-. exists s1. auto.
Qed.
Example C64_block_nonvacuous : exists b' xs, dz (zero Dops) = true /\ bghistory Dops dz d0 bsol_new /\ block_data exb /\ bp_C exb = stc_new exC /\ not_nan (o_bigBnd dopt) /\
  (forall D, In D exC -> (brow D < 2 ^ 26)%nat) /\ bgi_solve (S := Dops) dz d0 junkd exb dopt [] bsol_new = Ok (SUCCESS, b') /\ solution (b_s b') = Ok xs /\
  activeSet (b_s b') = [LOWER; INACTIVE; LOWER] /\ Forall dfin xs /\ length xs = 2%nat.
Proof.
  pose proof block_runs as H. destruct (run_block exb) as [((st, xs), act)|] eqn:E; [|discriminate H].
  destruct (run_block_inv _ _ _ _ E) as (b' & E1 & E2 & E3). exists b', xs. unfold block_run_ok in H.
  destruct st; try discriminate H. destruct xs as [|x [|y [|]]]; try discriminate H.
  destruct act as [|[] [|[] [|[] [|]]]]; try discriminate H. apply andb_true_iff in H as (H1 & H2).
  split; [vm_compute; reflexivity|]. split; [constructor|]. split.
  { split; [|eexists; reflexivity]. exists TriBlockDiagonal, [b1x1 (dlit 2 0); b1x1 (dlit 2 0)], [b1x1 d1]. split; [reflexivity|]. split; [reflexivity|]. split; [repeat constructor|].
    intros k B D D1 K1 K2 K3. destruct k as [|[|]]; [|discriminate|discriminate]. injection K1 as <-. injection K2 as <-. injection K3 as <-. auto. }
  split; [reflexivity|]. split; [vm_compute; reflexivity|]. split.
  { intros D [<-|[<-|[]]]; apply (Nat.pow_lt_mono_r 2 0 26); lia. }
  split; [exact E1|]. split; [exact E2|]. split; [exact E3|]. split; [|reflexivity]. constructor; [exact (between_fin _ _ _ H1)|]. constructor; [exact (between_fin _ _ _ H2)|constructor].
Qed.

(** * The box solver *)
Section AnyBox.
Variable S : ops.
Lemma box_success_tests junk (a : box_args S) o s s' : safe_ops S -> leb S (o_bigBnd o) (o_bigBnd o) = true -> box_history S s ->
  box_solve junk a o s = Ok (SUCCESS, s') -> gsh S (box_pb a) s' /\ s_exp s' = true /\ exists sc, selectViolated (box_pb a) s' = Ok sc /\ sc_st sc = INACTIVE.
Proof.
  intros HO HB HH E. pose proof (box_hist_wf S s HO HH) as HW. pose proof (box_solve_spec S junk a o s HO HB HW) as HG.
  destruct (box_sizes a) eqn:Hsz; [|congruence]. destruct (box_solve_result S junk a o s HO HB HW Hsz) as (st & s1 & E1 & HS & He & _).
  rewrite E in E1. injection E1 as <- <-. split; [exact HS|]. split; [exact He|].
  destruct HG as (s2 & s0 & _ & _ & _ & _ & _ & E2). rewrite E in E2. symmetry in E2. eapply loop_success; exact E2.
Qed.
End AnyBox.
(** c.x and the sum of the magnitudes of its terms *)
Definition box_lhs {wo} (a : box_args (Dw wo)) (xs : list double) : R := rsum (ba_n a) (fun i => dval (ba_c a i) * comp xs i).
Definition box_magnitude {wo} (a : box_args (Dw wo)) (xs : list double) : R := rsum (ba_n a) (fun i => Rabs (dval (ba_c a i) * comp xs i)).
(** C64: the box solver (constraint 0 is bl <= c.x, constraint i+1 the box of x_i) *)
Theorem C64_success_double_box : forall (wo : sumorder) junk (a : box_args (Dw wo)) (o : options (Dw wo)) s s' xs,
  box_history (Dw wo) s -> not_nan (o_bigBnd o) -> (ba_n a < 2 ^ 26)%nat -> box_solve junk a o s = Ok (SUCCESS, s') -> solution s' = Ok xs ->
  (forall i, (i < ba_n a)%nat -> is_inactive (activeSet s') (i + 1) -> dfin (nth i xs d0) ->
     above_bound (ba_xl a i) (comp xs i) 0 /\ below_bound (ba_xu a i) (comp xs i) 0) /\
  (is_inactive (activeSet s') 0 -> (forall i, (i < ba_n a)%nat -> dfin (ba_c a i) /\ dfin (nth i xs d0)) -> box_magnitude a xs <= 2 ^ 1000 ->
     above_bound (ba_bl a) (box_lhs a xs) (rounding (ba_n a) (box_magnitude a xs))).
Proof.
  intros wo junk a o s s' xs HH HB Hn E Hx. destruct (box_success_tests (Dw wo) junk a o s s' (double_safe wo) HB HH E) as (HS & _ & sc & Es & Hi).
  destruct (tests_hold wo (box_pb a) s' sc xs Hn HS Es Hi Hx) as (H1 & H2).
  pose proof (g_sizes _ _ _ HS) as Hsz. unfold sizes_ok in Hsz. cbn [box_pb p_xlsize p_Grows p_Ccols] in *. split.
  - intros i Hlt Ha Hf. apply H1; auto; [|rewrite Nat.add_comm; exact Ha].
    assert (box_sizes a = true) by (unfold box_solve in E; destruct (box_sizes a); [reflexivity|discriminate E]). unfold box_sizes in H. rewrite !andb_true_iff, !Nat.eqb_eq in H. lia.
  - intros Ha Hf Hm. destruct (H2 0%nat ltac:(lia) Ha Hf Hm) as (H & _). exact H.
Qed.

(** projection of (3, 0) on [0, 2] x [-1, 1] with x + y >= 1: the constraint and the second box stay inactive *)
Definition exbox : box_args Dops :=
  @BA Dops (dv [dlit 3 0; d0]) 2 (fun _ => d1) 2 (Some d1) (dob [d0; dlit (-1) 0]) 2 (dob [dlit 2 0; d1]) 2.
Definition run_box (a : box_args Dops) : option (term_status * list double * list status) :=
  match box_solve junkd a dopt (sol_new Dops) with
  | Ok (st, s) => match solution s with Ok xs => Some (st, xs, activeSet s) | UB => None end
  | UB => None
  end.
Lemma run_box_inv a st xs act : run_box a = Some (st, xs, act) -> exists s', box_solve junkd a dopt (sol_new Dops) = Ok (st, s') /\ solution s' = Ok xs /\ activeSet s' = act.
Proof.
  unfold run_box. destruct (box_solve _ a dopt _) as [(st1, s1)|]; [|discriminate]. destruct (solution s1) as [xs1|] eqn:E; [|discriminate].
  intros H. injection H as -> -> <-. exists s1. auto.
Qed.
Definition box_run_ok (r : option (term_status * list double * list status)) : bool :=
  match r with
  | Some (SUCCESS, [x; y], [INACTIVE; UPPER_BOUND; INACTIVE]) => between d1 x (dlit 3 0) && between (dlit (-1) 0) y d1
  | _ => false end.
Lemma box_runs : box_run_ok (run_box exbox) = true.
Proof. vm_compute. reflexivity. Qed.
Example C64_box_nonvacuous : exists s' xs, box_history Dops (sol_new Dops) /\ not_nan (o_bigBnd dopt) /\ (ba_n exbox < 2 ^ 26)%nat /\
  box_solve junkd exbox dopt (sol_new Dops) = Ok (SUCCESS, s') /\ solution s' = Ok xs /\ activeSet s' = [INACTIVE; UPPER_BOUND; INACTIVE] /\ Forall dfin xs /\ length xs = 2%nat.
Proof.
  pose proof box_runs as H. destruct (run_box exbox) as [((st, xs), act)|] eqn:E; [|discriminate H].
  destruct (run_box_inv _ _ _ _ E) as (s' & E1 & E2 & E3). exists s', xs. unfold box_run_ok in H.
  destruct st; try discriminate H. destruct xs as [|x [|y [|]]]; try discriminate H.
  destruct act as [|[] [|[] [|[] [|]]]]; try discriminate H. apply andb_true_iff in H as (H1 & H2).
  split; [constructor|]. split; [vm_compute; reflexivity|]. split; [apply (Nat.pow_lt_mono_r 2 1 26); lia|].
  split; [exact E1|]. split; [exact E2|]. split; [exact E3|]. split; [|reflexivity].
  constructor; [exact (between_fin _ _ _ H1)|]. constructor; [exact (between_fin _ _ _ H2)|constructor].
Qed.

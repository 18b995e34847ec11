(** The block Goldfarb-Idnani solver for ANY scalar arithmetic: sizes of the object are kept by every call, no
    access out of range, no failed assertion, and the possible statuses.  Nothing here uses the mathematics of the algorithm. *)
From Coq Require Import List Arith ZArith Lia Bool.
From Verif Require Import Base ActiveSet ActiveSetProofs Num Solver LinAlg GIBase GIInv GISafe GICall GIHist GISame Warm WarmAS Util
  Block BlockSpec BlockDense PropBlock Ortho StructC PropStructC StructG StructGProofs BlockGI BlockGen BlockGenQR.
Import ListNotations.

Section GenGI.
Variable S : ops.
(** ** Sizes of the object *)
Record gbsh (n c m : nat) (b : bsol S) : Prop := {
  bh_n : s_n (b_s b) = n; bh_good : good (s_A (b_s b)); bh_c : a_nc (s_A (b_s b)) = c; bh_m : a_nb (s_A (b_s b)) = m;
  bh_x : (n <= w_size (s_x (b_s b)))%nat; bh_z : (n <= w_size (s_z (b_s b)))%nat; bh_d : (n <= w_size (s_d (b_s b)))%nat;
  bh_u : (c + m <= w_size (s_u (b_s b)))%nat; bh_r : (c + m <= w_size (s_r (b_s b)))%nat;
  bh_J : b_Jn b = n; bh_cx : (c <= w_size (b_cx b))%nat; bh_Q : qgen S n (b_QR b)
}.
Definition gbwf (b : bsol S) : Prop := gbsh (s_n (b_s b)) (a_nc (s_A (b_s b))) (a_nb (s_A (b_s b))) b.
Lemma gbsh_wf n c m b : gbsh n c m b -> gbwf b.
Proof. intros H. unfold gbwf. rewrite (bh_n _ _ _ _ H), (bh_c _ _ _ _ H), (bh_m _ _ _ _ H). exact H. Qed.
Lemma gbwf_new : gbwf bsol_new.
Proof. unfold gbwf. split; cbn; auto; try lia. { apply good_new. } split; cbn; auto; lia. Qed.

Lemma bresize_spec (junk : vec S) (b : bsol S) n c (ub : bool) : gbwf b -> gbsh n c (if ub then n else 0)%nat (bresize junk b n c ub).
Proof.
  intros [H1 H2 H3 H4 H5 H6 H7 H8 H9 H10 H11 H12]. unfold bresize.
  assert (HR : forall w k, (k <= w_size (@w_resize S junk w k))%nat) by (intros; apply gw_resize).
  set (s := b_s b) in *. set (b1 := if (n =? s_n s)%nat then b else _).
  assert (D : s_n (b_s b1) = s_n s /\ s_A (b_s b1) = s_A s /\ s_x (b_s b1) = s_x s /\ s_z (b_s b1) = s_z s /\ s_u (b_s b1) = s_u s /\ s_r (b_s b1) = s_r s /\
     (n <= w_size (s_d (b_s b1)))%nat /\ b_Jn b1 = n /\ qgen S n (b_QR b1) /\ b_cx b1 = b_cx b).
  { unfold b1. destruct (Nat.eqb_spec n (s_n s)) as [E|E].
    - fold s. rewrite E. repeat (split; [auto|]). auto.
    - cbn [b_s b_Jn b_QR b_cx s_n s_A s_x s_z s_u s_r s_d set_d]. repeat (split; [reflexivity || apply HR || apply qgen_resize|]). reflexivity. }
  clearbody b1. destruct D as (D1 & D2 & D3 & D4 & D5 & D6 & D7 & D8 & D9 & D10).
  set (b2 := if (c =? a_nc (s_A s))%nat then b1 else _).
  assert (F : b_s b2 = b_s b1 /\ b_Jn b2 = n /\ qgen S n (b_QR b2) /\ (c <= w_size (b_cx b2))%nat).
  { unfold b2. destruct (Nat.eqb_spec c (a_nc (s_A s))) as [E|E]; [split; [auto|]; split; [auto|]; split; [auto|]; rewrite D10, E; auto|].
    cbn [bset_cx b_s b_Jn b_QR b_cx]. repeat (split; [auto|]). apply HR. }
  clearbody b2. destruct F as (F1 & F2 & F3 & F4). rewrite F1. clear F1.
  assert (P : let s' := resize_p junk (b_s b1) n c ub in s_n s' = n /\ good (s_A s') /\ a_nc (s_A s') = c /\ a_nb (s_A s') = (if ub then n else 0)%nat /\
    (n <= w_size (s_x s'))%nat /\ (n <= w_size (s_z s'))%nat /\ (n <= w_size (s_d s'))%nat /\
    (c + (if ub then n else 0) <= w_size (s_u s'))%nat /\ (c + (if ub then n else 0) <= w_size (s_r s'))%nat).
  { cbv zeta. unfold resize_p. set (nb := if ub then n else 0%nat). rewrite D1.
    set (s2 := if (n =? s_n s)%nat then b_s b1 else _).
    assert (F : (n <= w_size (s_d s2))%nat /\ (n <= w_size (s_x s2))%nat /\ (n <= w_size (s_z s2))%nat /\ s_A s2 = s_A s /\ s_n s2 = n /\ s_u s2 = s_u s /\ s_r s2 = s_r s).
    { unfold s2. destruct (Nat.eqb_spec n (s_n s)) as [E|E].
      - repeat (split; [auto; rewrite ?D3, ?D4, E; auto|]). auto.
      - repeat (split; [assumption || apply HR|]). repeat split; auto. }
    clearbody s2. destruct F as (G1 & G2 & G3 & G4 & G5 & G6 & G7). rewrite G4.
    set (s3 := if (c + nb =? nbAll (s_A s))%nat then s2 else _).
    assert (K : (n <= w_size (s_d s3))%nat /\ (n <= w_size (s_x s3))%nat /\ (n <= w_size (s_z s3))%nat /\
       s_A s3 = s_A s /\ s_n s3 = n /\ (c + nb <= w_size (s_u s3))%nat /\ (c + nb <= w_size (s_r s3))%nat).
    { unfold s3. destruct (Nat.eqb_spec (c + nb) (nbAll (s_A s))) as [E|E].
      - repeat (split; [assumption|]). rewrite E, G6, G7. unfold nbAll. auto.
      - repeat (split; [assumption|]). split; apply HR. }
    clearbody s3. destruct K as (K1 & K2 & K3 & K6 & K7 & K8 & K9). rewrite K6.
    destruct (Nat.eqb_spec c (a_nc (s_A s))) as [Ec|Ec]; cbn [andb].
    1: destruct (Nat.eqb_spec nb (a_nb (s_A s))) as [Eb|Eb]; cbn [andb].
    - rewrite K6. repeat (split; auto).
    - cbn [s_n s_A s_x s_z s_d s_J s_R s_u s_r set_A]. repeat (split; [assumption || reflexivity || apply good_resize|]). assumption.
    - cbn [s_n s_A s_x s_z s_d s_J s_R s_u s_r set_A]. repeat (split; [assumption || reflexivity || apply good_resize|]). assumption. }
  cbv zeta in P. destruct P as (P1 & P2 & P3 & P4 & P5 & P6 & P7 & P8 & P9). split; cbn [bset_s b_s b_Jn b_QR b_cx]; auto.
Qed.

(** ** Sizes are kept by every call that returns *)
Lemma adjust_wf n r q r' : qgen S n r -> @adjustLdR S r q = Ok r' -> qgen S n r'.
Proof.
  intros [H1 H2 H3 H4 H5 H6] E. unfold adjustLdR in E. apply guard_ok in E as [Hq E]. apply Nat.leb_le in Hq. destruct (Nat.ltb_spec (r_ld r) q); [|injection E as <-; split; auto].
  apply bind_ok in E as (l & _ & E). injection E as <-. split; cbn [r_n r_Q r_ld r_R r_ess w_of w_size]; auto; lia.
Qed.
Lemma getR_wf n r q Rm r' : qgen S n r -> @getR S r q = Ok (Rm, r') -> qgen S n r'.
Proof. intros H E. unfold getR in E. apply bind_ok in E as (r1 & E1 & E). apply bind_ok in E as (R1 & _ & E). injection E as _ <-. apply (adjust_wf _ _ _ _ H E1). Qed.
Lemma prepare_n junk Q ty a c Q' : @os_prepare S junk Q ty a c = Ok Q' -> q_n Q' = q_n Q.
Proof. intros E. unfold os_prepare in E. apply bind_ok in E as (e & _ & E). injection E as <-. reflexivity. Qed.
Lemma addH_n Q a c e t Q' : @os_addH S Q a c e t = Ok Q' -> q_n Q' = q_n Q.
Proof. intros E. unfold os_addH in E. apply bind_ok in E as (((st & e0) & rest) & _ & E). apply bind_ok in E as (e1 & _ & E). injection E as <-. reflexivity. Qed.
Lemma addG_n Q a g Q' : @os_addG S Q a g = Ok Q' -> q_n Q' = q_n Q.
Proof. intros E. unfold os_addG in E. apply bind_ok in E as (((st & e0) & rest) & _ & E). apply bind_ok in E as (e1 & _ & E). injection E as <-. reflexivity. Qed.
Lemma sqr_add_wf tiny junk n r m d f r' : qgen S n r -> @sqr_add S tiny junk r m d = Ok (f, r') -> qgen S n r'.
Proof.
  intros H E. unfold sqr_add in E. apply guard_ok in E as [_ E]. apply guard_ok in E as [_ E]. apply bind_ok in E as (e0 & _ & E).
  destruct (mkHouse _ _ _) as [[tau beta] ess]. apply bind_ok in E as ((Rm & r1) & E1 & E). apply bind_ok in E as (Q1 & EQ1 & E). apply bind_ok in E as (Q2 & EQ2 & E). injection E as _ <-.
  pose proof (getR_wf _ _ _ _ _ H E1) as [H1 H2 H3 H4 H5 H6]. pose proof (prepare_n _ _ _ _ _ _ EQ1). pose proof (addH_n _ _ _ _ _ _ EQ2). pose proof (qg_n _ _ _ H).
  split; cbn [r_n r_Q r_ld r_R r_ess wset w_size]; auto; congruence || (pose proof (qg_e _ _ _ H); lia).
Qed.
Lemma rem_loop_n ld q cnt : forall i Rm Q x, @sqr_rem_loop S ld q cnt i Rm Q = Ok x -> q_n (snd x) = q_n Q.
Proof.
  induction cnt as [|cnt IH]; intros i Rm Q x E; cbn [sqr_rem_loop] in E; [injection E as <-; reflexivity|].
  destruct (makeGivens _ _) as (g & rr). apply bind_ok in E as (Q1 & E1 & E). rewrite (IH _ _ _ _ E). apply (addG_n _ _ _ _ E1).
Qed.
Lemma sqr_remove_wf junk n r l r' : qgen S n r -> @sqr_remove S junk r l = Ok r' -> qgen S n r'.
Proof.
  intros [H1 H2 H3 H4 H5 H6] E. unfold sqr_remove in E. apply guard_ok in E as [_ E]. apply bind_ok in E as ((Rm & r1) & E1 & E). apply guard_ok in E as [_ E].
  apply bind_ok in E as (Q1 & EQ1 & E). apply bind_ok in E as (x & EQ2 & E). injection E as <-.
  assert (W : qgen S n r1) by (refine (getR_wf n _ _ _ _ _ E1); split; auto). destruct W as [W1 W2 W3 W4 W5 W6].
  pose proof (prepare_n _ _ _ _ _ _ EQ1). pose proof (rem_loop_n _ _ _ _ _ _ _ EQ2). split; cbn [r_n r_Q r_ld r_R r_ess wset w_size]; auto; congruence.
Qed.

Lemma count_sizes A st act s d A' : count_update A st act s d = Ok A' -> a_nc A' = a_nc A /\ a_nb A' = a_nb A.
Proof. intros E. unfold count_update in E. destruct A. destruct s; try discriminate; injection E as <-; auto. Qed.
Lemma activate_sizes A i st A' : as_activate A i st = Ok A' -> a_nc A' = a_nc A /\ a_nb A' = a_nb A.
Proof. intros E. unfold as_activate in E. apply guard_ok in E as [_ E]. destruct (nth_error _ _) as [[]|]; try discriminate. apply guard_ok in E as [_ E]. apply (count_sizes _ _ _ _ _ _ E). Qed.
Lemma deactivate_sizes A k A' : as_deactivate A k = Ok A' -> a_nc A' = a_nc A /\ a_nb A' = a_nb A.
Proof. intros E. unfold as_deactivate in E. destruct (nth_error _ k); try discriminate. destruct (nth_error _ _); try discriminate. apply (count_sizes _ _ _ _ _ _ E). Qed.

Section Keep.
Variables (isz : carrier S -> bool) (tiny : carrier S) (junk : vec S) (bp : bproblem S) (o : options S) (n c m : nat).
Lemma add_keep b sc b' : gbsh n c m b -> baddConstraint tiny junk b sc = Ok b' -> gbsh n c m b'.
Proof.
  intros [H1 H2 H3 H4 H5 H6 H7 H8 H9 H10 H11 H12] E. unfold baddConstraint in E. apply bind_ok in E as (A & EA & E). apply bind_ok in E as (d & _ & E). apply bind_ok in E as ((f & r) & Er & E). injection E as <-.
  pose proof (good_activate _ _ _ _ H2 EA). destruct (activate_sizes _ _ _ _ EA). split; cbn [b_s b_Jn b_QR b_cx s_n s_A s_x s_z s_d s_u s_r set_A]; auto; try congruence. apply (sqr_add_wf _ _ _ _ _ _ _ _ H12 Er).
Qed.
Lemma rem_keep b l b' : gbsh n c m b -> bremoveConstraint junk b l = Ok b' -> gbsh n c m b'.
Proof.
  intros [H1 H2 H3 H4 H5 H6 H7 H8 H9 H10 H11 H12] E. unfold bremoveConstraint in E. apply guard_ok in E as [_ E]. apply bind_ok in E as (A & EA & E). apply bind_ok in E as (r & Er & E). injection E as <-.
  cbn [s_A set_u] in EA. pose proof (good_deactivate _ _ _ H2 EA). destruct (deactivate_sizes _ _ _ EA).
  split; cbn [b_s b_Jn b_QR b_cx s_n s_A s_x s_z s_d s_u s_r set_A set_u wset w_size bset_s bset_QR]; auto; try congruence. apply (sqr_remove_wf _ _ _ _ _ H12 Er).
Qed.
Lemma step_keep b sc b' : gbsh n c m b -> bcomputeStep isz bp b sc = Ok b' -> gbsh n c m b'.
Proof.
  intros [H1 H2 H3 H4 H5 H6 H7 H8 H9 H10 H11 H12] E. unfold bcomputeStep in E. apply bind_ok in E as (d0 & _ & E). apply bind_ok in E as (z0 & _ & E). apply bind_ok in E as (r0 & _ & E).
  apply bind_ok in E as (d1 & _ & E). apply guard_ok in E as [_ E]. apply bind_ok in E as (z1 & _ & E). apply bind_ok in E as (rr & Er & E). injection E as <-.
  split; cbn [b_s b_Jn b_QR b_cx s_n s_A s_x s_z s_d s_u s_r set_d set_z set_r wset w_size bset_s bset_QR]; auto.
  unfold sqr_RSolve in Er. apply guard_ok in Er as [_ Er]. apply bind_ok in Er as ((Rm & r1) & E1 & Er). injection Er as <-. cbn [snd]. apply (getR_wf _ _ _ _ _ H12 E1).
Qed.
Lemma iter_keep l out : gbsh n c m (bl_s l) -> biter isz tiny junk bp o l = Ok out -> match out with BContinue l' => gbsh n c m (bl_s l') | BStop _ b => gbsh n c m b end.
Proof.
  intros H E. unfold biter in E. apply bind_ok in E as ((m0 & b0) & E1 & E). cbn [fst snd] in E.
  assert (K : match m0 with Some l => gbsh n c m (bl_s l) | None => gbsh n c m b0 end).
  { unfold bstep1 in E1. destruct (bl_skip l). { injection E1 as <- <-. exact H. }
    apply bind_ok in E1 as ((sc & b) & Es & E1).
    assert (Hb : gbsh n c m b).
    { unfold bselect in Es. repeat (apply bind_ok in Es as (? & _ & Es)). injection Es as _ <-. destruct H. split; auto. }
    destruct (sc_st sc); try (injection E1 as <- <-; exact Hb);
      apply bind_ok in E1 as (r0 & _ & E1); apply bind_ok in E1 as (u & _ & E1); injection E1 as <- <-; cbn [bl_s]; destruct Hb; split; auto. }
  destruct m0 as [l1|]; [|injection E as <-; exact K]. clear E1 H. unfold bstep2 in E. apply bind_ok in E as (b & Eb & E). pose proof (step_keep _ _ _ K Eb) as Hb.
  apply bind_ok in E as (((t1 & t2) & lidx) & _ & E).
  assert (Hset : forall s', s_n s' = s_n (b_s b) -> s_A s' = s_A (b_s b) -> w_size (s_x s') = w_size (s_x (b_s b)) -> w_size (s_z s') = w_size (s_z (b_s b)) -> w_size (s_d s') = w_size (s_d (b_s b)) ->
     w_size (s_u s') = w_size (s_u (b_s b)) -> w_size (s_r s') = w_size (s_r (b_s b)) -> gbsh n c m (bset_s b s')).
  { intros s' K1 K2 K3 K4 K5 K6 K7. destruct Hb. split; cbn [b_s bset_s b_Jn b_QR b_cx]; rewrite ?K1, ?K2, ?K3, ?K4, ?K5, ?K6, ?K7; auto. }
  destruct (leb _ _ _). { injection E as <-. exact Hb. }
  destruct (leb _ _ _).
  - apply bind_ok in E as (b2 & E2 & E). apply bind_ok in E as (? & _ & E). apply bind_ok in E as (? & _ & E). injection E as <-. cbn [bl_s]. refine (rem_keep _ _ _ _ E2). apply Hset; reflexivity.
  - apply bind_ok in E as (nz & _ & E). destruct (eqb _ _ _).
    + apply bind_ok in E as (b2 & E2 & E). injection E as <-. cbn [bl_s]. refine (add_keep _ _ _ _ E2). apply Hset; reflexivity.
    + apply bind_ok in E as (b2 & E2 & E). apply bind_ok in E as (? & _ & E). apply bind_ok in E as (? & _ & E). injection E as <-. cbn [bl_s]. refine (rem_keep _ _ _ _ E2). apply Hset; reflexivity.
Qed.
Lemma loop_keep fuel : forall l r, gbsh n c m (bl_s l) -> bloop isz tiny junk bp o fuel l = Ok r -> gbsh n c m (snd r).
Proof.
  induction fuel as [|fuel IH]; intros l r H E; cbn [bloop] in E; [injection E as <-; exact H|].
  apply bind_ok in E as (out & Eo & E). pose proof (iter_keep _ _ H Eo) as K. destruct out as [l2|st b]; [|injection E as <-; exact K].
  apply (IH _ _) in E; auto. cbn [bbump bl_s]. destruct K. split; auto.
Qed.
End Keep.
Definition eff_ws (junk : vec S) (bp : bproblem S) (o : options S) (ws : list status) (b : bsol S) : list status :=
  if o_warm o then (if is_nil ws then a_status (s_A (b_s (bresize junk b (g_n (bp_G bp)) (c_nbCstr (bp_C bp)) (0 <? bp_xlsize bp)%nat))) else ws) else [].

Lemma gsizes_spec (bp : bproblem S) : sizes_ok (bounds_only bp) = true <->
  bp_asize bp = g_n (bp_G bp) /\ c_nbVar (bp_C bp) = g_n (bp_G bp) /\ bp_blsize bp = c_nbCstr (bp_C bp) /\ bp_busize bp = c_nbCstr (bp_C bp) /\
  (bp_xlsize bp = g_n (bp_G bp) \/ bp_xlsize bp = 0%nat) /\ bp_xusize bp = bp_xlsize bp.
Proof.
  unfold sizes_ok. rewrite !andb_true_iff, orb_true_iff, !Nat.eqb_eq.
  cbn [p_Grows p_Gcols p_asize p_Crows p_Ccols p_blsize p_busize p_xlsize p_xusize bounds_only dense_of]. intuition.
Qed.
Lemma sizes_nb_if (bp : bproblem S) : sizes_ok (bounds_only bp) = true -> (if (0 <? bp_xlsize bp)%nat then g_n (bp_G bp) else 0)%nat = bp_xlsize bp.
Proof. intros H. apply gsizes_spec in H as (_ & _ & _ & _ & [E|E] & _); rewrite E; auto. set (k := g_n (bp_G bp)). destruct k; reflexivity. Qed.

(** The object handed to the initialisation *)
Lemma bprep junk bp o b : gbwf b -> sizes_ok (bounds_only bp) = true ->
  exists b1, gbsh (g_n (bp_G bp)) (c_nbCstr (bp_C bp)) (bp_xlsize bp) b1 /\ b_G b1 = bp_G bp /\ b_tiny b1 = false /\ s_it (b_s b1) = 0%nat /\ s_exp (b_s b1) = true /\
  forall isz tiny ws, bgi_solve isz tiny junk bp o ws b =
    guard ((length ws =? c_nbCstr (bp_C bp) + bp_xlsize bp)%nat || is_nil ws) (guard (o_warm o || is_nil ws) (
    do rs <- binit isz bp o (eff_ws junk bp o ws b) b1;
    match rs with
    | (SUCCESS, b) =>
      let s := b_s b in
      do x0 <- getV (s_x s) (s_n s);
      do z <- getV (s_z s) (s_n s);
      do u <- getV (s_u s) (nact (s_A s));
      do rs <- bloop isz tiny junk bp o (o_maxIter o - s_it s)%nat (BL b false (SC 0 INACTIVE));
      bterminate o (fst rs) (snd rs)
    | (st, b) => bterminate o st b
    end)).
Proof.
  intros HW Hsz. set (b0 := BS (b_s b) (bp_G bp) (b_QR b) (b_Jn b) (b_cx b) (b_bact b) false).
  assert (HW0 : gbwf b0) by (destruct HW; unfold gbwf; cbn [b_s b0]; split; auto).
  pose proof (bresize_spec junk b0 (g_n (bp_G bp)) (c_nbCstr (bp_C bp)) (0 <? bp_xlsize bp)%nat HW0) as HR. rewrite (sizes_nb_if bp Hsz) in HR.
  set (br := bresize junk b0 _ _ _) in *.
  assert (Est : b_s br = b_s (bresize junk b (g_n (bp_G bp)) (c_nbCstr (bp_C bp)) (0 <? bp_xlsize bp)%nat)).
  { unfold br, bresize. cbn [b_s b0]. destruct (g_n (bp_G bp) =? s_n (b_s b))%nat, (c_nbCstr (bp_C bp) =? a_nc (s_A (b_s b)))%nat; reflexivity. }
  assert (EG : b_G br = bp_G bp /\ b_tiny br = false).
  { unfold br, bresize. cbn [b_s b0]. destruct (g_n (bp_G bp) =? s_n (b_s b))%nat, (c_nbCstr (bp_C bp) =? a_nc (s_A (b_s b)))%nat; split; reflexivity. }
  exists (bset_s br (set_it (if o_warm o then set_exp (b_s br) true else set_A (set_exp (b_s br) true) (as_reset (s_A (set_exp (b_s br) true)))) 0)).
  split.
  { destruct HR as [H1 H2 H3 H4 H5 H6 H7 H8 H9 H10 H11 H12]. destruct (o_warm o); split; auto. cbn. apply good_reset. apply H2. }
  split; [apply EG|]. split; [apply EG|]. split; [reflexivity|]. split; [destruct (o_warm o); reflexivity|].
  intros isz tiny ws. unfold bgi_solve. rewrite Hsz. cbn [guard]. fold b0. cbv zeta. fold br. unfold eff_ws. rewrite <- Est. reflexivity.
Qed.

(** What the initialisation does, whatever the statuses *)
Lemma eff_size junk bp o ws b : gbwf b -> sizes_ok (bounds_only bp) = true -> ((length ws =? c_nbCstr (bp_C bp) + bp_xlsize bp)%nat || is_nil ws = true) ->
  ws_size S (bounds_only bp) o (eff_ws junk bp o ws b).
Proof.
  intros HW Hsz Hl. unfold ws_size, warm_on, eff_ws. intros H. apply andb_true_iff in H as [Ho Hn]. rewrite Ho in *. destruct (is_nil ws) eqn:En.
  - pose proof (bresize_spec junk b (g_n (bp_G bp)) (c_nbCstr (bp_C bp)) (0 <? bp_xlsize bp)%nat HW) as HR. rewrite (sizes_nb_if bp Hsz) in HR.
    destruct (bh_good _ _ _ _ HR) as (HC & _). rewrite (coh_len _ HC), (bh_c _ _ _ _ HR), (bh_m _ _ _ _ HR). reflexivity.
  - rewrite orb_false_r in Hl. apply Nat.eqb_eq in Hl. exact Hl.
Qed.
Lemma binit_keep isz bp o ws' n c m b st b' : gbsh n c m b -> n = g_n (bp_G bp) -> c = c_nbCstr (bp_C bp) -> m = bp_xlsize bp -> ws_size S (bounds_only bp) o ws' ->
  binit isz bp o ws' b = Ok (st, b') -> gbsh n c m b' /\ (st = SUCCESS -> nact (s_A (b_s b')) = 0%nat /\ initial S (bounds_only bp) o ws' = [] \/ n = 0%nat).
Proof.
  intros [H1 H2 H3 H4 H5 H6 H7 H8 H9 H10 H11 H12] En Ec Em HW E. unfold binit in E. apply bind_ok in E as ((st0 & A') & EP & E). cbn [fst snd] in E.
  pose proof (processInitialActiveSet_spec S (bounds_only bp) o ws' (s_A (b_s b))) as HS. change (gn S (bounds_only bp)) with (g_n (bp_G bp)) in HS.
  rewrite H1, En in EP. 
  destruct (forallb _ _); [|rewrite HS in EP; [discriminate|rewrite (coh_len _ (proj1 H2)), H3, H4, Ec, Em; reflexivity|exact (eq_trans H3 Ec)|exact (eq_trans H4 Em)|auto]].
  destruct HS as (st1 & A1 & E1 & G1 & G2 & G3 & G4); [rewrite (coh_len _ (proj1 H2)), H3, H4, Ec, Em; reflexivity|exact (eq_trans H3 Ec)|exact (eq_trans H4 Em)|auto|].
  rewrite EP in E1. injection E1 as <- <-.
  assert (HA : gbsh n c m (bset_s b (set_A (b_s b) A'))). { split; cbn; auto; rewrite ?G2, ?G3, ?Ec, ?Em; reflexivity. }
  destruct st0; try (injection E as <- <-; split; [exact HA|discriminate]).
  apply bind_ok in E as (dG & _ & E). destruct (fst dG); cbn [negb] in E; [|injection E as <- <-; split; [destruct HA; split; auto|discriminate]].
  apply guard_ok in E as [_ E]. apply guard_ok in E as [Hq E]. apply bind_ok in E as (x0 & _ & E). apply bind_ok in E as (x1 & _ & E). apply bind_ok in E as (x2 & _ & E).
  apply bind_ok in E as (u & _ & E). apply bind_ok in E as (ba & _ & E). injection E as <- <-. split.
  - destruct HA as [K1 K2 K3 K4 K5 K6 K7 K8 K9 K10 K11 K12]. split; cbn; auto. destruct K12. split; auto.
  - intros _. destruct n as [|n']; [right; reflexivity|left]. cbn [s_A set_A] in Hq. apply Nat.eqb_eq in Hq. split; [exact Hq|].
    destruct (Nat.ltb_spec (g_n (bp_G bp)) (n_eq S (bounds_only bp) o ws')); [discriminate|]. destruct G4 as (_ & [P1 P2 P3 P4 P5 P6 P7]).
    rewrite <- (nact_length _ P1), Hq in P7. change (gn S (bounds_only bp)) with (g_n (bp_G bp)) in P7. rewrite <- En in P7. apply length_zero_iff_nil. lia.
Qed.
Lemma bsolve_keep isz tiny junk bp o ws b st b' : gbwf b -> bgi_solve isz tiny junk bp o ws b = Ok (st, b') -> gbwf b'.
Proof.
  intros HW E. assert (Hsz : sizes_ok (bounds_only bp) = true) by (unfold bgi_solve in E; apply guard_ok in E; apply E).
  destruct (bprep junk bp o b HW Hsz) as (b1 & HB1 & _ & _ & _ & _ & Es). rewrite Es in E. apply guard_ok in E as [Hl E]. apply guard_ok in E as [_ E]. apply bind_ok in E as ((st1 & b2) & E1 & E).
  destruct (binit_keep _ _ _ _ _ _ _ _ _ _ HB1 eq_refl eq_refl eq_refl (eff_size _ _ _ _ _ HW Hsz Hl) E1) as [H2 _].
  assert (HT : forall st b r, bterminate o st b = Ok r -> snd r = b :> bsol S). { intros st0 b0 r Er. unfold bterminate in Er. destruct st0; try (injection Er as <-; reflexivity); destruct (o_debug o); try discriminate; injection Er as <-; reflexivity. }
  destruct st1; try (apply HT in E; cbn [snd] in E; subst b2; apply (gbsh_wf _ _ _ _ H2)).
  cbv zeta in E. apply bind_ok in E as (? & _ & E). apply bind_ok in E as (? & _ & E). apply bind_ok in E as (? & _ & E). apply bind_ok in E as (rs & El & E). apply HT in E. cbn [snd] in E. subst b'.
  apply (gbsh_wf (g_n (bp_G bp)) (c_nbCstr (bp_C bp)) (bp_xlsize bp)). refine (loop_keep _ _ _ _ _ _ _ _ _ _ _ _ El). exact H2.
Qed.

(** * Iterations: no undefined step *)
Section Run.
Variables (isz : carrier S -> bool) (tiny : carrier S) (nul : carrier S -> Prop) (junk : vec S) (bp : bproblem S) (Cs : list (blk S)) (o : options S).
Hypothesis HO : safe_ops S.
Hypothesis HN : null_ops S nul.
Hypothesis Hisz : isz (zero S) = true.
Hypothesis Hbig : leb S (o_bigBnd o) (o_bigBnd o) = true.
Hypothesis HC : bp_C bp = stc_new Cs.
Hypothesis Hsz : sizes_ok (bounds_only bp) = true.
Notation n := (g_n (bp_G bp)).
Notation c := (c_nbCstr (bp_C bp)).
Notation m := (bp_xlsize bp).
Notation pb := (bounds_only bp).

Lemma Hcols : c = cols_of Cs. Proof. rewrite HC. apply nbC_eq. Qed.
Lemma Hrows : rows_of Cs = n.
Proof. apply gsizes_spec in Hsz as (_ & H & _). rewrite HC, nbV_eq in H. exact H. Qed.
Lemma Hm : (m <= n)%nat.
Proof. apply gsizes_spec in Hsz as (_ & _ & _ & _ & [H|H] & _); lia. Qed.

(** the object seen through the dense solver's sizes *)
Definition fake (b : bsol S) : sol S := let w := W (n * n) (fun _ => zero S) in set_R (set_J (b_s b) w) w.
Lemma fake_gsh b : gbsh n c m b -> gsh S pb (fake b).
Proof. intros [H1 H2 H3 H4 H5 H6 H7 H8 H9 H10 H11 H12]. split; auto; cbn; auto. Qed.

Record binv (b : bsol S) : Prop := {
  bi_sh : gbsh n c m b; bi_G : gshape S (b_G b); bi_dec : g_dec (b_G b) = true; bi_gn : g_n (b_G b) = n;
  bi_qr : qready S n (b_QR b); bi_q : r_q (b_QR b) = nact (s_A (b_s b)) }.
Lemma binv_le b : binv b -> (nact (s_A (b_s b)) <= n)%nat.
Proof. intros [H1 H2 H3 H4 (K1 & K2 & K3 & K4) H6]. lia. Qed.
(** changes the invariant does not see *)
Lemma binv_set b s : binv b -> s_n s = s_n (b_s b) -> s_A s = s_A (b_s b) -> w_size (s_x s) = w_size (s_x (b_s b)) -> w_size (s_z s) = w_size (s_z (b_s b)) ->
  w_size (s_d s) = w_size (s_d (b_s b)) -> w_size (s_u s) = w_size (s_u (b_s b)) -> w_size (s_r s) = w_size (s_r (b_s b)) -> binv (bset_s b s).
Proof.
  intros [[H1 H2 H3 H4 H5 H6 H7 H8 H9 H10 H11 H12] G1 G2 G3 G4 G5] K1 K2 K3 K4 K5 K6 K7.
  split; cbn [bset_s b_s b_G b_QR]; rewrite ?K2; auto. split; cbn [bset_s b_s b_G b_QR b_Jn b_cx]; rewrite ?K1, ?K2, ?K3, ?K4, ?K5, ?K6, ?K7; auto.
Qed.

Lemma bstep_ok b sc : binv b -> gvalid S pb sc ->
  exists b', bcomputeStep isz bp b sc = Ok b' /\ binv b' /\ s_A (b_s b') = s_A (b_s b) /\ s_it (b_s b') = s_it (b_s b) /\ s_exp (b_s b') = s_exp (b_s b) /\
    (nact (s_A (b_s b)) = n -> nulv S nul n (w_buf (s_z (b_s b')))).
Proof.
  intros HB (Hi & HK). pose proof (binv_le _ HB) as Hq. destruct HB as [HS G1 G2 G3 G4 G5]. pose proof HS as [H1 H2 H3 H4 H5 H6 H7 H8 H9 H10 H11 H12].
  pose proof (gnact_le _ _ _ (fake_gsh _ HS)) as Hqm. change (nact (s_A (fake b))) with (nact (s_A (b_s b))) in Hqm.
  assert (Eg : gcb S pb = (c + m)%nat) by reflexivity. rewrite Eg in *. pose proof Hm as Hmn. pose proof Hcols as Hc.
  unfold bcomputeStep. rewrite H1, H10, HC. rewrite ggetV by lia. cbn [bind]. rewrite ggetV by lia. cbn [bind]. rewrite ggetV by lia. cbn [bind].
  pose proof (proj2 (proj2 (proj2 G4))) as HQ.
  destruct (Jt_sz S isz nul HN Hisz n (b_G b) (r_Q (b_QR b)) Cs (w_buf (s_d (b_s b))) sc G1 G2 (eq_sym G3) HQ Hrows) as (d1 & Ed).
  { rewrite Hc in Hi. lia. } { rewrite <- Hc. exact HK. }
  rewrite Ed. cbn [bind]. rewrite guard_t by (apply leb_t; exact Hq).
  match goal with |- context[premultByJ2 n _ _ _ n ?z (n - _) ?v] => set (z0 := z); set (dv := v) end. rewrite G5.
  destruct (J2_sz S nul HN n (b_G b) (r_Q (b_QR b)) (nact (s_A (b_s b))) z0 dv G1 G2 (eq_sym G3) HQ Hq) as (z1 & Ez & HZ). rewrite Ez. cbn [bind].
  match goal with |- context[sqr_RSolve _ _ ?a _ ?v] => destruct (RSolve_sz S n (b_QR b) (nact (s_A (b_s b))) a v G4 (eq_sym G5)) as (x & Ex) end. rewrite Ex. cbn [bind fst snd].
  eexists. split; [reflexivity|]. split; [|split; [reflexivity|split; [reflexivity|split; [reflexivity|]]]].
  - split; cbn [bset_QR bset_s b_s b_G b_QR]; auto. split; auto.
  - intros Ef i Hin. cbn [bset_QR bset_s b_s s_z set_z set_r w_buf wset]. rewrite vm_at. unfold vhead. rewrite ltb_t by exact Hin. apply HZ; auto.
Qed.

Lemma bsel_ok b : binv b -> exists sc b', bselect bp b = Ok (sc, b') /\ binv b' /\ b_s b' = b_s b /\ (sc_st sc = INACTIVE \/ gsel S pb (s_A (b_s b)) sc).
Proof.
  intros HB. pose proof HB as [HS G1 G2 G3 G4 G5]. pose proof HS as [H1 H2 H3 H4 H5 H6 H7 H8 H9 H10 H11 H12]. pose proof (fake_gsh _ HS) as HF.
  unfold bselect. rewrite H1, H3, H4. rewrite ggetV by auto. cbn [bind]. rewrite ggetV by auto. cbn [bind].
  pose proof Hcols as Hc. pose proof Hrows as Hr.
  destruct (transposeMult_sz S Cs (w_buf (b_cx b)) (w_buf (s_x (b_s b)))) as (cx & Ecx). rewrite <- Hc, Hr, <- HC in Ecx. rewrite Ecx. cbn [bind].
  set (A := s_A (b_s b)) in *. change A with (s_A (fake b)). set (x := w_buf (s_x (b_s b))).
  assert (K1 : forall k, (k <= c)%nat -> exists acc, bsel_cstr bp (s_A (fake b)) cx k (zero S, SC 0 INACTIVE) = Ok acc /\ selok S pb (s_A (fake b)) acc).
  { induction k as [|k IH]; intros Hk; [eexists; split; [reflexivity|]; left; reflexivity|].
    destruct IH as (acc & E & HA); [lia|]. cbn [bsel_cstr]. rewrite E. cbn [bind]. unfold isActive.
    rewrite (gas_stat S pb) by (auto; unfold gcb; change (gc_ S pb) with c; lia). cbn [bind]. rewrite guard_t by (apply ltb_t; lia).
    destruct (status_eqb_spec (stt (s_A (fake b)) k) INACTIVE) as [Es|Es]; cbn [negb]; [|eexists; split; [reflexivity|exact HA]]. eexists. split; [reflexivity|].
    assert (Hck : (k <? gc_ S pb)%nat = true) by (apply Nat.ltb_lt; exact Hk).
    replace (bp_bl bp k) with (glo S pb k) by (unfold glo; rewrite Hck; auto).
    replace (bp_bu bp k) with (gup S pb k) by (unfold gup; rewrite Hck; auto).
    apply gsel_one; auto; [unfold gcb; change (gc_ S pb) with c; lia|rewrite Hck; auto]. }
  destruct (K1 c) as (acc & E & HA); auto. rewrite E. cbn [bind].
  assert (K2 : forall k, (k <= m)%nat -> exists acc', sel_bnd pb (s_A (fake b)) x k acc = Ok acc' /\ selok S pb (s_A (fake b)) acc').
  { induction k as [|k IH]; intros Hk; [eexists; split; [reflexivity|]; auto|].
    destruct IH as (acc1 & E1 & HA1); [lia|]. cbn [sel_bnd]. rewrite E1. cbn [bind]. unfold isActiveBnd.
    rewrite (gas_statBnd S pb) by (auto; exact Hk). cbn [bind]. eexists. split; [reflexivity|].
    destruct (status_eqb_spec (stt (s_A (fake b)) (gc_ S pb + k)) INACTIVE) as [Es|Es]; cbn [negb]; auto.
    assert (Hck : (gc_ S pb + k <? gc_ S pb)%nat = false) by (apply Nat.ltb_ge; lia).
    rewrite (g_nc _ _ _ HF).
    replace (p_xl pb k) with (glo S pb (gc_ S pb + k)) by (unfold glo; rewrite Hck; f_equal; lia).
    replace (p_xu pb k) with (gup S pb (gc_ S pb + k)) by (unfold gup; rewrite Hck; f_equal; lia).
    apply gsel_one; auto; [unfold gcb; change (gb S pb) with m; lia|rewrite Hck; auto]. }
  destruct (K2 m) as (acc2 & E2 & HA2); auto. rewrite E2. cbn [bind]. eexists _, _. split; [reflexivity|]. split; [|split; [reflexivity|exact HA2]].
  split; auto. split; auto.
Qed.

Lemma blen2_ok A (x z : vec S) sc : gsel S pb A sc -> exists t2, blen2 bp n x z sc = Ok t2.
Proof.
  intros [(Hi & HK) Hin HE Hso]. apply kind_lt in HK. unfold gcb in Hi. change (gc_ S pb) with c in *. change (gb S pb) with m in *. pose proof Hm as Hmn. pose proof Hcols as Hc. pose proof Hrows as Hr.
  assert (HD : (sc_idx sc < c)%nat -> forall v, exists col t, stc_col (bp_C bp) (sc_idx sc) = Ok col /\ snz_dot col n v = Ok t).
  { intros Hlt v. rewrite Hc in Hlt. destruct (stc_col_sz S Cs _ Hlt) as (col & E & Ez). rewrite Hr in Ez. destruct (snz_dot_sz S col n v Ez) as (t & Et). exists col, t. rewrite HC. auto. }
  unfold blen2. unfold gsome, glo, gup in Hso. change (gc_ S pb) with c in Hso.
  destruct (sc_st sc); try contradiction; try discriminate; (destruct (Nat.ltb_spec (sc_idx sc) c); try lia).
  - destruct (HD H x) as (col & t & E1 & E2), (HD H z) as (col' & t' & E3 & E4). rewrite E1 in E3. injection E3 as <-. rewrite E1. cbn [bind]. rewrite E2. cbn [bind]. rewrite E4. cbn [bind].
    change (p_bl pb) with (bp_bl bp) in Hso. destruct (bp_bl bp (sc_idx sc)); [eexists; reflexivity|congruence].
  - destruct (HD H x) as (col & t & E1 & E2), (HD H z) as (col' & t' & E3 & E4). rewrite E1 in E3. injection E3 as <-. rewrite E1. cbn [bind]. rewrite E2. cbn [bind]. rewrite E4. cbn [bind].
    change (p_bu pb) with (bp_bu bp) in Hso. destruct (bp_bu bp (sc_idx sc)); [eexists; reflexivity|congruence].
  - rewrite guard_t by (rewrite leb_t, ltb_t by lia; reflexivity). change (p_xl pb) with (bp_xl bp) in Hso. destruct (bp_xl bp (sc_idx sc - c)); [eexists; reflexivity|congruence].
  - rewrite guard_t by (rewrite leb_t, ltb_t by lia; reflexivity). change (p_xu pb) with (bp_xu bp) in Hso. destruct (bp_xu bp (sc_idx sc - c)); [eexists; reflexivity|congruence].
Qed.
Lemma bdot_ok sc (z : vec S) : gvalid S pb sc -> exists v, bdot bp n sc z = Ok v.
Proof.
  intros (Hi & HK). apply kind_lt in HK. unfold gcb in Hi. change (gc_ S pb) with c in *. change (gb S pb) with m in *. pose proof Hm as Hmn. pose proof Hcols as Hc. pose proof Hrows as Hr.
  assert (HD : (sc_idx sc < c)%nat -> exists t, (do col <- stc_col (bp_C bp) (sc_idx sc); snz_dot col n z) = Ok t).
  { intros Hlt. rewrite Hc in Hlt. destruct (stc_col_sz S Cs _ Hlt) as (col & E & Ez). rewrite Hr in Ez. destruct (snz_dot_sz S col n z Ez) as (t & Et). exists t. rewrite HC, E. exact Et. }
  unfold bdot. destruct (sc_st sc); try contradiction; try (destruct (HD HK) as (t & E); rewrite E; eexists; reflexivity);
    rewrite guard_t by (rewrite leb_t, ltb_t by lia; reflexivity); eexists; reflexivity.
Qed.

Lemma badd_ok b sc : binv b -> gvalid S pb sc -> stt (s_A (b_s b)) (sc_idx sc) = INACTIVE -> (nact (s_A (b_s b)) < n)%nat ->
  exists b', baddConstraint tiny junk b sc = Ok b' /\ binv b' /\ act_added (s_A (b_s b)) sc (s_A (b_s b')) /\ s_it (b_s b') = s_it (b_s b) /\ s_exp (b_s b') = s_exp (b_s b).
Proof.
  intros HB (Hi & HK) Hst Hq. pose proof HB as [HS G1 G2 G3 G4 G5]. pose proof HS as [H1 H2 H3 H4 H5 H6 H7 H8 H9 H10 H11 H12].
  unfold baddConstraint. destruct (activate_added (s_A (b_s b)) sc) as (A' & EA & HA); auto.
  { rewrite H3, H4. exact Hi. } { rewrite H3. exact HK. }
  rewrite EA. cbn [bind]. rewrite H1, ggetV by auto. cbn [bind].
  destruct (sqr_add_sz S tiny junk n (b_QR b) (w_buf (s_d (b_s b))) G4) as (f & r' & Er & HQ & Hr); [lia|]. rewrite Er. cbn [bind fst snd].
  eexists. split; [reflexivity|]. split; [|split; [exact HA|split; reflexivity]].
  split; cbn [b_s b_G b_QR s_A set_A]; auto.
  - destruct HA as []. split; cbn [b_s b_G b_QR b_Jn b_cx s_A s_n s_x s_z s_d s_u s_r set_A]; auto; try congruence. apply HQ.
  - rewrite Hr, G5, (aa_nact _ _ _ HA). reflexivity.
Qed.
Lemma bremove_ok b l : binv b -> (l < nact (s_A (b_s b)))%nat ->
  exists b', bremoveConstraint junk b l = Ok b' /\ binv b' /\ act_removed (s_A (b_s b)) l (s_A (b_s b')) /\ s_it (b_s b') = s_it (b_s b) /\ s_exp (b_s b') = s_exp (b_s b).
Proof.
  intros HB Hl. pose proof HB as [HS G1 G2 G3 G4 G5]. pose proof HS as [H1 H2 H3 H4 H5 H6 H7 H8 H9 H10 H11 H12].
  unfold bremoveConstraint. rewrite guard_t by (apply leb_t; lia). cbn [s_A set_u].
  destruct (deactivate_removed (s_A (b_s b)) l) as (A' & EA & HA); auto. rewrite EA. cbn [bind].
  destruct (sqr_remove_sz S junk n (b_QR b) l G4) as (r' & Er & HQ & Hr); [lia|]. rewrite Er. cbn [bind].
  eexists. split; [reflexivity|]. split; [|split; [exact HA|split; reflexivity]].
  split; cbn [bset_QR bset_s b_s b_G b_QR s_A set_A]; auto.
  - destruct HA as []. split; cbn [bset_QR bset_s b_s b_G b_QR b_Jn b_cx s_A s_n s_x s_z s_d s_u s_r set_A set_u wset w_size]; auto; try congruence. apply HQ.
  - pose proof (ar_nact _ _ _ HA). lia.
Qed.

Record blinv (l : blst S) : Prop := {
  bli_inv : binv (bl_s l); bli_skip : bl_skip l = true -> gsel S pb (s_A (b_s (bl_s l))) (bl_sc l) }.

(** What an iteration may do *)
Inductive bcase (l : blst S) : biter_out S -> Prop :=
| bc_stop st b' : st = SUCCESS \/ st = INFEASIBLE -> binv b' -> s_A (b_s b') = s_A (b_s (bl_s l)) -> s_it (b_s b') = s_it (b_s (bl_s l)) ->
    s_exp (b_s b') = s_exp (b_s (bl_s l)) -> bcase l (BStop st b')
| bc_add b' sc : binv b' -> gsel S pb (s_A (b_s (bl_s l))) sc -> act_added (s_A (b_s (bl_s l))) sc (s_A (b_s b')) ->
    s_it (b_s b') = s_it (b_s (bl_s l)) -> s_exp (b_s b') = s_exp (b_s (bl_s l)) -> bcase l (BContinue (BL b' false sc))
| bc_drop b' sc i : binv b' -> gsel S pb (s_A (b_s (bl_s l))) sc -> (i < nact (s_A (b_s (bl_s l))))%nat ->
    isEq (stt (s_A (b_s (bl_s l))) i) = false -> act_removed (s_A (b_s (bl_s l))) i (s_A (b_s b')) ->
    s_it (b_s b') = s_it (b_s (bl_s l)) -> s_exp (b_s b') = s_exp (b_s (bl_s l)) -> bcase l (BContinue (BL b' true sc)).

Lemma biter_ok l : blinv l -> exists out, biter isz tiny junk bp o l = Ok out /\ bcase l out.
Proof.
  destruct HO as [Lself _]. intros [HB Hsk]. unfold biter.
  assert (Hlt0 : forall b sc, binv b -> gsel S pb (s_A (b_s b)) sc -> (nact (s_A (b_s b)) < c + m)%nat).
  { intros b sc Hb Hsel. apply (ginactive_lt S pb (fake b) (sc_idx sc)); [apply fake_gsh, Hb|apply Hsel|apply Hsel]. }
  assert (H1 : (exists b', bstep1 bp l = Ok (None, b') /\ binv b' /\ b_s b' = b_s (bl_s l)) \/
    exists b0 sc b', bstep1 bp l = Ok (Some (BL b0 (bl_skip l) sc), b') /\ binv b0 /\ gsel S pb (s_A (b_s (bl_s l))) sc /\
      s_A (b_s b0) = s_A (b_s (bl_s l)) /\ s_it (b_s b0) = s_it (b_s (bl_s l)) /\ s_exp (b_s b0) = s_exp (b_s (bl_s l))).
  { unfold bstep1. destruct (bl_skip l) eqn:Esk.
    - right. exists (bl_s l), (bl_sc l), (bl_s l). split; [destruct l; cbn in *; subst; auto|]. split; auto.
    - destruct (bsel_ok (bl_s l) HB) as (sc & b' & E & HB' & Es & [Hn|Hsel]); rewrite E; cbn [bind].
      + left. exists b'. rewrite Hn. auto.
      + right. pose proof Hsel as [(Hi & HK) Hin _ _]. pose proof (Hlt0 _ _ HB Hsel) as Hlt. pose proof (bi_sh _ HB') as HS'. rewrite Es.
        pose proof (bh_r _ _ _ _ HS') as Hr. pose proof (bh_u _ _ _ _ HS') as Hu. rewrite Es in Hr, Hu.
        rewrite ggetV by lia. cbn [bind]. rewrite ggetV by lia. cbn [bind].
        eexists _, sc, _. split; [destruct (sc_st sc) eqn:Ek; try reflexivity; cbn in HK; discriminate|].
        split; [|split; [auto|repeat split; reflexivity]]. apply binv_set; auto; rewrite Es; reflexivity. }
  destruct H1 as [(b' & E & HB' & Es)|(b0 & sc & b' & E & HB0 & Hsel & EA & Eit & Eex)]; rewrite E; cbn [bind fst snd].
  { eexists. split; [reflexivity|]. apply bc_stop; auto; rewrite Es; reflexivity. }
  unfold bstep2. cbn [bl_s bl_sc]. pose proof Hsel as [Hv Hin Hneq Hso].
  destruct (bstep_ok b0 sc HB0 Hv) as (b1 & E1 & HB1 & A1 & I1 & P1 & Z1). rewrite E1. cbn [bind]. unfold bcomputeStepLength. rewrite A1.
  destruct (glen1 S pb (fake b1) (w_buf (s_u (b_s b1))) (w_buf (s_r (b_s b1))) (o_bigBnd o) (nact (s_A (b_s b0))) (fake_gsh _ (bi_sh _ HB1))) as (t1 & i & EL & Hl).
  { rewrite <- A1. apply (gnact_le S pb (fake b1)). apply fake_gsh, HB1. }
  change (s_A (fake b1)) with (s_A (b_s b1)) in EL, Hl. rewrite A1 in EL, Hl. rewrite EL. cbn [bind fst snd].
  rewrite (bh_n _ _ _ _ (bi_sh _ HB1)), (bh_n _ _ _ _ (bi_sh _ HB0)).
  assert (Hqlt : (nact (s_A (b_s b0)) < c + m)%nat) by (apply (Hlt0 b0 sc); auto; rewrite EA; auto).
  match goal with |- context[bind (bind ?x _) _] => set (X := x) end.
  assert (Ht2 : exists t2, X = Ok t2 /\ (t2 = o_bigBnd o \/ (nact (s_A (b_s b0)) < n)%nat)).
  { unfold X. destruct (ltb S (eps14 S) (norm n (w_buf (s_z (b_s b1))))) eqn:En; [|exists (o_bigBnd o); auto].
    destruct (blen2_ok _ (w_buf (s_x (b_s b1))) (w_buf (s_z (b_s b1))) sc Hsel) as (t2 & Et). exists t2. split; auto.
    right. pose proof (binv_le _ HB0) as Hle. destruct (Nat.eq_dec (nact (s_A (b_s b0))) n) as [Ef|]; [|lia]. exfalso.
    unfold norm, dot in En. rewrite (nl_sqrt _ _ HN) in En; [discriminate|]. apply (sumn_nul S nul HN). intros k Hk. apply (nl_mulr _ _ HN). apply (Z1 Ef). exact Hk. }
  destruct Ht2 as (t2 & Et2 & Hroom). rewrite Et2. cbn [bind]. clear Et2 X.
  destruct (leb S (o_bigBnd o) (if ltb S t2 t1 then t2 else t1)) eqn:Bt.
  { eexists. split; [reflexivity|]. apply bc_stop; auto; congruence. }
  assert (Hdrop : leb S (o_bigBnd o) t1 = false -> (i < nact (s_A (b_s b0)))%nat /\ isEq (stt (s_A (b_s b0)) i) = false).
  { intros Hb. destruct Hl as [Hl|Hl]; auto. rewrite Hl, Hbig in Hb. discriminate. }
  assert (Hrem : forall b2, binv b2 -> s_A (b_s b2) = s_A (b_s b0) -> s_it (b_s b2) = s_it (b_s b0) -> s_exp (b_s b2) = s_exp (b_s b0) ->
     (i < nact (s_A (b_s b0)))%nat /\ isEq (stt (s_A (b_s b0)) i) = false ->
     exists out, (do b <- bremoveConstraint junk b2 i; do r0 <- getV (s_r (b_s b)) (nact (s_A (b_s b0)) - 1);
        do u0 <- getV (s_u (b_s b)) (nact (s_A (b_s b0))); Ok (BContinue (BL b true sc))) = Ok out /\ bcase l out).
  { intros b2 HB2 EA2 Ei2 Ee2 (Hi & Hie).
    destruct (bremove_ok b2 i HB2) as (b3 & E3 & HB3 & HA3 & I3 & P3); [rewrite EA2; auto|].
    rewrite E3. cbn [bind]. pose proof (bh_r _ _ _ _ (bi_sh _ HB3)) as Hr. pose proof (bh_u _ _ _ _ (bi_sh _ HB3)) as Hu.
    rewrite ggetV by lia. cbn [bind]. rewrite ggetV by lia. cbn [bind].
    eexists. split; [reflexivity|]. rewrite EA2, EA in HA3. rewrite EA in Hi, Hie. eapply bc_drop; eauto; congruence. }
  destruct (leb S (o_bigBnd o) t2) eqn:B2.
  - destruct (ltb S t2 t1) eqn:C21; [congruence|].
    apply Hrem; auto. apply binv_set; auto.
  - destruct Hroom as [Hroom|Hroom]; [rewrite Hroom, Hbig in B2; discriminate|].
    destruct (bdot_ok sc (w_buf (s_z (b_s b1))) Hv) as (nzv & En). rewrite En. cbn [bind].
    destruct (eqb S (if ltb S t2 t1 then t2 else t1) t2) eqn:Q.
    + match goal with |- context[baddConstraint tiny junk ?st sc] => set (b2 := st) end.
      assert (HB2 : binv b2) by (unfold b2; apply binv_set; auto).
      assert (EA2 : s_A (b_s b2) = s_A (b_s (bl_s l))) by (unfold b2; cbn; congruence).
      assert (K2 : s_it (b_s b2) = s_it (b_s (bl_s l)) /\ s_exp (b_s b2) = s_exp (b_s (bl_s l))) by (unfold b2; cbn; split; congruence).
      clearbody b2. destruct (badd_ok b2 sc HB2 Hv) as (b3 & E3 & HB3 & HA3 & I3 & P3); [rewrite EA2; auto|rewrite EA2, <- EA; auto|].
      rewrite E3. cbn [bind]. eexists. split; [reflexivity|]. rewrite EA2 in HA3. destruct K2 as (K2 & K3).
      apply bc_add; auto; try congruence.
    + assert (Et : (if ltb S t2 t1 then t2 else t1) = t1).
      { destruct (ltb S t2 t1) eqn:C21; auto. rewrite (Lself _ _ C21) in Q. discriminate. }
      rewrite Et in Bt. apply Hrem; auto; try (cbn; congruence). apply binv_set; auto.
Qed.

Lemma bcase_inv l l' : blinv l -> bcase l (BContinue l') -> blinv (bbump l').
Proof.
  intros [HB Hsk] HCs. assert (Hbump : forall b k, binv b -> binv (bset_s b (set_it (b_s b) k))) by (intros; apply binv_set; auto).
  inversion HCs as [|b' sc HB' Hsel HA|b' sc i HB' Hsel Hi Hie HA]; subst.
  - split; [apply Hbump; exact HB'|discriminate].
  - split; [apply Hbump; exact HB'|]. intros _. destruct Hsel as [V1 V2 V3 V4]. split; auto.
    cbn. rewrite (ar_stt _ _ _ HA). destruct (sc_idx sc =? act (s_A (b_s (bl_s l))) i)%nat; auto.
Qed.
Lemma bloop_ok fuel : forall l, blinv l ->
  exists st b, bloop isz tiny junk bp o fuel l = Ok (st, b) /\ binv b /\ s_exp (b_s b) = s_exp (b_s (bl_s l)) /\
    ((st = MAX_ITER_REACHED /\ s_it (b_s b) = (s_it (b_s (bl_s l)) + fuel)%nat) \/
     ((st = SUCCESS \/ st = INFEASIBLE) /\ (s_it (b_s (bl_s l)) <= s_it (b_s b) < s_it (b_s (bl_s l)) + fuel)%nat)).
Proof.
  induction fuel as [|f IH]; intros l HL; cbn [bloop].
  - eexists _, _. split; [reflexivity|]. split; [apply HL|]. split; [auto|]. left. split; auto.
  - destruct (biter_ok l HL) as (out & E & HCs). rewrite E. cbn [bind].
    destruct out as [l'|st b].
    + pose proof (bcase_inv l l' HL HCs) as HL'.
      assert (HI' : s_exp (b_s (bl_s l')) = s_exp (b_s (bl_s l)) /\ s_it (b_s (bl_s l')) = s_it (b_s (bl_s l))) by (inversion HCs; subst; auto).
      destruct HI' as (Eexp & Eit). destruct (IH (bbump l') HL') as (st & b & E2 & R1 & R4 & R5).
      exists st, b. split; [exact E2|]. split; auto. split; [rewrite R4; exact Eexp|].
      cbn in R5. rewrite Eit in R5. destruct R5 as [[R5 R6]|[R5 R6]]; [left|right]; split; auto; lia.
    + inversion HCs; subst. eexists _, _. split; [reflexivity|]. split; auto. split; auto. right. split; auto. lia.
Qed.

(** * The whole call *)
Lemma binit_ok ws' b : gbsh n c m b -> b_G b = bp_G bp -> gshape S (bp_G bp) -> ws_size S pb o ws' -> s_it (b_s b) = 0%nat ->
  exists ok G', stg_llt (bp_G bp) = Ok (ok, G') /\
  if forallb (kind1 S pb o ws') (order S pb) then
    if (n <? n_eq S pb o ws')%nat then exists b', binit isz bp o ws' b = Ok (OVERCONSTRAINED_PROBLEM, b') /\ gbsh n c m b' /\ s_it (b_s b') = 0%nat /\ s_exp (b_s b') = s_exp (b_s b)
    else if ok then
      if (Nat.min n (length (initial S pb o ws')) =? 0)%nat then
        exists b', binit isz bp o ws' b = Ok (SUCCESS, b') /\ binv b' /\ s_it (b_s b') = 0%nat /\ s_exp (b_s b') = s_exp (b_s b) /\ nact (s_A (b_s b')) = 0%nat
      else binit isz bp o ws' b = UB
    else exists b', binit isz bp o ws' b = Ok (NON_POS_HESSIAN, b') /\ gbsh n c m b' /\ s_it (b_s b') = 0%nat /\ s_exp (b_s b') = s_exp (b_s b) /\ (nact (s_A (b_s b')) <= n)%nat
  else binit isz bp o ws' b = UB.
Proof.
  intros [H1 H2 H3 H4 H5 H6 H7 H8 H9 H10 H11 H12] EG HG HW Hit. destruct (stg_llt_sz S (bp_G bp) HG) as (ok & G' & EL & Hd & Hn & HG').
  exists ok, G'. split; [exact EL|].
  pose proof (processInitialActiveSet_spec S pb o ws' (s_A (b_s b))) as HS. change (gn S pb) with n in HS. change (gc_ S pb) with c in HS. change (gb S pb) with m in HS.
  assert (HL : length (a_status (s_A (b_s b))) = gcb S pb) by (rewrite (coh_len _ (proj1 H2)), H3, H4; reflexivity).
  specialize (HS HL H3 H4 HW). unfold binit. rewrite H1.
  destruct (forallb _ _); [|rewrite HS; reflexivity].
  destruct HS as (st1 & A1 & E1 & G1 & G2 & G3 & G4). rewrite E1. cbn [bind fst snd].
  destruct (n <? n_eq S pb o ws')%nat.
  { subst st1. eexists. split; [reflexivity|]. split; [|split; [exact Hit|reflexivity]]. split; cbn; auto. }
  destruct G4 as (-> & [P1 P2 P3 P4 P5 P6 P7]). change (gn S pb) with n in P6, P7. rewrite EG, EL. cbn [bind fst snd]. destruct ok; cbn [negb].
  2:{ eexists. split; [reflexivity|]. split; [|split; [exact Hit|split; [reflexivity|]]]; [split; cbn; auto|]. cbn. rewrite (nact_length _ P1). exact P6. }
  cbn [b_G bset_QR bset_G bset_s b_QR b_bact s_A set_A s_u s_x]. rewrite Hd. cbn [guard]. rewrite (nact_length _ G1), P7.
  destruct (Nat.eqb_spec (Nat.min n (length (initial S pb o ws'))) 0) as [Ez|Ez]; cbn [guard]; [|reflexivity].
  rewrite ggetV by auto. cbn [bind]. assert (Ea : bp_asize bp = n) by (apply gsizes_spec in Hsz; apply Hsz). rewrite Ea.
  destruct (stg_solveL_sz S isz nul HN Hisz G' n (bp_a bp) HG' Hd (eq_sym Hn)) as (x1 & Ex1). rewrite Ex1. cbn [bind].
  destruct (stg_solveLt_sz S nul HN G' n x1 HG' Hd (eq_sym Hn)) as (x2 & Ex2 & _). rewrite Ex2. cbn [bind].
  rewrite ggetV by lia. cbn [bind]. rewrite ggetV by lia. cbn [bind].
  eexists. split; [reflexivity|]. split; [|split; [exact Hit|split; [reflexivity|cbn; rewrite (nact_length _ G1), P7; exact Ez]]].
  split; cbn; auto.
  - split; cbn; auto. destruct H12; split; auto.
  - apply qready_reset. exact H12.
  - rewrite (nact_length _ G1), P7. auto.
Qed.

Definition result (st : term_status) (b : bsol S) : Prop :=
  gbsh n c m b /\ (nact (s_A (b_s b)) <= n)%nat /\ s_exp (b_s b) = true /\
  ((st = MAX_ITER_REACHED /\ s_it (b_s b) = o_maxIter o) \/ ((st = SUCCESS \/ st = INFEASIBLE) /\ (s_it (b_s b) < o_maxIter o)%nat)).
Lemma bsolve_ok ws b : gbwf b -> gshape S (bp_G bp) -> ((length ws =? c + m)%nat || is_nil ws) = true -> o_warm o || is_nil ws = true ->
  exists ok G', stg_llt (bp_G bp) = Ok (ok, G') /\
  let ws' := eff_ws junk bp o ws b in
  if forallb (kind1 S pb o ws') (order S pb) then
    if (n <? n_eq S pb o ws')%nat then
      if o_debug o then bgi_solve isz tiny junk bp o ws b = UB
      else exists b', bgi_solve isz tiny junk bp o ws b = Ok (OVERCONSTRAINED_PROBLEM, b') /\ gbsh n c m b' /\ s_it (b_s b') = 0%nat /\ s_exp (b_s b') = true
    else if ok then
      if (Nat.min n (length (initial S pb o ws')) =? 0)%nat then exists st b', bgi_solve isz tiny junk bp o ws b = Ok (st, b') /\ result st b'
      else bgi_solve isz tiny junk bp o ws b = UB
    else exists b', bgi_solve isz tiny junk bp o ws b = Ok (NON_POS_HESSIAN, b') /\ gbsh n c m b' /\ s_it (b_s b') = 0%nat /\ s_exp (b_s b') = true /\ (nact (s_A (b_s b')) <= n)%nat
  else bgi_solve isz tiny junk bp o ws b = UB.
Proof.
  intros HW HG Hl Hw. destruct (bprep junk bp o b HW Hsz) as (b1 & HB1 & EG & Et & Eit & Eex & Es). rewrite (Es isz tiny ws), Hl. rewrite Hw. cbn [guard].
  destruct (binit_ok (eff_ws junk bp o ws b) b1 HB1 EG HG (eff_size _ _ _ _ _ HW Hsz Hl) Eit) as (ok & G' & EL & HI). exists ok, G'. split; [exact EL|]. cbv zeta.
  destruct (forallb _ _); [|rewrite HI; reflexivity].
  destruct (_ <? _)%nat.
  { destruct HI as (b' & E & H1 & H2 & H3). rewrite E. cbn [bind bterminate]. destruct (o_debug o); [reflexivity|]. exists b'. split; [reflexivity|]. split; [exact H1|]. split; [exact H2|congruence]. }
  destruct ok.
  2:{ destruct HI as (b' & E & H1 & H2 & H3 & H4). rewrite E. cbn [bind bterminate]. exists b'. split; [reflexivity|]. split; [exact H1|]. split; [exact H2|]. split; [congruence|exact H4]. }
  destruct (Nat.eqb_spec (Nat.min n (length (initial S pb o (eff_ws junk bp o ws b)))) 0); [|rewrite HI; reflexivity].
  destruct HI as (b' & E & H1 & H2 & H3 & H4). rewrite E. cbn [bind]. pose proof (bi_sh _ H1) as [K1 K2 K3 K4 K5 K6 K7 K8 K9 K10 K11 K12]. rewrite K1.
  rewrite ggetV by auto. cbn [bind]. rewrite ggetV by auto. cbn [bind]. rewrite ggetV by lia. cbn [bind]. rewrite H2, Nat.sub_0_r.
  destruct (bloop_ok (o_maxIter o) (BL b' false (SC 0 INACTIVE))) as (st & b2 & E2 & R1 & R2 & R3); [split; [exact H1|discriminate]|].
  rewrite E2. cbn [bind fst snd]. cbn [bl_s] in R2, R3. rewrite H2 in R3.
  exists st, b2. split.
  - destruct R3 as [(-> & _)|([-> | ->] & _)]; reflexivity.
  - split; [apply R1|]. split; [apply binv_le; exact R1|]. split; [congruence|]. destruct R3 as [(-> & R3)|(R3 & R4)]; [left; auto|right; split; auto; lia].
Qed.
End Run.

(** * Accessors *)
Lemma bsolution b n c m : gbsh n c m b -> exists l, solution (b_s b) = Ok l /\ length l = n.
Proof. intros H. unfold solution. rewrite (bh_n _ _ _ _ H). rewrite ggetV by apply H. cbn [bind]. eexists. split; [reflexivity|]. rewrite map_length, seq_length. auto. Qed.
Lemma bmult b n c m : gbsh n c m b -> exists l s', multipliers (b_s b) = Ok (l, s') /\ length l = (c + m)%nat.
Proof.
  intros [H1 H2 H3 H4 H5 H6 H7 H8 H9 H10 H11 H12]. unfold multipliers.
  assert (Hn : nbAll (s_A (b_s b)) = (c + m)%nat) by (unfold nbAll; rewrite H3, H4; reflexivity).
  assert (Hq : (nact (s_A (b_s b)) <= nbAll (s_A (b_s b)))%nat).
  { pose proof (good_nbActive_le _ H2). unfold nact, nbAll in *. lia. }
  destruct (s_exp (b_s b)).
  - cbn [s_A s_r s_u set_exp]. rewrite ggetV by lia. cbn [bind]. rewrite ggetV by lia. cbn [bind].
    rewrite ggetV by lia. cbn [bind]. destruct (gexpand S (s_A (b_s b)) (vm (nact (s_A (b_s b))) (vhead (nact (s_A (b_s b))) (w_buf (s_u (b_s b))) (w_buf (s_r (b_s b))))) H2 _ (le_n _)) as (v & E).
    rewrite E. cbn [bind]. rewrite ggetV by (cbn; lia). cbn [bind]. eexists _, _. split; [reflexivity|]. rewrite map_length, seq_length. exact Hn.
  - cbn [bind]. rewrite ggetV by lia. cbn [bind]. eexists _, _. split; [reflexivity|]. rewrite map_length, seq_length. exact Hn.
Qed.

(** * Objects between calls, whatever the problems solved before *)
Inductive bghistory (isz : carrier S -> bool) (tiny : carrier S) : bsol S -> Prop :=
| bgh_new : bghistory isz tiny bsol_new
| bgh_resize junk b n c ub : bghistory isz tiny b -> bghistory isz tiny (bresize junk b n c ub)
| bgh_reset b : bghistory isz tiny b -> bghistory isz tiny (bset_s b (resetActiveSet (b_s b)))
| bgh_mult b l s' : bghistory isz tiny b -> multipliers (b_s b) = Ok (l, s') -> bghistory isz tiny (bset_s b s')
| bgh_solve junk bp o ws b st b' : bghistory isz tiny b -> bgi_solve isz tiny junk bp o ws b = Ok (st, b') -> bghistory isz tiny b'.
Lemma bghistory_wf isz tiny b : bghistory isz tiny b -> gbwf b.
Proof.
  induction 1 as [|junk b n c ub _ IH|b _ IH|b l s' _ IH E|junk bp o ws b st b' _ IH E].
  - apply gbwf_new.
  - apply (gbsh_wf _ _ _ _ (bresize_spec junk b n c ub IH)).
  - destruct IH as [H1 H2 H3 H4 H5 H6 H7 H8 H9 H10 H11 H12]. unfold gbwf. split; cbn; auto. apply good_reset. apply H2.
  - apply mult_frame in E as (E1 & E2 & E3 & E4 & E5 & E6 & E7 & E8 & E9 & E10 & E11 & _). destruct IH as [H1 H2 H3 H4 H5 H6 H7 H8 H9 H10 H11 H12]. unfold gbwf.
    split; cbn [bset_s b_s b_Jn b_QR b_cx]; rewrite ?E1, ?E2, ?E3, ?E6, ?E9, ?E10, ?E11; auto.
  - apply (bsolve_keep _ _ _ _ _ _ _ _ _ IH E).
Qed.
End GenGI.

(** The block Goldfarb-Idnani solver: objects between calls, and the whole call. *)
From Coq Require Import List Arith ZArith Lia Bool Reals Lra.
From Verif Require Import Base ActiveSet ActiveSetProofs Num Solver QPSpec LinAlg QRUpdate GIMath GIBase GIInv GISafe GICall GIDual GIRun GIInit GIFinal GISame Warm WarmAS WarmQR WarmHot Util
  Block BlockElim BlockSpec BlockLLT BlockSolve BlockDense PropBlock Ortho OrthoProofs PropOrtho StructC PropStructC StructG StructGProofs StructQRProofs BlockGI BlockGIProofs.
Import ListNotations.
Local Open Scope R_scope.

(** ** Sizes of the object *)
Record bshape (n c m : nat) (b : rbsol) : Prop := {
  bh_n : s_n (b_s b) = n; bh_good : good (s_A (b_s b)); bh_c : a_nc (s_A (b_s b)) = c; bh_m : a_nb (s_A (b_s b)) = m;
  bh_x : (n <= w_size (s_x (b_s b)))%nat; bh_z : (n <= w_size (s_z (b_s b)))%nat; bh_d : (n <= w_size (s_d (b_s b)))%nat;
  bh_u : (c + m <= w_size (s_u (b_s b)))%nat; bh_r : (c + m <= w_size (s_r (b_s b)))%nat;
  bh_J : b_Jn b = n; bh_cx : (c <= w_size (b_cx b))%nat; bh_Q : qwf n (b_QR b)
}.
Definition bwf (b : rbsol) : Prop := bshape (s_n (b_s b)) (a_nc (s_A (b_s b))) (a_nb (s_A (b_s b))) b.
Lemma bshape_wf n c m b : bshape n c m b -> bwf b.
Proof. intros H. unfold bwf. rewrite (bh_n _ _ _ _ H), (bh_c _ _ _ _ H), (bh_m _ _ _ _ H). exact H. Qed.
Lemma bwf_new : bwf bsol_new.
Proof. unfold bwf. split; cbn; auto; try lia. { apply good_new. } split; cbn; auto; lia. Qed.

Lemma qwf_resize junk n r : qwf n (@sqr_resize Rops junk r n).
Proof.
  split; cbn [sqr_resize r_n r_Q q_n os_resize r_ld r_R r_ess]; auto; try apply gw_resize.
  - left. destruct n as [|n]; [cbn; lia|]. pose proof (Nat.sqrt_le_lin (S n)). lia.
  - destruct n as [|n]; [auto|]. left. pose proof (Nat.sqrt_le_mono 1 (S n) ltac:(lia)) as H. change (Nat.sqrt 1) with 1%nat in H. set (k := Nat.sqrt (S n)) in *. clearbody k. lia.
Qed.

Lemma bresize_spec (junk : rvec) (b : rbsol) n c (ub : bool) : bwf b -> bshape n c (if ub then n else 0)%nat (bresize junk b n c ub).
Proof.
  intros [H1 H2 H3 H4 H5 H6 H7 H8 H9 H10 H11 H12]. unfold bresize.
  assert (HR : forall w k, (k <= w_size (@w_resize Rops junk w k))%nat) by (intros; apply gw_resize).
  set (s := b_s b) in *. set (b1 := if (n =? s_n s)%nat then b else _).
  assert (D : s_n (b_s b1) = s_n s /\ s_A (b_s b1) = s_A s /\ s_x (b_s b1) = s_x s /\ s_z (b_s b1) = s_z s /\ s_u (b_s b1) = s_u s /\ s_r (b_s b1) = s_r s /\
     (n <= w_size (s_d (b_s b1)))%nat /\ b_Jn b1 = n /\ qwf n (b_QR b1) /\ b_cx b1 = b_cx b).
  { unfold b1. destruct (Nat.eqb_spec n (s_n s)) as [E|E].
    - fold s. rewrite E. repeat (split; [auto|]). auto.
    - cbn [b_s b_Jn b_QR b_cx s_n s_A s_x s_z s_u s_r s_d set_d]. repeat (split; [reflexivity || apply HR || apply qwf_resize|]). reflexivity. }
  clearbody b1. destruct D as (D1 & D2 & D3 & D4 & D5 & D6 & D7 & D8 & D9 & D10).
  set (b2 := if (c =? a_nc (s_A s))%nat then b1 else _).
  assert (F : b_s b2 = b_s b1 /\ b_Jn b2 = n /\ qwf n (b_QR b2) /\ (c <= w_size (b_cx b2))%nat).
  { unfold b2. destruct (Nat.eqb_spec c (a_nc (s_A s))) as [E|E]; [split; [auto|]; split; [auto|]; split; [auto|]; rewrite D10, E; auto|].
    cbn [bset_cx b_s b_Jn b_QR b_cx]. repeat (split; [auto|]). apply HR. }
  clearbody b2. destruct F as (F1 & F2 & F3 & F4). rewrite F1. clear F1.
  assert (P : let s' := resize_p junk (b_s b1) n c ub in s_n s' = n /\ good (s_A s') /\ a_nc (s_A s') = c /\ a_nb (s_A s') = (if ub then n else 0)%nat /\
    (n <= w_size (s_x s'))%nat /\ (n <= w_size (s_z s'))%nat /\ (n <= w_size (s_d s'))%nat /\
    (c + (if ub then n else 0) <= w_size (s_u s'))%nat /\ (c + (if ub then n else 0) <= w_size (s_r s'))%nat).
  { cbv zeta. unfold resize_p. set (nb := if ub then n else 0%nat). rewrite D1.
    set (s2 := if (n =? s_n s)%nat then b_s b1 else _).
    assert (F : (n <= w_size (s_d s2))%nat /\ (n <= w_size (s_x s2))%nat /\ (n <= w_size (s_z s2))%nat /\ s_A s2 = s_A s /\ s_n s2 = n /\ s_u s2 = s_u s /\ s_r s2 = s_r s).
    { unfold s2. destruct (Nat.eqb_spec n (s_n s)) as [E|E].
      - repeat (split; [auto; rewrite ?D3, ?D4, E; auto|]). auto.
      - repeat (split; [assumption || apply HR|]). repeat split; auto. }
    clearbody s2. destruct F as (G1 & G2 & G3 & G4 & G5 & G6 & G7). rewrite G4.
    set (s3 := if (c + nb =? nbAll (s_A s))%nat then s2 else _).
    assert (K : (n <= w_size (s_d s3))%nat /\ (n <= w_size (s_x s3))%nat /\ (n <= w_size (s_z s3))%nat /\
       s_A s3 = s_A s /\ s_n s3 = n /\ (c + nb <= w_size (s_u s3))%nat /\ (c + nb <= w_size (s_r s3))%nat).
    { unfold s3. destruct (Nat.eqb_spec (c + nb) (nbAll (s_A s))) as [E|E].
      - repeat (split; [assumption|]). rewrite E, G6, G7. unfold nbAll. auto.
      - repeat (split; [assumption|]). split; apply HR. }
    clearbody s3. destruct K as (K1 & K2 & K3 & K6 & K7 & K8 & K9). rewrite K6.
    destruct (Nat.eqb_spec c (a_nc (s_A s))) as [Ec|Ec]; cbn [andb].
    1: destruct (Nat.eqb_spec nb (a_nb (s_A s))) as [Eb|Eb]; cbn [andb].
    - rewrite K6. repeat (split; auto).
    - cbn [s_n s_A s_x s_z s_d s_J s_R s_u s_r set_A]. repeat (split; [assumption || reflexivity || apply good_resize|]). assumption.
    - cbn [s_n s_A s_x s_z s_d s_J s_R s_u s_r set_A]. repeat (split; [assumption || reflexivity || apply good_resize|]). assumption. }
  cbv zeta in P. destruct P as (P1 & P2 & P3 & P4 & P5 & P6 & P7 & P8 & P9). split; cbn [bset_s b_s b_Jn b_QR b_cx]; auto.
Qed.

(** ** Sizes are kept by every call that returns *)
Lemma adjust_wf n r q r' : qwf n r -> @adjustLdR Rops r q = Ok r' -> qwf n r'.
Proof.
  intros [H1 H2 H3 H4 H5 H6] E. unfold adjustLdR in E. apply guard_ok in E as [Hq E]. apply Nat.leb_le in Hq. destruct (Nat.ltb_spec (r_ld r) q); [|injection E as <-; split; auto].
  apply bind_ok in E as (l & _ & E). injection E as <-. split; cbn [r_n r_Q r_ld r_R r_ess w_of w_size]; auto; lia.
Qed.
Lemma getR_wf n r q Rm r' : qwf n r -> @getR Rops r q = Ok (Rm, r') -> qwf n r'.
Proof. intros H E. unfold getR in E. apply bind_ok in E as (r1 & E1 & E). apply bind_ok in E as (R1 & _ & E). injection E as _ <-. apply (adjust_wf _ _ _ _ H E1). Qed.
Lemma prepare_n junk Q ty a c Q' : @os_prepare Rops junk Q ty a c = Ok Q' -> q_n Q' = q_n Q.
Proof. intros E. unfold os_prepare in E. apply bind_ok in E as (e & _ & E). injection E as <-. reflexivity. Qed.
Lemma addH_n Q a c e t Q' : @os_addH Rops Q a c e t = Ok Q' -> q_n Q' = q_n Q.
Proof. intros E. unfold os_addH in E. apply bind_ok in E as (((st & e0) & rest) & _ & E). apply bind_ok in E as (e1 & _ & E). injection E as <-. reflexivity. Qed.
Lemma addG_n Q a g Q' : @os_addG Rops Q a g = Ok Q' -> q_n Q' = q_n Q.
Proof. intros E. unfold os_addG in E. apply bind_ok in E as (((st & e0) & rest) & _ & E). apply bind_ok in E as (e1 & _ & E). injection E as <-. reflexivity. Qed.
Lemma sqr_add_wf tiny junk n r m d f r' : qwf n r -> @sqr_add Rops tiny junk r m d = Ok (f, r') -> qwf n r'.
Proof.
  intros H E. unfold sqr_add in E. apply guard_ok in E as [_ E]. apply guard_ok in E as [_ E]. apply bind_ok in E as (e0 & _ & E).
  destruct (mkHouse _ _ _) as [[tau beta] ess]. apply bind_ok in E as ((Rm & r1) & E1 & E). apply bind_ok in E as (Q1 & EQ1 & E). apply bind_ok in E as (Q2 & EQ2 & E). injection E as _ <-.
  pose proof (getR_wf _ _ _ _ _ H E1) as [H1 H2 H3 H4 H5 H6]. pose proof (prepare_n _ _ _ _ _ _ EQ1). pose proof (addH_n _ _ _ _ _ _ EQ2). pose proof (qw_n _ _ H).
  split; cbn [r_n r_Q r_ld r_R r_ess wset w_size]; auto; congruence || (pose proof (qw_e _ _ H); lia).
Qed.
Lemma rem_loop_n ld q cnt : forall i Rm Q x, @sqr_rem_loop Rops ld q cnt i Rm Q = Ok x -> q_n (snd x) = q_n Q.
Proof.
  induction cnt as [|cnt IH]; intros i Rm Q x E; cbn [sqr_rem_loop] in E; [injection E as <-; reflexivity|].
  destruct (makeGivens _ _) as (g & rr). apply bind_ok in E as (Q1 & E1 & E). rewrite (IH _ _ _ _ E). apply (addG_n _ _ _ _ E1).
Qed.
Lemma sqr_remove_wf junk n r l r' : qwf n r -> @sqr_remove Rops junk r l = Ok r' -> qwf n r'.
Proof.
  intros [H1 H2 H3 H4 H5 H6] E. unfold sqr_remove in E. apply guard_ok in E as [_ E]. apply bind_ok in E as ((Rm & r1) & E1 & E). apply guard_ok in E as [_ E].
  apply bind_ok in E as (Q1 & EQ1 & E). apply bind_ok in E as (x & EQ2 & E). injection E as <-.
  assert (W : qwf n r1) by (refine (getR_wf n _ _ _ _ _ E1); split; auto). destruct W as [W1 W2 W3 W4 W5 W6].
  pose proof (prepare_n _ _ _ _ _ _ EQ1). pose proof (rem_loop_n _ _ _ _ _ _ _ EQ2). split; cbn [r_n r_Q r_ld r_R r_ess wset w_size]; auto; congruence.
Qed.

Lemma count_sizes A st act s d A' : count_update A st act s d = Ok A' -> a_nc A' = a_nc A /\ a_nb A' = a_nb A.
Proof. intros E. unfold count_update in E. destruct A. destruct s; try discriminate; injection E as <-; auto. Qed.
Lemma activate_sizes A i st A' : as_activate A i st = Ok A' -> a_nc A' = a_nc A /\ a_nb A' = a_nb A.
Proof. intros E. unfold as_activate in E. apply guard_ok in E as [_ E]. destruct (nth_error _ _) as [[]|]; try discriminate. apply guard_ok in E as [_ E]. apply (count_sizes _ _ _ _ _ _ E). Qed.
Lemma deactivate_sizes A k A' : as_deactivate A k = Ok A' -> a_nc A' = a_nc A /\ a_nb A' = a_nb A.
Proof. intros E. unfold as_deactivate in E. destruct (nth_error _ k); try discriminate. destruct (nth_error _ _); try discriminate. apply (count_sizes _ _ _ _ _ _ E). Qed.

Section Keep.
Variables (isz : R -> bool) (tiny : R) (junk : rvec) (bp : rbp) (o : ropt) (n c m : nat).
Lemma add_keep b sc b' : bshape n c m b -> baddConstraint tiny junk b sc = Ok b' -> bshape n c m b'.
Proof.
  intros [H1 H2 H3 H4 H5 H6 H7 H8 H9 H10 H11 H12] E. unfold baddConstraint in E. apply bind_ok in E as (A & EA & E). apply bind_ok in E as (d & _ & E). apply bind_ok in E as ((f & r) & Er & E). injection E as <-.
  pose proof (good_activate _ _ _ _ H2 EA). destruct (activate_sizes _ _ _ _ EA). split; cbn [b_s b_Jn b_QR b_cx s_n s_A s_x s_z s_d s_u s_r set_A]; auto; try congruence. apply (sqr_add_wf _ _ _ _ _ _ _ _ H12 Er).
Qed.
Lemma rem_keep b l b' : bshape n c m b -> bremoveConstraint junk b l = Ok b' -> bshape n c m b'.
Proof.
  intros [H1 H2 H3 H4 H5 H6 H7 H8 H9 H10 H11 H12] E. unfold bremoveConstraint in E. apply guard_ok in E as [_ E]. apply bind_ok in E as (A & EA & E). apply bind_ok in E as (r & Er & E). injection E as <-.
  cbn [s_A set_u] in EA. pose proof (good_deactivate _ _ _ H2 EA). destruct (deactivate_sizes _ _ _ EA).
  split; cbn [b_s b_Jn b_QR b_cx s_n s_A s_x s_z s_d s_u s_r set_A set_u wset w_size bset_s bset_QR]; auto; try congruence. apply (sqr_remove_wf _ _ _ _ _ H12 Er).
Qed.
Lemma step_keep b sc b' : bshape n c m b -> bcomputeStep isz bp b sc = Ok b' -> bshape n c m b'.
Proof.
  intros [H1 H2 H3 H4 H5 H6 H7 H8 H9 H10 H11 H12] E. unfold bcomputeStep in E. apply bind_ok in E as (d0 & _ & E). apply bind_ok in E as (z0 & _ & E). apply bind_ok in E as (r0 & _ & E).
  apply bind_ok in E as (d1 & _ & E). apply guard_ok in E as [_ E]. apply bind_ok in E as (z1 & _ & E). apply bind_ok in E as (rr & Er & E). injection E as <-.
  split; cbn [b_s b_Jn b_QR b_cx s_n s_A s_x s_z s_d s_u s_r set_d set_z set_r wset w_size bset_s bset_QR]; auto.
  unfold sqr_RSolve in Er. apply guard_ok in Er as [_ Er]. apply bind_ok in Er as ((Rm & r1) & E1 & Er). injection Er as <-. cbn [snd]. apply (getR_wf _ _ _ _ _ H12 E1).
Qed.
Lemma iter_keep l out : bshape n c m (bl_s l) -> biter isz tiny junk bp o l = Ok out -> match out with BContinue l' => bshape n c m (bl_s l') | BStop _ b => bshape n c m b end.
Proof.
  intros H E. unfold biter in E. apply bind_ok in E as ((m0 & b0) & E1 & E). cbn [fst snd] in E.
  assert (K : match m0 with Some l => bshape n c m (bl_s l) | None => bshape n c m b0 end).
  { unfold bstep1 in E1. destruct (bl_skip l). { injection E1 as <- <-. exact H. }
    apply bind_ok in E1 as ((sc & b) & Es & E1).
    assert (Hb : bshape n c m b).
    { unfold bselect in Es. repeat (apply bind_ok in Es as (? & _ & Es)). injection Es as _ <-. destruct H. split; auto. }
    destruct (sc_st sc); try (injection E1 as <- <-; exact Hb);
      apply bind_ok in E1 as (r0 & _ & E1); apply bind_ok in E1 as (u & _ & E1); injection E1 as <- <-; cbn [bl_s]; destruct Hb; split; auto. }
  destruct m0 as [l1|]; [|injection E as <-; exact K]. clear E1 H. unfold bstep2 in E. apply bind_ok in E as (b & Eb & E). pose proof (step_keep _ _ _ K Eb) as Hb.
  apply bind_ok in E as (((t1 & t2) & lidx) & _ & E).
  assert (Hset : forall s', s_n s' = s_n (b_s b) -> s_A s' = s_A (b_s b) -> w_size (s_x s') = w_size (s_x (b_s b)) -> w_size (s_z s') = w_size (s_z (b_s b)) -> w_size (s_d s') = w_size (s_d (b_s b)) ->
     w_size (s_u s') = w_size (s_u (b_s b)) -> w_size (s_r s') = w_size (s_r (b_s b)) -> bshape n c m (bset_s b s')).
  { intros s' K1 K2 K3 K4 K5 K6 K7. destruct Hb. split; cbn [b_s bset_s b_Jn b_QR b_cx]; rewrite ?K1, ?K2, ?K3, ?K4, ?K5, ?K6, ?K7; auto. }
  destruct (leb _ _ _). { injection E as <-. exact Hb. }
  destruct (leb _ _ _).
  - apply bind_ok in E as (b2 & E2 & E). apply bind_ok in E as (? & _ & E). apply bind_ok in E as (? & _ & E). injection E as <-. cbn [bl_s]. refine (rem_keep _ _ _ _ E2). apply Hset; reflexivity.
  - apply bind_ok in E as (nz & _ & E). destruct (eqb _ _ _).
    + apply bind_ok in E as (b2 & E2 & E). injection E as <-. cbn [bl_s]. refine (add_keep _ _ _ _ E2). apply Hset; reflexivity.
    + apply bind_ok in E as (b2 & E2 & E). apply bind_ok in E as (? & _ & E). apply bind_ok in E as (? & _ & E). injection E as <-. cbn [bl_s]. refine (rem_keep _ _ _ _ E2). apply Hset; reflexivity.
Qed.
Lemma loop_keep fuel : forall l r, bshape n c m (bl_s l) -> bloop isz tiny junk bp o fuel l = Ok r -> bshape n c m (snd r).
Proof.
  induction fuel as [|fuel IH]; intros l r H E; cbn [bloop] in E; [injection E as <-; exact H|].
  apply bind_ok in E as (out & Eo & E). pose proof (iter_keep _ _ H Eo) as K. destruct out as [l2|st b]; [|injection E as <-; exact K].
  apply (IH _ _) in E; auto. cbn [bbump bl_s]. destruct K. split; auto.
Qed.
End Keep.

(** ** Empty active sets *)
Lemma good_empty A : good A -> a_active A = [] -> as_reset A = A.
Proof.
  intros (HC & HN & _) E.
  assert (HS : forall s, In s (a_status A) -> s = INACTIVE).
  { intros s Hs. destruct (status_eq_dec s INACTIVE) as [|Hne]; auto. exfalso. apply In_nth_error in Hs as (i & Hi).
    assert (HI : In i (a_active A)) by (apply (coh_iff _ HC); eauto). rewrite E in HI. exact HI. }
  assert (Z0 : forall s, s <> INACTIVE -> cnt A s = 0%Z).
  { intros s Hs. unfold cnt. replace (count_occ status_eq_dec (a_status A) s) with 0%nat; [reflexivity|]. symmetry. apply count_occ_not_In. intros H. apply Hs. auto. }
  assert (EM : map (fun _ => INACTIVE) (a_status A) = a_status A).
  { clear -HS. induction (a_status A) as [|s l IH]; cbn; auto. rewrite IH by (intros; apply HS; right; auto). rewrite (HS s) by (left; auto). reflexivity. }
  destruct HN as [N1 N2 N3 N4 N5 N6 N7 N8]. rewrite !Z0 in * by discriminate. cbn in N4, N8. destruct A as [st ac nc nb me mi ml mu mb mbl mbu mbe]. cbn in *. unfold as_reset. cbn. rewrite EM. subst. reflexivity.
Qed.

(** ** The effective warm start *)
Definition eff_ws (junk : rvec) (bp : rbp) (o : ropt) (ws : list status) (b : rbsol) : list status :=
  if o_warm o then (if is_nil ws then a_status (s_A (b_s (bresize junk b (g_n (bp_G bp)) (c_nbCstr (bp_C bp)) (0 <? bp_xlsize bp)%nat))) else ws) else [].

Lemma sizes_nb_if (bp : rbp) : sizes_ok (bounds_only bp) = true -> (if (0 <? bp_xlsize bp)%nat then g_n (bp_G bp) else 0)%nat = bp_xlsize bp.
Proof. intros H. apply sizes_ok_spec in H as (_ & _ & _ & _ & _ & [E|E] & _); change (bp_xlsize bp = 0%nat) in E || change (bp_xlsize bp = g_n (bp_G bp)) in E; rewrite E; auto. set (k := g_n (bp_G bp)). destruct k; reflexivity. Qed.

(** The object handed to the initialisation *)
Lemma bprep junk bp o b : bwf b -> sizes_ok (bounds_only bp) = true ->
  exists b1, bshape (g_n (bp_G bp)) (c_nbCstr (bp_C bp)) (bp_xlsize bp) b1 /\ b_G b1 = bp_G bp /\ b_tiny b1 = false /\ s_it (b_s b1) = 0%nat /\ s_exp (b_s b1) = true /\
  forall isz tiny ws, bgi_solve isz tiny junk bp o ws b =
    guard ((length ws =? c_nbCstr (bp_C bp) + bp_xlsize bp)%nat || is_nil ws) (guard (o_warm o || is_nil ws) (
    do rs <- binit isz bp o (eff_ws junk bp o ws b) b1;
    match rs with
    | (SUCCESS, b) =>
      let s := b_s b in
      do x0 <- getV (s_x s) (s_n s);
      do z <- getV (s_z s) (s_n s);
      do u <- getV (s_u s) (nact (s_A s));
      do rs <- bloop isz tiny junk bp o (o_maxIter o - s_it s)%nat (BL b false (SC 0 INACTIVE));
      bterminate o (fst rs) (snd rs)
    | (st, b) => bterminate o st b
    end)).
Proof.
  intros HW Hsz. set (b0 := BS (b_s b) (bp_G bp) (b_QR b) (b_Jn b) (b_cx b) (b_bact b) false).
  assert (HW0 : bwf b0) by (destruct HW; unfold bwf; cbn [b_s b0]; split; auto).
  pose proof (bresize_spec junk b0 (g_n (bp_G bp)) (c_nbCstr (bp_C bp)) (0 <? bp_xlsize bp)%nat HW0) as HR. rewrite (sizes_nb_if bp Hsz) in HR.
  set (br := bresize junk b0 _ _ _) in *.
  assert (Est : b_s br = b_s (bresize junk b (g_n (bp_G bp)) (c_nbCstr (bp_C bp)) (0 <? bp_xlsize bp)%nat)).
  { unfold br, bresize. cbn [b_s b0]. destruct (g_n (bp_G bp) =? s_n (b_s b))%nat, (c_nbCstr (bp_C bp) =? a_nc (s_A (b_s b)))%nat; reflexivity. }
  assert (EG : b_G br = bp_G bp /\ b_tiny br = false).
  { unfold br, bresize. cbn [b_s b0]. destruct (g_n (bp_G bp) =? s_n (b_s b))%nat, (c_nbCstr (bp_C bp) =? a_nc (s_A (b_s b)))%nat; split; reflexivity. }
  exists (bset_s br (set_it (if o_warm o then set_exp (b_s br) true else set_A (set_exp (b_s br) true) (as_reset (s_A (set_exp (b_s br) true)))) 0)).
  split.
  { destruct HR as [H1 H2 H3 H4 H5 H6 H7 H8 H9 H10 H11 H12]. destruct (o_warm o); split; auto. cbn. apply good_reset. apply H2. }
  split; [apply EG|]. split; [apply EG|]. split; [reflexivity|]. split; [destruct (o_warm o); reflexivity|].
  intros isz tiny ws. unfold bgi_solve. rewrite Hsz. cbn [guard]. fold b0. cbv zeta. fold br. unfold eff_ws. rewrite <- Est. reflexivity.
Qed.

(** What the initialisation does, whatever the statuses *)
Lemma eff_size junk bp o ws b : bwf b -> sizes_ok (bounds_only bp) = true -> ((length ws =? c_nbCstr (bp_C bp) + bp_xlsize bp)%nat || is_nil ws = true) ->
  ws_size Rops (bounds_only bp) o (eff_ws junk bp o ws b).
Proof.
  intros HW Hsz Hl. unfold ws_size, warm_on, eff_ws. intros H. apply andb_true_iff in H as [Ho Hn]. rewrite Ho in *. destruct (is_nil ws) eqn:En.
  - pose proof (bresize_spec junk b (g_n (bp_G bp)) (c_nbCstr (bp_C bp)) (0 <? bp_xlsize bp)%nat HW) as HR. rewrite (sizes_nb_if bp Hsz) in HR.
    destruct (bh_good _ _ _ _ HR) as (HC & _). rewrite (coh_len _ HC), (bh_c _ _ _ _ HR), (bh_m _ _ _ _ HR). reflexivity.
  - rewrite orb_false_r in Hl. apply Nat.eqb_eq in Hl. exact Hl.
Qed.
(** No constraint is active initially *)
Definition empty_start junk bp o ws b : Prop := initial Rops (bounds_only bp) o (eff_ws junk bp o ws b) = [].

Lemma pia_empty bp o ws' n A : a_nc A = c_nbCstr (bp_C bp) -> a_nb A = bp_xlsize bp -> n = g_n (bp_G bp) -> good A -> ws_size Rops (bounds_only bp) o ws' ->
  initial Rops (bounds_only bp) o ws' = [] -> forallb (kind1 Rops (bounds_only bp) o ws') (order Rops (bounds_only bp)) = true ->
  processInitialActiveSet (bounds_only bp) o ws' n A = Ok (SUCCESS, as_reset A).
Proof.
  intros Ec Eb -> HG HW HI HK.
  pose proof (processInitialActiveSet_spec Rops (bounds_only bp) o ws' A) as HS. change (gn Rops (bounds_only bp)) with (g_n (bp_G bp)) in HS. rewrite HK in HS.
  destruct HS as (st & A' & E & H1 & H2 & H3 & H4); auto.
  { rewrite (coh_len _ (proj1 HG)), Ec, Eb. reflexivity. }
  assert (En : n_eq Rops (bounds_only bp) o ws' = 0%nat).
  { clear HK. unfold n_eq. unfold initial in HI. revert HI. induction (order Rops (bounds_only bp)) as [|i l IH]; [reflexivity|]. cbn [filter].
    destruct (wanted Rops (bounds_only bp) o ws' i); cbn [isact isEq status_eqb status_int Nat.eqb negb]; try discriminate. exact IH. }
  rewrite En in H4. rewrite (proj2 (Nat.ltb_ge _ _)) in H4 by lia. destruct H4 as (-> & [P1 P2 P3 P4 P5 P6 P7]). rewrite E. f_equal. f_equal.
  rewrite HI, Nat.min_0_r in P7. apply length_zero_iff_nil in P7. rewrite <- (good_empty A' H1 P7). apply reset_eq; auto; rewrite ?P2, ?P3; auto.
Qed.

Lemma sum_0 f : rsum 0 f = 0.
Proof. reflexivity. Qed.
(** ** The initialisation reaches the state of the dense solver *)
Section Start.
Variables (isz : R -> bool) (tiny : R) (junk : rvec) (bp : rbp) (Cs : list rblk) (Hm Cd : rmat) (o : ropt).
Hypothesis HC : bp_C bp = stc_new Cs.
Hypothesis HB : block_diagonal Cs Cd.
Notation pb := (dense_of bp Hm Cd).
Hypothesis Hsz : sizes_ok pb = true.
Hypothesis HH : hessian_of (bp_G bp) Hm.
Hypothesis HP : posdef (g_n (bp_G bp)) Hm.
Hypothesis Hz : isz 0 = true.
Hypothesis Htip : tip_fits (up_of (g_type (bp_G bp))) (g_diag (bp_G bp)).
Hypothesis Htiny : 0 <= tiny.
Hypothesis Hne : forall i, (i < ncb pb)%nat -> ~ is_equality pb i.
Let n := nv pb.

Lemma hess_eq i j : (i < n)%nat -> (j < n)%nat -> Hm i j = hess pb i j.
Proof. intros Hi Hj. unfold hess, gsym. cbn [p_G dense_of]. destruct (j <=? i)%nat; auto. destruct HH as (_ & Hs & _). apply Hs; auto. Qed.
Lemma HP' : posdef n (hess pb).
Proof. apply (posdef_ext _ Hm); auto. intros. apply hess_eq; auto. Qed.
Lemma no_eqb k : (k <= ncb pb)%nat -> filter (eqb_c pb) (seq 0 k) = [].
Proof.
  intros Hk. assert (H : forall i, In i (seq 0 k) -> eqb_c pb i = false).
  { intros i Hi. apply in_seq in Hi. destruct (eqb_c_spec pb i) as [HE|]; auto. exfalso. apply (Hne i); auto. lia. }
  induction (seq 0 k) as [|i l IH]; [reflexivity|]. cbn [filter]. rewrite H by (left; auto). apply IH. intros. apply H. right. auto.
Qed.
Lemma separated : eq_separated pb.
Proof. intros i z r Hi He. exfalso. exact (Hne i Hi He). Qed.

Lemma init_bsim s0 b1 ws' : einv pb (ncb pb) s0 -> s_it s0 = 0%nat -> s_exp s0 = true ->
  bshape (g_n (bp_G bp)) (c_nbCstr (bp_C bp)) (bp_xlsize bp) b1 -> b_G b1 = bp_G bp -> b_tiny b1 = false -> s_it (b_s b1) = 0%nat -> s_exp (b_s b1) = true ->
  processInitialActiveSet (bounds_only bp) o ws' (g_n (bp_G bp)) (s_A (b_s b1)) = Ok (SUCCESS, as_reset (s_A (b_s b1))) ->
  exists Mi b2, inverse_of n (hess pb) Mi /\ binit isz bp o ws' b1 = Ok (SUCCESS, b2) /\ bsim isz junk bp Hm Cd Mi 0 s0 b2.
Proof.
  intros HE Eit Eex [H1 H2 H3 H4 H5 H6 H7 H8 H9 H10 H11 H12] EG Et Eit1 Eex1 EP.
  destruct (factorised isz (bp_G bp) Hm Hz HH HP Htip) as (G' & Mi & EL & HS & HI). change (g_n (bp_G bp)) with n in *.
  assert (HI' : inverse_of n (hess pb) Mi).
  { intros w a Ha. rewrite <- (HI w a Ha). unfold mvec at 1 4. apply sum_ext. intros j Hj. rewrite hess_eq by auto. reflexivity. }
  pose proof (ei_pinv _ _ _ HE) as Hpi. pose proof (pi_shape _ _ Hpi) as Hsh. pose proof (ei_list _ _ _ HE) as El. rewrite no_eqb in El by lia.
  assert (Eq0 : nact (s_A s0) = 0%nat) by (rewrite (shape_nact _ _ Hsh), El; reflexivity).
  assert (EA : as_reset (s_A (b_s b1)) = s_A s0).
  { rewrite <- (good_empty (s_A s0) (sh_good _ _ Hsh) El). apply reset_eq; auto; [apply Hsh| |]; rewrite ?H3, ?H4; symmetry; apply Hsh. }
  unfold binit. rewrite H1, EP. cbn [bind fst snd]. rewrite EG, EL. cbn [bind fst snd negb]. cbn [b_G bset_QR bset_G bset_s b_QR]. rewrite (so_dec _ _ _ _ HS). unfold guard at 1.
  cbn [s_A set_A]. rewrite EA, Eq0. unfold guard at 1. cbn [Nat.eqb s_x set_A]. rewrite getV_ok by auto. cbn [bind].
  assert (Ea : bp_asize bp = n) by (apply sizes_ok_spec in Hsz; apply Hsz). rewrite Ea.
  destruct (so_L _ _ _ _ HS (bp_a bp)) as (x1 & E1 & Hx1). rewrite E1. cbn [bind]. destruct (so_Lt _ _ _ _ HS x1) as (x2 & E2 & Hx2). rewrite E2. cbn [bind].
  rewrite !getV_ok by lia. cbn [bind]. rewrite vm_id. set (xv := @vhead Rops n _ _). eexists Mi, _. split; [exact HI'|]. split; [reflexivity|].
  assert (Gx : forall a, (a < n)%nat -> rsum n (fun b => hess pb a b * xv b) = - bp_a bp a).
  { intros a Ha. rewrite <- (HI' (bp_a bp) a Ha). unfold mvec at 1. rewrite <- sum_opp. apply sum_ext. intros j Hj. unfold xv, vhead. rewrite (proj2 (Nat.ltb_lt _ _) Hj).
    rewrite Hx2 by auto. rewrite (mvec_ext n (mt Mi) x1 (mvec n Mi (bp_a bp)) j) by auto. rops. rring. }
  assert (Ex : forall i, (i < n)%nat -> xof s0 i = xv i).
  { apply (step_unique n 0 (hess pb) (fun _ _ => 0) (fun a => - bp_a bp a) (xof s0) (fun _ => 0) xv (fun _ => 0)); try (intros; lia); try exact HP'.
    - intros c _ k Hk. lia.
    - intros a Ha. pose proof (ds_grad _ _ _ (ei_dstat _ _ _ HE) a Ha) as HG. rewrite Eq0 in HG. unfold gradient in HG. cbn [rsum] in HG |- *. 
      change (p_a pb a) with (bp_a bp a) in HG. change (nv pb) with n in HG. rewrite sum_0 in HG |- *.
      set (u := rsum n _) in *. clearbody u. lra.
    - intros a Ha. rewrite Gx by auto. rewrite sum_0. lra. }
  assert (Ef : @half Rops * @dot Rops [23]%nat n (bp_a bp) xv = s_f s0).
  { rewrite (ds_f _ _ _ (ei_dstat _ _ _ HE)). rewrite (objective_ext pb (xof s0) xv) by exact Ex. unfold objective. change (nv pb) with n. change (p_a pb) with (bp_a bp).
    assert (HQ : quad n (hess pb) xv = - rdot n (bp_a bp) xv).
    { unfold quad. rewrite dot_def, <- sum_opp. apply sum_ext. intros i Hi. rewrite Gx by auto. rops. rring. }
    rewrite HQ. unfold half. rops. set (q := rdot n (bp_a bp) xv). change (@dot Rops [23]%nat n (bp_a bp) xv) with q. field. }
  split; cbn [bset_s bset_QR bset_G b_s b_G b_QR b_Jn b_cx b_tiny s_n s_A s_it s_f s_exp s_x s_z s_d s_u s_r set_f set_x set_A wset w_size w_buf sqr_reset r_q r_ld]; auto; try congruence; try lia.
  - destruct H12 as [W1 W2 W3 W4 W5 W6]. split; auto.
  - exists []. split.
    + change (r_Q (b_QR _)) with (os_clear (r_Q (b_QR b1))). unfold os_clear. rewrite (qw_Q _ _ H12). apply hist_nil.
    + rewrite Eq0. split; try (intros; lia).
Qed.

Lemma bsolve_sim junk' ws b s : empty_start junk bp o ws b -> forallb (kind1 Rops (bounds_only bp) o (eff_ws junk bp o ws b)) (order Rops (bounds_only bp)) = true ->
  ((length ws =? c_nbCstr (bp_C bp) + bp_xlsize bp)%nat || is_nil ws = true) -> o_warm o || is_nil ws = true -> bwf b -> wf_sol s ->
  exists st s' Mi, gi_solve junk' pb o s = Ok (st, s') /\ (st = MAX_ITER_REACHED \/ st = SUCCESS \/ st = INFEASIBLE) /\ shape pb s' /\
    ((exists b', bgi_solve isz tiny junk bp o ws b = Ok (st, b') /\ bsim isz junk bp Hm Cd Mi 0 s' b') \/
     (tiny <> 0 /\ forall r, bgi_solve isz tiny junk bp o ws b = Ok r -> b_tiny (snd r) = true)).
Proof.
  intros HE0 HK Hl Hw HWb HWs.
  destruct (solve_spec junk' pb o s HWs Hsz) as [(Hn & _)|(_ & HS)]; [exfalso; apply Hn; exact HP'|].
  destruct (HS separated) as (s0 & _ & Eg & HE & Eit & Eex). rewrite Eg.
  destruct (loop_total pb o (o_maxIter o) (start s0) (start_linv _ _ _ HE)) as (st & s' & El & Hst & Hsh). rewrite El.
  destruct (bprep junk bp o b HWb Hsz) as (b1 & HB1 & EG & Et & Eit1 & Eex1 & Esolve).
  assert (EP := pia_empty bp o (eff_ws junk bp o ws b) (g_n (bp_G bp)) (s_A (b_s b1)) (bh_c _ _ _ _ HB1) (bh_m _ _ _ _ HB1) eq_refl (bh_good _ _ _ _ HB1) (eff_size _ _ _ _ _ HWb Hsz Hl) HE0 HK).
  destruct (init_bsim s0 b1 _ HE Eit Eex HB1 EG Et Eit1 Eex1 EP) as (Mi & b2 & HI & Eb & HSim).
  exists st, s', Mi. split; [reflexivity|]. split; [exact Hst|]. split; [exact Hsh|].
  rewrite (Esolve isz tiny ws), Hl, Hw. cbn [guard]. rewrite Eb. cbn [bind]. cbv zeta.
  rewrite (bm_n _ _ _ _ _ _ _ _ _ HSim), (bm_A _ _ _ _ _ _ _ _ _ HSim), (bm_it _ _ _ _ _ _ _ _ _ HSim), Eit, Nat.sub_0_r.
  pose proof (shape_nact_le _ _ (pi_shape _ _ (ei_pinv _ _ _ HE))) as Hq.
  rewrite !getV_ok by (try apply (bm_wx _ _ _ _ _ _ _ _ _ HSim); try apply (bm_wz _ _ _ _ _ _ _ _ _ HSim); pose proof (bm_wu _ _ _ _ _ _ _ _ _ HSim); lia). cbn [bind].
  assert (HL0 : blsim isz junk bp Hm Cd Mi (start s0) (BL b2 false (SC 0 INACTIVE))) by (split; [reflexivity|]; split; [discriminate|exact HSim]).
  destruct (loop_bsim isz tiny junk bp Cs Hm Cd Mi o HC HB Hsz HP' HI Htiny (o_maxIter o) (start s0) _ (st, s') (start_linv _ _ _ HE) HL0 El) as [(b' & Ebl & HF)|(Ht & Hfl)].
  - left. exists b'. rewrite Ebl. cbn [bind fst snd]. split; [|exact HF]. destruct Hst as [-> | [-> | ->]]; reflexivity.
  - right. split; [exact Ht|]. intros r Er. apply bind_ok in Er as (r1 & E1 & Er). specialize (Hfl r1 E1). unfold bterminate in Er.
    destruct (fst r1); try (injection Er as <-; exact Hfl); destruct (o_debug o); try discriminate; injection Er as <-; exact Hfl.
Qed.
End Start.

(** ** Whatever the initial active set *)
Lemma binit_keep isz bp o ws' n c m b st b' : bshape n c m b -> n = g_n (bp_G bp) -> c = c_nbCstr (bp_C bp) -> m = bp_xlsize bp -> ws_size Rops (bounds_only bp) o ws' ->
  binit isz bp o ws' b = Ok (st, b') -> bshape n c m b' /\ (st = SUCCESS -> nact (s_A (b_s b')) = 0%nat /\ initial Rops (bounds_only bp) o ws' = [] \/ n = 0%nat).
Proof.
  intros [H1 H2 H3 H4 H5 H6 H7 H8 H9 H10 H11 H12] En Ec Em HW E. unfold binit in E. apply bind_ok in E as ((st0 & A') & EP & E). cbn [fst snd] in E.
  pose proof (processInitialActiveSet_spec Rops (bounds_only bp) o ws' (s_A (b_s b))) as HS. change (gn Rops (bounds_only bp)) with (g_n (bp_G bp)) in HS.
  rewrite H1, En in EP. 
  destruct (forallb _ _); [|rewrite HS in EP; [discriminate|rewrite (coh_len _ (proj1 H2)), H3, H4, Ec, Em; reflexivity|exact (eq_trans H3 Ec)|exact (eq_trans H4 Em)|auto]].
  destruct HS as (st1 & A1 & E1 & G1 & G2 & G3 & G4); [rewrite (coh_len _ (proj1 H2)), H3, H4, Ec, Em; reflexivity|exact (eq_trans H3 Ec)|exact (eq_trans H4 Em)|auto|].
  rewrite EP in E1. injection E1 as <- <-.
  assert (HA : bshape n c m (bset_s b (set_A (b_s b) A'))). { split; cbn; auto; rewrite ?G2, ?G3, ?Ec, ?Em; reflexivity. }
  destruct st0; try (injection E as <- <-; split; [exact HA|discriminate]).
  apply bind_ok in E as (dG & _ & E). destruct (fst dG); cbn [negb] in E; [|injection E as <- <-; split; [destruct HA; split; auto|discriminate]].
  apply guard_ok in E as [_ E]. apply guard_ok in E as [Hq E]. apply bind_ok in E as (x0 & _ & E). apply bind_ok in E as (x1 & _ & E). apply bind_ok in E as (x2 & _ & E).
  apply bind_ok in E as (u & _ & E). apply bind_ok in E as (ba & _ & E). injection E as <- <-. split.
  - destruct HA as [K1 K2 K3 K4 K5 K6 K7 K8 K9 K10 K11 K12]. split; cbn; auto. destruct K12. split; auto.
  - intros _. destruct n as [|n']; [right; reflexivity|left]. cbn [s_A set_A] in Hq. apply Nat.eqb_eq in Hq. split; [exact Hq|].
    destruct (Nat.ltb_spec (g_n (bp_G bp)) (n_eq Rops (bounds_only bp) o ws')); [discriminate|]. destruct G4 as (_ & [P1 P2 P3 P4 P5 P6 P7]).
    rewrite <- (nact_length _ P1), Hq in P7. change (gn Rops (bounds_only bp)) with (g_n (bp_G bp)) in P7. rewrite <- En in P7. apply length_zero_iff_nil. lia.
Qed.
Lemma bsolve_keep isz tiny junk bp o ws b st b' : bwf b -> bgi_solve isz tiny junk bp o ws b = Ok (st, b') -> bwf b'.
Proof.
  intros HW E. assert (Hsz : sizes_ok (bounds_only bp) = true) by (unfold bgi_solve in E; apply guard_ok in E; apply E).
  destruct (bprep junk bp o b HW Hsz) as (b1 & HB1 & _ & _ & _ & _ & Es). rewrite Es in E. apply guard_ok in E as [Hl E]. apply guard_ok in E as [_ E]. apply bind_ok in E as ((st1 & b2) & E1 & E).
  destruct (binit_keep _ _ _ _ _ _ _ _ _ _ HB1 eq_refl eq_refl eq_refl (eff_size _ _ _ _ _ HW Hsz Hl) E1) as [H2 _].
  assert (HT : forall st b r, bterminate o st b = Ok r -> snd r = b :> rbsol). { intros st0 b0 r Er. unfold bterminate in Er. destruct st0; try (injection Er as <-; reflexivity); destruct (o_debug o); try discriminate; injection Er as <-; reflexivity. }
  destruct st1; try (apply HT in E; cbn [snd] in E; subst b2; apply (bshape_wf _ _ _ _ H2)).
  cbv zeta in E. apply bind_ok in E as (? & _ & E). apply bind_ok in E as (? & _ & E). apply bind_ok in E as (? & _ & E). apply bind_ok in E as (rs & El & E). apply HT in E. cbn [snd] in E. subst b'.
  apply (bshape_wf (g_n (bp_G bp)) (c_nbCstr (bp_C bp)) (bp_xlsize bp)). refine (loop_keep _ _ _ _ _ _ _ _ _ _ _ _ El). exact H2.
Qed.

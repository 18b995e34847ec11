(** The block Goldfarb-Idnani solver (BlockGI.v) against the dense one (Solver.v), in exact arithmetic. *)
From Coq Require Import List Arith ZArith Lia Bool Reals Lra.
From Verif Require Import Base ActiveSet ActiveSetProofs Num Solver QPSpec LinAlg QRUpdate GIMath GIBase GIInv GIDual GISame WarmQR WarmHot Util
  Block BlockElim BlockSpec BlockLLT BlockSolve BlockDense PropBlock Ortho OrthoProofs PropOrtho StructC PropStructC StructG StructGProofs StructQRProofs BlockGI.
Import ListNotations.
Local Open Scope R_scope.
Notation rbp := (bproblem Rops).
Notation rbsol := (bsol Rops).

(** ** Uniqueness of the step *)
Lemma step_unique n q (G : rmat) N (np z r z' r' : rvec) : posdef n G -> independent n q N ->
  (forall k, (k < q)%nat -> rdot n (N k) z = 0) -> (forall k, (k < q)%nat -> rdot n (N k) z' = 0) ->
  (forall a, (a < n)%nat -> rsum n (fun b => G a b * z b) = np a - rsum q (fun k => r k * N k a)) ->
  (forall a, (a < n)%nat -> rsum n (fun b => G a b * z' b) = np a - rsum q (fun k => r' k * N k a)) ->
  (forall a, (a < n)%nat -> z a = z' a) /\ (forall k, (k < q)%nat -> r k = r' k).
Proof.
  intros HP HI O O' E E'. set (w := fun a => z a - z' a). set (c := fun k => r' k - r k).
  assert (Ew : forall a, (a < n)%nat -> rsum n (fun b => G a b * w b) = rsum q (fun k => c k * N k a)).
  { intros a Ha. rewrite (sum_ext n _ (fun b => G a b * z b - G a b * z' b)) by (intros; unfold w; rring). rewrite sum_minus, E, E' by auto.
    rewrite (sum_ext q (fun k => c k * N k a) (fun k => r' k * N k a - r k * N k a)) by (intros; unfold c; rring). rewrite sum_minus. lra. }
  assert (Q0 : quad n G w = 0).
  { unfold quad. rewrite (sum_ext n _ (fun i => rsum q (fun k => c k * (N k i * w i)))).
    - rewrite sum_swap. apply sum_zero. intros k Hk. rewrite sum_scal. 
      replace (rsum n (fun i => N k i * w i)) with (rdot n (N k) z - rdot n (N k) z'); [rewrite O, O' by auto; lra|].
      rewrite !dot_def. rewrite <- sum_minus. apply sum_ext. intros. unfold w. rring.
    - intros i Hi. transitivity (w i * rsum n (fun j => G i j * w j)); [rewrite <- sum_scal; apply sum_ext; intros; rring|].
      rewrite Ew by auto. rewrite <- sum_scal. apply sum_ext. intros. rring. }
  assert (W0 : forall a, (a < n)%nat -> w a = 0).
  { intros a Ha. destruct (Req_dec (w a) 0) as [|Hne]; auto. exfalso. assert (0 < quad n G w) by (apply HP; exists a; auto). lra. }
  split.
  - intros a Ha. specialize (W0 a Ha). unfold w in W0. lra.
  - intros k Hk. assert (c k = 0); [|unfold c in *; lra]. apply (HI c); auto. intros a Ha. rewrite <- Ew by auto. apply sum_zero. intros b Hb. rewrite W0 by auto. rring.
Qed.

(** ** Columns of the constraint matrix *)
Lemma col_spec Cs Cd i : block_diagonal Cs Cd -> (i < cols_of Cs)%nat -> exists z, @stc_col Rops (stc_new Cs) i = Ok z /\ z_size z = rows_of Cs /\ (z_end z <= rows_of Cs)%nat /\
  (forall r, (r < rows_of Cs)%nat -> seg_vec z r = Cd r i) /\ forall u, snz_dot z (rows_of Cs) u = Ok (rdot (rows_of Cs) (fun r => Cd r i) u).
Proof.
  intros HB Hi. destruct (col_locate Cs i Hi) as (k & D & j & H1 & H2 & ->). pose proof (stc_col_eq Cs k D j H1 H2) as E. rewrite E. eexists. split; [reflexivity|]. cbn [z_size].
  pose proof (off_end brow Cs k D H1) as Hend. fold (row_off Cs k) in Hend. fold (rows_of Cs) in Hend.
  split; [reflexivity|]. split; [exact Hend|]. split.
  - intros r Hr. unfold seg_vec, z_end. cbn [z_start z_len z_v]. rewrite (block_col Cs Cd k D j r HB H1 H2 Hr). reflexivity.
  - intros u. destruct (C24_col Cs Cd HB) as [HC _]. destruct (HC (col_off Cs k + j)%nat Hi) as (z & Ez & _ & Hz). rewrite Ez in E. injection E as ->. rewrite Hz. rewrite dot_def. reflexivity.
Qed.
Lemma facts_t_ext n cs v w k : Forall (c_in n) cs -> (k < n)%nat -> (forall i, (i < n)%nat -> v i = w i) -> facts_t cs v k = facts_t cs w k.
Proof. intros HC Hk H. rewrite !(facts_t_mvec n) by auto. apply mvec_ext. auto. Qed.
Lemma facts_ext n cs v w k : Forall (c_in n) cs -> (k < n)%nat -> (forall i, (i < n)%nat -> v i = w i) -> facts cs v k = facts cs w k.
Proof. intros HC Hk H. rewrite !(facts_mvec n) by auto. apply mvec_ext. auto. Qed.
Lemma mvec_opp n M v i : mvec n M (fun j => - v j) i = - mvec n M v i.
Proof. unfold mvec. rewrite <- sum_opp. apply sum_ext. intros. rring. Qed.

Section Sim.
Variables (isz : R -> bool) (tiny : R) (junk : rvec) (bp : rbp) (Cs : list rblk) (Hm Cd Mi : rmat) (o : ropt).
Hypothesis HC : bp_C bp = stc_new Cs.
Hypothesis HB : block_diagonal Cs Cd.
Notation pb := (dense_of bp Hm Cd).
Hypothesis Hsz : sizes_ok pb = true.
Hypothesis HP : posdef (nv pb) (hess pb).
Hypothesis HI : inverse_of (nv pb) (hess pb) Mi.
Hypothesis Htiny : 0 <= tiny.
Let n := nv pb.

Lemma rows_n : rows_of Cs = n.
Proof. apply sizes_ok_spec in Hsz as (_ & _ & H & _). cbn [p_Crows dense_of] in H. rewrite HC in H. rewrite (proj1 (C24_sizes Cs)) in H. exact H. Qed.
Lemma cols_nc : cols_of Cs = nc pb.
Proof. unfold nc. cbn [p_Ccols dense_of]. rewrite HC. symmetry. apply C24_sizes. Qed.
Lemma nbC : c_nbCstr (bp_C bp) = nc pb. Proof. reflexivity. Qed.
Lemma nb_n : (nb pb <= n)%nat. Proof. apply sizes_nb. exact Hsz. Qed.
Lemma col_of_pb i : (i < nc pb)%nat -> exists z, stc_col (bp_C bp) i = Ok z /\ z_size z = n /\ (z_end z <= n)%nat /\ (forall r, (r < n)%nat -> seg_vec z r = cvec pb i r) /\
  forall u, snz_dot z n u = Ok (rdot n (cvec pb i) u).
Proof.
  intros Hi. destruct (col_spec Cs Cd i HB ltac:(rewrite cols_nc; auto)) as (z & E & H1 & H2 & H3 & H4). rewrite rows_n in *. exists z. rewrite HC. unfold cvec.
  rewrite (proj2 (Nat.ltb_lt i (nc pb)) Hi). repeat split; auto.
Qed.
Lemma gram_inv cs a c : Forall (c_in n) cs -> Forall orthogonal_factor cs -> (a < n)%nat -> (c < n)%nat ->
  rsum n (fun b => hess pb a b * gram n (bJof n Mi cs) b c) = if (a =? c)%nat then 1 else 0.
Proof.
  intros H1 H2 Ha Hc. pose proof (HI (basis c) a Ha) as E. unfold basis at 2 in E. rewrite <- E. unfold mvec at 1. apply sum_ext. intros b Hb. f_equal.
  rewrite gram_bJ by auto. unfold mvec at 1, mt. apply sum_ext. intros k Hk. f_equal. rewrite mvec_basis by auto. reflexivity.
Qed.

Lemma Jt_spec G cs Q out sc : solver_ok isz n G Mi -> hist junk n cs Q -> sel_valid pb sc ->
  exists v, premultByJt isz n G Q n out (bp_C bp) sc = Ok v /\ forall j, (j < n)%nat -> v j = tdot n (bJof n Mi cs) j (scn pb sc).
Proof.
  intros HS HH (V1 & V2). pose proof (hist_in _ _ _ _ HH) as Hin. pose proof (kind_lt _ _ _ V2) as HK.
  assert (Hcb : ncb pb = (nc pb + nb pb)%nat) by reflexivity. pose proof nb_n as Hnb.
  assert (K : exists v, (if (status_int (sc_st sc) <=? status_int EQUALITY)%nat then
             do c <- stc_col (bp_C bp) (sc_idx sc);
             do v <- stg_solveL_nz isz G n out c;
             Ok (if status_eqb (sc_st sc) UPPER then @vm Rops n (fun i => if (i <? n)%nat then v i * (- (1)) else v i) else v)
           else
             let e : rvec := fun _ => (if status_eqb (sc_st sc) UPPER_BOUND then - (1) else 1) in
             guard (c_nbCstr (bp_C bp) <=? sc_idx sc)%nat (
             do z <- @snz_new Rops 1 e (sc_idx sc - c_nbCstr (bp_C bp)) n;
             stg_solveL_nz isz G n out z)) = Ok v /\ forall i, (i < n)%nat -> v i = mvec n Mi (scn pb sc) i).
  { destruct (Nat.leb_spec (status_int (sc_st sc)) (status_int EQUALITY)) as [Hst|Hst].
    - assert (Hi : (sc_idx sc < nc pb)%nat) by (destruct (sc_st sc); cbn in Hst; try lia; contradiction).
      destruct (col_of_pb _ Hi) as (z & E & Z1 & Z2 & Z3 & _). rewrite E. cbn [bind]. destruct (so_nz _ _ _ _ HS z out Z1 Z2) as (x & Ex & Hx). rewrite Ex. cbn [bind].
      eexists. split; [reflexivity|]. intros i Hn'.
      assert (Hx' : x i = mvec n Mi (cvec pb (sc_idx sc)) i). { rewrite Hx by auto. apply mvec_ext. auto. }
      unfold scn, nsign. destruct (sc_st sc); cbn in Hst; try lia; try contradiction; cbn [status_eqb status_int Nat.eqb]; try exact Hx'.
      rewrite vm_at. rewrite (proj2 (Nat.ltb_lt _ _) Hn'). rewrite mvec_opp, Hx'. lra.
    - assert (Hi : (nc pb <= sc_idx sc)%nat) by (destruct (sc_st sc); cbn in Hst; try lia; exact HK). rewrite nbC. unfold guard at 1. rewrite (proj2 (Nat.leb_le _ _) Hi).
      cbv zeta. unfold snz_new, guard at 1. rewrite (proj2 (Nat.leb_le _ _)) by lia. cbn [bind].
      set (e := fun _ : nat => _). destruct (so_nz _ _ _ _ HS (NZ (sc_idx sc - nc pb) 1 n e) out eq_refl ltac:(unfold z_end; cbn [z_start z_len]; lia)) as (x & Ex & Hx). rewrite Ex.
      exists x. split; [reflexivity|]. intros i Hn'. rewrite Hx by auto. apply mvec_ext. intros j Hj. unfold seg_vec, z_end. cbn [z_start z_len z_v]. unfold scn, nsign, cvec.
      rewrite (proj2 (Nat.ltb_ge (sc_idx sc) (nc pb)) Hi).
      unfold e. destruct (sc_st sc); cbn in Hst; try lia; cbn [status_eqb status_int Nat.eqb]; cbv beta;
        (destruct (Nat.leb_spec (sc_idx sc - nc pb) j); destruct (Nat.ltb_spec j (sc_idx sc - nc pb + 1)); cbn [andb];
         destruct (Nat.eqb_spec j (sc_idx sc - nc pb)) as [E0|E0]; try lia; rring). }
  destruct K as (v & Ev & Hv). unfold premultByJt.
  match goal with |- exists v, bind ?a _ = _ /\ _ => replace a with (@Ok rvec v) end.
  cbn [bind]. rewrite (proj2 (hist_apply _ _ _ _ v HH)). eexists. split; [reflexivity|]. intros j Hj. rewrite tdot_bJ by auto. apply (facts_t_ext n); auto.
Qed.
Lemma J2_spec G cs Q q out inp : solver_ok isz n G Mi -> hist junk n cs Q -> (q <= n)%nat ->
  exists v, premultByJ2 n G Q q n out (n - q) inp = Ok v /\ forall i, (i < n)%nat -> v i = rsum (n - q) (fun t => bJof n Mi cs i (q + t)%nat * inp t).
Proof.
  intros HS HH Hq. pose proof (hist_in _ _ _ _ HH) as Hin. pose proof (hist_n _ _ _ _ HH) as Hn. unfold premultByJ2. unfold guard at 1. rewrite Nat.eqb_refl. rewrite Hn.
  unfold guard at 1. rewrite (proj2 (Nat.leb_le _ _) Hq), Nat.eqb_refl. cbn [andb]. unfold guard at 1. rewrite (proj2 (Nat.leb_le _ _)) by lia. cbn [andb]. cbv zeta. rewrite vm_id.
  set (w := fun i => if (i <? q)%nat then _ else _). rewrite (proj1 (hist_apply _ _ _ _ w HH)). cbn [bind]. destruct (so_Lt _ _ _ _ HS (facts cs w)) as (x & Ex & Hx). rewrite Ex.
  exists x. split; [reflexivity|]. intros i Hi. rewrite Hx by auto. rewrite bJ_apply by auto. replace n with (q + (n - q))%nat at 1 by lia. rewrite sum_app.
  rewrite (sum_zero q) by (intros k Hk; unfold w; rewrite (proj2 (Nat.ltb_lt _ _) Hk); cbv iota; apply Rmult_0_r). rewrite Rplus_0_l. apply sum_ext. intros t Ht. f_equal. unfold w.
  rewrite (proj2 (Nat.ltb_ge _ _)) by lia. replace (n - (n - q))%nat with q by lia. rewrite (proj2 (Nat.leb_le _ _)), (proj2 (Nat.ltb_lt _ _)) by lia. cbn [andb]. f_equal. lia.
Qed.

(** ** Related states *)
Definition fact_ok (b : rbsol) (cs : list cmd) (A : aset) : Prop :=
  hist junk n cs (r_Q (b_QR b)) /\ qr n (nact A) (bJof n Mi cs) (bRof (b_QR b)) (Nact pb A).
Record bsim (e : nat) (s : rsol) (b : rbsol) : Prop := {
  bm_n : s_n (b_s b) = n; bm_A : s_A (b_s b) = s_A s; bm_it : s_it (b_s b) = s_it s; bm_f : s_f (b_s b) = s_f s; bm_exp : s_exp (b_s b) = s_exp s;
  bm_x : forall i, (i < n)%nat -> xof s i = xof (b_s b) i;
  bm_u : forall i, (i < nact (s_A s) + e)%nat -> uof s i = uof (b_s b) i;
  bm_wx : (n <= w_size (s_x (b_s b)))%nat; bm_wz : (n <= w_size (s_z (b_s b)))%nat; bm_wd : (n <= w_size (s_d (b_s b)))%nat;
  bm_wu : (ncb pb <= w_size (s_u (b_s b)))%nat; bm_wr : (ncb pb <= w_size (s_r (b_s b)))%nat;
  bm_Jn : b_Jn b = n; bm_cx : (nc pb <= w_size (b_cx b))%nat;
  bm_G : solver_ok isz n (b_G b) Mi; bm_qw : qwf n (b_QR b); bm_q : r_q (b_QR b) = nact (s_A s); bm_ld : (r_q (b_QR b) <= r_ld (b_QR b))%nat;
  bm_qr : exists cs, fact_ok b cs (s_A s);
  bm_t : b_tiny b = false
}.
Record bfresh (sc : selcstr) (s : rsol) (b : rbsol) : Prop := {
  bf_z : forall i, (i < n)%nat -> zof s i = zof (b_s b) i;
  bf_r : forall i, (i < nact (s_A s))%nat -> rof s i = rof (b_s b) i;
  bf_d : exists cs, fact_ok b cs (s_A s) /\ (forall j, (j < n)%nat -> dof (b_s b) j = tdot n (bJof n Mi cs) j (scn pb sc)) /\
    (forall i, (i < n)%nat -> zof (b_s b) i = rsum (n - nact (s_A s)) (fun t => bJof n Mi cs i (nact (s_A s) + t)%nat * dof (b_s b) (nact (s_A s) + t)%nat))
}.
Lemma bsim_weak e s b : bsim e s b -> bsim 0 s b.
Proof. intros []. split; auto. intros i Hi. apply bm_u0. lia. Qed.

Lemma step_bsim e s b sc s1 : pinv pb s -> sel_valid pb sc -> bsim e s b -> computeStep pb s sc = Ok s1 -> step_rel pb s sc s1 ->
  (forall i, (i < nact (s_A s))%nat -> rsum (nact (s_A s)) (fun k => upper (Rof s) i k * rof s1 k) = dof s1 i) ->
  exists b1, bcomputeStep isz bp b sc = Ok b1 /\ bsim e s1 b1 /\ bfresh sc s1 b1.
Proof.
  intros Hpi HV HSim E1 HSR Hr. pose proof HSim as [H1 H2 H3 H4 H5 H6 H7 H8 H9 H10 H11 H12 H13 H14 H15 H16 H17 H18 H19 H20].
  pose proof (pi_shape _ _ Hpi) as Hsh. pose proof (shape_nact_le _ _ Hsh) as Hncb. set (q := nact (s_A s)) in *.
  assert (Hq : (q <= n)%nat) by (apply (qr_le _ _ _ _ _ (pi_qr _ _ Hpi))).
  destruct H19 as (cs & HH & HQ). unfold bcomputeStep. rewrite H1, H2. fold q. rewrite !getV_ok by lia. cbn [bind].
  rewrite H13. destruct (Jt_spec (b_G b) cs (r_Q (b_QR b)) (w_buf (s_d (b_s b))) sc H15 HH HV) as (d1 & Ed & Hd1). rewrite Ed. cbn [bind]. rewrite !vm_id.
  unfold guard at 1. rewrite (proj2 (Nat.leb_le _ _) Hq). set (d := @vhead Rops n d1 (w_buf (s_d (b_s b)))).
  assert (Hd : forall j, (j < n)%nat -> d j = tdot n (bJof n Mi cs) j (scn pb sc)).
  { intros j Hj. unfold d, vhead. rewrite (proj2 (Nat.ltb_lt _ _) Hj). auto. }
  rewrite H17. destruct (J2_spec (b_G b) cs (r_Q (b_QR b)) q (w_buf (s_z (b_s b))) (fun i => d (q + i)%nat) H15 HH Hq) as (z1 & Ez & Hz1). rewrite Ez. cbn [bind]. rewrite !vm_id.
  set (z := @vhead Rops n z1 (w_buf (s_z (b_s b)))).
  assert (Hz : forall i, (i < n)%nat -> z i = rsum (n - q) (fun t => bJof n Mi cs i (q + t)%nat * d (q + t)%nat)).
  { intros j Hj. unfold z, vhead. rewrite (proj2 (Nat.ltb_lt _ _) Hj). auto. }
  destruct (RSolve_spec n (b_QR b) (w_buf (s_r (b_s b))) d H16 H18 ltac:(lia)) as (x & Ex & Hx). rewrite H17 in Ex, Hx. fold q in Ex, Hx. rewrite Ex. cbn [bind fst snd]. rewrite vm_id.
  set (r := @vhead Rops q x (w_buf (s_r (b_s b)))).
  assert (HRr : forall i, (i < q)%nat -> rsum q (fun k => upper (bRof (b_QR b)) i k * r k) = d i).
  { intros i Hi. rewrite <- (bwd_correct q (bRof (b_QR b)) d) by (auto; intros; apply (qr_diag _ _ _ _ _ HQ); auto).
    apply sum_ext. intros k Hk. unfold r, vhead. rewrite (proj2 (Nat.ltb_lt _ _) Hk), Hx by auto. reflexivity. }
  set (b1 := bset_QR _ _). exists b1. split; [reflexivity|].
  assert (HU : (forall a, (a < n)%nat -> zof s1 a = z a) /\ (forall k, (k < q)%nat -> rof s1 k = r k)).
  { apply (step_unique n q (hess pb) (Nact pb (s_A s)) (scn pb sc)); auto.
    - apply (qr_independent _ _ _ _ _ HQ).
    - intros k Hk. exact (st_orth pb s sc s1 k Hpi (Build_stepped _ _ _ _ HSR Hr) Hk).
    - intros k Hk. exact (step_orth n q _ _ _ _ _ HQ Hz k Hk).
    - intros a Ha. exact (st_Gz pb s sc s1 a Hpi (Build_stepped _ _ _ _ HSR Hr) Ha).
    - intros a Ha. refine (step_Gz n q _ _ _ _ _ _ _ HQ Hd Hz HRr (hess pb) _ a Ha).
      intros a' c' Ha' Hc'. apply gram_inv; auto; [apply (hist_in _ _ _ _ HH)|apply HH]. }
  destruct HU as [HU1 HU2]. pose proof HSR as [_ R2 R3 R4 R5 R6 R7 R8 _ _ _ _ _ _].
  split.
  - split; cbn [b1 bset_QR bset_s b_s b_G b_QR b_Jn b_cx b_tiny s_n s_A s_it s_f s_exp s_x s_u s_z s_d s_r set_r set_z set_d wset w_size]; rewrite ?R4; auto; try congruence.
    + intros i Hi. unfold xof. rewrite R6. apply H6; auto.
    + intros i Hi. unfold uof. rewrite R7. apply H7; auto.
    + exists cs. split; auto.
  - split; rewrite ?R4; fold q.
    + exact HU1.
    + exact HU2.
    + exists cs. split; [split; auto|]. split; [exact Hd|exact Hz].
Qed.

(** ** Changes of the active set *)
Lemma dense_add_A (s : rsol) sc s' : addConstraint s sc = Ok s' -> exists A, as_activate (s_A s) (sc_idx sc) (sc_st sc) = Ok A /\ s_A s' = A /\ s_it s' = s_it s /\ s_f s' = s_f s /\ s_exp s' = s_exp s /\ s_x s' = s_x s /\ s_u s' = s_u s.
Proof.
  intros E. unfold addConstraint in E. apply bind_ok in E as (A & EA & E). exists A. split; [exact EA|]. unfold addConstraint_ in E.
  apply bind_ok in E as (d & _ & E). apply bind_ok in E as (J & _ & E). destruct (add_loop _ _ _ _ _) as (d', J'). apply bind_ok in E as (Rm & _ & E). apply guard_ok in E as [_ E].
  injection E as <-. repeat split.
Qed.
Lemma dense_rem_A (s : rsol) l s' : removeConstraint s l = Ok s' -> exists A, as_deactivate (s_A s) l = Ok A /\ s_A s' = A /\ s_it s' = s_it s /\ s_f s' = s_f s /\ s_exp s' = s_exp s /\ s_x s' = s_x s /\
  forall i, uof s' i = if ((l <=? i) && (i <? nact (s_A s)))%nat then uof s (i + 1)%nat else uof s i.
Proof.
  intros E. unfold removeConstraint in E. apply guard_ok in E as [_ E]. apply bind_ok in E as (A & EA & E). exists A. split; [exact EA|]. unfold removeConstraint_ in E.
  apply bind_ok in E as (J & _ & E). apply bind_ok in E as (Rm & _ & E). destruct (rem_loop _ _ _ _ _) as (R', J'). 
  injection E as <-. repeat split. intros i. unfold uof. cbn [s_u set_R set_J set_A set_u wset w_buf]. rewrite vm_at. reflexivity.
Qed.

Lemma add_bsim s b sc s' : shape pb s -> sel_valid pb sc -> stt (s_A s) (sc_idx sc) = INACTIVE -> bsim 1 s b -> bfresh sc s b -> (exists i, (i < n)%nat /\ zof (b_s b) i <> 0) ->
  addConstraint s sc = Ok s' -> exists b', baddConstraint tiny junk b sc = Ok b' /\ (b_tiny b' = true \/ bsim 0 s' b').
Proof.
  intros Hsh HV Hin HSim HF Hnz E. pose proof HSim as [H1 H2 H3 H4 H5 H6 H7 H8 H9 H10 H11 H12 H13 H14 H15 H16 H17 H18 _ H20].
  destruct HF as [_ _ (cs & (HH & HQ) & Hd & Hz)]. set (q := nact (s_A s)) in *.
  pose proof (step_nz_pos n q _ _ _ _ _ _ HQ Hd Hz Hnz) as Hpos. destruct (step_d2 n q _ _ _ _ _ _ HQ Hd Hz Hpos) as (j & Hj1 & Hj2 & Hj3).
  destruct (dense_add_A _ _ _ E) as (A & EA & K1 & K2 & K3 & K4 & K5 & K6).
  destruct (activate_added (s_A s) sc) as (A' & EA' & HA).
  { apply Hsh. } { destruct HV as [HV _]. rewrite (sh_nc _ _ Hsh), (sh_nb _ _ Hsh). exact HV. } { destruct HV as [_ HV]. rewrite (sh_nc _ _ Hsh). exact HV. } { exact Hin. }
  assert (A' = A) by congruence. subst A'. pose proof (aa_nact _ _ _ HA) as EN. fold q in EN.
  unfold baddConstraint. rewrite H2, EA. cbn [bind]. rewrite H1. rewrite getV_ok by lia. cbn [bind].
  destruct (sqr_add_spec tiny junk n Mi cs (b_QR b) (Nact pb (s_A s)) (scn pb sc) (w_buf (s_d (b_s b))) Htiny H16 H18 ltac:(lia) HH ltac:(rewrite H17; exact HQ) Hd ltac:(exists j; rewrite H17; auto))
    as [(r' & Er)|(r' & cs' & Er & W & Q1 & Q2 & HH' & HQ')]; rewrite Er; cbn [bind fst snd].
  { eexists. split; [reflexivity|]. left. cbn [b_tiny]. apply orb_true_r. }
  eexists. split; [reflexivity|]. right. split; cbn [b_s b_G b_QR b_Jn b_cx b_tiny s_n s_A s_it s_f s_exp s_x s_u s_z s_d s_r set_A]; auto; try congruence; rewrite ?K1, ?EN.
  - intros i Hi. unfold xof. rewrite K5. apply H6; auto.
  - intros i Hi. unfold uof. rewrite K6. apply H7. lia.
  - lia.
  - exists cs'. split; [exact HH'|]. rewrite EN. replace (S q) with (r_q (b_QR b) + 1)%nat by lia. apply (qr_ext' _ _ _ _ _ _ _ _ HQ'); auto.
    intros k i Hk Hi. destruct (Nact_added pb s sc A k Hsh HA Hin ltac:(fold q; lia)) as (-> & _). fold q. rewrite H17. reflexivity.
  - rewrite H20. reflexivity.
Qed.

Lemma remove_bsim s b l s' : shape pb s -> bsim 1 s b -> removeConstraint s l = Ok s' -> (l < nact (s_A s))%nat /\ nact (s_A s) = S (nact (s_A s')) /\ exists b', bremoveConstraint junk b l = Ok b' /\ bsim 1 s' b'.
Proof.
  intros Hsh HSim E. pose proof HSim as [H1 H2 H3 H4 H5 H6 H7 H8 H9 H10 H11 H12 H13 H14 H15 H16 H17 H18 (cs & HH & HQ) H20].
  destruct (dense_rem_A _ _ _ E) as (A & EA & K1 & K2 & K3 & K4 & K5 & K6).
  assert (Hl : (l < nact (s_A s))%nat) by (rewrite (shape_nact _ _ Hsh); apply (deactivate_legal _ l (sh_good _ _ Hsh)); eauto).
  destruct (deactivate_removed (s_A s) l (sh_good _ _ Hsh) Hl) as (A2 & E2 & HA). assert (A2 = A) by congruence. subst A2. pose proof (ar_nact _ _ _ HA) as EN.
  split; [exact Hl|]. split; [rewrite K1; exact EN|].
  unfold bremoveConstraint. rewrite H2. unfold guard at 1. rewrite (proj2 (Nat.leb_le _ _)) by lia. cbn [s_A set_u]. rewrite H2, EA. cbn [bind].
  rewrite EN in HQ. destruct (sqr_remove_spec junk n Mi cs (b_QR b) (Nact pb (s_A s)) l (nact A) H16 ltac:(lia) ltac:(lia) HH HQ ltac:(lia)) as (r' & cs' & Er & W & Q1 & Q2 & HH' & HQ').
  rewrite Er. cbn [bind]. eexists. split; [reflexivity|].
  split; cbn [bset_QR bset_s b_s b_G b_QR b_Jn b_cx b_tiny s_n s_A s_it s_f s_exp s_x s_u s_z s_d s_r set_A set_u wset w_size]; auto; try congruence; rewrite ?K1.
  - intros i Hi. unfold xof. rewrite K5. apply H6; auto.
  - intros i Hi. rewrite K6. unfold uof at 3. cbn [bset_QR bset_s b_s set_A set_u s_u wset w_buf]. rewrite vm_at. change (w_buf (s_u (b_s b))) with (uof (b_s b)). destruct ((l <=? i)%nat && (i <? nact (s_A s))%nat); apply H7; lia.
  - exists cs'. split; [exact HH'|]. apply (qr_ext' _ _ _ _ _ _ _ _ HQ'); auto.
    intros k i Hk Hi. destruct (Nact_removed pb s l A k Hsh HA Hl Hk) as (-> & _). reflexivity.
Qed.

(** ** Step length, products with the selected normal, selection *)
Lemma blen2_eq (x z : rvec) sc : sel_valid pb sc -> blen2 bp n x z sc = len2 pb n x z sc.
Proof.
  intros (V1 & V2). pose proof (kind_lt _ _ _ V2) as HK. unfold blen2, len2. rewrite nbC. change (p_Ccols pb) with (nc pb).
  assert (Hc : (sc_idx sc < nc pb)%nat -> forall u, (do c <- stc_col (bp_C bp) (sc_idx sc); snz_dot c n u) = Ok (rdot n (fun i => p_C pb i (sc_idx sc)) u)).
  { intros Hi u. destruct (col_of_pb _ Hi) as (c & E & _ & _ & _ & D). rewrite E. cbn [bind]. rewrite D. unfold cvec. rewrite (proj2 (Nat.ltb_lt _ _) Hi). reflexivity. }
  assert (Hs : forall (f : R -> R -> res R), (sc_idx sc < nc pb)%nat -> (do c <- stc_col (bp_C bp) (sc_idx sc); do cx <- snz_dot c n x; do cz <- snz_dot c n z; f cx cz) =
     f (rdot n (fun i => p_C pb i (sc_idx sc)) x) (rdot n (fun i => p_C pb i (sc_idx sc)) z)).
  { intros f Hi. pose proof (Hc Hi x) as Ex. pose proof (Hc Hi z) as Ez. destruct (stc_col (bp_C bp) (sc_idx sc)) as [c|]; [|discriminate]. cbn [bind] in *. rewrite Ex, Ez. reflexivity. }
  cbv zeta. destruct (sc_st sc); auto; try (rewrite (proj2 (Nat.leb_le _ _) HK); reflexivity).
  - exact (Hs (fun cx cz => match bp_bl bp (sc_idx sc) with Some b => Ok (Rops.(div) (Rops.(sub) b cx) cz) | None => UB end) HK).
  - exact (Hs (fun cx cz => match bp_bu bp (sc_idx sc) with Some b => Ok (Rops.(div) (Rops.(sub) b cx) cz) | None => UB end) HK).
Qed.
Lemma bdot_eq (v : rvec) sc : sel_valid pb sc -> bdot bp n sc v = cn_dot pb sc n v.
Proof.
  intros (V1 & V2). pose proof (kind_lt _ _ _ V2) as HK. unfold bdot, cn_dot. rewrite nbC. change (p_Ccols pb) with (nc pb).
  assert (Hc : (sc_idx sc < nc pb)%nat -> (do c <- stc_col (bp_C bp) (sc_idx sc); snz_dot c n v) = Ok (rdot n v (fun i => p_C pb i (sc_idx sc)))).
  { intros Hi. destruct (col_of_pb _ Hi) as (c & E & _ & _ & _ & D). rewrite E. cbn [bind]. rewrite D. unfold cvec. rewrite (proj2 (Nat.ltb_lt _ _) Hi). rewrite dot_comm. reflexivity. }
  cbv zeta. destruct (sc_st sc); auto; try (rewrite Hc by auto; reflexivity); rewrite (proj2 (Nat.leb_le _ _) HK); cbn [andb]; try reflexivity.
  destruct (sc_idx sc - nc pb <? n)%nat; reflexivity.
Qed.
Lemma length_bsim e s b sc : shape pb s -> sel_valid pb sc -> bsim e s b -> bfresh sc s b -> bcomputeStepLength bp o b sc = computeStepLength pb o s sc.
Proof.
  intros Hsh HV HSim HF. pose proof HSim as [H1 H2 H3 H4 H5 H6 H7 _ _ _ _ _ _ _ _ _ _ _ _ _]. destruct HF as [Fz Fr _].
  unfold bcomputeStepLength, computeStepLength. rewrite H1, H2, (sh_n _ _ Hsh). fold n. rewrite cn_ok_valid by auto. cbn [guard].
  rewrite (len1_agr Rops _ (w_buf (s_u s)) (w_buf (s_u (b_s b))) (w_buf (s_r s)) (w_buf (s_r (b_s b)))); [|intros i Hi; apply H7; lia|exact Fr].
  rewrite (len2_agr Rops pb n (w_buf (s_x s)) (w_buf (s_x (b_s b))) (w_buf (s_z s)) (w_buf (s_z (b_s b))) sc) by auto.
  rewrite blen2_eq by auto. unfold norm. rewrite (gdot_ext Rops n (w_buf (s_z s)) (w_buf (s_z s)) (w_buf (s_z (b_s b))) (w_buf (s_z (b_s b)))) by exact Fz. reflexivity.
Qed.

Lemma bsel_cstr_eq s (cx x : rvec) k acc : shape pb s -> (k <= nc pb)%nat -> (forall i, (i < nc pb)%nat -> cx i = rdot n (fun t => p_C pb t i) x) ->
  bsel_cstr bp (s_A s) cx k acc = sel_cstr pb (s_A s) x k acc.
Proof.
  intros Hsh Hk Hcx. induction k as [|k IH]; [reflexivity|]. cbn [bsel_cstr sel_cstr]. rewrite IH by lia. destruct (sel_cstr pb (s_A s) x k acc) as [a|]; [|reflexivity]. cbn [bind].
  destruct (isActive (s_A s) k) as [[|]|]; [reflexivity| |reflexivity]. cbn [bind]. rewrite nbC. unfold guard. rewrite (proj2 (Nat.ltb_lt _ _)) by lia.
  assert (Er : p_Crows pb = n) by (apply sizes_ok_spec in Hsz; apply Hsz). rewrite Er. rewrite Hcx by lia. reflexivity.
Qed.
Lemma bsel_bnd_eq A (x : rvec) k acc : sel_bnd (bounds_only bp) A x k acc = sel_bnd pb A x k acc.
Proof. induction k as [|k IH]; [reflexivity|]. cbn [sel_bnd]. rewrite IH. reflexivity. Qed.
Lemma select_bsim e s b sc : shape pb s -> bsim e s b -> selectViolated pb s = Ok sc -> exists cx, bselect bp b = Ok (sc, bset_cx b (wset (b_cx b) cx)).
Proof.
  intros Hsh HSim E. pose proof HSim as [H1 H2 H3 H4 H5 H6 H7 H8 _ _ _ _ _ H14 _ _ _ _ _ _].
  unfold bselect. rewrite H1, H2, nbC. rewrite !getV_ok by lia. cbn [bind].
  destruct (C24_transposeMult Cs Cd (w_buf (s_x (b_s b))) (w_buf (b_cx b)) HB) as [(cx & Ecx & Hcx) _]. rewrite rows_n, cols_nc in *. rewrite HC, Ecx. cbn [bind].
  rewrite (sh_nc _ _ Hsh), (sh_nb _ _ Hsh). rewrite (bsel_cstr_eq s cx (w_buf (s_x (b_s b)))); auto.
  unfold selectViolated in E. apply bind_ok in E as (x & Ex & E). apply getV_inv in Ex as [_ ->]. rewrite (sh_nc _ _ Hsh), (sh_nb _ _ Hsh) in E.
  assert (Er : p_Crows pb = n) by (apply sizes_ok_spec in Hsz; apply Hsz).
  rewrite (sel_cstr_agr Rops pb (s_A s) (w_buf (s_x s)) (w_buf (s_x (b_s b)))) in E by (rewrite Er; exact H6).
  destruct (sel_cstr pb (s_A s) (w_buf (s_x (b_s b))) (nc pb) (zero Rops, SC 0 INACTIVE)) as [a|]; [|discriminate]. cbn [bind] in *.
  rewrite bsel_bnd_eq. rewrite (sel_bnd_agr Rops pb (s_A s) (w_buf (s_x s)) (w_buf (s_x (b_s b)))) in E by (intros i Hi; apply H6; pose proof nb_n; lia).
  destruct (sel_bnd pb (s_A s) (w_buf (s_x (b_s b))) (nb pb) a) as [a'|]; [|discriminate]. cbn [bind] in *. injection E as <-. exists cx. reflexivity.
Qed.

(** ** Iterations *)
Definition blsim (l : rlst) (l' : blst Rops) : Prop :=
  bl_skip l' = l_skip l /\ (l_skip l = true -> bl_sc l' = l_sc l) /\ bsim (if l_skip l then 1 else 0) (l_s l) (bl_s l').
Definition bosim (a : iter_out Rops) (a' : biter_out Rops) : Prop :=
  match a, a' with
  | Continue l, BContinue l' => b_tiny (bl_s l') = true \/ blsim l l'
  | Stop st s, BStop st' b => st' = st /\ bsim 0 s b
  | _, _ => False
  end.
Lemma bsim_cx e s b c : bsim e s b -> w_size c = w_size (b_cx b) -> bsim e s (bset_cx b c).
Proof. intros [H1 H2 H3 H4 H5 H6 H7 H8 H9 H10 H11 H12 H13 H14 H15 H16 H17 H18 H19 H20] E. split; auto. cbn [bset_cx b_cx]. lia. Qed.
Lemma step1_bsim l l' m : shape pb (l_s l) -> (nact (s_A (l_s l)) < ncb pb)%nat \/ l_skip l = true \/ m = None -> blsim l l' -> step1 pb l = Ok m ->
  exists m' b', bstep1 bp l' = Ok (m', b') /\ match m, m' with None, None => bsim 0 (l_s l) b' | Some m, Some m' => bl_sc m' = l_sc m /\ bsim 1 (l_s m) (bl_s m') | _, _ => False end.
Proof.
  intros Hsh Hroom (H1 & H2 & H3) E. unfold bstep1, step1 in *. rewrite H1. destruct (l_skip l) eqn:Esk.
  - injection E as <-. eexists. eexists. split; [reflexivity|]. split; [auto|exact H3].
  - apply bind_ok in E as (sc & Es & E). destruct (select_bsim 0 _ _ sc Hsh H3 Es) as (cx & Eb). rewrite Eb. cbn [bind].
    pose proof (bsim_cx _ _ _ (wset (b_cx (bl_s l')) cx) H3 eq_refl) as H3'. set (b' := bset_cx _ _) in *. clearbody b'. clear H3.
    pose proof H3' as [K1 K2 K3 K4 K5 K6 K7 K8 K9 K10 K11 K12 K13 K14 K15 K16 K17 K18 K19 K20]. rewrite Nat.add_0_r in K7.
    pose proof (shape_nact_le _ _ Hsh) as Hle.
    destruct (sc_st sc); [injection E as <-; eexists; eexists; split; [reflexivity|exact H3']|..].
    all: apply bind_ok in E as (r0 & Er & E); apply bind_ok in E as (u0 & Eu & E); injection E as <-;
      apply getV_inv in Eu as [_ ->]; destruct Hroom as [Hr|[Hr|Hr]]; try discriminate;
      rewrite K2; rewrite !getV_ok by lia; cbn [bind]; eexists; eexists; (split; [reflexivity|]); (split; [reflexivity|]); cbn [l_s bl_s];
      split; cbn [bset_s b_s b_G b_QR b_Jn b_cx b_tiny s_n s_A s_it s_f s_exp s_x s_u s_z s_d s_r set_u wset w_size]; auto;
      intros i Hi; unfold uof; cbn [bset_s b_s s_u set_u wset w_buf]; unfold upd; destruct (Nat.eqb_spec i (nact (s_A (l_s l)))); auto; apply K7; cbn [s_A set_u] in Hi; lia.
Qed.

Lemma norm_ext m (z z' : rvec) : (forall i, (i < m)%nat -> z i = z' i) -> @norm Rops m z = norm m z'.
Proof. intros H. unfold norm. rewrite (gdot_ext Rops m z z z' z') by exact H. reflexivity. Qed.
Lemma step2_bsim m m' out : pinv pb (l_s m) -> selected pb (l_s m) (l_sc m) -> bl_sc m' = l_sc m -> bsim 1 (l_s m) (bl_s m') -> step2 pb o m = Ok out ->
  exists out', bstep2 isz tiny junk bp o m' = Ok out' /\ bosim out out'.
Proof.
  intros Hpi HSel Esc HSim E. destruct m as [s sk sc]. cbn [l_s l_sc] in *. pose proof HSel as [HV Hin Hneq _]. pose proof (pi_shape _ _ Hpi) as Hsh.
  unfold bstep2. rewrite Esc. unfold step2 in E. cbn [l_s l_sc] in E. rewrite (bm_A _ _ _ HSim), (bm_n _ _ _ HSim). rewrite (sh_n _ _ Hsh) in E. change (nv pb) with n in E.
  destruct (computeStep_pinv pb s sc Hpi HV) as (s1 & E1 & HSR & Hr). rewrite E1 in E. cbn [bind] in E.
  destruct (step_bsim 1 s (bl_s m') sc s1 Hpi HV HSim E1 HSR Hr) as (b1 & Eb1 & HS1 & HF1). rewrite Eb1. cbn [bind].
  pose proof (sr_shape _ _ _ _ HSR) as Hsh1. pose proof (sr_A _ _ _ _ HSR) as EA.
  rewrite (length_bsim 1 s1 b1 sc Hsh1 HV HS1 HF1). apply bind_ok in E as (((t1 & t2) & i) & El & E). rewrite El. cbn [bind].
  pose proof (shape_nact_le _ _ Hsh) as Hle. pose proof (inactive_lt pb s (sc_idx sc) Hsh (proj1 HV) Hin) as Hlt.
  set (t := if ltb Rops t2 t1 then t2 else t1) in *. set (q := nact (s_A s)) in *.
  destruct (leb Rops (o_bigBnd o) t) eqn:Et. { injection E as <-. eexists. split; [reflexivity|]. split; [reflexivity|]. apply (bsim_weak 1). exact HS1. }
  pose proof HS1 as [H1 H2 H3 H4 H5 H6 H7 H8 H9 H10 H11 H12 H13 H14 H15 H16 H17 H18 H19 H20]. pose proof HF1 as [Fz Fr Fd].
  rewrite EA in H7, Fr. fold q in H7, Fr.
  assert (Hu : forall j, (j < q + 1)%nat -> @dual_step Rops q t (w_buf (s_u s1)) (w_buf (s_r s1)) j = @dual_step Rops q t (w_buf (s_u (b_s b1))) (w_buf (s_r (b_s b1))) j) by (apply (dual_step_agr Rops); auto).
  assert (Hrem : forall s2 b2, shape pb s2 -> bsim 1 s2 b2 -> s_A s2 = s_A s ->
     (do s <- removeConstraint s2 i; do r0 <- getV (s_r s) (q - 1); do u0 <- getV (s_u s) q; Ok (Continue (L s true sc))) = Ok out ->
     exists out', (do b <- bremoveConstraint junk b2 i; do r0 <- getV (s_r (b_s b)) (q - 1); do u0 <- getV (s_u (b_s b)) q; Ok (BContinue (BL b true sc))) = Ok out' /\ bosim out out').
  { intros s2 b2 Hs2 S2 EA2 E2. apply bind_ok in E2 as (s3 & E3 & E2). apply bind_ok in E2 as (? & _ & E2). apply bind_ok in E2 as (? & _ & E2). injection E2 as <-.
    destruct (remove_bsim s2 b2 i s3 Hs2 S2 E3) as (_ & _ & b3 & Eb3 & S3). rewrite Eb3. cbn [bind].
    rewrite !getV_ok by (pose proof (bm_wu _ _ _ S3); pose proof (bm_wr _ _ _ S3); lia). cbn [bind]. eexists. split; [reflexivity|]. right. split; [reflexivity|]. split; auto. }
  destruct (leb Rops (o_bigBnd o) t2) eqn:Et2.
  { apply (Hrem _ (bset_s b1 (set_u (b_s b1) (wset (s_u (b_s b1)) (dual_step q t (w_buf (s_u (b_s b1))) (w_buf (s_r (b_s b1))))))) ) in E; auto.
    - apply shape_set_u; auto. cbn [wset w_size]. apply (sh_u _ _ Hsh1).
    - split; cbn [bset_s b_s b_G b_QR b_Jn b_cx b_tiny s_n s_A s_it s_f s_exp s_x s_u s_z s_d s_r set_u wset w_size]; auto. rewrite EA. fold q. exact Hu. }
  apply bind_ok in E as (nz & Enz & E). rewrite bdot_eq by auto. rewrite cn_dot_spec in Enz |- * by (auto; apply Hsh).
  assert (Enz' : rdot (nv pb) (scn pb sc) (w_buf (s_z (b_s b1))) = nz).
  { injection Enz as <-. apply (gdot_ext Rops (key := [])); [intros ? ?; reflexivity|]. intros k Hk. symmetry. apply Fz. exact Hk. }
  cbn [bind]. rewrite Enz'. clear Enz Enz'.
  cbn [s_u s_r s_f s_x set_x set_f set_u] in E |- *.
  match type of E with context[removeConstraint ?a i] => set (s2 := a) in * end. match goal with |- context[bremoveConstraint junk ?a i] => set (b2 := a) end.
  assert (Hs2 : shape pb s2). { destruct Hsh1. split; auto. }
  assert (S2 : bsim 1 s2 b2).
  { split; cbn [s2 b2 bset_s b_s b_G b_QR b_Jn b_cx b_tiny s_n s_A s_it s_f s_exp s_x s_u s_z s_d s_r set_u set_x set_f wset w_size]; auto.
    - rewrite H4. pose proof (H7 q ltac:(lia)) as Eu. unfold uof in Eu. rewrite Eu. reflexivity.
    - intros j Hj. unfold xof. cbn [s2 b2 bset_s b_s set_u set_f set_x s_x wset w_buf]. rewrite !vm_at. unfold vhead. rewrite (proj2 (Nat.ltb_lt _ _) Hj). pose proof (H6 j Hj) as Ex. pose proof (Fz j Hj) as Ez. unfold xof in Ex. unfold zof in Ez. rewrite Ex, Ez. reflexivity.
    - unfold uof. cbn [s2 b2 bset_s b_s set_u set_f set_x s_u wset w_buf]. rewrite EA. fold q. exact Hu. }
  destruct (eqb Rops t t2) eqn:Ett; [|apply (Hrem s2 b2); auto].
  apply bind_ok in E as (s3 & E3 & E). injection E as <-.
  assert (Hzn : exists k, (k < n)%nat /\ zof (b_s b2) k <> 0).
  { unfold computeStepLength in El. apply bind_ok in El as ((t1' & l1') & _ & El). apply guard_ok in El as [_ El]. apply bind_ok in El as (t2' & Et2' & El). cbn [fst snd] in El. injection El as _ -> _.
    destruct (ltb Rops (eps14 Rops) (norm (s_n s1) (w_buf (s_z s1)))) eqn:En.
    - rewrite (sh_n _ _ Hsh1) in En. change (w_buf (s_z s1)) with (zof s1) in En. rewrite (norm_ext (nv pb) _ (zof (b_s b1)) Fz) in En. change (nv pb) with n in En. rops. destruct (Rltb_spec (/ 10 ^ 14) (norm n (zof (b_s b1)))) as [Hn'|]; [|discriminate].
      apply (norm_pos_nz n (zof (b_s b1)) (/ 10 ^ 14)); [|exact Hn']. pose proof eps_pos. lra.
    - injection Et2' as Et2'. rewrite Et2' in Et2. rops. destruct (Rleb_spec t2 t2); [discriminate|lra]. }
  assert (HF2 : bfresh sc s2 b2). { destruct HF1. split; auto. }
  destruct (add_bsim s2 b2 sc s3 Hs2 HV ltac:(cbn [s2 s_A set_u set_f set_x]; rewrite EA; exact Hin) S2 HF2 Hzn E3) as (b3 & Eb3 & S3). rewrite Eb3. cbn [bind].
  eexists. split; [reflexivity|]. destruct S3 as [S3|S3]; [left; exact S3|right]. split; [reflexivity|]. split; [discriminate|exact S3].
Qed.

Lemma iter_bsim l l' out : linv pb l -> blsim l l' -> iter pb o l = Ok out -> exists out', biter isz tiny junk bp o l' = Ok out' /\ bosim out out'.
Proof.
  intros HL HS E. unfold iter in E. unfold biter. pose proof (pi_shape _ _ (proj1 HL)) as Hsh.
  destruct (step1_spec pb l HL) as [(Hsk & E1 & _)|(sc & E1 & Hsel & Hs)]; rewrite E1 in E; cbn [bind] in E.
  - destruct (step1_bsim l l' None Hsh ltac:(auto) HS E1) as ([m'|] & b' & Eb & Hb); [contradiction|]. rewrite Eb. cbn [bind fst snd]. injection E as <-. eexists. split; [reflexivity|]. split; [reflexivity|exact Hb].
  - assert (Hroom : (nact (s_A (l_s l)) < ncb pb)%nat).
    { rewrite <- (enter_A l sc). apply (inactive_lt pb _ (sc_idx sc)); [apply (enter_pinv pb l sc (proj1 HL))|apply Hsel|apply Hsel]. }
    destruct (step1_bsim l l' _ Hsh (or_introl Hroom) HS E1) as ([m'|] & b' & Eb & Hb); [|contradiction]. rewrite Eb. cbn [bind fst snd]. destruct Hb as [Hb1 Hb2].
    apply (step2_bsim (L (enter l sc) (l_skip l) sc) m' out); auto. cbn [l_s]. apply enter_pinv. apply HL.
Qed.

(** ** The record of neglected tails *)
Definition bflag (a : biter_out Rops) : bool := match a with BContinue l => b_tiny (bl_s l) | BStop _ b => b_tiny b end.
Lemma sqr_add_flag r m d f r' : tiny = 0 -> @sqr_add Rops tiny junk r m d = Ok (f, r') -> f = false.
Proof.
  intros Ht E. unfold sqr_add in E. apply guard_ok in E as [_ E]. apply guard_ok in E as [_ E]. apply bind_ok in E as (e0 & _ & E).
  destruct (mkHouse _ _ _) as [[tau beta] ess]. apply bind_ok in E as ((Rm & r1) & _ & E). apply bind_ok in E as (Q1 & _ & E). apply bind_ok in E as (Q2 & _ & E). injection E as <- _.
  rewrite Ht. rops. set (x := @tail_sq Rops _ _). destruct (Rleb_spec x 0), (Rltb_spec 0 x); auto. lra.
Qed.
Lemma add_flag b sc b' : baddConstraint tiny junk b sc = Ok b' -> exists f, b_tiny b' = b_tiny b || f /\ (tiny = 0 -> f = false).
Proof.
  intros E. unfold baddConstraint in E. apply bind_ok in E as (A & _ & E). apply bind_ok in E as (d & _ & E). apply bind_ok in E as ((f & r) & Er & E). injection E as <-. exists f. split; [reflexivity|].
  intros Ht. exact (sqr_add_flag _ _ _ _ _ Ht Er).
Qed.
Lemma rem_flag b l b' : bremoveConstraint junk b l = Ok b' -> b_tiny b' = b_tiny b.
Proof. intros E. unfold bremoveConstraint in E. apply guard_ok in E as [_ E]. apply bind_ok in E as (A & _ & E). apply bind_ok in E as (r & _ & E). injection E as <-. reflexivity. Qed.
Lemma biter_flag l out : biter isz tiny junk bp o l = Ok out -> exists f, bflag out = b_tiny (bl_s l) || f /\ (tiny = 0 -> f = false).
Proof.
  intros E. unfold biter in E. apply bind_ok in E as ((m & b0) & E1 & E). cbn [fst snd] in E.
  assert (H1 : match m with Some m => b_tiny (bl_s m) = b_tiny (bl_s l) | None => True end /\ b_tiny b0 = b_tiny (bl_s l)).
  { unfold bstep1 in E1. destruct (bl_skip l). { injection E1 as <- <-. auto. }
    apply bind_ok in E1 as ((sc & b) & Es & E1). assert (Eb : b_tiny b = b_tiny (bl_s l)).
    { unfold bselect in Es. repeat (apply bind_ok in Es as (? & _ & Es)). injection Es as _ <-. reflexivity. }
    destruct (sc_st sc). { injection E1 as <- <-. auto. }
    all: apply bind_ok in E1 as (? & _ & E1); apply bind_ok in E1 as (? & _ & E1); injection E1 as <- <-; auto. }
  destruct H1 as [H1 H0]. destruct m as [m|]. 2:{ injection E as <-. exists false. rewrite orb_false_r. auto. }
  rewrite <- H1. clear E1 H0 H1. unfold bstep2 in E. apply bind_ok in E as (b & Eb & E).
  assert (Hb : b_tiny b = b_tiny (bl_s m)).
  { unfold bcomputeStep in Eb. do 4 (apply bind_ok in Eb as (? & _ & Eb)). apply guard_ok in Eb as [_ Eb]. do 2 (apply bind_ok in Eb as (? & _ & Eb)). injection Eb as <-. reflexivity. }
  apply bind_ok in E as (((t1 & t2) & i) & _ & E). set (t := if ltb Rops t2 t1 then t2 else t1) in *.
  assert (Hrem : forall b2 q, b_tiny b2 = b_tiny b -> (do b <- bremoveConstraint junk b2 i; do r0 <- getV (s_r (b_s b)) (q - 1); do u0 <- getV (s_u (b_s b)) q; Ok (BContinue (BL b true (bl_sc m)))) = Ok out ->
     exists f, bflag out = b_tiny (bl_s m) || f /\ (tiny = 0 -> f = false)).
  { intros b2 q Hb2 E2. apply bind_ok in E2 as (b3 & E3 & E2). do 2 (apply bind_ok in E2 as (? & _ & E2)). injection E2 as <-. exists false. cbn [bflag bl_s]. rewrite (rem_flag _ _ _ E3), orb_false_r. split; [congruence|auto]. }
  destruct (leb Rops (o_bigBnd o) t). { injection E as <-. exists false. cbn [bflag]. rewrite orb_false_r. auto. }
  destruct (leb Rops (o_bigBnd o) t2). { apply (Hrem _ _) in E; auto. }
  apply bind_ok in E as (nz & _ & E). destruct (eqb Rops t t2). 2:{ apply (Hrem _ _) in E; auto. }
  apply bind_ok in E as (b3 & E3 & E). injection E as <-. cbn [bflag bl_s]. destruct (add_flag _ _ _ E3) as (f & Ef & Hf). exists f. rewrite Ef. cbn [bset_s b_tiny]. rewrite Hb. auto.
Qed.
Lemma bloop_flag fuel : forall l r, bloop isz tiny junk bp o fuel l = Ok r -> b_tiny (bl_s l) = true -> b_tiny (snd r) = true.
Proof.
  induction fuel as [|fuel IH]; intros l r E H; cbn [bloop] in E; [injection E as <-; exact H|].
  apply bind_ok in E as (out & Eo & E). destruct (biter_flag _ _ Eo) as (f & Ef & _). rewrite H in Ef. cbn [orb] in Ef. destruct out as [l2|st b]; cbn [bflag] in Ef.
  - apply (IH _ _ E). exact Ef.
  - injection E as <-. exact Ef.
Qed.
Lemma loop_bsim fuel : forall l l' r, linv pb l -> blsim l l' -> loop pb o fuel l = Ok r ->
  (exists b, bloop isz tiny junk bp o fuel l' = Ok (fst r, b) /\ bsim 0 (snd r) b) \/ (tiny <> 0 /\ forall r', bloop isz tiny junk bp o fuel l' = Ok r' -> b_tiny (snd r') = true).
Proof.
  induction fuel as [|fuel IH]; intros l l' r HL HS E; cbn [loop bloop] in *.
  - injection E as <-. left. eexists. split; [reflexivity|]. destruct HS as (_ & _ & HS). cbn [snd]. apply (bsim_weak _ _ _ HS).
  - destruct (iter_spec pb o l HL) as (out & Eo & HCs). rewrite Eo in E. cbn [bind] in E. destruct (iter_bsim l l' out HL HS Eo) as (out' & Eo' & HO). rewrite Eo'. cbn [bind].
    pose proof (iter_linv _ _ _ _ HL HCs) as HL2. destruct out as [m|st s], out' as [m'|st' b]; try contradiction.
    + destruct HO as [HO|HO].
      * right. destruct (biter_flag _ _ Eo') as (f & Ef & Hf). cbn [bflag] in Ef. destruct HS as (_ & _ & HS). rewrite (bm_t _ _ _ HS), HO in Ef. cbn [orb] in Ef. split.
        { intros Ht. specialize (Hf Ht). congruence. } intros r' Er. exact (bloop_flag _ _ _ Er HO).
      * apply (IH (L (set_it (l_s m) (S (s_it (l_s m)))) (l_skip m) (l_sc m))); auto.
        { destruct HL2 as [K1 K2]. split; cbn [l_s l_skip l_sc]; [apply pinv_set_it; auto|]. intros Hsk. apply selected_set_it. auto. }
        { destruct HO as (O1 & O2 & O3). split; [exact O1|]. split; [exact O2|]. destruct O3. split; cbn [l_s bbump bl_s bset_s b_s b_G b_QR b_Jn b_cx b_tiny set_it s_n s_A s_it s_f s_exp s_x s_u s_z s_d s_r]; auto. }
    + destruct HO as [-> HO]. injection E as <-. left. eexists. split; [reflexivity|exact HO].
Qed.
End Sim.

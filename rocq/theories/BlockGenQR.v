(** Definedness of the structured Hessian, of the orthonormal sequences and of the structured QR of BlockGISolver,
    for ANY scalar arithmetic. *)
From Coq Require Import List Arith ZArith Lia Bool.
From Verif Require Import Base ActiveSet Num Solver LinAlg GISafe GICall Util PropUtil Block BlockSpec BlockDense PropBlock Ortho StructC PropStructC StructG StructGProofs BlockGen.
Import ListNotations.

Section GenQR.
Variable S : ops.
Variable isz : carrier S -> bool.
Variable nul : carrier S -> Prop.
Hypothesis HN : null_ops S nul.
Hypothesis Hisz : isz (zero S) = true.
Notation blk := (blk S).
Notation vec := (vec S).
Notation mat := (mat S).
Definition nulv (n : nat) (v : vec) : Prop := forall i, (i < n)%nat -> nul (v i).

(** ** StructuredG *)
Definition gshape (G : structG S) : Prop :=
  g_n G = total (g_diag G) /\ tip_fits (up_of (g_type G)) (g_diag G) /\
  match g_type G with
  | TriBlockDiagonal => tri_ok (g_diag G) (g_off G)
  | BlockArrowUp => arrow_sz S true (g_diag G) (g_off G)
  | BlockArrowDown => arrow_sz S false (g_diag G) (g_off G)
  end.
Lemma tip_ss up (l l' : list blk) : Forall2 (same_size S) l l' -> tip_fits up l -> tip_fits up l'.
Proof.
  intros F H Hu D E E1 E2. assert (HF : forall k x', nth_error l' k = Some x' -> exists x, nth_error l k = Some x /\ same_size S x x').
  { clear - F. induction F as [|a b l l' Hab _ IH]; intros [|k] x' Hx; try discriminate; [injection Hx as <-; exists a; auto|apply IH; exact Hx]. }
  destruct (HF _ _ E1) as (D0 & K1 & [-> _]). destruct (HF _ _ E2) as (E0 & K2 & [-> _]). rewrite <- (f2_len F) in K2. apply (H Hu); auto.
Qed.
Lemma stg_llt_sz G : gshape G -> exists ok G', stg_llt G = Ok (ok, G') /\ g_dec G' = ok /\ g_n G' = g_n G /\ gshape G'.
Proof.
  intros (H1 & H2 & H3). unfold stg_llt. unfold gshape. destruct (g_type G) eqn:Et.
  - destruct (triLLT_sz S _ _ H3) as (ok & dl & bl & E & F1 & F2). rewrite E. cbn [bind]. eexists _, _. split; [reflexivity|]. split; [reflexivity|]. split; [reflexivity|]. cbn [g_n g_diag g_type g_off].
    split; [rewrite H1; symmetry; apply same_total; exact F1|]. split; [eapply tip_ss; eauto|eapply tri_ok_ss; eauto].
  - destruct (arrowLLT_sz S true _ _ H3) as (ok & dl & bl & E & F1 & F2 & F3). rewrite E. cbn [bind]. eexists _, _. split; [reflexivity|]. split; [reflexivity|]. split; [reflexivity|]. cbn [g_n g_diag g_type g_off].
    split; [rewrite H1; symmetry; apply same_total; exact F1|]. split; [eapply tip_ss; eauto|exact F3].
  - destruct (arrowLLT_sz S false _ _ H3) as (ok & dl & bl & E & F1 & F2 & F3). rewrite E. cbn [bind]. eexists _, _. split; [reflexivity|]. split; [reflexivity|]. split; [reflexivity|]. cbn [g_n g_diag g_type g_off].
    split; [rewrite H1; symmetry; apply same_total; exact F1|]. split; [eapply tip_ss; eauto|exact F3].
Qed.
Lemma stg_solveLt_sz G n v : gshape G -> g_dec G = true -> n = g_n G -> exists w, stg_solveLt G n v = Ok w /\ (nulv n v -> nulv n w).
Proof.
  intros (H1 & H2 & H3) Hd Hn. unfold stg_solveLt. rewrite Hd. cbn [guard]. rewrite guard_t by (apply eqb_t; exact Hn).
  assert (HR : exists X, (match g_type G with
           | TriBlockDiagonal => triBlockDiagLTransposeSolve (g_diag G) (g_off G) (col_of n v) None
           | BlockArrowUp => blockArrowLTransposeSolve (g_diag G) (g_off G) true (col_of n v) 0 None
           | BlockArrowDown => blockArrowLTransposeSolve (g_diag G) (g_off G) false (col_of n v) 0 None
           end) = Ok X /\ same_size S (col_of n v) X /\ (nulM S nul (col_of n v) -> nulM S nul X)).
  { destruct (g_type G); [apply (triLtSolve_sz S nul HN)|apply (arrowLtSolve_sz S nul HN)|apply (arrowLtSolve_sz S nul HN)]; auto; cbn [col_of brow]; congruence. }
  destruct HR as (X & -> & [E1 E2] & K). cbn [bind]. eexists. split; [reflexivity|]. intros HV i Hi. unfold of_col. rewrite vm_at. apply K.
  - intros a b Ha. cbn [col_of brow bm] in *. apply HV. exact Ha.
  - rewrite E1. exact Hi.
Qed.
Lemma stg_solveL_sz G n v : gshape G -> g_dec G = true -> n = g_n G -> exists w, stg_solveL isz G n n v = Ok w.
Proof.
  intros (H1 & H2 & H3) Hd Hn. unfold stg_solveL. rewrite Hd. cbn [guard]. rewrite guard_t by (rewrite eqb_t by exact Hn; reflexivity).
  assert (HR : exists X, (match g_type G with
           | TriBlockDiagonal => triBlockDiagLSolve (g_diag G) (g_off G) (col_of n v) 0
           | BlockArrowUp => blockArrowLSolve isz (g_diag G) (g_off G) true (col_of n v) 0 None
           | BlockArrowDown => blockArrowLSolve isz (g_diag G) (g_off G) false (col_of n v) 0 None
           end) = Ok X /\ same_size S (col_of n v) X).
  { destruct (g_type G); [apply (triLSolve_sz S nul HN)|apply (arrowLSolve_sz S isz nul HN Hisz)|apply (arrowLSolve_sz S isz nul HN Hisz)]; auto; cbn [col_of brow]; try congruence; intros i j Hi Hj; exfalso; lia. }
  destruct HR as (X & -> & _). cbn [bind]. eexists. reflexivity.
Qed.
Lemma toFull_sz (z : snz S) n u : z_size z = n -> exists v, toFullVector z n u = Ok v /\ forall i, (i < n)%nat -> ~ (z_start z <= i < z_end z)%nat -> v i = zero S.
Proof.
  intros H. unfold toFullVector. rewrite guard_t by (apply eqb_t; auto). eexists. split; [reflexivity|]. intros i Hi Hn. rewrite vm_at.
  destruct (Nat.ltb_spec i (z_start z)); [reflexivity|]. destruct (Nat.ltb_spec i (z_end z)); [lia|]. rewrite ltb_t by lia. reflexivity.
Qed.
Lemma stg_solveL_nz_sz G n out z : gshape G -> g_dec G = true -> n = g_n G -> z_size z = n -> exists w, stg_solveL_nz isz G n out z = Ok w.
Proof.
  intros (H1 & H2 & H3) Hd Hn Hz. unfold stg_solveL_nz. rewrite Hd. cbn [guard]. rewrite guard_t by (rewrite !eqb_t by congruence; reflexivity).
  destruct (toFull_sz z n out Hz) as (v & E & HV). rewrite E. cbn [bind].
  assert (HR : exists X, (match g_type G with
           | TriBlockDiagonal => triBlockDiagLSolve (g_diag G) (g_off G) (col_of n v) (z_start z)
           | BlockArrowUp => blockArrowLSolve isz (g_diag G) (g_off G) true (col_of n v) (z_start z) (Some (z_end z))
           | BlockArrowDown => blockArrowLSolve isz (g_diag G) (g_off G) false (col_of n v) (z_start z) (Some (z_end z))
           end) = Ok X /\ same_size S (col_of n v) X).
  { destruct (g_type G); [apply (triLSolve_sz S nul HN)|apply (arrowLSolve_sz S isz nul HN Hisz)|apply (arrowLSolve_sz S isz nul HN Hisz)]; auto; cbn [col_of brow]; try congruence; intros i j Hi Hj; cbn [col_of bm]; apply HV; auto. }
  destruct HR as (X & -> & _). cbn [bind]. eexists. reflexivity.
Qed.

(** ** Orthonormal sequences *)
Definition elem_ok (n : nat) (p : nat * elem S) : Prop :=
  let e := snd p in (fst p + e_n e <= n)%nat /\ (e_size e <= w_size (e_w2 e))%nat /\
  ((e_ty e = OHouseholder /\ e_size e = 1%nat /\ (e_n e <= w_size (e_w1 e))%nat) \/
   (e_ty e = OGivens /\ (e_size e < e_n e)%nat /\ (e_size e <= w_size (e_w1 e))%nat)).
Lemma hh_one_nul n E h st sz v : (st + sz <= n)%nat -> nulv n v -> nulv n (@hh_one S n E h st sz v).
Proof.
  intros Hs HV i Hi. unfold hh_one. rewrite vm_at, ltb_t by exact Hi. apply (nl_sub _ _ HN); [apply HV; exact Hi|]. apply (nl_mull _ _ HN). apply (nl_mulr _ _ HN).
  apply (sumn_nul S nul HN). intros k Hk. apply (nl_mulr _ _ HN). apply HV. lia.
Qed.
Lemma g_step_nul n c s i v : (i + 1 < n)%nat -> nulv n v -> nulv n (@g_step S n c s i v).
Proof.
  intros Hi HV k Hk. unfold g_step. rewrite vm_at. destruct (k =? i)%nat; [|destruct (k =? Datatypes.S i)%nat; [|apply HV; exact Hk]];
    apply (nl_add _ _ HN); apply (nl_mulr _ _ HN); apply HV; lia.
Qed.
Lemma g_down_nul n c s cnt : forall v, (cnt < n)%nat -> nulv n v -> nulv n (@g_down S n c s cnt v).
Proof. induction cnt as [|i IH]; intros v Hc HV; cbn [g_down]; [exact HV|]. apply IH; [lia|]. apply g_step_nul; [lia|exact HV]. Qed.
Lemma elem_apply_sz n p v : elem_ok n p -> exists w, elem_apply (snd p) (e_n (snd p)) v 0 (e_n (snd p)) = Ok w /\ (nulv (e_n (snd p)) v -> nulv (e_n (snd p)) w).
Proof.
  destruct p as (st & e). unfold elem_ok. cbn [fst snd]. intros (H1 & H2 & H3). unfold elem_apply. cbv zeta. rewrite guard_t by (rewrite eqb_t, leb_t by lia; reflexivity).
  destruct H3 as [(E & K1 & K2)|(E & K1 & K2)]; rewrite E.
  - rewrite K1 in *. rewrite ggetM by lia. cbn [bind]. rewrite ggetV by lia. cbn [bind Nat.eqb]. eexists. split; [reflexivity|]. apply hh_one_nul. lia.
  - rewrite ggetV by lia. cbn [bind]. rewrite ggetV by lia. cbn [bind]. rewrite guard_t by (rewrite (ltb_t (Nat.min _ _)) by lia; apply orb_true_r). eexists. split; [reflexivity|]. apply g_down_nul. lia.
Qed.
Lemma elem_apply_t_sz n p v : elem_ok n p -> exists w, elem_apply_t (snd p) (e_n (snd p)) v 0 (e_n (snd p)) = Ok w.
Proof.
  destruct p as (st & e). unfold elem_ok. cbn [fst snd]. intros (H1 & H2 & H3). unfold elem_apply_t. cbv zeta. rewrite guard_t by (rewrite eqb_t, leb_t by lia; reflexivity).
  destruct H3 as [(E & K1 & K2)|(E & K1 & K2)]; rewrite E.
  - rewrite K1 in *. rewrite ggetM by lia. cbn [bind]. rewrite ggetV by lia. cbn [bind Nat.eqb]. eexists. reflexivity.
  - rewrite ggetV by lia. cbn [bind]. rewrite ggetV by lia. cbn [bind]. rewrite guard_t by (rewrite (ltb_t (e_size e)) by lia; apply orb_true_r). eexists. reflexivity.
Qed.
Definition os_ok (n : nat) (Q : oseq S) : Prop := q_n Q = n /\ Forall (elem_ok n) (q_seq Q).
Lemma os_app_sz n l : Forall (elem_ok n) l -> forall v, exists w, os_app n l v = Ok w /\ (nulv n v -> nulv n w).
Proof.
  induction 1 as [|p l Hp _ IH]; intros v; cbn [os_app]; [exists v; auto|]. destruct p as (st & e). pose proof Hp as (H1 & _). cbn [fst snd] in H1.
  unfold on_segment. rewrite guard_t by (apply leb_t; exact H1). destruct (elem_apply_sz n (st, e) (fun k => v (st + k)%nat) Hp) as (w & E & K). cbn [snd] in E, K. rewrite E. cbn [bind].
  match goal with |- context[os_app n l ?x] => set (v1 := x) end. destruct (IH v1) as (w1 & E1 & K1). exists w1. split; [exact E1|]. intros HV. apply K1. intros i Hi. unfold v1. rewrite vm_at.
  destruct ((st <=? i) && (i <? st + e_n e))%nat eqn:Eb; [|apply HV; exact Hi]. apply andb_true_iff in Eb as [B1 B2]. apply Nat.leb_le in B1. apply Nat.ltb_lt in B2. apply K; [|lia]. intros k Hk. apply HV. lia.
Qed.
Lemma os_app_t_sz n l : Forall (elem_ok n) l -> forall v, exists w, os_app_t n l v = Ok w.
Proof.
  induction 1 as [|p l Hp _ IH]; intros v; cbn [os_app_t]; [exists v; auto|]. destruct p as (st & e). pose proof Hp as (H1 & _). cbn [fst snd] in H1.
  unfold on_segment. rewrite guard_t by (apply leb_t; exact H1). destruct (elem_apply_t_sz n (st, e) (fun k => v (st + k)%nat) Hp) as (w & E). cbn [snd] in E. rewrite E. cbn [bind]. apply IH.
Qed.
Lemma os_apply_sz n Q v : os_ok n Q -> exists w, os_apply Q n v = Ok w /\ (nulv n v -> nulv n w).
Proof. intros [E H]. unfold os_apply. rewrite E, Nat.eqb_refl. cbn [guard]. apply os_app_sz. exact H. Qed.
Lemma os_apply_t_sz n Q v : os_ok n Q -> exists w, os_apply_t Q n v = Ok w.
Proof. intros [E H]. unfold os_apply_t. rewrite E, Nat.eqb_refl. cbn [guard]. apply os_app_t_sz. apply Forall_rev. exact H. Qed.

(** ** StructuredQR *)
Record qgen (n : nat) (r : qrs S) : Prop := {
  qg_n : r_n r = n; qg_ld : (r_ld r <= n)%nat \/ n = 0%nat; qg_ld1 : (1 <= r_ld r)%nat \/ n = 0%nat;
  qg_R : (n * n <= w_size (r_R r))%nat; qg_e : (n <= w_size (r_ess r))%nat; qg_Qn : q_n (r_Q r) = n }.
(** between two updates *)
Definition qready (n : nat) (r : qrs S) : Prop := qgen n r /\ (r_q r <= r_ld r)%nat /\ (r_q r <= n)%nat /\ os_ok n (r_Q r).
Lemma qgen_resize junk n r : qgen n (sqr_resize junk r n).
Proof.
  split; cbn [sqr_resize r_n r_Q q_n os_resize r_ld r_R r_ess]; auto; try apply gw_resize.
  - left. destruct n as [|n]; [cbn; lia|]. pose proof (Nat.sqrt_le_lin (Datatypes.S n)). lia.
  - destruct n as [|n]; [auto|]. left. pose proof (Nat.sqrt_le_mono 1 (Datatypes.S n) ltac:(lia)) as H. change (Nat.sqrt 1) with 1%nat in H. set (k := Nat.sqrt (Datatypes.S n)) in *. clearbody k. lia.
Qed.
Lemma qready_reset n r : qgen n r -> qready n (sqr_reset r).
Proof. intros [H1 H2 H3 H4 H5 H6]. split; [split; auto|]. cbn. split; [lia|]. split; [lia|]. split; [exact H6|constructor]. Qed.
Lemma w_list_len_g (w : work S) : length (w_list w) = w_size w.
Proof. unfold w_list. rewrite map_length, seq_length. reflexivity. Qed.
Lemma getR_sz n r q' : qgen n r -> (r_q r <= r_ld r)%nat -> (q' <= r_q r + 1)%nat -> (q' <= n)%nat ->
  exists R r', getR r q' = Ok (R, r') /\ qgen n r' /\ (q' <= r_ld r')%nat /\ r_q r' = r_q r /\ (r_q r <= r_ld r')%nat /\ r_Q r' = r_Q r /\ (q' <= r_q r -> r' = r)%nat.
Proof.
  intros [W1 W3 W4 W5 W6 W7] Hq Hq' Hn. unfold getR, adjustLdR. rewrite W1. rewrite guard_t by (apply leb_t; exact Hn).
  destruct (Nat.ltb_spec (r_ld r) q') as [Hlt|Hge].
  - assert (E : r_q r = r_ld r) by lia. set (m := Nat.min (2 * r_ld r) n).
    assert (Hm : (r_ld r < m)%nat) by (unfold m; lia). assert (Hmn : (m <= n)%nat) by (unfold m; lia).
    destruct (C05_changeLd (r_q r) (r_q r) (r_ld r) m (w_list (r_R r))) as (b & Eb & _); try rewrite w_list_len_g; try lia; try nia.
    rewrite Eb. cbn [bind r_R r_ld]. rewrite ggetM; [|cbn [w_of w_size]; nia|lia].
    cbn [bind]. eexists _, _. split; [reflexivity|]. split; [|split; [|split; [|split; [|split]]]]; try reflexivity; cbn [r_ld r_q]; try lia.
    split; cbn [r_n r_Q r_ld r_R r_ess w_of w_size]; auto; lia.
  - cbn [bind]. rewrite ggetM; auto; [|nia]. cbn [bind]. eexists _, r. split; [reflexivity|]. split; [split; auto|]. repeat split; auto.
Qed.
Lemma RSolve_sz n r q out inp : qready n r -> q = r_q r -> exists x, sqr_RSolve r q out q inp = Ok (x, r).
Proof.
  intros (HW & Hq & Hn & _) ->. unfold sqr_RSolve. rewrite guard_t by (rewrite Nat.eqb_refl; reflexivity).
  destruct (getR_sz n r (r_q r) HW Hq ltac:(lia) Hn) as (R & r' & E & _ & _ & _ & _ & _ & H). rewrite H in E by auto. rewrite E. cbn [bind fst snd]. eexists. reflexivity.
Qed.
Lemma sqr_add_sz tiny junk n r d : qready n r -> (r_q r < n)%nat -> exists f r', sqr_add tiny junk r n d = Ok (f, r') /\ qready n r' /\ r_q r' = Datatypes.S (r_q r).
Proof.
  intros (HW & Hq & Hn & HQ) Hlt. pose proof HW as [W1 W3 W4 W5 W6 W7]. unfold sqr_add. rewrite W1. cbv zeta. rewrite guard_t by (apply Nat.eqb_refl). rewrite guard_t by (apply leb_t; lia).
  rewrite ggetV by lia. cbn [bind]. destruct (mkHouse tiny (n - r_q r) (fun t => d (r_q r + t)%nat)) as ((tau & beta) & ess).
  destruct (getR_sz n r (r_q r + 1) HW Hq ltac:(lia) ltac:(lia)) as (R & r1 & E & HW1 & G1 & G2 & G3 & G4 & _). rewrite E. cbn [bind].
  unfold os_prepare, elem_new. cbn [bind]. rewrite Nat.mul_1_r. unfold os_addH, os_back. cbn [q_seq e_ty otype_eqb guard e_size Nat.eqb bind]. unfold elem_addH. cbv zeta. cbn [e_n e_size e_ty e_w1 e_w2 otype_eqb guard].
  rewrite guard_t by (apply eqb_t; lia). rewrite ggetM by (cbn [w_size]; lia). cbn [bind]. rewrite ggetV by (cbn [w_size]; lia). cbn [bind].
  eexists _, _. split; [reflexivity|]. destruct HW1 as [V1 V3 V4 V5 V6 V7]. destruct HQ as [Q1 Q2]. split; [|cbn [r_q]; lia]. split; [|split; [|split]]; cbn [r_q r_ld r_Q].
  - split; cbn [r_n r_Q r_ld r_R r_ess wset w_size q_n]; auto; congruence.
  - exact G1.
  - lia.
  - rewrite G4. split; [exact Q1|]. cbn [q_seq]. constructor; [|exact Q2]. unfold elem_ok. cbn [fst snd e_n e_size e_w1 e_w2 e_ty wset w_size]. split; [lia|]. split; [lia|]. left. repeat split; lia.
Qed.
(** the element being extended in [remove] *)
Definition giv_head (n l q i : nat) (Q : oseq S) : Prop :=
  exists st e rest, q_seq Q = (st, e) :: rest /\ Forall (elem_ok n) rest /\ q_n Q = n /\ e_ty e = OGivens /\ e_n e = (q - l + 1)%nat /\ e_size e = (i - l)%nat /\
    (e_size e = 0%nat \/ (st = l)) /\ (st = 0%nat \/ st = l) /\ w_size (e_w1 e) = (q - l)%nat /\ w_size (e_w2 e) = (q - l)%nat.
Lemma rem_loop_sz n ld l q : (q < n)%nat -> forall cnt i R Q, (l <= i)%nat -> (i + cnt = q)%nat -> giv_head n l q i Q ->
  exists R' Q', sqr_rem_loop ld q cnt i R Q = Ok (R', Q') /\ giv_head n l q q Q'.
Proof.
  intros Hqn. induction cnt as [|c IH]; intros i R Q Hl Hi HG; cbn [sqr_rem_loop].
  - replace i with q in HG by lia. exists R, Q. auto.
  - destruct (makeGivens (R i (Datatypes.S i)) (R (Datatypes.S i) (Datatypes.S i))) as (g & rr).
    destruct HG as (st & e & rest & E1 & E2 & E3 & E4 & E5 & E6 & E7 & E8 & E9 & E10).
    unfold os_addG, os_back. rewrite E1, E4. cbn [otype_eqb guard].
    assert (HB : (if (e_size e =? 0)%nat then Ok (i, e, rest) else guard (st + e_size e =? i)%nat (Ok (st, e, rest))) = Ok (l, e, rest)).
    { destruct (Nat.eqb_spec (e_size e) 0) as [Z|Z]; [replace i with l by lia; reflexivity|]. destruct E7 as [E7|E7]; [lia|]. rewrite guard_t by (apply eqb_t; lia). rewrite E7. reflexivity. }
    rewrite HB. cbn [bind]. unfold elem_addG. cbv zeta. rewrite E4. cbn [otype_eqb guard]. rewrite ggetV by lia. cbn [bind]. rewrite ggetV by lia. cbn [bind].
    apply IH; [lia|lia|]. eexists _, _, _. split; [reflexivity|]. cbn [q_n e_ty e_n e_size e_w1 e_w2 wset w_size]. repeat (split; [auto; lia|]). auto.
Qed.
Lemma sqr_remove_sz junk n r l : qready n r -> (l < r_q r)%nat -> exists r', sqr_remove junk r l = Ok r' /\ qready n r' /\ Datatypes.S (r_q r') = r_q r.
Proof.
  intros (HW & Hq & Hn & HQ) Hl. pose proof HW as [W1 W3 W4 W5 W6 W7]. unfold sqr_remove. rewrite guard_t by (apply leb_t; lia). cbv zeta.
  set (r0 := QRs (r_q r - 1) (r_n r) (r_ld r) (r_R r) (r_ess r) (r_Q r)).
  assert (HW0 : qgen n r0) by (split; auto).
  destruct (getR_sz n r0 (r_q r - 1 + 1) HW0) as (R & r1 & E & HW1 & G1 & G2 & G3 & G4 & _); [cbn; lia|cbn; lia|lia|]. rewrite E. cbn [bind]. rewrite guard_t by (apply leb_t; lia).
  unfold os_prepare, elem_new. cbn [bind]. rewrite G4. cbn [r_Q r0].
  destruct HQ as [Q1 Q2]. destruct (rem_loop_sz n (r_ld r1) l (r_q r - 1) ltac:(lia) (r_q r - 1 - l) l R (OS (q_n (r_Q r)) ((0%nat, El OGivens (r_q r - 1 - l + 1) 0 (W (r_q r - 1 - l) junk) (W (r_q r - 1 - l) junk)) :: q_seq (r_Q r)))) as (R' & Q' & E' & HG); auto; [lia| |].
  { eexists _, _, _. split; [reflexivity|]. cbn [q_n e_ty e_n e_size e_w1 e_w2 w_size]. repeat (split; [auto; lia|]). auto. }
  rewrite E'. cbn [bind fst snd]. eexists. split; [reflexivity|]. destruct HW1 as [V1 V3 V4 V5 V6 V7]. destruct HG as (st & e & rest & E1 & E2 & E3 & E4 & E5 & E6 & E7 & E8 & E9 & E10).
  split; [|cbn [r_q]; lia]. split; [|split; [|split]]; cbn [r_q r_ld r_Q].
  - split; cbn [r_n r_Q r_ld r_R r_ess wset w_size q_n]; auto; congruence.
  - cbn in G3. lia.
  - lia.
  - split; [exact E3|]. rewrite E1. constructor; [|exact E2]. unfold elem_ok. cbn [fst snd]. split; [lia|]. split; [lia|]. right. repeat split; auto; lia.
Qed.

(** ** StructuredC and StructuredJ *)
Lemma cumC_eq (Cs : list blk) : c_cumCstr (stc_new Cs) = cums bcol 0 Cs ++ [cols_of Cs]. Proof. rewrite stc_new_spec. reflexivity. Qed.
Lemma cumV_eq (Cs : list blk) : c_cumVar (stc_new Cs) = cums brow 0 Cs ++ [rows_of Cs]. Proof. rewrite stc_new_spec. reflexivity. Qed.
Lemma nbC_eq (Cs : list blk) : c_nbCstr (stc_new Cs) = cols_of Cs. Proof. rewrite stc_new_spec. reflexivity. Qed.
Lemma nbV_eq (Cs : list blk) : c_nbVar (stc_new Cs) = rows_of Cs. Proof. rewrite stc_new_spec. reflexivity. Qed.
Lemma stc_col_sz (Cs : list blk) i : (i < cols_of Cs)%nat -> exists z, stc_col (stc_new Cs) i = Ok z /\ z_size z = rows_of Cs.
Proof. intros Hi. destruct (col_locate Cs i Hi) as (k & D & j & HD & Hj & ->). rewrite (stc_col_eq Cs k D j HD Hj). eexists. split; reflexivity. Qed.
Lemma snz_dot_sz (z : snz S) n u : z_size z = n -> exists t, snz_dot z n u = Ok t.
Proof. intros H. unfold snz_dot. rewrite guard_t by (apply eqb_t; auto). eexists. reflexivity. Qed.
Lemma tmult_sz (Cs : list blk) u : forall ds k out, (forall j D, nth_error ds j = Some D -> nth_error Cs (k + j) = Some D) ->
  exists w, tmult_loop ds k (stc_new Cs) (cols_of Cs) out (rows_of Cs) u = Ok w.
Proof.
  induction ds as [|D ds IH]; intros k out H; cbn [tmult_loop]; [eexists; reflexivity|].
  assert (HD : nth_error Cs k = Some D) by (rewrite <- (Nat.add_0_r k); apply H; reflexivity).
  pose proof (off_end bcol Cs k D HD) as H1. pose proof (off_end brow Cs k D HD) as H2. rewrite cumC_eq. rewrite (at_Ok _ _ _ (cums_nth bcol Cs 0 k D _ HD)). cbn [bind].
  rewrite cumV_eq. rewrite (at_Ok _ _ _ (cums_nth brow Cs 0 k D _ HD)). cbn [bind Nat.add]. unfold cols_of, rows_of. rewrite guard_t by (rewrite !leb_t by lia; reflexivity).
  apply IH. intros j D' Hj. rewrite <- Nat.add_assoc. apply (H (Datatypes.S j)). exact Hj.
Qed.
Lemma transposeMult_sz (Cs : list blk) out u : exists w, stc_transposeMult (stc_new Cs) (cols_of Cs) out (rows_of Cs) u = Ok w.
Proof.
  unfold stc_transposeMult. rewrite nbV_eq, nbC_eq. rewrite guard_t by (rewrite !Nat.eqb_refl; reflexivity).
  replace (c_diag (stc_new Cs)) with Cs by (rewrite stc_new_spec; reflexivity). apply tmult_sz. auto.
Qed.
Lemma J2_sz n G Q q out inp : gshape G -> g_dec G = true -> n = g_n G -> os_ok n Q -> (q <= n)%nat ->
  exists w, premultByJ2 n G Q q n out (n - q) inp = Ok w /\ (q = n -> nulv n w).
Proof.
  intros HG Hd Hn HQ Hq. unfold premultByJ2. rewrite guard_t by (apply Nat.eqb_refl). rewrite (proj1 HQ). rewrite guard_t by (rewrite leb_t, Nat.eqb_refl by lia; reflexivity).
  rewrite guard_t by (rewrite !leb_t by lia; reflexivity). cbv zeta. match goal with |- context[os_apply Q n ?x] => set (w := x) end.
  destruct (os_apply_sz n Q w HQ) as (w1 & E1 & K1). rewrite E1. cbn [bind]. destruct (stg_solveLt_sz G n w1 HG Hd Hn) as (w2 & E2 & K2). exists w2. split; [exact E2|]. intros Ef. apply K2, K1.
  intros i Hi. unfold w. rewrite vm_at, ltb_t by lia. apply (nl_zero _ _ HN).
Qed.
Lemma Jt_sz n G Q (Cs : list blk) out sc : gshape G -> g_dec G = true -> n = g_n G -> os_ok n Q -> rows_of Cs = n -> (sc_idx sc < cols_of Cs + n)%nat ->
  kind_ok (cols_of Cs) (sc_idx sc) (sc_st sc) = true -> exists w, premultByJt isz n G Q n out (stc_new Cs) sc = Ok w.
Proof.
  intros HG Hd Hn HQ Hr Hi HK. unfold premultByJt.
  match goal with |- exists w, bind ?x _ = Ok w => set (X := x) end.
  assert (HV : exists v, X = Ok v).
  { unfold X. unfold kind_ok in HK. destruct (status_int (sc_st sc) <=? status_int EQUALITY)%nat eqn:Ek.
    - assert (Hc : (sc_idx sc < cols_of Cs)%nat).
      { destruct (Nat.ltb_spec (sc_idx sc) (cols_of Cs)) as [|H]; auto. exfalso. destruct (sc_st sc); cbn in HK, Ek; discriminate. }
      destruct (stc_col_sz Cs _ Hc) as (z & E & Ez). rewrite E. cbn [bind]. destruct (stg_solveL_nz_sz G n out z HG Hd Hn) as (w & Ew); [congruence|]. rewrite Ew. cbn [bind]. eexists. reflexivity.
    - assert (Hc : (cols_of Cs <= sc_idx sc)%nat).
      { destruct (Nat.ltb_spec (sc_idx sc) (cols_of Cs)) as [H|]; auto. exfalso. destruct (sc_st sc); cbn in HK, Ek; discriminate. }
      cbv zeta. rewrite nbC_eq. rewrite guard_t by (apply leb_t; exact Hc). unfold snz_new. rewrite guard_t by (apply leb_t; lia). cbn [bind].
      apply stg_solveL_nz_sz; auto. }
  destruct HV as (v & ->). cbn [bind]. apply os_apply_t_sz. exact HQ.
Qed.
End GenQR.

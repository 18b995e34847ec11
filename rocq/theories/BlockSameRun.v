(** Non-interference for the block solver: two calls on the same problem, on objects with
    different pasts and different contents of fresh memory. *)
From Coq Require Import List Arith ZArith Lia Bool.
From Verif Require Import Base ActiveSet ActiveSetProofs Num Solver LinAlg GIBase GIInv GISafe GICall GIHist GISame Util PropUtil Warm WarmAS Block BlockSpec BlockDense
  Ortho StructC PropStructC StructG BlockGI BlockGen BlockGenQR BlockGenGI BlockSame BlockSameGI.
Import ListNotations.

Section Same.
Variable S : ops.
Variable isz : carrier S -> bool.
Variable tiny : carrier S.
Notation vec := (vec S).
Notation blk := (blk S).
Notation vagr := (vagr S).
Notation sol := (sol S).
Notation bsol := (bsol S).

Record csim (e : nat) (s s' : sol) : Prop := {
  cm_n : s_n s = s_n s'; cm_A : s_A s = s_A s'; cm_good : good (s_A s); cm_it : s_it s = s_it s'; cm_f : s_f s = s_f s'; cm_exp : s_exp s = s_exp s';
  cm_x : vagr (s_n s) (w_buf (s_x s)) (w_buf (s_x s')); cm_u : vagr (nact (s_A s) + e) (w_buf (s_u s)) (w_buf (s_u s')) }.
Record bsim (e : nat) (b b' : bsol) : Prop := {
  bm_s : csim e (b_s b) (b_s b'); bm_J : b_Jn b = b_Jn b'; bm_G : gagr S (b_G b) (b_G b'); bm_Q : qrel S (s_n (b_s b)) (b_QR b) (b_QR b'); bm_t : b_tiny b = b_tiny b' }.
Record bfresh (b b' : bsol) : Prop := {
  bf_z : vagr (s_n (b_s b)) (w_buf (s_z (b_s b))) (w_buf (s_z (b_s b')));
  bf_d : vagr (s_n (b_s b)) (w_buf (s_d (b_s b))) (w_buf (s_d (b_s b')));
  bf_r : vagr (nact (s_A (b_s b))) (w_buf (s_r (b_s b))) (w_buf (s_r (b_s b'))) }.

Variable bp : bproblem S.
Variable Cs : list blk.
Hypothesis HC : bp_C bp = stc_new Cs.

Lemma bstep_sim e b b' sc : bsim e b b' ->
  pr (fun s1 s1' => bsim e s1 s1' /\ bfresh s1 s1' /\ s_A (b_s s1) = s_A (b_s b) /\ s_n (b_s s1) = s_n (b_s b)) (bcomputeStep isz bp b sc) (bcomputeStep isz bp b' sc).
Proof.
  intros [[H1 H2 H3 H4 H5 H6 H7 H8] HJ HG HQ Ht]. unfold bcomputeStep. rewrite <- H1, <- H2, <- HJ.
  set (n := s_n (b_s b)) in *. set (q := nact (s_A (b_s b))) in *.
  eapply pr_bind; [apply pr_getV|]. intros d0 d0' (-> & ->). eapply pr_bind; [apply pr_getV|]. intros z0 z0' (-> & ->). eapply pr_bind; [apply pr_getV|]. intros r0 r0' (-> & ->).
  pose proof (qe_Q _ _ _ _ HQ) as HQQ. rewrite <- (qe_q _ _ _ _ HQ).
  eapply pr_bind; [apply Jt_rel; eauto|]. intros d1 d1' Hd1. apply pr_guard. intros Hq _. apply Nat.leb_le in Hq. rewrite !vm_id.
  assert (Hd : vagr n (vhead n d1 (w_buf (s_d (b_s b)))) (vhead n d1' (w_buf (s_d (b_s b'))))).
  { intros i Hi. unfold vhead. apply Nat.ltb_lt in Hi as Hi'. rewrite Hi'. auto. }
  eapply pr_bind; [apply J2_rel; eauto; intros i Hi; apply Hd; lia|]. intros z1 z1' Hz.
  eapply pr_bind; [eapply (RSolve_rel S n _ _ q); [exact HQ|]; intros i Hi; apply Hd; lia|]. intros [x r1] [x' r1'] [Hx HQ1]. cbn [fst snd] in *. apply pr_ok.
  split; [|split; [|split; reflexivity]].
  - split; cbn [bset_QR bset_s b_s b_Jn b_G b_QR b_tiny]; auto. split; cbn; auto.
  - split; cbn [bset_QR bset_s b_s s_z s_d s_r set_r set_z set_d s_A s_n w_buf wset]; auto.
    + intros i Hi. rewrite !vm_id. unfold vhead. apply Nat.ltb_lt in Hi as Hi'. fold n in Hi, Hi'. rewrite Hi'. apply Hz. exact Hi.
    + intros i Hi. rewrite !vm_id. unfold vhead. apply Nat.ltb_lt in Hi as Hi'. fold q in Hi, Hi'. rewrite Hi'. apply Hx. exact Hi.
Qed.

Lemma blen2_agr n (x x' z z' : vec) sc : vagr n x x' -> vagr n z z' -> pr eq (blen2 bp n x z sc) (blen2 bp n x' z' sc).
Proof.
  intros Hx Hz. unfold blen2.
  assert (HG : forall (b : option (carrier S)) (cx cz : carrier S), pr eq (match b with Some b => Ok (div S (sub S b cx) cz) | None => UB end) (match b with Some b => Ok (div S (sub S b cx) cz) | None => UB end)) by (intros; apply pr_eq; reflexivity).
  assert (Hcs : forall b : option (carrier S), pr eq
     (do c <- stc_col (bp_C bp) (sc_idx sc); do cx <- snz_dot c n x; do cz <- snz_dot c n z; match b with Some b => Ok (div S (sub S b cx) cz) | None => UB end)
     (do c <- stc_col (bp_C bp) (sc_idx sc); do cx <- snz_dot c n x'; do cz <- snz_dot c n z'; match b with Some b => Ok (div S (sub S b cx) cz) | None => UB end)).
  { intros b. destruct (stc_col (bp_C bp) (sc_idx sc)) as [c|] eqn:Ec; [|apply pr_ub_l]. cbn [bind]. pose proof (stc_col_end S _ _ _ Ec) as He.
    eapply pr_bind; [apply snz_dot_agr; eauto|]. intros cx ? <-. eapply pr_bind; [apply snz_dot_agr; eauto|]. intros cz ? <-. apply HG. }
  assert (Hbd : forall b : option (carrier S), pr eq
     (guard ((c_nbCstr (bp_C bp) <=? sc_idx sc) && (sc_idx sc - c_nbCstr (bp_C bp) <? n))%nat (match b with Some b => Ok (div S (sub S b (x (sc_idx sc - c_nbCstr (bp_C bp))%nat)) (z (sc_idx sc - c_nbCstr (bp_C bp))%nat)) | None => UB end))
     (guard ((c_nbCstr (bp_C bp) <=? sc_idx sc) && (sc_idx sc - c_nbCstr (bp_C bp) <? n))%nat (match b with Some b => Ok (div S (sub S b (x' (sc_idx sc - c_nbCstr (bp_C bp))%nat)) (z' (sc_idx sc - c_nbCstr (bp_C bp))%nat)) | None => UB end))).
  { intros b. apply pr_guard. intros Hg _. apply andb_true_iff in Hg as [_ Hg]. apply Nat.ltb_lt in Hg. rewrite Hx, Hz by auto. apply HG. }
  destruct (sc_st sc); first [apply Hcs|apply Hbd|apply pr_ub_l].
Qed.
Lemma bdot_agr n sc (z z' : vec) : vagr n z z' -> pr eq (bdot bp n sc z) (bdot bp n sc z').
Proof.
  intros Hz. unfold bdot.
  assert (Hcs : pr eq (do c <- stc_col (bp_C bp) (sc_idx sc); snz_dot c n z) (do c <- stc_col (bp_C bp) (sc_idx sc); snz_dot c n z')).
  { destruct (stc_col (bp_C bp) (sc_idx sc)) as [c|] eqn:Ec; [|apply pr_ub_l]. cbn [bind]. apply snz_dot_agr; auto. apply (stc_col_end S _ _ _ Ec). }
  assert (Hbd : pr eq (guard ((c_nbCstr (bp_C bp) <=? sc_idx sc) && (sc_idx sc - c_nbCstr (bp_C bp) <? n))%nat (Ok (z (sc_idx sc - c_nbCstr (bp_C bp))%nat)))
     (guard ((c_nbCstr (bp_C bp) <=? sc_idx sc) && (sc_idx sc - c_nbCstr (bp_C bp) <? n))%nat (Ok (z' (sc_idx sc - c_nbCstr (bp_C bp))%nat)))).
  { apply pr_guard. intros Hg _. apply andb_true_iff in Hg as [_ Hg]. apply Nat.ltb_lt in Hg. apply pr_ok. auto. }
  destruct (sc_st sc); try apply pr_ub_l; try exact Hcs; try exact Hbd;
    (eapply pr_bind; [first [exact Hcs|exact Hbd]|]; intros v ? <-; apply pr_ok; reflexivity).
Qed.
Lemma blength_sim o e b b' sc : bsim e b b' -> bfresh b b' -> pr eq (bcomputeStepLength bp o b sc) (bcomputeStepLength bp o b' sc).
Proof.
  intros [[H1 H2 H3 H4 H5 H6 H7 H8] HJ HG HQ Ht] [Fz Fd Fr]. unfold bcomputeStepLength. rewrite <- H1, <- H2.
  rewrite (len1_agr S _ _ (w_buf (s_u (b_s b'))) _ (w_buf (s_r (b_s b')))); [|intros i Hi; apply H8; lia|exact Fr].
  eapply pr_bind; [apply pr_eq; reflexivity|]. intros tl ? <-.
  unfold norm. rewrite (gdot_ext S (s_n (b_s b)) (w_buf (s_z (b_s b))) (w_buf (s_z (b_s b))) (w_buf (s_z (b_s b'))) (w_buf (s_z (b_s b')))) by auto.
  eapply (pr_bind eq); [|intros t2 ? <-; apply pr_ok; reflexivity].
  destruct (ltb _ _ _); [apply blen2_agr; auto|apply pr_ok; reflexivity].
Qed.

Variables junk junk' : vec.
Lemma badd_sim b b' sc : bsim 1 b b' -> bfresh b b' -> pr (bsim 0) (baddConstraint tiny junk b sc) (baddConstraint tiny junk' b' sc).
Proof.
  intros [[H1 H2 H3 H4 H5 H6 H7 H8] HJ HG HQ Ht] [Fz Fd Fr]. unfold baddConstraint. rewrite <- H2, <- H1.
  eapply (pr_bind (fun A A' => A = A' /\ good A /\ nact A = Datatypes.S (nact (s_A (b_s b))))).
  { apply pr_same. intros A E. split; auto. pose proof (good_activate _ _ _ _ H3 E) as HA. split; auto.
    apply activate_inv in E as (_ & _ & _ & _ & EA & _). rewrite !nact_length, EA, app_length by auto. simpl. lia. }
  intros A A' (<- & HA & EN).
  eapply pr_bind; [apply pr_getV|]. intros d d' (-> & ->).
  eapply pr_bind; [apply add_rel; [exact HQ|exact Fd]|]. intros [f r] [f' r'] (E1 & E2 & _). cbn [fst snd] in *. apply pr_ok. subst f'.
  split; cbn [b_s b_Jn b_G b_QR b_tiny set_A s_n]; auto; [|congruence]. split; cbn; auto. intros i Hi. apply H8. lia.
Qed.
Lemma bremove_sim b b' l : bsim 1 b b' -> pr (bsim 1) (bremoveConstraint junk b l) (bremoveConstraint junk' b' l).
Proof.
  intros [[H1 H2 H3 H4 H5 H6 H7 H8] HJ HG HQ Ht]. unfold bremoveConstraint. rewrite <- H2. apply pr_guard. intros _ _. cbn [s_A set_u]. rewrite <- H2.
  eapply (pr_bind (fun A A' => A = A' /\ good A /\ nact (s_A (b_s b)) = Datatypes.S (nact A) /\ (l <= nact A)%nat)).
  { apply pr_same. intros A E. split; auto. pose proof (good_deactivate _ _ _ H3 E) as HA. split; auto.
    assert (Hl : (l < nact (s_A (b_s b)))%nat) by (rewrite nact_length by auto; apply (deactivate_legal _ l H3); eauto).
    destruct (deactivate_removed (s_A (b_s b)) l H3 Hl) as (A2 & E2 & HA2). assert (A2 = A) by congruence. subst A2.
    pose proof (ar_nact _ _ _ HA2). split; lia. }
  intros A A' (<- & HA & EN & Hl).
  eapply pr_bind; [apply remove_rel; exact HQ|]. intros r r' (HQ1 & _). apply pr_ok.
  split; cbn [bset_QR bset_s b_s b_Jn b_G b_QR b_tiny set_A set_u s_n]; auto. split; cbn; auto.
  intros i Hi. rewrite !vm_at.
  match goal with |- context [if ?c then _ else _] => destruct c eqn:Ec end; apply H8; try lia.
Qed.

(** ** Selection *)
Lemma bsel_cstr_agr A (cx cx' : vec) k acc : vagr k cx cx' -> bsel_cstr bp A cx k acc = bsel_cstr bp A cx' k acc.
Proof. intros H. induction k as [|k IH]; auto. cbn [bsel_cstr]. rewrite IH by (intros i Hi; apply H; lia). rewrite (H k) by lia. reflexivity. Qed.
Definition bfits (b : bsol) : Prop := a_nc (s_A (b_s b)) = c_nbCstr (bp_C bp) /\ (a_nb (s_A (b_s b)) <= s_n (b_s b))%nat.
Lemma bselect_sim e b b' : bfits b -> bsim e b b' -> pr (fun r r' => fst r = fst r' /\ bsim e (snd r) (snd r') /\ b_s (snd r) = b_s b /\ b_s (snd r') = b_s b') (bselect bp b) (bselect bp b').
Proof.
  intros (Hc & Hb) [[H1 H2 H3 H4 H5 H6 H7 H8] HJ HG HQ Ht]. unfold bselect. rewrite <- H1, <- H2.
  eapply pr_bind; [apply pr_getV|]. intros x x' (-> & ->). eapply pr_bind; [apply pr_getV|]. intros c0 c0' (-> & ->).
  rewrite HC. rewrite HC in Hc. eapply pr_bind; [apply transposeMult_rel; exact H7|]. intros cx cx' Hcx.
  rewrite (bsel_cstr_agr (s_A (b_s b)) cx cx') by (rewrite Hc; exact Hcx).
  eapply pr_bind; [apply pr_eq; reflexivity|]. intros acc ? <-.
  rewrite (sel_bnd_agr S (bounds_only bp) (s_A (b_s b)) (w_buf (s_x (b_s b))) (w_buf (s_x (b_s b')))) by (intros i Hi; apply H7; lia).
  eapply pr_bind; [apply pr_eq; reflexivity|]. intros acc2 ? <-. apply pr_ok. cbn [fst snd bset_cx b_s]. split; [reflexivity|]. split; [|split; reflexivity].
  split; cbn [b_s b_Jn b_G b_QR b_tiny bset_cx]; auto. split; auto.
Qed.

(** ** Iterations *)
Definition blsim (l l' : blst S) : Prop :=
  bl_skip l = bl_skip l' /\ (bl_skip l = true -> bl_sc l = bl_sc l') /\ bsim (if bl_skip l then 1 else 0) (bl_s l) (bl_s l').
Definition bosim (a b : biter_out S) : Prop :=
  match a, b with
  | BContinue l, BContinue l' => blsim l l'
  | BStop st s, BStop st' s' => st = st' /\ bsim 0 s s'
  | _, _ => False
  end.
Lemma csim_weak e s s' : csim e s s' -> csim 0 s s'.
Proof. intros []. split; auto. intros i Hi. apply cm_u0. lia. Qed.
Lemma bsim_weak e b b' : bsim e b b' -> bsim 0 b b'.
Proof. intros []. split; auto. eapply csim_weak; eauto. Qed.
(** a change of [b_s] only *)
Lemma bsim_set e e' b b' s s' : bsim e b b' -> csim e' s s' -> s_n s = s_n (b_s b) -> bsim e' (bset_s b s) (bset_s b' s').
Proof. intros [] Hc En. split; cbn [bset_s b_s b_Jn b_G b_QR b_tiny]; auto. rewrite En. auto. Qed.

Lemma bstep1_sim l l' : bfits (bl_s l) -> blsim l l' ->
  pr (fun a b => match fst a, fst b with None, None => bsim 0 (snd a) (snd b) | Some m, Some m' => bl_sc m = bl_sc m' /\ bsim 1 (bl_s m) (bl_s m') | _, _ => False end)
     (bstep1 bp l) (bstep1 bp l').
Proof.
  intros Hf (H1 & H2 & H3). unfold bstep1. rewrite <- H1. destruct (bl_skip l) eqn:Esk.
  - apply pr_ok. cbn [fst]. auto.
  - eapply pr_bind; [eapply bselect_sim; eauto|]. intros [sc b] [sc' b'] (E1 & E2 & E3 & E4). cbn [fst snd] in *. subst sc'.
    pose proof (bm_s _ _ _ E2) as [K1 K2 K3 K4 K5 K6 K7 K8].
    destruct (sc_st sc); [apply pr_ok; exact E2|..].
    all: eapply pr_bind; [apply pr_getV|]; intros r0 r0' (-> & ->); eapply pr_bind; [apply pr_getV|]; intros u0 u0' (-> & ->); apply pr_ok; cbn [fst snd bl_sc bl_s]; split; auto;
      apply (bsim_set 0 1); auto; split; cbn; auto; rewrite <- K2; intros i Hi; unfold upd; destruct (Nat.eqb_spec i (nact (s_A (b_s b)))); auto; apply K8; lia.
Qed.
Lemma bstep2_sim o m m' : bl_sc m = bl_sc m' -> bsim 1 (bl_s m) (bl_s m') -> pr bosim (bstep2 isz tiny junk bp o m) (bstep2 isz tiny junk' bp o m').
Proof.
  intros Esc Hs. unfold bstep2. rewrite <- Esc. set (sc := bl_sc m). rewrite <- (cm_A _ _ _ (bm_s _ _ _ Hs)), <- (cm_n _ _ _ (bm_s _ _ _ Hs)).
  eapply pr_bind; [eapply (bstep_sim 1); eauto|]. intros s1 s1' (S1 & F1 & EA & En).
  eapply pr_bind; [eapply blength_sim; eauto|]. intros ((t1, t2), i) ? <-.
  set (t := if ltb S t2 t1 then t2 else t1). set (n := s_n (b_s (bl_s m))) in *. set (q := nact (s_A (b_s (bl_s m)))) in *.
  destruct (leb S (o_bigBnd o) t). { apply pr_ok. split; auto. eapply bsim_weak; eauto. }
  pose proof (bm_s _ _ _ S1) as [H1 H2 H3 H4 H5 H6 H7 H8]. pose proof F1 as [Fz Fd Fr].
  rewrite EA in H8, Fr. fold q in H8, Fr. rewrite En in Fz, H7.
  assert (Hu : vagr (q + 1) (dual_step q t (w_buf (s_u (b_s s1))) (w_buf (s_r (b_s s1)))) (dual_step q t (w_buf (s_u (b_s s1'))) (w_buf (s_r (b_s s1'))))) by (apply dual_step_agr; auto).
  assert (Hrem : forall s2 s2', bsim 1 s2 s2' -> pr bosim
     (do b <- bremoveConstraint junk s2 i; do r0 <- getV (s_r (b_s b)) (q - 1); do u0 <- getV (s_u (b_s b)) q; Ok (BContinue (BL b true sc)))
     (do b <- bremoveConstraint junk' s2' i; do r0 <- getV (s_r (b_s b)) (q - 1); do u0 <- getV (s_u (b_s b)) q; Ok (BContinue (BL b true sc)))).
  { intros s2 s2' S2. eapply pr_bind; [apply bremove_sim; eauto|]. intros s3 s3' S3.
    eapply pr_bind; [apply pr_getV|]. intros _ _ _. eapply pr_bind; [apply pr_getV|]. intros _ _ _. apply pr_ok. split; auto. }
  destruct (leb S (o_bigBnd o) t2).
  { apply Hrem. apply (bsim_set 1 1); auto. split; cbn; auto; [rewrite En|rewrite EA]; auto. }
  eapply pr_bind; [apply bdot_agr; exact Fz|]. intros nz ? <-.
  cbn [s_u s_r s_f set_x set_f set_u].
  set (s2 := set_u (set_f (set_x (b_s s1) _) _) _). set (s2' := set_u (set_f (set_x (b_s s1') _) _) _).
  assert (S2 : csim 1 s2 s2').
  { split; cbn; auto.
    - rewrite H5, (H8 q) by lia. auto.
    - rewrite En. rewrite !vm_id. intros j Hj. unfold vhead. apply Nat.ltb_lt in Hj as Hj'. rewrite Hj', H7, Fz by auto. auto.
    - rewrite EA. auto. }
  assert (S3 : bsim 1 (bset_s s1 s2) (bset_s s1' s2')) by (apply (bsim_set 1 1); auto).
  destruct (eqb S t t2); [|apply Hrem; auto].
  eapply pr_bind; [eapply badd_sim; [exact S3|]|].
  - split; cbn; rewrite ?En, ?EA; auto. rewrite En in Fd. exact Fd.
  - intros s3 s3' S4. apply pr_ok. split; auto.
Qed.
Lemma biter_sim o l l' : bfits (bl_s l) -> blsim l l' -> pr bosim (biter isz tiny junk bp o l) (biter isz tiny junk' bp o l').
Proof.
  intros Hf Hl. unfold biter. eapply pr_bind; [eapply bstep1_sim; eauto|]. intros [[m|] b] [[m'|] b'] H; cbn [fst snd] in *; try contradiction.
  - apply bstep2_sim; apply H.
  - apply pr_ok. split; auto.
Qed.
(** sizes seen through the invariant of BlockGenGI.v *)
Lemma bloop_sim o m n (Hm : (m <= n)%nat) fuel : forall l l', gbsh S n (c_nbCstr (bp_C bp)) m (bl_s l) -> blsim l l' ->
  pr (fun a b => fst a = fst b /\ bsim 0 (snd a) (snd b)) (bloop isz tiny junk bp o fuel l) (bloop isz tiny junk' bp o fuel l').
Proof.
  induction fuel as [|f IH]; intros l l' HL Hs; cbn [bloop].
  - apply pr_ok. split; auto. cbn. destruct Hs as (_ & _ & Hs). eapply bsim_weak; eauto.
  - intros a b Ea Eb.
    assert (Hf : bfits (bl_s l)) by (split; [apply HL|rewrite (bh_m _ _ _ _ _ HL), (bh_n _ _ _ _ _ HL); exact Hm]).
    apply bind_ok in Ea as (r & Er & Ea). apply bind_ok in Eb as (r' & Er' & Eb).
    pose proof (biter_sim o l l' Hf Hs r r' Er Er') as HO. pose proof (iter_keep S isz tiny junk bp o _ _ _ l r HL Er) as HK.
    destruct r as [k|st s], r' as [k'|st' s']; try contradiction.
    + destruct HO as (O1 & O2 & O3). refine (IH (bbump k) (bbump k') _ _ a b Ea Eb).
      * cbn [bbump bl_s]. destruct HK. split; auto.
      * split; [exact O1|]. split; [exact O2|]. cbn [bbump bl_skip bl_s]. apply (bsim_set (if bl_skip k then 1 else 0)); auto. destruct O3 as [[] ? ? ? ?]. split; cbn; auto.
    + injection Ea as <-. injection Eb as <-. exact HO.
Qed.
End Same.

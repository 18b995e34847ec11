(** IEEE-754 binary64 (the C++ [double]) with rounding to nearest, ties to even,
    as an instance of the scalar operations of Num.v.  The arithmetic is the
    formalisation of the standard by Flocq (binary_float, defined over Z, no
    axiom of its own); NaN payloads and the sign of a NaN are not represented.
    The sums are added up in an order [w], which is arbitrary.
    [Dw w] is shown to satisfy the error model of FloatStd.v and the two weak
    conditions ([safe_ops], [null_ops]) under which the definedness theorems hold. *)
From Coq Require Import List Arith ZArith Lia Bool Reals Lra.
From Flocq Require Import Core Relative Plus_error Div_sqrt_error IEEE754.BinarySingleNaN.
From Verif Require Import Base Num LinAlg FloatStd.
Import ListNotations.
Local Open Scope R_scope.

Definition dprec : Z := 53.
Definition demax : Z := 1024.
#[global] Instance dprec_pos : Prec_gt_0 dprec. Proof. reflexivity. Qed.
#[global] Instance dprec_lt : Prec_lt_emax dprec demax. Proof. reflexivity. Qed.
Definition double : Type := binary_float dprec demax.

Definition d0 : double := B754_zero false.
Definition d1 : double := Bone.
(** the literal 1e-14: 0x1.6849b86a12b9bp-47 *)
Definition d1em14 : double := @B754_finite dprec demax false 6338253001141147 (-99) eq_refl.
Definition Dw (w : sumorder) : ops :=
  Ops double d0 d1 (Bplus mode_NE) (Bminus mode_NE) (Bmult mode_NE) (Bdiv mode_NE) Bopp (Bsqrt mode_NE) Bltb Bleb Beqb d1em14 w.
(** ... from left to right *)
Definition Dops : ops := Dw left_order.

(** finite: neither infinite nor NaN *)
Definition dfin (x : double) : Prop := is_finite x = true.
(** the real number a double stands for (0 for infinities and NaN) *)
Definition dval (x : double) : R := B2R x.
Definition du : R := bpow radix2 (-53).
Definition deta : R := bpow radix2 (-1075).
Definition dbig : R := bpow radix2 1023.

Notation fe := (SpecFloat.fexp dprec demax).
Notation rnd := (round radix2 fe (round_mode mode_NE)).

Lemma u_ro_le : u_ro radix2 dprec / (1 + u_ro radix2 dprec) <= du.
Proof.
  assert (E : u_ro radix2 dprec = du).
  { unfold u_ro, du, dprec. change (/ 2) with (bpow radix2 (-1)). rewrite <- bpow_plus. reflexivity. }
  rewrite E. assert (0 < du) by (apply bpow_gt_0).
  apply (Rmult_le_reg_r (1 + du)); [lra|]. unfold Rdiv. rewrite Rmult_assoc, Rinv_l, Rmult_1_r by lra. nra.
Qed.

Lemma rnd_add x y : exists d, Rabs d <= du /\ rnd (B2R (x : double) + B2R (y : double)) = (B2R x + B2R y) * (1 + d).
Proof.
  destruct (FLT_plus_error_N_ex radix2 (-1074) dprec (fun x => negb (Z.even x)) (B2R x) (B2R y)) as (d & Hd & E).
  - apply (generic_format_B2R dprec demax x).
  - apply (generic_format_B2R dprec demax y).
  - exists d. split; [eapply Rle_trans; [exact Hd|apply u_ro_le]|exact E].
Qed.
Lemma rnd_any x : exists d e, Rabs d <= du /\ Rabs e <= deta /\ rnd x = x * (1 + d) + e.
Proof.
  destruct (relative_error_N_FLT'_ex radix2 (-1074) dprec eq_refl (fun x => negb (Z.even x)) x) as (d & e & Hd & He & _ & E).
  exists d, e. split; [eapply Rle_trans; [exact Hd|apply u_ro_le]|]. split; [|exact E].
  eapply Rle_trans; [exact He|]. right. change (/ 2) with (bpow radix2 (-1)). rewrite <- bpow_plus. reflexivity.
Qed.
(** the same errors, relative to the result *)
Lemma u_ro_eq : u_ro radix2 dprec = du.
Proof. unfold u_ro, du, dprec. change (/ 2) with (bpow radix2 (-1)). rewrite <- bpow_plus. reflexivity. Qed.
Lemma rnd_add_inv x y : exists d, Rabs d <= du /\ rnd (B2R (x : double) + B2R (y : double)) * (1 + d) = B2R x + B2R y.
Proof.
  destruct (FLT_plus_error_N_round_ex radix2 (-1074) dprec (fun x => negb (Z.even x)) (B2R x) (B2R y)) as (d & Hd & E).
  - apply (generic_format_B2R dprec demax x).
  - apply (generic_format_B2R dprec demax y).
  - exists d. rewrite u_ro_eq in Hd. split; [exact Hd|symmetry; exact E].
Qed.
Lemma rnd_any_inv x : exists d e, Rabs d <= du /\ Rabs e <= deta /\ rnd x * (1 + d) + e = x.
Proof.
  destruct (relative_error_N_FLT'_ex radix2 (-1074) dprec eq_refl (fun x => negb (Z.even x)) x) as (d & e & Hd & He & Hz & E).
  assert (He' : Rabs e <= deta) by (eapply Rle_trans; [exact He|]; right; change (/ 2) with (bpow radix2 (-1)); rewrite <- bpow_plus; reflexivity).
  assert (D0 : 0 <= du) by apply bpow_ge_0. assert (E0 : 0 <= deta) by apply bpow_ge_0.
  change (round radix2 (FLT_exp (-1074) dprec) (Znearest (fun x => negb (Z.even x))) x) with (rnd x) in E.
  apply Rmult_integral in Hz as [Hz|Hz].
  - exists 0, (- e). rewrite Rabs_R0, Rabs_Ropp. split; [exact D0|]. split; [exact He'|]. rewrite E, Hz. ring.
  - destruct (relative_error_N_round_ex_derive radix2 dprec eq_refl x (rnd x)) as (d' & Hd' & E').
    + exists d. split; [exact Hd|]. rewrite E, Hz. ring.
    + exists d', 0. rewrite u_ro_eq in Hd'. rewrite Rabs_R0. split; [exact Hd'|]. split; [exact E0|]. rewrite Rplus_0_r. symmetry. exact E'.
Qed.
Lemma rnd_sqrt_inv (a : double) : exists d, Rabs d <= du /\ rnd (sqrt (B2R a)) * (1 + d) = sqrt (B2R a).
Proof.
  destruct (sqrt_error_N_FLT_round_ex radix2 dprec (fun x => negb (Z.even x)) ltac:(unfold dprec; lia) (-1074) ltac:(unfold dprec; lia) (B2R a)) as (d & Hd & E).
  { apply (generic_format_B2R dprec demax a). }
  exists d. split; [|symmetry; exact E]. eapply Rle_trans; [exact Hd|]. rewrite u_ro_eq. assert (0 <= du) by apply bpow_ge_0.
  assert (sqrt (1 + 2 * du) <= sqrt ((1 + du) * (1 + du))) by (apply sqrt_le_1_alt; nra). rewrite sqrt_square in H0 by lra. lra.
Qed.
Lemma over_inf (x : double) s : B2SF x = binary_overflow dprec demax mode_NE s -> is_finite x = false.
Proof. intros E. rewrite <- is_finite_SF_B2SF, E. reflexivity. Qed.

Lemma dadd_fin (a b : double) : dfin (Bplus mode_NE a b) -> dfin a /\ dfin b.
Proof. destruct a as [[]|[]| |[]], b as [[]|[]| |[]]; unfold dfin; simpl; auto; discriminate. Qed.
Lemma dsub_fin (a b : double) : dfin (Bminus mode_NE a b) -> dfin a /\ dfin b.
Proof. destruct a as [[]|[]| |[]], b as [[]|[]| |[]]; unfold dfin; simpl; auto; discriminate. Qed.
Lemma dmul_fin (a b : double) : dfin (Bmult mode_NE a b) -> dfin a /\ dfin b.
Proof. destruct a as [[]|[]| |[]], b as [[]|[]| |[]]; unfold dfin; simpl; auto; discriminate. Qed.
Lemma ddiv_fin (a b : double) : dfin (Bdiv mode_NE a b) -> dfin a.
Proof. destruct a as [[]|[]| |[]], b as [[]|[]| |[]]; unfold dfin; simpl; auto; discriminate. Qed.

Lemma Rlt_bool_iff x y : Rlt_bool x y = true <-> x < y.
Proof. destruct (Rlt_bool_spec x y); split; intros; auto; try discriminate; lra. Qed.
Lemma Rle_bool_iff x y : Rle_bool x y = true <-> x <= y.
Proof. destruct (Rle_bool_spec x y); split; intros; auto; try discriminate; lra. Qed.

Lemma small_not_over r : Rabs r <= dbig -> Rlt_bool (Rabs (rnd r)) (bpow radix2 demax) = true.
Proof.
  intros H. apply Rlt_bool_iff. apply Rle_lt_trans with dbig; [|apply bpow_lt; reflexivity].
  apply abs_round_le_generic; [| |apply generic_format_bpow|exact H].
  - apply (fexp_correct dprec demax dprec_pos).
  - apply valid_rnd_N.
  - vm_compute. discriminate.
Qed.

Lemma double_std (w : sumorder) : std_model (Dw w) dfin dval du deta dbig.
Proof.
  constructor; cbn [Dw carrier zero one add sub mul div opp sqrt_ ltb leb].
  - split; [apply bpow_ge_0|]. change (/ 16) with (bpow radix2 (-4)). apply bpow_le. lia.
  - apply bpow_ge_0.
  - split; reflexivity.
  - split; [reflexivity|]. apply Bone_correct.
  - intros a b F. destruct (dadd_fin _ _ F) as (Fa & Fb). split; [auto|split; [auto|]].
    destruct (rnd_add a b) as (d & Hd & E). exists d. split; auto.
    pose proof (Bplus_correct dprec demax _ _ mode_NE a b Fa Fb) as H.
    destruct (Rlt_bool _ _).
    + destruct H as (H & _). unfold dval. rewrite H. exact E.
    + destruct H as (H & _). apply over_inf in H. unfold dfin in F. congruence.
  - intros a b F. destruct (dsub_fin _ _ F) as (Fa & Fb). split; [auto|split; [auto|]].
    destruct (rnd_add a (Bopp b)) as (d & Hd & E). exists d. split; auto.
    pose proof (Bminus_correct dprec demax _ _ mode_NE a b Fa Fb) as H.
    destruct (Rlt_bool _ _).
    + destruct H as (H & _). unfold dval. rewrite H. rewrite B2R_Bopp in E. exact E.
    + destruct H as (H & _). apply over_inf in H. unfold dfin in F. congruence.
  - intros a b F. destruct (dmul_fin _ _ F) as (Fa & Fb). split; [auto|split; [auto|]].
    destruct (rnd_any (B2R a * B2R b)) as (d & e & Hd & He & E). exists d, e. split; [auto|split; [auto|]].
    pose proof (Bmult_correct dprec demax _ _ mode_NE a b) as H. destruct (Rlt_bool _ _).
    + destruct H as (H & _). unfold dval. rewrite H. exact E.
    + apply over_inf in H. unfold dfin in F. congruence.
  - intros a b F. split; [exact (ddiv_fin _ _ F)|]. intros Fb Hb.
    destruct (rnd_any (B2R a / B2R b)) as (d & e & Hd & He & E). exists d, e. split; [auto|split; [auto|]].
    pose proof (Bdiv_correct dprec demax _ _ mode_NE a b Hb) as H. destruct (Rlt_bool _ _).
    + destruct H as (H & _). unfold dval. rewrite H. exact E.
    + apply over_inf in H. unfold dfin in F. congruence.
  - intros a. split; [|apply B2R_Bopp]. unfold dfin. rewrite is_finite_Bopp. tauto.
  - intros a F. destruct (Bsqrt_correct dprec demax _ _ mode_NE a) as (H1 & H2 & _).
    unfold dfin in *. rewrite H2 in F. split; [destruct a as [| | |[]]; auto|]. unfold dval. rewrite H1.
    destruct (Req_dec (B2R a) 0) as [Z|Z].
    { exists 0. rewrite Z, sqrt_0, round_0 by apply valid_rnd_N. rewrite Rabs_R0. split; [apply bpow_ge_0|ring]. }
    assert (Hp : bpow radix2 (-1074) <= B2R a).
    { destruct a as [| | |[] m e Hb]; try discriminate; [simpl in Z; lra|].
      change (bpow radix2 (-1074) <= IZR (Z.pos m) * bpow radix2 e). apply Rle_trans with (1 * bpow radix2 e).
      - rewrite Rmult_1_l. apply bpow_le. pose proof Hb as Hc. unfold SpecFloat.bounded, SpecFloat.canonical_mantissa in Hc.
        apply andb_true_iff in Hc as (Hc & _). apply Zeq_bool_eq in Hc. unfold SpecFloat.fexp, SpecFloat.emin in Hc. unfold dprec, demax in Hc. lia.
      - apply Rmult_le_compat_r; [apply bpow_ge_0|]. apply IZR_le. lia. }
    assert (Hs : bpow radix2 (-1074 + dprec - 1) <= Rabs (sqrt (B2R a))).
    { rewrite Rabs_pos_eq by apply sqrt_pos. apply Rle_trans with (bpow radix2 (-537)); [apply bpow_le; unfold dprec; lia|].
      replace (bpow radix2 (-537)) with (sqrt (bpow radix2 (-1074))); [apply sqrt_le_1_alt; auto|].
      change (-1074)%Z with (-537 + -537)%Z. rewrite bpow_plus. apply sqrt_square. apply bpow_ge_0. }
    destruct (relative_error_N_FLT_ex radix2 (-1074) dprec eq_refl (fun x => negb (Z.even x)) (sqrt (B2R a)) Hs) as (d & Hd & E).
    exists d. split; [|exact E]. eapply Rle_trans; [exact Hd|]. right. change (/ 2) with (bpow radix2 (-1)). rewrite <- bpow_plus. reflexivity.
  - intros a b Fa Fb. rewrite (Bltb_correct dprec demax a b Fa Fb). apply Rlt_bool_iff.
  - intros a b Fa Fb. rewrite (Bleb_correct dprec demax a b Fa Fb). apply Rle_bool_iff.
  - intros a b Fa Fb. pose proof (Bminus_correct dprec demax _ _ mode_NE a b Fa Fb) as H.
    destruct (Rlt_bool_spec (Rabs (rnd (B2R a - B2R b))) (bpow radix2 demax)) as [|Hov].
    + destruct H as (H & F & _).
      rewrite (Bltb_correct dprec demax _ d0 F eq_refl), Rlt_bool_iff, H. simpl (B2R d0). unfold dval.
      destruct (rnd_add a (Bopp b)) as (d & Hd & E). rewrite B2R_Bopp in E. unfold Rminus. rewrite E.
      assert (Hd1 : Rabs d <= / 16).
      { eapply Rle_trans; [exact Hd|]. change (/ 16) with (bpow radix2 (-4)). apply bpow_le. lia. }
      apply Rabs_le_inv in Hd1. split; intros; nra.
    + destruct H as (H & Hs).
      assert (Hne : B2R a <> B2R b).
      { intros Ee. rewrite Ee, Rminus_diag_eq, round_0, Rabs_R0 in Hov by (auto; apply valid_rnd_N).
        pose proof (bpow_gt_0 radix2 demax). lra. }
      assert (E : Bltb (Bminus mode_NE a b) d0 = Bsign a).
      { unfold Bltb. rewrite H. unfold binary_overflow. simpl. destruct (Bsign a); reflexivity. }
      assert (Sg : forall x : double, dfin x -> if Bsign x then B2R x <= 0 else 0 <= B2R x).
      { intros x Fx. destruct x as [s|s| |[] m e Hb]; simpl; try (destruct s); try lra; unfold Defs.F2R; cbn [Defs.Fnum Defs.Fexp cond_Zopp Z.opp].
        - assert (IZR (Z.neg m) <= 0) by (apply IZR_le; lia). pose proof (bpow_gt_0 radix2 e). nra.
        - assert (0 <= IZR (Z.pos m)) by (apply IZR_le; lia). pose proof (bpow_gt_0 radix2 e). nra. }
      pose proof (Sg a Fa) as Sa. pose proof (Sg b Fb) as Sb. rewrite E. unfold dval.
      destruct (Bsign a), (Bsign b); simpl in Hs; try discriminate; split; intros; auto; try discriminate; lra.
  - intros a b Fa Fb. pose proof (Bminus_correct dprec demax _ _ mode_NE a b Fa Fb) as H.
    destruct (Rlt_bool_spec (Rabs (rnd (B2R a - B2R b))) (bpow radix2 demax)) as [|Hov].
    + destruct H as (H & F & _).
      rewrite (Bleb_correct dprec demax _ d0 F eq_refl), Rle_bool_iff, H. simpl (B2R d0). unfold dval.
      destruct (rnd_add a (Bopp b)) as (d & Hd & E). rewrite B2R_Bopp in E. unfold Rminus. rewrite E.
      assert (Hd1 : Rabs d <= / 16).
      { eapply Rle_trans; [exact Hd|]. change (/ 16) with (bpow radix2 (-4)). apply bpow_le. lia. }
      apply Rabs_le_inv in Hd1. split; intros; nra.
    + destruct H as (H & Hs).
      assert (Hne : B2R a <> B2R b).
      { intros Ee. rewrite Ee, Rminus_diag_eq, round_0, Rabs_R0 in Hov by (auto; apply valid_rnd_N).
        pose proof (bpow_gt_0 radix2 demax). lra. }
      assert (E : Bleb (Bminus mode_NE a b) d0 = Bsign a).
      { unfold Bleb. rewrite H. unfold binary_overflow. simpl. destruct (Bsign a); reflexivity. }
      assert (Sg : forall x : double, dfin x -> if Bsign x then B2R x <= 0 else 0 <= B2R x).
      { intros x Fx. destruct x as [s|s| |[] m e Hb]; simpl; try (destruct s); try lra; unfold Defs.F2R; cbn [Defs.Fnum Defs.Fexp cond_Zopp Z.opp].
        - assert (IZR (Z.neg m) <= 0) by (apply IZR_le; lia). pose proof (bpow_gt_0 radix2 e). nra.
        - assert (0 <= IZR (Z.pos m)) by (apply IZR_le; lia). pose proof (bpow_gt_0 radix2 e). nra. }
      pose proof (Sg a Fa) as Sa. pose proof (Sg b Fb) as Sb. rewrite E. unfold dval.
      destruct (Bsign a), (Bsign b); simpl in Hs; try discriminate; split; intros; auto; try discriminate; lra.
  - intros a b Fa Fb H. pose proof (Bplus_correct dprec demax _ _ mode_NE a b Fa Fb) as HC.
    unfold dval in H. rewrite (small_not_over _ H) in HC. apply HC.
  - intros a b Fa Fb H. pose proof (Bmult_correct dprec demax _ _ mode_NE a b) as HC.
    unfold dval in H. rewrite (small_not_over _ H) in HC. destruct HC as (_ & HC & _). unfold dfin in *. rewrite HC, Fa, Fb. reflexivity.
  - intros a b Fa Fb H. pose proof (Bminus_correct dprec demax _ _ mode_NE a b Fa Fb) as HC.
    unfold dval in H. rewrite (small_not_over _ H) in HC. apply HC.
  - intros a b F. destruct (dsub_fin _ _ F) as (Fa & Fb).
    destruct (rnd_add_inv a (Bopp b)) as (d & Hd & E). exists d. split; auto.
    pose proof (Bminus_correct dprec demax _ _ mode_NE a b Fa Fb) as H.
    destruct (Rlt_bool _ _).
    + destruct H as (H & _). unfold dval. rewrite H. rewrite B2R_Bopp in E. exact E.
    + destruct H as (H & _). apply over_inf in H. unfold dfin in F. congruence.
  - intros a b F Fb Hb. destruct (rnd_any_inv (B2R a / B2R b)) as (d & e & Hd & He & E). exists d, e. split; [auto|split; [auto|]].
    pose proof (Bdiv_correct dprec demax _ _ mode_NE a b Hb) as H. destruct (Rlt_bool _ _).
    + destruct H as (H & _). unfold dval. rewrite H. exact E.
    + apply over_inf in H. unfold dfin in F. congruence.
  - intros a F. destruct (Bsqrt_correct dprec demax _ _ mode_NE a) as (H1 & _). destruct (rnd_sqrt_inv a) as (d & Hd & E). exists d. split; auto.
    unfold dval. rewrite H1. exact E.
Qed.

(** Exact reals: no rounding, no overflow *)
Lemma real_std big : std_model Rops (fun _ => True) (fun x => x) 0 0 big.
Proof.
  constructor; simpl; auto; try lra; intros; auto; try tauto.
  1,2: split; [auto|split; [auto|]]; exists 0; rewrite Rabs_R0; split; [lra|ring].
  - split; [auto|split; [auto|]]. exists 0, 0. rewrite Rabs_R0. split; [lra|split; [lra|ring]].
  - split; [auto|]. intros _ Hb. exists 0, 0. rewrite Rabs_R0. split; [lra|split; [lra|field; auto]].
  - split; [auto|]. exists 0. rewrite Rabs_R0. split; [lra|ring].
  - destruct (Rltb_spec a b); split; intros; auto; try discriminate; lra.
  - destruct (Rleb_spec a b); split; intros; auto; try discriminate; lra.
  - destruct (Rltb_spec (a - b) 0); split; intros; auto; try discriminate; lra.
  - destruct (Rleb_spec (a - b) 0); split; intros; auto; try discriminate; lra.
  - exists 0. rewrite Rabs_R0. split; [lra|ring].
  - exists 0, 0. rewrite Rabs_R0. split; [lra|split; [lra|unfold Rdiv; ring]].
  - exists 0. rewrite Rabs_R0. split; [lra|ring].
Qed.

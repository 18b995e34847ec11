(** The box solver takes at most 2n+1 complete iterations: along a run, x moves in the direction of c on the free variables,
    so that each bound is dropped at most once and taken at most once, and the general constraint is never dropped. *)
From Coq Require Import List Arith ZArith Lia Bool Reals Lra Psatz.
From Verif Require Import Base ActiveSet ActiveSetProofs Num Solver LinAlg QRUpdate QPSpec GIMath GIBase GIInv GIDual GIRun GIOpt GIMult GIInit GISafe GICall GIHist GIFinal GITerm GITotal StructGProofs WarmTotal Box BoxSafe BoxExt BoxProofs BoxGap.
Import ListNotations.
Local Open Scope R_scope.

Section BoxDir.
Variable a : rbox.
Hypothesis Hsz : box_sizes a = true.
Notation pb := (proj_pb a).
Notation n := (ba_n a).
Notation c := (ba_c a).

Lemma bx_ncb : ncb pb = S n.
Proof. unfold box_sizes in Hsz. rewrite !andb_true_iff, !Nat.eqb_eq in Hsz. unfold ncb, nc, nb. simpl. lia. Qed.
Lemma bx_c0 b : cvec pb 0 b = c b.
Proof. reflexivity. Qed.
Lemma bx_cS j b : cvec pb (S j) b = if (b =? j)%nat then 1 else 0.
Proof. unfold cvec. simpl. rewrite Nat.sub_0_r. reflexivity. Qed.
Lemma bx_dotS j (x : rvec) : (j < n)%nat -> rdot n (cvec pb (S j)) x = x j.
Proof.
  intros Hj. rewrite (dot_ext n _ (fun b => if (b =? j)%nat then 1 else 0) x x); auto; [apply dot_delta; auto|].
  intros b Hb. apply bx_cS.
Qed.
Lemma bx_cloS j : clo pb (S j) = ba_xl a j.
Proof. unfold clo. cbn. rewrite Nat.sub_0_r. reflexivity. Qed.
Lemma bx_cupS j : cup pb (S j) = ba_xu a j.
Proof. unfold cup. cbn. rewrite Nat.sub_0_r. reflexivity. Qed.
Lemma bx_cup0 : cup pb 0 = None.
Proof. reflexivity. Qed.

Lemma proj_z W i z r : projected pb W i z r -> forall b, (b < n)%nat -> z b = cvec pb i b - (r 0%nat * c b + r (S b)).
Proof.
  intros [P1 P2 P3] b Hb. change (nv pb) with n in *. rewrite <- (proj_hmul a z b Hb). rewrite P2 by auto. f_equal.
  rewrite bx_ncb. change (S n) with (1 + n)%nat. rewrite sum_app, sum_S, sum_0, Rplus_0_l. f_equal.
  rewrite (sum_one n b); auto.
  - simpl (1 + b)%nat. rewrite bx_cS, Nat.eqb_refl. ring.
  - intros k Hk Hne. simpl (1 + k)%nat. rewrite bx_cS. destruct (Nat.eqb_spec b k); [lia|]. ring.
Qed.
Lemma proj_z0 W i z r b : projected pb W i z r -> (b < n)%nat -> W (S b) = true -> z b = 0.
Proof.
  intros [P1 P2 P3] Hb HW. specialize (P3 (S b)). rewrite bx_ncb in P3. specialize (P3 ltac:(lia) HW).
  change (nv pb) with n in P3. rewrite bx_dotS in P3; auto.
Qed.
Lemma proj_r0 W k z r : projected pb W (S k) z r -> (k < n)%nat -> W 0%nat = true -> W (S k) = false -> c k <> 0 -> 0 < r 0%nat * c k.
Proof.
  intros HJ Hk H0 HWk Hc. pose proof (proj_z _ _ _ _ HJ) as Hz. pose proof HJ as [P1 P2 P3].
  assert (Ho : rsum n (fun b => c b * z b) = 0).
  { specialize (P3 0%nat). rewrite bx_ncb in P3. specialize (P3 ltac:(lia) H0). rewrite dot_def in P3. exact P3. }
  set (q := fun b => if W (S b) then 0 else c b * c b).
  assert (E : r 0%nat * rsum n q = c k).
  { rewrite (sum_ext n _ (fun b => (if (b =? k)%nat then c k else 0) - r 0%nat * q b)) in Ho.
    - rewrite sum_minus, sum_scal, (sum_delta n k (fun _ => c k)) in Ho by auto. lra.
    - intros b Hb. unfold q. destruct (W (S b)) eqn:EW.
      + rewrite (proj_z0 _ _ _ _ b HJ Hb EW). destruct (Nat.eqb_spec b k) as [->|]; [congruence|]. ring.
      + rewrite (Hz b Hb), bx_cS, (P1 _ EW). destruct (Nat.eqb_spec b k) as [->|]; ring. }
  assert (Hq : 0 <= rsum n q) by (apply sum_nonneg; intros b Hb; unfold q; destruct (W (S b)); [lra|nra]).
  assert (0 < c k * c k) by nra. rewrite <- E in H at 1. nra.
Qed.

(** The direction of a step *)
Lemma bx_direction s sc s1 : pinv pb s -> stepped pb s sc s1 -> sel_valid pb sc -> isEq (sc_st sc) = false -> scb pb sc <> None ->
  (forall i, isEq (stt (s_A s) i) = false) -> stt (s_A s) (sc_idx sc) = INACTIVE ->
  (forall k, sc_idx sc = S k -> stt (s_A s) 0 <> INACTIVE /\ ssign (sc_st sc) * c k < 0) ->
  exists g, 0 < g /\
   (forall b, (b < n)%nat -> stt (s_A s) (S b) = INACTIVE -> sc_idx sc <> S b -> zof s1 b = g * c b) /\
   (forall p b, (p < nact (s_A s))%nat -> act (s_A s) p = S b -> rof s1 p = g * (ssign (stt (s_A s) (S b)) * c b)) /\
   (forall p, (p < nact (s_A s))%nat -> act (s_A s) p = 0%nat -> rof s1 p < 0).
Proof.
  intros HP HS [Hv1 Hv2] Hq Hb Heq Hin Hk. pose proof Hv1 as Hv1'. rewrite bx_ncb in Hv1'.
  pose proof (stepped_projected pb s sc s1 HP HS Hv1) as HJ.
  set (W := fun j => negb (status_eqb (stt (s_A s) j) INACTIVE)) in *.
  assert (HWt : forall j, stt (s_A s) j <> INACTIVE -> W j = true) by (intros j Hj; unfold W; destruct (status_eqb_spec (stt (s_A s) j) INACTIVE); [contradiction|auto]).
  assert (HWf : forall j, stt (s_A s) j = INACTIVE -> W j = false) by (intros j Hj; unfold W; rewrite Hj; auto).
  pose proof (proj_z _ _ _ _ HJ) as Hz. pose proof (pj_supp _ _ _ _ _ HJ) as P1.
  pose proof (pi_shape _ _ HP) as HSh. set (sg := ssign (sc_st sc)) in *. assert (Hsg : sg * sg = 1) by apply ssign_sq.
  assert (Ez : forall b, zof s1 b = sg * pz sc s1 b) by (intros b; unfold pz; fold sg; rewrite <- Rmult_assoc, Hsg; lra).
  assert (Er : forall p, (p < nact (s_A s))%nat -> rof s1 p = sg * ssign (stt (s_A s) (act (s_A s) p)) * prr s sc s1 (act (s_A s) p)).
  { intros p Hp. rewrite (prr_at pb) by auto. fold sg. pose proof (ssign_sq (stt (s_A s) (act (s_A s) p))) as H1. set (e := ssign (stt (s_A s) (act (s_A s) p))) in *.
    transitivity ((sg * sg) * (e * e) * rof s1 p); [rewrite Hsg, H1; lra|lra]. }
  assert (Hact : forall p, (p < nact (s_A s))%nat -> stt (s_A s) (act (s_A s) p) <> INACTIVE) by (intros p Hp; apply (act_props pb s p HSh Hp)).
  assert (Hlt : forall p, (p < nact (s_A s))%nat -> (act (s_A s) p < S n)%nat) by (intros p Hp; rewrite <- bx_ncb; apply (act_props pb s p HSh Hp)).
  set (r := prr s sc s1) in *. set (z := pz sc s1) in *.
  destruct (sc_idx sc) as [|k] eqn:Ei.
  - (* the general constraint *)
    assert (Esg : sg = 1).
    { unfold sg, ssign. destruct (sc_st sc) eqn:Est; auto; exfalso; apply Hb; unfold scb, nrhs; rewrite Est, Ei; reflexivity. }
    exists 1. rewrite Esg in *. split; [lra|]. split; [|split].
    + intros b Hbn Hst _. rewrite Ez, Hz by auto. rewrite (P1 _ (HWf _ Hst)), (P1 _ (HWf _ Hin)), bx_c0. lra.
    + intros p b Hp Ep. assert (Hbn : (b < n)%nat) by (specialize (Hlt p Hp); lia). pose proof (Hact p Hp) as Hn0. rewrite Ep in Hn0. rewrite Er, Ep by auto.
      pose proof (Hz b Hbn) as H1. rewrite (proj_z0 _ _ _ _ b HJ Hbn (HWt _ Hn0)), (P1 _ (HWf _ Hin)), bx_c0 in H1.
      replace (r (S b)) with (c b) by lra. lra.
    + intros p Hp Ep. exfalso. apply (Hact p Hp). rewrite Ep. auto.
  - assert (Hkn : (k < n)%nat) by lia. destruct (Hk k eq_refl) as [H0 Hck]. assert (Hcn : c k <> 0) by (intros E; rewrite E in Hck; lra).
    pose proof (proj_r0 _ _ _ _ HJ Hkn (HWt _ H0) (HWf _ Hin) Hcn) as Hr0.
    assert (Hs0 : sg * r 0%nat < 0).
    { destruct (Rlt_le_dec (sg * r 0%nat) 0) as [|Hge]; auto. exfalso.
      assert (H1 : (sg * r 0%nat) * (sg * c k) <= 0) by nra.
      replace ((sg * r 0%nat) * (sg * c k)) with ((sg * sg) * (r 0%nat * c k)) in H1 by ring. rewrite Hsg in H1. lra. }
    exists (- (sg * r 0%nat)). split; [lra|]. split; [|split].
    + intros b Hbn Hst Hne. rewrite Ez, Hz by auto. rewrite (P1 _ (HWf _ Hst)), bx_cS. destruct (Nat.eqb_spec b k); [congruence|]. lra.
    + intros p b Hp Ep. assert (Hbn : (b < n)%nat) by (specialize (Hlt p Hp); lia). pose proof (Hact p Hp) as Hn0. rewrite Ep in Hn0. rewrite Er, Ep by auto.
      pose proof (Hz b Hbn) as H1. rewrite (proj_z0 _ _ _ _ b HJ Hbn (HWt _ Hn0)), bx_cS in H1.
      destruct (Nat.eqb_spec b k) as [->|]; [congruence|].
      replace (r (S b)) with (- (r 0%nat * c b)) by lra. lra.
    + intros p Hp Ep. rewrite Er, Ep by auto.
      assert (E1 : ssign (stt (s_A s) 0) = 1).
      { pose proof (tight_value pb s p HP Hp) as HT. cbv zeta in HT. rewrite Ep in HT. unfold ssign. destruct (stt (s_A s) 0); auto; rewrite bx_cup0 in HT; discriminate. }
      rewrite E1. lra.
Qed.

(** ** The invariant *)
Definition above (b : nat) (x : R) : Prop := forall v, ba_xl a b = Some v -> v <= x.
Definition below (b : nat) (x : R) : Prop := forall v, ba_xu a b = Some v -> x <= v.
Definition pends (l : rlst) (i : nat) : Prop := l_skip l = true /\ sc_idx (l_sc l) = i.
Record kinv (l : rlst) : Prop := {
  ki_in : forall b, (b < n)%nat -> stt (s_A (l_s l)) (S b) = INACTIVE -> ~ pends l (S b) ->
     (0 <= c b -> above b (xof (l_s l) b)) /\ (c b <= 0 -> below b (xof (l_s l) b));
  ki_free : stt (s_A (l_s l)) 0 = INACTIVE -> ~ pends l 0 -> forall b, (b < n)%nat -> stt (s_A (l_s l)) (S b) = INACTIVE ->
     above b (xof (l_s l) b) /\ below b (xof (l_s l) b);
  ki_pend : forall k, pends l (S k) -> stt (s_A (l_s l)) 0 <> INACTIVE /\ ssign (sc_st (l_sc l)) * c k < 0
}.

(** ** The potential *)
Definition phase (A : aset) (b : nat) : nat :=
  match stt A (S b) with INACTIVE => 1 | st => if Rlt_dec 0 (ssign st * c b) then 0 else 2 end.
Definition phases (A : aset) : nat :=
  ((match stt A 0 with INACTIVE => 0 | _ => 1 end) + list_sum (map (phase A) (seq 0 n)))%nat.

Lemma list_sum_le (f : nat -> nat) m : (forall i, (f i <= 2)%nat) -> (list_sum (map f (seq 0 m)) <= 2 * m)%nat.
Proof.
  intros H. induction m as [|m IH]; [simpl; lia|]. rewrite seq_S, map_app, list_sum_app. simpl. specialize (H m). lia.
Qed.
Lemma list_sum_ext (f g : nat -> nat) m : (forall i, (i < m)%nat -> f i = g i) -> list_sum (map f (seq 0 m)) = list_sum (map g (seq 0 m)).
Proof. intros H. f_equal. apply map_ext_in. intros i Hi. apply in_seq in Hi. apply H. lia. Qed.
Lemma list_sum_bump (f g : nat -> nat) m k : (k < m)%nat -> (forall i, (i < m)%nat -> i <> k -> g i = f i) -> g k = S (f k) ->
  list_sum (map g (seq 0 m)) = S (list_sum (map f (seq 0 m))).
Proof.
  intros Hk H Ek. induction m as [|m IH]; [lia|]. rewrite !seq_S, !map_app, !list_sum_app. simpl.
  destruct (Nat.eq_dec k m) as [->|Hne].
  - rewrite (list_sum_ext g f m) by (intros i Hi; apply H; lia). rewrite Ek. lia.
  - rewrite IH by (auto; try lia; intros; apply H; lia). rewrite (H m) by lia. lia.
Qed.
Lemma phases_le A : (phases A <= 2 * n + 1)%nat.
Proof.
  unfold phases. assert (list_sum (map (phase A) (seq 0 n)) <= 2 * n)%nat.
  { apply list_sum_le. intros b. unfold phase. destruct (stt A (S b)); try lia; destruct (Rlt_dec _ _); lia. }
  destruct (stt A 0); lia.
Qed.

Lemma sel_kind_bound sc k : sel_valid pb sc -> isEq (sc_st sc) = false -> sc_idx sc = S k ->
  sc_st sc = LOWER_BOUND \/ sc_st sc = UPPER_BOUND.
Proof.
  intros [_ Hv] Hq Ei. rewrite Ei in Hv. unfold kind_ok in Hv. change (nc pb) with 1%nat in Hv.
  destruct (sc_st sc); auto; try discriminate.
Qed.

(** ** One iteration *)
Lemma iter_kinv o l l' : finv pb 0 l -> kinv l -> iter_case pb o l (Continue l') ->
  kinv l' /\ phases (s_A (l_s l')) = S (phases (s_A (l_s l))).
Proof.
  intros [HL HD HA] HK HC. remember (Continue l') as out eqn:Eo.
  destruct HC as [smin sc Hsk HI Hst|sc b s1 t1 i out' Es Ec Hsel Hb Hs HS HL1 HC]; [discriminate|]. subst out'.
  set (s0 := enter l sc) in *. assert (HP0 : pinv pb s0) by (apply enter_pinv; apply HL).
  assert (HD0 : dinv pb s0 (Some sc)) by (apply enter_dinv; auto; apply HL).
  assert (EA : s_A s0 = s_A (l_s l)) by apply enter_A.
  assert (Exl : xof s0 = xof (l_s l)) by apply enter_x.
  assert (Hal : aligned (s_A s0)) by (rewrite EA; eapply ali_aligned; eauto).
  assert (Heq : forall j, isEq (stt (s_A s0) j) = false).
  { intros j. rewrite EA. destruct (isEq (stt (s_A (l_s l)) j)) eqn:E; auto. apply (al_st _ _ _ HA) in E. lia. }
  pose proof Hsel as [V1 V2 V3 (b' & Vb & V4)]. assert (b' = b) by congruence. subst b'. change (nv pb) with n in V4.
  (* the entered constraint *)
  assert (Hpend : forall k, sc_idx sc = S k -> stt (s_A s0) 0 <> INACTIVE /\ ssign (sc_st sc) * c k < 0).
  { intros k Ek. destruct (l_skip l) eqn:Esk.
    - rewrite (Hs eq_refl) in *. rewrite EA. apply (ki_pend l HK k). split; auto.
    - assert (Hkn : (k < n)%nat) by (destruct V1 as [V1 _]; rewrite bx_ncb in V1; lia). assert (Hnp : forall j, ~ pends l j) by (intros j [Hj _]; congruence).
      rewrite EA, Ek in V2. destruct (ki_in l HK k Hkn V2 (Hnp _)) as [K1 K2].
      assert (Hviol : (sc_st sc = LOWER_BOUND /\ ~ above k (xof (l_s l) k)) \/ (sc_st sc = UPPER_BOUND /\ ~ below k (xof (l_s l) k))).
      { unfold scb, nrhs in Hb. rewrite Ek in Hb. unfold scn, nsign in V4. rewrite Ek, Exl in V4.
        destruct (sel_kind_bound sc k V1 V3 Ek) as [E|E]; rewrite E in *; [left|right]; split; auto; intros Hab.
        - rewrite bx_cloS in Hb. specialize (Hab _ Hb). rewrite bx_dotS in V4 by auto. lra.
        - rewrite bx_cupS in Hb. destruct (ba_xu a k) as [v|] eqn:Ev; [|discriminate]. injection Hb as <-. specialize (Hab v Ev).
          rewrite dot_def in V4. rewrite (sum_ext n _ (fun b0 => - (cvec pb (S k) b0 * xof (l_s l) b0))) in V4 by (intros; rring).
          rewrite sum_opp, <- dot_def, bx_dotS in V4 by auto. lra. }
      split.
      + rewrite EA. intros E0. destruct (ki_free l HK E0 (Hnp _) k Hkn V2) as [F1 F2]. destruct Hviol as [[_ H]|[_ H]]; contradiction.
      + destruct Hviol as [[E H]|[E H]]; rewrite E; simpl.
        * destruct (Rlt_le_dec (c k) 0); [lra|]. exfalso. apply H, K1. auto.
        * destruct (Rlt_le_dec 0 (c k)); [lra|]. exfalso. apply H, K2. auto. }
  assert (Hnb : scb pb sc <> None) by congruence.
  destruct (bx_direction s0 sc s1 HP0 HS V1 V3 Hnb Heq V2 Hpend) as (g & Hg & Hdz & Hdr & Hd0).
  destruct HL1 as [L1 L2 L3]. rewrite <- EA in L2, L3.
  assert (Hatt : t1 < o_bigBnd o -> (i < nact (s_A s0))%nat /\ cand (s_A s0) (rof s1) i /\ 0 <= t1).
  { intros Hlt. destruct L3 as [L3|(K1 & K2 & K3)]; [lra|]. split; auto. split; auto. rewrite K3. destruct K2 as [_ K2].
    assert (0 <= uof s0 i) by (apply (di_pos _ _ _ HD0); auto). apply Rmult_le_pos; auto. apply Rlt_le, Rinv_0_lt_compat. auto. }
  (* the free variables after the move *)
  assert (Hmove : forall tau t s2, 0 <= tau -> moved pb s0 sc s1 tau t s2 -> forall j, (j < n)%nat -> stt (s_A s0) (S j) = INACTIVE -> sc_idx sc <> S j ->
     (0 <= c j -> above j (xof s2 j)) /\ (c j <= 0 -> below j (xof s2 j))).
  { intros tau t s2 Ht M j Hj Hst Hne. rewrite (mv_x _ _ _ _ _ _ _ M) by auto. rewrite (Hdz j Hj Hst Hne), Exl.
    assert (Hnp : ~ pends l (S j)). { intros [P1 P2]. rewrite <- (Hs P1) in P2. congruence. }
    rewrite EA in Hst. destruct (ki_in l HK j Hj Hst Hnp) as [K1 K2]. split; intros Hc v Ev.
    - specialize (K1 Hc v Ev). assert (0 <= tau * (g * c j)) by (apply Rmult_le_pos; auto; apply Rmult_le_pos; lra). lra.
    - specialize (K2 Hc v Ev). assert (0 <= tau * (g * - c j)) by (apply Rmult_le_pos; auto; apply Rmult_le_pos; lra). lra. }
  assert (Hrem : forall tau s2 s', 0 <= tau -> moved pb s0 sc s1 tau t1 s2 -> removed pb s2 i s' -> t1 < o_bigBnd o ->
     kinv (L s' true sc) /\ phases (s_A s') = S (phases (s_A (l_s l)))).
  { intros tau s2 s' Htau M Hrm Hlt. destruct (Hatt Hlt) as (K1 & [_ K2] & K3). assert (EA2 : s_A s2 = s_A s0) by apply M.
    assert (HP2 : pinv pb s2) by (eapply moved_pinv; eauto).
    pose proof (ar_stt _ _ _ (rm_A _ _ _ _ Hrm)) as Est. rewrite EA2 in Est.
    assert (Ex' : xof s' = xof s2) by (unfold xof; rewrite (rm_x _ _ _ _ Hrm); auto).
    destruct (act (s_A s0) i) as [|d] eqn:Ed; [exfalso; specialize (Hd0 i K1 Ed); lra|].
    assert (Hdn : (d < n)%nat) by (destruct (act_props pb s0 i (pi_shape _ _ HP0) K1) as (H1 & _); rewrite Ed, bx_ncb in H1; lia).
    assert (Hdst : stt (s_A s0) (S d) <> INACTIVE) by (destruct (act_props pb s0 i (pi_shape _ _ HP0) K1) as (_ & H1 & _); rewrite Ed in H1; auto).
    assert (Hsd : 0 < ssign (stt (s_A s0) (S d)) * c d) by (rewrite (Hdr i d K1 Ed) in K2; destruct (Rlt_le_dec 0 (ssign (stt (s_A s0) (S d)) * c d)); auto; nra).
    assert (Hdx : (0 <= c d -> above d (xof s2 d)) /\ (c d <= 0 -> below d (xof s2 d))).
    { pose proof (tight_value pb s2 i HP2) as HT. cbv zeta in HT. rewrite EA2, Ed in HT. specialize (HT K1). change (nv pb) with n in HT.
      rewrite bx_dotS, bx_cloS, bx_cupS in HT by auto. specialize (Heq (S d)).
      assert (Hlu : (ba_xl a d = Some (xof s2 d) /\ ssign (stt (s_A s0) (S d)) = 1) \/ (ba_xu a d = Some (xof s2 d) /\ ssign (stt (s_A s0) (S d)) = -1)).
      { destruct (stt (s_A s0) (S d)); try discriminate; try contradiction; auto. }
      destruct Hlu as [[E1 E2]|[E1 E2]]; rewrite E2 in Hsd; split; intros Hc v Ev; try (exfalso; lra); assert (v = xof s2 d) by congruence; subst v; apply Rle_refl. }
    assert (Est0 : stt (s_A s') 0 = stt (s_A s0) 0) by (rewrite Est; reflexivity).
    split.
    - split; cbn [l_s l_skip l_sc].
      + intros j Hj Hst Hnp. rewrite Ex'. rewrite Est in Hst. destruct (Nat.eqb_spec (S j) (S d)) as [E|Hne].
        * injection E as ->. exact Hdx.
        * apply (Hmove tau t1 s2); auto. intros E. apply Hnp. split; auto.
      + intros E0 Hnp. exfalso. destruct (sc_idx sc) as [|k] eqn:Ek; [apply Hnp; split; auto|]. destruct (Hpend k eq_refl) as [H0 _]. congruence.
      + intros k [_ Ek]. cbn [l_sc] in Ek. destruct (Hpend k Ek) as [H0 H1]. rewrite Est0. auto.
    - unfold phases. rewrite Est0, <- EA. rewrite (list_sum_bump (phase (s_A s0)) (phase (s_A s')) n d); auto.
      + intros j Hj Hne. unfold phase. rewrite Est. destruct (Nat.eqb_spec (S j) (S d)); [lia|]. reflexivity.
      + unfold phase. rewrite Est, Nat.eqb_refl. destruct (stt (s_A s0) (S d)); try contradiction; destruct (Rlt_dec _ _); auto; contradiction. }
  inversion HC as [Ht1 Hbl|s2 s' Ht1 Hbl Hl M Hrm|s2 s' Hz' Ht2 Ht12 M Had|s2 s' Hz' Ht2 Ht12 Hl M Hrm]; subst l'; cbn [l_s].
  - apply (Hrem 0 s2); auto. lra.
  - (* full step *)
    assert (Hnz : 0 < nz pb sc s1) by (apply (nz_pos pb s0); auto; apply HS).
    assert (Ht2pos : 0 < t2of pb sc s0 s1 b).
    { unfold t2of. apply Rmult_lt_0_compat; [change (nv pb) with n; lra|]. apply Rinv_0_lt_compat; auto. }
    assert (EA2 : s_A s2 = s_A s0) by apply M.
    pose proof (aa_stt _ _ _ (ad_A _ _ _ _ Had)) as Est. rewrite EA2 in Est.
    assert (Ex' : xof s' = xof s2) by (unfold xof; rewrite (ad_x _ _ _ _ Had); auto).
    assert (Hsn : sc_st sc <> INACTIVE).
    { intros E. destruct V1 as [_ V1]. rewrite E in V1. unfold kind_ok in V1. discriminate. }
    split.
    + split; cbn [l_s l_skip l_sc].
      * intros j Hj Hst _. rewrite Ex'. rewrite Est in Hst. destruct (Nat.eqb_spec (S j) (sc_idx sc)) as [E|Hne]; [contradiction|].
        apply (Hmove (t2of pb sc s0 s1 b) (t2of pb sc s0 s1 b) s2); auto. lra.
      * intros E0 _. exfalso. rewrite Est in E0. destruct (Nat.eqb_spec 0 (sc_idx sc)) as [|Hne]; [contradiction|].
        destruct (sc_idx sc) as [|k] eqn:Ek; [congruence|]. destruct (Hpend k eq_refl) as [H0 _]. congruence.
      * intros k [H _]. discriminate.
    + unfold phases. rewrite <- EA. destruct (sc_idx sc) as [|k] eqn:Ek.
      * rewrite (list_sum_ext (phase (s_A s')) (phase (s_A s0))).
        -- rewrite Est, V2. simpl. destruct (sc_st sc); try lia; contradiction.
        -- intros j Hj. unfold phase. rewrite Est. reflexivity.
      * assert (Hkn : (k < n)%nat) by (destruct V1 as [V1 _]; rewrite bx_ncb in V1; lia).
        rewrite Est. simpl (0 =? S k)%nat. cbv iota. destruct (Hpend k eq_refl) as [_ Hck].
        rewrite (list_sum_bump (phase (s_A s0)) (phase (s_A s')) n k); auto.
        -- intros j Hj Hne. unfold phase. rewrite Est. destruct (Nat.eqb_spec (S j) (S k)); [lia|]. reflexivity.
        -- unfold phase. rewrite Est, Nat.eqb_refl, V2. destruct (sc_st sc); try contradiction; destruct (Rlt_dec _ _); auto; lra.
  - assert (Hlt : t1 < o_bigBnd o) by lra. apply (Hrem t1 s2); auto. apply (Hatt Hlt).
Qed.

Lemma kinv_bump l : kinv l -> kinv (bump l).
Proof. intros [K1 K2 K3]. split; auto. Qed.

Lemma reach_kinv o k l0 l : finv pb 0 l0 -> kinv l0 -> (forall j l1, (j < k)%nat -> reach pb o j l0 l1 -> calm_at pb o l1) ->
  reach pb o k l0 l -> kinv l /\ (phases (s_A (l_s l)) = k + phases (s_A (l_s l0)))%nat.
Proof.
  intros HF HK Hcalm H. induction H as [l0|k l0 l1 l2 H IH E]; auto.
  assert (Hc : forall j l3, (j < k)%nat -> reach pb o j l0 l3 -> calm_at pb o l3) by (intros j l3 Hj; apply Hcalm; lia).
  assert (HF1 : finv pb 0 l1) by (apply (reach_finv pb o 0 k l0); auto).
  destruct (IH HF HK Hc) as [HK1 HP1].
  destruct (iter_spec pb o l1 (fi_linv _ _ _ HF1)) as (out & E' & HC).
  assert (out = Continue l2) by congruence. subst out.
  destruct (iter_kinv o l1 l2 HF1 HK1 HC) as [HK2 HP2]. split; [apply kinv_bump; auto|].
  change (s_A (l_s (bump l2))) with (s_A (l_s l2)). lia.
Qed.

(** The initial state *)
Lemma start_kinv s2 s0 : bstart Rops (bpb a) s2 s0 -> kinv (start (addf (off a) s0)).
Proof.
  intros H0. destruct (bt_b _ _ _ _ H0) as (b & HB & EA & Ex & _). change (gn Rops (bpb a)) with n in *.
  assert (Hst : forall j, (j < n)%nat -> stt (s_A s0) (S j) = bkind Rops (bpb a) j).
  { intros j Hj. rewrite EA, (bv_stt _ _ _ _ _ HB). simpl. rewrite Nat.sub_0_r. apply Nat.ltb_lt in Hj. rewrite Hj. reflexivity. }
  assert (Hbox : forall j, (j < n)%nat -> stt (s_A s0) (S j) = INACTIVE -> above j (xof s0 j) /\ below j (xof s0 j)).
  { intros j Hj Hi. rewrite (Hst j Hj) in Hi. unfold xof. rewrite Ex. cbn [w_buf wset]. rewrite (bv_x _ _ _ _ _ HB j Hj), (bclamp_none a j Hi).
    unfold bkind in Hi. cbn [p_a p_xl p_xu bpb box_pb] in Hi. unfold above, below.
    destruct (lt_lo (ba_x0 a j) (ba_xl a j)) eqn:El; [discriminate|]. destruct (gt_up (ba_x0 a j) (ba_xu a j)) eqn:Eu; [discriminate|].
    split; intros v Ev; rewrite Ev in *; [unfold lt_lo in El|unfold gt_up in Eu].
    - change (ltb Rops (ba_x0 a j) v) with (Rltb (ba_x0 a j) v) in El. destruct (Rltb_spec (ba_x0 a j) v); [discriminate|lra].
    - change (ltb Rops v (ba_x0 a j)) with (Rltb v (ba_x0 a j)) in Eu. destruct (Rltb_spec v (ba_x0 a j)); [discriminate|lra]. }
  split; cbn [start l_s l_skip l_sc]; change (s_A (addf (off a) s0)) with (s_A s0); change (xof (addf (off a) s0)) with (xof s0).
  - intros j Hj Hi _. destruct (Hbox j Hj Hi). auto.
  - intros _ _ j Hj Hi. auto.
  - intros k [H _]. discriminate.
Qed.

Lemma box_linear o s2 s0 k l : bstart Rops (bpb a) s2 s0 ->
  (forall j l1, (j < k)%nat -> reach pb o j (start (addf (off a) s0)) l1 -> calm_at pb o l1) ->
  reach pb o k (start (addf (off a) s0)) l -> (k <= 2 * n + 1)%nat.
Proof.
  intros H0 Hc HR. destruct (reach_kinv o k _ l (bstart_finv a s2 s0 H0) (start_kinv s2 s0 H0) Hc HR) as [_ HP].
  pose proof (phases_le (s_A (l_s l))). lia.
Qed.
End BoxDir.

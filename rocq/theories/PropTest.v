(** C26 (KKT checker), C27 (least squares), C28, C29 (constraint conversions),
    C38 (QP conversions), C45 (wellFormed). *)
From Coq Require Import List Arith ZArith Lia Bool Reals Lra.
From Verif Require Import Base Num Solver LinAlg QPSpec TestPb.
Import ListNotations.
Local Open Scope R_scope.

(** The QP a set of arguments of testKKT describes, in the representation of QPSpec.v *)
Definition qp_of (G : dmat) (a : dvec) (C : dmat) (bl bu xl xu : bvec) (tr : bool) : rproblem :=
  Pb (S:=Rops) (ma G) (mr G) (mc G) (va a) (vn a) (fun i j => if tr then ma C i j else ma C j i) (vn a) (bn bl)
     (ba bl) (bn bl) (ba bu) (bn bu) (ba xl) (bn xl) (ba xu) (bn xu).

Lemma ninf_nonneg n v : 0 <= ninf n v.
Proof. induction n as [|n IH]; simpl; [lra|]. eapply Rle_trans; [exact IH|apply Rmax_l]. Qed.
Lemma ninf_le n v t : ninf n v <= t <-> 0 <= t /\ forall i, (i < n)%nat -> Rabs (v i) <= t.
Proof.
  induction n as [|n IH]; simpl.
  - split; [intros H; split; auto; intros; lia|tauto].
  - split.
    + intros H. assert (H1 : ninf n v <= t) by (eapply Rle_trans; [apply Rmax_l|exact H]).
      assert (H2 : Rabs (v n) <= t) by (eapply Rle_trans; [apply Rmax_r|exact H]).
      apply IH in H1 as [H0 H1]. split; auto. intros i Hi. destruct (Nat.eq_dec i n) as [->|]; auto. apply H1; lia.
    + intros [H0 H]. apply Rmax_lub; [apply IH; split; auto|]; apply H; lia.
Qed.
Lemma ninf_zero n v : (forall i, (i < n)%nat -> v i = 0) -> ninf n v = 0.
Proof.
  intros H. apply Rle_antisym; [|apply ninf_nonneg]. apply ninf_le. split; [lra|]. intros i Hi. rewrite H by auto. rewrite Rabs_R0. lra.
Qed.

(** ** One constraint *)
Lemma check_sound cx bl bu u tx tu : 0 <= tx -> 0 <= tu -> checkKKTConstraint cx bl bu u tx tu = true ->
  (forall l b, bl = Some l -> bu = Some b -> l <= b) ->
  (forall l, bl = Some l -> l - tx <= cx) /\ (forall b, bu = Some b -> cx <= b + tx) /\
  (tu < u -> exists b, bu = Some b /\ Rabs (cx - b) <= tx) /\ (u < - tu -> exists l, bl = Some l /\ Rabs (cx - l) <= tx).
Proof.
  intros Htx Htu H Hord. unfold checkKKTConstraint in H. apply orb_prop in H as [H|H]; [apply orb_prop in H as [H|H]|].
  - apply andb_prop in H as [H1 H2]. destruct bl as [l|]; [|discriminate].
    destruct (Rleb_spec (Rabs (cx - l)) tx) as [K1|]; [|discriminate]. destruct (Rleb_spec u (- tu)) as [K2|]; [|discriminate].
    assert (K3 : - tx <= cx - l <= tx) by (revert K1; unfold Rabs; destruct (Rcase_abs (cx - l)); lra).
    split; [intros ? [= <-]; lra|]. split; [intros b Hb; specialize (Hord l b eq_refl Hb); lra|]. split; [lra|]. intros _. exists l. auto.
  - apply andb_prop in H as [H1 H2]. apply andb_prop in H1 as [H0 H1].
    destruct (Rleb_spec (Rabs u) tu) as [K2|]; [|discriminate].
    assert (K3 : - tu <= u <= tu) by (revert K2; unfold Rabs; destruct (Rcase_abs u); lra).
    split; [intros l ->; destruct (Rleb_spec (- tx) (cx - l)); [lra|discriminate]|].
    split; [intros b ->; destruct (Rleb_spec (cx - b) tx); [lra|discriminate]|]. split; lra.
  - apply andb_prop in H as [H1 H2]. destruct bu as [b|]; [|discriminate].
    destruct (Rleb_spec (Rabs (cx - b)) tx) as [K1|]; [|discriminate]. destruct (Rleb_spec tu u) as [K2|]; [|discriminate].
    assert (K3 : - tx <= cx - b <= tx) by (revert K1; unfold Rabs; destruct (Rcase_abs (cx - b)); lra).
    split; [intros l Hl; specialize (Hord l b Hl eq_refl); lra|]. split; [intros ? [= <-]; lra|]. split; [|lra]. intros _. exists b. auto.
Qed.
Lemma check_complete cx bl bu u tx tu : 0 <= tx -> 0 <= tu -> above_lo bl cx -> below_up bu cx ->
  (0 < u -> bu = Some cx) -> (u < 0 -> bl = Some cx) -> checkKKTConstraint cx bl bu u tx tu = true.
Proof.
  intros Htx Htu Hl Hu Hp Hn. unfold checkKKTConstraint.
  assert (Z : Rabs (cx - cx) = 0) by (replace (cx - cx) with 0 by ring; apply Rabs_R0).
  assert (B2 : Rabs u <= tu -> (match bl with Some l => Rleb (- tx) (cx - l) | None => true end) && (match bu with Some b => Rleb (cx - b) tx | None => true end) && Rleb (Rabs u) tu = true).
  { intros H. rewrite (Rleb_true (Rabs u) tu) by auto. unfold above_lo, below_up in *.
    destruct bl as [l|]; destruct bu as [b|]; rewrite ?(Rleb_true (- tx) (cx - l)), ?(Rleb_true (cx - b) tx) by lra; auto. }
  destruct (Rle_dec (Rabs u) tu) as [K|K]; [rewrite (B2 K), orb_true_r; auto|].
  destruct (Rle_dec 0 u) as [H0|H0].
  - assert (Hu1 : tu < u) by (rewrite Rabs_pos_eq in K by auto; lra).
    rewrite Hp by lra. rewrite Z, (Rleb_true 0 tx), (Rleb_true tu u) by lra. rewrite !orb_true_r. auto.
  - assert (Hu1 : u < - tu) by (rewrite Rabs_left in K by lra; lra).
    rewrite Hn by lra. rewrite Z, (Rleb_true 0 tx), (Rleb_true u (- tu)) by lra. auto.
Qed.

(** ** The whole test *)
Definition bounds_ordered (l u : bvec) : Prop := forall i a b, (i < bn l)%nat -> ba l i = Some a -> ba u i = Some b -> a <= b.
Definition near_kkt (x u : dvec) (G : dmat) (a : dvec) (C : dmat) (bl bu xl xu : bvec) (tr : bool) (tx tu : R) : Prop :=
  let pb := qp_of G a C bl bu xl xu tr in
  let val i := rdot (nv pb) (cvec pb i) (va x) in
  (forall i, (i < nv pb)%nat ->
     Rabs (rsum (nv pb) (fun j => ma G i j * va x j) + va a i + rsum (nc pb) (fun j => p_C pb i j * va u j)
           + (if (i <? nb pb)%nat then va u (nc pb + i)%nat else 0)) <= tu) /\
  (forall i, (i < nc pb + nb pb)%nat ->
     (forall l, clo pb i = Some l -> l - tx <= val i) /\ (forall b, cup pb i = Some b -> val i <= b + tx) /\
     (tu < va u i -> exists b, cup pb i = Some b /\ Rabs (val i - b) <= tx) /\
     (va u i < - tu -> exists l, clo pb i = Some l /\ Rabs (val i - l) <= tx)).

Lemma dims_facts x u G a C bl bu xl xu tr : dims_qp x u G a C bl bu xl xu tr = true ->
  vn x = vn a /\ vn u = (bn bl + bn xl)%nat /\ mr G = vn a /\ mc G = vn a /\ bn bu = bn bl /\ (bn xl = O \/ bn xl = vn a) /\ bn xu = bn xl.
Proof.
  unfold dims_qp, dims_cstr. intros H. repeat (apply andb_prop in H as [H ?]).
  repeat match goal with K : (_ && _) = true |- _ => apply andb_prop in K as [K ?] end.
  repeat match goal with K : (_ =? _)%nat = true |- _ => apply Nat.eqb_eq in K end.
  match goal with K : (_ || _) = true |- _ => idtac end.
  assert (Hx : bn xl = O \/ bn xl = vn a).
  { match goal with K : ((bn xl =? 0)%nat || (bn xl =? vn a)%nat) = true |- _ => apply orb_prop in K as [K|K]; apply Nat.eqb_eq in K; auto end. }
  repeat split; auto.
Qed.
Lemma dims_qp_fp x u G a C bl bu xl xu tr : dims_qp x u G a C bl bu xl xu tr = true -> dims_fp x u C bl bu xl xu tr = true.
Proof.
  intros H. destruct (dims_facts _ _ _ _ _ _ _ _ _ _ H) as (E & _).
  unfold dims_qp in H. repeat (apply andb_prop in H as [H ?]). unfold dims_fp. rewrite E. apply andb_true_intro; auto.
Qed.
Lemma testKKT_unfold x u G a C bl bu xl xu tr tp td b : testKKT x u G a C bl bu xl xu tr tp td = Ok b ->
  dims_qp x u G a C bl bu xl xu tr = true /\
  let tx := tp * (1 + ninf (vn x) (va x)) in let tu := td * (1 + ninf (vn u) (va u)) in
  (b = true <-> ninf (vn x) (dLagr x u G a C bl xl tr) <= tu /\
   (forall i, (i < bn bl)%nat -> checkKKTConstraint (cxval x C tr i) (ba bl i) (ba bu i) (va u i) tx tu = true) /\
   (forall i, (i < bn xl)%nat -> checkKKTConstraint (va x i) (ba xl i) (ba xu i) (va u (bn bl + i)%nat) tx tu = true)).
Proof.
  unfold testKKT, testKKTStationarity, testKKTFeasibility. intros H.
  destruct (dims_qp x u G a C bl bu xl xu tr) eqn:D; [|discriminate]. cbn [guard bind] in H.
  rewrite (dims_qp_fp _ _ _ _ _ _ _ _ _ _ D) in H. cbn [guard bind] in H. injection H as <-. split; auto. cbv zeta.
  rewrite !andb_true_iff, !forallb_forall. split.
  - intros (H1 & H2 & H3). split; [destruct (Rleb_spec (ninf (vn x) (dLagr x u G a C bl xl tr)) (td * (1 + ninf (vn u) (va u)))); [auto|discriminate]|].
    split; intros i Hi; [apply H2|apply H3]; apply in_seq; lia.
  - intros (H1 & H2 & H3). split; [apply Rleb_true; auto|]. split; intros i Hi; apply in_seq in Hi; [apply H2|apply H3]; lia.
Qed.
Lemma cval_general G a C bl bu xl xu tr x i : vn x = vn a -> mr G = vn a -> (i < bn bl)%nat ->
  let pb := qp_of G a C bl bu xl xu tr in rdot (nv pb) (cvec pb i) (va x) = cxval x C tr i.
Proof.
  intros E1 E2 Hi pb. unfold cvec, nc, nv, pb, cxval. cbn [p_Ccols p_C p_Grows qp_of]. rewrite (proj2 (Nat.ltb_lt _ _) Hi).
  rewrite dot_def, E1, E2. destruct tr; apply sum_ext; intros; ring.
Qed.
Lemma cval_bound G a C bl bu xl xu tr x i : vn x = vn a -> mr G = vn a -> (i < vn a)%nat ->
  let pb := qp_of G a C bl bu xl xu tr in rdot (nv pb) (cvec pb (bn bl + i)) (va x) = va x i.
Proof.
  intros E1 E2 Hi pb. unfold cvec, nc, nv, pb. cbn [p_Ccols p_Grows qp_of]. rewrite (proj2 (Nat.ltb_ge _ _)) by lia.
  rewrite dot_def. rewrite (sum_ext _ _ (fun k => if (k =? i)%nat then va x k else 0)).
  - apply sum_delta. lia.
  - intros k _. replace (bn bl + i - bn bl)%nat with i by lia. destruct (k =? i)%nat; lra.
Qed.
Lemma dLagr_eq x u G a C bl bu xl xu tr i : dims_qp x u G a C bl bu xl xu tr = true -> (i < vn x)%nat ->
  let pb := qp_of G a C bl bu xl xu tr in
  dLagr x u G a C bl xl tr i = rsum (nv pb) (fun j => ma G i j * va x j) + va a i + rsum (nc pb) (fun j => p_C pb i j * va u j)
           + (if (i <? nb pb)%nat then va u (nc pb + i)%nat else 0).
Proof.
  intros D Hi pb. destruct (dims_facts _ _ _ _ _ _ _ _ _ _ D) as (E1 & E2 & E3 & E4 & E5 & E6 & E7).
  unfold dLagr, pb, nv, nc, nb. cbn [p_Grows p_Ccols p_xlsize p_C qp_of]. rewrite E3, E1, E2.
  destruct (Nat.eqb_spec (bn xl) 0) as [Z|Z].
  - rewrite Z. cbn [Nat.ltb Nat.leb]. destruct tr; ring.
  - destruct E6 as [E6|E6]; [lia|]. rewrite E6. rewrite (proj2 (Nat.ltb_lt i (vn a))) by lia.
    replace (bn bl + vn a - vn a + i)%nat with (bn bl + i)%nat by lia. destruct tr; ring.
Qed.

(** Acceptance with tolerances means: all KKT conditions within tolerance. *)
Theorem C26_accepts_only_near_kkt : forall x u G a C bl bu xl xu tr tp td, 0 <= tp -> 0 <= td ->
  testKKT x u G a C bl bu xl xu tr tp td = Ok true -> bounds_ordered bl bu -> bounds_ordered xl xu ->
  near_kkt x u G a C bl bu xl xu tr (tp * (1 + ninf (vn x) (va x))) (td * (1 + ninf (vn u) (va u))).
Proof.
  intros x u G a C bl bu xl xu tr tp td Hp Hd H O1 O2.
  apply testKKT_unfold in H as [D H]. destruct H as [H _]. specialize (H eq_refl) as (H1 & H2 & H3).
  destruct (dims_facts _ _ _ _ _ _ _ _ _ _ D) as (E1 & E2 & E3 & E4 & E5 & E6 & E7).
  pose proof (ninf_nonneg (vn x) (va x)). pose proof (ninf_nonneg (vn u) (va u)).
  set (tx := tp * (1 + ninf (vn x) (va x))) in *. set (tu := td * (1 + ninf (vn u) (va u))) in *.
  assert (Htx : 0 <= tx) by (apply Rmult_le_pos; lra). assert (Htu : 0 <= tu) by (apply Rmult_le_pos; lra).
  unfold near_kkt. set (pb := qp_of G a C bl bu xl xu tr).
  assert (Nv : nv pb = vn a) by exact E3. assert (Nc : nc pb = bn bl) by reflexivity. assert (Nb : nb pb = bn xl) by reflexivity.
  split.
  - intros i Hi. assert (Hi' : (i < vn x)%nat) by lia. pose proof (dLagr_eq x u G a C bl bu xl xu tr i D Hi') as DL. cbv zeta in DL. fold pb in DL.
    rewrite <- DL. apply (proj1 (ninf_le _ _ _) H1). lia.
  - intros i Hi. rewrite Nc, Nb in Hi. destruct (Nat.ltb_spec i (bn bl)) as [Hg|Hg].
    + unfold pb. rewrite (cval_general G a C bl bu xl xu tr x i E1 E3 Hg). fold pb.
      unfold clo, cup. rewrite Nc, (proj2 (Nat.ltb_lt _ _) Hg). apply (check_sound _ _ _ _ _ _ Htx Htu (H2 i Hg)).
      intros l b K1 K2. apply (O1 i l b); auto.
    + replace i with (bn bl + (i - bn bl))%nat by lia. set (k := (i - bn bl)%nat) in *. assert (Hk : (k < bn xl)%nat) by lia.
      unfold pb. rewrite (cval_bound G a C bl bu xl xu tr x k E1 E3) by lia. fold pb.
      unfold clo, cup. rewrite Nc. rewrite (proj2 (Nat.ltb_ge (bn bl + k) (bn bl))) by lia. replace (bn bl + k - bn bl)%nat with k by lia.
      apply (check_sound _ _ _ _ _ _ Htx Htu (H3 k Hk)). intros l b K1 K2. apply (O2 k l b); auto.
Qed.

Definition symmetric (n : nat) (M : rmat) : Prop := forall i j, (i < n)%nat -> (j < n)%nat -> M i j = M j i.

(** With zero tolerances and a symmetric positive definite G the accepted point is the global minimiser. *)
Theorem C26_exact_acceptance_is_optimal : forall x u G a C bl bu xl xu tr,
  testKKT x u G a C bl bu xl xu tr 0 0 = Ok true -> bounds_ordered bl bu -> bounds_ordered xl xu ->
  symmetric (vn a) (ma G) -> posdef (vn a) (hess (qp_of G a C bl bu xl xu tr)) ->
  kkt (qp_of G a C bl bu xl xu tr) (va x) (va u) /\ unique_minimiser (qp_of G a C bl bu xl xu tr) (va x).
Proof.
  intros x u G a C bl bu xl xu tr H O1 O2 HS HP. pose proof H as HH.
  apply C26_accepts_only_near_kkt in H; auto; try lra. rewrite !Rmult_0_l in H. destruct H as [H1 H2].
  apply testKKT_unfold in HH as [D _].
  destruct (dims_facts _ _ _ _ _ _ _ _ _ _ D) as (E1 & E2 & E3 & E4 & E5 & E6 & E7).
  set (pb := qp_of G a C bl bu xl xu tr) in *.
  assert (Nv : nv pb = vn a) by exact E3. assert (Nc : nc pb = bn bl) by reflexivity. assert (Nb : nb pb = bn xl) by reflexivity.
  assert (Hb : (nb pb <= nv pb)%nat) by (rewrite Nb, Nv; destruct E6; lia).
  assert (Z : forall t, Rabs t <= 0 -> t = 0) by (intros t; unfold Rabs; destruct (Rcase_abs t); lra).
  assert (Fe : feasible pb (va x)).
  { apply feasible_iff; auto. intros i Hi. destruct (H2 i Hi) as (K1 & K2 & _). unfold above_lo, below_up. split.
    - destruct (clo pb i) as [l|] eqn:El; auto. specialize (K1 l eq_refl). lra.
    - destruct (cup pb i) as [b|] eqn:Eb; auto. specialize (K2 b eq_refl). lra. }
  assert (K : kkt pb (va x) (va u)).
  { split; auto.
    - intros i Hi. specialize (H1 i Hi). apply Z in H1. unfold gradient. eapply eq_trans; [|exact H1]. f_equal. f_equal.
      rewrite (sum_ext (nv pb) (fun j => hess pb i j * va x j) (fun j => ma G i j * va x j)); [reflexivity|].
      intros j Hj. f_equal. unfold hess, gsym. change (p_G pb) with (ma G). destruct (j <=? i)%nat; auto. symmetry. apply HS; lia.
    - intros j Hj. destruct (H2 j) as (_ & _ & K3 & K4); [lia|].
      unfold clo, cup, cvec in K3, K4. rewrite (proj2 (Nat.ltb_lt _ _) Hj) in K3, K4. split; intros Hu.
      + destruct K3 as (b & Eb & Kb); [lra|]. apply Z in Kb. rewrite Eb. f_equal. lra.
      + destruct K4 as (b & Eb & Kb); [lra|]. apply Z in Kb. rewrite Eb. f_equal. lra.
    - intros i Hi. destruct (H2 (nc pb + i)%nat) as (_ & _ & K3 & K4); [lia|].
      assert (Ev : rdot (nv pb) (cvec pb (nc pb + i)) (va x) = va x i).
      { unfold pb. rewrite <- (cval_bound G a C bl bu xl xu tr x i E1 E3); [reflexivity|]. rewrite <- Nv. lia. }
      unfold clo, cup in K3, K4. rewrite (proj2 (Nat.ltb_ge (nc pb + i) (nc pb))) in K3, K4 by lia. replace (nc pb + i - nc pb)%nat with i in K3, K4 by lia.
      split; intros Hu.
      + destruct K3 as (b & Eb & Kb); [lra|]. apply Z in Kb. rewrite Eb. f_equal. lra.
      + destruct K4 as (b & Eb & Kb); [lra|]. apply Z in Kb. rewrite Eb. f_equal. lra. }
  split; auto. apply (kkt_unique_minimiser pb (va x) (va u)); auto. rewrite Nv. auto.
Qed.
(** Exact KKT points are accepted whatever the tolerances. *)
Theorem C26_exact_kkt_accepted : forall x u G a C bl bu xl xu tr tp td, 0 <= tp -> 0 <= td ->
  dims_qp x u G a C bl bu xl xu tr = true -> symmetric (vn a) (ma G) ->
  kkt (qp_of G a C bl bu xl xu tr) (va x) (va u) -> testKKT x u G a C bl bu xl xu tr tp td = Ok true.
Proof.
  intros x u G a C bl bu xl xu tr tp td Hp Hd D HS K.
  assert (HR : exists b, testKKT x u G a C bl bu xl xu tr tp td = Ok b).
  { unfold testKKT, testKKTStationarity, testKKTFeasibility. rewrite D, (dims_qp_fp _ _ _ _ _ _ _ _ _ _ D). cbn [guard bind]. eauto. }
  destruct HR as [b HR]. rewrite HR. f_equal. apply testKKT_unfold in HR as [_ HR]. apply HR. clear HR.
  destruct (dims_facts _ _ _ _ _ _ _ _ _ _ D) as (E1 & E2 & E3 & E4 & E5 & E6 & E7).
  pose proof (ninf_nonneg (vn x) (va x)). pose proof (ninf_nonneg (vn u) (va u)).
  assert (Htx : 0 <= tp * (1 + ninf (vn x) (va x))) by (apply Rmult_le_pos; lra).
  assert (Htu : 0 <= td * (1 + ninf (vn u) (va u))) by (apply Rmult_le_pos; lra).
  set (pb := qp_of G a C bl bu xl xu tr) in *.
  assert (Nv : nv pb = vn a) by exact E3. assert (Nc : nc pb = bn bl) by reflexivity. assert (Nb : nb pb = bn xl) by reflexivity.
  destruct K as [K1 [F1 F2] K3 K4]. split.
  - rewrite ninf_zero; auto. intros i Hi. rewrite (dLagr_eq x u G a C bl bu xl xu tr i D Hi). fold pb.
    assert (Hi' : (i < nv pb)%nat) by lia. eapply eq_trans; [|exact (K1 i Hi')]. unfold gradient. f_equal. f_equal. f_equal.
    apply sum_ext. intros j Hj. f_equal. unfold hess, gsym. change (p_G pb) with (ma G). destruct (j <=? i)%nat; auto. apply HS; lia.
  - assert (Cx : forall i, rdot (nv pb) (fun k => p_C pb k i) (va x) = cxval x C tr i).
    { intros i. unfold cxval. rewrite dot_def, Nv, E1. unfold pb. cbn [p_C qp_of]. destruct tr; reflexivity. }
    split; intros i Hi.
    + destruct (F1 i Hi) as [A1 A2]. destruct (K3 i Hi) as [B1 B2]. rewrite Cx in *. apply check_complete; auto.
    + destruct (F2 i Hi) as [A1 A2]. destruct (K4 i Hi) as [B1 B2]. apply check_complete; auto.
Qed.
(** The sizes it asks for: with any others it fails an assertion instead of answering, with these it always answers. *)
Definition sizes_fit (x u : dvec) (G : dmat) (a : dvec) (C : dmat) (bl bu xl xu : bvec) (tr : bool) : Prop :=
  let n := vn a in let m := bn bl in
  vn x = n /\ mr G = n /\ mc G = n /\ bn bu = m /\ (bn xl = 0 \/ bn xl = n)%nat /\ bn xu = bn xl /\ vn u = (m + bn xl)%nat /\
  (if tr then mr C = n /\ mc C = m else mr C = m /\ mc C = n).
Lemma dims_qp_iff x u G a C bl bu xl xu tr : dims_qp x u G a C bl bu xl xu tr = true <-> sizes_fit x u G a C bl bu xl xu tr.
Proof.
  unfold dims_qp, dims_cstr, sizes_fit. cbv zeta. rewrite !andb_true_iff, !orb_true_iff, !andb_true_iff, !Nat.eqb_eq. destruct tr; cbn [negb]; intuition (congruence || auto).
Qed.
Theorem C26_sizes : forall x u G a C bl bu xl xu tr tp td,
  (testKKT x u G a C bl bu xl xu tr tp td = UB <-> ~ sizes_fit x u G a C bl bu xl xu tr) /\
  (sizes_fit x u G a C bl bu xl xu tr -> exists b, testKKT x u G a C bl bu xl xu tr tp td = Ok b).
Proof.
  intros x u G a C bl bu xl xu tr tp td. rewrite <- dims_qp_iff.
  assert (K : dims_qp x u G a C bl bu xl xu tr = true -> exists b, testKKT x u G a C bl bu xl xu tr tp td = Ok b).
  { intros D. unfold testKKT, testKKTStationarity, testKKTFeasibility. rewrite D, (dims_qp_fp _ _ _ _ _ _ _ _ _ _ D). cbn [guard bind]. eauto. }
  split; [|exact K]. split.
  - intros H D. destruct (K D) as (b & E). congruence.
  - intros H. unfold testKKT, testKKTStationarity. destruct (dims_qp x u G a C bl bu xl xu tr); [contradiction H; reflexivity|reflexivity].
Qed.
(** bl <= bu is needed: with 1 <= x <= 0 the infeasible x = 1 with multiplier 0... is
    accepted when it sits on a "bound" with a multiplier of the right sign. *)
Theorem C26_order_needed : testKKT (DV 1 (fun _ => 1)) (DV 1 (fun _ => -1)) (DM 1 1 (fun _ _ => 1)) (DV 1 (fun _ => 0)) (DM 1 1 (fun _ _ => 1))
   (BV 1 (fun _ => Some 1)) (BV 1 (fun _ => Some 0)) (BV 0 (fun _ => None)) (BV 0 (fun _ => None)) false 0 0 = Ok true.
Proof.
  unfold testKKT, testKKTStationarity, testKKTFeasibility. cbn [dims_qp dims_fp dims_cstr vn bn mr mc negb Nat.eqb Nat.add andb orb guard bind].
  f_equal. apply andb_true_intro. split.
  - apply Rleb_true. rewrite Rmult_0_l. cbn [ninf vn]. unfold dLagr. cbn [ninf vn bn va ma Nat.eqb Nat.sub Nat.add].
    rewrite !sum_S, !sum_0. replace (0 + 1 * 1 + 0 + 0 + (0 + 1 * -1)) with 0 by ring. rewrite Rabs_R0. rewrite Rmax_left; lra.
  - cbn [bn seq forallb andb]. rewrite !andb_true_r. rewrite !Rmult_0_l. unfold checkKKTConstraint, cxval. cbn [vn va ma ba].
    rewrite !sum_S, !sum_0. replace (0 + 1 * 1 - 1) with 0 by ring. rewrite Rabs_R0. rewrite (Rleb_true 0 0), (Rleb_true (-1) (- 0)) by lra. reflexivity.
Qed.

(** ** Feasible sets of the constraint representations *)
Definition line (t : bool) (M : dmat) (i : nat) : rvec := fun a => if t then ma M a i else ma M i a.
Definition fdim (c : fcstr) : nat := if ft c then mr (fC c) else mc (fC c).
Definition fc_feasible (c : fcstr) (x : rvec) : Prop :=
  (forall i, (i < bn (fl c))%nat -> above_lo (ba (fl c) i) (rdot (fdim c) (line (ft c) (fC c) i) x) /\ below_up (ba (fu c) i) (rdot (fdim c) (line (ft c) (fC c) i) x)) /\
  (forall i, (i < bn (fxl c))%nat -> above_lo (ba (fxl c) i) (x i) /\ below_up (ba (fxu c) i) (x i)).
(** E x = f, l <= C x <= u, xl <= x <= xu *)
Definition sc_feasible (s : scstr) (x : rvec) : Prop :=
  (forall i, (i < vn (sf s))%nat -> rdot (fdim (sbase s)) (line (ft (sbase s)) (sE s) i) x = va (sf s) i) /\ fc_feasible (sbase s) x.

Lemma fc_wf_facts c ne : fc_wellFormed c ne = Ok true ->
  bn (fl c) = bn (fu c) /\ bn (fxl c) = bn (fxu c) /\ bn (fl c) = (if ft c then mc (fC c) else mr (fC c)) /\
  (bn (fxl c) = O \/ bn (fxl c) = fdim c) /\
  (forall i, (i < bn (fl c))%nat -> ble ne (ba (fl c) i) (ba (fu c) i) = true) /\
  (forall i, (i < bn (fxl c))%nat -> ble false (ba (fxl c) i) (ba (fxu c) i) = true).
Proof.
  unfold fc_wellFormed. intros H. apply guard_ok in H as [H0 H]. apply andb_prop in H0 as [G1 G2]. injection H as H.
  repeat (apply andb_prop in H as [H ?]). apply Nat.eqb_eq in G1, G2. split; auto. split; auto.
  split; [destruct (ft c); apply Nat.eqb_eq; auto|]. split.
  { destruct (Nat.eqb_spec (bn (fxl c)) 0); auto. right. unfold fdim. destruct (ft c); apply Nat.eqb_eq; auto. }
  split; intros i Hi; [rewrite forallb_forall in H1; apply H1|rewrite forallb_forall in H0; apply H0]; apply in_seq; lia.
Qed.
Lemma fc_wf_intro c ne : bn (fl c) = bn (fu c) -> bn (fxl c) = bn (fxu c) -> bn (fl c) = (if ft c then mc (fC c) else mr (fC c)) ->
  (bn (fxl c) = O \/ bn (fxl c) = fdim c) ->
  (forall i, (i < bn (fl c))%nat -> ble ne (ba (fl c) i) (ba (fu c) i) = true) ->
  (forall i, (i < bn (fxl c))%nat -> ble false (ba (fxl c) i) (ba (fxu c) i) = true) -> fc_wellFormed c ne = Ok true.
Proof.
  intros H1 H2 H3 H4 H5 H6. unfold fc_wellFormed. rewrite H1, H2, !Nat.eqb_refl. cbn [andb guard]. f_equal.
  rewrite <- H1, <- H2.
  assert (B2 : (if ft c then bn (fl c) =? mc (fC c) else bn (fl c) =? mr (fC c))%nat = true) by (destruct (ft c); rewrite H3; apply Nat.eqb_refl).
  rewrite B2. cbn [andb].
  assert (B4 : (if bn (fxl c) =? 0 then true else if ft c then bn (fxl c) =? mr (fC c) else bn (fxl c) =? mc (fC c))%nat = true).
  { destruct (Nat.eqb_spec (bn (fxl c)) 0); auto. destruct H4 as [|H4]; [lia|]. unfold fdim in H4. destruct (ft c); rewrite H4; apply Nat.eqb_refl. }
  rewrite B4. cbn [andb]. apply andb_true_intro. split; apply forallb_forall; intros i Hi; apply in_seq in Hi; [apply H5|apply H6]; lia.
Qed.
Lemma ble_weaken a b : ble true a b = true -> ble false a b = true.
Proof. destruct a, b; simpl; auto. destruct (Rltb_spec r r0); [|discriminate]. intros _. apply Rleb_true. lra. Qed.

(** C28: converting separated constraints succeeds exactly on well-formed ones; the
    result is well formed and has the same feasible points. *)
Theorem C28_joint_of_separated : forall s, sc_wellFormed s = Ok true ->
  exists c, joint_of_sep s = Ok c /\ fc_wellFormed c false = Ok true /\ fdim c = fdim (sbase s) /\
  forall x, fc_feasible c x <-> sc_feasible s x.
Proof.
  intros s H. unfold joint_of_sep. rewrite H. cbn [bind guard].
  unfold sc_wellFormed in H. apply bind_ok in H as (b1 & W & H). injection H as H.
  apply andb_prop in H as [H B3]. apply andb_prop in H as [-> B2].
  destruct (fc_wf_facts _ _ W) as (W1 & W2 & W3 & W4 & W5 & W6).
  destruct s as [[C l u xl xu t] E f]. cbn [sbase sE sf fC fl fu fxl fxu ft] in *. unfold fdim in W4. cbn [fC ft] in W4.
  set (c := FC _ _ _ _ _ _). exists c.
  assert (Hd : fdim c = fdim (FC C l u xl xu t)) by (unfold fdim, c; cbn [fC ft]; destruct t; auto).
  split; auto. split; [|split; auto].
  - apply fc_wf_intro; unfold c; cbn [fC fl fu fxl fxu ft bn ba]; auto.
    + rewrite W3. destruct t; cbn [mr mc]; apply Nat.eqb_eq in B3; rewrite B3; auto.
    + unfold fdim. cbn [fC ft]. destruct t; auto.
    + intros i Hi. destruct (Nat.ltb_spec i (vn f)); [simpl; apply Rleb_true; lra|]. apply ble_weaken. apply W5. lia.
  - intros x. unfold sc_feasible, fc_feasible. cbn [sbase sE sf fl fu fxl fxu ft bn ba]. rewrite Hd. unfold c. cbn [fl fu fxl fxu ft bn ba fC].
    assert (LE : forall i, (i < vn f)%nat -> forall a, line t (if t then DM (mr C) (mc C + mc E) (fun i j => if (j <? mc E)%nat then ma E i j else ma C i (j - mc E)%nat)
       else DM (mr C + mr E) (mc C) (fun i j => if (i <? mr E)%nat then ma E i j else ma C (i - mr E)%nat j)) i a = line t E i a).
    { intros i Hi a. unfold line. destruct t; cbn [ma]; apply Nat.eqb_eq in B3; rewrite <- B3; rewrite (proj2 (Nat.ltb_lt _ _) Hi); auto. }
    assert (LC : forall i, (vn f <= i)%nat -> forall a, line t (if t then DM (mr C) (mc C + mc E) (fun i j => if (j <? mc E)%nat then ma E i j else ma C i (j - mc E)%nat)
       else DM (mr C + mr E) (mc C) (fun i j => if (i <? mr E)%nat then ma E i j else ma C (i - mr E)%nat j)) i a = line t C (i - vn f) a).
    { intros i Hi a. unfold line. destruct t; cbn [ma]; apply Nat.eqb_eq in B3; rewrite <- B3; rewrite (proj2 (Nat.ltb_ge _ _)) by lia; auto. }
    split.
    + intros [F1 F2]. split.
      * intros i Hi. destruct (F1 i) as [K1 K2]; [lia|]. rewrite (proj2 (Nat.ltb_lt _ _) Hi) in K1, K2. cbn in K1, K2.
        rewrite (dot_ext _ _ (line t E i) x x) in K1, K2 by (intros; auto). lra.
      * split; auto. intros i Hi. destruct (F1 (vn f + i)%nat) as [K1 K2]; [lia|].
        rewrite (proj2 (Nat.ltb_ge _ _)) in K1, K2 by lia. replace (vn f + i - vn f)%nat with i in K1, K2 by lia.
        rewrite (dot_ext _ _ (line t C i) x x) in K1, K2; auto; intros k _; rewrite LC by lia; f_equal; lia.
    + intros [F1 [F2 F3]]. split; auto. intros i Hi. destruct (Nat.ltb_spec i (vn f)) as [Hf|Hf].
      * rewrite (dot_ext _ _ (line t E i) x x) by (intros; auto). rewrite F1 by auto. simpl. lra.
      * rewrite (dot_ext _ _ (line t C (i - vn f)) x x) by (intros; auto). apply F2. lia.
Qed.
Theorem C28_defined_iff : forall s c, joint_of_sep s = Ok c -> sc_wellFormed s = Ok true.
Proof. intros s c H. unfold joint_of_sep in H. apply bind_ok in H as (b & E & H). apply guard_ok in H as [-> _]. auto. Qed.

(** C29 does not hold: the conversion is undefined (out-of-range read) as soon as
    there is one general constraint. *)
Theorem C29_undefined_with_constraints : forall c, fc_wellFormed c false = Ok true -> (0 < bn (fl c))%nat -> sep_of_joint c = UB.
Proof.
  intros c W H. unfold sep_of_joint. rewrite W. cbn [bind guard]. destruct (bn (fl c)) as [|k]; [lia|].
  cbn [count_loop]. destruct (count_loop 0 k); reflexivity.
Qed.
Theorem C29_no_constraint : forall c, fc_wellFormed c false = Ok true -> bn (fl c) = O ->
  exists s, sep_of_joint c = Ok s /\ forall x, sc_feasible s x <-> fc_feasible c x.
Proof.
  intros c W H. unfold sep_of_joint. rewrite W, H. cbn [bind guard count_loop fill_loop]. eexists. split; [reflexivity|].
  intros x. unfold sc_feasible, fc_feasible. cbn [sbase sE sf fl fu fxl fxu ft bn ba vn]. rewrite H. split.
  - intros [_ [_ F]]. split; auto. intros; lia.
  - intros [_ F]. split; [intros; lia|]. split; auto. intros; lia.
Qed.

(** ** C27 *)
Definition ls_objective {F} (ls : lsproblem F) (x : rvec) : R :=
  / 2 * rsum (mr (lsA ls)) (fun k => (rsum (mc (lsA ls)) (fun j => ma (lsA ls) k j * x j) - va (lsb ls) k) * (rsum (mc (lsA ls)) (fun j => ma (lsA ls) k j * x j) - va (lsb ls) k)).
Definition qp_objective {F} (q : qpproblem F) (x : rvec) : R :=
  / 2 * rsum (mc (qpG q)) (fun i => x i * rsum (mc (qpG q)) (fun j => ma (qpG q) i j * x j)) + rsum (vn (qpa q)) (fun i => va (qpa q) i * x i) + qpcst q.
Lemma gram_quad m n (A : rmat) (x : rvec) :
  rsum n (fun i => x i * rsum n (fun j => rsum m (fun k => A k i * A k j) * x j)) =
  rsum m (fun k => rsum n (fun j => A k j * x j) * rsum n (fun j => A k j * x j)).
Proof.
  rewrite (sum_ext n _ (fun i => rsum m (fun k => x i * A k i * rsum n (fun j => A k j * x j)))).
  - rewrite sum_swap. apply sum_ext. intros k _. rewrite <- sum_scal_r. apply sum_ext. intros i _. ring.
  - intros i _. rewrite (sum_ext n _ (fun j => rsum m (fun k => A k i * (A k j * x j)))).
    + rewrite sum_swap. rewrite <- sum_scal. apply sum_ext. intros k _. rewrite sum_scal. ring.
    + intros j _. rewrite <- sum_scal_r. apply sum_ext. intros; ring.
Qed.
(** For every x: |Ax-b|^2/2 = x'Gx/2 + a'x + objCst + |b|^2/2, the last (dropped) term
    not depending on x; the feasible set is the one of the converted constraints. *)
Theorem C27_least_squares_objective : forall F F' (conv : F -> res F') (ls : lsproblem F) q, qp_of_ls conv ls = Ok q ->
  conv (lsF ls) = Ok (qpF q) /\
  forall x, ls_objective ls x = qp_objective q x + / 2 * rsum (mr (lsA ls)) (fun k => va (lsb ls) k * va (lsb ls) k).
Proof.
  intros F F' conv [f [m n A] [nb b]] q H. unfold qp_of_ls in H. cbn [lsF lsA lsb mr mc ma vn va] in H.
  apply bind_ok in H as (f' & Ef & H). apply guard_ok in H as [_ H]. injection H as <-. split; auto. intros x.
  unfold ls_objective, qp_objective. cbn [lsF lsA lsb mr mc ma vn va qpG qpa qpcst]. rewrite gram_quad.
  assert (E2 : rsum n (fun i => rsum m (fun k => - A k i * b k) * x i) = - rsum m (fun k => b k * rsum n (fun j => A k j * x j))).
  { rewrite (sum_ext n _ (fun i => rsum m (fun k => - (b k * (A k i * x i))))).
    - rewrite sum_swap. rewrite <- sum_opp. apply sum_ext. intros k _. rewrite sum_opp. f_equal. apply sum_scal.
    - intros i _. rewrite <- sum_scal_r. apply sum_ext. intros; ring. }
  rewrite E2.
  rewrite (sum_ext m (fun k => (rsum n (fun j => A k j * x j) - b k) * (rsum n (fun j => A k j * x j) - b k))
     (fun k => (rsum n (fun j => A k j * x j) * rsum n (fun j => A k j * x j) - 2 * (b k * rsum n (fun j => A k j * x j))) + b k * b k)) by (intros; ring).
  rewrite sum_plus, sum_minus, sum_scal. field.
Qed.
(** Hence the same minimisers over any set. *)
Theorem C27_same_minimisers : forall F F' (conv : F -> res F') (ls : lsproblem F) q, qp_of_ls conv ls = Ok q ->
  forall x y, ls_objective ls x <= ls_objective ls y <-> qp_objective q x <= qp_objective q y.
Proof.
  intros F F' conv ls q H x y. destruct (C27_least_squares_objective F F' conv ls q H) as [_ E]. rewrite !E. split; intros; lra.
Qed.

(** ** C38: the constant is lost *)
Theorem C38_conversion_drops_constant : forall F F' (conv : F -> res F') q q', qp_of_qp conv q = Ok q' ->
  conv (qpF q) = Ok (qpF q') /\ forall x, qp_objective q x = qp_objective q' x + qpcst q.
Proof.
  intros F F' conv q q' H. unfold qp_of_qp in H. apply bind_ok in H as (f & E & H). injection H as <-. split; auto.
  intros x. unfold qp_objective. cbn [qpG qpa qpcst]. ring.
Qed.
Theorem C38_separated_to_joint : forall (q : qpproblem scstr) q', qp_of_qp joint_of_sep q = Ok q' ->
  forall x, (fc_feasible (qpF q') x <-> sc_feasible (qpF q) x) /\ (qp_objective q' x = qp_objective q x <-> qpcst q = 0).
Proof.
  intros q q' H x. destruct (C38_conversion_drops_constant _ _ _ _ _ H) as [E1 E2]. split.
  - destruct (C28_joint_of_separated (qpF q) (C28_defined_iff _ _ E1)) as (c & Ec & _ & _ & Hf). rewrite Ec in E1. injection E1 as <-. apply Hf.
  - rewrite E2. split; intros; lra.
Qed.

(** ** C45: wellFormed *)
(** FeasibilityConstraints::wellFormed() accepts exactly the consistent data, but
    asserts (instead of answering false) on different sizes of l,u or xl,xu. *)
Theorem C45_wellFormed_iff : forall c ne,
  (fc_wellFormed c ne = UB <-> bn (fl c) <> bn (fu c) \/ bn (fxl c) <> bn (fxu c)) /\
  (fc_wellFormed c ne = Ok true <->
    bn (fl c) = bn (fu c) /\ bn (fxl c) = bn (fxu c) /\ bn (fl c) = (if ft c then mc (fC c) else mr (fC c)) /\
    (bn (fxl c) = O \/ bn (fxl c) = fdim c) /\
    (forall i a b, (i < bn (fl c))%nat -> ba (fl c) i = Some a -> ba (fu c) i = Some b -> if ne then a < b else a <= b) /\
    (forall i a b, (i < bn (fxl c))%nat -> ba (fxl c) i = Some a -> ba (fxu c) i = Some b -> a <= b)).
Proof.
  intros c ne. split.
  - unfold fc_wellFormed. destruct (Nat.eqb_spec (bn (fl c)) (bn (fu c))); destruct (Nat.eqb_spec (bn (fxl c)) (bn (fxu c))); cbn [andb guard]; split; auto; try discriminate; intros [|]; congruence.
  - split.
    + intros H. destruct (fc_wf_facts c ne H) as (W1 & W2 & W3 & W4 & W5 & W6). do 4 (split; auto). split.
      * intros i a b Hi Ea Eb. specialize (W5 i Hi). rewrite Ea, Eb in W5. simpl in W5. destruct ne; [destruct (Rltb_spec a b); auto; discriminate|destruct (Rleb_spec a b); auto; discriminate].
      * intros i a b Hi Ea Eb. specialize (W6 i Hi). rewrite Ea, Eb in W6. simpl in W6. destruct (Rleb_spec a b); auto; discriminate.
    + intros (W1 & W2 & W3 & W4 & W5 & W6). apply fc_wf_intro; auto.
      * intros i Hi. unfold ble. destruct (ba (fl c) i) as [a|] eqn:Ea; auto. destruct (ba (fu c) i) as [b|] eqn:Eb; auto.
        specialize (W5 i a b Hi Ea Eb). destruct ne; [apply Rltb_true|apply Rleb_true]; auto.
      * intros i Hi. unfold ble. destruct (ba (fxl c) i) as [a|] eqn:Ea; auto. destruct (ba (fxu c) i) as [b|] eqn:Eb; auto.
        apply Rleb_true. apply (W6 i a b); auto.
Qed.
(** QPProblem::wellFormed() (b4) rejects every transposed problem whose numbers of
    constraints and variables differ, even when all sizes agree. *)
Theorem C45_transposed_rejected : forall (q : qpproblem fcstr), ft (qpF q) = true -> mc (fC (qpF q)) <> mc (qpG q) ->
  forall b, qp_wellFormed (fun c => fc_wellFormed c false) (fun c => c) q = Ok b -> b = false.
Proof.
  intros q Ht Hn b H. unfold qp_wellFormed in H. apply bind_ok in H as (b1 & _ & H). injection H as <-.
  rewrite (proj2 (Nat.eqb_neq (mc (qpG q)) (mc (fC (qpF q))))) by auto. apply andb_false_r.
Qed.
Theorem C45_not_transposed : forall (q : qpproblem fcstr), ft (qpF q) = false ->
  (qp_wellFormed (fun c => fc_wellFormed c false) (fun c => c) q = Ok true <->
   fc_wellFormed (qpF q) false = Ok true /\ mc (qpG q) = mc (fC (qpF q)) /\ vn (qpa q) = mc (qpG q)).
Proof.
  intros q Ht. unfold qp_wellFormed. rewrite Ht. split.
  - intros H. apply bind_ok in H as (b1 & E & H). injection H as H. repeat (apply andb_prop in H as [H ?]). subst b1.
    apply Nat.eqb_eq in H0, H1, H2. auto.
  - intros (E & H1 & H2). rewrite E. cbn [bind]. rewrite H2, <- H1, !Nat.eqb_refl. reflexivity.
Qed.

(** ** Concrete instances *)
(** min (x^2+y^2)/2 s.t. x + y >= 2, x <= 5: x = (1,1), multipliers (-1; 0,0) *)
Definition ex_G := DM 2 2 (fun i j => if (i =? j)%nat then 1 else 0).
Definition ex_C := DM 1 2 (fun _ _ => 1).
Definition ex_x := DV 2 (fun _ => 1).
Definition ex_u := DV 3 (fun i => match i with O => -1 | _ => 0 end).
Definition ex_bl := BV 1 (fun _ => Some 2).
Definition ex_bu := BV 1 (fun _ => None).
Definition ex_xl := BV 2 (fun _ => None).
Definition ex_xu := BV 2 (fun i => match i with O => Some 5 | _ => None end).
Lemma ex_kkt : kkt (qp_of ex_G (DV 2 (fun _ => 0)) ex_C ex_bl ex_bu ex_xl ex_xu false) (va ex_x) (va ex_u).
Proof.
  split; unfold nv, nc, nb; cbn [qp_of p_Grows p_Ccols p_xlsize ex_G ex_C ex_x ex_u ex_bl ex_bu ex_xl ex_xu mr mc bn va vn p_C p_bl p_bu p_xl p_xu ba].
  - intros i Hi. unfold gradient, hess, gsym, nv. cbn [qp_of p_Grows p_G p_a p_C ex_G ex_C mr mc ma va vn].
    rewrite !sum_S, !sum_0. destruct i as [|[|?]]; [| |lia]; cbn; lra.
  - split; unfold nv, nc, nb; cbn [qp_of p_Grows p_Ccols p_xlsize ex_G ex_C mr mc bn va vn p_C p_bl p_bu p_xl p_xu ba]; intros i Hi.
    + rewrite dot_def, !sum_S, !sum_0. simpl. lra.
    + cbn in Hi. destruct i as [|[|?]]; [| |lia]; split; cbn; try exact I; lra.
  - intros j Hj. assert (j = O) as -> by lia. rewrite dot_def, !sum_S, !sum_0. simpl; cbn;  split; intros H; [lra|]. f_equal. lra.
  - intros i Hi. destruct i as [|[|?]]; [| |lia]; cbn; split; intros H; lra.
Qed.
Example ex_accepted : testKKT ex_x ex_u ex_G (DV 2 (fun _ => 0)) ex_C ex_bl ex_bu ex_xl ex_xu false 0 0 = Ok true.
Proof.
  apply C26_exact_kkt_accepted; try lra; [reflexivity| |exact ex_kkt].
  intros i j _ _. cbn [ex_G ma]. rewrite Nat.eqb_sym. reflexivity.
Qed.
(** moving x off the optimum is rejected *)
Example ex_rejected : testKKT (DV 2 (fun _ => 2)) ex_u ex_G (DV 2 (fun _ => 0)) ex_C ex_bl ex_bu ex_xl ex_xu false 0 0 <> Ok true.
Proof.
  intros H. apply C26_accepts_only_near_kkt in H; try lra; [|intros i a b; cbn; discriminate|intros i a b; cbn; discriminate].
  destruct H as [H _]. rewrite Rmult_0_l in H. specialize (H O). unfold nv, nc, nb in H.
  cbn [qp_of p_Grows p_Ccols p_xlsize p_C ex_G ex_C ex_u ex_bl ex_xl mr mc ma bn va vn] in H. rewrite !sum_S, !sum_0 in H. cbn in H.
  assert (K : (0 < 2)%nat) by lia. specialize (H K). revert H. unfold Rabs. destruct (Rcase_abs _); lra.
Qed.
(** E = [1 1], f = 1, with 0 <= x - y <= 3, x >= 0, y >= 0, rows *)
Definition ex_sep := SCs (FC (DM 1 2 (fun _ j => match j with O => 1 | _ => -1 end)) (BV 1 (fun _ => Some 0)) (BV 1 (fun _ => Some 3))
                             (BV 2 (fun _ => Some 0)) (BV 2 (fun _ => None)) false) (DM 1 2 (fun _ _ => 1)) (DV 1 (fun _ => 1)).
Example ex_sep_wf : sc_wellFormed ex_sep = Ok true.
Proof.
  unfold sc_wellFormed, fc_wellFormed. cbn. rewrite (Rltb_true 0 3) by lra. reflexivity.
Qed.
Example ex_ls : exists q, qp_of_ls joint_of_sep (LS ex_sep (DM 3 2 (fun i j => INR (i + j))) (DV 3 (fun i => INR i))) = Ok q.
Proof. unfold qp_of_ls. cbn [lsF lsA lsb]. destruct (C28_joint_of_separated _ ex_sep_wf) as (c & -> & _). cbn. eauto. Qed.

(** Non-interference for the structured QR and the block solver: a call depends only on
    the problem (the lower triangles of the diagonal blocks of G, ...), the options and
    the statuses, not on what the object did before nor on the contents of fresh memory. *)
From Coq Require Import List Arith ZArith Lia Bool.
From Verif Require Import Base ActiveSet ActiveSetProofs Num Solver LinAlg GIBase GISafe GICall GIHist GISame Util PropUtil Warm WarmAS Block BlockSpec BlockDense
  Ortho StructC PropStructC StructG BlockGI BlockGen BlockGenQR BlockGenGI BlockSame.
Import ListNotations.

Section Same.
Variable S : ops.
Variable isz : carrier S -> bool.
Variable tiny : carrier S.
Notation vec := (vec S).
Notation mat := (mat S).
Notation blk := (blk S).
Notation vagr := (vagr S).
Notation uagr := (uagr S).
Notation gagr := (gagr S).
Notation qagr := (qagr S).
Notation qrs := (qrs S).

(** ** Structured QR *)
Definition Rof (r : qrs) : mat := view (r_ld r) (w_buf (r_R r)).
Record qrel (n : nat) (r r' : qrs) : Prop := {
  qe_ok : qready S n r; qe_ok' : qready S n r'; qe_q : r_q r = r_q r'; qe_R : uagr (r_q r) (Rof r) (Rof r'); qe_Q : qagr (r_Q r) (r_Q r') }.

Lemma w_list_nth_g (w : work S) k : (k < w_size w)%nat -> nth_error (w_list w) k = Some (w_buf w k).
Proof.
  intros H. unfold w_list. rewrite (nth_error_nth' _ (w_buf w 0%nat)) by (rewrite map_length, seq_length; auto). rewrite map_nth, seq_nth by auto. reflexivity.
Qed.
Lemma getR_val n r q' R r' : qgen S n r -> (r_q r <= r_ld r)%nat -> (q' <= r_q r + 1)%nat -> getR r q' = Ok (R, r') ->
  R = Rof r' /\ (q' <= r_ld r')%nat /\ r_q r' = r_q r /\ r_Q r' = r_Q r /\ r_n r' = n /\ (r_q r <= r_ld r')%nat /\
  forall i j, (i < r_q r)%nat -> (j < r_q r)%nat -> Rof r' i j = Rof r i j.
Proof.
  intros [W1 W3 W4 W5 W6 W7] Hq Hq' E. unfold getR, adjustLdR in E. rewrite W1 in E. apply bind_ok in E as (r1 & E1 & E). apply guard_ok in E1 as [Hn E1]. apply Nat.leb_le in Hn.
  destruct (Nat.ltb_spec (r_ld r) q') as [Hlt|Hge].
  - assert (Eq : r_q r = r_ld r) by lia. set (m := Nat.min (2 * r_ld r) n) in *.
    assert (Hm : (r_ld r < m)%nat) by (unfold m; lia). assert (Hmn : (m <= n)%nat) by (unfold m; lia).
    destruct (C05_changeLd (r_q r) (r_q r) (r_ld r) m (w_list (r_R r))) as (b & Eb & Hlen & Hb & _); try rewrite w_list_len_g; try lia; try nia.
    rewrite Eb in E1. cbn [bind] in E1. injection E1 as <-. cbn [r_R r_ld] in E. rewrite ggetM in E; [|cbn [w_of w_size]; nia|lia]. cbn [bind] in E. injection E as <- <-.
    split; [reflexivity|]. cbn [r_ld r_q r_Q r_n]. split; [lia|]. split; [auto|]. split; [auto|]. split; [auto|]. split; [lia|].
    intros i j Hi Hj. unfold Rof. cbn [r_R r_ld]. unfold view at 1. cbn [w_of w_buf]. rewrite w_list_len_g in Hlen.
    pose proof (Hb i j Hi Hj) as HH. rewrite w_list_nth_g in HH by nia. apply nth_error_nth with (d := w_buf (r_R r) (i + m * j)%nat) in HH. exact HH.
  - injection E1 as <-. rewrite ggetM in E; [|nia|lia]. cbn [bind] in E. injection E as <- <-. repeat split; auto.
Qed.

Lemma RSolve_rel n r r' q (out out' inp inp' : vec) : qrel n r r' -> vagr q inp inp' ->
  pr (fun a b => vagr q (fst a) (fst b) /\ qrel n (snd a) (snd b)) (sqr_RSolve r q out q inp) (sqr_RSolve r' q out' q inp').
Proof.
  intros HQ Hv (x, r1) (x', r1') E E'. pose proof HQ as [(G1 & G2 & G3 & G4) (G1' & G2' & G3' & G4') Eq ER EQ].
  assert (Hq : q = r_q r). { unfold sqr_RSolve in E. apply guard_ok in E as [E _]. apply andb_true_iff in E as [E _]. apply Nat.eqb_eq in E. exact E. }
  destruct (RSolve_sz S n r q out inp (qe_ok _ _ _ HQ) Hq) as (y & Ey). rewrite Ey in E. injection E as -> <-.
  destruct (RSolve_sz S n r' q out' inp' (qe_ok' _ _ _ HQ)) as (y' & Ey'). { congruence. } rewrite Ey' in E'. injection E' as -> <-. cbn [fst snd]. split; [|exact HQ].
  unfold sqr_RSolve in Ey, Ey'. apply guard_ok in Ey as [_ Ey]. apply guard_ok in Ey' as [_ Ey'].
  apply bind_ok in Ey as ([Rm r2] & Eg & Ey). apply bind_ok in Ey' as ([Rm' r2'] & Eg' & Ey'). cbn [fst snd] in *.
  destruct (getR_val n r (r_q r) Rm r2 G1 G2 ltac:(lia) Eg) as (-> & _ & _ & _ & _ & _ & HR).
  destruct (getR_val n r' (r_q r') Rm' r2' G1' G2' ltac:(lia) Eg') as (-> & _ & _ & _ & _ & _ & HR').
  injection Ey as <- _. injection Ey' as <- _. rewrite Hq in Hv |- *. intros i Hi. rewrite !vm_at. unfold vhead. rewrite (proj2 (Nat.ltb_lt _ _) Hi).
  apply (bwd_agr S (r_q r) (r_q r)); auto. intros a b Hab Hb. rewrite HR, HR' by lia. apply ER; auto.
Qed.

Lemma tail_sq_agr m (c c' : vec) : vagr m c c' -> tail_sq m c = tail_sq m c'.
Proof. intros H. unfold tail_sq. apply gsum_ext. intros t Ht. rewrite H by lia. reflexivity. Qed.
Lemma mkHouse_agr m (c c' : vec) : (1 <= m)%nat -> vagr m c c' ->
  fst (mkHouse tiny m c) = fst (mkHouse tiny m c') /\ vagr (m - 1) (snd (mkHouse tiny m c)) (snd (mkHouse tiny m c')).
Proof.
  intros Hm H. unfold mkHouse. rewrite (tail_sq_agr m c c' H), (H 0%nat) by lia. destruct (leb S (tail_sq m c') tiny); cbn; [split; auto; intros i Hi; reflexivity|].
  split; [reflexivity|]. intros i Hi. rewrite H by lia. reflexivity.
Qed.
Lemma add_rel n junk junk' r r' k (d d' : vec) : qrel n r r' -> vagr k d d' ->
  pr (fun a b => fst a = fst b /\ qrel n (snd a) (snd b) /\ r_q (snd a) = Datatypes.S (r_q r)) (sqr_add tiny junk r k d) (sqr_add tiny junk' r' k d').
Proof.
  intros HQ Hd (f, r1) (f', r1') E E'. pose proof HQ as [(G1 & G2 & G3 & G4) (G1' & G2' & G3' & G4') Eq ER EQ].
  assert (Hk : k = n /\ (r_q r < n)%nat).
  { unfold sqr_add in E. apply guard_ok in E as [H1 E]. apply guard_ok in E as [H2 _]. apply Nat.eqb_eq in H1. apply Nat.leb_le in H2. rewrite (qg_n _ _ _ G1) in *. lia. }
  destruct Hk as [-> Hlt]. assert (Hlt' : (r_q r' < n)%nat) by lia.
  destruct (sqr_add_sz S tiny junk n r d (qe_ok _ _ _ HQ) Hlt) as (g & t & Ea & Ga & Qa). rewrite Ea in E. injection E as -> ->.
  destruct (sqr_add_sz S tiny junk' n r' d' (qe_ok' _ _ _ HQ) Hlt') as (g' & t' & Ea' & Ga' & Qa'). rewrite Ea' in E'. injection E' as -> ->. cbn [fst snd].
  enough (H : f = f' /\ uagr (r_q r1) (Rof r1) (Rof r1') /\ qagr (r_Q r1) (r_Q r1')) by (split; [apply H|split; [split; auto; try apply H; congruence|exact Qa]]).
  clear Ga Ga' Qa Qa'. unfold sqr_add in Ea, Ea'. rewrite <- Eq in Ea'. set (q := r_q r) in *.
  rewrite (qg_n _ _ _ G1) in Ea. rewrite (qg_n _ _ _ G1') in Ea'.
  apply guard_ok in Ea as [_ Ea]. apply guard_ok in Ea as [_ Ea]. apply guard_ok in Ea' as [_ Ea']. apply guard_ok in Ea' as [_ Ea'].
  apply bind_ok in Ea as (e0 & _ & Ea). apply bind_ok in Ea' as (e0' & _ & Ea').
  assert (Hc : vagr (n - q) (fun t => d (q + t)%nat) (fun t => d' (q + t)%nat)) by (intros t Ht; apply Hd; lia).
  destruct (mkHouse_agr (n - q) _ _ ltac:(lia) Hc) as [M1 M2]. rewrite (tail_sq_agr _ _ _ Hc) in Ea.
  destruct (mkHouse tiny (n - q) (fun t => d (q + t)%nat)) as [[tau beta] ess]. destruct (mkHouse tiny (n - q) (fun t => d' (q + t)%nat)) as [[tau' beta'] ess']. cbn [fst snd] in M1, M2. injection M1 as <- <-.
  apply bind_ok in Ea as ([Rm r2] & Eg & Ea). apply bind_ok in Ea' as ([Rm' r2'] & Eg' & Ea').
  destruct (getR_val n r (q + 1) Rm r2 G1 G2 ltac:(unfold q; lia) Eg) as (-> & L1 & L2 & L3 & L4 & L5 & HR).
  destruct (getR_val n r' (q + 1) Rm' r2' G1' G2' ltac:(lia) Eg') as (-> & L1' & L2' & L3' & L4' & L5' & HR').
  apply bind_ok in Ea as (Q1 & P1 & Ea). apply bind_ok in Ea as (Q2 & P2 & Ea). apply bind_ok in Ea' as (Q1' & P1' & Ea'). apply bind_ok in Ea' as (Q2' & P2' & Ea').
  injection Ea as <- <-. injection Ea' as <- <-. split; [reflexivity|]. cbn [r_q r_Q]. split.
  - unfold Rof. cbn [r_ld r_R wset w_buf]. intros i j Hij Hj. rewrite !view_unview by lia. destruct (Nat.eqb_spec j q) as [->|Hne].
    + destruct (Nat.ltb_spec i q); [apply Hd; lia|]. destruct (Nat.eqb_spec i q); [reflexivity|lia].
    + change (Rof r2 i j = Rof r2' i j). rewrite HR, HR' by lia. apply ER; unfold q in *; lia.
  - rewrite L3 in P1. rewrite L3' in P1'. pose proof (prepare_agr S junk junk' _ _ OHouseholder (n - q) 1 EQ Q1 Q1' P1 P1') as HQ1.
    refine (addH_agr S Q1 Q1' q (n - q - 1) _ _ tau HQ1 _ Q2 Q2' P2 P2'). intros i Hi. rewrite !vm_at. unfold vhead. rewrite (proj2 (Nat.ltb_lt _ _) Hi). apply M2. lia.
Qed.

Lemma rem_loop_rel ld ld' q cnt : forall i R R' Q Q', (i + cnt = q)%nat -> cagr S q i R R' -> qagr Q Q' ->
  pr (fun a b => cagr S q q (fst a) (fst b) /\ qagr (snd a) (snd b)) (sqr_rem_loop ld q cnt i R Q) (sqr_rem_loop ld' q cnt i R' Q').
Proof.
  induction cnt as [|cnt IH]; intros i R R' Q Q' Hi HR HQ; cbn [sqr_rem_loop].
  - apply pr_ok. replace i with q in HR by lia. auto.
  - rewrite (HR i (Datatypes.S i)), (HR (Datatypes.S i) (Datatypes.S i)) by lia. destruct (makeGivens _ _) as (g, rr).
    eapply pr_bind; [apply addG_agr; exact HQ|]. intros Q1 Q1' HQ1. rewrite !mm_id. apply IH; [lia| |exact HQ1].
    intros a b Hab Hb Hne. unfold rem_R. destruct (Nat.eqb_spec b i) as [->|Hbi].
    + destruct (Nat.ltb_spec a i); [apply HR; lia|]. destruct (Nat.eqb_spec a i); [auto|lia].
    + destruct ((i + 2 <=? b)%nat && (b <=? q)%nat) eqn:Ec; [|apply HR; auto].
      apply andb_true_iff in Ec as [E1 E2]. apply Nat.leb_le in E1, E2. rewrite (HR i b), (HR (Datatypes.S i) b), (HR a b) by lia. auto.
Qed.
Lemma remove_rel n junk junk' r r' l : qrel n r r' -> pr (fun a b => qrel n a b /\ Datatypes.S (r_q a) = r_q r) (sqr_remove junk r l) (sqr_remove junk' r' l).
Proof.
  intros HQ r1 r1' E E'. pose proof HQ as [(G1 & G2 & G3 & G4) (G1' & G2' & G3' & G4') Eq ER EQ].
  assert (Hl : (l < r_q r)%nat).
  { unfold sqr_remove in E. apply guard_ok in E as [H1 E]. apply Nat.leb_le in H1. apply bind_ok in E as ([Rm r2] & _ & E). apply guard_ok in E as [H2 _]. apply Nat.leb_le in H2. lia. }
  assert (Hl' : (l < r_q r')%nat) by lia.
  destruct (sqr_remove_sz S junk n r l (qe_ok _ _ _ HQ) Hl) as (t & Ea & Ga & Qa). rewrite Ea in E. injection E as ->.
  destruct (sqr_remove_sz S junk' n r' l (qe_ok' _ _ _ HQ) Hl') as (t' & Ea' & Ga' & Qa'). rewrite Ea' in E'. injection E' as ->.
  enough (H : uagr (r_q r1) (Rof r1) (Rof r1') /\ qagr (r_Q r1) (r_Q r1')) by (split; [split; auto; try apply H; lia|exact Qa]).
  clear Ga Ga'. unfold sqr_remove in Ea, Ea'. rewrite <- Eq in Ea'. set (q := (r_q r - 1)%nat) in *.
  apply guard_ok in Ea as [_ Ea]. apply guard_ok in Ea' as [_ Ea'].
  apply bind_ok in Ea as ([Rm r2] & Eg & Ea). apply bind_ok in Ea' as ([Rm' r2'] & Eg' & Ea').
  apply guard_ok in Ea as [_ Ea]. apply guard_ok in Ea' as [_ Ea'].
  set (t := QRs q (r_n r) (r_ld r) (r_R r) (r_ess r) (r_Q r)) in Eg. set (t' := QRs q (r_n r') (r_ld r') (r_R r') (r_ess r') (r_Q r')) in Eg'.
  assert (T1 : qgen S n t) by (destruct G1; split; auto). assert (T1' : qgen S n t') by (destruct G1'; split; auto).
  assert (Ev : forall r : qrs, getR r (q + 1)%nat = getR r (q + 1)%nat) by reflexivity. clear Ev.
  (* the leading dimension is already large enough: nothing moves *)
  assert (K : forall (r0 t0 : qrs) Rm0 r20, qgen S n t0 -> r_ld t0 = r_ld r0 -> r_R t0 = r_R r0 -> r_Q t0 = r_Q r0 -> r_q t0 = q -> (q + 1 <= r_ld r0)%nat ->
     getR t0 (q + 1)%nat = Ok (Rm0, r20) -> Rm0 = Rof r0 /\ (q + 1 <= r_ld r20)%nat /\ r_Q r20 = r_Q r0).
  { intros r0 t0 Rm0 r20 HT K1 K2 K3 K4 K5 EG. unfold getR, adjustLdR in EG. apply bind_ok in EG as (r3 & E3 & EG). apply guard_ok in E3 as [_ E3].
    rewrite K1 in E3. rewrite (proj2 (Nat.ltb_ge _ _) K5) in E3. injection E3 as <-. apply bind_ok in EG as (M & EM & EG). apply guard_ok in EM as [_ EM]. injection EM as <-. injection EG as <- <-.
    unfold Rof. rewrite K1, K2. repeat split; auto. }
  destruct (K r t Rm r2 T1 eq_refl eq_refl eq_refl eq_refl ltac:(unfold q; lia) Eg) as (-> & L1 & L3).
  destruct (K r' t' Rm' r2' T1' eq_refl eq_refl eq_refl eq_refl ltac:(unfold q; lia) Eg') as (-> & L1' & L3').
  apply bind_ok in Ea as (Q1 & P1 & Ea). apply bind_ok in Ea as ([R2 Q2] & P2 & Ea). apply bind_ok in Ea' as (Q1' & P1' & Ea'). apply bind_ok in Ea' as ([R2' Q2'] & P2' & Ea').
  injection Ea as <-. injection Ea' as <-. cbn [r_q r_Q fst snd].
  rewrite L3 in P1. rewrite L3' in P1'. pose proof (prepare_agr S junk junk' _ _ _ _ _ EQ Q1 Q1' P1 P1') as HQ1.
  destruct (rem_loop_rel (r_ld r2) (r_ld r2') q (q - l) l (Rof r) (Rof r') Q1 Q1' ltac:(unfold q; lia)) with (a := (R2, Q2)) (b := (R2', Q2')) as [HR2 HQ2]; auto.
  { intros a b Hab Hb _. apply ER; unfold q in *; lia. }
  cbn [fst snd] in *. split; [|exact HQ2]. unfold Rof. cbn [r_ld r_R wset w_buf]. intros i j Hij Hj. rewrite !view_unview by lia. apply HR2; lia.
Qed.

(** ** StructuredJ, StructuredC *)
Lemma J2_rel jn G G' Q Q' q n (out out' : vec) k (v v' : vec) : gagr G G' -> qagr Q Q' -> vagr k v v' -> pr (vagr n) (premultByJ2 jn G Q q n out k v) (premultByJ2 jn G' Q' q n out' k v').
Proof.
  intros HG HQ Hv. unfold premultByJ2. apply pr_guard. intros _ _. rewrite <- (proj1 HQ). apply pr_guard. intros H1 _. apply pr_guard. intros H2 _.
  apply andb_true_iff in H1 as [H1 H1']. apply andb_true_iff in H2 as [H2 H2']. apply Nat.leb_le in H1, H2, H2'. apply Nat.eqb_eq in H1'.
  set (w := vm n _). set (w' := vm n _). intros a b Ea Eb. apply bind_ok in Ea as (y & Ey & Ea). apply bind_ok in Eb as (y' & Ey' & Eb).
  assert (En : n = q_n Q) by (apply guard_ok in Ey as [Hn _]; apply Nat.eqb_eq in Hn; exact Hn).
  assert (Hw : vagr n w w').
  { intros i Hi. unfold w, w'. rewrite !vm_at. destruct (Nat.ltb_spec i q); [reflexivity|]. rewrite (proj2 (Nat.leb_le (n - k) i)) by lia. rewrite (proj2 (Nat.ltb_lt _ _) Hi). cbn [andb]. apply Hv. lia. }
  exact (solveLt_agr S G G' n y y' HG (os_apply_agr S Q Q' n w w' HQ Hw y y' Ey Ey') a b Ea Eb).
Qed.
Lemma Jt_rel jn G G' Q Q' n (out out' : vec) C sc : gagr G G' -> qagr Q Q' -> pr (vagr n) (premultByJt isz jn G Q n out C sc) (premultByJt isz jn G' Q' n out' C sc).
Proof.
  intros HG HQ. unfold premultByJt. eapply (pr_bind (vagr n)); [|intros v v' Hv; apply os_apply_t_agr; auto].
  destruct (_ <=? _).
  - eapply pr_bind; [apply pr_eq; reflexivity|]. intros c ? <-. eapply pr_bind; [apply solveL_nz_agr; exact HG|]. intros v v' Hv. apply pr_ok.
    destruct (status_eqb _ _); [|exact Hv]. intros i Hi. rewrite !vm_at. rewrite (Hv i Hi). destruct (i <? n)%nat; auto.
  - apply pr_guard. intros _ _. eapply pr_bind; [apply pr_eq; reflexivity|]. intros z ? <-. apply solveL_nz_agr. exact HG.
Qed.
Lemma snz_dot_agr (z : snz S) n (v v' : vec) : (z_end z <= z_size z)%nat -> vagr n v v' -> pr eq (snz_dot z n v) (snz_dot z n v').
Proof.
  intros Hz Hv. unfold snz_dot. apply pr_guard. intros Hn _. apply Nat.eqb_eq in Hn. apply pr_ok. apply gsum_ext. intros k Hk. rewrite Hv; [reflexivity|]. unfold z_end in Hz. lia.
Qed.
Lemma stc_col_end C i z : @stc_col S C i = Ok z -> (z_end z <= z_size z)%nat.
Proof.
  unfold stc_col. intros E. apply guard_ok in E as [_ E]. do 4 apply bind_ok in E as (? & _ & E). apply guard_ok in E as [_ E]. apply guard_ok in E as [E1 E]. injection E as <-. apply Nat.leb_le in E1. exact E1.
Qed.
Lemma tmult_rel (Cs : list blk) (u u' : vec) : vagr (rows_of Cs) u u' -> forall ds k out out', (forall j D, nth_error ds j = Some D -> nth_error Cs (k + j) = Some D) -> (k + length ds = length Cs)%nat ->
  vagr (sum_list (map bcol (firstn k Cs))) out out' ->
  pr (vagr (cols_of Cs)) (tmult_loop ds k (stc_new Cs) (cols_of Cs) out (rows_of Cs) u) (tmult_loop ds k (stc_new Cs) (cols_of Cs) out' (rows_of Cs) u').
Proof.
  intros Hu. induction ds as [|D ds IH]; intros k out out' H Hlen Ho; cbn [tmult_loop].
  - apply pr_ok. cbn in Hlen. rewrite Nat.add_0_r in Hlen. rewrite Hlen, firstn_all in Ho. exact Ho.
  - assert (HD : nth_error Cs k = Some D) by (rewrite <- (Nat.add_0_r k); apply H; reflexivity).
    pose proof (off_end bcol Cs k D HD) as H1. pose proof (off_end brow Cs k D HD) as H2. rewrite cumC_eq. rewrite (at_Ok _ _ _ (cums_nth bcol Cs 0 k D _ HD)). cbn [bind].
    rewrite cumV_eq. rewrite (at_Ok _ _ _ (cums_nth brow Cs 0 k D _ HD)). cbn [bind Nat.add]. apply pr_guard. intros _ _. apply IH.
    + intros j D' Hj. rewrite <- Nat.add_assoc. apply (H (Datatypes.S j)). exact Hj.
    + cbn in Hlen. lia.
    + assert (Hnext : sum_list (map bcol (firstn (k + 1) Cs)) = (sum_list (map bcol (firstn k Cs)) + bcol D)%nat).
      { clear - HD. revert k HD. induction Cs as [|E C IH]; intros [|k] HD; try discriminate; cbn in HD; [injection HD as ->; cbn; lia|]. specialize (IH k HD). cbn [Nat.add firstn map sum_list]. unfold sum_list in *. cbn. lia. }
      rewrite Hnext. intros i Hi. rewrite !vm_at. destruct ((_ <=? i) && (i <? _))%nat eqn:Ec.
      * apply gsum_ext. intros t Ht. rewrite Hu; [reflexivity|]. fold (rows_of Cs) in H2. lia.
      * apply Ho. apply andb_false_iff in Ec as [Ec|Ec]; [apply Nat.leb_gt in Ec; exact Ec|]. apply Nat.ltb_ge in Ec. lia.
Qed.
Lemma transposeMult_rel (Cs : list blk) k (out out' : vec) n (u u' : vec) : vagr n u u' -> pr (vagr k) (stc_transposeMult (stc_new Cs) k out n u) (stc_transposeMult (stc_new Cs) k out' n u').
Proof.
  intros Hu. unfold stc_transposeMult. apply pr_guard. intros Hg _. apply andb_true_iff in Hg as [G1 G2]. apply Nat.eqb_eq in G1, G2. rewrite nbV_eq in G1. rewrite nbC_eq in G2. subst.
  replace (c_diag (stc_new Cs)) with Cs by (rewrite stc_new_spec; reflexivity). apply tmult_rel; auto. intros i Hi. cbn in Hi. lia.
Qed.
End Same.

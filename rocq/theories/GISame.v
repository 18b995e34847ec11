(** Non-interference: what the dense solver returns depends only on the problem
    (in particular only on the lower triangle of G) and the options, not on the
    previous contents of the object, for any scalar arithmetic. *)
From Coq Require Import List Arith ZArith Lia Bool.
From Verif Require Import Base ActiveSet ActiveSetProofs Num Solver LinAlg GIBase GIInv GISafe GICall GIHist.
Import ListNotations.

(** Two outcomes that, when both defined, are related by [P] *)
Definition pr {A B} (P : A -> B -> Prop) (m : res A) (m' : res B) : Prop :=
  forall a b, m = Ok a -> m' = Ok b -> P a b.
Lemma pr_ok {A B} (P : A -> B -> Prop) a b : P a b -> pr P (Ok a) (Ok b).
Proof. intros H x y E E'. injection E as <-. injection E' as <-. auto. Qed.
Lemma pr_bind {A B C D} (P : A -> B -> Prop) (Q : C -> D -> Prop) m m' f f' :
  pr P m m' -> (forall a b, P a b -> pr Q (f a) (f' b)) -> pr Q (bind m f) (bind m' f').
Proof.
  intros H1 H2 c d E E'. apply bind_ok in E as (a & E1 & E2). apply bind_ok in E' as (b & E1' & E2').
  apply (H2 a b); auto.
Qed.
Lemma pr_guard {A B} (P : A -> B -> Prop) c c' m m' : (c = true -> c' = true -> pr P m m') -> pr P (guard c m) (guard c' m').
Proof. intros H a b E E'. apply guard_ok in E as [E1 E2]. apply guard_ok in E' as [E1' E2']. apply H; auto. Qed.
Lemma pr_same {A} (P : A -> A -> Prop) m : (forall a, m = Ok a -> P a a) -> pr P m m.
Proof. intros H a b E E'. assert (a = b) by congruence. subst. auto. Qed.
Lemma pr_eq {A} (m m' : res A) : m = m' -> pr eq m m'.
Proof. intros -> a b E E'. congruence. Qed.

Section Same.
Variable S : ops.
Notation problem := (problem S).
Notation sol := (sol S).
Notation vec := (vec S).
Notation mat := (mat S).

Definition vagr (n : nat) (v v' : vec) : Prop := forall i, (i < n)%nat -> v i = v' i.
Definition magr (n : nat) (M M' : mat) : Prop := forall i j, (i < n)%nat -> (j < n)%nat -> M i j = M' i j.
Definition uagr (q : nat) (R R' : mat) : Prop := forall i j, (i <= j)%nat -> (j < q)%nat -> R i j = R' i j.
Definition lagr (n : nat) (M M' : mat) : Prop := forall i j, (j <= i)%nat -> (i < n)%nat -> M i j = M' i j.

Lemma gsum_ext {key} n (f g : nat -> carrier S) : (forall i, (i < n)%nat -> f i = g i) -> sumn key n f = sumn key n g.
Proof. apply sumn_ext. Qed.
Lemma gsub_ext {key} n a (f g : nat -> carrier S) : (forall i, (i < n)%nat -> f i = g i) -> subn key n a f = subn key n a g.
Proof. apply subn_ext. Qed.
Lemma gdot_ext {key} n (u v u' v' : vec) : vagr n u u' -> vagr n v v' -> dot key n u v = dot key n u' v'.
Proof. intros H1 H2. unfold dot. apply gsum_ext. intros. rewrite H1, H2 by auto. auto. Qed.

(** ** Kernels *)
Lemma llt_lagr n cnt k G G' : (k + cnt = n)%nat -> lagr n G G' ->
  fst (llt_loop n k cnt G) = fst (llt_loop n k cnt G') /\ lagr n (snd (llt_loop n k cnt G)) (snd (llt_loop n k cnt G')).
Proof.
  revert k G G'. induction cnt as [|cnt IH]; intros k G G' Hk HG; cbn [llt_loop]; auto.
  assert (E : subn [1; n; k; k]%nat k (G k k) (fun j => mul S (G k j) (G k j)) = subn [1; n; k; k]%nat k (G' k k) (fun j => mul S (G' k j) (G' k j))).
  { rewrite (HG k k) by lia. apply gsub_ext. intros j Hj. rewrite (HG k j) by lia. auto. }
  rewrite E. set (x := subn _ k (G' k k) _) in *. destruct (leb S x (zero S)); [auto|].
  apply IH; [lia|]. rewrite !mm_id. intros i j Hji Hi. rewrite (HG i j) by auto.
  destruct ((j =? k)%nat && (i =? k)%nat); auto.
  destruct ((j =? k)%nat && (k <? i)%nat && (i <? n)%nat) eqn:Ec; auto.
  apply andb_true_iff in Ec as [Ec Ei]. apply andb_true_iff in Ec as [Ej Eki]. apply Nat.eqb_eq in Ej. apply Nat.ltb_lt in Eki, Ei. subst j.
  f_equal. rewrite (HG i k) by lia. apply gsub_ext. intros t Ht. rewrite (HG i t), (HG k t) by lia. auto.
Qed.

Lemma fwd_agr n k L L' b b' : (k <= n)%nat -> lagr n L L' -> vagr n b b' -> vagr n (fwd k L b) (fwd k L' b').
Proof.
  intros Hk HL Hb. induction k as [|k IH]; auto. cbn [fwd].
  assert (IH' : vagr n (fwd k L b) (fwd k L' b')) by (apply IH; lia). clear IH.
  intros i Hi. unfold upd. destruct (i =? k)%nat; auto.
  rewrite (Hb k), (HL k k) by lia. f_equal. apply gsub_ext. intros j Hj. rewrite (HL k j), IH' by lia. auto.
Qed.
Lemma bwd_agr n k U U' b b' : (k <= n)%nat -> uagr n U U' -> vagr n b b' -> vagr n (bwd n k U b) (bwd n k U' b').
Proof.
  intros Hk HU Hb. induction k as [|k IH]; auto. cbn [bwd].
  assert (IH' : vagr n (bwd n k U b) (bwd n k U' b')) by (apply IH; lia). clear IH.
  intros i Hi. unfold upd. destruct (i =? n - Datatypes.S k)%nat; auto.
  rewrite (Hb (n - Datatypes.S k)%nat), (HU (n - Datatypes.S k)%nat (n - Datatypes.S k)%nat) by lia. f_equal.
  apply gsub_ext. intros t Ht. rewrite HU, IH' by lia. auto.
Qed.

Lemma rot_magr n M M' i g : (Datatypes.S i < n)%nat -> magr n M M' -> magr n (rot_cols M i g) (rot_cols M' i g).
Proof.
  intros Hi H a b Ha Hb. unfold rot_cols. rewrite (H a i), (H a (Datatypes.S i)), (H a b) by lia. auto.
Qed.
Lemma add_loop_agr n cnt : forall i d d' J J', (0 < cnt -> Datatypes.S i < n)%nat -> vagr n d d' -> magr n J J' ->
  vagr n (fst (add_loop n cnt i d J)) (fst (add_loop n cnt i d' J')) /\ magr n (snd (add_loop n cnt i d J)) (snd (add_loop n cnt i d' J')).
Proof.
  induction cnt as [|cnt IH]; intros i d d' J J' Hi Hd HJ; cbn [add_loop]; auto.
  specialize (Hi ltac:(lia)). rewrite (Hd i), (Hd (Datatypes.S i)) by lia.
  destruct (makeGivens (d' i) (d' (Datatypes.S i))) as (g, rr). apply IH; [lia| |].
  - rewrite !vm_id. intros k Hk. unfold upd. destruct (k =? i)%nat; auto.
  - rewrite !mm_id. apply rot_magr; auto.
Qed.

(** upper triangle of the (q+1)x(q+1) view, except column [i] *)
Definition cagr (q i : nat) (R R' : mat) : Prop := forall a b, (a <= b)%nat -> (b <= q)%nat -> b <> i -> R a b = R' a b.
Lemma rem_loop_agr n q cnt : forall i R R' J J', (i + cnt = q)%nat -> (q < n)%nat -> cagr q i R R' -> magr n J J' ->
  cagr q q (fst (rem_loop n q cnt i (R, J))) (fst (rem_loop n q cnt i (R', J'))) /\
  magr n (snd (rem_loop n q cnt i (R, J))) (snd (rem_loop n q cnt i (R', J'))).
Proof.
  induction cnt as [|cnt IH]; intros i R R' J J' Hi Hq HR HJ; cbn [rem_loop].
  - replace i with q in HR by lia. auto.
  - unfold rem_step. rewrite (HR i (Datatypes.S i)), (HR (Datatypes.S i) (Datatypes.S i)) by lia.
    destruct (makeGivens _ _) as (g, rr). rewrite !mm_id. apply IH; try lia.
    + intros a b Hab Hb Hne. destruct (Nat.eqb_spec b i) as [->|Hbi].
      * destruct (Nat.ltb_spec a i); [apply HR; lia|]. destruct (Nat.eqb_spec a i); [auto|lia].
      * destruct ((i + 2 <=? b)%nat && (b <=? q)%nat) eqn:Ec; [|apply HR; auto].
        apply andb_true_iff in Ec as [E1 E2]. apply Nat.leb_le in E1, E2.
        rewrite (HR i b), (HR (Datatypes.S i) b), (HR a b) by lia. auto.
    + apply rot_magr; auto. lia.
Qed.

(** ** Related states.  [e]: how many entries of u beyond the active ones agree;
    [fresh]: the outputs of the step computation also agree. *)
Record sim (e : nat) (s s' : sol) : Prop := {
  sm_n : s_n s = s_n s'; sm_A : s_A s = s_A s'; sm_good : good (s_A s);
  sm_it : s_it s = s_it s'; sm_f : s_f s = s_f s'; sm_exp : s_exp s = s_exp s';
  sm_x : vagr (s_n s) (w_buf (s_x s)) (w_buf (s_x s'));
  sm_J : magr (s_n s) (view (s_n s) (w_buf (s_J s))) (view (s_n s) (w_buf (s_J s')));
  sm_R : (nact (s_A s) <= s_n s)%nat -> uagr (nact (s_A s)) (view (s_n s) (w_buf (s_R s))) (view (s_n s) (w_buf (s_R s')));
  sm_u : vagr (nact (s_A s) + e) (w_buf (s_u s)) (w_buf (s_u s'))
}.
Record fresh (s s' : sol) : Prop := {
  fr_z : vagr (s_n s) (w_buf (s_z s)) (w_buf (s_z s'));
  fr_d : vagr (s_n s) (w_buf (s_d s)) (w_buf (s_d s'));
  fr_r : vagr (nact (s_A s)) (w_buf (s_r s)) (w_buf (s_r s'))
}.

Lemma pr_getV (w w' : work S) n n' : pr (fun v v' => v = w_buf w /\ v' = w_buf w') (getV w n) (getV w' n').
Proof. apply pr_guard. intros _ _. apply pr_ok. auto. Qed.
Lemma pr_getM (w w' : work S) r c ld r' c' ld' : pr (fun v v' => v = view ld (w_buf w) /\ v' = view ld' (w_buf w') /\ (r <= ld)%nat) (getM w r c ld) (getM w' r' c' ld').
Proof. apply pr_guard. intros H _. apply pr_ok. unfold mat_fits in H. apply andb_true_iff in H as [_ H]. apply Nat.leb_le in H. auto. Qed.

Lemma cn_preMt_agr pb sc n (M M' : mat) : magr n M M' -> pr (fun d d' => vagr n d d') (cn_preMt pb sc n M) (cn_preMt pb sc n M').
Proof.
  intros HM. unfold cn_preMt. destruct (sc_st sc); try (intros a b E; discriminate);
    try (apply pr_ok; intros k Hk; apply gsum_ext; intros i Hi; rewrite HM by auto; auto);
    (apply pr_guard; intros H _; apply Nat.ltb_lt in H; apply pr_ok; intros k Hk; rewrite HM by auto; auto).
Qed.
Lemma cn_dot_agr pb sc n (v v' : vec) : vagr n v v' -> pr eq (cn_dot pb sc n v) (cn_dot pb sc n v').
Proof.
  intros Hv. unfold cn_dot. destruct (sc_st sc); try (intros a b E; discriminate);
    try (apply pr_ok; first [apply gdot_ext|f_equal; apply gdot_ext]; auto; intros ? ?; auto);
    (apply pr_guard; intros H _; apply Nat.ltb_lt in H; apply pr_ok; rewrite Hv by auto; auto).
Qed.

Lemma step_sim pb e s s' sc : sim e s s' ->
  pr (fun s1 s1' => sim e s1 s1' /\ fresh s1 s1' /\ s_A s1 = s_A s /\ s_n s1 = s_n s) (computeStep pb s sc) (computeStep pb s' sc).
Proof.
  intros [H1 H2 H3 H4 H5 H6 H7 H8 H9 H10]. unfold computeStep. rewrite <- H1, <- H2.
  set (n := s_n s) in *. set (q := nact (s_A s)) in *.
  eapply pr_bind; [apply pr_getV|]. intros d0 d0' (-> & ->).
  eapply pr_bind; [apply pr_getM|]. intros J J' (-> & -> & _).
  eapply pr_bind; [apply pr_getM|]. intros R R' (-> & -> & Hq).
  eapply pr_bind; [apply pr_getV|]. intros z0 z0' (-> & ->).
  eapply pr_bind; [apply pr_getV|]. intros r0 r0' (-> & ->).
  apply pr_guard. intros _ _.
  eapply pr_bind; [apply (cn_preMt_agr pb sc n); exact H8|]. intros d1 d1' Hd.
  apply pr_guard. intros _ _. apply pr_ok.
  rewrite !vm_id. specialize (H9 Hq).
  assert (Hd' : vagr n (vhead n d1 (w_buf (s_d s))) (vhead n d1' (w_buf (s_d s')))).
  { intros i Hi. unfold vhead. apply Nat.ltb_lt in Hi as Hi'. rewrite Hi'. auto. }
  split; [|split; [|auto]].
  - split; simpl; auto.
  - split; simpl; fold n; fold q; auto.
    + intros i Hi. unfold vhead at 1 3. apply Nat.ltb_lt in Hi as Hi'. rewrite Hi'. apply gsum_ext. intros t Ht.
      rewrite H8, Hd' by lia. auto.
    + intros i Hi. unfold vhead at 1 3. apply Nat.ltb_lt in Hi as Hi'. rewrite Hi'. apply bwd_agr; auto.
      intros j Hj. apply Hd'. lia.
Qed.

Lemma len1_agr A (u u' r r' : vec) big q : vagr q u u' -> vagr q r r' -> len1 A u r big q = len1 A u' r' big q.
Proof.
  intros Hu Hr. induction q as [|q IH]; auto. cbn [len1]. rewrite IH by (intros i Hi; auto). rewrite (Hu q), (Hr q) by lia. auto.
Qed.
Lemma len2_agr pb n (x x' z z' : vec) sc : vagr n x x' -> vagr n z z' -> len2 pb n x z sc = len2 pb n x' z' sc.
Proof.
  intros Hx Hz. unfold len2.
  assert (D : forall key (y y' : vec), vagr n y y' -> dot key n (fun i => p_C pb i (sc_idx sc)) y = dot key n (fun i => p_C pb i (sc_idx sc)) y').
  { intros. apply gdot_ext; auto. intros ? ?; auto. }
  rewrite !(fun key => D key x x' Hx), !(fun key => D key z z' Hz).
  destruct (sc_st sc); auto; (destruct (Nat.ltb_spec (sc_idx sc - p_Ccols pb) n); [cbn [guard]; rewrite Hx, Hz by auto; auto|auto]).
Qed.
Lemma length_sim pb o e s s' sc : sim e s s' -> fresh s s' -> computeStepLength pb o s sc = computeStepLength pb o s' sc.
Proof.
  intros [H1 H2 H3 H4 H5 H6 H7 H8 H9 H10] [Fz Fd Fr]. unfold computeStepLength. rewrite <- H1, <- H2.
  rewrite (len1_agr _ _ (w_buf (s_u s')) _ (w_buf (s_r s'))); [|intros i Hi; apply H10; lia|exact Fr].
  f_equal. f_equal.
  rewrite (len2_agr pb (s_n s) _ (w_buf (s_x s')) _ (w_buf (s_z s'))) by auto.
  unfold norm. rewrite (gdot_ext (s_n s) (w_buf (s_z s)) (w_buf (s_z s)) (w_buf (s_z s')) (w_buf (s_z s'))) by auto. auto.
Qed.

Lemma add_sim s s' sc : sim 1 s s' -> fresh s s' -> pr (sim 0) (addConstraint s sc) (addConstraint s' sc).
Proof.
  intros [H1 H2 H3 H4 H5 H6 H7 H8 H9 H10] [Fz Fd Fr]. unfold addConstraint. rewrite <- H2.
  eapply (pr_bind (fun A A' => A = A' /\ good A /\ nact A = Datatypes.S (nact (s_A s)))).
  { apply pr_same. intros A E. split; auto. pose proof (good_activate _ _ _ _ H3 E) as HG. split; auto.
    apply activate_inv in E as (_ & _ & _ & _ & EA & _). rewrite !nact_length, EA, app_length by auto. simpl. lia. }
  intros A A' (<- & HG & EN). unfold addConstraint_. cbn [s_n s_A s_d s_J s_R set_A]. rewrite <- H1.
  set (n := s_n s) in *. set (q := nact (s_A s)) in *.
  eapply pr_bind; [apply pr_getV|]. intros d0 d0' (-> & ->).
  eapply pr_bind; [apply pr_getM|]. intros J J' (-> & -> & _).
  destruct (add_loop_agr n (n - nact A) (n - 2) (w_buf (s_d s)) (w_buf (s_d s')) (view n (w_buf (s_J s))) (view n (w_buf (s_J s')))) as [L1 L2]; auto; [lia|].
  destruct (add_loop n (n - nact A) (n - 2) (w_buf (s_d s)) (view n (w_buf (s_J s)))) as (d1, J1).
  destruct (add_loop n (n - nact A) (n - 2) (w_buf (s_d s')) (view n (w_buf (s_J s')))) as (d1', J1'). simpl in L1, L2.
  eapply pr_bind; [apply pr_getM|]. intros R R' (-> & -> & Hq). specialize (H9 ltac:(lia)).
  apply pr_guard. intros _ _. apply pr_ok. split; simpl; auto; fold n.
  - intros i j Hi Hj. rewrite !view_unview by auto. auto.
  - intros _ i j Hij Hj. rewrite !view_unview by lia.
    destruct (Nat.eqb_spec j (nact A - 1)) as [->|Hne]; simpl.
    + destruct (Nat.ltb_spec i (nact A)); [apply L1; lia|lia].
    + apply H9; lia.
  - intros i Hi. apply H10. fold q. lia.
Qed.

Lemma remove_sim s s' l : sim 1 s s' -> pr (sim 1) (removeConstraint s l) (removeConstraint s' l).
Proof.
  intros [H1 H2 H3 H4 H5 H6 H7 H8 H9 H10]. unfold removeConstraint. rewrite <- H2.
  apply pr_guard. intros _ _. cbn [s_A set_u].
  rewrite <- H2.
  eapply (pr_bind (fun A A' => A = A' /\ good A /\ nact (s_A s) = Datatypes.S (nact A) /\ (l <= nact A)%nat)).
  { apply pr_same. intros A E. split; auto. pose proof (good_deactivate _ _ _ H3 E) as HG. split; auto.
    assert (Hl : (l < nact (s_A s))%nat) by (rewrite nact_length by auto; apply (deactivate_legal _ l H3); eauto).
    destruct (deactivate_removed (s_A s) l H3 Hl) as (A2 & E2 & HA2). assert (A2 = A) by congruence. subst A2.
    pose proof (ar_nact _ _ _ HA2). split; lia. }
  intros A A' (<- & HG & EN & Hl). unfold removeConstraint_. cbn [s_n s_A s_d s_J s_R s_u set_A set_u]. rewrite <- H1.
  set (n := s_n s) in *. set (q := nact A) in *.
  eapply pr_bind; [apply pr_getM|]. intros J J' (-> & -> & _).
  eapply pr_bind; [apply pr_getM|]. intros R R' (-> & -> & Hq). specialize (H9 ltac:(lia)).
  destruct (rem_loop_agr n q (q - l) l (view n (w_buf (s_R s))) (view n (w_buf (s_R s'))) (view n (w_buf (s_J s))) (view n (w_buf (s_J s')))) as [L1 L2]; auto; try lia.
  { intros a b Hab Hb _. apply H9; lia. }
  destruct (rem_loop n q (q - l) l (view n (w_buf (s_R s)), view n (w_buf (s_J s)))) as (R1, J1).
  destruct (rem_loop n q (q - l) l (view n (w_buf (s_R s')), view n (w_buf (s_J s')))) as (R1', J1'). simpl in L1, L2.
  apply pr_ok. split; simpl; auto; fold n; fold q.
  - intros i j Hi Hj. rewrite !view_unview by auto. auto.
  - intros _ i j Hij Hj. rewrite !view_unview by lia. apply L1; lia.
  - intros i Hi. rewrite !vm_at. rewrite EN in H10 |- *. 
    destruct ((l <=? i)%nat && (i <? Datatypes.S q)%nat); apply H10; lia.
Qed.

(** ** Selection *)
Lemma sel_cstr_agr pb A (x x' : vec) k acc : vagr (p_Crows pb) x x' -> sel_cstr pb A x k acc = sel_cstr pb A x' k acc.
Proof.
  intros Hx. induction k as [|k IH]; auto. cbn [sel_cstr]. rewrite IH.
  rewrite (gdot_ext (p_Crows pb) (fun t => p_C pb t k) x (fun t => p_C pb t k) x'); auto. intros ? ?; auto.
Qed.
Lemma sel_bnd_agr pb A (x x' : vec) k acc : vagr k x x' -> sel_bnd pb A x k acc = sel_bnd pb A x' k acc.
Proof.
  intros Hx. induction k as [|k IH]; auto. cbn [sel_bnd]. rewrite IH by (intros i Hi; apply Hx; lia). rewrite (Hx k) by lia. auto.
Qed.
Definition fits (pb : problem) (s : sol) : Prop := s_n s = p_Grows pb /\ sizes_ok pb = true /\ a_nb (s_A s) = p_xlsize pb.
Lemma select_sim pb e s s' : fits pb s -> sim e s s' -> pr eq (selectViolated pb s) (selectViolated pb s').
Proof.
  intros (Hn & Hsz & Hb) [H1 H2 H3 H4 H5 H6 H7 H8 H9 H10]. unfold selectViolated. rewrite <- H1, <- H2.
  assert (HC : p_Crows pb = s_n s) by (unfold sizes_ok in Hsz; rewrite !andb_true_iff, !Nat.eqb_eq in Hsz; rewrite Hn; apply Hsz).
  assert (HB : (p_xlsize pb <= s_n s)%nat) by (rewrite Hn; apply (gsizes_nb S pb Hsz)).
  eapply pr_bind; [apply pr_getV|]. intros x x' (-> & ->). apply pr_eq.
  rewrite (sel_cstr_agr pb (s_A s) _ (w_buf (s_x s'))) by (rewrite HC; auto).
  destruct (sel_cstr pb (s_A s) (w_buf (s_x s')) (a_nc (s_A s)) (zero S, SC 0 INACTIVE)); auto. cbn [bind].
  rewrite (sel_bnd_agr pb (s_A s) _ (w_buf (s_x s'))); auto. intros i Hi. apply H7. lia.
Qed.

(** ** Iterations *)
Definition lsim (l l' : lst S) : Prop :=
  l_skip l = l_skip l' /\ (l_skip l = true -> l_sc l = l_sc l') /\ sim (if l_skip l then 1 else 0) (l_s l) (l_s l').
Definition osim (a b : iter_out S) : Prop :=
  match a, b with
  | Continue l, Continue l' => lsim l l'
  | Stop st s, Stop st' s' => st = st' /\ sim 0 s s'
  | _, _ => False
  end.

Lemma sim_weak e s s' : sim e s s' -> sim 0 s s'.
Proof. intros []. split; auto. intros i Hi. auto with arith. apply sm_u0. lia. Qed.

Lemma step1_sim pb l l' : fits pb (l_s l) -> lsim l l' ->
  pr (fun a b => match a, b with None, None => True | Some m, Some m' => l_sc m = l_sc m' /\ sim 1 (l_s m) (l_s m') | _, _ => False end)
     (step1 pb l) (step1 pb l').
Proof.
  intros Hf (H1 & H2 & H3). unfold step1. rewrite <- H1. destruct (l_skip l) eqn:Esk.
  - apply pr_ok. auto.
  - eapply pr_bind; [eapply select_sim; eauto|]. intros sc ? <-.
    pose proof H3 as [K1 K2 K3 K4 K5 K6 K7 K8 K9 K10].
    destruct (sc_st sc); [apply pr_ok; auto|..].
    all: eapply pr_bind; [apply pr_getV|]; intros r0 r0' (-> & ->);
      eapply pr_bind; [apply pr_getV|]; intros u0 u0' (-> & ->); apply pr_ok; simpl; split; auto;
      split; simpl; auto; rewrite <- K2; intros i Hi; unfold upd; destruct (Nat.eqb_spec i (nact (s_A (l_s l)))); auto; apply K10; lia.
Qed.

Lemma dual_step_agr q t (u u' r r' : vec) : vagr (q + 1) u u' -> vagr q r r' -> vagr (q + 1) (dual_step q t u r) (dual_step q t u' r').
Proof.
  intros Hu Hr i Hi. unfold dual_step. rewrite !vm_at. destruct (Nat.ltb_spec i q); [rewrite Hu, Hr by lia; auto|].
  rewrite !Hu by lia. auto.
Qed.

Lemma step2_sim pb o m m' : l_sc m = l_sc m' -> sim 1 (l_s m) (l_s m') -> pr osim (step2 pb o m) (step2 pb o m').
Proof.
  intros Esc Hs. unfold step2. rewrite <- Esc. set (sc := l_sc m). rewrite <- (sm_A _ _ _ Hs), <- (sm_n _ _ _ Hs).
  eapply pr_bind; [eapply (step_sim pb 1); eauto|]. intros s1 s1' (S1 & F1 & EA & En).
  eapply pr_bind; [apply pr_eq; eapply length_sim; eauto|]. intros ((t1, t2), i) ? <-.
  set (t := if ltb S t2 t1 then t2 else t1). set (n := s_n (l_s m)). set (q := nact (s_A (l_s m))).
  destruct (leb S (o_bigBnd o) t). { apply pr_ok. split; auto. eapply sim_weak; eauto. }
  pose proof S1 as [H1 H2 H3 H4 H5 H6 H7 H8 H9 H10]. destruct F1 as [Fz Fd Fr].
  rewrite EA in H10, Fr. fold q in H10, Fr. rewrite En in Fz, H7. fold n in Fz, H7.
  assert (Hu : vagr (q + 1) (dual_step q t (w_buf (s_u s1)) (w_buf (s_r s1))) (dual_step q t (w_buf (s_u s1')) (w_buf (s_r s1')))) by (apply dual_step_agr; auto).
  assert (Hrem : forall s2 s2', sim 1 s2 s2' -> pr osim
     (do s <- removeConstraint s2 i; do r0 <- getV (s_r s) (q - 1); do u0 <- getV (s_u s) q; Ok (Continue (L s true sc)))
     (do s <- removeConstraint s2' i; do r0 <- getV (s_r s) (q - 1); do u0 <- getV (s_u s) q; Ok (Continue (L s true sc)))).
  { intros s2 s2' S2. eapply pr_bind; [apply remove_sim; eauto|]. intros s3 s3' S3.
    eapply pr_bind; [apply pr_getV|]. intros _ _ _. eapply pr_bind; [apply pr_getV|]. intros _ _ _. apply pr_ok. split; auto. }
  destruct (leb S (o_bigBnd o) t2).
  { apply Hrem. split; simpl; auto; [rewrite En|rewrite EA]; auto. }
  eapply pr_bind; [apply (cn_dot_agr pb sc n); exact Fz|]. intros nz ? <-.
  cbn [s_u s_r s_f set_x set_f set_u].
  set (s2 := set_u (set_f (set_x s1 _) _) _). set (s2' := set_u (set_f (set_x s1' _) _) _).
  assert (S2 : sim 1 s2 s2').
  { split; simpl; auto.
    - rewrite H5, (H10 q) by lia. auto.
    - rewrite En. fold n. rewrite !vm_id. intros j Hj. unfold vhead. apply Nat.ltb_lt in Hj as Hj'. rewrite Hj', H7, Fz by auto. auto.
    - rewrite EA. auto. }
  destruct (eqb S t t2); [|apply Hrem; auto].
  eapply pr_bind; [eapply add_sim; eauto|].
  - split; simpl; auto; rewrite ?En, ?EA; auto.
  - intros s3 s3' S3. apply pr_ok. split; auto.
Qed.

Lemma iter_sim pb o l l' : fits pb (l_s l) -> lsim l l' -> pr osim (iter pb o l) (iter pb o l').
Proof.
  intros Hf Hl. unfold iter. eapply pr_bind; [eapply step1_sim; eauto|]. intros [m|] [m'|] H; try contradiction.
  - apply step2_sim; apply H.
  - apply pr_ok. split; auto. destruct Hl as (_ & _ & Hl). eapply sim_weak; eauto.
Qed.

(** [s_n] and the sizes of the active set do not change *)
Lemma loop_sim pb o (safe : safe_ops S) (big : leb S (o_bigBnd o) (o_bigBnd o) = true) fuel : forall l l', glinv S pb l -> lsim l l' ->
  pr (fun a b => fst a = fst b /\ sim 0 (snd a) (snd b)) (loop pb o fuel l) (loop pb o fuel l').
Proof.
  induction fuel as [|f IH]; intros l l' HL Hs; cbn [loop].
  - apply pr_ok. split; auto. simpl. destruct Hs as (_ & _ & Hs). eapply sim_weak; eauto.
  - intros a b Ea Eb.
    assert (Hf : fits pb (l_s l)).
    { split; [apply (gl_sh _ _ _ HL)|]. split; apply (gl_sh _ _ _ HL). }
    apply bind_ok in Ea as (r & Er & Ea). apply bind_ok in Eb as (r' & Er' & Eb).
    pose proof (iter_sim pb o l l' Hf Hs r r' Er Er') as HO.
    destruct (giter S pb o l safe big HL) as (out & Eo & HC). assert (out = r) by congruence. subst out.
    destruct r as [m|st s], r' as [m'|st' s']; try contradiction.
    + destruct HO as (O1 & O2 & O3).
      eapply (IH (L (set_it (l_s m) (Datatypes.S (s_it (l_s m)))) (l_skip m) (l_sc m))); eauto.
      * eapply gcase_linv; eauto.
      * split; simpl; auto. split; auto. destruct O3. split; simpl; auto.
    + injection Ea as <-. injection Eb as <-. exact HO.
Qed.

(** ** Initialisation *)
Lemma init_one_sim pb s s' sc : sim 0 s s' -> pr (sim 0) (addInitialConstraint pb s sc) (addInitialConstraint pb s' sc).
Proof.
  intros Hs. pose proof Hs as [H1 H2 H3 H4 H5 H6 H7 H8 H9 H10]. unfold addInitialConstraint. rewrite <- H1, <- H2.
  set (n := s_n s) in *. set (q := nact (s_A s)) in *.
  eapply pr_bind; [apply pr_getV|]. intros x x' (-> & ->).
  eapply pr_bind; [apply pr_getV|]. intros z z' (-> & ->).
  eapply pr_bind; [apply pr_getV|]. intros u u' (-> & ->).
  eapply pr_bind; [apply pr_getV|]. intros r r' (-> & ->).
  assert (Hs1 : sim 1 (set_u s (wset (s_u s) (upd (w_buf (s_u s)) q (zero S)))) (set_u s' (wset (s_u s') (upd (w_buf (s_u s')) q (zero S))))).
  { split; simpl; auto. fold q. intros i Hi. unfold upd. destruct (Nat.eqb_spec i q); auto. apply H10. fold q. lia. }
  eapply pr_bind; [eapply (step_sim pb 1); eauto|]. intros s1 s1' (S1 & [Fz Fd Fr] & EA & En). cbn [s_A s_n set_u] in EA, En.
  rewrite EA in Fr. rewrite En in Fz, Fd. fold n in Fz, Fd. fold q in Fr.
  pose proof S1 as [K1 K2 K3 K4 K5 K6 K7 K8 K9 K10]. rewrite EA in K10. fold q in K10. rewrite En in K7. fold n in K7.
  apply pr_guard. intros _ _. apply pr_guard. intros _ _.
  assert (Hnorm : norm n (w_buf (s_z s1)) = norm n (w_buf (s_z s1'))) by (unfold norm; f_equal; apply gdot_ext; auto).
  rewrite Hnorm.
  eapply (pr_bind eq).
  { destruct (ltb S (eps14 S) (norm n (w_buf (s_z s1')))); [|apply pr_ok; auto].
    assert (D : forall key (c y y' : vec), vagr n y y' -> dot key n c y = dot key n c y') by (intros; apply gdot_ext; auto; intros ? ?; auto).
    destruct (status_eqb (sc_st sc) EQUALITY).
    - rewrite (D _ _ (w_buf (s_x s)) (w_buf (s_x s'))), (D _ _ (w_buf (s_z s1)) (w_buf (s_z s1'))) by auto. apply pr_eq. auto.
    - apply pr_guard. intros Hk _. apply Nat.ltb_lt in Hk. rewrite H7, Fz by auto. apply pr_eq. auto. }
  intros t ? <-.
  eapply pr_bind; [apply (cn_dot_agr pb sc n); exact Fz|]. intros nz ? <-.
  eapply add_sim.
  - split; simpl; auto.
    + rewrite K5, (K10 q) by lia. auto.
    + rewrite En. fold n. rewrite !vm_id. intros j Hj. unfold vhead. apply Nat.ltb_lt in Hj as Hj'. rewrite Hj', H7, Fz by auto. auto.
    + rewrite EA. fold q. intros i Hi. rewrite !vm_at. rewrite (K10 q) by lia. destruct (Nat.ltb_spec i q); [rewrite K10, Fr by lia; auto|].
      rewrite K10 by lia. auto.
  - split; simpl; rewrite ?En, ?EA; auto.
Qed.
Lemma init_cstr_sim pb k s s' : sim 0 s s' -> pr (sim 0) (init_cstr pb k s) (init_cstr pb k s').
Proof.
  intros Hs. induction k as [|k IH]; cbn [init_cstr]; [apply pr_ok; auto|].
  eapply pr_bind; [apply IH|]. intros s1 s1' H1. destruct (bounds_eq (p_bl pb k) (p_bu pb k)); [apply init_one_sim; auto|apply pr_ok; auto].
Qed.
Lemma init_bnd_sim pb k s s' : sim 0 s s' -> pr (sim 0) (init_bnd pb k s) (init_bnd pb k s').
Proof.
  intros Hs. induction k as [|k IH]; cbn [init_bnd]; [apply pr_ok; auto|].
  eapply pr_bind; [apply IH|]. intros s1 s1' H1. rewrite <- (sm_A _ _ _ H1).
  destruct (bounds_eq (p_xl pb k) (p_xu pb k)); [apply init_one_sim; auto|apply pr_ok; auto].
Qed.
Lemma initA_sim pb s s' : sim 0 s s' -> pr (sim 0) (initActiveSet pb s) (initActiveSet pb s').
Proof.
  intros Hs. unfold initActiveSet. rewrite <- (sm_A _ _ _ Hs).
  eapply pr_bind; [apply init_cstr_sim; eauto|]. intros s1 s1' H1. rewrite <- (sm_A _ _ _ H1). apply init_bnd_sim; auto.
Qed.

(** The same problem with another matrix in place of G *)
Definition regraph (pb : problem) (G : mat) : problem :=
  Pb G (p_Grows pb) (p_Gcols pb) (p_a pb) (p_asize pb) (p_C pb) (p_Crows pb) (p_Ccols pb) (p_bl pb) (p_blsize pb)
     (p_bu pb) (p_busize pb) (p_xl pb) (p_xlsize pb) (p_xu pb) (p_xusize pb).

Lemma re_add pb G s sc : addInitialConstraint (regraph pb G) s sc = addInitialConstraint pb s sc.
Proof. reflexivity. Qed.
Lemma re_cstr pb G k s : init_cstr (regraph pb G) k s = init_cstr pb k s.
Proof. induction k as [|k IH]; auto. cbn [init_cstr]. rewrite IH. reflexivity. Qed.
Lemma re_bnd pb G k s : init_bnd (regraph pb G) k s = init_bnd pb k s.
Proof. induction k as [|k IH]; auto. cbn [init_bnd]. rewrite IH. reflexivity. Qed.
Lemma re_init pb G s : initActiveSet (regraph pb G) s = initActiveSet pb s.
Proof.
  unfold initActiveSet. rewrite re_cstr. destruct (init_cstr pb (a_nc (s_A s)) s); auto. cbn [bind]. apply re_bnd.
Qed.
Lemma re_selc pb G A x k acc : sel_cstr (regraph pb G) A x k acc = sel_cstr pb A x k acc.
Proof. induction k as [|k IH]; auto. cbn [sel_cstr]. rewrite IH. reflexivity. Qed.
Lemma re_selb pb G A x k acc : sel_bnd (regraph pb G) A x k acc = sel_bnd pb A x k acc.
Proof. induction k as [|k IH]; auto. cbn [sel_bnd]. rewrite IH. reflexivity. Qed.
Lemma re_sel pb G s : selectViolated (regraph pb G) s = selectViolated pb s.
Proof.
  unfold selectViolated. destruct (getV (s_x s) (s_n s)); auto. cbn [bind]. rewrite re_selc.
  destruct (sel_cstr pb (s_A s) a (a_nc (s_A s)) (zero S, SC 0 INACTIVE)); auto. cbn [bind]. rewrite re_selb. auto.
Qed.
Lemma re_iter pb G o l : iter (regraph pb G) o l = iter pb o l.
Proof. unfold iter, step1. rewrite re_sel. reflexivity. Qed.
Lemma re_loop pb G o f : forall l, loop (regraph pb G) o f l = loop pb o f l.
Proof.
  induction f as [|f IH]; intros l; auto. cbn [loop]. rewrite re_iter. destruct (iter pb o l) as [[l'|st s]|]; auto. cbn [bind]. apply IH.
Qed.

Lemma reset_eq A A' : good A -> good A' -> a_nc A = a_nc A' -> a_nb A = a_nb A' -> as_reset A = as_reset A'.
Proof.
  intros HA HA' Ec Eb. unfold as_reset. rewrite Ec, Eb. f_equal.
  assert (El : length (a_status A) = length (a_status A')).
  { rewrite (coh_len _ (proj1 HA)), (coh_len _ (proj1 HA')). congruence. }
  clear -El. revert El. generalize (a_status A'). induction (a_status A) as [|x l IH]; intros [|y l'] E; try discriminate; auto.
  simpl. f_equal. apply IH. injection E as E. auto.
Qed.

Definition rsim (a b : term_status * sol) : Prop := fst a = fst b /\ (fst a <> NON_POS_HESSIAN -> sim 0 (snd a) (snd b)).

Lemma gi_init_sim pb G' o s s' : lagr (s_n s) (p_G pb) G' -> s_n s = s_n s' -> good (s_A s) -> good (s_A s') -> a_nc (s_A s) = a_nc (s_A s') -> a_nb (s_A s) = a_nb (s_A s') ->
  s_it s = s_it s' -> s_exp s = s_exp s' ->
  pr rsim (gi_init pb o s) (gi_init (regraph pb G') o s').
Proof.
  intros HG En HA HA' Ec Eb Eit Eex. unfold gi_init. rewrite <- En. set (n := s_n s) in *.
  destruct (llt_lagr n n 0 (p_G pb) G') as [L1 L2]; auto. cbn [p_G regraph].
  change (llt_loop n 0 n (p_G pb)) with (llt n (p_G pb)) in L1, L2. change (llt_loop n 0 n G') with (llt n G') in L1, L2.
  destruct (llt n (p_G pb)) as (ret, L), (llt n G') as (ret', L'). simpl in L1, L2. subst ret'.
  destruct ret as [p|]. { apply pr_ok. split; auto. intros H. contradiction. }
  assert (HU : uagr n (tr L) (tr L')) by (intros i j Hij Hj; unfold tr; apply L2; auto).
  eapply pr_bind; [apply pr_getM|]. intros J J' _.
  eapply pr_bind; [apply pr_getV|]. intros x0 x0' (-> & ->).
  cbn [p_a regraph]. rewrite re_init, !vm_id, !mm_id. cbn [s_A s_J s_x s_f set_A set_J set_G set_x set_f].
  assert (Hx : vagr n (vhead n (fun i => opp S (bwd n n (tr L) (fwd n L (p_a pb)) i)) (w_buf (s_x s)))
                      (vhead n (fun i => opp S (bwd n n (tr L') (fwd n L' (p_a pb)) i)) (w_buf (s_x s')))).
  { intros i Hi. unfold vhead. apply Nat.ltb_lt in Hi as Hi'. rewrite Hi'. f_equal. apply bwd_agr; auto. apply fwd_agr; auto. intros ? ?; auto. }
  eapply pr_bind.
  { apply initA_sim. split; simpl; fold n; auto.
    - apply reset_eq; auto.
    - apply good_reset. apply HA.
    - f_equal. apply gdot_ext; auto. intros ? ?; auto.
    - intros i j Hi Hj. rewrite !view_unview by auto. apply bwd_agr; auto. intros ? ?; auto.
    - unfold nact. simpl. intros _ i j Hij Hj. lia.
    - unfold nact. simpl. intros i Hi. lia. }
  intros s1 s1' H1. apply pr_ok. split; auto.
Qed.

Lemma solve_same junk junk' pb G' o s s' : safe_ops S -> leb S (o_bigBnd o) (o_bigBnd o) = true -> gwf S s -> gwf S s' ->
  lagr (p_Grows pb) (p_G pb) G' ->
  pr rsim (gi_solve junk pb o s) (gi_solve junk' (regraph pb G') o s').
Proof.
  intros HO HB HW HW' HG a b Ea Eb.
  assert (Hsz : sizes_ok pb = true) by (unfold gi_solve in Ea; apply guard_ok in Ea; apply Ea).
  pose proof (gsolve S junk pb o s HO HB HW) as HGS. rewrite Hsz in HGS. cbn [negb] in HGS.
  unfold gi_solve in Ea, Eb. apply guard_ok in Ea as [_ Ea]. apply guard_ok in Eb as [_ Eb]. cbn [p_Grows p_Ccols p_xlsize regraph] in Eb.
  pose proof (gresize S junk s (p_Grows pb) (p_Ccols pb) (0 <? p_xlsize pb)%nat HW) as (R1 & R2 & R3 & R4 & _).
  pose proof (gresize S junk' s' (p_Grows pb) (p_Ccols pb) (0 <? p_xlsize pb)%nat HW') as (R1' & R2' & R3' & R4' & _).
  pose proof (gresize_sh S junk pb s HW Hsz) as HSH.
  set (s1 := resize junk s (p_Grows pb) (p_Ccols pb) (0 <? p_xlsize pb)) in *.
  set (s1' := resize junk' s' (p_Grows pb) (p_Ccols pb) (0 <? p_xlsize pb)) in *.
  unfold dual_solve, dual_init in Ea, Eb.
  apply bind_ok in Ea as ((st & s2) & E2 & Ea). apply bind_ok in Eb as ((st' & s2') & E2' & Eb).
  assert (HR : rsim (st, s2) (st', s2')).
  { refine (gi_init_sim pb G' o _ _ _ _ _ _ _ _ _ _ _ _ E2 E2').
    all: destruct (o_warm o); simpl; auto; try congruence; try (rewrite R1; auto); try (apply good_reset; first [apply R4|apply R4']). }
  destruct HR as [HR1 HR2]. simpl in HR1, HR2. subst st'.
  assert (Hst : st = SUCCESS \/ st = NON_POS_HESSIAN).
  { unfold gi_init in E2. destruct (llt _ _) as ([p|] & L).
    - injection E2 as <- <-. auto.
    - apply bind_ok in E2 as (? & _ & E2). apply bind_ok in E2 as (? & _ & E2). apply bind_ok in E2 as (? & _ & E2). injection E2 as <- _. auto. }
  destruct Hst as [-> | ->].
  2:{ simpl in Ea, Eb. injection Ea as <-. injection Eb as <-. split; auto. }
  specialize (HR2 ltac:(discriminate)).
  apply bind_ok in Ea as (x & _ & Ea). apply bind_ok in Ea as (z & _ & Ea). apply bind_ok in Ea as (u & _ & Ea).
  apply bind_ok in Eb as (x' & _ & Eb). apply bind_ok in Eb as (z' & _ & Eb). apply bind_ok in Eb as (u' & _ & Eb).
  apply bind_ok in Ea as ((st3 & s3) & E3 & Ea). apply bind_ok in Eb as ((st3' & s3') & E3' & Eb).
  rewrite re_loop in E3'. rewrite <- (sm_it _ _ _ HR2) in E3'.
  assert (HL : glinv S pb (L s2 false (SC 0 INACTIVE))).
  { set (s4 := set_it (if o_warm o then set_exp s1 true else set_A (set_exp s1 true) (as_reset (s_A (set_exp s1 true)))) 0) in *.
    assert (HS4 : gsh S pb s4).
    { unfold s4. destruct HSH as [Q1 Q2 Q3 Q4 Q5 Q6 Q7 Q8 Q9 Q10 Q11 Q12]. destruct (o_warm o); split; simpl; auto; apply good_reset; apply Q2. }
    pose proof (ggi_init S pb o s4 HS4) as HI. simpl in HI. rewrite E2 in HI. destruct (fst (llt (gn S pb) (p_G pb))); [discriminate|].
    destruct HI as (s0 & EI & HI0 & _). pose proof (ginitActiveSet S pb s0 HI0) as HA.
    destruct (Nat.leb_spec (length (geqs S pb (gcb S pb))) (gn S pb)) as [Hle|].
    - destruct HA as (s5 & EA5 & HI5 & _). rewrite EA5 in EI. cbn [bind] in EI. injection EI as ->.
      split; simpl; [apply HI5| |discriminate]. rewrite (ginv_nact S pb _ s5 HI5). auto.
    - rewrite HA in EI. discriminate. }
  assert (HS3 : st3 = st3' /\ sim 0 s3 s3').
  { refine (loop_sim pb o HO HB _ _ _ HL _ (st3, s3) (st3', s3') E3 E3'). split; auto. }
  destruct HS3 as [-> HS3].
  assert (a = (st3', s3)) by (unfold terminate in Ea; destruct st3'; try (injection Ea as <-; auto); destruct (o_debug o); try discriminate; injection Ea as <-; auto).
  assert (b = (st3', s3')) by (unfold terminate in Eb; destruct st3'; try (injection Eb as <-; auto); destruct (o_debug o); try discriminate; injection Eb as <-; auto).
  subst. split; auto.
Qed.

(** ** What the accessors return *)
Lemma map_seq_agr n (v v' : vec) : vagr n v v' -> map v (seq 0 n) = map v' (seq 0 n).
Proof. intros H. apply map_ext_in. intros i Hi. apply in_seq in Hi. apply H. lia. Qed.
Lemma solution_sim e s s' : sim e s s' -> pr eq (solution s) (solution s').
Proof.
  intros H. unfold solution. rewrite <- (sm_n _ _ _ H). eapply pr_bind; [apply pr_getV|]. intros x x' (-> & ->). apply pr_ok.
  apply map_seq_agr. apply H.
Qed.
Lemma expand_agr A (r r' : vec) k v : vagr k r r' -> expand A r k v = expand A r' k v.
Proof. intros H. induction k as [|k IH]; auto. cbn [expand]. rewrite IH by (intros i Hi; apply H; lia). rewrite (H k) by lia. auto. Qed.
Lemma mult_sim s s' : sim 0 s s' -> s_exp s = true -> pr (fun a b => fst a = fst b) (multipliers s) (multipliers s').
Proof.
  intros H Hx. pose proof H as [H1 H2 H3 H4 H5 H6 H7 H8 H9 H10]. unfold multipliers. rewrite <- H6, <- H2, Hx. rewrite Nat.add_0_r in H10.
  cbn [s_A s_r s_u set_exp]. rewrite <- H2.
  eapply (pr_bind (fun a b => w_buf (s_u a) = w_buf (s_u b))).
  - eapply pr_bind; [apply pr_getV|]. intros r r' (-> & ->). eapply pr_bind; [apply pr_getV|]. intros u u' (-> & ->).
    eapply pr_bind; [apply pr_getV|]. intros u1 u1' _.
    eapply (pr_bind eq); [|intros v ? <-; apply pr_ok; reflexivity].
    apply pr_eq. apply expand_agr. rewrite !vm_id. intros i Hi. unfold vhead. apply Nat.ltb_lt in Hi as Hi'. rewrite Hi'. auto.
  - intros a b Eu. eapply pr_bind; [apply pr_getV|]. intros v v' (-> & ->). rewrite Eu. apply pr_ok. auto.
Qed.
End Same.

(** Proofs for C79: every iteration of the three solvers changes the active set by one constraint. *)
From Coq Require Import List Arith ZArith Lia Bool.
From Verif Require Import Base Num ActiveSet ActiveSetProofs Solver Warm Ortho StructC StructG BlockGI.
Import ListNotations.

(** ** Active sets: [a] activations and [r] deactivations lead from [A] to [B] *)
Definition isact (o : as_op) : nat := match o with OpActivate _ _ => 1 | _ => 0 end.
Definition isdea (o : as_op) : nat := match o with OpDeactivate _ => 1 | _ => 0 end.
Inductive chg : aset -> aset -> nat -> nat -> Prop :=
| chg_refl A : chg A A 0 0
| chg_act A B C a r i st : chg A B a r -> as_activate B i st = Ok C -> chg A C (S a) r
| chg_dea A B C a r k : chg A B a r -> as_deactivate B k = Ok C -> chg A C a (S r).
Lemma chg_trans A B C a r a' r' : chg A B a r -> chg B C a' r' -> chg A C (a + a') (r + r').
Proof.
  intros H K. induction K as [B|B C D a' r' i st K IH E|B C D a' r' k K IH E]; rewrite ?Nat.add_0_r; auto.
  - rewrite Nat.add_succ_r. eapply chg_act; eauto.
  - rewrite Nat.add_succ_r. eapply chg_dea; eauto.
Qed.
Lemma chg_one A i st B : as_activate A i st = Ok B -> chg A B 1 0.
Proof. intros H. eapply chg_act; [apply chg_refl|exact H]. Qed.
Lemma chg_less A k B : as_deactivate A k = Ok B -> chg A B 0 1.
Proof. intros H. eapply chg_dea; [apply chg_refl|exact H]. Qed.
Lemma remove_nth_length {X} (l : list X) k x : nth_error l k = Some x -> S (length (remove_nth l k)) = length l.
Proof. intros H. apply remove_nth_split in H as (l1 & l2 & -> & _ & ->). rewrite !app_length. cbn. lia. Qed.
Lemma act_len A i st B : as_activate A i st = Ok B -> length (a_active B) = S (length (a_active A)) /\ a_nc B = a_nc A /\ a_nb B = a_nb A.
Proof.
  unfold as_activate, guard. destruct (i <? nbAll A); [|discriminate]. destruct (nth_error (a_status A) i) as [[]|]; try discriminate. destruct (kind_ok _ _ _); [|discriminate].
  destruct A, st; cbn; intros H; inversion H; subst; cbn; rewrite app_length; cbn; repeat split; lia.
Qed.
Lemma dea_len A k B : as_deactivate A k = Ok B -> S (length (a_active B)) = length (a_active A) /\ a_nc B = a_nc A /\ a_nb B = a_nb A.
Proof.
  unfold as_deactivate. destruct (nth_error (a_active A) k) as [i|] eqn:E; [|discriminate]. destruct (nth_error (a_status A) i) as [s|]; [|discriminate]. apply remove_nth_length in E.
  destruct A, s; cbn in *; intros H; inversion H; subst; cbn; repeat split; lia.
Qed.
Lemma chg_len A B a r : chg A B a r -> length (a_active B) + r = length (a_active A) + a /\ a_nc B = a_nc A /\ a_nb B = a_nb A.
Proof.
  induction 1 as [B|A B C a r i st K IH E|A B C a r k K IH E]; [repeat split|apply act_len in E|apply dea_len in E]; destruct E as (E1 & E2 & E3), IH as (I1 & I2 & I3); repeat split; try congruence; lia.
Qed.
Lemma chg_good A B a r : chg A B a r -> good A -> good B.
Proof. induction 1 as [B|A B C a r i st K IH E|A B C a r k K IH E]; intros HA; [exact HA|exact (good_activate _ _ _ _ (IH HA) E)|exact (good_deactivate _ _ _ (IH HA) E)]. Qed.
(** the number of active constraints seen by the user *)
Definition active_count (l : list status) : nat := length (filter (fun s => negb (status_eqb s INACTIVE)) l).
Lemma count_active A : good A -> active_count (a_status A) = length (a_active A).
Proof.
  intros ([C1 _ _ _] & [] & HB). apply Nat2Z.inj. rewrite <- HB. unfold nbActiveCstr. rewrite c_me, c_mi, c_mb. unfold cnt.
  assert (H : length (a_status A) = (active_count (a_status A) + count_occ status_eq_dec (a_status A) INACTIVE)%nat).
  { unfold active_count. generalize (a_status A). clear. induction l as [|s l IH]; [reflexivity|]. cbn [length filter count_occ]. rewrite IH. destruct (status_eq_dec s INACTIVE) as [E|N]; destruct (status_eqb_spec s INACTIVE); cbn [negb length]; try congruence; lia. }
  pose proof (count_non_inactive (a_status A)). lia.
Qed.

(** [l'] differs from [l] in one constraint, that was or becomes inactive *)
Definition one_change (l l' : list status) : Prop :=
  length l' = length l /\ exists i, i < length l /\ nth i l INACTIVE <> nth i l' INACTIVE /\ (nth i l INACTIVE = INACTIVE \/ nth i l' INACTIVE = INACTIVE) /\
  forall j, j <> i -> nth j l' INACTIVE = nth j l INACTIVE.
Lemma nth_set_nth' {X} (l : list X) i j x d : i < length l -> nth j (set_nth l i x) d = if j =? i then x else nth j l d.
Proof.
  revert i j. induction l as [|y l IH]; intros i j H; [cbn in H; lia|]. destruct i as [|i], j as [|j]; cbn in *; auto. apply IH. lia.
Qed.
Lemma chg_one_change A B a r : chg A B a r -> a + r = 1 -> one_change (a_status A) (a_status B).
Proof.
  assert (Z : forall A B a r, chg A B a r -> a + r = 0 -> B = A).
  { intros A' B' a' r' H. induction H; intros E; [reflexivity|lia|lia]. }
  intros H E. destruct H as [B|A B C a r i st K EA|A B C a r k K EA]; [lia| |].
  - assert (B = A) as -> by (apply (Z _ _ _ _ K); lia). apply activate_inv in EA as (Hi & E1 & HK & ES & _). assert (Hlen : i < length (a_status A)) by (apply nth_error_Some; congruence). rewrite ES. split; [apply set_nth_length|].
    exists i. split; [exact Hlen|]. rewrite nth_set_nth', Nat.eqb_refl by exact Hlen. rewrite (nth_error_nth _ _ _ E1). split; [intros <-; discriminate HK|]. split; [left; reflexivity|]. intros j Hj. rewrite nth_set_nth' by exact Hlen. apply Nat.eqb_neq in Hj. rewrite Hj. reflexivity.
  - assert (B = A) as -> by (apply (Z _ _ _ _ K); lia). apply deactivate_inv in EA as (i & s & _ & E1 & Hs & ES & _). assert (Hlen : i < length (a_status A)) by (apply nth_error_Some; congruence). rewrite ES. split; [apply set_nth_length|].
    exists i. split; [exact Hlen|]. rewrite nth_set_nth', Nat.eqb_refl by exact Hlen. rewrite (nth_error_nth _ _ _ E1). split; [exact Hs|]. split; [right; reflexivity|]. intros j Hj. rewrite nth_set_nth' by exact Hlen. apply Nat.eqb_neq in Hj. rewrite Hj. reflexivity.
Qed.

Section A.
Variable S : ops.
Notation solT := (sol S).
Ltac stp := repeat match goal with
  | H : bind _ _ = Ok _ |- _ => apply bind_ok in H as (? & ? & H)
  | H : guard _ _ = Ok _ |- _ => apply guard_ok in H as (? & H)
  | H : Ok _ = Ok _ |- _ => injection H as <-
  | H : (let '(_, _) := ?x in _) = _ |- _ => let a := fresh "a" in let b := fresh "b" in destruct x as [a b]
  end.
(** ** The loop shared by the dense solvers *)
Definition ch (s t : sol S) (a r : nat) : Prop := s_it t = s_it s /\ chg (s_A s) (s_A t) a r.
Lemma ch_refl s : ch s s 0 0. Proof. split; [reflexivity|apply chg_refl]. Qed.
Lemma ch_trans s t v a r a' r' : ch s t a r -> ch t v a' r' -> ch s v (a + a') (r + r').
Proof. intros [H1 H2] [K1 K2]. split; [congruence|eapply chg_trans; eauto]. Qed.
Lemma ch_same (s t s' : solT) a r : s_it (S:=S) s = s_it s' -> s_A (S:=S) s = s_A s' -> ch s t a r -> ch s' t a r.
Proof. intros E1 E2 [H1 H2]. split; [congruence|rewrite <- E2; exact H2]. Qed.
Lemma computeStep_ch pb (s : solT) sc t : computeStep pb s sc = Ok t -> s_it t = s_it s /\ s_A t = s_A s.
Proof. unfold computeStep. cbv zeta. intros H. stp; split; reflexivity. Qed.
Lemma addConstraint_ch s sc t : addConstraint s sc = Ok t -> ch s t 1 0.
Proof.
  unfold addConstraint. intros H. apply bind_ok in H as (A & E & H). unfold addConstraint_ in H. cbv zeta in H. stp; split; cbn; try reflexivity; eapply chg_one; eauto.
Qed.
Lemma removeConstraint__ch (s : solT) l t : removeConstraint_ s l = Ok t -> s_it t = s_it s /\ s_A t = s_A s.
Proof. unfold removeConstraint_. cbv zeta. intros H. stp; split; reflexivity. Qed.
Lemma removeConstraint_ch s l t : removeConstraint s l = Ok t -> ch s t 0 1.
Proof.
  unfold removeConstraint. cbv zeta. intros H. apply guard_ok in H as (_ & H). apply bind_ok in H as (A & E & H). apply removeConstraint__ch in H as [H1 H2]. cbn in *. split; [exact H1|]. rewrite H2. eapply chg_less; eauto.
Qed.
Lemma addInitial_ch pb s sc t : addInitialConstraint pb s sc = Ok t -> ch s t 1 0.
Proof.
  unfold addInitialConstraint. cbv zeta. intros H. stp.
  match goal with C : computeStep _ _ _ = Ok ?v |- _ => apply computeStep_ch in C as [C1 C2] end. apply addConstraint_ch in H. cbn in C1, C2. eapply ch_same; [| |exact H]; cbn; congruence.
Qed.
(** number of true values of [f] below [k] *)
Fixpoint howmany (f : nat -> bool) (k : nat) : nat := match k with O => 0 | Datatypes.S i => howmany f i + (if f i then 1 else 0) end.
Lemma init_cstr_ch pb k : forall s t, init_cstr pb k s = Ok t -> ch s t (howmany (fun i => bounds_eq (p_bl pb i) (p_bu pb i)) k) 0.
Proof.
  induction k as [|k IH]; intros s t H; cbn [init_cstr howmany] in *; [injection H as <-; apply ch_refl|]. apply bind_ok in H as (v & E & H). specialize (IH _ _ E).
  destruct (bounds_eq _ _); [|injection H as <-; rewrite Nat.add_0_r; exact IH]. apply addInitial_ch in H. exact (ch_trans _ _ _ _ _ _ _ IH H).
Qed.
Lemma init_bnd_ch pb k : forall s t, init_bnd pb k s = Ok t -> ch s t (howmany (fun i => bounds_eq (p_xl pb i) (p_xu pb i)) k) 0.
Proof.
  induction k as [|k IH]; intros s t H; cbn [init_bnd howmany] in *; [injection H as <-; apply ch_refl|]. apply bind_ok in H as (v & E & H). specialize (IH _ _ E).
  destruct (bounds_eq _ _); [|injection H as <-; rewrite Nat.add_0_r; exact IH]. apply addInitial_ch in H. exact (ch_trans _ _ _ _ _ _ _ IH H).
Qed.
Lemma step1_ch pb l l1 : step1 pb l = Ok (Some l1) -> ch (l_s l) (l_s l1) 0 0.
Proof.
  unfold step1. cbv zeta. destruct (l_skip l); [intros H; injection H as <-; apply ch_refl|]. intros H. apply bind_ok in H as (sc & _ & H).
  destruct (sc_st sc); try discriminate; apply bind_ok in H as (? & _ & H); apply bind_ok in H as (? & _ & H); injection H as <-; split; cbn; try reflexivity; apply chg_refl.
Qed.
Definition out_ch (s : solT) (r : iter_out S) : Prop :=
  match r with Continue l => exists a d, a + d = 1 /\ ch s (l_s l) a d | Stop _ t => ch s t 0 0 end.
Lemma step2_ch pb o l r : step2 pb o l = Ok r -> out_ch (l_s l) r.
Proof.
  unfold step2. cbv zeta. intros H. apply bind_ok in H as (v & E & H). apply computeStep_ch in E as [E1 E2]. apply bind_ok in H as ([[t1 t2] li] & _ & H).
  destruct (leb S (o_bigBnd o) _); [injection H as <-; split; [exact E1|rewrite E2; apply chg_refl]|].
  destruct (leb S (o_bigBnd o) t2).
  - apply bind_ok in H as (w & K & H). apply bind_ok in H as (? & _ & H). apply bind_ok in H as (? & _ & H). injection H as <-. cbn. apply removeConstraint_ch in K.
    exists 0, 1. split; [reflexivity|]. eapply ch_same; [| |exact K]; assumption.
  - apply bind_ok in H as (nz & _ & H). destruct (eqb S _ t2).
    + apply bind_ok in H as (w & K & H). injection H as <-. cbn. apply addConstraint_ch in K. exists 1, 0. split; [reflexivity|]. eapply ch_same; [| |exact K]; assumption.
    + apply bind_ok in H as (w & K & H). apply bind_ok in H as (? & _ & H). apply bind_ok in H as (? & _ & H). injection H as <-. cbn. apply removeConstraint_ch in K.
      exists 0, 1. split; [reflexivity|]. eapply ch_same; [| |exact K]; assumption.
Qed.
Lemma iter_ch pb o l r : iter pb o l = Ok r -> out_ch (l_s l) r.
Proof.
  unfold iter. intros H. apply bind_ok in H as ([l1|] & E & H).
  - apply step1_ch in E. apply step2_ch in H. destruct r as [l'|st t]; cbn in *.
    + destruct H as (a & d & E1 & H). exists a, d. split; [exact E1|]. exact (ch_trans _ _ _ _ _ _ _ E H).
    + exact (ch_trans _ _ _ _ _ _ _ E H).
  - injection H as <-. cbn. apply ch_refl.
Qed.
Lemma loop_ch pb o fuel : forall (l : lst S) st t, loop pb o fuel l = Ok (st, t) -> exists a d, s_it t = s_it (l_s l) + (a + d) /\ chg (s_A (l_s l)) (s_A t) a d.
Proof.
  induction fuel as [|f IH]; intros l st t H; cbn [loop] in H.
  - injection H as _ <-. exists 0, 0. split; [lia|apply chg_refl].
  - apply bind_ok in H as (r & E & H). apply iter_ch in E. destruct r as [l'|st' t']; cbn in E.
    + apply IH in H as (a & d & H1 & H2). destruct E as (a' & d' & E0 & E1 & E2). cbn in H1, H2. exists (a' + a), (d' + d). split; [lia|]. exact (chg_trans _ _ _ _ _ _ _ E2 H2).
    + injection H as _ <-. destruct E as [E1 E2]. exists 0, 0. split; [lia|exact E2].
Qed.
Lemma terminate_same o st (s : solT) st' t : terminate o st s = Ok (st', t) -> t = s /\ st' = st.
Proof. destruct st; cbn; try (intros H; injection H as <- <-; auto); destruct (o_debug o); intros H; try discriminate; injection H as <- <-; auto. Qed.

(** ** The stable solver *)
Definition equalities (pb : problem S) : nat :=
  howmany (fun i => bounds_eq (p_bl pb i) (p_bu pb i)) (p_Ccols pb) + howmany (fun i => bounds_eq (p_xl pb i) (p_xu pb i)) (p_xlsize pb).
Lemma resize_sizes (junk : vec S) (s : solT) n nc b : a_nc (s_A (resize junk s n nc b)) = nc /\ a_nb (s_A (resize junk s n nc b)) = (if b then n else 0).
Proof.
  assert (K : forall v : solT, let w := (if (nc =? a_nc (s_A v)) && ((if b then n else 0) =? a_nb (s_A v)) then v else set_A v (as_resize (s_A v) nc (if b then n else 0))) in
              a_nc (s_A w) = nc /\ a_nb (s_A w) = (if b then n else 0)).
  { intros v. cbv zeta. destruct ((nc =? a_nc (s_A v)) && _) eqn:E; [|split; reflexivity]. apply andb_prop in E as [E1 E2]. apply Nat.eqb_eq in E1, E2. split; symmetry; assumption. }
  unfold resize, resize_p. cbv zeta. apply K.
Qed.
Lemma resize_good (junk : vec S) (s : solT) n nc b : good (s_A s) -> good (s_A (resize junk s n nc b)).
Proof.
  intros HG. unfold resize. assert (E : s_A (resize_d junk s n) = s_A s) by (unfold resize_d; destruct (n =? s_n s); reflexivity). rewrite <- E in HG. revert HG. generalize (resize_d junk s n). clear s E. intros s HG.
  unfold resize_p. cbv zeta. destruct (n =? s_n s); cbn [s_A set_r set_u]; destruct (_ =? nbAll (s_A s)); cbn [s_A set_r set_u]; destruct (_ && _); cbn [s_A set_A]; auto; apply good_resize.
Qed.
Lemma good_reset' A : good A -> good (as_reset A).
Proof. intros (HC & _). apply good_reset. destruct HC as [C1 _ _ _]. exact C1. Qed.
Lemma xl_size (pb : problem S) : sizes_ok pb = true -> (if 0 <? p_xlsize pb then p_Grows pb else 0) = p_xlsize pb.
Proof.
  unfold sizes_ok. rewrite !andb_true_iff. intros H. repeat match goal with H : _ /\ _ |- _ => destruct H end.
  repeat match goal with H : (_ =? _) = true |- _ => apply Nat.eqb_eq in H | H : _ || _ = true |- _ => apply orb_prop in H as [H|H] end;
  destruct (Nat.ltb_spec 0 (p_xlsize pb)); lia.
Qed.
Lemma gi_changes junk pb o (s : solT) st s' : gi_solve junk pb o s = Ok (st, s') -> good (s_A s) ->
  good (s_A s') /\
  ((st = NON_POS_HESSIAN /\ s_it s' = 0) \/ exists a d, s_it s' = a + d /\ length (a_active (s_A s')) + d = equalities pb + a).
Proof.
  intros H HG. unfold gi_solve in H. apply guard_ok in H as (HS & H). cbv zeta in H. pose proof (resize_sizes junk s (p_Grows pb) (p_Ccols pb) (0 <? p_xlsize pb)) as [Z1 Z2]. rewrite (xl_size pb HS) in Z2.
  apply (resize_good junk s (p_Grows pb) (p_Ccols pb) (0 <? p_xlsize pb)) in HG. revert Z1 Z2 HG H. generalize (resize junk s (p_Grows pb) (p_Ccols pb) (0 <? p_xlsize pb)). clear s HS. intros s Z1 Z2 HG H.
  unfold dual_solve in H. apply bind_ok in H as ([st0 v] & E & H).
  unfold dual_init in E. cbv zeta in E.
  set (s0 := set_it _ 0) in E. assert (K0 : good (s_A s0) /\ a_nc (s_A s0) = p_Ccols pb /\ a_nb (s_A s0) = p_xlsize pb /\ s_it s0 = 0).
  { unfold s0. destruct (o_warm o); cbn; (split; [first [exact HG|exact (good_reset' _ HG)]|split; [exact Z1|split; [exact Z2|reflexivity]]]). }
  clearbody s0. destruct K0 as (G0 & N0 & B0 & I0). unfold gi_init in E. cbv zeta in E. destruct (llt (s_n s0) (p_G pb)) as [ret M]. destruct ret as [k|].
  - injection E as <- <-. apply terminate_same in H as [-> ->]. cbn. split; [exact G0|left; auto].
  - apply bind_ok in E as (J0 & _ & E). apply bind_ok in E as (x0 & _ & E). apply bind_ok in E as (w & E & E'). injection E' as <- <-.
    unfold initActiveSet in E. apply bind_ok in E as (w1 & E1 & E2). apply init_cstr_ch in E1 as [I1 C1]. cbn in I1, C1. pose proof (chg_len _ _ _ _ C1) as (L1 & L2 & L3). cbn in L1, L2, L3.
    apply init_bnd_ch in E2 as [I2 C2]. pose proof (chg_len _ _ _ _ C2) as (M1 & M2 & M3). rewrite L3, B0 in *. rewrite N0 in *.
    pose proof (chg_good _ _ _ _ C2 (chg_good _ _ _ _ C1 (good_reset' _ G0))) as Gw.
    apply bind_ok in H as (? & _ & H). apply bind_ok in H as (? & _ & H). apply bind_ok in H as (? & _ & H). apply bind_ok in H as ([st1 t] & K & H). apply loop_ch in K as (a & d & J1 & J2). cbn in J1, J2.
    apply terminate_same in H as [-> ->]. split; [exact (chg_good _ _ _ _ J2 Gw)|]. right. exists a, d. pose proof (chg_len _ _ _ _ J2) as (P1 & _). split; [lia|]. unfold equalities. lia.
Qed.

Lemma iter_stop pb o (l : lst S) st t : iter pb o l = Ok (Stop st t) -> st = SUCCESS \/ st = INFEASIBLE.
Proof.
  unfold iter. intros H. apply bind_ok in H as ([l1|] & E & H); [|injection H as <- _; auto].
  unfold step2 in H. cbv zeta in H. apply bind_ok in H as (v & _ & H). apply bind_ok in H as ([[t1 t2] li] & _ & H). destruct (leb S (o_bigBnd o) _); [injection H as <- _; auto|]. destruct (leb S (o_bigBnd o) t2).
  - apply bind_ok in H as (? & _ & H). apply bind_ok in H as (? & _ & H). apply bind_ok in H as (? & _ & H). discriminate.
  - apply bind_ok in H as (? & _ & H). destruct (eqb S _ t2); apply bind_ok in H as (? & _ & H); [discriminate|]. apply bind_ok in H as (? & _ & H). apply bind_ok in H as (? & _ & H). discriminate.
Qed.
Definition next (s1 : solT) (st : term_status) (s2 : solT) : Prop :=
  st <> MAX_ITER_REACHED /\ s_it s2 = s_it s1 /\ s_A s2 = s_A s1 \/
  st = MAX_ITER_REACHED /\ s_it s2 = Datatypes.S (s_it s1) /\ one_change (a_status (s_A s1)) (a_status (s_A s2)).
Lemma chg_zero A B : chg A B 0 0 -> B = A.
Proof. intros H. remember 0 as z eqn:Z in H at 1. remember 0 as z' eqn:Z' in H. destruct H; [reflexivity|discriminate|discriminate]. Qed.
Lemma loop_next pb o k : forall (l : lst S) s1 st s2, loop pb o k l = Ok (MAX_ITER_REACHED, s1) -> loop pb o (Datatypes.S k) l = Ok (st, s2) -> next s1 st s2.
Proof.
  induction k as [|k IH]; intros l s1 st s2 H1 H2.
  - cbn [loop] in H1. injection H1 as <-. cbn [loop] in H2. apply bind_ok in H2 as (r & E & H2). pose proof (iter_ch _ _ _ _ E) as C. destruct r as [l'|st' t'].
    + injection H2 as <- <-. cbn [out_ch] in C. destruct C as (a & d & E1 & C1 & C2). right. split; [reflexivity|]. split; [cbn [l_s s_it set_it]; congruence|]. cbn [l_s s_A set_it]. exact (chg_one_change _ _ _ _ C2 E1).
    + injection H2 as <- <-. destruct C as (C1 & C2). left. split; [apply iter_stop in E as [-> | ->]; discriminate|]. split; [exact C1|exact (chg_zero _ _ C2)].
  - cbn [loop] in H1. apply bind_ok in H1 as (r & E & H1). change (loop pb o (Datatypes.S (Datatypes.S k)) l) with (bind (iter pb o l) (fun r => match r with Stop st s => Ok (st, s) | Continue l' => loop pb o (Datatypes.S k) (L (set_it (l_s l') (Datatypes.S (s_it (l_s l')))) (l_skip l') (l_sc l')) end)) in H2.
    rewrite E in H2. cbn [bind] in H2. destruct r as [l'|st' t'].
    + exact (IH _ _ _ _ H1 H2).
    + injection H1 as -> <-. apply iter_stop in E as [E|E]; discriminate E.
Qed.
(** only the number of iterations of the options *)
Definition with_max (o : options S) (k : nat) : options S := Opt k (o_bigBnd o) (o_warm o) (o_debug o).
Lemma loop_max pb o k : forall f (l : lst S), loop pb (with_max o k) f l = loop pb o f l.
Proof. induction f as [|f IH]; intros l; [reflexivity|]. cbn [loop]. change (iter pb (with_max o k) l) with (iter pb o l). destruct (iter pb o l) as [[l'|]|]; cbn [bind]; auto. Qed.
Lemma gi_next junk pb o k (s : solT) s1 st s2 : gi_solve junk pb (with_max o k) s = Ok (MAX_ITER_REACHED, s1) -> gi_solve junk pb (with_max o (Datatypes.S k)) s = Ok (st, s2) -> next s1 st s2.
Proof.
  unfold gi_solve. intros H1 H2. apply guard_ok in H1 as (_ & H1). apply guard_ok in H2 as (_ & H2). cbv zeta in *. unfold dual_solve in *. revert H1 H2. generalize (resize junk s (p_Grows pb) (p_Ccols pb) (0 <? p_xlsize pb)). clear s. intros s H1 H2.
  change (dual_init gi_init pb (with_max o (Datatypes.S k)) s) with (dual_init gi_init pb (with_max o k) s) in H2. apply bind_ok in H1 as ([st0 v] & E & H1). rewrite E in H2. cbn [bind] in H2.
  assert (Z : st0 = SUCCESS -> s_it v = 0).
  { intros ->. unfold dual_init in E. cbv zeta in E. set (s0 := set_it _ 0) in E. assert (I0 : s_it s0 = 0) by reflexivity. clearbody s0. unfold gi_init in E. cbv zeta in E. destruct (llt _ _) as [[r|] M]; [discriminate|].
    apply bind_ok in E as (J0 & _ & E). apply bind_ok in E as (x0 & _ & E). apply bind_ok in E as (w & E & E'). injection E' as <-. unfold initActiveSet in E. apply bind_ok in E as (w1 & E1 & E2). apply init_cstr_ch in E1 as [I1 _]. apply init_bnd_ch in E2 as [I2 _]. cbn in I1. congruence. }
  destruct st0; try (apply terminate_same in H1 as (_ & H1); discriminate H1).
  - rewrite (Z eq_refl), Nat.sub_0_r in *. destruct (getV (s_x v) (s_n v)); [|discriminate]. destruct (getV (s_z v) (s_n v)); [|discriminate]. destruct (getV (s_u v) (nact (s_A v))); [|discriminate]. cbn [bind o_maxIter with_max] in *. rewrite loop_max in H1, H2.
    apply bind_ok in H1 as ([st1 t1] & H1 & H1'). apply terminate_same in H1' as (<- & <-). apply bind_ok in H2 as ([st2 t2] & H2 & H2'). apply terminate_same in H2' as (-> & ->). exact (loop_next _ _ _ _ _ _ _ H1 H2).
  - exfalso. unfold dual_init in E. cbv zeta in E. set (s0 := set_it _ 0) in E. clearbody s0. unfold gi_init in E. cbv zeta in E. destruct (llt _ _) as [[r|] M]; [discriminate|].
    apply bind_ok in E as (J0 & _ & E). apply bind_ok in E as (x0 & _ & E). apply bind_ok in E as (w & E & E'). discriminate E'.
Qed.

(** ** The experimental solver *)
Notation xsolT := (xsol S).
Lemma pia_bnd_ch pb o ws k : forall A B, pia_bnd (S:=S) pb o ws k A = Ok B -> exists a, chg A B a 0.
Proof.
  induction k as [|k IH]; intros A B H; cbn [pia_bnd] in H; [injection H as <-; exists 0; apply chg_refl|]. apply bind_ok in H as (C & E & H). destruct (IH _ _ E) as (a & Ha).
  assert (K : exists a', chg C B a' 0).
  { destruct (bounds_eq _ _); [exists 1; eapply chg_one; exact H|]. destruct (_ && _); [|injection H as <-; exists 0; apply chg_refl]. apply bind_ok in H as (s & _ & H).
    destruct (status_eqb s INACTIVE); [injection H as <-; exists 0; apply chg_refl|]. apply guard_ok in H as (_ & H). destruct (status_eqb s FIXED); [injection H as <-; exists 0; apply chg_refl|].
    destruct (_ || _); [injection H as <-; exists 0; apply chg_refl|exists 1; eapply chg_one; exact H]. }
  destruct K as (a' & K). exists (a + a'). exact (chg_trans _ _ _ _ _ _ _ Ha K).
Qed.
Lemma pia_cstr_ch pb o ws k : forall A B, pia_cstr (S:=S) pb o ws k A = Ok B -> exists a, chg A B a 0.
Proof.
  induction k as [|k IH]; intros A B H; cbn [pia_cstr] in H; [injection H as <-; exists 0; apply chg_refl|]. apply bind_ok in H as (C & E & H). destruct (IH _ _ E) as (a & Ha).
  assert (K : exists a', chg C B a' 0).
  { destruct (bounds_eq _ _); [exists 1; eapply chg_one; exact H|]. destruct (_ && _); [|injection H as <-; exists 0; apply chg_refl]. apply bind_ok in H as (s & _ & H).
    destruct (status_eqb s INACTIVE); [injection H as <-; exists 0; apply chg_refl|]. apply guard_ok in H as (_ & H). destruct (status_eqb s FIXED); [injection H as <-; exists 0; apply chg_refl|].
    destruct (_ || _); [injection H as <-; exists 0; apply chg_refl|exists 1; eapply chg_one; exact H]. }
  destruct K as (a' & K). exists (a + a'). exact (chg_trans _ _ _ _ _ _ _ Ha K).
Qed.
(** without a guess, only the equalities *)
Definition onlyeq (A : aset) : Prop := a_mi A = 0%Z /\ a_mb A = a_mbe A.
Lemma act_eq A i st B : as_activate A i st = Ok B -> (st = EQUALITY \/ st = FIXED) -> onlyeq A -> onlyeq B.
Proof.
  unfold as_activate, guard, onlyeq. destruct (i <? nbAll A); [|discriminate]. destruct (nth_error (a_status A) i) as [[]|]; try discriminate. destruct (kind_ok _ _ _); [|discriminate].
  intros H [->| ->]; destruct A; cbn in *; inversion H; subst; cbn; intros [H1 H2]; split; congruence || lia.
Qed.
Lemma pia_bnd_cold pb o k : forall A B, pia_bnd (S:=S) pb o [] k A = Ok B -> onlyeq A -> onlyeq B /\ chg A B (howmany (fun i => bounds_eq (p_xl pb i) (p_xu pb i)) k) 0.
Proof.
  induction k as [|k IH]; intros A B H HA; cbn [pia_bnd howmany is_nil negb andb] in *; [injection H as <-; split; [exact HA|apply chg_refl]|]. apply bind_ok in H as (C & E & H). destruct (IH _ _ E HA) as (HC & Ha).
  destruct (bounds_eq _ _).
  - split; [eapply act_eq; eauto|]. exact (chg_trans _ _ _ _ _ _ _ Ha (chg_one _ _ _ _ H)).
  - injection H as <-. rewrite Nat.add_0_r. auto.
Qed.
Lemma pia_cstr_cold pb o k : forall A B, pia_cstr (S:=S) pb o [] k A = Ok B -> onlyeq A -> onlyeq B /\ chg A B (howmany (fun i => bounds_eq (p_bl pb i) (p_bu pb i)) k) 0.
Proof.
  induction k as [|k IH]; intros A B H HA; cbn [pia_cstr howmany is_nil negb andb] in *; [injection H as <-; split; [exact HA|apply chg_refl]|]. apply bind_ok in H as (C & E & H). destruct (IH _ _ E HA) as (HC & Ha).
  destruct (bounds_eq _ _).
  - split; [eapply act_eq; eauto|]. exact (chg_trans _ _ _ _ _ _ _ Ha (chg_one _ _ _ _ H)).
  - injection H as <-. rewrite Nat.add_0_r. auto.
Qed.
Lemma trim_ch n i : forall A B, trim n i A = Ok B -> (exists d, chg A B 0 d) /\ nact B <= n.
Proof.
  induction i as [|i IH]; intros A B H; cbn [trim] in H; destruct (Nat.leb_spec (nact A) n) as [L|L]; try discriminate.
  - injection H as <-. split; [exists 0; apply chg_refl|exact L].
  - injection H as <-. split; [exists 0; apply chg_refl|exact L].
  - apply bind_ok in H as (c & _ & H). apply bind_ok in H as (st & _ & H). destruct (isEq st); [exact (IH _ _ H)|].
    apply bind_ok in H as (C & E & H). destruct (IH _ _ H) as ((d & Hd) & Hn). split; [|exact Hn]. exists (1 + d). exact (chg_trans _ _ _ _ _ _ _ (chg_less _ _ _ E) Hd).
Qed.
Lemma process_ch pb o ws n A st B : processInitialActiveSet (S:=S) pb o ws n A = Ok (st, B) -> good A ->
  good B /\ a_nc B = a_nc A /\ a_nb B = a_nb A /\
  (st = OVERCONSTRAINED_PROBLEM \/ st = SUCCESS /\ length (a_active B) <= n /\
     (ws = [] -> length (a_active B) = howmany (fun i => bounds_eq (p_bl pb i) (p_bu pb i)) (a_nc A) + howmany (fun i => bounds_eq (p_xl pb i) (p_xu pb i)) (a_nb A))).
Proof.
  unfold processInitialActiveSet. cbv zeta. intros H HG. apply bind_ok in H as (A1 & E1 & H). apply bind_ok in H as (A2 & E2 & H).
  pose proof (good_reset' _ HG) as G0. destruct (pia_bnd_ch _ _ _ _ _ _ E1) as (a1 & C1). destruct (pia_cstr_ch _ _ _ _ _ _ E2) as (a2 & C2).
  pose proof (chg_good _ _ _ _ C1 G0) as G1. pose proof (chg_good _ _ _ _ C2 G1) as G2.
  pose proof (chg_len _ _ _ _ C1) as (_ & L2 & L3). pose proof (chg_len _ _ _ _ C2) as (_ & M2 & M3). cbn in L2, L3.
  assert (COLD : ws = [] -> onlyeq A2 /\ length (a_active A2) = howmany (fun i => bounds_eq (p_bl pb i) (p_bu pb i)) (a_nc A) + howmany (fun i => bounds_eq (p_xl pb i) (p_xu pb i)) (a_nb A)).
  { intros ->. assert (O0 : onlyeq (as_reset A)) by (split; reflexivity). destruct (pia_bnd_cold _ _ _ _ _ E1 O0) as (O1 & D1). destruct (pia_cstr_cold _ _ _ _ _ E2 O1) as (O2 & D2). split; [exact O2|].
    pose proof (chg_len _ _ _ _ D1) as (P1 & _). pose proof (chg_len _ _ _ _ D2) as (P2 & _). cbn in P1, P2. rewrite L2 in P2. lia. }
  pose proof (nact_length _ G2) as NL.
  destruct (Nat.ltb_spec n (nact A2)) as [L|L].
  - destruct (Z.ltb_spec (Z.of_nat n) (a_me A2 + a_mbe A2)) as [Q|Q].
    + injection H as <- <-. split; [exact G2|]. split; [congruence|]. split; [congruence|]. left; reflexivity.
    + apply bind_ok in H as (A3 & E3 & H). injection H as <- <-. destruct (trim_ch _ _ _ _ E3) as ((d & D3) & N3). pose proof (chg_good _ _ _ _ D3 G2) as G3. pose proof (chg_len _ _ _ _ D3) as (_ & R2 & R3).
      split; [exact G3|]. split; [congruence|]. split; [congruence|]. right. split; [reflexivity|]. split; [rewrite <- (nact_length _ G3); exact N3|].
      intros HW. destruct (COLD HW) as ((O1 & O2) & _). exfalso. unfold nact, nbActiveCstr in L. rewrite O1, O2 in L. lia.
  - injection H as <- <-. split; [exact G2|]. split; [congruence|]. split; [congruence|]. right. split; [reflexivity|]. split; [lia|]. intros HW. apply COLD. exact HW.
Qed.
Lemma initData_same pb M x y : initComputationData (S:=S) pb M x = Ok y -> s_it (x_s y) = s_it (x_s x) /\ s_A (x_s y) = s_A (x_s x).
Proof. unfold initComputationData. cbv zeta. intros H. stp; split; reflexivity. Qed.
Lemma initPD_same pb x y : initPrimalDual (S:=S) pb x = Ok y -> s_it (x_s y) = s_it (x_s x) /\ s_A (x_s y) = s_A (x_s x).
Proof. unfold initPrimalDual. cbv zeta. intros H. stp; split; reflexivity. Qed.
Lemma drop_ch pb fuel : forall x y, drop_loop (S:=S) pb fuel x = Ok y -> exists d, s_it (x_s y) = s_it (x_s x) + d /\ chg (s_A (x_s x)) (s_A (x_s y)) 0 d.
Proof.
  induction fuel as [|f IH]; intros x y H; cbn [drop_loop] in H; [discriminate|]. cbv zeta in H. apply bind_ok in H as (? & _ & H). apply bind_ok in H as (? & _ & H). apply bind_ok in H as ([m [l|]] & _ & H); cbn [snd] in H.
  - apply bind_ok in H as (A & E & H). apply bind_ok in H as (s & E2 & H). apply bind_ok in H as (z & E3 & H). apply removeConstraint__ch in E2 as [I1 I2]. apply initPD_same in E3 as [J1 J2]. cbn in I1, I2, J1, J2.
    destruct (IH _ _ H) as (d & D1 & D2). exists (1 + d). split; [lia|]. rewrite J2, I2 in D2. exact (chg_trans _ _ _ _ _ _ _ (chg_less _ _ _ E) D2).
  - injection H as <-. exists 0. split; [lia|apply chg_refl].
Qed.
Lemma xgi_changes junk pb o ws (x : xsolT) st x' : xgi_solve junk pb o ws x = Ok (st, x') -> good (s_A (x_s x)) ->
  good (s_A (x_s x')) /\
  (((st = NON_POS_HESSIAN \/ st = OVERCONSTRAINED_PROBLEM) /\ s_it (x_s x') = 0) \/
   exists e a d, s_it (x_s x') = a + d /\ length (a_active (s_A (x_s x'))) + d = e + a /\ e <= p_Grows pb /\ (o_warm o = false -> e = equalities pb)).
Proof.
  intros H HG. unfold xgi_solve in H. apply guard_ok in H as (HS & H). apply guard_ok in H as (_ & H). apply guard_ok in H as (_ & H). cbv zeta in H.
  assert (SN : s_n (x_s (xresize junk x (p_Grows pb) (p_Ccols pb) (0 <? p_xlsize pb))) = p_Grows pb).
  { cbn [x_s xresize]. unfold resize, resize_p. cbv zeta. set (v := resize_d junk (x_s x) (p_Grows pb)). destruct (Nat.eqb_spec (p_Grows pb) (s_n v)) as [E|E]; destruct (_ =? nbAll _); cbn [s_n s_A set_r set_u]; destruct (_ && _); cbn [s_n set_A set_r set_u]; auto. }
  pose proof (resize_sizes junk (x_s x) (p_Grows pb) (p_Ccols pb) (0 <? p_xlsize pb)) as [Z1 Z2]. rewrite (xl_size pb HS) in Z2.
  apply (resize_good junk (x_s x) (p_Grows pb) (p_Ccols pb) (0 <? p_xlsize pb)) in HG. 
  change (resize junk (x_s x) (p_Grows pb) (p_Ccols pb) (0 <? p_xlsize pb)) with (x_s (xresize junk x (p_Grows pb) (p_Ccols pb) (0 <? p_xlsize pb))) in Z1, Z2, HG.
  revert SN Z1 Z2 HG H. generalize (xresize junk x (p_Grows pb) (p_Ccols pb) (0 <? p_xlsize pb)). clear x HS. intros x SN Z1 Z2 HG H.
  apply bind_ok in H as ([st0 y] & E & H).
  set (ws' := if o_warm o then (if is_nil ws then _ else ws) else []) in E. assert (KW : o_warm o = false -> ws' = []) by (unfold ws'; intros ->; reflexivity).
  set (s0 := if o_warm o then _ else _) in E. assert (K0 : good (s_A s0) /\ a_nc (s_A s0) = p_Ccols pb /\ a_nb (s_A s0) = p_xlsize pb /\ s_n s0 = p_Grows pb).
  { unfold s0. destruct (o_warm o); cbn; (split; [first [exact HG|exact (good_reset' _ HG)]|split; [exact Z1|split; [exact Z2|exact SN]]]). }
  clearbody s0 ws'. destruct K0 as (G0 & N0 & B0 & I0). unfold xinit in E. cbv zeta in E. apply bind_ok in E as ([st1 B] & EP & E). cbn [x_s xset_s set_it s_n s_A fst snd] in EP, E.
  destruct (process_ch _ _ _ _ _ _ _ EP G0) as (GB & NB & BB & HP). cbn in I0. rewrite I0 in HP.
  destruct HP as [->|(-> & LB & HC)].
  - injection E as <- <-. apply bind_ok in H as ([r v] & H & H'). apply terminate_same in H as [-> ->]. injection H' as <- <-. cbn. split; [exact GB|left; auto].
  - destruct (llt _ (p_G pb)) as [ret M]. destruct ret as [k|].
    + injection E as <- <-. apply bind_ok in H as ([r v] & H & H'). apply terminate_same in H as [-> ->]. injection H' as <- <-. cbn. split; [exact GB|left; auto].
    + apply bind_ok in E as (y1 & E1 & E). apply bind_ok in E as (y2 & E2 & E). apply bind_ok in E as (y3 & E3 & E). injection E as <- <-.
      apply initData_same in E1 as [I1 I2]. apply initPD_same in E2 as [J1 J2]. destruct (drop_ch _ _ _ _ E3) as (d0 & D1 & D2). cbn in I1, I2. rewrite J2, I2 in D2. rewrite J1, I1 in D1.
      apply bind_ok in H as (? & _ & H). apply bind_ok in H as (? & _ & H). apply bind_ok in H as (? & _ & H). apply bind_ok in H as ([st2 t] & K & H). apply loop_ch in K as (a & d & K1 & K2). cbn in K1, K2.
      apply bind_ok in H as ([r v] & H & H'). apply terminate_same in H as [-> ->]. injection H' as <- <-. cbn.
      pose proof (chg_trans _ _ _ _ _ _ _ D2 K2) as CC. split; [exact (chg_good _ _ _ _ CC GB)|]. right. pose proof (chg_len _ _ _ _ CC) as (P1 & _).
      exists (length (a_active B)), a, (d0 + d). split; [lia|]. split; [lia|]. split; [exact LB|]. intros HW. rewrite (HC (KW HW)), N0, B0. reflexivity.
Qed.

Lemma pia_bnd_max pb o j ws k : forall A, pia_bnd (S:=S) pb (with_max o j) ws k A = pia_bnd pb o ws k A.
Proof. induction k as [|k IH]; intros A; [reflexivity|]. cbn [pia_bnd]. rewrite IH. reflexivity. Qed.
Lemma pia_cstr_max pb o j ws k : forall A, pia_cstr (S:=S) pb (with_max o j) ws k A = pia_cstr pb o ws k A.
Proof. induction k as [|k IH]; intros A; [reflexivity|]. cbn [pia_cstr]. rewrite IH. reflexivity. Qed.
Lemma process_max pb o j ws n A : processInitialActiveSet (S:=S) pb (with_max o j) ws n A = processInitialActiveSet pb o ws n A.
Proof. unfold processInitialActiveSet. cbv zeta. rewrite pia_bnd_max. destruct (pia_bnd pb o ws _ _) as [B|]; [|reflexivity]. cbn [bind]. rewrite pia_cstr_max. reflexivity. Qed.
Lemma process_st pb o ws n A B : processInitialActiveSet (S:=S) pb o ws n A <> Ok (MAX_ITER_REACHED, B).
Proof.
  unfold processInitialActiveSet. cbv zeta. intros H. apply bind_ok in H as (A1 & _ & H). apply bind_ok in H as (A2 & _ & H). destruct (n <? nact A2); [|discriminate]. destruct (_ <? _)%Z; [discriminate|]. apply bind_ok in H as (A3 & _ & H). discriminate.
Qed.
Lemma xinit_max pb o j ws x : xinit (S:=S) pb (with_max o j) ws x = xinit pb o ws x.
Proof. unfold xinit. cbv zeta. rewrite process_max. reflexivity. Qed.
Lemma xgi_next junk pb o k ws (x : xsolT) x1 st x2 : xgi_solve junk pb (with_max o k) ws x = Ok (MAX_ITER_REACHED, x1) -> xgi_solve junk pb (with_max o (Datatypes.S k)) ws x = Ok (st, x2) ->
  next (x_s x1) st (x_s x2) \/ st = MAX_ITER_REACHED /\ k < s_it (x_s x1) /\ x_s x2 = x_s x1.
Proof.
  unfold xgi_solve. cbn [o_warm with_max]. intros H1 H2. apply guard_ok in H1 as (_ & H1). apply guard_ok in H2 as (_ & H2). apply guard_ok in H1 as (_ & H1). apply guard_ok in H2 as (_ & H2). apply guard_ok in H1 as (_ & H1). apply guard_ok in H2 as (_ & H2). cbv zeta in *.
  revert H1 H2. generalize (xresize junk x (p_Grows pb) (p_Ccols pb) (0 <? p_xlsize pb)). clear x. intros x.
  set (s0 := if o_warm o then set_exp (x_s x) true else set_A _ _). set (ws' := if o_warm o then (if is_nil ws then _ else ws) else []). clearbody s0 ws'. intros H1 H2.
  rewrite xinit_max in H1, H2. apply bind_ok in H1 as ([st0 v] & E & H1). rewrite E in H2. cbn [bind] in H2.
  destruct st0; try (apply bind_ok in H1 as ([r w] & H1 & H1'); apply terminate_same in H1 as (_ & ->); discriminate H1').
  - destruct (getV (s_x (x_s v)) (s_n (x_s v))); [|discriminate]. destruct (getV (s_z (x_s v)) (s_n (x_s v))); [|discriminate]. destruct (getV (s_u (x_s v)) (nact (s_A (x_s v)))); [|discriminate]. cbn [bind] in *. change (o_maxIter (with_max o k)) with k in H1. change (o_maxIter (with_max o (Datatypes.S k))) with (Datatypes.S k) in H2. rewrite loop_max in H1, H2.
    apply bind_ok in H1 as ([st1 t1] & H1 & H1'). apply bind_ok in H1' as ([r1 v1] & H1' & H1''). injection H1'' as E1 <-. cbn [fst] in E1. subst r1. apply terminate_same in H1' as (-> & <-). cbn [snd].
    apply bind_ok in H2 as ([st2 t2] & H2 & H2'). apply bind_ok in H2' as ([r2 v2] & H2' & H2''). injection H2'' as E2 <-. cbn [fst] in E2. subst r2. apply terminate_same in H2' as (-> & ->). cbn [snd x_s xset_s].
    destruct (Nat.le_gt_cases (s_it (x_s v)) k) as [Hk|Hk].
    + left. rewrite Nat.sub_succ_l in H2 by exact Hk. exact (loop_next _ _ _ _ _ _ _ H1 H2).
    + right. rewrite (proj2 (Nat.sub_0_le k _)) in H1 by lia. rewrite (proj2 (Nat.sub_0_le (Datatypes.S k) _)) in H2 by lia. cbn [loop] in H1, H2. injection H1 as <-. injection H2 as <- <-. auto.
  - exfalso. unfold xinit in E. cbv zeta in E. apply bind_ok in E as ([st1 B] & P & E). cbn [fst snd] in E. destruct st1; try discriminate E; [destruct (llt _ (p_G pb)) as [[r|] M]; try discriminate E|exact (process_st _ _ _ _ _ _ P)].
    all: repeat (apply bind_ok in E as (? & _ & E)); try discriminate E.
Qed.

(** ** The block solver *)
Section B.
Variable isz : carrier S -> bool.
Variable tiny : carrier S.
Notation bsolT := (bsol S).
(** elementary factors of Q, and doubles they hold *)
Definition factors (b : bsolT) : nat := length (q_seq (r_Q (b_QR b))).
Definition doubles_of (l : list (nat * elem S)) : nat := list_sum (map (fun p => w_size (e_w1 (snd p)) + w_size (e_w2 (snd p))) l).
Definition stored (b : bsolT) : nat := doubles_of (q_seq (r_Q (b_QR b))).
(** [k] more factors of at most [2n] doubles *)
Definition more (r r' : qrs S) (k : nat) : Prop :=
  r_n r' = r_n r /\ length (q_seq (r_Q r')) = length (q_seq (r_Q r)) + k /\ doubles_of (q_seq (r_Q r')) <= doubles_of (q_seq (r_Q r)) + k * (2 * r_n r).
Lemma more_refl r : more r r 0. Proof. repeat split; lia. Qed.
Lemma more_trans r1 r2 r3 k k' : more r1 r2 k -> more r2 r3 k' -> more r1 r3 (k + k').
Proof. intros (A1 & A2 & A3) (B1 & B2 & B3). rewrite A1 in *. repeat split; [congruence|lia|]. rewrite Nat.mul_add_distr_r. lia. Qed.
Definition chB (b c : bsolT) (a r : nat) : Prop := ch (b_s b) (b_s c) a r /\ s_n (b_s c) = s_n (b_s b) /\ more (b_QR b) (b_QR c) (a + r).
Lemma chB_refl b : chB b b 0 0. Proof. split; [apply ch_refl|split; [reflexivity|apply more_refl]]. Qed.
Lemma chB_trans b c d a r a' r' : chB b c a r -> chB c d a' r' -> chB b d (a + a') (r + r').
Proof.
  intros (A & N1 & M1) (B & N2 & M2). split; [eapply ch_trans; eauto|]. split; [congruence|]. replace (a + a' + (r + r')) with (a + r + (a' + r')) by lia. eapply more_trans; eauto.
Qed.
Lemma adjust_more r q r' : adjustLdR (S:=S) r q = Ok r' -> q <= r_n r /\ r_n r' = r_n r /\ r_Q r' = r_Q r.
Proof.
  unfold adjustLdR. cbv zeta. intros H. apply guard_ok in H as (E & H). apply Nat.leb_le in E. split; [exact E|]. destruct (r_ld r <? q); [apply bind_ok in H as (l & _ & H)|]; injection H as <-; split; reflexivity.
Qed.
Lemma getR_more r q R r' : getR (S:=S) r q = Ok (R, r') -> q <= r_n r /\ r_n r' = r_n r /\ r_Q r' = r_Q r.
Proof. unfold getR. intros H. apply bind_ok in H as (v & E & H). apply bind_ok in H as (w & _ & H). injection H as _ <-. apply adjust_more in E. exact E. Qed.
Lemma rsolve_more r n o m i v r' : sqr_RSolve (S:=S) r n o m i = Ok (v, r') -> more r r' 0.
Proof.
  unfold sqr_RSolve. intros H. apply guard_ok in H as (_ & H). apply bind_ok in H as ([R w] & E & H). injection H as _ <-. cbn [snd]. apply getR_more in E as (_ & E1 & E2). unfold more. rewrite E1, E2. repeat split; lia.
Qed.
Lemma addG_more q i g q' : os_addG (S:=S) q i g = Ok q' -> length (q_seq q') = length (q_seq q) /\ doubles_of (q_seq q') = doubles_of (q_seq q).
Proof.
  unfold os_addG, os_back. destruct (q_seq q) as [|[st e] rest] eqn:Q; intros H; apply bind_ok in H as ([[st' e'] rest'] & E & H); try discriminate. apply guard_ok in E as (_ & E).
  apply bind_ok in H as (e2 & E2 & H). injection H as <-. cbn [q_seq]. unfold elem_addG in E2. cbv zeta in E2. apply guard_ok in E2 as (_ & E2).
  assert (K : e' = e /\ rest' = rest) by (destruct (e_size e =? 0); [injection E as _ <- <-; auto|apply guard_ok in E as (_ & E); injection E as _ <- <-; auto]). destruct K as [-> ->].
  apply bind_ok in E2 as (c & _ & E2). apply bind_ok in E2 as (s & _ & E2). injection E2 as <-. split; reflexivity.
Qed.
Lemma addH_more q i n v t q' : os_addH (S:=S) q i n v t = Ok q' -> length (q_seq q') = length (q_seq q) /\ doubles_of (q_seq q') = doubles_of (q_seq q).
Proof.
  unfold os_addH, os_back. destruct (q_seq q) as [|[st e] rest] eqn:Q; intros H; apply bind_ok in H as ([[st' e'] rest'] & E & H); try discriminate. apply guard_ok in E as (_ & E).
  apply bind_ok in H as (e2 & E2 & H). injection H as <-. cbn [q_seq]. unfold elem_addH in E2. cbv zeta in E2. apply guard_ok in E2 as (_ & E2). apply guard_ok in E2 as (_ & E2).
  assert (K : e' = e /\ rest' = rest) by (destruct (e_size e =? 0); [injection E as _ <- <-; auto|apply guard_ok in E as (_ & E); injection E as _ <- <-; auto]). destruct K as [-> ->].
  apply bind_ok in E2 as (c & _ & E2). apply bind_ok in E2 as (s & _ & E2). injection E2 as <-. split; reflexivity.
Qed.
Lemma prep_more junk q t n k q' : os_prepare (S:=S) junk q t n k = Ok q' -> length (q_seq q') = Datatypes.S (length (q_seq q)) /\
  doubles_of (q_seq q') = match t with OHouseholder => n * k + k | _ => k + k end + doubles_of (q_seq q).
Proof. unfold os_prepare, elem_new. destruct t; intros H; cbn in H; try discriminate; injection H as <-; split; reflexivity. Qed.
Lemma sqradd_more junk r n d f r' : sqr_add (S:=S) tiny junk r n d = Ok (f, r') -> more r r' 1.
Proof.
  unfold sqr_add. cbv zeta. destruct (mkHouse tiny _ _) as [[tau beta] ess]. intros H. apply guard_ok in H as (_ & H). apply guard_ok in H as (L & H). apply Nat.leb_le in L. apply bind_ok in H as (e0 & _ & H).
  apply bind_ok in H as ([R w] & E & H). apply getR_more in E as (_ & E1 & E2). apply bind_ok in H as (Q & P & H). apply bind_ok in H as (Q' & P' & H). injection H as _ <-.
  apply prep_more in P as [P1 P2]. apply addH_more in P' as [P3 P4]. rewrite E2 in *. unfold more. cbn [r_Q r_n]. rewrite P3, P4, P1, P2. repeat split; lia.
Qed.
Lemma remloop_more ld q cnt : forall i R Q R' Q', sqr_rem_loop (S:=S) ld q cnt i R Q = Ok (R', Q') -> length (q_seq Q') = length (q_seq Q) /\ doubles_of (q_seq Q') = doubles_of (q_seq Q).
Proof.
  induction cnt as [|c IH]; intros i R Q R' Q' H; cbn [sqr_rem_loop] in H; [injection H as _ <-; split; reflexivity|]. destruct (makeGivens _ _) as [g rr]. apply bind_ok in H as (Q1 & E & H). apply addG_more in E as [E1 E2]. apply IH in H as [H1 H2]. split; congruence.
Qed.
Lemma sqrremove_more junk r l r' : sqr_remove (S:=S) junk r l = Ok r' -> more r r' 1.
Proof.
  unfold sqr_remove. cbv zeta. intros H. apply guard_ok in H as (L & H). apply Nat.leb_le in L. apply bind_ok in H as ([R w] & E & H). apply getR_more in E as (E0 & E1 & E2). cbn [r_n r_Q] in E0, E1, E2. apply guard_ok in H as (L' & H). apply Nat.leb_le in L'.
  apply bind_ok in H as (Q & P & H). apply bind_ok in H as ([R' Q'] & P' & H). injection H as <-. apply prep_more in P as [P1 P2]. apply remloop_more in P' as [P3 P4]. rewrite E2 in *. unfold more. cbn [r_Q r_n snd]. rewrite P3, P4, P1, P2. repeat split; lia.
Qed.
Lemma bselect_ch bp b sc b' : bselect (S:=S) bp b = Ok (sc, b') -> chB b b' 0 0.
Proof. unfold bselect. cbv zeta. intros H. stp. subst b'. split; [apply ch_refl|]. split; [reflexivity|apply more_refl]. Qed.
Lemma bstep_ch bp b sc b' : bcomputeStep isz bp b sc = Ok b' -> chB b b' 0 0.
Proof.
  unfold bcomputeStep. cbv zeta. intros H. apply bind_ok in H as (d0 & _ & H). apply bind_ok in H as (z0 & _ & H). apply bind_ok in H as (r0 & _ & H). apply bind_ok in H as (d1 & _ & H). apply guard_ok in H as (_ & H). apply bind_ok in H as (z1 & _ & H).
  apply bind_ok in H as ([v r] & E & H). injection H as <-. apply rsolve_more in E. split; [split; [reflexivity|apply chg_refl]|]. split; [reflexivity|exact E].
Qed.
Lemma badd_ch junk b sc b' : baddConstraint tiny junk b sc = Ok b' -> chB b b' 1 0.
Proof.
  unfold baddConstraint. cbv zeta. intros H. apply bind_ok in H as (A & E & H). apply bind_ok in H as (d & _ & H). apply bind_ok in H as ([f r] & F & H). injection H as <-. apply sqradd_more in F.
  split; [split; [reflexivity|cbn; eapply chg_one; eauto]|]. split; [reflexivity|exact F].
Qed.
Lemma bremove_ch junk b l b' : bremoveConstraint (S:=S) junk b l = Ok b' -> chB b b' 0 1.
Proof.
  unfold bremoveConstraint. cbv zeta. intros H. apply guard_ok in H as (_ & H). apply bind_ok in H as (A & E & H). apply bind_ok in H as (r & F & H). injection H as <-. apply sqrremove_more in F.
  split; [split; [reflexivity|cbn; eapply chg_less; exact E]|]. split; [reflexivity|exact F].
Qed.
Lemma chB_set b (s : solT) : s_it s = s_it (b_s b) -> s_A s = s_A (b_s b) -> s_n s = s_n (b_s b) -> chB b (bset_s b s) 0 0.
Proof. intros E1 E2 E3. split; [split; [exact E1|cbn; rewrite E2; apply chg_refl]|]. split; [exact E3|apply more_refl]. Qed.
Lemma bstep1_ch bp l l1 b : bstep1 (S:=S) bp l = Ok (Some l1, b) -> chB (bl_s l) (bl_s l1) 0 0.
Proof.
  unfold bstep1. cbv zeta. destruct (bl_skip l); [intros H; injection H as <- _; apply chB_refl|]. intros H. apply bind_ok in H as ([sc b1] & E & H). apply bselect_ch in E.
  destruct (sc_st sc); try discriminate; apply bind_ok in H as (? & _ & H); apply bind_ok in H as (? & _ & H); injection H as <- _; cbn [bl_s]; (eapply (chB_trans _ _ _ 0 0 0 0 E); apply chB_set; reflexivity).
Qed.
Lemma bstep1_stop bp l b : bstep1 (S:=S) bp l = Ok (None, b) -> chB (bl_s l) b 0 0.
Proof.
  unfold bstep1. cbv zeta. destruct (bl_skip l); [discriminate|]. intros H. apply bind_ok in H as ([sc b1] & E & H). apply bselect_ch in E.
  destruct (sc_st sc); try (injection H as <-; exact E); apply bind_ok in H as (? & _ & H); apply bind_ok in H as (? & _ & H); discriminate.
Qed.
Definition bout (b : bsolT) (r : biter_out S) : Prop := match r with BContinue l => exists a d, a + d = 1 /\ chB b (bl_s l) a d | BStop _ c => chB b c 0 0 end.
Lemma bstep2_ch junk bp o l r : bstep2 isz tiny junk bp o l = Ok r -> bout (bl_s l) r.
Proof.
  unfold bstep2. cbv zeta. intros H. apply bind_ok in H as (b & E & H). apply bstep_ch in E. apply bind_ok in H as ([[t1 t2] li] & _ & H).
  destruct (leb S (o_bigBnd o) _); [injection H as <-; exact E|]. destruct (leb S (o_bigBnd o) t2).
  - apply bind_ok in H as (w & K & H). apply bind_ok in H as (? & _ & H). apply bind_ok in H as (? & _ & H). injection H as <-. cbn. apply bremove_ch in K.
    exists 0, 1. split; [reflexivity|]. eapply (chB_trans _ _ _ 0 0 0 1 E). eapply (chB_trans _ _ _ 0 0 0 1); [|exact K]. apply chB_set; reflexivity.
  - apply bind_ok in H as (nz & _ & H). destruct (eqb S _ t2).
    + apply bind_ok in H as (w & K & H). injection H as <-. cbn. apply badd_ch in K. exists 1, 0. split; [reflexivity|]. eapply (chB_trans _ _ _ 0 0 1 0 E). eapply (chB_trans _ _ _ 0 0 1 0); [|exact K]. apply chB_set; reflexivity.
    + apply bind_ok in H as (w & K & H). apply bind_ok in H as (? & _ & H). apply bind_ok in H as (? & _ & H). injection H as <-. cbn. apply bremove_ch in K.
      exists 0, 1. split; [reflexivity|]. eapply (chB_trans _ _ _ 0 0 0 1 E). eapply (chB_trans _ _ _ 0 0 0 1); [|exact K]. apply chB_set; reflexivity.
Qed.
Lemma biter_ch junk bp o l r : biter isz tiny junk bp o l = Ok r -> bout (bl_s l) r.
Proof.
  unfold biter. intros H. apply bind_ok in H as ([[l1|] b1] & E & H); cbn [fst snd] in H.
  - apply bstep1_ch in E. apply bstep2_ch in H. destruct r as [l'|st t]; cbn in *.
    + destruct H as (a & d & E1 & H). exists a, d. split; [exact E1|]. exact (chB_trans _ _ _ _ _ _ _ E H).
    + exact (chB_trans _ _ _ _ _ _ _ E H).
  - injection H as <-. cbn. exact (bstep1_stop _ _ _ E).
Qed.
Lemma bloop_ch junk bp o fuel : forall (l : blst S) st t, bloop isz tiny junk bp o fuel l = Ok (st, t) -> exists a d,
  s_it (b_s t) = s_it (b_s (bl_s l)) + (a + d) /\ chg (s_A (b_s (bl_s l))) (s_A (b_s t)) a d /\ s_n (b_s t) = s_n (b_s (bl_s l)) /\ more (b_QR (bl_s l)) (b_QR t) (a + d).
Proof.
  induction fuel as [|f IH]; intros l st t H; cbn [bloop] in H.
  - injection H as _ <-. exists 0, 0. split; [lia|]. split; [apply chg_refl|]. split; [reflexivity|apply more_refl].
  - apply bind_ok in H as (r & E & H). apply biter_ch in E. destruct r as [l'|st' t']; cbn in E.
    + apply IH in H as (a & d & H1 & H2 & H3 & H4). destruct E as (a' & d' & E0 & (E1 & E2) & E3 & E4). cbn in H1, H2, H3, H4. exists (a' + a), (d' + d). split; [lia|]. split; [exact (chg_trans _ _ _ _ _ _ _ E2 H2)|]. split; [congruence|].
      replace (a' + a + (d' + d)) with (a' + d' + (a + d)) by lia. exact (more_trans _ _ _ _ _ E4 H4).
    + injection H as _ <-. destruct E as ((E1 & E2) & E3 & E4). exists 0, 0. split; [lia|]. split; [exact E2|]. split; [exact E3|exact E4].
Qed.
Lemma bterminate_same o st (b : bsolT) st' t : bterminate o st b = Ok (st', t) -> t = b /\ st' = st.
Proof. destruct st; cbn; try (intros H; injection H as <- <-; auto); destruct (o_debug o); intros H; try discriminate; injection H as <- <-; auto. Qed.
(** the objects between calls *)
Definition bgood (b : bsolT) : Prop := good (s_A (b_s b)) /\ r_n (b_QR b) = s_n (b_s b).
Lemma resize_p_good (junk : vec S) (s : solT) n nc b : good (s_A s) -> good (s_A (resize_p junk s n nc b)).
Proof. intros HG. unfold resize_p. cbv zeta. destruct (n =? s_n s); cbn [s_A set_r set_u]; destruct (_ =? nbAll (s_A s)); cbn [s_A set_r set_u]; destruct (_ && _); cbn [s_A set_A]; auto; apply good_resize. Qed.
Lemma resize_p_n (junk : vec S) (s : solT) n nc b : s_n (resize_p junk s n nc b) = n.
Proof. unfold resize_p. cbv zeta. destruct (Nat.eqb_spec n (s_n s)) as [E|E]; cbn [s_n s_A set_r set_u]; destruct (_ =? nbAll (s_A s)); cbn [s_n s_A set_r set_u]; destruct (_ && _); cbn [s_n set_A set_r set_u]; auto. Qed.
Lemma bresize_good junk b n nc ub : bgood b -> bgood (bresize (S:=S) junk b n nc ub) /\ s_n (b_s (bresize (S:=S) junk b n nc ub)) = n.
Proof.
  intros (HG & HN). unfold bresize. cbv zeta.
  set (b1 := if n =? s_n (b_s b) then b else _). set (b2 := if nc =? a_nc (s_A (b_s b)) then b1 else _).
  assert (K1 : b_s b1 = b_s b /\ r_n (b_QR b1) = s_n (b_s b) /\ n = s_n (b_s b) \/ s_A (b_s b1) = s_A (b_s b) /\ r_n (b_QR b1) = n).
  { subst b1. destruct (Nat.eqb_spec n (s_n (b_s b))) as [HE|HE]; [left; split; [reflexivity|split; assumption]|right; split; reflexivity]. }
  assert (K2 : b_s b2 = b_s b1 /\ b_QR b2 = b_QR b1) by (subst b2; clearbody b1; destruct (nc =? a_nc (s_A (b_s b))); split; reflexivity). destruct K2 as [K2 K3]. clearbody b1 b2.
  unfold bgood. cbn [b_s bset_s b_QR]. rewrite resize_p_n, K2, K3. split; [|reflexivity]. split.
  - apply resize_p_good. destruct K1 as [(-> & _)|(-> & _)]; exact HG.
  - destruct K1 as [(_ & -> & E)|(_ & E)]; congruence.
Qed.
Lemma bgood_new : bgood (bsol_new (S:=S)).
Proof. split; [apply (good_new 0 0)|reflexivity]. Qed.
Lemma bgi_changes junk bp o ws (b : bsolT) st b' : bgi_solve isz tiny junk bp o ws b = Ok (st, b') -> bgood b ->
  bgood b' /\ 
  (((st = NON_POS_HESSIAN \/ st = OVERCONSTRAINED_PROBLEM) /\ s_it (b_s b') = 0) \/
   exists a d, s_it (b_s b') = a + d /\ length (a_active (s_A (b_s b'))) + d = a /\ factors b' = s_it (b_s b') /\ stored b' <= s_it (b_s b') * (2 * g_n (bp_G bp))).
Proof.
  intros H HG. unfold bgi_solve in H. apply guard_ok in H as (HS & H). apply guard_ok in H as (_ & H). apply guard_ok in H as (_ & H). cbv zeta in H.
  assert (HG1 : bgood (BS (b_s b) (bp_G bp) (b_QR b) (b_Jn b) (b_cx b) (b_bact b) false)) by exact HG. clear HG.
  set (bb := BS (b_s b) (bp_G bp) (b_QR b) (b_Jn b) (b_cx b) (b_bact b) false) in *. clearbody bb. clear b.
  apply (bresize_good junk bb (g_n (bp_G bp)) (c_nbCstr (bp_C bp)) (0 <? bp_xlsize bp)) in HG1 as (HG & HN).
  revert HG HN H. generalize (bresize junk bb (g_n (bp_G bp)) (c_nbCstr (bp_C bp)) (0 <? bp_xlsize bp)). clear bb. intros b HG HN H.
  set (ws' := if o_warm o then (if is_nil ws then _ else ws) else []) in H.
  apply bind_ok in H as ([st0 y] & E & H).
  set (s0 := if o_warm o then _ else _) in E. assert (K0 : good (s_A s0) /\ s_n s0 = g_n (bp_G bp)).
  { unfold s0. destruct HG as (HG & _). destruct (o_warm o); cbn; (split; [first [exact HG|exact (good_reset' _ HG)]|exact HN]). }
  clearbody s0 ws'. destruct K0 as (G0 & I0). unfold binit in E. cbv zeta in E. apply bind_ok in E as ([st1 B] & EP & E). cbn [b_s bset_s set_it s_n s_A fst snd] in EP, E.
  destruct (process_ch _ _ _ _ _ _ _ EP G0) as (GB & _ & _ & HP). destruct HG as (_ & HR).
  destruct HP as [->|(-> & LB & _)].
  - injection E as <- <-. apply bterminate_same in H as [-> ->]. cbn. split; [split; [exact GB|cbn; congruence]|left; auto].
  - apply bind_ok in E as ([dn G] & _ & E). cbn [fst snd] in E. destruct dn; cbn [negb] in E.
    + apply guard_ok in E as (_ & E). apply guard_ok in E as (NA & E). apply Nat.eqb_eq in NA. apply bind_ok in E as (? & _ & E). apply bind_ok in E as (? & _ & E). apply bind_ok in E as (? & _ & E). apply bind_ok in E as (? & _ & E). apply bind_ok in E as (? & _ & E). injection E as <- <-.
      apply bind_ok in H as (? & _ & H). apply bind_ok in H as (? & _ & H). apply bind_ok in H as (? & _ & H). apply bind_ok in H as ([st2 t] & K & H). apply bloop_ch in K as (a & d & K1 & K2 & K3 & K4). cbn in K1, K2, K3.
      apply bterminate_same in H as [-> ->]. destruct K4 as (M1 & M2 & M3). cbn in M1, M2, M3. rewrite HR, HN in *. split; [split; [exact (chg_good _ _ _ _ K2 GB)|cbn; congruence]|]. right. exists a, d.
      pose proof (chg_len _ _ _ _ K2) as (P1 & _). rewrite <- (nact_length _ GB) in P1. cbn [s_A set_A set_it] in NA. unfold factors, stored. cbn [snd]. rewrite K1. 
      split; [lia|]. split; [|split; lia]. unfold nact in *. cbn in NA. lia.
    + injection E as <- <-. apply bterminate_same in H as [-> ->]. cbn. split; [split; [exact GB|cbn; congruence]|left; auto].
Qed.
Lemma biter_stop junk bp o (l : blst S) st t : biter isz tiny junk bp o l = Ok (BStop st t) -> st = SUCCESS \/ st = INFEASIBLE.
Proof.
  unfold biter. intros H. apply bind_ok in H as ([[l1|] b1] & E & H); cbn [fst snd] in H; [|injection H as <- _; auto].
  unfold bstep2 in H. cbv zeta in H. apply bind_ok in H as (v & _ & H). apply bind_ok in H as ([[t1 t2] li] & _ & H). destruct (leb S (o_bigBnd o) _); [injection H as <- _; auto|]. destruct (leb S (o_bigBnd o) t2).
  - apply bind_ok in H as (? & _ & H). apply bind_ok in H as (? & _ & H). apply bind_ok in H as (? & _ & H). discriminate.
  - apply bind_ok in H as (? & _ & H). destruct (eqb S _ t2); apply bind_ok in H as (? & _ & H); [discriminate|]. apply bind_ok in H as (? & _ & H). apply bind_ok in H as (? & _ & H). discriminate.
Qed.
Lemma bloop_next junk bp o k : forall (l : blst S) s1 st s2, bloop isz tiny junk bp o k l = Ok (MAX_ITER_REACHED, s1) -> bloop isz tiny junk bp o (Datatypes.S k) l = Ok (st, s2) -> next (b_s s1) st (b_s s2).
Proof.
  induction k as [|k IH]; intros l s1 st s2 H1 H2.
  - cbn [bloop] in H1. injection H1 as <-. cbn [bloop] in H2. apply bind_ok in H2 as (r & E & H2). pose proof (biter_ch _ _ _ _ _ E) as C. destruct r as [l'|st' t'].
    + injection H2 as <- <-. cbn [bout] in C. destruct C as (a & d & E1 & (C1 & C2) & _). right. split; [reflexivity|]. split; [cbn; congruence|]. cbn. exact (chg_one_change _ _ _ _ C2 E1).
    + injection H2 as <- <-. destruct C as ((C1 & C2) & _). left. split; [apply biter_stop in E as [-> | ->]; discriminate|]. split; [exact C1|exact (chg_zero _ _ C2)].
  - cbn [bloop] in H1. apply bind_ok in H1 as (r & E & H1). change (bloop isz tiny junk bp o (Datatypes.S (Datatypes.S k)) l) with (bind (biter isz tiny junk bp o l) (fun r => match r with BStop st b => Ok (st, b) | BContinue l' => bloop isz tiny junk bp o (Datatypes.S k) (bbump l') end)) in H2.
    rewrite E in H2. cbn [bind] in H2. destruct r as [l'|st' t'].
    + exact (IH _ _ _ _ H1 H2).
    + injection H1 as -> <-. apply biter_stop in E as [E|E]; discriminate E.
Qed.
Lemma bloop_max junk bp o k : forall f (l : blst S), bloop isz tiny junk bp (with_max o k) f l = bloop isz tiny junk bp o f l.
Proof. induction f as [|f IH]; intros l; [reflexivity|]. cbn [bloop]. change (biter isz tiny junk bp (with_max o k) l) with (biter isz tiny junk bp o l). destruct (biter isz tiny junk bp o l) as [[l'|]|]; cbn [bind]; auto. Qed.
Lemma binit_max bp o j ws b : binit isz bp (with_max o j) ws b = binit isz bp o ws b.
Proof. unfold binit. cbv zeta. rewrite process_max. reflexivity. Qed.
Lemma bgi_next junk bp o k ws (b : bsolT) b1 st b2 : bgi_solve isz tiny junk bp (with_max o k) ws b = Ok (MAX_ITER_REACHED, b1) -> bgi_solve isz tiny junk bp (with_max o (Datatypes.S k)) ws b = Ok (st, b2) ->
  next (b_s b1) st (b_s b2).
Proof.
  unfold bgi_solve. cbn [o_warm with_max]. intros H1 H2. apply guard_ok in H1 as (_ & H1). apply guard_ok in H2 as (_ & H2). apply guard_ok in H1 as (_ & H1). apply guard_ok in H2 as (_ & H2). apply guard_ok in H1 as (_ & H1). apply guard_ok in H2 as (_ & H2). cbv zeta in *.
  revert H1 H2. generalize (bresize junk (BS (b_s b) (bp_G bp) (b_QR b) (b_Jn b) (b_cx b) (b_bact b) false) (g_n (bp_G bp)) (c_nbCstr (bp_C bp)) (0 <? bp_xlsize bp)). clear b. intros b.
  set (s0 := if o_warm o then set_exp (b_s b) true else set_A _ _). set (ws' := if o_warm o then (if is_nil ws then _ else ws) else []). clearbody s0 ws'. intros H1 H2.
  rewrite binit_max in H1, H2. apply bind_ok in H1 as ([st0 v] & E & H1). rewrite E in H2. cbn [bind] in H2.
  destruct st0; try (apply bterminate_same in H1 as (_ & H1); discriminate H1).
  - assert (Z : s_it (b_s v) = 0).
    { unfold binit in E. cbv zeta in E. apply bind_ok in E as ([st1 B] & _ & E). cbn [fst snd] in E. destruct st1; try discriminate E. apply bind_ok in E as ([dn G] & _ & E). cbn [fst snd] in E. destruct dn; cbn [negb] in E; [|discriminate].
      apply guard_ok in E as (_ & E). apply guard_ok in E as (_ & E). apply bind_ok in E as (? & _ & E). apply bind_ok in E as (? & _ & E). apply bind_ok in E as (? & _ & E). apply bind_ok in E as (? & _ & E). apply bind_ok in E as (? & _ & E). injection E as <-. reflexivity. }
    rewrite Z, Nat.sub_0_r in *. destruct (getV (s_x (b_s v)) (s_n (b_s v))); [|discriminate]. destruct (getV (s_z (b_s v)) (s_n (b_s v))); [|discriminate]. destruct (getV (s_u (b_s v)) (nact (s_A (b_s v)))); [|discriminate]. cbn [bind] in *. change (o_maxIter (with_max o k)) with k in H1. change (o_maxIter (with_max o (Datatypes.S k))) with (Datatypes.S k) in H2. rewrite bloop_max in H1, H2.
    apply bind_ok in H1 as ([st1 t1] & H1 & H1'). apply bterminate_same in H1' as (-> & E1). cbn [fst snd] in *. subst st1. apply bind_ok in H2 as ([st2 t2] & H2 & H2'). apply bterminate_same in H2' as (-> & ->). cbn [fst snd] in *. exact (bloop_next _ _ _ _ _ _ _ _ H1 H2).
  - exfalso. unfold binit in E. cbv zeta in E. apply bind_ok in E as ([st1 B] & P & E). cbn [fst snd] in E. destruct st1; try discriminate E; [|exact (process_st _ _ _ _ _ _ P)].
    all: repeat (first [apply bind_ok in E as (? & _ & E)|apply guard_ok in E as (_ & E)|match type of E with (if ?c then _ else _) = _ => destruct c end]); try discriminate E.
Qed.
End B.
End A.

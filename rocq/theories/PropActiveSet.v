(** C01-C04: properties of the active set.  Each theorem is about every
    history [ops] of public operations starting from a fresh set. *)
From Coq Require Import List Arith ZArith Lia Bool Sorted.
From Verif Require Import Base ActiveSet ActiveSetProofs.
Import ListNotations.

(** Number of entries of the status vector equal to [s] (specification). *)
Definition how_many (A : aset) (s : status) : Z := Z.of_nat (count_occ status_eq_dec (a_status A) s).

Lemma stat_iff A i s : good A -> as_stat A i = Ok s <-> nth_error (a_status A) i = Some s.
Proof.
  intros (C & _). unfold as_stat, nbAll. rewrite <- (coh_len _ C).
  destruct (Nat.ltb_spec i (length (a_status A))) as [H|H]; simpl.
  - apply nth_error_Some in H. destruct (nth_error (a_status A) i); split; congruence.
  - apply nth_error_None in H. rewrite H. split; discriminate.
Qed.
Lemma get_iff A k i : as_get A k = Ok i <-> nth_error (a_active A) k = Some i.
Proof. unfold as_get. destruct (nth_error (a_active A) k); split; congruence. Qed.
Lemma run_good nc nb ops A : as_run (as_new nc nb) ops = Ok A -> good A.
Proof. apply good_run, good_new. Qed.

(** ** C01 *)
Lemma C01_lemma nc nb ops A : as_run (as_new nc nb) ops = Ok A ->
  (forall i, (exists k, as_get A k = Ok i) <-> (exists s, as_stat A i = Ok s /\ s <> INACTIVE)) /\
  (forall j k i, as_get A j = Ok i -> as_get A k = Ok i -> j = k) /\
  (forall i s, as_stat A i = Ok s -> s <> INACTIVE ->
     (i < a_nc A /\ (s = LOWER \/ s = UPPER \/ s = EQUALITY)) \/
     (a_nc A <= i < a_nc A + a_nb A /\ (s = LOWER_BOUND \/ s = UPPER_BOUND \/ s = FIXED))).
Proof.
  intros H. pose proof (run_good _ _ _ _ H) as HG. destruct HG as (HC & HG'). destruct HC as [HL HN HI HK].
  pose proof (run_good _ _ _ _ H) as HG.
  split; [|split].
  - intros i. split.
    + intros (k & E). apply get_iff, nth_error_In in E. apply HI in E as (s & E & Hs).
      exists s. rewrite stat_iff; auto.
    + intros (s & E & Hs). rewrite stat_iff in E by auto.
      assert (In i (a_active A)) as HIn by (apply HI; eauto).
      apply In_nth_error in HIn as (k & E'). exists k. apply get_iff. auto.
  - intros j k i Ej Ek. apply get_iff in Ej, Ek.
    eapply (proj1 (NoDup_nth_error (a_active A)) HN).
    + apply nth_error_Some. congruence.
    + congruence.
  - intros i s E Hs. rewrite stat_iff in E by auto.
    assert (Hi : i < a_nc A + a_nb A) by (rewrite <- HL; apply nth_error_Some; congruence).
    destruct (HK _ _ E Hs) as [K1 K2]. unfold general_status, bound_status in *.
    destruct (Nat.lt_ge_cases i (a_nc A)); [left|right]; auto.
Qed.

Theorem C01_active_set_views_agree : forall nc nb ops A, as_run (as_new nc nb) ops = Ok A ->
  (forall i, (exists k, as_get A k = Ok i) <-> (exists s, as_stat A i = Ok s /\ s <> INACTIVE)) /\
  (forall j k i, as_get A j = Ok i -> as_get A k = Ok i -> j = k) /\
  (forall i s, as_stat A i = Ok s -> s <> INACTIVE ->
     (i < a_nc A /\ (s = LOWER \/ s = UPPER \/ s = EQUALITY)) \/
     (a_nc A <= i < a_nc A + a_nb A /\ (s = LOWER_BOUND \/ s = UPPER_BOUND \/ s = FIXED))).
Proof. exact C01_lemma. Qed.

(** A non-trivial legal history *)
Example C01_nonvacuous : exists A,
  as_run (as_new 2 3) [OpActivate 1 UPPER; OpActivate 4 FIXED; OpActivate 0 EQUALITY; OpDeactivate 1; OpActivate 2 LOWER_BOUND] = Ok A
  /\ a_active A = [1; 0; 2].
Proof. eexists. split; reflexivity. Qed.

(** ** C02 *)
Lemma C02_lemma nc nb ops A : as_run (as_new nc nb) ops = Ok A ->
  nbActiveCstr A = (Z.of_nat (length (a_status A)) - how_many A INACTIVE)%Z /\
  nbActiveCstr A = Z.of_nat (length (a_active A)) /\
  a_me A = how_many A EQUALITY /\ a_mi A = (how_many A LOWER + how_many A UPPER)%Z /\
  a_ml A = how_many A LOWER /\ a_mu A = how_many A UPPER /\
  a_mb A = (how_many A LOWER_BOUND + how_many A UPPER_BOUND + how_many A FIXED)%Z /\
  a_mbl A = how_many A LOWER_BOUND /\ a_mbu A = how_many A UPPER_BOUND /\ a_mbe A = how_many A FIXED /\
  (0 <= nbActiveCstr A <= Z.of_nat (nbAll A))%Z.
Proof.
  intros H. pose proof (run_good _ _ _ _ H) as HG. pose proof (good_nbActive_le _ HG) as HB.
  destruct HG as (HC & [E1 E2 E3 E4 E5 E6 E7 E8] & E9).
  split; [|repeat split; auto; apply HB].
  unfold nbActiveCstr in *. rewrite E1, E4, E8. unfold how_many, cnt. rewrite count_non_inactive. lia.
Qed.
Theorem C02_active_set_counters_exact : forall nc nb ops A, as_run (as_new nc nb) ops = Ok A ->
  nbActiveCstr A = (Z.of_nat (length (a_status A)) - how_many A INACTIVE)%Z /\
  nbActiveCstr A = Z.of_nat (length (a_active A)) /\
  a_me A = how_many A EQUALITY /\ a_mi A = (how_many A LOWER + how_many A UPPER)%Z /\
  a_ml A = how_many A LOWER /\ a_mu A = how_many A UPPER /\
  a_mb A = (how_many A LOWER_BOUND + how_many A UPPER_BOUND + how_many A FIXED)%Z /\
  a_mbl A = how_many A LOWER_BOUND /\ a_mbu A = how_many A UPPER_BOUND /\ a_mbe A = how_many A FIXED /\
  (0 <= nbActiveCstr A <= Z.of_nat (nbAll A))%Z.
Proof. exact C02_lemma. Qed.
Example C02_nonvacuous : exists A,
  as_run (as_new 2 3) [OpActivate 1 UPPER; OpActivate 4 FIXED; OpActivate 0 EQUALITY; OpDeactivate 1; OpActivate 2 LOWER_BOUND] = Ok A
  /\ nbActiveCstr A = 3%Z /\ a_mb A = 1%Z /\ a_mbe A = 0%Z.
Proof. eexists. repeat split; reflexivity. Qed.

(** ** C03 *)
Lemma C03_activate_lemma nc nb ops A i s : as_run (as_new nc nb) ops = Ok A ->
  (forall A', as_activate A i s = Ok A' ->
     (forall j t, as_stat A j = Ok t -> as_stat A' j = Ok (if (j =? i)%nat then s else t)) /\
     a_active A' = a_active A ++ [i] /\ a_nc A' = a_nc A /\ a_nb A' = a_nb A) /\
  ((exists A', as_activate A i s = Ok A') <->
     as_stat A i = Ok INACTIVE /\
     ((i < a_nc A /\ (s = LOWER \/ s = UPPER \/ s = EQUALITY)) \/
      (a_nc A <= i < a_nc A + a_nb A /\ (s = LOWER_BOUND \/ s = UPPER_BOUND \/ s = FIXED)))).
Proof.
  intros H. pose proof (run_good _ _ _ _ H) as HG. split.
  - intros A' HA. pose proof (good_activate _ _ _ _ HG HA) as HG'.
    apply activate_inv in HA as (H1 & H2 & H3 & H4 & H5 & H6 & H7 & _). split; [|auto].
    intros j t Hj. rewrite stat_iff in * by auto. rewrite H4. destruct (Nat.eqb_spec j i) as [->|Hne].
    + apply set_nth_same. apply nth_error_Some. congruence.
    + rewrite set_nth_other by auto. auto.
  - rewrite activate_legal by auto. rewrite stat_iff by auto. reflexivity.
Qed.
Lemma C03_deactivate_lemma nc nb ops A k : as_run (as_new nc nb) ops = Ok A ->
  (forall A', as_deactivate A k = Ok A' -> exists i, as_get A k = Ok i /\
     (forall j t, as_stat A j = Ok t -> as_stat A' j = Ok (if (j =? i)%nat then INACTIVE else t)) /\
     (exists l1 l2, a_active A = l1 ++ i :: l2 /\ length l1 = k /\ a_active A' = l1 ++ l2) /\
     a_nc A' = a_nc A /\ a_nb A' = a_nb A) /\
  ((exists A', as_deactivate A k = Ok A') <-> k < length (a_active A)).
Proof.
  intros H. pose proof (run_good _ _ _ _ H) as HG. split; [|apply deactivate_legal; auto].
  intros A' HA. pose proof (good_deactivate _ _ _ HG HA) as HG'.
  apply deactivate_inv in HA as (i & s & H1 & H2 & H3 & H4 & H5 & H6 & H7 & _).
  exists i. split; [apply get_iff; auto|]. split; [|split; [|auto]].
  - intros j t Hj. rewrite stat_iff in * by auto. rewrite H4. destruct (Nat.eqb_spec j i) as [->|Hne].
    + apply set_nth_same. apply nth_error_Some. congruence.
    + rewrite set_nth_other by auto. auto.
  - destruct (remove_nth_split _ _ _ H1) as (l1 & l2 & E1 & E2 & E3). exists l1, l2. rewrite H5. auto.
Qed.
Theorem C03_activate_frame : forall nc nb ops A i s, as_run (as_new nc nb) ops = Ok A ->
  (forall A', as_activate A i s = Ok A' ->
     (forall j t, as_stat A j = Ok t -> as_stat A' j = Ok (if (j =? i)%nat then s else t)) /\
     a_active A' = a_active A ++ [i] /\ a_nc A' = a_nc A /\ a_nb A' = a_nb A) /\
  ((exists A', as_activate A i s = Ok A') <->
     as_stat A i = Ok INACTIVE /\
     ((i < a_nc A /\ (s = LOWER \/ s = UPPER \/ s = EQUALITY)) \/
      (a_nc A <= i < a_nc A + a_nb A /\ (s = LOWER_BOUND \/ s = UPPER_BOUND \/ s = FIXED)))).
Proof. exact C03_activate_lemma. Qed.
Theorem C03_deactivate_frame : forall nc nb ops A k, as_run (as_new nc nb) ops = Ok A ->
  (forall A', as_deactivate A k = Ok A' -> exists i, as_get A k = Ok i /\
     (forall j t, as_stat A j = Ok t -> as_stat A' j = Ok (if (j =? i)%nat then INACTIVE else t)) /\
     (exists l1 l2, a_active A = l1 ++ i :: l2 /\ length l1 = k /\ a_active A' = l1 ++ l2) /\
     a_nc A' = a_nc A /\ a_nb A' = a_nb A) /\
  ((exists A', as_deactivate A k = Ok A') <-> k < length (a_active A)).
Proof. exact C03_deactivate_lemma. Qed.
Example C03_nonvacuous : exists A A' A'',
  as_run (as_new 2 1) [OpActivate 1 UPPER; OpActivate 2 FIXED] = Ok A /\
  as_activate A 0 EQUALITY = Ok A' /\ as_deactivate A' 1 = Ok A'' /\ a_active A'' = [1; 0] /\
  as_activate A 1 LOWER = UB /\ as_activate A 0 FIXED = UB /\ as_deactivate A 2 = UB.
Proof. do 3 eexists. repeat split; reflexivity. Qed.

(** ** C04 *)
Lemma filter_sorted (v : list status) : forall k,
  Sorted lt (map fst (filter (fun p => negb (status_eqb (snd p) INACTIVE)) (combine (seq k (length v)) v))) /\
  Forall (le k) (map fst (filter (fun p => negb (status_eqb (snd p) INACTIVE)) (combine (seq k (length v)) v))).
Proof.
  induction v as [|s v IH]; intros k; simpl; [auto|].
  destruct (IH (S k)) as [I1 I2].
  assert (I3 : Forall (le k) (map fst (filter (fun p => negb (status_eqb (snd p) INACTIVE)) (combine (seq (S k) (length v)) v)))).
  { eapply Forall_impl; [|exact I2]. simpl. intros; lia. }
  destruct (status_eqb s INACTIVE); simpl; auto. split; [|constructor; auto].
  constructor; auto. destruct (map fst _) as [|h t]; constructor. inversion I2; subst. lia.
Qed.
Lemma C04_lemma v nb :
  ((exists A, as_of_vec v nb = Ok A) <->
     (nb <= length v /\ forall i s, nth_error v i = Some s -> s <> INACTIVE ->
        (i < length v - nb -> s = LOWER \/ s = UPPER \/ s = EQUALITY) /\
        (length v - nb <= i -> s = LOWER_BOUND \/ s = UPPER_BOUND \/ s = FIXED))) /\
  (forall A, as_of_vec v nb = Ok A ->
     a_status A = v /\ a_nc A = length v - nb /\ a_nb A = nb /\ Sorted lt (a_active A) /\
     (forall i, In i (a_active A) <-> exists s, nth_error v i = Some s /\ s <> INACTIVE) /\
     nbActiveCstr A = (Z.of_nat (length v) - how_many A INACTIVE)%Z).
Proof.
  split.
  - split.
    + intros (A & E). apply as_of_vec_ok_inv in E. exact E.
    + intros HV. destruct (as_of_vec_spec v nb HV) as (A & E & _). eauto.
  - intros A E. destruct (as_of_vec_spec v nb (as_of_vec_ok_inv _ _ _ E)) as (A' & E' & HG & H1 & H2 & H3 & H4).
    assert (A' = A) by congruence. subst A'.
    repeat split; auto.
    + rewrite H4. apply filter_sorted.
    + intros HIn. apply HG in HIn. rewrite H1 in HIn. auto.
    + intros HIn. apply HG. rewrite H1. auto.
    + destruct HG as (HC & [E1 E2 E3 E4 E5 E6 E7 E8] & E9).
      unfold nbActiveCstr. rewrite E1, E4, E8. rewrite <- H1. unfold how_many, cnt. rewrite count_non_inactive. lia.
Qed.
Lemma C04_rebuild_lemma nc nb ops A : as_run (as_new nc nb) ops = Ok A ->
  exists A', as_of_vec (a_status A) (a_nb A) = Ok A' /\ a_status A' = a_status A /\ a_nc A' = a_nc A /\ a_nb A' = a_nb A /\
   a_me A' = a_me A /\ a_mi A' = a_mi A /\ a_ml A' = a_ml A /\ a_mu A' = a_mu A /\
   a_mb A' = a_mb A /\ a_mbl A' = a_mbl A /\ a_mbu A' = a_mbu A /\ a_mbe A' = a_mbe A.
Proof.
  intros H. pose proof (run_good _ _ _ _ H) as HG. pose proof HG as (HC & [E1 E2 E3 E4 E5 E6 E7 E8] & E9).
  pose proof (coh_len _ HC) as HL.
  destruct (as_of_vec_spec (a_status A) (a_nb A)) as (A' & E' & HG' & H1 & H2 & H3 & H4).
  { split; [lia|]. intros i s Hi Hs. destruct (coh_kind _ HC _ _ Hi Hs) as [K1 K2].
    replace (length (a_status A) - a_nb A) with (a_nc A) by lia. auto. }
  exists A'. destruct HG' as (_ & [F1 F2 F3 F4 F5 F6 F7 F8] & _).
  unfold cnt in *. rewrite H1 in *. rewrite F1, F2, F3, F4, F5, F6, F7, F8. repeat split; auto; lia.
Qed.
Theorem C04_construct_from_vector : forall v nb,
  ((exists A, as_of_vec v nb = Ok A) <->
     (nb <= length v /\ forall i s, nth_error v i = Some s -> s <> INACTIVE ->
        (i < length v - nb -> s = LOWER \/ s = UPPER \/ s = EQUALITY) /\
        (length v - nb <= i -> s = LOWER_BOUND \/ s = UPPER_BOUND \/ s = FIXED))) /\
  (forall A, as_of_vec v nb = Ok A ->
     a_status A = v /\ a_nc A = length v - nb /\ a_nb A = nb /\ Sorted lt (a_active A) /\
     (forall i, In i (a_active A) <-> exists s, nth_error v i = Some s /\ s <> INACTIVE) /\
     nbActiveCstr A = (Z.of_nat (length v) - how_many A INACTIVE)%Z).
Proof. exact C04_lemma. Qed.
Theorem C04_rebuild_preserves : forall nc nb ops A, as_run (as_new nc nb) ops = Ok A ->
  exists A', as_of_vec (a_status A) (a_nb A) = Ok A' /\ a_status A' = a_status A /\ a_nc A' = a_nc A /\ a_nb A' = a_nb A /\
   a_me A' = a_me A /\ a_mi A' = a_mi A /\ a_ml A' = a_ml A /\ a_mu A' = a_mu A /\
   a_mb A' = a_mb A /\ a_mbl A' = a_mbl A /\ a_mbu A' = a_mbu A /\ a_mbe A' = a_mbe A.
Proof. exact C04_rebuild_lemma. Qed.
Example C04_nonvacuous : exists A, as_of_vec [UPPER; INACTIVE; EQUALITY; FIXED; INACTIVE] 2 = Ok A
  /\ a_active A = [0; 2; 3] /\ as_of_vec [UPPER; FIXED] 0 = UB.
Proof. eexists. repeat split; reflexivity. Qed.

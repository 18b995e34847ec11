(** Specification of the active set and proofs (C01-C04). *)
From Coq Require Import List Arith ZArith Lia Bool.
From Verif Require Import Base ActiveSet.
Import ListNotations.

(** ** Specification vocabulary (independent of the model's helpers) *)
Definition general_status (s : status) : Prop := s = LOWER \/ s = UPPER \/ s = EQUALITY.
Definition bound_status (s : status) : Prop := s = LOWER_BOUND \/ s = UPPER_BOUND \/ s = FIXED.

(** The status vector and the active list describe the same set. *)
Record coherent (A : aset) : Prop := {
  coh_len : length (a_status A) = a_nc A + a_nb A;
  coh_nodup : NoDup (a_active A);
  coh_iff : forall i, In i (a_active A) <->
              exists s, nth_error (a_status A) i = Some s /\ s <> INACTIVE;
  coh_kind : forall i s, nth_error (a_status A) i = Some s -> s <> INACTIVE ->
              (i < a_nc A -> general_status s) /\ (a_nc A <= i -> bound_status s)
}.

(** Number of constraints whose status is [s]. *)
Definition cnt (A : aset) (s : status) : Z := Z.of_nat (count_occ status_eq_dec (a_status A) s).

Record counters_ok (A : aset) : Prop := {
  c_me : a_me A = cnt A EQUALITY;
  c_ml : a_ml A = cnt A LOWER;
  c_mu : a_mu A = cnt A UPPER;
  c_mi : a_mi A = (cnt A LOWER + cnt A UPPER)%Z;
  c_mbl : a_mbl A = cnt A LOWER_BOUND;
  c_mbu : a_mbu A = cnt A UPPER_BOUND;
  c_mbe : a_mbe A = cnt A FIXED;
  c_mb : a_mb A = (cnt A LOWER_BOUND + cnt A UPPER_BOUND + cnt A FIXED)%Z
}.

Definition good (A : aset) : Prop :=
  coherent A /\ counters_ok A /\ nbActiveCstr A = Z.of_nat (length (a_active A)).

(** ** List lemmas *)
Lemma set_nth_length {X} (l : list X) i x : length (set_nth l i x) = length l.
Proof. revert i; induction l; destruct i; simpl; auto. Qed.

Lemma set_nth_same {X} (l : list X) i x : i < length l -> nth_error (set_nth l i x) i = Some x.
Proof. revert i; induction l; destruct i; simpl; intros; try lia; auto. apply IHl; lia. Qed.

Lemma set_nth_other {X} (l : list X) i j x : i <> j -> nth_error (set_nth l i x) j = nth_error l j.
Proof. revert i j; induction l; destruct i, j; simpl; intros; try lia; auto. Qed.

Lemma remove_nth_split {X} (l : list X) k x :
  nth_error l k = Some x ->
  exists l1 l2, l = l1 ++ x :: l2 /\ length l1 = k /\ remove_nth l k = l1 ++ l2.
Proof.
  revert k; induction l as [|y l IH]; destruct k; simpl; intros H; try discriminate.
  - injection H as <-. exists [], l; auto.
  - destruct (IH _ H) as (l1 & l2 & -> & <- & E). exists (y :: l1), l2. simpl. rewrite E. auto.
Qed.

Lemma nth_error_split_set (l : list status) i s s' :
  nth_error l i = Some s ->
  exists l1 l2, l = l1 ++ s :: l2 /\ length l1 = i /\ set_nth l i s' = l1 ++ s' :: l2.
Proof.
  revert i; induction l as [|y l IH]; destruct i; simpl; intros H; try discriminate.
  - injection H as <-. exists [], l; auto.
  - destruct (IH _ H) as (l1 & l2 & -> & <- & E). exists (y :: l1), l2. simpl. rewrite E. auto.
Qed.

Definition ind (a b : status) : Z := if status_eq_dec a b then 1%Z else 0%Z.

Lemma count_set_nth (l : list status) i s s' t :
  nth_error l i = Some s ->
  Z.of_nat (count_occ status_eq_dec (set_nth l i s') t)
  = (Z.of_nat (count_occ status_eq_dec l t) - ind s t + ind s' t)%Z.
Proof.
  intros H. destruct (nth_error_split_set _ _ _ s' H) as (l1 & l2 & -> & _ & ->).
  rewrite !count_occ_app. simpl. unfold ind.
  destruct (status_eq_dec s t), (status_eq_dec s' t); lia.
Qed.

Lemma NoDup_app_snoc {X} (l : list X) x : NoDup l -> ~ In x l -> NoDup (l ++ [x]).
Proof.
  intros H Hn. apply NoDup_Add with (a := x) (l := l).
  - rewrite <- (app_nil_r l) at 1. apply Add_app.
  - auto.
Qed.

(** ** The invariant is preserved by each operation *)
Lemma nth_error_map_const l i s :
  nth_error (map (fun _ : status => INACTIVE) l) i = Some s -> s = INACTIVE.
Proof. rewrite nth_error_map. destruct (nth_error l i); simpl; congruence. Qed.

Lemma count_map_const l s : s <> INACTIVE ->
  count_occ status_eq_dec (map (fun _ : status => INACTIVE) l) s = 0.
Proof.
  intros H. apply count_occ_not_In. rewrite in_map_iff. intros (x & E & _). congruence.
Qed.

Lemma good_reset A : length (a_status A) = a_nc A + a_nb A -> good (as_reset A).
Proof.
  intros HL. repeat split; simpl; try (unfold cnt; simpl; rewrite !count_map_const by discriminate; reflexivity).
  - rewrite map_length; auto.
  - constructor.
  - intros [].
  - intros (s & H & Hs). apply nth_error_map_const in H. congruence.
  - apply nth_error_map_const in H. congruence.
  - apply nth_error_map_const in H. congruence.
Qed.

Lemma vec_resize_length l n : length (vec_resize l n) = n.
Proof. unfold vec_resize. rewrite app_length, firstn_length, repeat_length. lia. Qed.

Lemma good_resize A nc nb : good (as_resize A nc nb).
Proof. apply good_reset. simpl. apply vec_resize_length. Qed.

Lemma good_new nc nb : good (as_new nc nb).
Proof. apply good_resize. Qed.

Lemma kind_ok_spec nc i s :
  kind_ok nc i s = true <-> (i < nc /\ general_status s) \/ (nc <= i /\ bound_status s).
Proof.
  unfold kind_ok, general_status, bound_status.
  destruct s; destruct (Nat.ltb_spec i nc); simpl; split; intros H1;
    repeat match goal with
    | H : _ \/ _ |- _ => destruct H
    | H : _ /\ _ |- _ => destruct H
    end; try discriminate; try lia; auto; try (left; auto; fail); try (right; auto; fail).
Qed.

(** Inversion of a successful activation *)
Lemma activate_inv A i s A' :
  as_activate A i s = Ok A' ->
  i < nbAll A /\ nth_error (a_status A) i = Some INACTIVE /\ kind_ok (a_nc A) i s = true /\
  a_status A' = set_nth (a_status A) i s /\ a_active A' = a_active A ++ [i] /\
  a_nc A' = a_nc A /\ a_nb A' = a_nb A /\
  a_me A' = (a_me A + ind s EQUALITY)%Z /\ a_ml A' = (a_ml A + ind s LOWER)%Z /\
  a_mu A' = (a_mu A + ind s UPPER)%Z /\ a_mi A' = (a_mi A + ind s LOWER + ind s UPPER)%Z /\
  a_mbl A' = (a_mbl A + ind s LOWER_BOUND)%Z /\ a_mbu A' = (a_mbu A + ind s UPPER_BOUND)%Z /\
  a_mbe A' = (a_mbe A + ind s FIXED)%Z /\
  a_mb A' = (a_mb A + ind s LOWER_BOUND + ind s UPPER_BOUND + ind s FIXED)%Z.
Proof.
  unfold as_activate. intros H.
  apply guard_ok in H as [H1 H]. apply Nat.ltb_lt in H1.
  destruct (nth_error (a_status A) i) as [[]|] eqn:E; try discriminate.
  apply guard_ok in H as [H2 H]. destruct A; unfold count_update in H; simpl in *.
  destruct s; try discriminate; injection H as <-; simpl; unfold ind; simpl;
    repeat split; auto; try lia.
Qed.

Lemma deactivate_inv A k A' :
  as_deactivate A k = Ok A' ->
  exists i s, nth_error (a_active A) k = Some i /\ nth_error (a_status A) i = Some s /\ s <> INACTIVE /\
  a_status A' = set_nth (a_status A) i INACTIVE /\ a_active A' = remove_nth (a_active A) k /\
  a_nc A' = a_nc A /\ a_nb A' = a_nb A /\
  a_me A' = (a_me A - ind s EQUALITY)%Z /\ a_ml A' = (a_ml A - ind s LOWER)%Z /\
  a_mu A' = (a_mu A - ind s UPPER)%Z /\ a_mi A' = (a_mi A - ind s LOWER - ind s UPPER)%Z /\
  a_mbl A' = (a_mbl A - ind s LOWER_BOUND)%Z /\ a_mbu A' = (a_mbu A - ind s UPPER_BOUND)%Z /\
  a_mbe A' = (a_mbe A - ind s FIXED)%Z /\
  a_mb A' = (a_mb A - ind s LOWER_BOUND - ind s UPPER_BOUND - ind s FIXED)%Z.
Proof.
  unfold as_deactivate. intros H.
  destruct (nth_error (a_active A) k) as [i|] eqn:E1; try discriminate.
  destruct (nth_error (a_status A) i) as [s|] eqn:E2; try discriminate.
  exists i, s. destruct A; unfold count_update in H; simpl in *.
  destruct s; try discriminate; injection H as <-; simpl; unfold ind; simpl;
    repeat split; auto; try lia; congruence.
Qed.

Lemma good_activate A i s A' : good A -> as_activate A i s = Ok A' -> good A'.
Proof.
  intros ([HL HN HI HK] & [] & HB) H.
  apply activate_inv in H as (Hi & E & K & ES & EA & EC & EN & ? & ? & ? & ? & ? & ? & ? & ?).
  assert (Hs : s <> INACTIVE) by (intros ->; discriminate).
  assert (Hlen : i < length (a_status A)) by (unfold nbAll in Hi; lia).
  assert (Hni : ~ In i (a_active A)).
  { intros C. apply HI in C as (s' & C & C'). congruence. }
  repeat split.
  - rewrite ES, EC, EN, set_nth_length. auto.
  - rewrite EA. apply NoDup_app_snoc; auto.
  - rewrite EA, ES, in_app_iff. intros [H'|[<-|[]]].
    + assert (i <> i0) by congruence. rewrite set_nth_other by auto. apply HI; auto.
    + exists s. rewrite set_nth_same by auto. auto.
  - rewrite EA, ES, in_app_iff. intros (s' & H1' & H2').
    destruct (Nat.eq_dec i i0) as [->|Hne]; [simpl; auto|].
    left. apply HI. rewrite set_nth_other in H1' by auto. eauto.
  - intros Hlt. rewrite ES in H7. destruct (Nat.eq_dec i i0) as [->|Hne].
    + rewrite set_nth_same in H7 by auto. injection H7 as <-.
      apply kind_ok_spec in K as [[_ K]|[K _]]; auto; lia.
    + rewrite set_nth_other in H7 by auto. rewrite EC in Hlt. apply (HK i0 s0 H7 H8); auto.
  - intros Hlt. rewrite ES in H7. destruct (Nat.eq_dec i i0) as [->|Hne].
    + rewrite set_nth_same in H7 by auto. injection H7 as <-.
      apply kind_ok_spec in K as [[K _]|[_ K]]; auto; lia.
    + rewrite set_nth_other in H7 by auto. rewrite EC in Hlt. apply (HK i0 s0 H7 H8); auto.
  - unfold cnt in *. rewrite ES, (count_set_nth _ _ _ _ _ E). unfold ind in *; simpl. lia.
  - unfold cnt in *. rewrite ES, (count_set_nth _ _ _ _ _ E). unfold ind in *; simpl. lia.
  - unfold cnt in *. rewrite ES, (count_set_nth _ _ _ _ _ E). unfold ind in *; simpl. lia.
  - unfold cnt in *. rewrite ES, !(count_set_nth _ _ _ _ _ E). unfold ind in *; simpl. lia.
  - unfold cnt in *. rewrite ES, (count_set_nth _ _ _ _ _ E). unfold ind in *; simpl. lia.
  - unfold cnt in *. rewrite ES, (count_set_nth _ _ _ _ _ E). unfold ind in *; simpl. lia.
  - unfold cnt in *. rewrite ES, (count_set_nth _ _ _ _ _ E). unfold ind in *; simpl. lia.
  - unfold cnt in *. rewrite ES, !(count_set_nth _ _ _ _ _ E). unfold ind in *; simpl. lia.
  - unfold nbActiveCstr in *. rewrite EA, app_length. simpl.
    unfold ind in *. destruct s; try congruence; simpl in *; lia.
Qed.

Lemma good_deactivate A k A' : good A -> as_deactivate A k = Ok A' -> good A'.
Proof.
  intros ([HL HN HI HK] & [] & HB) H.
  apply deactivate_inv in H as (i & s & E1 & E & Hs & ES & EA & EC & EN & ? & ? & ? & ? & ? & ? & ? & ?).
  assert (Hlen : i < length (a_status A)) by (apply nth_error_Some; congruence).
  destruct (remove_nth_split _ _ _ E1) as (l1 & l2 & EL & _ & ER).
  rewrite ER in EA. clear ER.
  assert (HN' := HN). rewrite EL in HN'. apply NoDup_remove in HN' as [HN1 HN2].
  repeat split.
  - rewrite ES, EC, EN, set_nth_length. auto.
  - rewrite EA. auto.
  - rewrite EA, ES. intros H'.
    assert (i <> i0) by congruence. rewrite set_nth_other by auto. apply HI.
    rewrite EL. rewrite in_app_iff in *. simpl. tauto.
  - rewrite EA, ES. intros (s' & H1' & H2').
    destruct (Nat.eq_dec i i0) as [->|Hne].
    + rewrite set_nth_same in H1' by auto. congruence.
    + rewrite set_nth_other in H1' by auto.
      assert (In i0 (a_active A)) as HH by (apply HI; eauto).
      rewrite EL in HH. rewrite in_app_iff in *. simpl in HH. tauto.
  - intros Hlt. rewrite ES in H7. destruct (Nat.eq_dec i i0) as [->|Hne].
    + rewrite set_nth_same in H7 by auto. congruence.
    + rewrite set_nth_other in H7 by auto. rewrite EC in Hlt. apply (HK i0 s0 H7 H8); auto.
  - intros Hlt. rewrite ES in H7. destruct (Nat.eq_dec i i0) as [->|Hne].
    + rewrite set_nth_same in H7 by auto. congruence.
    + rewrite set_nth_other in H7 by auto. rewrite EC in Hlt. apply (HK i0 s0 H7 H8); auto.
  - unfold cnt in *. rewrite ES, (count_set_nth _ _ _ _ _ E). unfold ind in *; simpl. lia.
  - unfold cnt in *. rewrite ES, (count_set_nth _ _ _ _ _ E). unfold ind in *; simpl. lia.
  - unfold cnt in *. rewrite ES, (count_set_nth _ _ _ _ _ E). unfold ind in *; simpl. lia.
  - unfold cnt in *. rewrite ES, !(count_set_nth _ _ _ _ _ E). unfold ind in *; simpl. lia.
  - unfold cnt in *. rewrite ES, (count_set_nth _ _ _ _ _ E). unfold ind in *; simpl. lia.
  - unfold cnt in *. rewrite ES, (count_set_nth _ _ _ _ _ E). unfold ind in *; simpl. lia.
  - unfold cnt in *. rewrite ES, (count_set_nth _ _ _ _ _ E). unfold ind in *; simpl. lia.
  - unfold cnt in *. rewrite ES, !(count_set_nth _ _ _ _ _ E). unfold ind in *; simpl. lia.
  - unfold nbActiveCstr in *. rewrite EA. rewrite EL in HB. rewrite app_length in *. simpl in HB.
    unfold ind in *. destruct s; try congruence; simpl in *; lia.
Qed.

Lemma good_step A o A' : good A -> as_step A o = Ok A' -> good A'.
Proof.
  destruct o; simpl; intros HG H.
  - injection H as <-. apply good_resize.
  - injection H as <-. apply good_reset. apply HG.
  - eapply good_activate; eauto.
  - eapply good_deactivate; eauto.
Qed.

Lemma good_run ops : forall A A', good A -> as_run A ops = Ok A' -> good A'.
Proof.
  induction ops as [|o ops IH]; simpl; intros A A' HG H.
  - injection H as <-. auto.
  - apply bind_ok in H as (B & HB & H). eapply IH; [|exact H]. eapply good_step; eauto.
Qed.

Lemma nact_length A : good A -> nact A = length (a_active A).
Proof. intros (_ & _ & H). unfold nact. rewrite H. apply Nat2Z.id. Qed.

(** nbActiveCstr counts the non-inactive entries of the status vector *)
Lemma count_non_inactive l :
  Z.of_nat (length l) =
  (Z.of_nat (count_occ status_eq_dec l INACTIVE) + Z.of_nat (count_occ status_eq_dec l LOWER)
   + Z.of_nat (count_occ status_eq_dec l UPPER) + Z.of_nat (count_occ status_eq_dec l EQUALITY)
   + Z.of_nat (count_occ status_eq_dec l LOWER_BOUND) + Z.of_nat (count_occ status_eq_dec l UPPER_BOUND)
   + Z.of_nat (count_occ status_eq_dec l FIXED))%Z.
Proof.
  induction l as [|s l IH]; [reflexivity|].
  simpl length. cbn [count_occ].
  destruct s; repeat match goal with |- context[status_eq_dec ?a ?b] => destruct (status_eq_dec a b) end;
   try congruence; lia.
Qed.

Lemma good_nbActive_le A : good A -> (0 <= nbActiveCstr A <= Z.of_nat (nbAll A))%Z.
Proof.
  intros ([HL _ _ _] & [] & HB). unfold nbActiveCstr, nbAll. rewrite <- HL.
  rewrite count_non_inactive. rewrite c_me0, c_mi0, c_mb0. unfold cnt. lia.
Qed.

(** ** When is an operation legal? *)
Lemma activate_legal A i s : good A ->
  (exists A', as_activate A i s = Ok A') <->
  (nth_error (a_status A) i = Some INACTIVE /\
   ((i < a_nc A /\ general_status s) \/ (a_nc A <= i < a_nc A + a_nb A /\ bound_status s))).
Proof.
  intros ([HL _ _ _] & _). split.
  - intros (A' & H). apply activate_inv in H as (Hi & E & K & _). split; auto.
    apply kind_ok_spec in K. unfold nbAll in Hi. tauto || (destruct K as [[]|[]]; [left|right]; auto).
  - intros (E & K). unfold as_activate.
    assert (Hi : i < nbAll A).
    { unfold nbAll. rewrite <- HL. apply nth_error_Some. congruence. }
    apply Nat.ltb_lt in Hi. rewrite Hi, E. simpl.
    assert (K' : kind_ok (a_nc A) i s = true) by (apply kind_ok_spec; tauto).
    rewrite K'. simpl. destruct A; simpl.
    destruct s; eauto.
    unfold general_status, bound_status in K. destruct K as [[_ K]|[_ K]]; destruct K as [K|[K|K]]; discriminate.
Qed.

Lemma deactivate_legal A k : good A ->
  (exists A', as_deactivate A k = Ok A') <-> k < length (a_active A).
Proof.
  intros ([HL HN HI HK] & _). split.
  - intros (A' & H). apply deactivate_inv in H as (i & s & E & _).
    apply nth_error_Some. congruence.
  - intros H. apply nth_error_Some in H. unfold as_deactivate.
    destruct (nth_error (a_active A) k) as [i|] eqn:E; [|congruence].
    assert (In i (a_active A)) as HIn by (eapply nth_error_In; eauto).
    apply HI in HIn as (s & Es & Hs). rewrite Es. destruct A; simpl.
    destruct s; eauto. congruence.
Qed.

(** ** Construction from a status vector *)
Definition vec_ok (v : list status) (nb : nat) : Prop :=
  nb <= length v /\
  forall i s, nth_error v i = Some s -> s <> INACTIVE ->
    (i < length v - nb -> general_status s) /\ (length v - nb <= i -> bound_status s).

Lemma activate_from_spec (l : list status) : forall pre A,
  good A -> a_nc A + a_nb A = length (pre ++ l) ->
  a_status A = pre ++ repeat INACTIVE (length l) ->
  (forall i s, nth_error (pre ++ l) i = Some s -> s <> INACTIVE ->
     (i < a_nc A -> general_status s) /\ (a_nc A <= i -> bound_status s)) ->
  exists A', activate_from A (length pre) l = Ok A' /\ good A' /\
    a_status A' = pre ++ l /\ a_nc A' = a_nc A /\ a_nb A' = a_nb A /\
    a_active A' = a_active A ++
       map fst (filter (fun p => negb (status_eqb (snd p) INACTIVE)) (combine (seq (length pre) (length l)) l)).
Proof.
  induction l as [|s l IH]; simpl; intros pre A HG HL HS HK.
  - exists A. rewrite !app_nil_r in *. auto 10.
  - destruct (status_eqb_spec s INACTIVE) as [->|Hs]; simpl.
    + destruct (IH (pre ++ [INACTIVE]) A) as (A' & H1 & H2 & H3 & H4 & H5 & H6); auto.
      * rewrite <- app_assoc. simpl. auto.
      * rewrite <- app_assoc. simpl. auto.
      * rewrite <- app_assoc. simpl. auto.
      * rewrite app_length in H1, H6; simpl in H1, H6. rewrite Nat.add_1_r in H1, H6.
        rewrite <- app_assoc in H3. simpl in H3. exists A'. auto 10.
    + assert (Hnth : nth_error (pre ++ s :: l) (length pre) = Some s).
      { rewrite nth_error_app2, Nat.sub_diag by lia. reflexivity. }
      assert (Hlt : length pre < a_nc A + a_nb A) by (rewrite HL, app_length; simpl; lia).
      destruct (proj2 (activate_legal A (length pre) s HG)) as (A1 & HA1).
      { split.
        - rewrite HS, nth_error_app2, Nat.sub_diag by lia. reflexivity.
        - destruct (HK _ _ Hnth Hs) as [K1 K2].
          destruct (Nat.lt_ge_cases (length pre) (a_nc A)); [left|right]; auto. }
      rewrite HA1. simpl.
      pose proof (good_activate _ _ _ _ HG HA1) as HG1.
      apply activate_inv in HA1 as (_ & _ & _ & ES & EA & EC & EN & _).
      destruct (IH (pre ++ [s]) A1) as (A' & H1 & H2 & H3 & H4 & H5 & H6); auto.
      * rewrite <- app_assoc. simpl. lia.
      * rewrite ES, HS. rewrite <- app_assoc. simpl.
        clear. induction pre; simpl; congruence.
      * rewrite <- app_assoc. simpl. rewrite EC. auto.
      * rewrite app_length in H1, H6; simpl in H1, H6. rewrite Nat.add_1_r in H1, H6.
        rewrite <- app_assoc in H3. simpl in H3. exists A'.
        split; [auto|]. split; [auto|]. split; [auto|]. split; [congruence|]. split; [congruence|].
        rewrite H6, EA. rewrite <- app_assoc. reflexivity.
Qed.

Lemma as_of_vec_spec v nb : vec_ok v nb ->
  exists A, as_of_vec v nb = Ok A /\ good A /\ a_status A = v /\
    a_nc A = length v - nb /\ a_nb A = nb /\
    a_active A = map fst (filter (fun p => negb (status_eqb (snd p) INACTIVE)) (combine (seq 0 (length v)) v)).
Proof.
  intros (Hnb & HK). unfold as_of_vec. apply Nat.leb_le in Hnb. rewrite Hnb. simpl.
  apply Nat.leb_le in Hnb.
  destruct (activate_from_spec v [] (as_new (length v - nb) nb)) as (A & H1 & H2 & H3 & H4 & H5 & H6).
  - apply good_new.
  - simpl. lia.
  - unfold as_new, as_resize, as_reset; simpl. unfold vec_resize.
    rewrite firstn_nil. simpl. rewrite Nat.sub_0_r.
    replace (length v - nb + nb) with (length v) by lia.
    generalize (length v). intros n. induction n; simpl; congruence.
  - simpl. auto.
  - exists A. simpl in *. auto 10.
Qed.

Lemma as_of_vec_ok_inv v nb A : as_of_vec v nb = Ok A -> vec_ok v nb.
Proof.
  unfold as_of_vec. intros H. apply guard_ok in H as [Hnb H]. apply Nat.leb_le in Hnb.
  split; auto.
  assert (G : forall l k B B', activate_from B k l = Ok B' ->
     forall i s, nth_error l i = Some s -> s <> INACTIVE -> kind_ok (a_nc B) (k + i) s = true).
  { clear. induction l as [|s0 l IH]; intros k B B' HB i s Hi Hs; [destruct i; discriminate|].
    simpl in HB. apply bind_ok in HB as (B1 & HB1 & HB).
    assert (EC : a_nc B1 = a_nc B).
    { destruct (status_eqb_spec s0 INACTIVE); [congruence|].
      apply activate_inv in HB1. tauto. }
    destruct i; simpl in Hi.
    - injection Hi as ->. destruct (status_eqb_spec s INACTIVE); [congruence|].
      apply activate_inv in HB1. rewrite Nat.add_0_r. tauto.
    - rewrite <- EC. rewrite Nat.add_succ_r. eapply (IH (S k)); eauto. }
  intros i s Hi Hs. specialize (G _ _ _ _ H i s Hi Hs). simpl in G.
  apply kind_ok_spec in G as [[]|[]]; split; auto; intros; lia.
Qed.

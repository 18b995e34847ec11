(** The initial active set of the warm-startable solver
    (experimental/GoldfarbIdnaniSolver.cpp:302-388), for any scalar arithmetic. *)
From Coq Require Import List Arith ZArith Lia Bool Permutation.
From Verif Require Import Base ActiveSet ActiveSetProofs Num Solver LinAlg GIBase GIInv GISafe GICall Warm.
Import ListNotations.

Section WarmAS.
Variable S : ops.
Notation problem := (problem S).
Notation options := (options S).

(** ** Specification: the status a constraint is wanted to start with *)
Definition warm_on (o : options) (ws : list status) : bool := o_warm o && negb (is_nil ws).
(** the side of constraint [i] named by [st] is beyond [bigBnd] *)
Definition beyond (pb : problem) (o : options) (st : status) (i : nat) : bool :=
  match st with
  | LOWER | LOWER_BOUND => lo_inf (o_bigBnd o) (glo S pb i)
  | UPPER | UPPER_BOUND => up_inf (o_bigBnd o) (gup S pb i)
  | _ => false
  end.
Definition wanted (pb : problem) (o : options) (ws : list status) (i : nat) : status :=
  if geq S pb i then gstat S pb i
  else if warm_on o ws then
    match nth i ws INACTIVE with
    | FIXED => INACTIVE
    | st => if beyond pb o st i then INACTIVE else st
    end
  else INACTIVE.
Definition isact (st : status) : bool := negb (status_eqb st INACTIVE).
(** bounds first, then general constraints, each in increasing order *)
Definition order (pb : problem) : list nat := seq (gc_ S pb) (gb S pb) ++ seq 0 (gc_ S pb).
Definition initial (pb : problem) (o : options) (ws : list status) : list nat :=
  filter (fun i => isact (wanted pb o ws i)) (order pb).
(** the given status has the kind of constraint [i] *)
Definition kind1 (pb : problem) (o : options) (ws : list status) (i : nat) : bool :=
  geq S pb i || negb (warm_on o ws) ||
  (let st := nth i ws INACTIVE in negb (isact st) || (if i <? gc_ S pb then status_int st <=? 3 else 4 <=? status_int st)).
Definition ws_size (pb : problem) (o : options) (ws : list status) : Prop := warm_on o ws = true -> length ws = gcb S pb.

(** ** Helper: an active set with given list and statuses *)
Record asis (pb : problem) (l : list nat) (f : nat -> status) (A : aset) : Prop := {
  ai_good : good A; ai_nc : a_nc A = gc_ S pb; ai_nb : a_nb A = gb S pb;
  ai_list : a_active A = l; ai_stt : forall i, stt A i = f i
}.
Lemma asis_ext pb l f l' f' A : asis pb l f A -> l = l' -> (forall i, f i = f' i) -> asis pb l' f' A.
Proof. intros [] <- E. split; auto. intros i. rewrite <- E. auto. Qed.

Lemma asis_act pb l f A i st : asis pb l f A -> (i < gcb S pb)%nat -> kind_ok (gc_ S pb) i st = true -> f i = INACTIVE ->
  exists A', as_activate A i st = Ok A' /\ asis pb (l ++ [i]) (fun j => if j =? i then st else f j) A'.
Proof.
  intros [H1 H2 H3 H4 H5] Hi HK Hin. unfold gcb in Hi.
  destruct (activate_added A (SC i st)) as (A' & E & HA); auto.
  - simpl. lia.
  - simpl. rewrite H2. auto.
  - simpl. rewrite H5. auto.
  - exists A'. split; [exact E|]. split.
    + apply HA.
    + rewrite (aa_nc _ _ _ HA). auto.
    + rewrite (aa_nb _ _ _ HA). auto.
    + rewrite (aa_list _ _ _ HA), H4. auto.
    + intros j. rewrite (aa_stt _ _ _ HA). simpl. rewrite H5. auto.
Qed.

Definition take (b : bool) (i : nat) : list nat := if b then [i] else [].

(** One bound *)
Lemma pia_one_bnd pb o ws l f A i : asis pb l f A -> ws_size pb o ws -> (i < gb S pb)%nat -> f (gc_ S pb + i)%nat = INACTIVE ->
  let bi := (gc_ S pb + i)%nat in
  let r := (if bounds_eq (p_xl pb i) (p_xu pb i) then as_activate A bi FIXED
      else if negb (is_nil ws) && o_warm o then
        do s <- wget ws bi;
        if status_eqb s INACTIVE then Ok A
        else guard (4 <=? status_int s)
          (if status_eqb s FIXED then Ok A
           else if (status_eqb s LOWER_BOUND && lo_inf (o_bigBnd o) (p_xl pb i))
                   || (status_eqb s UPPER_BOUND && up_inf (o_bigBnd o) (p_xu pb i)) then Ok A
           else as_activate A bi s)
      else Ok A) in
  if kind1 pb o ws bi then
    exists A', r = Ok A' /\ asis pb (l ++ take (isact (wanted pb o ws bi)) bi) (fun j => if j =? bi then wanted pb o ws bi else f j) A'
  else r = UB.
Proof.
  intros HA HW Hi Hf bi. cbv zeta.
  assert (El : glo S pb bi = p_xl pb i /\ gup S pb bi = p_xu pb i).
  { unfold glo, gup, bi. destruct (Nat.ltb_spec (gc_ S pb + i) (gc_ S pb)); [lia|].
    replace (gc_ S pb + i - gc_ S pb)%nat with i by lia. auto. }
  destruct El as [El Eu].
  assert (Eq : geq S pb bi = bounds_eq (p_xl pb i) (p_xu pb i)) by (unfold geq; rewrite El, Eu; auto).
  assert (Es : gstat S pb bi = FIXED) by (unfold gstat, bi; destruct (Nat.ltb_spec (gc_ S pb + i) (gc_ S pb)); [lia|auto]).
  assert (Hb : (bi < gcb S pb)%nat) by (unfold bi, gcb; lia).
  assert (Enc : (bi <? gc_ S pb) = false) by (apply Nat.ltb_ge; unfold bi; lia).
  assert (Hnone : exists A', Ok A = Ok A' /\ asis pb (l ++ []) (fun j => if j =? bi then INACTIVE else f j) A').
  { exists A. split; auto. eapply asis_ext; eauto; [rewrite app_nil_r; auto|].
    intros j. destruct (Nat.eqb_spec j bi); subst; auto. }
  unfold kind1, wanted. rewrite Eq, Es, Enc. unfold warm_on.
  destruct (bounds_eq (p_xl pb i) (p_xu pb i)) eqn:EB.
  - cbn [orb]. apply asis_act; auto. unfold kind_ok. rewrite Enc. auto.
  - cbn [orb]. rewrite (andb_comm (negb (is_nil ws))). destruct (o_warm o && negb (is_nil ws)) eqn:EW.
    + cbn [negb orb]. specialize (HW EW).
      unfold wget. rewrite (nth_error_nth' ws INACTIVE) by lia. cbn [bind].
      destruct (nth bi ws INACTIVE) eqn:ES; cbn [status_eqb status_int Nat.eqb Nat.leb guard isact negb orb andb beyond]; try reflexivity; auto.
      * rewrite El. destruct (lo_inf (o_bigBnd o) (p_xl pb i)); cbn [orb]; auto.
        apply asis_act; auto. unfold kind_ok. rewrite Enc. auto.
      * rewrite Eu. destruct (up_inf (o_bigBnd o) (p_xu pb i)); cbn [orb]; auto.
        apply asis_act; auto. unfold kind_ok. rewrite Enc. auto.
    + cbn [negb orb]. auto.
Qed.

Lemma pia_one_cstr pb o ws l f A i : asis pb l f A -> ws_size pb o ws -> (i < gc_ S pb)%nat -> f i = INACTIVE ->
  let r := (if bounds_eq (p_bl pb i) (p_bu pb i) then as_activate A i EQUALITY
      else if negb (is_nil ws) && o_warm o then
        do s <- wget ws i;
        if status_eqb s INACTIVE then Ok A
        else guard (status_int s <=? 3)
          (if status_eqb s FIXED then Ok A
           else if (status_eqb s LOWER && lo_inf (o_bigBnd o) (p_bl pb i))
                   || (status_eqb s UPPER && up_inf (o_bigBnd o) (p_bu pb i)) then Ok A
           else as_activate A i s)
      else Ok A) in
  if kind1 pb o ws i then
    exists A', r = Ok A' /\ asis pb (l ++ take (isact (wanted pb o ws i)) i) (fun j => if j =? i then wanted pb o ws i else f j) A'
  else r = UB.
Proof.
  intros HA HW Hi Hf. cbv zeta.
  assert (Enc : (i <? gc_ S pb) = true) by (apply Nat.ltb_lt; auto).
  assert (El : glo S pb i = p_bl pb i /\ gup S pb i = p_bu pb i) by (unfold glo, gup; rewrite Enc; auto).
  destruct El as [El Eu].
  assert (Eq : geq S pb i = bounds_eq (p_bl pb i) (p_bu pb i)) by (unfold geq; rewrite El, Eu; auto).
  assert (Es : gstat S pb i = EQUALITY) by (unfold gstat; rewrite Enc; auto).
  assert (Hb : (i < gcb S pb)%nat) by (unfold gcb; lia).
  assert (Hnone : exists A', Ok A = Ok A' /\ asis pb (l ++ []) (fun j => if j =? i then INACTIVE else f j) A').
  { exists A. split; auto. eapply asis_ext; eauto; [rewrite app_nil_r; auto|].
    intros j. destruct (Nat.eqb_spec j i); subst; auto. }
  unfold kind1, wanted. rewrite Eq, Es, Enc. unfold warm_on.
  destruct (bounds_eq (p_bl pb i) (p_bu pb i)) eqn:EB.
  - cbn [orb]. apply asis_act; auto.
  - cbn [orb]. rewrite (andb_comm (negb (is_nil ws))). destruct (o_warm o && negb (is_nil ws)) eqn:EW.
    + cbn [negb orb]. specialize (HW EW).
      unfold wget. rewrite (nth_error_nth' ws INACTIVE) by lia. cbn [bind].
      destruct (nth i ws INACTIVE) eqn:ES; cbn [status_eqb status_int Nat.eqb Nat.leb guard isact negb orb andb beyond]; try reflexivity; auto.
      * rewrite El. destruct (lo_inf (o_bigBnd o) (p_bl pb i)); cbn [orb]; auto.
        apply asis_act; auto.
      * rewrite Eu. destruct (up_inf (o_bigBnd o) (p_bu pb i)); cbn [orb]; auto.
        apply asis_act; auto.
      * apply asis_act; auto.
    + cbn [negb orb]. auto.
Qed.

Lemma filter_take (p : nat -> bool) i : filter p [i] = take (p i) i.
Proof. reflexivity. Qed.

Lemma pia_bnd_spec pb o ws A k : asis pb [] (fun _ => INACTIVE) A -> ws_size pb o ws -> (k <= gb S pb)%nat ->
  if forallb (kind1 pb o ws) (seq (gc_ S pb) k) then
    exists A', pia_bnd pb o ws k A = Ok A' /\
      asis pb (filter (fun i => isact (wanted pb o ws i)) (seq (gc_ S pb) k))
           (fun i => if (gc_ S pb <=? i) && (i <? gc_ S pb + k) then wanted pb o ws i else INACTIVE) A'
  else pia_bnd pb o ws k A = UB.
Proof.
  intros HA HW Hk. induction k as [|k IH].
  - simpl. exists A. split; auto. eapply asis_ext; eauto. intros i.
    destruct (Nat.leb_spec (gc_ S pb) i), (Nat.ltb_spec i (gc_ S pb + 0)); auto. lia.
  - specialize (IH ltac:(lia)). rewrite seq_S, forallb_app, filter_app. cbn [pia_bnd].
    destruct (forallb (kind1 pb o ws) (seq (gc_ S pb) k)) eqn:E1; cbn [andb].
    + destruct IH as (A1 & Er & H1). rewrite Er. cbn [bind]. rewrite (ai_nc _ _ _ _ H1).
      pose proof (pia_one_bnd pb o ws _ _ A1 k H1 HW ltac:(lia)) as H2. cbv zeta in H2.
      cbn [forallb]. rewrite andb_true_r.
      destruct (kind1 pb o ws (gc_ S pb + k)) eqn:E2.
      * destruct H2 as (A2 & Er2 & H2).
        { destruct (Nat.leb_spec (gc_ S pb) (gc_ S pb + k)), (Nat.ltb_spec (gc_ S pb + k) (gc_ S pb + k)); auto; lia. }
        exists A2. split; [exact Er2|]. eapply asis_ext; [exact H2|rewrite filter_take; auto|].
        intros j. cbv beta. destruct (Nat.eqb_spec j (gc_ S pb + k)) as [->|].
        -- destruct (Nat.leb_spec (gc_ S pb) (gc_ S pb + k)), (Nat.ltb_spec (gc_ S pb + k) (gc_ S pb + Datatypes.S k)); auto; lia.
        -- destruct (Nat.leb_spec (gc_ S pb) j), (Nat.ltb_spec j (gc_ S pb + k)), (Nat.ltb_spec j (gc_ S pb + Datatypes.S k)); auto; lia.
      * apply H2. destruct (Nat.leb_spec (gc_ S pb) (gc_ S pb + k)), (Nat.ltb_spec (gc_ S pb + k) (gc_ S pb + k)); auto; lia.
    + rewrite IH. auto.
Qed.

Lemma pia_cstr_spec pb o ws A k : 
  asis pb (filter (fun i => isact (wanted pb o ws i)) (seq (gc_ S pb) (gb S pb)))
       (fun i => if (gc_ S pb <=? i) && (i <? gc_ S pb + gb S pb) then wanted pb o ws i else INACTIVE) A ->
  ws_size pb o ws -> (k <= gc_ S pb)%nat ->
  if forallb (kind1 pb o ws) (seq 0 k) then
    exists A', pia_cstr pb o ws k A = Ok A' /\
      asis pb (filter (fun i => isact (wanted pb o ws i)) (seq (gc_ S pb) (gb S pb) ++ seq 0 k))
           (fun i => if (i <? k) || (gc_ S pb <=? i) && (i <? gc_ S pb + gb S pb) then wanted pb o ws i else INACTIVE) A'
  else pia_cstr pb o ws k A = UB.
Proof.
  intros HA HW Hk. induction k as [|k IH].
  - cbn [forallb seq]. rewrite app_nil_r. exists A. split; auto.
  - specialize (IH ltac:(lia)). rewrite seq_S, forallb_app, app_assoc, filter_app. cbn [pia_cstr plus].
    destruct (forallb (kind1 pb o ws) (seq 0 k)) eqn:E1; cbn [andb].
    + destruct IH as (A1 & Er & H1). rewrite Er. cbn [bind].
      pose proof (pia_one_cstr pb o ws _ _ A1 k H1 HW ltac:(lia)) as H2. cbv zeta in H2.
      assert (Hf : (if (k <? k) || (gc_ S pb <=? k) && (k <? gc_ S pb + gb S pb) then wanted pb o ws k else INACTIVE) = INACTIVE).
      { destruct (Nat.ltb_spec k k), (Nat.leb_spec (gc_ S pb) k); auto; lia. }
      specialize (H2 Hf). cbn [forallb]. rewrite andb_true_r.
      destruct (kind1 pb o ws k) eqn:E2.
      * destruct H2 as (A2 & Er2 & H2).
        exists A2. split; [exact Er2|]. eapply asis_ext; [exact H2|rewrite filter_take; auto|].
        intros j. cbv beta. destruct (Nat.eqb_spec j k) as [->|].
        -- destruct (Nat.ltb_spec k (Datatypes.S k)); auto; lia.
        -- destruct (Nat.ltb_spec j k), (Nat.ltb_spec j (Datatypes.S k)); auto; lia.
      * exact H2.
    + rewrite IH. auto.
Qed.

(** ** Trimming *)
Definition eqact (A : aset) (i : nat) : bool := isEq (stt A i).
Definition neq_act (A : aset) : nat := length (filter (eqact A) (a_active A)).

Lemma In_firstn {X} (x : X) k l : In x (firstn k l) -> In x l.
Proof. intros H. rewrite <- (firstn_skipn k l). apply in_or_app. auto. Qed.
Lemma In_skipn {X} (x : X) k l : In x (skipn k l) -> In x l.
Proof. intros H. rewrite <- (firstn_skipn k l). apply in_or_app. auto. Qed.
Lemma filter_all {X} (p : X -> bool) l : (forall x, In x l -> p x = true) -> filter p l = l.
Proof. induction l as [|a l IH]; intros H; auto. simpl. rewrite (H a) by (simpl; auto). f_equal. apply IH. intros. apply H. simpl; auto. Qed.
Lemma filter_ext_in' {X} (p p' : X -> bool) l : (forall x, In x l -> p x = p' x) -> filter p l = filter p' l.
Proof. induction l as [|a l IH]; intros H; auto. simpl. rewrite (H a) by (simpl; auto). rewrite IH; auto. intros. apply H. simpl; auto. Qed.
Lemma filter_split_le {X} (p : X -> bool) l : (length (filter p l) <= length l)%nat.
Proof. induction l as [|a l IH]; simpl; auto. destruct (p a); simpl; lia. Qed.

Lemma skipn_cons {X} (l : list X) j c : nth_error l j = Some c -> skipn j l = c :: skipn (Datatypes.S j) l.
Proof. revert j. induction l as [|a l IH]; intros [|j] H; simpl in *; try discriminate; [injection H as <-; auto|]. rewrite (IH j H). auto. Qed.

Lemma good_as_stat A i : good A -> (i < nbAll A)%nat -> as_stat A i = Ok (stt A i).
Proof.
  intros HG Hi. unfold as_stat. apply Nat.ltb_lt in Hi as Hi'. rewrite Hi'. simpl.
  rewrite (nth_error_nth' _ INACTIVE); [reflexivity|]. rewrite (coh_len _ (proj1 HG)). auto.
Qed.
Lemma good_in A i : good A -> In i (a_active A) <-> (i < nbAll A)%nat /\ stt A i <> INACTIVE.
Proof.
  intros ([HL HN HI HK] & _). rewrite HI. split.
  - intros (s & E & Hs). assert (i < length (a_status A))%nat by (apply nth_error_Some; congruence).
    split; [unfold nbAll; lia|]. unfold stt. rewrite (nth_error_nth _ _ _ E). auto.
  - intros (Hi & Hs). exists (stt A i). split; auto. apply nth_error_nth'. unfold nbAll in Hi. lia.
Qed.

Lemma trim_spec n i : forall A, good A -> (i <= length (a_active A))%nat ->
  (forall x, In x (skipn i (a_active A)) -> eqact A x = true) -> (neq_act A <= n)%nat ->
  exists A' k, trim n i A = Ok A' /\ good A' /\ a_nc A' = a_nc A /\ a_nb A' = a_nb A /\ (k <= i)%nat /\
    a_active A' = firstn k (a_active A) ++ filter (eqact A) (skipn k (a_active A)) /\
    (forall j, stt A' j = if existsb (Nat.eqb j) (a_active A') then stt A j else INACTIVE) /\
    (length (a_active A') <= n)%nat /\ ((n <= length (a_active A))%nat -> length (a_active A') = n).
Proof.
  induction i as [|j IH]; intros A HG Hi Hall Hn; cbn [trim]; rewrite (nact_length A HG).
  - destruct (Nat.leb_spec (length (a_active A)) n) as [Hle|Hgt].
    + exists A, 0%nat. split; [reflexivity|]. split; [exact HG|]. split; [reflexivity|]. split; [reflexivity|]. split; [lia|].
      split. { simpl. rewrite filter_all; auto. } split; [|split; [auto|lia]].
      intros j. destruct (existsb (Nat.eqb j) (a_active A)) eqn:E; auto.
      destruct (status_eq_dec (stt A j) INACTIVE) as [|Hs]; auto.
      destruct (Nat.lt_ge_cases j (nbAll A)).
      * exfalso. assert (In j (a_active A)) by (apply good_in; auto).
        apply Bool.not_true_iff_false in E. apply E. apply existsb_exists. exists j. split; auto. apply Nat.eqb_refl.
      * unfold stt. apply nth_overflow. rewrite (coh_len _ (proj1 HG)). auto.
    + exfalso. simpl in Hall. unfold neq_act in Hn. rewrite filter_all in Hn by auto. lia.
  - destruct (Nat.leb_spec (length (a_active A)) n) as [Hle|Hgt].
    + exists A, (Datatypes.S j). split; [reflexivity|]. split; [exact HG|]. split; [reflexivity|]. split; [reflexivity|]. split; [lia|].
      split. { rewrite filter_all by auto. symmetry. apply firstn_skipn. } split; [|split; [auto|lia]].
      intros x. destruct (existsb (Nat.eqb x) (a_active A)) eqn:E; auto.
      destruct (status_eq_dec (stt A x) INACTIVE) as [|Hs]; auto.
      destruct (Nat.lt_ge_cases x (nbAll A)).
      * exfalso. assert (In x (a_active A)) by (apply good_in; auto).
        apply Bool.not_true_iff_false in E. apply E. apply existsb_exists. exists x. split; auto. apply Nat.eqb_refl.
      * unfold stt. apply nth_overflow. rewrite (coh_len _ (proj1 HG)). auto.
    + set (lA := a_active A) in *.
      destruct (nth_error lA j) as [c|] eqn:Ec; [|apply nth_error_None in Ec; lia].
      assert (Hsk : skipn j lA = c :: skipn (Datatypes.S j) lA).
      { apply skipn_cons. auto. }
      unfold as_get. fold lA. rewrite Ec. cbn [bind].
      assert (HcI : In c lA) by (eapply nth_error_In; eauto).
      pose proof (proj1 (good_in A c HG) HcI) as (Hc & Hcs).
      rewrite good_as_stat by auto. cbn [bind].
      destruct (isEq (stt A c)) eqn:Eq.
      * destruct (IH A HG ltac:(fold lA; lia)) as (A' & k & E & G' & N1 & N2 & Hk & HL & HS & HB & HB'); auto.
        { fold lA. rewrite Hsk. intros x [<-|Hx]; auto. }
        exists A', k. split; [exact E|]. split; [exact G'|]. split; [exact N1|]. split; [exact N2|]. split; [lia|].
        split; [exact HL|]. split; [exact HS|]. split; [exact HB|exact HB'].
      * destruct (deactivate_removed A j HG) as (A1 & E1 & R1); [rewrite nact_length by auto; fold lA; lia|].
        rewrite E1. cbn [bind].
        pose proof (deactivate_inv _ _ _ E1) as (c' & s' & Ec' & _ & _ & _ & EA & _). fold lA in Ec', EA. 
        assert (c' = c) by congruence. subst c'. clear s'.
        destruct (remove_nth_split lA j c Ec) as (l1 & l2 & El & Hl1 & Er).
        rewrite Er in EA.
        assert (HND : NoDup lA) by (apply HG). rewrite El in HND. pose proof (NoDup_remove_2 _ _ _ HND) as HNi.
        assert (Hact : act A j = c) by (unfold act; fold lA; apply nth_error_nth; auto).
        assert (Hst : forall x, x <> c -> stt A1 x = stt A x).
        { intros x Hx. rewrite (ar_stt _ _ _ R1), Hact. destruct (Nat.eqb_spec x c); congruence. }
        assert (Hskl : skipn (Datatypes.S j) lA = l2).
        { assert (H : skipn j lA = c :: l2) by (rewrite El, <- Hl1, skipn_app, skipn_all, Nat.sub_diag; reflexivity). congruence. }
        destruct (IH A1 (ar_good _ _ _ R1)) as (A' & k & E & G' & N1 & N2 & Hk & HL & HS & HB & HB').
        { rewrite EA, app_length. lia. }
        { rewrite EA, <- Hl1, skipn_app, skipn_all, Nat.sub_diag. simpl. intros x Hx. unfold eqact.
          rewrite Hst; [apply Hall; rewrite Hskl; auto|]. intros ->. apply HNi. apply in_or_app. auto. }
        { unfold neq_act in *. fold lA in Hn. rewrite El, filter_app in Hn. simpl in Hn. rewrite EA, filter_app.
          assert (eqact A c = false) as Hf by exact Eq. rewrite Hf in Hn.
          rewrite (filter_ext_in' (eqact A1) (eqact A) l1), (filter_ext_in' (eqact A1) (eqact A) l2); auto;
            intros x Hx; unfold eqact; rewrite Hst; auto; intros ->; apply HNi, in_or_app; auto. }
        exists A', k. split; [exact E|]. split; [exact G'|].
        split; [rewrite N1; apply R1|]. split; [rewrite N2; apply R1|]. split; [lia|].
        assert (HLx : a_active A' = firstn k lA ++ filter (eqact A) (skipn k lA)).
        { rewrite HL, EA, El. rewrite !firstn_app, !skipn_app.
          replace (k - length l1)%nat with 0%nat by lia. simpl. rewrite !app_nil_r. f_equal.
          rewrite !filter_app. simpl. assert (eqact A c = false) as -> by exact Eq.
          rewrite (filter_ext_in' (eqact A1) (eqact A) (skipn k l1)), (filter_ext_in' (eqact A1) (eqact A) l2); auto.
          - intros x Hx. unfold eqact. rewrite Hst; auto. intros ->. apply HNi, in_or_app; auto.
          - intros x Hx. unfold eqact. rewrite Hst; auto. intros ->. apply In_skipn in Hx. apply HNi, in_or_app; auto. }
        split; [exact HLx|]. split.
        { intros x. rewrite HS. destruct (existsb (Nat.eqb x) (a_active A')) eqn:Ex; auto.
          apply Hst. intros ->. apply existsb_exists in Ex as (y & Hy & Ey). apply Nat.eqb_eq in Ey. subst y.
          rewrite HL, EA in Hy. apply HNi. apply in_app_or in Hy as [Hy|Hy].
          - eapply In_firstn; eauto.
          - apply filter_In in Hy as [Hy _]. eapply In_skipn; eauto. }
        split; [exact HB|]. intros _. apply HB'. rewrite EA, app_length.
        assert (length lA = length l1 + Datatypes.S (length l2))%nat by (rewrite El, app_length; auto). lia.
Qed.

(** ** Counters of equalities *)
Lemma count_seq (l : list status) st : st <> INACTIVE ->
  count_occ status_eq_dec l st = length (filter (fun i => status_eqb (nth i l INACTIVE) st) (seq 0 (length l))).
Proof.
  intros Hst. induction l as [|a l IH] using rev_ind; auto.
  rewrite count_occ_app, app_length. simpl length. rewrite Nat.add_1_r, seq_S, filter_app, app_length. cbn [plus].
  f_equal.
  - rewrite IH. f_equal. apply filter_ext_in'. intros x Hx. apply in_seq in Hx. rewrite app_nth1 by lia. auto.
  - simpl. rewrite app_nth2, Nat.sub_diag by lia. simpl.
    destruct (status_eq_dec a st) as [->|Hn]; [rewrite status_eqb_refl; auto|].
    destruct (status_eqb_spec a st); [congruence|auto].
Qed.
Lemma filter_length_plus {X} (p p' : X -> bool) l : (forall x, p x && p' x = false) ->
  (length (filter p l) + length (filter p' l) = length (filter (fun x => p x || p' x) l))%nat.
Proof.
  intros H. induction l as [|a l IH]; auto. simpl. specialize (H a).
  destruct (p a), (p' a); simpl in *; try discriminate; lia.
Qed.
Lemma filter_filter {X} (p p' : X -> bool) l : filter p (filter p' l) = filter (fun x => p' x && p x) l.
Proof. induction l as [|a l IH]; auto. simpl. destruct (p' a); simpl; [destruct (p a)|]; rewrite ?IH; auto. Qed.
Lemma NoDup_filter' {X} (p : X -> bool) l : NoDup l -> NoDup (filter p l).
Proof.
  induction 1; simpl; [constructor|]. destruct (p x); auto. constructor; auto. rewrite filter_In. tauto.
Qed.
Lemma Permutation_filter {X} (p : X -> bool) l l' : Permutation l l' -> Permutation (filter p l) (filter p l').
Proof.
  induction 1; simpl; auto.
  - destruct (p x); auto.
  - destruct (p x), (p y); auto. apply perm_swap.
  - etransitivity; eauto.
Qed.

Lemma neq_counters A : good A -> (a_me A + a_mbe A)%Z = Z.of_nat (neq_act A).
Proof.
  intros HG. pose proof HG as ([HL HN HI HK] & HC & _).
  rewrite (c_me _ HC), (c_mbe _ HC). unfold cnt. rewrite !count_seq by discriminate. rewrite <- Nat2Z.inj_add. f_equal.
  rewrite filter_length_plus; [|intros x; destruct (nth x (a_status A) INACTIVE); reflexivity].
  unfold neq_act. 
  assert (HP : Permutation (a_active A) (filter (fun i => isact (stt A i)) (seq 0 (length (a_status A))))).
  { apply NoDup_Permutation; auto. { apply NoDup_filter', seq_NoDup. }
    intros x. rewrite (good_in A x HG), filter_In, in_seq, HL. unfold nbAll, isact.
    split; intros [H1 H2]; (split; [lia|]); destruct (status_eqb_spec (stt A x) INACTIVE); simpl in *; congruence. }
  rewrite (Permutation_length (Permutation_filter (eqact A) _ _ HP)), filter_filter.
  f_equal. apply filter_ext_in'. intros x _. unfold eqact, isact, isEq. fold (stt A x).
  change (nth x (a_status A) INACTIVE) with (stt A x). destruct (stt A x); reflexivity.
Qed.

(** ** The whole function *)
Definition n_eq (pb : problem) (o : options) (ws : list status) : nat :=
  length (filter (fun i => isEq (wanted pb o ws i)) (order pb)).

(** the list that is kept: a prefix, then only the equalities *)
Definition kept (pb : problem) (o : options) (ws : list status) (k : nat) : list nat :=
  firstn k (initial pb o ws) ++ filter (fun i => isEq (wanted pb o ws i)) (skipn k (initial pb o ws)).

Record pia_ok (pb : problem) (o : options) (ws : list status) (A' : aset) : Prop := {
  pk_good : good A'; pk_nc : a_nc A' = gc_ S pb; pk_nb : a_nb A' = gb S pb;
  pk_list : exists k, a_active A' = kept pb o ws k /\ ((length (initial pb o ws) <= gn S pb)%nat -> a_active A' = initial pb o ws);
  pk_stt : forall i, stt A' i = if existsb (Nat.eqb i) (a_active A') then wanted pb o ws i else INACTIVE;
  pk_le : (length (a_active A') <= gn S pb)%nat;
  pk_eq : length (a_active A') = Nat.min (gn S pb) (length (initial pb o ws))
}.

Lemma order_lt pb i : In i (order pb) <-> (i < gcb S pb)%nat.
Proof. unfold order, gcb. rewrite in_app_iff, !in_seq. lia. Qed.
Lemma initial_in pb o ws i : In i (initial pb o ws) <-> (i < gcb S pb)%nat /\ wanted pb o ws i <> INACTIVE.
Proof.
  unfold initial. rewrite filter_In, order_lt. unfold isact.
  destruct (status_eqb_spec (wanted pb o ws i) INACTIVE); simpl; intuition congruence.
Qed.

Lemma processInitialActiveSet_spec pb o ws A : length (a_status A) = gcb S pb -> a_nc A = gc_ S pb -> a_nb A = gb S pb ->
  ws_size pb o ws ->
  if forallb (kind1 pb o ws) (order pb) then
    exists st A', processInitialActiveSet pb o ws (gn S pb) A = Ok (st, A') /\ good A' /\ a_nc A' = gc_ S pb /\ a_nb A' = gb S pb /\
      if (gn S pb <? n_eq pb o ws)%nat then st = OVERCONSTRAINED_PROBLEM
      else st = SUCCESS /\ pia_ok pb o ws A'
  else processInitialActiveSet pb o ws (gn S pb) A = UB.
Proof.
  intros HL Hc Hb HW. unfold processInitialActiveSet.
  assert (H0 : asis pb [] (fun _ => INACTIVE) (as_reset A)).
  { split; auto; [apply good_reset; unfold gcb in HL; lia|]. apply gstt_reset. }
  assert (E1 : a_nb (as_reset A) = gb S pb) by auto. rewrite E1.
  pose proof (pia_bnd_spec pb o ws (as_reset A) (gb S pb) H0 HW (le_n _)) as H1.
  unfold order. rewrite forallb_app.
  destruct (forallb (kind1 pb o ws) (seq (gc_ S pb) (gb S pb))) eqn:K1; cbn [andb].
  2: { rewrite H1. auto. }
  destruct H1 as (A1 & Er1 & H1). rewrite Er1. cbn [bind].
  rewrite (ai_nc _ _ _ _ H1).
  pose proof (pia_cstr_spec pb o ws A1 (gc_ S pb) H1 HW (le_n _)) as H2.
  destruct (forallb (kind1 pb o ws) (seq 0 (gc_ S pb))) eqn:K2.
  2: { rewrite H2. auto. }
  destruct H2 as (A2 & Er2 & H2). rewrite Er2. cbn [bind].
  fold (order pb) in H2. fold (initial pb o ws) in H2. pose proof H2 as [G2 C2 B2 L2 S2].
  assert (S2' : forall i, (i < gcb S pb)%nat -> stt A2 i = wanted pb o ws i).
  { intros i Hi. rewrite S2. unfold gcb in Hi.
    destruct (Nat.ltb_spec i (gc_ S pb)), (Nat.leb_spec (gc_ S pb) i), (Nat.ltb_spec i (gc_ S pb + gb S pb)); auto; lia. }
  assert (HNE : neq_act A2 = n_eq pb o ws).
  { unfold neq_act, n_eq. rewrite L2. unfold initial. rewrite filter_filter. f_equal. apply filter_ext_in'.
    intros x Hx. apply order_lt in Hx. unfold eqact. rewrite S2' by auto.
    destruct (wanted pb o ws x); reflexivity. }
  assert (Hsub : (n_eq pb o ws <= length (initial pb o ws))%nat).
  { rewrite <- HNE. unfold neq_act. rewrite L2. apply filter_split_le. }
  rewrite (nact_length A2 G2), L2.
  assert (Hkeep : (length (initial pb o ws) <= gn S pb)%nat -> pia_ok pb o ws A2).
  { intros Hle. split; auto.
    - exists (length (initial pb o ws)). split; auto. unfold kept. rewrite firstn_all, skipn_all. simpl. rewrite app_nil_r. auto.
    - intros i. rewrite L2. destruct (existsb (Nat.eqb i) (initial pb o ws)) eqn:Ex.
      + apply existsb_exists in Ex as (y & Hy & Ey). apply Nat.eqb_eq in Ey. subst y.
        apply S2'. apply initial_in in Hy. tauto.
      + destruct (Nat.lt_ge_cases i (gcb S pb)) as [Hi|Hi].
        * rewrite S2' by auto. destruct (status_eq_dec (wanted pb o ws i) INACTIVE) as [|Hs]; auto.
          exfalso. apply Bool.not_true_iff_false in Ex. apply Ex, existsb_exists. exists i.
          split; [apply initial_in; auto|apply Nat.eqb_refl].
        * unfold stt. apply nth_overflow. rewrite (coh_len _ (proj1 G2)), C2, B2. exact Hi.
    - rewrite L2. auto.
    - rewrite L2. lia. }
  destruct (Nat.ltb_spec (gn S pb) (length (initial pb o ws))) as [Hgt|Hle].
  - rewrite (neq_counters A2 G2), HNE.
    destruct (Z.ltb_spec (Z.of_nat (gn S pb)) (Z.of_nat (n_eq pb o ws))) as [Ho|Ho].
    + exists OVERCONSTRAINED_PROBLEM, A2. split; auto. split; [exact G2|]. split; auto. split; auto.
      destruct (Nat.ltb_spec (gn S pb) (n_eq pb o ws)); auto. lia.
    + destruct (trim_spec (gn S pb) (length (initial pb o ws)) A2 G2) as (A' & k & E & G' & N1 & N2 & Hk & HL' & HS & HB & HB').
      * rewrite L2. auto.
      * rewrite L2, skipn_all. intros x [].
      * rewrite HNE. lia.
      * rewrite E. cbn [bind]. exists SUCCESS, A'. split; auto. split; [exact G'|]. split; [congruence|]. split; [congruence|].
        destruct (Nat.ltb_spec (gn S pb) (n_eq pb o ws)); [lia|]. split; auto.
        assert (Hf : forall l, (forall x, In x l -> In x (initial pb o ws)) -> filter (eqact A2) l = filter (fun i => isEq (wanted pb o ws i)) l).
        { intros l Hl. apply filter_ext_in'. intros x Hx. unfold eqact. rewrite S2'; auto. apply Hl, initial_in in Hx. tauto. }
        split; auto; try congruence.
        -- exists k. split; [|lia]. rewrite HL', L2. unfold kept. f_equal. apply Hf. intros x. apply In_skipn.
        -- intros i. rewrite HS. destruct (existsb (Nat.eqb i) (a_active A')) eqn:Ex; auto.
           apply existsb_exists in Ex as (y & Hy & Ey). apply Nat.eqb_eq in Ey. subst y.
           apply S2'. assert (In i (initial pb o ws)) as Hin; [|apply initial_in in Hin; tauto].
           rewrite HL', L2 in Hy. apply in_app_or in Hy as [Hy|Hy]; [eapply In_firstn; eauto|].
           apply filter_In in Hy as [Hy _]. eapply In_skipn; eauto.
        -- rewrite HB'; [lia|]. rewrite L2. lia.
  - exists SUCCESS, A2. split; auto. split; [exact G2|]. split; auto. split; auto.
    destruct (Nat.ltb_spec (gn S pb) (n_eq pb o ws)); [lia|]. split; auto.
Qed.

(** Every wanted equality is active *)
Lemma pia_ok_eq pb o ws A i : pia_ok pb o ws A -> (i < gcb S pb)%nat -> isEq (wanted pb o ws i) = true -> stt A i = wanted pb o ws i.
Proof.
  intros HP Hi He. rewrite (pk_stt _ _ _ _ HP). destruct (pk_list _ _ _ _ HP) as (k & El & _).
  assert (In i (a_active A)) as Hin.
  { rewrite El. unfold kept. assert (Hin : In i (initial pb o ws)).
    { apply initial_in. split; auto. intros E. rewrite E in He. discriminate. }
    rewrite <- (firstn_skipn k) in Hin. apply in_app_or in Hin as [H|H]; apply in_or_app; auto.
    right. apply filter_In. auto. }
  replace (existsb (Nat.eqb i) (a_active A)) with true; auto.
  symmetry. apply existsb_exists. exists i. split; auto. apply Nat.eqb_refl.
Qed.
End WarmAS.

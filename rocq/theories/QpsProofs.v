(** The reader and the problem described by the file: the state of the reader is a function of the items read. *)
From Coq Require Import List Arith ZArith Lia Bool Ascii String Reals Lra Permutation.
From Verif Require Import Base Num LinAlg TestPb Qps QpsSpec QpsText.
Import ListNotations.
Local Open Scope R_scope.

(** ** Tables of rows and columns *)
Fixpoint tabR (k : nat) (l : list (rowt * string)) : list (string * (option nat * rowt)) :=
  match l with
  | [] => []
  | (t, r) :: l' => (r, (if not_N t then Some k else None, t)) :: tabR (if not_N t then S k else k) l'
  end.
Definition nN (p : rowt * string) : bool := not_N (fst p).
Lemma tabR_app k l1 l2 : tabR k (l1 ++ l2) = tabR k l1 ++ tabR (k + List.length (filter nN l1)) l2.
Proof.
  revert k; induction l1 as [|[t r] l1 IH]; intros k; cbn [tabR app filter List.length].
  - now rewrite Nat.add_0_r.
  - rewrite IH. change (nN (t, r)) with (not_N t). destruct (not_N t); cbn [List.length app]; do 3 f_equal; lia.
Qed.
Lemma assoc_tabR_none r k l : assoc r (tabR k l) = None <-> ~ In r (map snd l).
Proof.
  revert k; induction l as [|[t r'] l IH]; intros k; cbn; [tauto|]. destruct (String.eqb r r') eqn:E.
  - apply String.eqb_eq in E. subst. split; [discriminate|tauto].
  - apply String.eqb_neq in E. rewrite IH. split; intros H; [intros [K|K]; congruence|tauto].
Qed.
Lemma assoc_tabR_idx r i t k l : NoDup (map snd l) ->
  (assoc r (tabR k l) = Some (Some (k + i)%nat, t) <-> nth_error (filter nN l) i = Some (t, r)).
Proof.
  revert k i; induction l as [|[t' r'] l IH]; intros k i ND; cbn [tabR filter assoc map].
  - destruct i; split; intros H; discriminate H.
  - inversion ND as [|? ? NI ND']; subst. change (nN (t', r')) with (not_N t'). cbn [fst snd] in *. destruct (String.eqb r r') eqn:E.
    + apply String.eqb_eq in E. subst r'. destruct (not_N t') eqn:Et.
      * destruct i as [|i]; cbn [nth_error].
        -- rewrite Nat.add_0_r. split; intros H; injection H as <-; reflexivity.
        -- split; intros H; [injection H as H _; lia|]. exfalso. apply NI. apply nth_error_In in H. apply filter_In in H as [H _].
           apply in_map_iff. exists (t, r). auto.
      * split; intros H; [discriminate H|]. exfalso. apply NI. apply nth_error_In in H. apply filter_In in H as [H _].
        apply in_map_iff. exists (t, r). auto.
    + apply String.eqb_neq in E. destruct (not_N t') eqn:Et.
      * destruct i as [|i]; cbn [nth_error].
        -- split; intros H; [|congruence]. exfalso. rewrite Nat.add_0_r in H.
           assert (K : forall m l r x, assoc r (tabR m l) = Some (Some x, t) -> (m <= x)%nat).
           { clear. intros m l; revert m; induction l as [|[t' r'] l IH]; intros m r x; cbn; [discriminate|]. destruct (String.eqb r r').
             - destruct (not_N t'); intros H; [injection H as <- _; lia|discriminate H].
             - intros H. apply IH in H. destruct (not_N t'); lia. }
           apply K in H. lia.
        -- replace (k + S i)%nat with (S k + i)%nat by lia. now apply IH.
      * now apply IH.
Qed.
Lemma assoc_tabR_N r t k l : NoDup (map snd l) -> (assoc r (tabR k l) = Some (None, t) <-> t = RN /\ In (RN, r) l).
Proof.
  revert k; induction l as [|[t' r'] l IH]; intros k ND; cbn [tabR assoc map In].
  - split; [discriminate|tauto].
  - inversion ND as [|? ? NI ND']; subst. cbn [snd] in *. destruct (String.eqb r r') eqn:E.
    + apply String.eqb_eq in E. subst r'. destruct t'; cbn [not_N]; split; intros H; try discriminate H; try (injection H as <-; auto);
      try (destruct H as [-> [H|H]]; [congruence|]; exfalso; apply NI; apply in_map_iff; exists (RN, r); auto).
    + apply String.eqb_neq in E. rewrite IH by exact ND'. split; intros [-> H]; split; auto. destruct H as [H|H]; [congruence|exact H].
Qed.
Lemma tabR_RE k l : List.length (filter is_RE (tabR k l)) = List.length (filter (fun x : rowt * string => match fst x with RE => true | _ => false end) l).
Proof. revert k; induction l as [|[t r] l IH]; intros k; cbn; [reflexivity|]. destruct t; cbn; now rewrite IH. Qed.
Lemma tabR_in k l x : In x (tabR k l) -> exists t r, In (t, r) l /\ x = (r, (fst (snd x), t)) /\ (t = RN <-> fst (snd x) = None).
Proof.
  revert k; induction l as [|[t r] l IH]; intros k; cbn; [intros []|]. intros [<-|H].
  - exists t, r. cbn. destruct t; cbn; intuition congruence.
  - destruct (IH _ H) as (t' & r' & H1 & H2). exists t', r'. auto.
Qed.
Lemma assoc_in {X} r (x : X) l : assoc r l = Some x -> In (r, x) l.
Proof. induction l as [|[t y] l IH]; cbn; [discriminate|]. destruct (String.eqb r t) eqn:E; [apply String.eqb_eq in E; intros H; injection H as <-; subst; auto|auto]. Qed.
Lemma in_assoc {X} r (x : X) l : NoDup (map fst l) -> In (r, x) l -> assoc r l = Some x.
Proof.
  induction l as [|[t y] l IH]; cbn; [tauto|]. intros ND [H|H]; inversion ND as [|? ? NI ND']; subst.
  - injection H as -> ->. now rewrite String.eqb_refl.
  - destruct (String.eqb r t) eqn:E; [|auto]. apply String.eqb_eq in E. subst. exfalso. apply NI. apply in_map_iff. exists (t, x). auto.
Qed.
Lemma tabR_names k l : map fst (tabR k l) = map snd l.
Proof. revert k; induction l as [|[t r] l IH]; intros k; cbn; [reflexivity|]. now rewrite IH. Qed.

(** columns *)
Lemma uniq_snoc seen l c : uniq seen (l ++ [c]) = uniq seen l ++ (if in_dec string_dec c (l ++ seen) then [] else [c]).
Proof.
  revert seen; induction l as [|x l IH]; intros seen; cbn [app uniq].
  - destruct (in_dec string_dec c seen); reflexivity.
  - destruct (in_dec string_dec x seen) as [E|E].
    + rewrite IH. f_equal. destruct (in_dec string_dec c (l ++ seen)) as [H|H], (in_dec string_dec c (x :: l ++ seen)) as [H'|H']; try reflexivity; exfalso.
      * apply H'. now right.
      * destruct H' as [<-|H']; [|contradiction]. apply H. apply in_or_app. auto.
    + cbn [app]. rewrite IH. f_equal. f_equal.
      destruct (in_dec string_dec c (l ++ x :: seen)) as [H|H], (in_dec string_dec c (x :: l ++ seen)) as [H'|H']; try reflexivity; exfalso.
      * apply H'. apply in_app_or in H as [H|[<-|H]]; [right; apply in_or_app; auto|now left|right; apply in_or_app; auto].
      * apply H. destruct H' as [<-|H']; [apply in_or_app; right; now left|]. apply in_app_or in H' as [H'|H']; apply in_or_app; [auto|right; now right].
Qed.
Lemma uniq_in seen l c : In c (uniq seen l) <-> In c l /\ ~ In c seen.
Proof.
  revert seen; induction l as [|x l IH]; intros seen; cbn [uniq In]; [tauto|]. destruct (in_dec string_dec x seen) as [E|E].
  - rewrite IH. split; intros [H H']; split; auto. destruct H as [<-|H]; [contradiction|exact H].
  - cbn [In]. rewrite IH. cbn [In]. destruct (string_dec x c) as [<-|N]; [tauto|]. split; intros H; [|tauto]. destruct H as [H|[H1 H2]]; [congruence|]. tauto.
Qed.
Lemma uniq_nodup seen l : NoDup (uniq seen l).
Proof.
  revert seen; induction l as [|x l IH]; intros seen; cbn [uniq]; [constructor|]. destruct (in_dec string_dec x seen); [apply IH|].
  constructor; [|apply IH]. rewrite uniq_in. cbn. tauto.
Qed.
Definition colsT (l : list string) : list (string * nat) := combine l (seq 0 (List.length l)).
Lemma combine_app {X Y} (a a' : list X) (b b' : list Y) : List.length a = List.length b -> combine (a ++ a') (b ++ b') = combine a b ++ combine a' b'.
Proof. revert b; induction a as [|x a IH]; intros [|y b] H; cbn in *; try discriminate H; [reflexivity|]. f_equal. apply IH. lia. Qed.
Lemma colsT_snoc l c : colsT (l ++ [c]) = colsT l ++ [(c, List.length l)].
Proof.
  unfold colsT. rewrite app_length. cbn [List.length]. rewrite Nat.add_1_r, seq_S. rewrite combine_app by (now rewrite seq_length). reflexivity.
Qed.
Lemma assoc_combine c l k j : NoDup l -> (assoc c (combine l (seq k (List.length l))) = Some (k + j)%nat <-> nth_error l j = Some c).
Proof.
  revert k j; induction l as [|x l IH]; intros k j ND; cbn; [destruct j; cbn; split; discriminate|]. inversion ND as [|? ? NI ND']; subst.
  destruct (String.eqb c x) eqn:E.
  - apply String.eqb_eq in E. subst x. destruct j as [|j]; cbn; [rewrite Nat.add_0_r; tauto|]. split; intros H; [injection H; lia|].
    exfalso. apply NI. eapply nth_error_In; eauto.
  - apply String.eqb_neq in E. destruct j as [|j]; cbn.
    + rewrite Nat.add_0_r. split; intros H; [|congruence]. exfalso. apply assoc_in in H. apply in_combine_r, in_seq in H. lia.
    + replace (k + S j)%nat with (S k + j)%nat by lia. now apply IH.
Qed.
Lemma assoc_colsT c l j : NoDup l -> (assoc c (colsT l) = Some j <-> nth_error l j = Some c).
Proof. intros H. apply (assoc_combine c l 0 j H). Qed.
Lemma colsT_len l : List.length (colsT l) = List.length l.
Proof. unfold colsT. rewrite combine_length, seq_length. lia. Qed.
Lemma assoc_colsT_none c l : assoc c (colsT l) = None <-> ~ In c l.
Proof.
  split; intros H.
  - intros K. unfold colsT in H. revert H. generalize 0%nat as k. induction l as [|x l IH]; intros k; [destruct K|]. cbn.
    destruct (String.eqb c x) eqn:E; [discriminate|]. destruct K as [->|K]; [rewrite String.eqb_refl in E; discriminate|]. now apply IH.
  - destruct (assoc c (colsT l)) as [j|] eqn:E; [|reflexivity]. exfalso. apply assoc_in in E. apply in_combine_l in E. contradiction.
Qed.

(** ** Writing lists of coefficients *)
Lemma put2_fold m n L : forall M0, (forall t, In t L -> (fst (fst t) < m /\ snd (fst t) < n)%nat) ->
  exists M, ofold (put2 m n) M0 L = Val M /\ forall i j,
    (forall v, In (i, j, v) L -> (forall v', In (i, j, v') L -> v' = v) -> M i j = v) /\ ((forall v, ~ In (i, j, v) L) -> M i j = M0 i j).
Proof.
  induction L as [|[[a b] w] L IH]; intros M0 H; [exists M0; cbn; split; [reflexivity|]; intros i j; split; [intros v []|reflexivity]|].
  cbn [ofold put2]. destruct (H _ (or_introl eq_refl)) as [H1 H2]. cbn [fst snd] in *. apply Nat.ltb_lt in H1, H2. rewrite H1, H2. cbn [andb oguard obind].
  destruct (IH (fun x y => if ((x =? a) && (y =? b))%nat then w else M0 x y)) as (M & E & K); [intros t Ht; apply H; now right|].
  exists M. split; [exact E|]. intros i j. destruct (K i j) as [K1 K2]. split.
  - intros v [Q|Hv] U.
    + injection Q as -> -> ->. destruct (in_dec (fun x y : nat * nat * R => ltac:(repeat decide equality; apply Req_EM_T)) (i, j, v) L) as [I|I].
      * apply K1; [exact I|]. intros v' Hv'. apply U. now right.
      * rewrite K2; [now rewrite !Nat.eqb_refl|]. intros v' Hv'. assert (v' = v) by (apply U; now right). congruence.
    + apply K1; [exact Hv|]. intros v' Hv'. apply U. now right.
  - intros N. rewrite K2 by (intros v Hv; apply (N v); now right).
    destruct ((i =? a)%nat) eqn:E1; [|reflexivity]. destruct ((j =? b)%nat) eqn:E2; [|reflexivity]. apply Nat.eqb_eq in E1, E2. subst. exfalso. apply (N w). now left.
Qed.
Lemma put1_fold n L : forall a0 : nat -> R, (forall t, In t L -> (fst t < n)%nat) ->
  exists a, ofold (fun a t => put1 n a (fst t) (snd t)) a0 L = Val a /\ forall j,
    (forall v, In (j, v) L -> (forall v', In (j, v') L -> v' = v) -> a j = v) /\ ((forall v, ~ In (j, v) L) -> a j = a0 j).
Proof.
  induction L as [|[b w] L IH]; intros a0 H; [exists a0; cbn; split; [reflexivity|]; intros j; split; [intros v []|reflexivity]|].
  cbn [ofold]. unfold put1 at 1. pose proof (H _ (or_introl eq_refl)) as H1. cbn [fst snd] in *. apply Nat.ltb_lt in H1. rewrite H1. cbn [oguard obind].
  destruct (IH (setf a0 b w)) as (a & E & K); [intros t Ht; apply H; now right|]. exists a. split; [exact E|]. intros j. destruct (K j) as [K1 K2]. split.
  - intros v [Q|Hv] U.
    + injection Q as -> ->. destruct (in_dec (fun x y : nat * R => ltac:(repeat decide equality; apply Req_EM_T)) (j, v) L) as [I|I].
      * apply K1; [exact I|]. intros v' Hv'. apply U. now right.
      * rewrite K2; [unfold setf; now rewrite Nat.eqb_refl|]. intros v' Hv'. assert (v' = v) by (apply U; now right). congruence.
    + apply K1; [exact Hv|]. intros v' Hv'. apply U. now right.
  - intros Nn. rewrite K2 by (intros v Hv; apply (Nn v); now right). unfold setf. destruct ((j =? b)%nat) eqn:E1; [|reflexivity].
    apply Nat.eqb_eq in E1. subst. exfalso. apply (Nn w). now left.
Qed.

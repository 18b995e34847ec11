(** The reader reads the problem described by the file. *)
From Coq Require Import List Arith ZArith Lia Bool Ascii String Reals Lra Permutation.
From Verif Require Import Base Num LinAlg TestPb Qps QpsSpec QpsText QpsProofs.
Import ListNotations.
Local Open Scope R_scope.

(** ** The bounds written *)
Notation bpair := ((nat -> option R) * (nat -> option R))%type.
Definition wpair (m : nat) (b : bpair) (i : nat) (p : option R * option R) : outc bpair :=
  oguard (i <? m)%nat (Val (setf (fst b) i (fst p), setf (snd b) i (snd p))).
Lemma wfold {X} m (f : bpair -> X -> outc bpair) (key : X -> option (nat * (option R * option R))) L : forall b0,
  (forall b x, In x L -> f b x = match key x with None => Val b | Some (i, p) => wpair m b i p end) ->
  (forall x i p, In x L -> key x = Some (i, p) -> (i < m)%nat) ->
  exists b, ofold f b0 L = Val b /\ forall i,
    (forall x p, In x L -> key x = Some (i, p) -> (forall x' p', In x' L -> key x' = Some (i, p') -> p' = p) -> (fst b i, snd b i) = p) /\
    ((forall x p, In x L -> key x <> Some (i, p)) -> (fst b i, snd b i) = (fst b0 i, snd b0 i)).
Proof.
  induction L as [|x L IH]; intros b0 F B.
  - exists b0. split; [reflexivity|]. intros i. split; [intros x p []|reflexivity].
  - cbn [ofold]. rewrite (F b0 x (or_introl eq_refl)). destruct (key x) as [[k p]|] eqn:K.
    + unfold wpair. pose proof (B x k p (or_introl eq_refl) K) as H. apply Nat.ltb_lt in H. rewrite H. cbn [oguard obind].
      destruct (IH (setf (fst b0) k (fst p), setf (snd b0) k (snd p))) as (b & E & Q); [intros bb y Hy; exact (F bb y (or_intror Hy))|intros y j q Hy Ky; exact (B y j q (or_intror Hy) Ky)|].
      exists b. split; [exact E|]. intros i. destruct (Q i) as [Q1 Q2]. cbn [fst snd] in Q2.
      set (g := fun y => match key y with Some (k', _) => (k' =? i)%nat | None => false end).
      destruct (existsb g L) eqn:G.
      * apply existsb_exists in G as (y & Hy & Gy). unfold g in Gy. destruct (key y) as [[k' p']|] eqn:Ky; [|discriminate Gy]. apply Nat.eqb_eq in Gy. subst k'.
        split; [|intros N; exfalso; apply (N y p'); [now right|exact Ky]].
        intros z q Hz Kz U. apply (Q1 y q Hy); [|intros x2 p2 Hx2 Kx2; exact (U x2 p2 (or_intror Hx2) Kx2)].
        rewrite Ky. do 2 f_equal. apply (U y p'); [now right|exact Ky].
      * assert (N : forall y q, In y L -> key y <> Some (i, q)).
        { intros y q Hy Ky. assert (existsb g L = true); [|congruence]. apply existsb_exists. exists y. split; [exact Hy|]. unfold g. rewrite Ky. apply Nat.eqb_refl. }
        specialize (Q2 N). split.
        -- intros z q [<-|Hz] Kz _; [|exfalso; exact (N z q Hz Kz)]. rewrite Q2. rewrite K in Kz. injection Kz as <- <-. unfold setf. rewrite Nat.eqb_refl. now destruct p.
        -- intros N'. rewrite Q2. unfold setf. destruct ((i =? k)%nat) eqn:Ek; [|reflexivity]. apply Nat.eqb_eq in Ek. subst. exfalso. exact (N' x p (or_introl eq_refl) K).
    + cbn [obind]. destruct (IH b0) as (b & E & Q); [intros bb y Hy; exact (F bb y (or_intror Hy))|intros y j q Hy Ky; exact (B y j q (or_intror Hy) Ky)|].
      exists b. split; [exact E|]. intros i. destruct (Q i) as [Q1 Q2]. split.
      * intros z q [<-|Hz] Kz U; [congruence|]. apply (Q1 z q Hz Kz). intros x2 p2 Hx2 Kx2; exact (U x2 p2 (or_intror Hx2) Kx2).
      * intros N. apply Q2. intros y q Hy. apply N. now right.
Qed.
Definition key_row (x : string * (option nat * rowt)) : option (nat * (option R * option R)) :=
  match snd x with (Some i, t) => Some (i, interval t 0) | _ => None end.
Definition key_rhs (e : nat * R * rowt) : option (nat * (option R * option R)) := let '(i, v, t) := e in Some (i, interval t v).
Lemma row_init_w m b x : (snd (snd x) = RN <-> fst (snd x) = None) -> row_init m b x = match key_row x with None => Val b | Some (i, p) => wpair m b i p end.
Proof.
  destruct x as [n [[i|] t]]; cbn; intros H; [|rewrite (proj2 H eq_refl); reflexivity].
  assert (t <> RN) by (intros ->; destruct H as [H _]; specialize (H eq_refl); discriminate H).
  unfold row_init, put1, wpair, key_row. cbn [snd fst]. destruct t; try congruence; destruct ((i <? m)%nat); reflexivity.
Qed.
Lemma rhs_fill_w m b e : snd e <> RN -> rhs_fill m b e = match key_rhs e with None => Val b | Some (i, p) => wpair m b i p end.
Proof. destruct e as [[i v] t]. cbn [snd]. intros H. unfold rhs_fill, key_rhs, put1, wpair. destruct t; try congruence; destruct ((i <? m)%nat); reflexivity. Qed.

Lemma range_fold m (beta : nat -> R) L : forall b0 : bpair,
  NoDup (map (fun e : nat * R * rowt => fst (fst e)) L) ->
  (forall i v t, In (i, v, t) L -> (i < m)%nat /\ t <> RN /\ (fst b0 i, snd b0 i) = interval t (beta i)) ->
  exists b, ofold (range_fill m) b0 L = Val b /\ forall i,
    (forall v t, In (i, v, t) L -> (fst b i, snd b i) = ranged t (beta i) v) /\
    ((forall v t, ~ In (i, v, t) L) -> (fst b i, snd b i) = (fst b0 i, snd b0 i)).
Proof.
  induction L as [|[[k w] ty] L IH]; intros b0 ND H.
  - exists b0. split; [reflexivity|]. intros i. split; [intros v t []|reflexivity].
  - inversion ND as [|? ? NI ND']; subst. cbn [fst] in NI. destruct (H k w ty (or_introl eq_refl)) as (Hk & HN & Hb).
    assert (S : exists b1, range_fill m b0 (k, w, ty) = Val b1 /\ (fst b1 k, snd b1 k) = ranged ty (beta k) w /\
                           forall i, i <> k -> (fst b1 i, snd b1 i) = (fst b0 i, snd b0 i)).
    { apply Nat.ltb_lt in Hk. unfold range_fill, put1. rewrite Hk. destruct ty; cbn [interval] in Hb; injection Hb as H1 H2; try congruence.
      - rewrite H1, H2. unfold ranged. destruct (Rleb_spec 0 w) as [P|P]; cbn [oguard obind]; eexists; (split; [reflexivity|]); cbn [fst snd]; unfold setf; rewrite Nat.eqb_refl;
        (split; [|intros i Hi; apply Nat.eqb_neq in Hi; now rewrite Hi]).
        + rewrite H1, Rabs_right by lra. reflexivity.
        + rewrite H2, Rabs_left by lra. do 2 f_equal. lra.
      - rewrite H2. cbn [oguard obind]. eexists; (split; [reflexivity|]); cbn [fst snd]; unfold setf; rewrite Nat.eqb_refl, H2.
        split; [reflexivity|intros i Hi; apply Nat.eqb_neq in Hi; now rewrite Hi].
      - rewrite H1. cbn [oguard obind]. eexists; (split; [reflexivity|]); cbn [fst snd]; unfold setf; rewrite Nat.eqb_refl, H1.
        split; [reflexivity|intros i Hi; apply Nat.eqb_neq in Hi; now rewrite Hi]. }
    destruct S as (b1 & E1 & A1 & F1). cbn [ofold]. rewrite E1. cbn [obind].
    assert (Nk : forall v t, ~ In (k, v, t) L) by (intros v t Hv; apply NI; apply in_map_iff; exists (k, v, t); auto).
    destruct (IH b1 ND') as (b & E & Q).
    { intros i v t Hi. destruct (H i v t (or_intror Hi)) as (G1 & G2 & G3). split; [exact G1|split; [exact G2|]]. rewrite F1; [exact G3|].
      intros ->. exact (Nk _ _ Hi). }
    exists b. split; [exact E|]. intros i. destruct (Q i) as [Q1 Q2]. split.
    + intros v t [K|K]; [|now apply Q1]. injection K as -> -> ->. rewrite Q2 by exact Nk. exact A1.
    + intros Nn. rewrite Q2 by (intros v t Hv; apply (Nn v t); now right). apply F1. intros ->. apply (Nn w ty). now left.
Qed.
Lemma bnd_fold n L : forall b0 : bpair, (forall e, In e L -> (fst (fst e) < n)%nat) ->
  exists b, ofold (bnd_fill n) b0 L = Val b /\ forall j,
    (fst b j, snd b j) = fold_left (fun p (e : nat * R * bndt) => if (fst (fst e) =? j)%nat then one_bound (snd e) (snd (fst e)) p else p) L (fst b0 j, snd b0 j).
Proof.
  induction L as [|[[k v] t] L IH]; intros b0 H; [exists b0; split; [reflexivity|]; intros j; reflexivity|].
  pose proof (H _ (or_introl eq_refl)) as Hk. cbn [fst] in Hk. apply Nat.ltb_lt in Hk.
  assert (S : exists b1, bnd_fill n b0 (k, v, t) = Val b1 /\
    forall j, (fst b1 j, snd b1 j) = if (k =? j)%nat then one_bound t v (fst b0 j, snd b0 j) else (fst b0 j, snd b0 j)).
  { unfold bnd_fill, put1. rewrite Hk. destruct t; cbn [oguard obind]; eexists; (split; [reflexivity|]); intros j; cbn [fst snd]; unfold setf;
    rewrite (Nat.eqb_sym j k); destruct ((k =? j)%nat); reflexivity. }
  destruct S as (b1 & E1 & S). cbn [ofold]. rewrite E1. cbn [obind]. destruct (IH b1) as (b & E & Q); [intros; apply H; now right|].
  exists b. split; [exact E|]. intros j. rewrite Q, S. cbn [fold_left fst snd]. destruct ((k =? j)%nat); reflexivity.
Qed.

(** ** The state of the reader *)
Section All.
Variable all : list item.
Hypothesis CO : consistent all.
Hypothesis names : forall i, In i all -> match i with IRhs n _ _ | IRng n _ _ => n <> EmptyString | _ => True end.
Definition row_ent (r : string) := assoc r (tabR 0 (rows_of all)).
Definition col_ent (c : string) := assoc c (colsT (vars all)).
Lemma in_rows t r : In (t, r) (rows_of all) <-> In (IRow t r) all.
Proof.
  unfold rows_of. rewrite in_flat_map. split.
  - intros (i & Hi & K). destruct i; cbn in K; try contradiction. destruct K as [K|[]]. injection K as -> ->. exact Hi.
  - intros H. exists (IRow t r). split; [exact H|now left].
Qed.
Lemma in_cols its c : In c (cols_of its) <-> exists r v, In (ICol c r v) its.
Proof.
  unfold cols_of. rewrite in_flat_map. split.
  - intros (i & Hi & K). destruct i; cbn in K; try contradiction. destruct K as [K|[]]. subst. eauto.
  - intros (r & v & H). exists (ICol c r v). split; [exact H|now left].
Qed.
Lemma row_idx r i t : row_ent r = Some (Some i, t) <-> nth_error (cstrs all) i = Some (t, r).
Proof. apply (assoc_tabR_idx r i t 0 (rows_of all) (co_rows all CO)). Qed.
Lemma row_N r t : row_ent r = Some (None, t) <-> t = RN /\ In (IRow RN r) all.
Proof. unfold row_ent. rewrite assoc_tabR_N by apply (co_rows all CO). now rewrite in_rows. Qed.
Lemma row_idx_t r i t : row_ent r = Some (Some i, t) -> t <> RN.
Proof. rewrite row_idx. intros H ->. apply nth_error_In in H. apply filter_In in H as [_ H]. discriminate H. Qed.
Lemma row_cases t r : In (IRow t r) all -> (t = RN /\ row_ent r = Some (None, RN)) \/ (t <> RN /\ exists i, row_ent r = Some (Some i, t)).
Proof.
  intros H. destruct t; try (right; split; [discriminate|]; apply in_rows in H;
    match goal with |- exists i, row_ent r = Some (Some i, ?t) =>
      assert (K : In (t, r) (cstrs all)) by (apply filter_In; split; [exact H|reflexivity]); apply In_nth_error in K as [i K]; exists i; now apply row_idx end).
  left. split; [reflexivity|]. now apply row_N.
Qed.
Lemma row_same t r i t' : row_ent r = Some (i, t) -> In (IRow t' r) all -> t' = t.
Proof. intros H K. destruct (row_cases t' r K) as [[-> H']|[_ [k H']]]; congruence. Qed.
Lemma col_idx c j : col_ent c = Some j <-> pos c (vars all) j.
Proof. apply assoc_colsT. apply uniq_nodup. Qed.
Lemma vars_nodup its : NoDup (vars its). Proof. apply uniq_nodup. Qed.
Lemma pos_inj c c' j : pos c (vars all) j -> pos c' (vars all) j -> c = c'.
Proof. unfold pos. congruence. Qed.

Definition entC (i : item) := match i with ICol c r v => match row_ent r, col_ent c with Some (Some k, _), Some j => [(k, j, v)] | _, _ => [] end | _ => [] end.
Definition entA (i : item) := match i with ICol c r v => match row_ent r, col_ent c with Some (None, _), Some j => [(j, v)] | _, _ => [] end | _ => [] end.
Definition entB (i : item) := match i with IRhs _ r v => match row_ent r with Some (Some k, t) => [(k, v, t)] | _ => [] end | _ => [] end.
Definition entR (i : item) := match i with IRng _ r v => match row_ent r with Some (Some k, t) => [(k, v, t)] | _ => [] end | _ => [] end.
Definition entX (i : item) := match i with IBnd t c v => match col_ent c with Some j => [(j, v, t)] | _ => [] end | _ => [] end.
Definition entG (i : item) := match i with IQuad c r v => match col_ent r, col_ent c with Some k, Some j => [(k, j, v)] | _, _ => [] end | _ => [] end.

Definition objP (done : list item) (b : bool) : Prop := b = true <-> exists r, In (IRow RN r) done.
Definition cstP (done : list item) (x : R) : Prop :=
  (x = 0 /\ forall n r v, In (IRow RN r) all -> ~ In (IRhs n r v) done) \/ (exists n r v, In (IRow RN r) all /\ In (IRhs n r v) done /\ x = - v).
Definition setP (mk : string -> string -> R -> item) (done : list item) (nm : string) : Prop :=
  (nm = ""%string /\ forall n r v, ~ In (mk n r v) done) \/ (exists r v, In (mk nm r v) done).
Record Inv (full : bool) (done : list item) (s : rd) : Prop := IV {
  iv_full : r_full s = full;
  iv_rows : r_rows s = tabR 0 (rows_of done);
  iv_n : r_nRows s = List.length (cstrs done);
  iv_obj : objP done (r_obj s);
  iv_cols : r_cols s = colsT (vars done);
  iv_C : r_C s = flat_map entC done; iv_a : r_a s = flat_map entA done; iv_b : r_b s = flat_map entB done;
  iv_r : r_r s = flat_map entR done; iv_x : r_x s = flat_map entX done; iv_G : r_G s = flat_map entG done;
  iv_cst : cstP done (r_cst s);
  iv_rhs : setP IRhs done (r_rhsName s);
  iv_rng : setP IRng done (r_rangeName s) }.
Lemma in_snoc {X} (x y : X) l : In x (l ++ [y]) <-> In x l \/ x = y.
Proof. rewrite in_app_iff. cbn. intuition congruence. Qed.
Lemma objP_keep done i b : (forall r, i <> IRow RN r) -> objP done b -> objP (done ++ [i]) b.
Proof.
  intros N H. split; [intros O; destruct (proj1 H O) as [r Hr]; exists r; apply in_snoc; now left|].
  intros [r Hr]. apply H. exists r. apply in_snoc in Hr as [Hr|Hr]; [exact Hr|]. exfalso. exact (N r (eq_sym Hr)).
Qed.
Lemma cstP_keep done i x : (forall n r v, i <> IRhs n r v) -> cstP done x -> cstP (done ++ [i]) x.
Proof.
  intros K [[Z N]|(n & r & v & H1 & H2 & H3)]; [left; split; [exact Z|]|right; exists n, r, v; repeat split; auto; apply in_snoc; now left].
  intros n r v H Q. apply in_snoc in Q as [Q|Q]; [exact (N _ _ _ H Q)|exact (K n r v (eq_sym Q))].
Qed.
Lemma setP_keep mk done i nm : (forall n r v, i <> mk n r v) -> setP mk done nm -> setP mk (done ++ [i]) nm.
Proof.
  intros K [[Z N]|(r & v & H)]; [left; split; [exact Z|]|right; exists r, v; apply in_snoc; now left].
  intros n r v Q. apply in_snoc in Q as [Q|Q]; [exact (N _ _ _ Q)|exact (K n r v (eq_sym Q))].
Qed.
Lemma setP_last mk done n r v : setP mk (done ++ [mk n r v]) n.
Proof. right. exists r, v. apply in_snoc. now right. Qed.

Lemma inv_new full : Inv full [] (rd_new full).
Proof. constructor; try reflexivity; try (left; split; [reflexivity|intros; intros []]). split; [intros K; discriminate K|intros [r []]]. Qed.
Lemma inv_data full done s s' : Inv full done s -> r_full s' = r_full s -> r_rows s' = r_rows s -> r_cols s' = r_cols s -> r_rhsName s' = r_rhsName s -> r_rangeName s' = r_rangeName s ->
  r_C s' = r_C s -> r_G s' = r_G s -> r_a s' = r_a s -> r_b s' = r_b s -> r_r s' = r_r s -> r_x s' = r_x s -> r_cst s' = r_cst s -> r_nRows s' = r_nRows s -> r_obj s' = r_obj s ->
  Inv full done s'.
Proof. intros [A1 A2 A3 A4 A5 A6 A7 A8 A9 A10 A11 A12 A13 A14] E1 E2 E3 E4 E5 E6 E7 E8 E9 E10 E11 E12 E13 E14. constructor; try congruence; rewrite ?E4, ?E5, ?E12, ?E14; auto. Qed.

Definition is_row (i : item) : bool := match i with IRow _ _ => true | _ => false end.
Definition is_col (i : item) : bool := match i with ICol _ _ _ => true | _ => false end.
Lemma order_split done i rest : all = done ++ i :: rest ->
  (is_row i = false -> rows_of rest = []) /\ (is_row i = false -> is_col i = false -> cols_of rest = []).
Proof.
  destruct (co_order all CO) as (i1 & i2 & i3 & E & H1 & H2 & H3). rewrite E. clear E.
  assert (R0 : forall l, (forall x, In x l -> is_row x = false) -> rows_of l = []).
  { clear. induction l as [|x l IH]; intros H; [reflexivity|]. unfold rows_of. cbn [flat_map]. fold (rows_of l). rewrite IH by (intros y Hy; apply H; now right).
    specialize (H x (or_introl eq_refl)). destruct x; try reflexivity. discriminate H. }
  assert (C0 : forall l, (forall x, In x l -> is_col x = false) -> cols_of l = []).
  { clear. induction l as [|x l IH]; intros H; [reflexivity|]. unfold cols_of. cbn [flat_map]. fold (cols_of l). rewrite IH by (intros y Hy; apply H; now right).
    specialize (H x (or_introl eq_refl)). destruct x; try reflexivity. discriminate H. }
  assert (H23 : forall x, In x (i2 ++ i3) -> is_row x = false).
  { intros x Hx. apply in_app_or in Hx as [Hx|Hx]; [specialize (H2 x Hx)|specialize (H3 x Hx)]; destruct x; tauto || reflexivity. }
  assert (Hin : forall dd x, In x rest -> In x (dd ++ i :: rest)) by (intros dd x Hx; apply in_or_app; right; now right).
  revert i1 H1. induction done as [|d done IH]; intros i1 H1 E.
  - destruct i1 as [|x i1].
    + cbn [app] in E. assert (Hr : forall x, In x rest -> In x (i2 ++ i3)) by (intros x Hx; rewrite E; now right). split.
      * intros _. apply R0. intros x Hx. apply H23. auto.
      * intros _ Ic. destruct i2 as [|y i2]; [|cbn [app] in E; injection E as -> _; specialize (H2 i (or_introl eq_refl)); destruct i; tauto || discriminate Ic].
        cbn [app] in *. apply C0. intros x Hx. specialize (H3 x (Hr x Hx)). destruct x; tauto || reflexivity.
    + cbn [app] in E. injection E as -> _. specialize (H1 i (or_introl eq_refl)). destruct i; try tauto. split; discriminate.
  - destruct i1 as [|x i1].
    + cbn [app] in E. split.
      * intros _. apply R0. intros x Hx. apply H23. rewrite E. exact (Hin (d :: done) x Hx).
      * intros _ Ic. clear IH. apply C0. destruct i2 as [|y i2].
        -- cbn [app] in E. intros x Hx. assert (Q : In x i3) by (rewrite E; exact (Hin (d :: done) x Hx)). specialize (H3 x Q). destruct x; tauto || reflexivity.
        -- change (d :: done ++ i :: rest) with ((d :: done) ++ i :: rest) in E. revert E. generalize (d :: done) as dd. revert H2. generalize (y :: i2) as j2. clear - H3 Ic Hin.
           induction j2 as [|y j2 IH]; intros H2 dd E.
           ++ cbn [app] in E. intros x Hx. assert (Q : In x i3) by (rewrite E; exact (Hin dd x Hx)). specialize (H3 x Q). destruct x; tauto || reflexivity.
           ++ destruct dd as [|z dd].
              ** cbn [app] in E. injection E as -> _. specialize (H2 i (or_introl eq_refl)). destruct i; tauto || discriminate Ic.
              ** cbn [app] in E. injection E as _ E. exact (IH (fun x Hx => H2 x (or_intror Hx)) dd E).
    + cbn [app] in E. injection E as _ E. apply (IH i1); [intros y Hy; apply H1; now right|exact E].
Qed.
Lemma rows_app l1 l2 : rows_of (l1 ++ l2) = rows_of l1 ++ rows_of l2. Proof. apply flat_map_app. Qed.
Lemma cols_app l1 l2 : cols_of (l1 ++ l2) = cols_of l1 ++ cols_of l2. Proof. apply flat_map_app. Qed.
Lemma rows_done done i rest : all = done ++ i :: rest -> is_row i = false -> rows_of done = rows_of all.
Proof.
  intros E H. destruct (order_split done i rest E) as [K _]. rewrite E, rows_app. change (i :: rest) with ([i] ++ rest). rewrite rows_app, (K H), app_nil_r.
  destruct i; try discriminate H; cbn; now rewrite app_nil_r.
Qed.
Lemma cols_done done i rest : all = done ++ i :: rest -> is_row i = false -> is_col i = false -> cols_of done = cols_of all.
Proof.
  intros E H H'. destruct (order_split done i rest E) as [_ K]. rewrite E, cols_app. change (i :: rest) with ([i] ++ rest). rewrite cols_app, (K H H'), app_nil_r.
  destruct i; try discriminate H; try discriminate H'; cbn; now rewrite app_nil_r.
Qed.
Lemma vars_snoc done i : vars (done ++ [i]) = match i with ICol c _ _ => vars done ++ (if in_dec string_dec c (cols_of done) then [] else [c]) | _ => vars done end.
Proof.
  unfold vars. rewrite cols_app. destruct i; cbn [cols_of flat_map app]; rewrite ?app_nil_r; try reflexivity. rewrite uniq_snoc, app_nil_r. reflexivity.
Qed.
Lemma vars_prefix done rest : exists tl, vars (done ++ rest) = vars done ++ tl.
Proof.
  revert done; induction rest as [|i rest IH]; intros done; [exists []; now rewrite !app_nil_r|].
  replace (done ++ i :: rest) with ((done ++ [i]) ++ rest) by (rewrite <- app_assoc; reflexivity). destruct (IH (done ++ [i])) as [tl ->]. rewrite vars_snoc.
  destruct i; try (exists tl; reflexivity). rewrite <- app_assoc. eexists. reflexivity.
Qed.
Lemma vars_in its c : In c (vars its) <-> In c (cols_of its).
Proof. unfold vars. rewrite uniq_in. cbn. tauto. Qed.
Lemma col_prefix done rest c j : all = done ++ rest -> assoc c (colsT (vars done)) = Some j -> col_ent c = Some j.
Proof.
  intros E H. apply assoc_colsT in H; [|apply vars_nodup]. apply col_idx. unfold pos. rewrite E. destruct (vars_prefix done rest) as [tl ->].
  rewrite nth_error_app1; [exact H|]. apply nth_error_Some. congruence.
Qed.
Lemma col_decl c : In c (cols_of all) -> exists j, col_ent c = Some j.
Proof. intros H. apply vars_in in H. apply In_nth_error in H as [j H]. exists j. now apply col_idx. Qed.

Definition same_ctx (s s' : rd) : Prop := r_sect s' = r_sect s /\ r_line s' = r_line s.
Lemma flat_snoc {X} (f : item -> list X) done i : flat_map f (done ++ [i]) = flat_map f done ++ f i.
Proof. rewrite flat_map_app. cbn. now rewrite app_nil_r. Qed.
(** an item that is neither a row nor a column only appends *)
Lemma rows_snoc done i : is_row i = false -> rows_of (done ++ [i]) = rows_of done.
Proof. intros H. rewrite rows_app. destruct i; try discriminate H; cbn; now rewrite app_nil_r. Qed.
Lemma cstrs_snoc done i : is_row i = false -> cstrs (done ++ [i]) = cstrs done.
Proof. intros H. unfold cstrs. now rewrite rows_snoc. Qed.
Ltac fin Re Hj := constructor; cbn [r_full r_rows r_nRows r_obj r_cols r_C r_a r_b r_r r_x r_G r_cst r_rhsName r_rangeName];
  rewrite ?flat_snoc, ?rows_snoc, ?cstrs_snoc by reflexivity; cbn [entC entA entB entR entX entG]; rewrite ?Re, ?Hj, ?app_nil_r;
  try (apply objP_keep; [discriminate|assumption]); try (apply cstP_keep; [discriminate|assumption]); try (apply setP_keep; [discriminate|assumption]);
  try congruence; try (symmetry; match goal with H : _ -> tabR _ _ = _ |- _ => apply H; reflexivity end);
  try (rewrite vars_snoc; congruence).

Lemma feed_step full done i rest s : all = done ++ i :: rest -> Inv full done s -> exists s', feed s i = Val s' /\ Inv full (done ++ [i]) s' /\ same_ctx s s'.
Proof.
  intros E [A1 A2 A3 A4 A5 A6 A7 A8 A9 A10 A11 A12 A13 A14].
  assert (Iall : In i all) by (rewrite E; apply in_or_app; right; now left).
  assert (Idone : forall x, In x done -> In x all) by (intros x Hx; rewrite E; apply in_or_app; now left).
  assert (Er : is_row i = false -> tabR 0 (rows_of done) = tabR 0 (rows_of all)) by (intros H; now rewrite (rows_done _ _ _ E H)).
  assert (Ec : is_row i = false -> is_col i = false -> vars done = vars all) by (intros H H'; unfold vars; now rewrite (cols_done _ _ _ E H H')).
  destruct i as [t r|c r v|n r v|n r v|t c v|c r v].
  - (* row *)
    assert (ND : NoDup (map snd (rows_of done) ++ r :: map snd (rows_of rest))).
    { pose proof (co_rows all CO) as K. rewrite E, rows_app, map_app in K. exact K. }
    assert (NI : ~ In r (map snd (rows_of done))) by (intros H; apply NoDup_remove_2 in ND; apply ND; apply in_or_app; now left).
    assert (RA : rows_of (done ++ [IRow t r]) = rows_of done ++ [(t, r)]) by (rewrite rows_app; reflexivity).
    assert (TA : tabR 0 (rows_of done ++ [(t, r)]) = tabR 0 (rows_of done) ++ [(r, (if not_N t then Some (List.length (cstrs done)) else None, t))]) by (rewrite tabR_app; reflexivity).
    assert (CA : cstrs (done ++ [IRow t r]) = cstrs done ++ (if not_N t then [(t, r)] else [])).
    { unfold cstrs. rewrite RA, filter_app. cbn. destruct t; reflexivity. }
    cbn [feed]. unfold row_add. rewrite A2, (proj2 (assoc_tabR_none r 0 (rows_of done)) NI).
    assert (RN1 : t = RN -> r_obj s = false).
    { intros ->. destruct (r_obj s) eqn:O; [|reflexivity]. destruct (proj1 A4 eq_refl) as [r' Hr']. exfalso. apply NI.
      rewrite (co_N all CO r r' Iall (Idone _ Hr')). apply in_map_iff. exists (RN, r'). split; [reflexivity|]. unfold rows_of. apply in_flat_map. exists (IRow RN r'). split; [exact Hr'|now left]. }
    assert (T : forall s', r_full s' = r_full s -> r_rows s' = r_rows s ++ [(r, (if not_N t then Some (List.length (cstrs done)) else None, t))] -> r_cols s' = r_cols s -> r_rhsName s' = r_rhsName s -> r_rangeName s' = r_rangeName s ->
      r_C s' = r_C s -> r_G s' = r_G s -> r_a s' = r_a s -> r_b s' = r_b s -> r_r s' = r_r s -> r_x s' = r_x s -> r_cst s' = r_cst s ->
      r_nRows s' = List.length (cstrs (done ++ [IRow t r])) -> (r_obj s' = true <-> t = RN \/ r_obj s = true) -> Inv full (done ++ [IRow t r]) s').
    { intros s' E1 E2 E3 E4 E5 E6 E7 E8 E9 E10 E11 E12 E13 E14. constructor; try congruence; try (rewrite flat_snoc, app_nil_r; congruence).
      - unfold objP. rewrite E14. split.
        + intros [->|O']; [exists r; apply in_snoc; now right|]. destruct (proj1 A4 O') as [r' Hr']. exists r'. apply in_snoc. now left.
        + intros [r' Hr']. apply in_snoc in Hr' as [Hr'|Hr']; [right; apply A4; eauto|left; congruence].
      - rewrite vars_snoc. congruence.
      - rewrite E12. apply cstP_keep; [discriminate|exact A12].
      - rewrite E4. apply setP_keep; [discriminate|exact A13].
      - rewrite E5. apply setP_keep; [discriminate|exact A14]. }
    destruct t; try (eexists; split; [reflexivity|]; split; [|split; reflexivity]; apply T; try reflexivity; cbn -[cstrs];
      [rewrite A2, A3; reflexivity|rewrite A3, CA, app_length; cbn; lia|intuition discriminate]).
    rewrite (RN1 eq_refl). eexists; split; [reflexivity|]; split; [|split; reflexivity]. apply T; try reflexivity; cbn -[cstrs]; [now rewrite A2|rewrite A3, CA; cbn; now rewrite app_nil_r|tauto].
  - (* column *)
    assert (W : exists j s1, with_col s c = (j, s1) /\ col_ent c = Some j /\ r_cols s1 = colsT (vars (done ++ [ICol c r v])) /\
      s1 = RD (r_full s) (r_name s) (r_line s) (r_sect s) (r_rows s) (r_cols s1) (r_rhsName s) (r_rangeName s) (r_C s) (r_G s) (r_a s) (r_b s) (r_r s) (r_x s) (r_cst s) (r_nRows s) (r_obj s)).
    { unfold with_col. rewrite A5. destruct (assoc c (colsT (vars done))) as [j|] eqn:K.
      - exists j, s. split; [reflexivity|]. split; [exact (col_prefix _ _ _ _ E K)|]. split; [|destruct s; cbn in *; reflexivity].
        rewrite vars_snoc. destruct (in_dec string_dec c (cols_of done)) as [I|I]; [rewrite app_nil_r; exact A5|]. exfalso. apply I. apply vars_in.
        apply assoc_in, in_combine_l in K. exact K.
      - eexists _, _. split; [reflexivity|]. cbn [r_cols]. apply assoc_colsT_none in K. rewrite vars_in in K. rewrite vars_snoc.
        destruct (in_dec string_dec c (cols_of done)) as [I|I]; [contradiction|]. rewrite colsT_snoc, colsT_len. split; [|split; reflexivity].
        assert (E' : all = (done ++ [ICol c r v]) ++ rest) by (rewrite <- app_assoc; exact E). apply (col_prefix _ _ _ _ E').
        rewrite vars_snoc. destruct (in_dec string_dec c (cols_of done)) as [I'|I']; [contradiction|]. rewrite colsT_snoc. apply assoc_snoc_new.
        apply assoc_colsT_none. now rewrite vars_in. }
    destruct W as (j & s1 & W & Hj & Hc & Es1). cbn [feed]. rewrite W. unfold addValueToColumn. cbn [fst snd].
    assert (Rr : r_rows s1 = tabR 0 (rows_of all)) by (rewrite Es1; cbn; rewrite A2; now apply Er). rewrite Rr. fold (row_ent r).
    destruct (co_col all CO c r v Iall) as [t Ht].
    destruct (row_cases t r Ht) as [[-> Re]|[NT [k Re]]]; rewrite Re.
    + eexists; split; [reflexivity|]. rewrite Es1. split; [|split; reflexivity]. fin Re Hj.
    + destruct t; try congruence; (eexists; split; [reflexivity|]; rewrite Es1; split; [|split; reflexivity]; fin Re Hj).
  - (* right-hand side *)
    assert (NE : n <> EmptyString) by exact (names _ Iall).
    assert (O : exists s1, (if String.eqb (r_rhsName s) "" then Val (set_rhsName s n) else if String.eqb (r_rhsName s) n then Val s else Exc) = Val s1 /\ s1 = set_rhsName s n).
    { destruct A13 as [[Z N]|(r0 & v0 & H)].
      - rewrite Z. cbn. eexists; split; reflexivity.
      - assert (Q : r_rhsName s = n) by exact (co_rhsset all CO _ _ _ _ _ _ (Idone _ H) Iall). rewrite Q, (eqb_ne n NE), String.eqb_refl.
        exists s. split; [reflexivity|]. rewrite <- Q. destruct s; reflexivity. }
    destruct O as (s1 & O & ->). cbn [feed]. rewrite O. cbn [obind]. unfold addValueToRHS. cbn [fst snd set_rhsName r_rows]. rewrite A2, (Er eq_refl). fold (row_ent r).
    destruct (co_rhs all CO n r v Iall) as [t Ht].
    destruct (row_cases t r Ht) as [[-> Re]|[NT [k Re]]]; rewrite Re.
    + eexists; split; [reflexivity|]. split; [|split; reflexivity]. cbn [set_rhsName r_full r_rows r_nRows r_obj r_cols r_C r_a r_b r_r r_x r_G r_cst r_rhsName r_rangeName].
      fin Re Re; [|apply setP_last]. right. exists n, r, v. repeat split; auto. apply in_snoc. now right.
    + assert (Q : cstP (done ++ [IRhs n r v]) (r_cst s)).
      { destruct A12 as [[Z N]|(n0 & r0 & v0 & H1 & H2 & H3)]; [left; split; [exact Z|]|right; exists n0, r0, v0; repeat split; auto; apply in_snoc; now left].
        intros n0 r0 v0 H1 Q. apply in_snoc in Q as [Q|Q]; [exact (N _ _ _ H1 Q)|]. injection Q as -> -> ->. apply NT. symmetry. apply (row_same t r (Some k)) in H1; auto. }
      destruct t; try congruence; (eexists; split; [reflexivity|]; split; [|split; reflexivity]; cbn [set_rhsName r_full r_rows r_nRows r_obj r_cols r_C r_a r_b r_r r_x r_G r_cst r_rhsName r_rangeName];
      fin Re Re; apply setP_last).
  - (* range *)
    assert (NE : n <> EmptyString) by exact (names _ Iall).
    assert (O : exists s1, (if String.eqb (r_rangeName s) "" then Val (set_rangeName s n) else if String.eqb (r_rangeName s) n then Val s else Exc) = Val s1 /\ s1 = set_rangeName s n).
    { destruct A14 as [[Z N]|(r0 & v0 & H)].
      - rewrite Z. cbn. eexists; split; reflexivity.
      - assert (Q : r_rangeName s = n) by exact (co_rngset all CO _ _ _ _ _ _ (Idone _ H) Iall). rewrite Q, (eqb_ne n NE), String.eqb_refl.
        exists s. split; [reflexivity|]. rewrite <- Q. destruct s; reflexivity. }
    destruct O as (s1 & O & ->). cbn [feed]. rewrite O. cbn [obind]. unfold addValueToRanges. cbn [fst snd set_rangeName r_rows]. rewrite A2, (Er eq_refl). fold (row_ent r).
    destruct (co_rng all CO n r v Iall) as (t & Ht & NT).
    destruct (row_cases t r Ht) as [[-> Re]|[_ [k Re]]]; [congruence|]; rewrite Re.
    destruct t; try congruence; (eexists; split; [reflexivity|]; split; [|split; reflexivity]; cbn [set_rangeName r_full r_rows r_nRows r_obj r_cols r_C r_a r_b r_r r_x r_G r_cst r_rhsName r_rangeName];
    fin Re Re; apply setP_last).
  - (* bound *)
    pose proof (Ec eq_refl eq_refl) as Ev. cbn [feed]. unfold addBound. rewrite A5, (Ec eq_refl eq_refl). fold (col_ent c). destruct (col_decl c (co_bnd all CO _ _ _ Iall)) as [j Hj]. rewrite Hj.
    eexists; split; [reflexivity|]; split; [|split; reflexivity]. fin Hj Hj.
  - (* quadratic *)
    pose proof (Ec eq_refl eq_refl) as Ev. cbn [feed]. rewrite A5, (Ec eq_refl eq_refl). fold (col_ent c). destruct (co_quad all CO _ _ _ Iall) as [Q1 Q2].
    destruct (col_decl c Q1) as [j Hj]. destruct (col_decl r Q2) as [k Hk]. rewrite Hj.
    unfold addQuad. cbn [fst snd]. rewrite A5, (Ec eq_refl eq_refl). fold (col_ent r). rewrite Hk.
    eexists; split; [reflexivity|]; split; [|split; reflexivity]. fin Hk Hj.
Qed.
Lemma feed_list full its : forall done rest s, all = done ++ its ++ rest -> Inv full done s ->
  exists s', ofold feed s its = Val s' /\ Inv full (done ++ its) s' /\ same_ctx s s'.
Proof.
  induction its as [|i its IH]; intros done rest s E H; [exists s; rewrite app_nil_r; split; [reflexivity|split; [exact H|split; reflexivity]]|].
  destruct (feed_step full done i (its ++ rest) s E H) as (s1 & E1 & H1 & C1 & C1').
  destruct (IH (done ++ [i]) rest s1) as (s2 & E2 & H2 & C2 & C2'); [rewrite <- app_assoc; exact E|exact H1|].
  exists s2. cbn [ofold]. rewrite E1. cbn [obind]. rewrite <- app_assoc in H2. cbn [app] in H2. split; [exact E2|split; [exact H2|split; congruence]].
Qed.

Section Lines.
Variable rdnum : string -> option (R * string).
Variable num : string -> option R.
Hypothesis rdnum_ok : forall tok v rest, num tok = Some v -> bdry rest -> rdnum (append tok rest) = Some (v, rest).
Lemma lines_inv full sc ls its e : renders num sc ls its e -> forall done rest s, all = done ++ its ++ rest -> r_sect s = sc -> Inv full done s ->
  exists s', doLines rdnum s ls = Val s' /\ Inv full (done ++ its) s' /\ r_line s' = (r_line s + List.length ls)%nat /\ r_sect s' = e.
Proof.
  induction 1 as [sc|sc l ls its e K R0 IH|sc l t w ws ls its e NS T KW NM R0 IH|sc l i1 ls i2 e SP D R0 IH]; intros done rest s E Es H.
  - exists s. rewrite app_nil_r. split; [reflexivity|split; [exact H|split; [cbn; lia|exact Es]]].
  - assert (LT : lineType l = LEMPTY \/ lineType l = LOTHER) by (destruct K as [->|K]; [left; reflexivity|right; now apply lt_star]).
    destruct (IH done rest (next_line s) E Es) as (s' & E' & H' & L' & S'); [eapply inv_data; [exact H|reflexivity..]|].
    exists s'. cbn [doLines]. unfold doLine. cbn [r_line next_line List.length] in *. destruct LT as [-> | ->]; cbn [obind]; (split; [exact E'|split; [exact H'|split; [lia|exact S']]]).
  - pose proof (lt_head l t w ws NS T KW) as LT.
    assert (P : t = LNAME -> exists n, parseName l = Val n).
    { intros Ht. specialize (NM Ht). unfold parseName. destruct (get_word_some _ _ _ T) as (r1 & -> & T1 & _). destruct ws as [|w1 ws]; [congruence|].
      destruct (get_word_some _ _ _ T1) as (r2 & -> & _). eauto. }
    assert (S1 : exists s1, doLine rdnum s l = Val s1 /\ Inv full done s1 /\ r_sect s1 = t /\ r_line s1 = S (r_line s)).
    { unfold doLine. rewrite LT.
      destruct t; try discriminate KW; try (eexists; split; [reflexivity|]; split; [eapply inv_data; [exact H|reflexivity..]|split; reflexivity]).
      destruct (P eq_refl) as [n ->]. cbn [obind]. eexists; split; [reflexivity|]; split; [eapply inv_data; [exact H|reflexivity..]|split; reflexivity]. }
    destruct S1 as (s1 & E1 & H1 & C1 & L1). destruct (IH done rest s1 E C1 H1) as (s' & E' & H' & L' & S').
    exists s'. cbn [doLines List.length]. rewrite E1. cbn [obind]. split; [exact E'|split; [exact H'|split; [lia|exact S']]].
  - pose proof (lt_data l SP) as LT. cbn [doLines]. unfold doLine. rewrite LT.
    assert (D' : data_line num (r_sect (next_line s)) l i1) by (cbn; rewrite Es; exact D).
    rewrite (process_feed rdnum num rdnum_ok (next_line s) l i1 D').
    destruct (feed_list full i1 done (i2 ++ rest) (next_line s)) as (s1 & E1 & H1 & C1 & C1'); [rewrite E, <- app_assoc; reflexivity|eapply inv_data; [exact H|reflexivity..]|].
    rewrite E1. cbn [obind]. destruct (IH (done ++ i1) rest s1) as (s' & E' & H' & L' & S'); [rewrite E, <- !app_assoc; reflexivity|rewrite C1; exact Es|exact H1|].
    exists s'. rewrite <- app_assoc in H'. cbn [List.length next_line r_line] in *. split; [exact E'|split; [exact H'|split; [lia|exact S']]].
Qed.
End Lines.

(** ** Populating *)
Lemma in_entC i j v : In (i, j, v) (flat_map entC all) <-> exists t r c, In (ICol c r v) all /\ nth_error (cstrs all) i = Some (t, r) /\ pos c (vars all) j.
Proof.
  rewrite in_flat_map. split.
  - intros (x & Hx & K). destruct x as [| c r w| | | |]; cbn in K; try contradiction. destruct (row_ent r) as [[[k|] t]|] eqn:Er; try contradiction.
    destruct (col_ent c) as [j'|] eqn:Ec; try contradiction. destruct K as [K|[]]. injection K as -> -> ->. exists t, r, c. split; [exact Hx|]. split; [now apply row_idx|now apply col_idx].
  - intros (t & r & c & H & H1 & H2). exists (ICol c r v). split; [exact H|]. cbn. apply row_idx in H1. apply col_idx in H2. rewrite H1, H2. now left.
Qed.
Lemma in_entA j v : In (j, v) (flat_map entA all) <-> exists r c, In (ICol c r v) all /\ In (IRow RN r) all /\ pos c (vars all) j.
Proof.
  rewrite in_flat_map. split.
  - intros (x & Hx & K). destruct x as [| c r w| | | |]; cbn in K; try contradiction. destruct (row_ent r) as [[[k|] t]|] eqn:Er; try contradiction.
    destruct (col_ent c) as [j'|] eqn:Ec; try contradiction. destruct K as [K|[]]. injection K as -> ->. apply row_N in Er. exists r, c. split; [exact Hx|]. split; [tauto|now apply col_idx].
  - intros (r & c & H & H1 & H2). exists (ICol c r v). split; [exact H|]. cbn. apply col_idx in H2. rewrite H2, (proj2 (row_N r RN) (conj eq_refl H1)). now left.
Qed.
Lemma in_entB i v t : In (i, v, t) (flat_map entB all) <-> exists n r, In (IRhs n r v) all /\ nth_error (cstrs all) i = Some (t, r).
Proof.
  rewrite in_flat_map. split.
  - intros (x & Hx & K). destruct x as [| |n r w| | |]; cbn in K; try contradiction. destruct (row_ent r) as [[[k|] t']|] eqn:Er; try contradiction.
    destruct K as [K|[]]. injection K as -> -> ->. exists n, r. split; [exact Hx|now apply row_idx].
  - intros (n & r & H & H1). exists (IRhs n r v). split; [exact H|]. cbn. apply row_idx in H1. rewrite H1. now left.
Qed.
Lemma in_entR i v t : In (i, v, t) (flat_map entR all) <-> exists n r, In (IRng n r v) all /\ nth_error (cstrs all) i = Some (t, r).
Proof.
  rewrite in_flat_map. split.
  - intros (x & Hx & K). destruct x as [| | |n r w| |]; cbn in K; try contradiction. destruct (row_ent r) as [[[k|] t']|] eqn:Er; try contradiction.
    destruct K as [K|[]]. injection K as -> -> ->. exists n, r. split; [exact Hx|now apply row_idx].
  - intros (n & r & H & H1). exists (IRng n r v). split; [exact H|]. cbn. apply row_idx in H1. rewrite H1. now left.
Qed.
Lemma in_entX j v t : In (j, v, t) (flat_map entX all) <-> exists c, In (IBnd t c v) all /\ pos c (vars all) j.
Proof.
  rewrite in_flat_map. split.
  - intros (x & Hx & K). destruct x as [| | | |t' c w|]; cbn in K; try contradiction. destruct (col_ent c) as [j'|] eqn:Ec; try contradiction.
    destruct K as [K|[]]. injection K as -> -> ->. exists c. split; [exact Hx|now apply col_idx].
  - intros (c & H & H1). exists (IBnd t c v). split; [exact H|]. cbn. apply col_idx in H1. rewrite H1. now left.
Qed.
Lemma in_entG i j v : In (i, j, v) (flat_map entG all) <-> exists c r, In (IQuad c r v) all /\ pos c (vars all) j /\ pos r (vars all) i.
Proof.
  rewrite in_flat_map. split.
  - intros (x & Hx & K). destruct x as [| | | | |c r w]; cbn in K; try contradiction. destruct (col_ent r) as [i'|] eqn:Er; try contradiction.
    destruct (col_ent c) as [j'|] eqn:Ec; try contradiction. destruct K as [K|[]]. injection K as -> -> ->. exists c, r. split; [exact Hx|]. split; now apply col_idx.
  - intros (c & r & H & H1 & H2). exists (IQuad c r v). split; [exact H|]. cbn. apply col_idx in H1, H2. rewrite H1, H2. now left.
Qed.
Lemma pos_lt {X} (l : list X) i x : nth_error l i = Some x -> (i < List.length l)%nat.
Proof. intros H. apply nth_error_Some. congruence. Qed.
Lemma pos_lt' l i c : pos c l i -> (i < List.length l)%nat.
Proof. apply pos_lt. Qed.
Lemma cstrs_inj i t r t' : nth_error (cstrs all) i = Some (t, r) -> forall i', nth_error (cstrs all) i' = Some (t', r) -> i' = i /\ t' = t.
Proof. intros H i' H'. apply row_idx in H, H'. rewrite H in H'. injection H' as -> ->. auto. Qed.
Lemma entR_nodup its : NoDup (flat_map (fun i => match i with IRng _ r _ => [r] | _ => [] end) its) ->
  NoDup (map (fun e : nat * R * rowt => fst (fst e)) (flat_map entR its)).
Proof.
  induction its as [|i its IH]; cbn [flat_map]; intros H; [constructor|]. rewrite map_app. destruct i as [| | |n r v| |]; cbn [entR map app] in *; try (now apply IH).
  inversion H as [|? ? NI ND]; subst. destruct (row_ent r) as [[[k|] t]|] eqn:Er; cbn [map app fst]; try (now apply IH).
  constructor; [|now apply IH]. intros K. apply in_map_iff in K as ([[k' v'] t'] & Q1 & Q2). cbn [fst] in Q1. subst k'. apply NI. apply in_flat_map in Q2 as (x & Hx & Q).
  apply in_flat_map. exists x. split; [exact Hx|]. destruct x as [| | |n' r' v''| |]; cbn in Q; try contradiction. destruct (row_ent r') as [[[k'|] t'']|] eqn:Er'; try contradiction.
  destruct Q as [Q|[]]. injection Q as -> -> ->. apply row_idx in Er, Er'. rewrite Er in Er'. injection Er' as _ ->. now left.
Qed.
Lemma bounds_fold c j : pos c (vars all) j -> forall its, (forall i, In i its -> In i all) -> forall b,
  fold_left (fun p (e : nat * R * bndt) => if (fst (fst e) =? j)%nat then one_bound (snd e) (snd (fst e)) p else p) (flat_map entX its) b =
  fold_left (fun b i => match i with IBnd t c' v => if string_dec c' c then one_bound t v b else b | _ => b end) its b.
Proof.
  intros P. induction its as [|i its IH]; intros H b; [reflexivity|]. cbn [flat_map fold_left]. rewrite fold_left_app, IH by (intros y Hy; apply H; now right).
  f_equal. destruct i as [| | | |t c' v|]; try reflexivity. cbn [entX]. destruct (col_decl c' (co_bnd all CO t c' v (H _ (or_introl eq_refl)))) as [j' Hj']. rewrite Hj'.
  cbn [fold_left fst snd]. apply col_idx in Hj'. destruct (string_dec c' c) as [->|N].
  - assert (j' = j); [|subst; now rewrite Nat.eqb_refl]. apply col_idx in Hj', P. congruence.
  - destruct ((j' =? j)%nat) eqn:E; [|reflexivity]. apply Nat.eqb_eq in E. subst. exfalso. apply N. exact (pos_inj _ _ _ Hj' P).
Qed.
Lemma finite_spec n b : finite_in n b = true <-> exists i, (i < n)%nat /\ b i <> None.
Proof.
  unfold finite_in. rewrite existsb_exists. split; intros (i & H1 & H2); exists i.
  - apply in_seq in H1. split; [lia|]. destruct (b i); discriminate.
  - split; [apply in_seq; lia|]. destruct (b i); congruence.
Qed.

Lemma populate_ok full ord s : (forall l, Permutation (ord l) l) -> Inv full all s -> exists q p, populate ord s = Val (q, p) /\ denotes full all q p.
Proof.
  intros OR [A1 A2 A3 A4 A5 A6 A7 A8 A9 A10 A11 A12 A13 A14].
  set (n := List.length (vars all)). set (m := List.length (cstrs all)).
  assert (Ln : List.length (r_cols s) = n) by (rewrite A5; apply colsT_len).
  unfold populate. rewrite Ln, A3. fold m.
  (* G *)
  destruct (put2_fold n n (r_G s) (fun _ _ => 0)) as (G & EG & QG).
  { intros [[i j] v] Ht. rewrite A11, in_entG in Ht. destruct Ht as (c & r & _ & H1 & H2). cbn. split; eapply pos_lt'; eassumption. }
  destruct (put1_fold n (r_a s) (fun _ => 0)) as (a & Ea & Qa).
  { intros [j v] Ht. rewrite A7, in_entA in Ht. destruct Ht as (r & c & _ & _ & H2). cbn. eapply pos_lt'; eassumption. }
  destruct (put2_fold m n (r_C s) (fun _ _ => 0)) as (C & EC & QC).
  { intros [[i j] v] Ht. rewrite A6, in_entC in Ht. destruct Ht as (t & r & c & _ & H1 & H2). cbn. split; [eapply pos_lt|eapply pos_lt']; eassumption. }
  (* bounds *)
  assert (RI : forall x, In x (ord (r_rows s)) -> exists t r, In (IRow t r) all /\ x = (r, (fst (snd x), t)) /\ (t = RN <-> fst (snd x) = None) /\ row_ent r = Some (snd x)).
  { intros x Hx. apply (Permutation_in _ (OR _)) in Hx. rewrite A2 in Hx. destruct (tabR_in _ _ _ Hx) as (t & r & H1 & H2 & H3). exists t, r.
    split; [now apply in_rows|]. split; [exact H2|]. split; [exact H3|]. unfold row_ent. apply in_assoc; [rewrite tabR_names; apply (co_rows all CO)|].
    rewrite H2 in Hx. rewrite H2. exact Hx. }
  destruct (wfold m (row_init m) key_row (ord (r_rows s)) (fun _ => Some 0, fun _ => Some 0)) as (b1 & Eb1 & Qb1).
  { intros b x Hx. apply row_init_w. destruct (RI x Hx) as (t & r & _ & Q2 & Q3 & _). rewrite Q2. exact Q3. }
  { intros x i p Hx K. destruct (RI x Hx) as (t & r & _ & _ & _ & Q). destruct x as [r' [[i'|] t']]; cbn in K; [|discriminate K]. injection K as -> <-. cbn [snd] in Q.
    apply row_idx in Q. eapply pos_lt; eassumption. }
  assert (B1 : forall i t r, nth_error (cstrs all) i = Some (t, r) -> (fst b1 i, snd b1 i) = interval t 0).
  { intros i t r H. destruct (Qb1 i) as [Q _]. apply (Q (r, (Some i, t))); [|reflexivity|].
    - apply (Permutation_in _ (Permutation_sym (OR _))). rewrite A2. apply row_idx in H. apply assoc_in. exact H.
    - intros x p Hx K. destruct (RI x Hx) as (t' & r' & _ & _ & _ & K'). destruct x as [r'' [[i'|] t'']]; cbn in K; [|discriminate K]. injection K as -> <-. cbn [snd] in K'.
      apply row_idx in K'. congruence. }
  destruct (wfold m (rhs_fill m) key_rhs (r_b s) b1) as (b2 & Eb2 & Qb2).
  { intros b [[i v] t] Hx. apply rhs_fill_w. cbn. rewrite A8, in_entB in Hx. destruct Hx as (n0 & r & _ & H). apply row_idx in H. exact (row_idx_t _ _ _ H). }
  { intros [[i v] t] i' p Hx K. cbn in K. injection K as -> _. rewrite A8, in_entB in Hx. destruct Hx as (n0 & r & _ & H). eapply pos_lt; eassumption. }
  assert (B2 : forall i t r b, nth_error (cstrs all) i = Some (t, r) -> rhs_is all r b -> (fst b2 i, snd b2 i) = interval t b).
  { intros i t r b H [[n0 K]|[-> K]]; destruct (Qb2 i) as [Q1 Q2].
    - apply (Q1 (i, b, t)); [rewrite A8; apply in_entB; eauto|reflexivity|]. intros [[i' v'] t'] p Hx Kx. cbn in Kx. injection Kx as -> <-.
      rewrite A8, in_entB in Hx. destruct Hx as (n1 & r1 & Hx & H1). rewrite H in H1. injection H1 as <- <-. rewrite (co_rhsu all CO _ _ _ _ _ Hx K). reflexivity.
    - rewrite Q2; [exact (B1 _ _ _ H)|]. intros [[i' v'] t'] p Hx Kx. cbn in Kx. injection Kx as -> <-. rewrite A8, in_entB in Hx. destruct Hx as (n1 & r1 & Hx & H1).
      rewrite H in H1. injection H1 as <- <-. exact (K _ _ Hx). }
  assert (RB : forall r, {b | rhs_is all r b}).
  { intros r. set (f := fun i => match i with IRhs _ r' _ => if string_dec r' r then true else false | _ => false end).
    destruct (find f all) as [x|] eqn:F.
    - apply find_some in F as [F1 F2]. destruct x as [| |n0 r' v| | |]; cbn in F2; try discriminate F2. destruct (string_dec r' r) as [->|]; [|discriminate F2].
      exists v. left. eauto.
    - exists 0. right. split; [reflexivity|]. intros n0 v K. pose proof (find_none f all F _ K) as Q. cbn in Q. destruct (string_dec r r); congruence. }
  set (beta := fun i => match nth_error (cstrs all) i with Some (_, r) => proj1_sig (RB r) | None => 0 end).
  destruct (range_fold m beta (r_r s) b2) as (b3 & Eb3 & Qb3).
  { rewrite A9. apply entR_nodup. exact (co_rngu all CO). }
  { intros i v t Hx. rewrite A9, in_entR in Hx. destruct Hx as (n0 & r & _ & H). split; [eapply pos_lt; eassumption|]. split; [apply row_idx in H; exact (row_idx_t _ _ _ H)|].
    apply (B2 i t r); [exact H|]. unfold beta. rewrite H. exact (proj2_sig (RB r)). }
  destruct (bnd_fold n (r_x s) (fun _ => Some 0, fun _ => None)) as (x & Ex & Qx).
  { intros [[j v] t] Ht. rewrite A10, in_entX in Ht. destruct Ht as (c & _ & H2). cbn. eapply pos_lt'; eassumption. }
  rewrite EG. cbn [obind]. rewrite Ea. cbn [obind]. rewrite EC. cbn [obind]. rewrite Eb1. cbn [obind]. rewrite Eb2. cbn [obind]. rewrite Eb3. cbn [obind]. rewrite Ex. cbn [obind].
  eexists _, _. split; [reflexivity|].
  assert (BX : forall j c, pos c (vars all) j -> (fst x j, snd x j) = bounds_of all c).
  { intros j c P. rewrite Qx, A10. cbn [fst snd]. exact (bounds_fold c j P all (fun _ H => H) _). }
  constructor; cbn [qpG qpa qpF qpcst mr mc ma vn va fC fl fu fxl fxu ft bn ba pp_nbVar pp_nbCstr pp_nbEq pp_useBounds pp_hasFixed]; try (repeat split; reflexivity).
  - (* C *)
    intros i j t r c H P. destruct (QC i j) as [Q1 Q2]. rewrite A6 in Q1, Q2. split.
    + intros v Hv. apply Q1; [apply in_entC; eauto 6|]. intros v' Hv'. apply in_entC in Hv' as (t' & r' & c' & K1 & K2 & K3). rewrite H in K2. injection K2 as <- <-.
      rewrite (pos_inj _ _ _ K3 P) in K1. exact (co_colu all CO _ _ _ _ K1 Hv).
    + intros N. apply Q2. intros v Hv. apply in_entC in Hv as (t' & r' & c' & K1 & K2 & K3). rewrite H in K2. injection K2 as <- <-.
      rewrite (pos_inj _ _ _ K3 P) in K1. exact (N _ K1).
  - (* a *)
    intros j c P. destruct (Qa j) as [Q1 Q2]. rewrite A7 in Q1, Q2. split.
    + intros r v Hr Hv. apply Q1; [apply in_entA; eauto 6|]. intros v' Hv'. apply in_entA in Hv' as (r' & c' & K1 & K2 & K3).
      rewrite (pos_inj _ _ _ K3 P), (co_N all CO _ _ K2 Hr) in K1. exact (co_colu all CO _ _ _ _ K1 Hv).
    + intros N. apply Q2. intros v Hv. apply in_entA in Hv as (r' & c' & K1 & K2 & K3). rewrite (pos_inj _ _ _ K3 P) in K1. exact (N _ _ K2 K1).
  - (* l, u *)
    intros i t r b H Hb. destruct (Qb3 i) as [Q1 Q2]. rewrite A9 in Q1, Q2. pose proof (B2 _ _ _ _ H Hb) as K. split.
    + intros N. rewrite Q2; [exact K|]. intros v t' Hv. apply in_entR in Hv as (n0 & r' & K1 & K2). rewrite H in K2. injection K2 as <- <-. exact (N _ _ K1).
    + intros n0 v Hv. rewrite (Q1 v t) by (apply in_entR; eauto). assert (Eb : beta i = b); [|now rewrite Eb].
      unfold beta. rewrite H. destruct (RB r) as [b' Hb']. cbn [proj1_sig].
      destruct Hb as [[n1 Hb]|[-> Hb]], Hb' as [[n2 Hb']|[-> Hb']]; auto; [exact (co_rhsu all CO _ _ _ _ _ Hb' Hb)|exfalso; exact (Hb' _ _ Hb)|exfalso; exact (Hb _ _ Hb')].
  - exact BX.
  - (* G *)
    intros i j c r P1 P2. rewrite A1. destruct full; cbn [andb]; [destruct ((i <? j)%nat) eqn:L|].
    + apply Nat.ltb_lt in L. assert (L' : (j <? i)%nat = false) by (apply Nat.ltb_ge; lia). rewrite L'. reflexivity.
    + destruct (QG i j) as [Q1 Q2]. rewrite A11 in Q1, Q2. split.
      * intros v Hv. apply Q1; [apply in_entG; eauto|]. intros v' Hv'. apply in_entG in Hv' as (c' & r' & K1 & K2 & K3).
        rewrite (pos_inj _ _ _ K2 P1), (pos_inj _ _ _ K3 P2) in K1. exact (co_quadu all CO _ _ _ _ K1 Hv).
      * intros N. apply Q2. intros v Hv. apply in_entG in Hv as (c' & r' & K1 & K2 & K3). rewrite (pos_inj _ _ _ K2 P1), (pos_inj _ _ _ K3 P2) in K1. exact (N _ K1).
    + destruct (QG i j) as [Q1 Q2]. rewrite A11 in Q1, Q2. split.
      * intros v Hv. apply Q1; [apply in_entG; eauto|]. intros v' Hv'. apply in_entG in Hv' as (c' & r' & K1 & K2 & K3).
        rewrite (pos_inj _ _ _ K2 P1), (pos_inj _ _ _ K3 P2) in K1. exact (co_quadu all CO _ _ _ _ K1 Hv).
      * intros N. apply Q2. intros v Hv. apply in_entG in Hv as (c' & r' & K1 & K2 & K3). rewrite (pos_inj _ _ _ K2 P1), (pos_inj _ _ _ K3 P2) in K1. exact (N _ K1).
  - (* constant *)
    destruct A12 as [[Z N]|(n0 & r0 & v0 & K1 & K2 & K3)]; split.
    + intros n0 r v Hr Hv. exfalso. exact (N _ _ _ Hr Hv).
    + intros _. exact Z.
    + intros n1 r v Hr Hv. rewrite K3. f_equal. rewrite (co_N all CO _ _ K1 Hr) in K2. exact (co_rhsu all CO _ _ _ _ _ K2 Hv).
    + intros N. exfalso. exact (N _ _ _ K1 K2).
  - (* properties *)
    split; [reflexivity|]. split; [reflexivity|]. split; [rewrite A2; apply tabR_RE|]. split.
    + rewrite orb_true_iff, !finite_spec. split.
      * intros K. assert (E : exists j, (j < n)%nat /\ (fst x j, snd x j) <> (None, None)).
        { destruct K as [(j & H1 & H2)|(j & H1 & H2)]; exists j; (split; [exact H1|]); congruence. }
        destruct E as (j & H1 & H2). destruct (nth_error (vars all) j) as [c|] eqn:P; [|apply nth_error_None in P; unfold n in H1; lia].
        exists c. split; [eapply nth_error_In; eassumption|]. rewrite <- (BX j c P). exact H2.
      * intros (c & H1 & H2). apply In_nth_error in H1 as [j P]. rewrite <- (BX j c P) in H2. destruct (fst x j) eqn:F.
        -- left. exists j. split; [eapply pos_lt; eassumption|congruence].
        -- right. exists j. split; [eapply pos_lt; eassumption|]. congruence.
    + rewrite existsb_exists. split.
      * intros ([[j v] t] & H1 & H2). rewrite A10, in_entX in H1. destruct H1 as (c & H1 & _). destruct t; try discriminate H2. eauto.
      * intros (c & v & H). destruct (col_decl c (co_bnd all CO _ _ _ H)) as [j Hj]. apply col_idx in Hj. exists (j, v, BFX). split; [rewrite A10; apply in_entX; eauto|reflexivity].
Qed.
End All.

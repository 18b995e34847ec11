(** The only undefined behaviour of the reader: a line made only of blanks in a section of values, after the tenth line. *)
From Coq Require Import List Arith ZArith Lia Bool Ascii String Reals Lra Permutation.
From Verif Require Import Base Num LinAlg TestPb Qps QpsSpec QpsText QpsProofs QpsRead.
Import ListNotations.
Local Open Scope R_scope.

Definition value_section (t : lt) : bool := match t with LCOLUMNS | LRHS | LRANGES | LQUADOBJ => true | _ => false end.
Lemma ofold_inv {A X} (P : A -> Prop) (f : A -> X -> outc A) L : forall a, P a ->
  (forall a x, In x L -> P a -> exists a', f a x = Val a' /\ P a') -> exists a', ofold f a L = Val a' /\ P a'.
Proof.
  induction L as [|x L IH]; intros a Pa H; [exists a; auto|]. destruct (H a x (or_introl eq_refl) Pa) as (a1 & E1 & P1). cbn [ofold]. rewrite E1. cbn [obind].
  apply IH; [exact P1|]. intros b y Hy Pb. apply H; [now right|exact Pb].
Qed.

Record J (s : rd) : Prop := MkJ {
  j_rows : forall nm i t, In (nm, (Some i, t)) (r_rows s) -> (i < r_nRows s)%nat /\ t <> RN;
  j_none : forall nm t, In (nm, (None, t)) (r_rows s) -> t = RN;
  j_uniq : forall n1 n2 i t1 t2, In (n1, (Some i, t1)) (r_rows s) -> In (n2, (Some i, t2)) (r_rows s) -> t1 = t2;
  j_cols : forall c j, In (c, j) (r_cols s) -> (j < List.length (r_cols s))%nat;
  j_C : forall i j v, In (i, j, v) (r_C s) -> (i < r_nRows s /\ j < List.length (r_cols s))%nat;
  j_G : forall i j v, In (i, j, v) (r_G s) -> (i < List.length (r_cols s) /\ j < List.length (r_cols s))%nat;
  j_a : forall j v, In (j, v) (r_a s) -> (j < List.length (r_cols s))%nat;
  j_x : forall j v t, In (j, v, t) (r_x s) -> (j < List.length (r_cols s))%nat;
  j_b : forall i v t, In (i, v, t) (r_b s) -> exists nm, In (nm, (Some i, t)) (r_rows s);
  j_r : forall i v t, In (i, v, t) (r_r s) -> exists nm, In (nm, (Some i, t)) (r_rows s) }.
Lemma J_new full : J (rd_new full). Proof. constructor; cbn; intros; contradiction. Qed.
Lemma J_data s s' : J s -> r_rows s' = r_rows s -> r_cols s' = r_cols s -> r_C s' = r_C s -> r_G s' = r_G s -> r_a s' = r_a s -> r_b s' = r_b s ->
  r_r s' = r_r s -> r_x s' = r_x s -> r_nRows s' = r_nRows s -> J s'.
Proof. intros [] E1 E2 E3 E4 E5 E6 E7 E8 E9. constructor; rewrite ?E1, ?E2, ?E3, ?E4, ?E5, ?E6, ?E7, ?E8, ?E9; auto. Qed.

(** results that are defined and keep the invariant and the position *)
Definition good (s : rd) (o : outc rd) : Prop := match o with Val s' => J s' /\ r_line s' = r_line s /\ r_sect s' = r_sect s | Exc => True | Und => False end.
Ltac snoc H := apply in_app_or in H as [H|[H|[]]].
Lemma row_J s t r : J s -> good s (row_add s t r).
Proof.
  intros HJ. unfold row_add. destruct (assoc r (r_rows s)); [exact I|].
  assert (T : t <> RN -> good s (Val (RD (r_full s) (r_name s) (r_line s) (r_sect s) (r_rows s ++ [(r, (Some (r_nRows s), t))]) (r_cols s) (r_rhsName s) (r_rangeName s)
                     (r_C s) (r_G s) (r_a s) (r_b s) (r_r s) (r_x s) (r_cst s) (S (r_nRows s)) (r_obj s)))).
  { intros N. destruct HJ as [K1 K2 K3 K4 K5 K6 K7 K8 K9 K10]. split; [|split; reflexivity]. constructor; cbn; auto.
    - intros nm i t' H. snoc H; [destruct (K1 _ _ _ H); split; [lia|auto]|injection H as <- <- <-; split; [lia|auto]].
    - intros nm t' H. snoc H; [eauto|discriminate H].
    - intros n1 n2 i t1 t2 H1 H2. snoc H1; snoc H2; [eauto| | |congruence].
      + injection H2 as <- <- <-. apply K1 in H1. lia.
      + injection H1 as <- <- <-. apply K1 in H2. lia.
    - intros i j v H. apply K5 in H. lia.
    - intros i v t' H. destruct (K9 _ _ _ H) as [nm Hn]. exists nm. apply in_or_app. now left.
    - intros i v t' H. destruct (K10 _ _ _ H) as [nm Hn]. exists nm. apply in_or_app. now left. }
  destruct t; try (apply T; discriminate). destruct (r_obj s); [exact I|].
  destruct HJ as [K1 K2 K3 K4 K5 K6 K7 K8 K9 K10]. split; [|split; reflexivity]. constructor; cbn; auto.
  - intros nm i t' H. snoc H; [eauto|discriminate H].
  - intros nm t' H. snoc H; [eauto|]. now injection H as <- <-.
  - intros n1 n2 i t1 t2 H1 H2. snoc H1; snoc H2; try discriminate; eauto.
  - intros i v t' H. destruct (K9 _ _ _ H) as [nm Hn]. exists nm. apply in_or_app. now left.
  - intros i v t' H. destruct (K10 _ _ _ H) as [nm Hn]. exists nm. apply in_or_app. now left.
Qed.
Lemma col_J s c : J s -> good s (Val (snd (with_col s c))) /\ (fst (with_col s c) < List.length (r_cols (snd (with_col s c))))%nat.
Proof.
  intros HJ. unfold with_col. destruct (assoc c (r_cols s)) as [j|] eqn:E; cbn [fst snd].
  - split; [split; [exact HJ|split; reflexivity]|]. apply assoc_in in E. exact (j_cols s HJ _ _ E).
  - cbn [r_cols]. rewrite app_length. cbn [List.length]. split; [|lia]. split; [|split; reflexivity].
    destruct HJ as [K1 K2 K3 K4 K5 K6 K7 K8 K9 K10]. constructor; cbn; rewrite ?app_length; cbn; auto.
    + intros c' j H. snoc H; [apply K4 in H; lia|injection H as <- <-; lia].
    + intros i j v H. apply K5 in H. lia.
    + intros i j v H. apply K6 in H. lia.
    + intros j v H. apply K7 in H. lia.
    + intros j v t H. apply K8 in H. lia.
Qed.
Lemma addC_J s j x : J s -> (j < List.length (r_cols s))%nat -> good s (addValueToColumn s j x).
Proof.
  intros HJ Hj. unfold addValueToColumn. destruct (assoc (fst x) (r_rows s)) as [[[i|] t]|] eqn:E; [| |exact I]; apply assoc_in in E.
  - destruct (j_rows s HJ _ _ _ E) as [Hi NT]. destruct HJ as [K1 K2 K3 K4 K5 K6 K7 K8 K9 K10].
    destruct t; try congruence; (split; [|split; reflexivity]); constructor; cbn; auto; intros i' j' v H; (snoc H; [eauto|injection H as <- <- <-; auto]).
  - pose proof (j_none s HJ _ _ E) as ->. destruct HJ as [K1 K2 K3 K4 K5 K6 K7 K8 K9 K10]. split; [|split; reflexivity]. constructor; cbn; auto.
    intros j' v H; (snoc H; [eauto|injection H as <- <-; auto]).
Qed.
Lemma addR_J s x : J s -> good s (addValueToRHS s x).
Proof.
  intros HJ. unfold addValueToRHS. destruct (assoc (fst x) (r_rows s)) as [[[i|] t]|] eqn:E; [| |exact I]; apply assoc_in in E.
  - destruct (j_rows s HJ _ _ _ E) as [Hi NT]. destruct HJ as [K1 K2 K3 K4 K5 K6 K7 K8 K9 K10].
    destruct t; try congruence; (split; [|split; reflexivity]); constructor; cbn; auto; intros i' v t' H; (snoc H; [eauto|injection H as <- <- <-; eauto]).
  - pose proof (j_none s HJ _ _ E) as ->. split; [|split; reflexivity]. eapply J_data; [exact HJ|reflexivity..].
Qed.
Lemma addG_J s x : J s -> good s (addValueToRanges s x).
Proof.
  intros HJ. unfold addValueToRanges. destruct (assoc (fst x) (r_rows s)) as [[[i|] t]|] eqn:E; [| |exact I]; apply assoc_in in E.
  - destruct (j_rows s HJ _ _ _ E) as [Hi NT]. destruct HJ as [K1 K2 K3 K4 K5 K6 K7 K8 K9 K10].
    destruct t; try congruence; (split; [|split; reflexivity]); constructor; cbn; auto; intros i' v t' H; (snoc H; [eauto|injection H as <- <- <-; eauto]).
  - pose proof (j_none s HJ _ _ E) as ->. exact I.
Qed.
Lemma addB_J s c v t : J s -> good s (addBound s c v t).
Proof.
  intros HJ. unfold addBound. destruct (assoc c (r_cols s)) as [j|] eqn:E; [|exact I]. apply assoc_in in E. apply (j_cols s HJ) in E.
  destruct HJ as [K1 K2 K3 K4 K5 K6 K7 K8 K9 K10]. split; [|split; reflexivity]. constructor; cbn; auto.
  intros j' v' t' H; (snoc H; [eauto|injection H as <- <- <-; auto]).
Qed.
Lemma addQ_J s j x : J s -> (j < List.length (r_cols s))%nat -> good s (addQuad s j x).
Proof.
  intros HJ Hj. unfold addQuad. destruct (assoc (fst x) (r_cols s)) as [i|] eqn:E; [|exact I]. apply assoc_in in E. apply (j_cols s HJ) in E.
  destruct HJ as [K1 K2 K3 K4 K5 K6 K7 K8 K9 K10]. split; [|split; reflexivity]. constructor; cbn; auto.
  intros i' j' v' H; (snoc H; [eauto|injection H as <- <- <-; auto]).
Qed.
Lemma good_bind s o f : good s o -> (forall s', J s' -> r_line s' = r_line s -> r_sect s' = r_sect s -> o = Val s' -> good s (f s')) -> good s (obind o f).
Proof. intros H K. destruct o as [s'| |]; [|exact I|exact H]. destruct H as (H1 & H2 & H3). cbn. now apply K. Qed.
Lemma good_ctx s s' o : r_line s' = r_line s -> r_sect s' = r_sect s -> good s' o -> good s o.
Proof. destruct o; cbn; auto. intros -> ->. auto. Qed.

Section Reader.
Variable rdnum : string -> option (R * string).
(** parsing a line: undefined only on a line without word after line 10 *)
Lemma pvl_und k l : parseValueLine rdnum k l = Und <-> (tokens l = [] /\ (11 <= k)%nat).
Proof.
  unfold parseValueLine. pose proof (get_word_inv l) as G. destruct (get_word l) as [[w r]|].
  - split; [|intros [H _]; destruct G; congruence]. unfold readNamedValue1, readNamedValue2.
    destruct (get_word r) as [[w2 r2]|]; [|discriminate]. destruct (get_num rdnum r2) as [[v r3]|]; [|discriminate]. cbn [obind].
    destruct (get_word r3) as [[w4 r4]|]; [|discriminate]. destruct r4 as [|a r4]; [discriminate|]. destruct (get_num rdnum (String a r4)) as [[? ?]|]; discriminate.
  - destruct (Nat.ltb_spec k 11); cbn; split; try discriminate; [intros [_ ?]; lia|auto..].
Qed.
Definition blank_data (l : string) : Prop := starts_with " " l /\ tokens l = [].
Lemma process_safe s l : J s -> match processLine rdnum s l with
  | Val s' => good s (Val s') | Exc => True | Und => value_section (r_sect s) = true /\ tokens l = [] /\ (11 <= r_line s)%nat end.
Proof.
  intros HJ.
  assert (PV : value_section (r_sect s) = true -> forall f : pvl -> outc rd, (forall p, good s (f p)) ->
     match obind (parseValueLine rdnum (r_line s) l) f with Val s' => good s (Val s') | Exc => True
     | Und => value_section (r_sect s) = true /\ tokens l = [] /\ (11 <= r_line s)%nat end).
  { intros VS f Hf. destruct (parseValueLine rdnum (r_line s) l) as [p| |] eqn:E; cbn [obind]; [|exact I|apply pvl_und in E; tauto].
    specialize (Hf p). destruct (f p); auto; contradiction. }
  assert (GG : forall o, good s o -> match o with Val s' => good s (Val s') | Exc => True | Und => value_section (r_sect s) = true /\ tokens l = [] /\ (11 <= r_line s)%nat end).
  { intros [x| |] H; auto; contradiction. }
  assert (OD : forall o s1 (f : rd -> string * R -> outc rd), J s1 -> (forall s2 v, J s2 -> r_cols s2 = r_cols s1 -> good s2 (f s2 v)) -> good s1 (opt_do o s1 f)).
  { intros [v|] s1 f H1 Hf; cbn; [apply Hf; auto|split; auto]. }
  unfold processLine. destruct (r_sect s) eqn:SC; try exact I; try (split; [exact HJ|split; reflexivity]).
  - (* rows *) apply GG. unfold readRow. unfold parseRow. destruct (get_char l) as [[c r]|]; [|exact I]. destruct (rowType c) as [t|]; [|exact I].
    destruct (get_word r) as [[w ?]|]; [|exact I]. exact (row_J s t w HJ).
  - (* columns *) apply (PV eq_refl). intros p. fold (with_col s (v_name p)). destruct (with_col s (v_name p)) as [c s1] eqn:W.
    destruct (col_J s (v_name p) HJ) as [G1 G2]. rewrite W in G1, G2. cbn [fst snd] in *. destruct G1 as (J1 & L1 & S1).
    apply good_bind. { eapply good_ctx; [exact L1|exact S1|]. now apply addC_J. }
    intros s2 J2 L2 S2 E2. assert (C2 : r_cols s2 = r_cols s1) by exact (addC_cols _ _ _ _ E2).
    destruct (v_2 p) as [v2|]; cbn [opt_do]; [|split; auto]. eapply good_ctx; [exact L2|exact S2|]. apply addC_J; [exact J2|now rewrite C2].
  - (* rhs *) apply (PV eq_refl). intros p. apply good_bind.
    { destruct (String.eqb (r_rhsName s) ""); [|destruct (String.eqb (r_rhsName s) (v_name p))]; try exact I; (split; [|split; reflexivity]); [eapply J_data; [exact HJ|reflexivity..]|exact HJ]. }
    intros s1 J1 L1 S1 _. apply good_bind; [eapply good_ctx; [exact L1|exact S1|]; now apply addR_J|]. intros s2 J2 L2 S2 _.
    destruct (v_2 p); cbn [opt_do]; [|split; auto]. eapply good_ctx; [exact L2|exact S2|]; now apply addR_J.
  - (* ranges *) apply (PV eq_refl). intros p. apply good_bind.
    { destruct (String.eqb (r_rangeName s) ""); [|destruct (String.eqb (r_rangeName s) (v_name p))]; try exact I; (split; [|split; reflexivity]); [eapply J_data; [exact HJ|reflexivity..]|exact HJ]. }
    intros s1 J1 L1 S1 _. apply good_bind; [eapply good_ctx; [exact L1|exact S1|]; now apply addG_J|]. intros s2 J2 L2 S2 _.
    destruct (v_2 p); cbn [opt_do]; [|split; auto]. eapply good_ctx; [exact L2|exact S2|]; now apply addG_J.
  - (* bounds *) apply GG. unfold readBounds. destruct (get_word l) as [[w r]|]; [|exact I]. destruct (bndType w) as [t|]; [|exact I].
    destruct (get_word r) as [[w2 r2]|]; [|exact I]. destruct t; try (unfold readNamedValue1; destruct (get_word r2) as [[w3 r3]|]; [|exact I]; destruct (get_num rdnum r3) as [[v ?]|]; [|exact I]; now apply addB_J).
    destruct (get_word r2) as [[w3 r3]|]; [now apply addB_J|exact I].
  - (* quadobj *) apply (PV eq_refl). intros p. destruct (assoc (v_name p) (r_cols s)) as [c|] eqn:E; [|exact I]. apply assoc_in in E. apply (j_cols s HJ) in E.
    apply good_bind; [now apply addQ_J|]. intros s2 J2 L2 S2 E2. assert (C2 : r_cols s2 = r_cols s) by exact (addQ_cols _ _ _ _ E2).
    destruct (v_2 p); cbn [opt_do]; [|split; auto]. eapply good_ctx; [exact L2|exact S2|]. apply addQ_J; [exact J2|now rewrite C2].
Qed.
Lemma line_safe s l : J s -> match doLine rdnum s l with
  | Val s' => J s' /\ r_line s' = S (r_line s) | Exc => True
  | Und => value_section (r_sect s) = true /\ blank_data l /\ (10 <= r_line s)%nat end.
Proof.
  intros HJ. unfold doLine. assert (HN : J (next_line s)) by (eapply J_data; [exact HJ|reflexivity..]).
  destruct (lineType l) eqn:LT; try (split; [eapply J_data; [exact HJ|reflexivity..]|reflexivity]).
  - pose proof (process_safe (next_line s) l HN) as P. destruct (processLine rdnum (next_line s) l) as [s'| |]; [|exact I|].
    + destruct P as (P1 & P2 & P3). split; [exact P1|]. rewrite P2. reflexivity.
    + destruct P as (P1 & P2 & P3). cbn in P1, P3. split; [exact P1|]. split; [|lia]. split; [|exact P2].
      destruct l as [|c l]; [discriminate LT|]. unfold lineType in LT. destruct (Ascii.eqb c " ") eqn:E; [apply Ascii.eqb_eq in E; subst; now exists l|].
      destruct (assoc _ section_names) as [t|] eqn:K; [|discriminate LT]. subst t. apply assoc_in in K. cbn in K. repeat (destruct K as [K|K]; [discriminate K|]). contradiction.
  - destruct (parseName l) as [n| |] eqn:Q; cbn [obind]; [split; [eapply J_data; [exact HJ|reflexivity..]|reflexivity]|exact I|].
    unfold parseName in Q. destruct (get_word l) as [[? r]|]; [destruct (get_word r) as [[? ?]|]|]; discriminate Q.
Qed.
Lemma lines_safe ls : forall s, J s -> match doLines rdnum s ls with
  | Val s' => J s' | Exc => True
  | Und => exists l1 l l2 s1, ls = l1 ++ l :: l2 /\ doLines rdnum s l1 = Val s1 /\ value_section (r_sect s1) = true /\ blank_data l /\ (10 <= r_line s + List.length l1)%nat end.
Proof.
  induction ls as [|l ls IH]; intros s HJ; [exact HJ|]. cbn [doLines]. pose proof (line_safe s l HJ) as L. destruct (doLine rdnum s l) as [s1| |] eqn:E1; cbn [obind]; [|exact I|].
  - destruct L as [J1 L1]. specialize (IH s1 J1). destruct (doLines rdnum s1 ls) as [s2| |]; auto.
    destruct IH as (l1 & x & l2 & s3 & -> & K1 & K2 & K3 & K4). exists (l :: l1), x, l2, s3. split; [reflexivity|]. cbn [doLines]. rewrite E1. cbn [obind].
    split; [exact K1|]. split; [exact K2|]. split; [exact K3|]. cbn. lia.
  - exists [], l, ls, s. destruct L as (L1 & L2 & L3). cbn. repeat split; auto; try apply L2. lia.
Qed.
Lemma lines_app l1 l2 s : doLines rdnum s (l1 ++ l2) = obind (doLines rdnum s l1) (fun s => doLines rdnum s l2).
Proof. revert s; induction l1 as [|l l1 IH]; intros s; cbn; [reflexivity|]. destruct (doLine rdnum s l); cbn; auto. Qed.
Lemma lines_count l1 : forall s s1, J s -> doLines rdnum s l1 = Val s1 -> J s1 /\ r_line s1 = (r_line s + List.length l1)%nat.
Proof.
  induction l1 as [|l l1 IH]; intros s s1 HJ; cbn [doLines]; [intros H; injection H as <-; split; [exact HJ|cbn; lia]|].
  pose proof (line_safe s l HJ) as L. destruct (doLine rdnum s l) as [s2| |]; cbn [obind]; try discriminate. destruct L as [J2 L2]. intros H.
  destruct (IH s2 s1 J2 H) as [? ?]. split; [auto|cbn; lia].
Qed.
Lemma blank_und s l : value_section (r_sect s) = true -> blank_data l -> (10 <= r_line s)%nat -> doLine rdnum s l = Und.
Proof.
  intros VS [B1 B2] L. unfold doLine. rewrite (lt_data l B1). unfold processLine. cbn [next_line r_sect].
  assert (P : parseValueLine rdnum (r_line (next_line s)) l = Und) by (apply pvl_und; split; [exact B2|cbn; lia]).
  destruct (r_sect s); try discriminate VS; [unfold readColumn|unfold readRHS|unfold readRanges|unfold readQuadObj]; rewrite P; reflexivity.
Qed.
End Reader.

(** ** Populating is always defined *)
Definition shape (t : rowt) (l u : option R) : Prop :=
  match t with RE => l <> None /\ u <> None | RL => u <> None | RG => l <> None | RN => True end.
Lemma put1_in {X} n (f : nat -> X) i x : (i < n)%nat -> put1 n f i x = Val (setf f i x).
Proof. intros H. unfold put1. apply Nat.ltb_lt in H. now rewrite H. Qed.
Lemma populate_safe ord s : (forall l, Permutation (ord l) l) -> J s -> exists x, populate ord s = Val x.
Proof.
  intros OR HJ. pose proof HJ as [K1 K2 K3 K4 K5 K6 K7 K8 K9 K10]. unfold populate.
  set (n := List.length (r_cols s)) in *. set (m := r_nRows s) in *.
  destruct (put2_fold n n (r_G s) (fun _ _ => 0)) as (G & -> & _). { intros [[i j] v] H. exact (K6 _ _ _ H). }
  destruct (put1_fold n (r_a s) (fun _ => 0)) as (a & Ea & _). { intros [j v] H. exact (K7 _ _ H). }
  destruct (put2_fold m n (r_C s) (fun _ _ => 0)) as (C & EC & _). { intros [[i j] v] H. exact (K5 _ _ _ H). }
  cbn [obind]. rewrite Ea. cbn [obind]. rewrite EC. cbn [obind].
  set (P := fun b : bpair => forall nm i t, In (nm, (Some i, t)) (r_rows s) -> shape t (fst b i) (snd b i)).
  assert (SH : forall (b : bpair) nm i t p, P b -> In (nm, (Some i, t)) (r_rows s) -> shape t (fst p) (snd p) -> P (setf (fst b) i (fst p), setf (snd b) i (snd p))).
  { intros b nm i t p Hb Hi Hp nm' i' t' Hi'. cbn [fst snd]. unfold setf. destruct ((i' =? i)%nat) eqn:E; [|exact (Hb _ _ _ Hi')].
    apply Nat.eqb_eq in E. subst i'. rewrite <- (K3 _ _ _ _ _ Hi Hi'). exact Hp. }
  destruct (ofold_inv P (row_init m) (ord (r_rows s)) (fun _ => Some 0, fun _ => Some 0)) as (b1 & -> & Pb1).
  { intros nm i t _. cbn. destruct t; cbn; repeat split; discriminate. }
  { intros b [nm [[i|] t]] Hx Pb; apply (Permutation_in _ (OR _)) in Hx.
    - destruct (K1 _ _ _ Hx) as [Hi NT]. unfold row_init. cbn [snd].
      destruct t; try congruence; rewrite !put1_in by exact Hi; cbn [obind]; eexists; (split; [reflexivity|]).
      + apply (SH b nm i RE (Some 0, Some 0) Pb Hx). split; discriminate.
      + apply (SH b nm i RL (None, Some 0) Pb Hx). discriminate.
      + apply (SH b nm i RG (Some 0, None) Pb Hx). discriminate.
    - rewrite (K2 _ _ Hx). exists b. split; [reflexivity|exact Pb]. }
  cbn [obind].
  destruct (ofold_inv P (rhs_fill m) (r_b s) b1 Pb1) as (b2 & -> & Pb2).
  { intros b [[i v] t] Hx Pb. destruct (K9 _ _ _ Hx) as [nm Hn]. destruct (K1 _ _ _ Hn) as [Hi NT]. unfold rhs_fill.
    destruct t; try congruence; rewrite !put1_in by exact Hi; cbn [obind]; eexists; (split; [reflexivity|]).
    - apply (SH b nm i RE (Some v, Some v) Pb Hn). split; discriminate.
    - apply (SH b nm i RL (None, Some v) Pb Hn). discriminate.
    - apply (SH b nm i RG (Some v, None) Pb Hn). discriminate. }
  cbn [obind].
  destruct (ofold_inv P (range_fill m) (r_r s) b2 Pb2) as (b3 & -> & _).
  { intros b [[i v] t] Hx Pb. destruct (K10 _ _ _ Hx) as [nm Hn]. destruct (K1 _ _ _ Hn) as [Hi NT]. pose proof (Pb _ _ _ Hn) as S0.
    assert (W : forall l u, shape t l u -> forall b', (forall k, fst b' k = if (k =? i)%nat then l else fst b k) -> (forall k, snd b' k = if (k =? i)%nat then u else snd b k) -> P b').
    { intros l u Hs b' H1 H2 nm' i' t' Hi'. rewrite H1, H2. destruct ((i' =? i)%nat) eqn:E; [|exact (Pb _ _ _ Hi')].
      apply Nat.eqb_eq in E. subst i'. rewrite <- (K3 _ _ _ _ _ Hn Hi'). exact Hs. }
    assert (ID : forall (f : nat -> option R) k, f k = if (k =? i)%nat then f i else f k) by (intros f k; destruct ((k =? i)%nat) eqn:E; [apply Nat.eqb_eq in E; now subst|reflexivity]).
    unfold range_fill. destruct t; try congruence; cbn [shape] in S0.
    - destruct S0 as [S1 S2]. destruct (fst b i) as [lo|] eqn:El; [|congruence]. destruct (snd b i) as [up|] eqn:Eu; [|congruence].
      destruct (Rleb 0 v); rewrite put1_in by exact Hi; cbn [obind]; eexists; (split; [reflexivity|]).
      + apply (W (Some lo) (Some (up + v))); [split; discriminate| |reflexivity]. intros k. cbn [fst]. pose proof (ID (fst b) k) as Q. rewrite El in Q. exact Q.
      + apply (W (Some (lo + v)) (Some up)); [split; discriminate|reflexivity|]. intros k. cbn [snd]. pose proof (ID (snd b) k) as Q. rewrite Eu in Q. exact Q.
    - destruct (snd b i) as [up|] eqn:Eu; [|congruence]. rewrite put1_in by exact Hi; cbn [obind]; eexists; (split; [reflexivity|]).
      apply (W (Some (up - Rabs v)) (Some up)); [discriminate|reflexivity|]. intros k. cbn [snd]. pose proof (ID (snd b) k) as Q. rewrite Eu in Q. exact Q.
    - destruct (fst b i) as [lo|] eqn:El; [|congruence]. rewrite put1_in by exact Hi; cbn [obind]; eexists; (split; [reflexivity|]).
      apply (W (Some lo) (Some (lo + Rabs v))); [discriminate| |reflexivity]. intros k. cbn [fst]. pose proof (ID (fst b) k) as Q. rewrite El in Q. exact Q. }
  cbn [obind]. destruct (bnd_fold n (r_x s) (fun _ => Some 0, fun _ => None)) as (x & -> & _). { intros [[j v] t] H. exact (K8 _ _ _ H). }
  cbn [obind]. eexists. reflexivity.
Qed.

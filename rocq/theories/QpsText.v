(** Lemmas on the text of a file: words, lines, and how the reader processes a line of data. *)
From Coq Require Import List Arith ZArith Lia Bool Ascii String Reals.
From Verif Require Import Base Num LinAlg TestPb Qps QpsSpec.
Import ListNotations.
Local Open Scope R_scope.

(** ** Words *)
Lemma blank_space c : blank c = is_space c.
Proof. destruct c as [[] [] [] [] [] [] [] []]; reflexivity. Qed.
Lemma small_lower s : in_small s = toLower s.
Proof. induction s as [|c s IH]; [reflexivity|]. cbn. now rewrite IH. Qed.
Lemma letter_type t c : row_letter t c -> rowType c = Some t.
Proof. destruct t; intros [-> | ->]; reflexivity. Qed.
Lemma name_type t : bndType (bound_name t) = Some t.
Proof. destruct t; reflexivity. Qed.
Lemma split_word s : split s = (fst (word s), tokens (snd (word s))).
Proof.
  induction s as [|c s IH]; [reflexivity|]. cbn [split word]. rewrite IH, blank_space. destruct (is_space c) eqn:E.
  - cbn [fst snd]. unfold tokens. cbn [split]. rewrite IH, blank_space, E. reflexivity.
  - destruct (word s) as [w r]. reflexivity.
Qed.
Lemma tokens_word s : tokens s = cons_word (fst (word s)) (tokens (snd (word s))).
Proof. unfold tokens at 1. rewrite split_word. reflexivity. Qed.
Lemma tokens_skip s : tokens (skip s) = tokens s.
Proof.
  induction s as [|c s IH]; [reflexivity|]. cbn [skip]. destruct (is_space c) eqn:E; [|reflexivity].
  rewrite IH. unfold tokens at 2. cbn [split]. rewrite blank_space, E. unfold tokens. destruct (split s); reflexivity.
Qed.
Lemma skip_head s : match skip s with EmptyString => True | String c _ => is_space c = false end.
Proof. induction s as [|c s IH]; cbn; [exact I|]. destruct (is_space c) eqn:E; [exact IH|exact E]. Qed.
(** what follows a word *)
Definition bdry (r : string) : Prop := match r with EmptyString => True | String c _ => is_space c = true end.
Lemma word_bdry s : bdry (snd (word s)).
Proof. induction s as [|c s IH]; cbn; [exact I|]. destruct (is_space c) eqn:E; [exact E|]. destruct (word s); exact IH. Qed.
Lemma word_app s : append (fst (word s)) (snd (word s)) = s.
Proof. induction s as [|c s IH]; cbn; [reflexivity|]. destruct (is_space c); [reflexivity|]. destruct (word s); cbn in *. now rewrite IH. Qed.
Lemma get_word_nil s : tokens s = [] <-> skip s = EmptyString.
Proof.
  split; intros H.
  - rewrite <- tokens_skip, tokens_word in H. pose proof (skip_head s) as K. destruct (skip s) as [|c t]; [reflexivity|].
    exfalso. cbn in H. rewrite K in H. destruct (word t); discriminate H.
  - rewrite <- tokens_skip, H. reflexivity.
Qed.
Lemma get_word_none s : tokens s = [] -> get_word s = None.
Proof. intros H. apply get_word_nil in H. unfold get_word. rewrite H. reflexivity. Qed.
Lemma get_word_some s w ws : tokens s = w :: ws ->
  exists r, get_word s = Some (w, r) /\ tokens r = ws /\ bdry r /\ skip s = append w r /\ w <> EmptyString.
Proof.
  intros H. exists (snd (word (skip s))). rewrite <- tokens_skip in H. rewrite tokens_word in H.
  unfold get_word. pose proof (skip_head s) as K. destruct (skip s) as [|c t] eqn:E; [discriminate H|].
  pose proof (word_app (String c t)) as A. pose proof (word_bdry (String c t)) as B.
  destruct (word (String c t)) as [w' r] eqn:W. cbn [fst snd] in *. cbn in W. rewrite K in W. destruct (word t) as [w'' r'']. injection W as <- <-.
  cbn [cons_word] in H. injection H as <- <-. repeat split; auto. discriminate.
Qed.
Lemma get_char_some s c ws : tokens s = String c EmptyString :: ws -> exists r, get_char s = Some (c, r) /\ tokens r = ws.
Proof.
  intros H. destruct (get_word_some s _ _ H) as (r & _ & T & _ & S & _). exists r. unfold get_char. rewrite S. cbn. split; [reflexivity|exact T].
Qed.
Lemma get_word_inv s : match get_word s with None => tokens s = [] | Some (w, r) => tokens s = w :: tokens r /\ w <> EmptyString end.
Proof.
  destruct (tokens s) as [|w ws] eqn:E.
  - rewrite get_word_none by exact E. reflexivity.
  - destruct (get_word_some s w ws E) as (r & -> & -> & _ & _ & N). split; auto.
Qed.

(** ** Lines *)
Lemma getlines_app l rest : has_char newline l = false -> getlines (append l (String newline rest)) = l :: getlines rest.
Proof.
  induction l as [|c l IH]; intros H.
  - cbn [append getlines]. rewrite Ascii.eqb_refl. reflexivity.
  - cbn [has_char] in H. apply orb_false_iff in H as [H1 H2]. cbn [append getlines]. rewrite H1, (IH H2).
    destruct (append l (String newline rest)) eqn:E; [destruct l; discriminate E|reflexivity].
Qed.
Lemma getlines_unlines ls : (forall l, In l ls -> has_char newline l = false) -> getlines (unlines ls) = ls.
Proof.
  induction ls as [|l ls IH]; intros H; [reflexivity|]. cbn [unlines]. rewrite getlines_app by (apply H; left; reflexivity).
  f_equal. apply IH. intros x Hx. apply H. now right.
Qed.

(** ** The type of a line *)
Lemma lt_star l : starts_with "*" l -> lineType l = LOTHER.
Proof. 
  intros [l' ->]. assert (E : get_word (String "*" l') = Some (String "*" (fst (word l')), snd (word l'))) .
  { unfold get_word. cbn [skip]. change (is_space "*") with false. cbn [word]. change (is_space "*") with false. destruct (word l'); reflexivity. }
  unfold lineType. rewrite E. reflexivity.
Qed.
Lemma lt_data l : starts_with " " l -> lineType l = NORMAL.
Proof. intros [l' ->]. reflexivity. Qed.
Lemma lt_head l t w ws : ~ starts_with " " l -> tokens l = w :: ws -> keyword t = Some (in_small w) -> lineType l = t.
Proof.
  intros N T K. rewrite small_lower in K. unfold lineType. destruct l as [|c l]; [discriminate T|].
  destruct (Ascii.eqb c " ") eqn:E; [apply Ascii.eqb_eq in E; subst; exfalso; apply N; now exists l|].
  destruct (get_word_some _ _ _ T) as (r & -> & _). destruct t; cbn in K; try discriminate K; injection K as K; rewrite <- K; reflexivity.
Qed.

Section Reader.
Variable rdnum : string -> option (R * string).
Variable num : string -> option R.
Hypothesis rdnum_ok : forall tok v rest, num tok = Some v -> bdry rest -> rdnum (append tok rest) = Some (v, rest).

Lemma get_num_some s n ws v : tokens s = n :: ws -> num n = Some v -> exists r, get_num rdnum s = Some (v, r) /\ tokens r = ws /\ bdry r.
Proof.
  intros T N. destruct (get_word_some s n ws T) as (r & _ & Tr & B & K & NE). exists r. unfold get_num. rewrite K.
  rewrite <- (rdnum_ok n v r N B). destruct n; [congruence|]. auto.
Qed.
Lemma pvl_one k l c r n v : tokens l = [c; r; n] -> num n = Some v -> parseValueLine rdnum k l = Val (PV c (r, v) None) /\ c <> EmptyString.
Proof.
  intros T N. destruct (get_word_some _ _ _ T) as (r1 & E1 & T1 & B1 & _ & NE). unfold parseValueLine. rewrite E1.
  unfold readNamedValue1. destruct (get_word_some _ _ _ T1) as (r2 & E2 & T2 & _). rewrite E2.
  destruct (get_num_some _ _ _ _ T2 N) as (r3 & E3 & T3 & _). rewrite E3. cbn [obind].
  unfold readNamedValue2. rewrite get_word_none by exact T3. cbn. auto.
Qed.
Lemma pvl_two k l c r n v r' n' v' : tokens l = [c; r; n; r'; n'] -> num n = Some v -> num n' = Some v' ->
  parseValueLine rdnum k l = Val (PV c (r, v) (Some (r', v'))) /\ c <> EmptyString.
Proof.
  intros T N N'. destruct (get_word_some _ _ _ T) as (r1 & E1 & T1 & B1 & _ & NE). unfold parseValueLine. rewrite E1.
  unfold readNamedValue1. destruct (get_word_some _ _ _ T1) as (r2 & E2 & T2 & _). rewrite E2.
  destruct (get_num_some _ _ _ _ T2 N) as (r3 & E3 & T3 & _). rewrite E3. cbn [obind].
  unfold readNamedValue2. destruct (get_word_some _ _ _ T3) as (r4 & E4 & T4 & _). rewrite E4.
  destruct (get_num_some _ _ _ _ T4 N') as (r5 & E5 & T5 & _). destruct r4 as [|a r4]; [discriminate T4|]. rewrite E5. cbn. auto.
Qed.

(** ** Items fed to the reader *)
Definition with_col (s : rd) (c : string) : nat * rd :=
  match assoc c (r_cols s) with
  | Some j => (j, s)
  | None => (List.length (r_cols s),
             RD (r_full s) (r_name s) (r_line s) (r_sect s) (r_rows s) (r_cols s ++ [(c, List.length (r_cols s))]) (r_rhsName s) (r_rangeName s)
                (r_C s) (r_G s) (r_a s) (r_b s) (r_r s) (r_x s) (r_cst s) (r_nRows s) (r_obj s))
  end.
Definition row_add (s : rd) (t : rowt) (name : string) : outc rd :=
  match assoc name (r_rows s) with
  | Some _ => Exc
  | None =>
      match t with
      | RN => if r_obj s then Exc
              else Val (RD (r_full s) (r_name s) (r_line s) (r_sect s) (r_rows s ++ [(name, (None, RN))]) (r_cols s) (r_rhsName s) (r_rangeName s)
                           (r_C s) (r_G s) (r_a s) (r_b s) (r_r s) (r_x s) (r_cst s) (r_nRows s) true)
      | _ => Val (RD (r_full s) (r_name s) (r_line s) (r_sect s) (r_rows s ++ [(name, (Some (r_nRows s), t))]) (r_cols s) (r_rhsName s) (r_rangeName s)
                     (r_C s) (r_G s) (r_a s) (r_b s) (r_r s) (r_x s) (r_cst s) (S (r_nRows s)) (r_obj s))
      end
  end.
Definition feed (s : rd) (i : item) : outc rd :=
  match i with
  | IRow t r => row_add s t r
  | ICol c r v => let '(j, s) := with_col s c in addValueToColumn s j (r, v)
  | IRhs n r v => try s <- (if String.eqb (r_rhsName s) "" then Val (set_rhsName s n)
                            else if String.eqb (r_rhsName s) n then Val s else Exc); addValueToRHS s (r, v)
  | IRng n r v => try s <- (if String.eqb (r_rangeName s) "" then Val (set_rangeName s n)
                            else if String.eqb (r_rangeName s) n then Val s else Exc); addValueToRanges s (r, v)
  | IBnd t c v => addBound s c v t
  | IQuad c r v => match assoc c (r_cols s) with None => Exc | Some j => addQuad s j (r, v) end
  end.

Lemma assoc_snoc {X} n l (x : X) : assoc n (l ++ [(n, x)]) <> None.
Proof. induction l as [|[t y] l IH]; cbn; [rewrite String.eqb_refl; discriminate|]. destruct (String.eqb n t); [discriminate|exact IH]. Qed.
Lemma assoc_snoc_new {X} n l (x : X) : assoc n l = None -> assoc n (l ++ [(n, x)]) = Some x.
Proof. induction l as [|[t y] l IH]; cbn; [rewrite String.eqb_refl; auto|]. destruct (String.eqb n t); [discriminate|exact IH]. Qed.
Lemma with_col_again s c j s1 : with_col s c = (j, s1) -> assoc c (r_cols s1) = Some j.
Proof.
  unfold with_col. destruct (assoc c (r_cols s)) eqn:E; intros H; injection H as <- <-; [exact E|]. cbn. now apply assoc_snoc_new.
Qed.
Lemma addC_cols s j x s' : addValueToColumn s j x = Val s' -> r_cols s' = r_cols s.
Proof. unfold addValueToColumn. destruct (assoc (fst x) (r_rows s)) as [[[i|] []]|]; intros H; try discriminate H; injection H as <-; reflexivity. Qed.
Lemma addR_name s x s' : addValueToRHS s x = Val s' -> r_rhsName s' = r_rhsName s.
Proof. unfold addValueToRHS. destruct (assoc (fst x) (r_rows s)) as [[[i|] []]|]; intros H; try discriminate H; injection H as <-; reflexivity. Qed.
Lemma addG_name s x s' : addValueToRanges s x = Val s' -> r_rangeName s' = r_rangeName s.
Proof. unfold addValueToRanges. destruct (assoc (fst x) (r_rows s)) as [[[i|] []]|]; intros H; try discriminate H; injection H as <-; reflexivity. Qed.
Lemma addQ_cols s j x s' : addQuad s j x = Val s' -> r_cols s' = r_cols s.
Proof. unfold addQuad. destruct (assoc (fst x) (r_cols s)); intros H; try discriminate H; injection H as <-; reflexivity. Qed.
Lemma eqb_ne a : a <> EmptyString -> String.eqb a "" = false.
Proof. intros H. apply String.eqb_neq. exact H. Qed.

Lemma process_feed s l its : data_line num (r_sect s) l its -> processLine rdnum s l = ofold feed s its.
Proof.
  intros D. unfold processLine. inversion D as [l' c t r T Ht Es El Ei|l' c r n v T N Es El Ei|l' c r n v r' n' v' T N N' Es El Ei
   |l' c r n v T N Es El Ei|l' c r n v r' n' v' T N N' Es El Ei|l' c r n v T N Es El Ei|l' c r n v r' n' v' T N N' Es El Ei
   |l' t set c n v T NF N Es El Ei|l' set c T Es El Ei|l' c r n v T N Es El Ei|l' c r n v r' n' v' T N N' Es El Ei];
   subst l' its; rewrite <- ?Es; clear Es; cbn [ofold].
  - unfold readRow, parseRow. destruct (get_char_some _ _ _ T) as (r1 & E1 & T1). rewrite E1, (letter_type _ _ Ht).
    destruct (get_word_some _ _ _ T1) as (r2 & E2 & _). rewrite E2. cbn [obind feed]. unfold row_add.
    destruct (assoc r (r_rows s)); [reflexivity|]. destruct t; try reflexivity. destruct (r_obj s); reflexivity.
  - unfold readColumn. destruct (pvl_one (r_line s) _ _ _ _ _ T N) as [-> NE]. cbn [obind v_name v_1 v_2 feed opt_do]. unfold with_col.
    destruct (assoc c (r_cols s)); reflexivity.
  - unfold readColumn. destruct (pvl_two (r_line s) _ _ _ _ _ _ _ _ T N N') as [-> NE]. cbn [obind v_name v_1 v_2 feed opt_do].
    fold (with_col s c). destruct (with_col s c) as [j s1] eqn:W. destruct (addValueToColumn s1 j (r, v)) as [s2| |] eqn:A; try reflexivity.
    cbn [obind]. pose proof (with_col_again _ _ _ _ W) as K. rewrite <- (addC_cols _ _ _ _ A) in K.
    unfold with_col. rewrite K. destruct (addValueToColumn s2 j (r', v')); reflexivity.
  - unfold readRHS. destruct (pvl_one (r_line s) _ _ _ _ _ T N) as [-> NE]. cbn [obind v_name v_1 v_2 feed opt_do].
    destruct (String.eqb (r_rhsName s) ""); [|destruct (String.eqb (r_rhsName s) c)]; cbn [obind]; reflexivity.
  - unfold readRHS. destruct (pvl_two (r_line s) _ _ _ _ _ _ _ _ T N N') as [-> NE]. cbn [obind v_name v_1 v_2 feed opt_do].
    set (o := if String.eqb (r_rhsName s) "" then _ else _).
    assert (K : forall s1, o = Val s1 -> r_rhsName s1 = c).
    { intros s1. unfold o. destruct (String.eqb (r_rhsName s) "") eqn:E1; [intros H; injection H as <-; reflexivity|].
      destruct (String.eqb (r_rhsName s) c) eqn:E2; [|discriminate]. intros H; injection H as <-. now apply String.eqb_eq. }
    destruct o as [s1| |]; try reflexivity. cbn [obind]. specialize (K s1 eq_refl).
    destruct (addValueToRHS s1 (r, v)) as [s2| |] eqn:A; try reflexivity. cbn [obind]. rewrite (addR_name _ _ _ A), K, (eqb_ne c NE), String.eqb_refl.
    cbn [obind]. destruct (addValueToRHS s2 (r', v')); reflexivity.
  - unfold readRanges. destruct (pvl_one (r_line s) _ _ _ _ _ T N) as [-> NE]. cbn [obind v_name v_1 v_2 feed opt_do].
    destruct (String.eqb (r_rangeName s) ""); [|destruct (String.eqb (r_rangeName s) c)]; cbn [obind]; reflexivity.
  - unfold readRanges. destruct (pvl_two (r_line s) _ _ _ _ _ _ _ _ T N N') as [-> NE]. cbn [obind v_name v_1 v_2 feed opt_do].
    set (o := if String.eqb (r_rangeName s) "" then _ else _).
    assert (K : forall s1, o = Val s1 -> r_rangeName s1 = c).
    { intros s1. unfold o. destruct (String.eqb (r_rangeName s) "") eqn:E1; [intros H; injection H as <-; reflexivity|].
      destruct (String.eqb (r_rangeName s) c) eqn:E2; [|discriminate]. intros H; injection H as <-. now apply String.eqb_eq. }
    destruct o as [s1| |]; try reflexivity. cbn [obind]. specialize (K s1 eq_refl).
    destruct (addValueToRanges s1 (r, v)) as [s2| |] eqn:A; try reflexivity. cbn [obind]. rewrite (addG_name _ _ _ A), K, (eqb_ne c NE), String.eqb_refl.
    cbn [obind]. destruct (addValueToRanges s2 (r', v')); reflexivity.
  - unfold readBounds. destruct (get_word_some _ _ _ T) as (r1 & E1 & T1 & _). rewrite E1, name_type. destruct (get_word_some _ _ _ T1) as (r2 & E2 & T2 & _).
    rewrite E2. unfold readNamedValue1. destruct (get_word_some _ _ _ T2) as (r3 & E3 & T3 & _). rewrite E3.
    destruct (get_num_some _ _ _ _ T3 N) as (r4 & E4 & _). rewrite E4. cbn [obind feed].
    destruct t; try congruence; destruct addBound; reflexivity.
  - unfold readBounds. destruct (get_word_some _ _ _ T) as (r1 & E1 & T1 & _). rewrite E1, name_type. destruct (get_word_some _ _ _ T1) as (r2 & E2 & T2 & _).
    rewrite E2. destruct (get_word_some _ _ _ T2) as (r3 & E3 & T3 & _). rewrite E3. cbn [feed]. destruct addBound; reflexivity.
  - unfold readQuadObj. destruct (pvl_one (r_line s) _ _ _ _ _ T N) as [-> NE]. cbn [obind v_name v_1 v_2 feed opt_do].
    destruct (assoc c (r_cols s)); [|reflexivity]. destruct addQuad; reflexivity.
  - unfold readQuadObj. destruct (pvl_two (r_line s) _ _ _ _ _ _ _ _ T N N') as [-> NE]. cbn [obind v_name v_1 v_2 feed opt_do].
    destruct (assoc c (r_cols s)) as [j|] eqn:K; [|reflexivity]. destruct (addQuad s j (r, v)) as [s1| |] eqn:A; try reflexivity. cbn [obind].
    rewrite (addQ_cols _ _ _ _ A), K. destruct (addQuad s1 j (r', v')); reflexivity.
Qed.
(** the names of sets are words *)
Lemma data_names sc l its : data_line num sc l its -> forall i, In i its -> match i with IRhs n _ _ | IRng n _ _ => n <> EmptyString | _ => True end.
Proof.
  intros D i Hi. inversion D; subst; cbn in Hi; repeat destruct Hi as [<-|Hi]; try tauto;
  match goal with H : tokens l = _ |- _ => destruct (get_word_some _ _ _ H) as (? & _ & _ & _ & _ & NE) end; exact NE.
Qed.
Lemma renders_names sc ls its e : renders num sc ls its e -> forall i, In i its -> match i with IRhs n _ _ | IRng n _ _ => n <> EmptyString | _ => True end.
Proof.
  induction 1 as [| | |s l i1 ls i2 e S D R IH]; auto; [intros i []|]. intros i Hi. apply in_app_or in Hi as [Hi|Hi]; [|now apply IH].
  exact (data_names _ _ _ D i Hi).
Qed.
End Reader.
